(** C15-C17: global selections and factories. *)
From Coq Require Import String Ascii.
From Verif Require Import Base M_Registry S_Registry L_Registry.
Open Scope string_scope.
Open Scope list_scope.

(** * C15 *)
Theorem C15_valid_selection : forall a v s, selects a v ->
  set_design_code a s = (Ok tt, {| g_code := v; g_annex := g_annex s; g_inst := g_inst s |}).
Proof. exact set_code_valid. Qed.
Print Assumptions C15_valid_selection.
Theorem C15_invalid_selection_raises_and_changes_nothing : forall a s, (forall v, ~ selects a v) ->
  set_design_code a s = (Err ValueError, s).
Proof. exact set_code_invalid. Qed.
Print Assumptions C15_invalid_selection_raises_and_changes_nothing.
Theorem C15_abbreviations : get_design_codes = ["mc2010"; "mc2020"; "ec2_2004"; "ec2_2023"] /\
  forall n, In n get_design_codes -> forall n' s, same_name n' n -> fst (set_design_code (AStr n') s) = Ok tt.
Proof.
  split; [reflexivity|]. intros n Hn n' s Hs.
  assert (X : exists m, selects (AStr n') (Some m)).
  { cbn in Hn. destruct Hn as [<-|[<-|[<-|[<-|[]]]]]; cbn [selects];
      [exists mc2010|exists mc2020|exists ec2_2004|exists ec2_2023]; auto 6. }
  destruct X as [m X]. rewrite (set_code_valid _ _ _ X). reflexivity.
Qed.
Print Assumptions C15_abbreviations.
(** What each abbreviation selects: title, year of the edition and kinds of material. *)
Theorem C15_editions : forall n s n' t y, same_name n' n -> In (n, t, y)
    [("mc2010", "fib Model Code 2010", "2013"); ("mc2020", "fib Model Code 2020", "2024");
     ("ec2_2004", "EUROCODE 2 1992-1-1:2004", "2004"); ("ec2_2023", "EUROCODE 2 1992-1-1:2023", "2023")] ->
  exists m, g_code (snd (set_design_code (AStr n') s)) = Some m /\
    md_title m = Some t /\ md_year m = Some y /\ md_materials m = Some ["concrete"; "reinforcement"].
Proof.
  intros n s n' t y Hs Hn.
  assert (X : exists m, selects (AStr n') (Some m) /\ md_title m = Some t /\ md_year m = Some y /\ md_materials m = Some ["concrete"; "reinforcement"]).
  { cbn in Hn. destruct Hn as [[= <- <- <-]|[[= <- <- <-]|[[= <- <- <-]|[[= <- <- <-]|[]]]]]; cbn [selects];
      [exists mc2010|exists mc2020|exists ec2_2004|exists ec2_2023]; (split; [auto 6|repeat split; reflexivity]). }
  destruct X as (m & X & Y). exists m. split; [rewrite (set_code_valid _ _ _ X); reflexivity|exact Y].
Qed.
Print Assumptions C15_editions.
(** After any history of calls in which no factory call names a code, the active
    code is the last one validly selected by set_design_code. *)
Theorem C15_active_code : forall h s, (forall c, In c h -> ~ names_code c) ->
  last_selected selection (g_code s) h (g_code (run h s)).
Proof. intros h s H. exact (run_last_user h s H). Qed.
Print Assumptions C15_active_code.
(** After any history at all, counting factory calls that name a code as
    selections. *)
Theorem C15_active_code_any_history : forall h s, last_selected any_selection (g_code s) h (g_code (run h s)).
Proof. intros h s. exact (run_last h s). Qed.
Print Assumptions C15_active_code_any_history.
Theorem C15_annex : forall h n h' s,
  (forall c, In c h' -> forall m, c <> CallSetAnnex m) ->
  g_annex (run (h ++ CallSetAnnex n :: h') s) = Some (lower n).
Proof.
  intros h n h' s H. rewrite run_app. cbn [run fold_left]. revert H.
  assert (X : g_annex (step (CallSetAnnex n) (run h s)) = Some (lower n)) by reflexivity.
  change (fold_left (fun s c => step c s) h s) with (run h s).
  revert X. generalize (step (CallSetAnnex n) (run h s)). induction h' as [|c h' IH]; intros s' X H; [exact X|].
  cbn [fold_left]. apply IH; [|intros c' Hc'; apply H; right; exact Hc'].
  rewrite annex_step. specialize (H c (or_introl eq_refl)). destruct c; try exact X. destruct (H n0). reflexivity.
Qed.
Print Assumptions C15_annex.
(** Creating a material for another code does change the active code. *)
Theorem C15_factory_leaves_active_code_refuted : exists s b,
  g_code s = Some mc2010 /\ g_code (step (CallConcrete (AStr "ec2_2004") b) s) = Some ec2_2004.
Proof. exists {| g_code := Some mc2010; g_annex := None; g_inst := [] |}, (fun _ => Ok tt). split; reflexivity. Qed.
Print Assumptions C15_factory_leaves_active_code_refuted.
(** ... even if the construction fails. *)
Theorem C15_failed_factory_leaves_active_code_refuted : exists s (b : mclass -> result unit),
  g_code s = Some mc2010 /\ fst (create "concrete" b (AStr "ec2_2004") s) = Err ValueError /\
  g_code (snd (create "concrete" b (AStr "ec2_2004") s)) = Some ec2_2004.
Proof.
  exists {| g_code := Some mc2010; g_annex := None; g_inst := [] |}, (fun _ => Err ValueError : result unit).
  repeat split; reflexivity.
Qed.
Print Assumptions C15_failed_factory_leaves_active_code_refuted.
(** Without a design_code argument the factories change nothing. *)
Theorem C15_factory_without_code : forall (A : Type) kind (b : mclass -> result A) s, snd (create kind b ANone s) = s.
Proof. exact @create_none_state. Qed.
Print Assumptions C15_factory_without_code.
Example C15_example :
  g_code (run [CallSetCode (AStr "EC2_2004"); CallConcrete ANone (fun _ => Ok tt); CallSetCode (AStr "ec3");
               CallSetAnnex "NO"; CallIntegrator "Fiber"] g_initial) = Some ec2_2004.
Proof. reflexivity. Qed.

(** * C16 *)
(** The class is determined by the requested code if there is one, by the active
    code otherwise. *)
Theorem C16_class_of_code : forall (A : Type) kind (b : mclass -> result A) a v s,
  kind = "concrete" \/ kind = "reinforcement" ->
  (a = ANone /\ v = g_code s) \/ (a <> ANone /\ selects a v) ->
  (v = Some mc2010 -> fst (create kind b a s) = rmap Some (b ClsMC2010)) /\
  (v = Some ec2_2004 -> fst (create kind b a s) = rmap Some (b ClsEC2_2004)) /\
  (v = Some ec2_2023 -> fst (create kind b a s) = rmap Some (b ClsEC2_2023)).
Proof.
  intros A kind b a v s Hk H.
  assert (U : exists s', use_design_code a s = (Ok v, s')).
  { destruct H as [[-> ->]|[N H]]; [eexists; reflexivity|]. rewrite (use_valid _ _ _ N H). eauto. }
  destruct U as [s' U]. unfold create. rewrite U.
  assert (K : existsb (String.eqb kind) ["concrete"; "reinforcement"] = true) by (destruct Hk as [->| ->]; reflexivity).
  repeat split; intros ->; cbn [md_materials mc2010 ec2_2004 ec2_2023 fst]; rewrite K; cbn;
    match goal with |- context [b ?c] => destruct (b c); reflexivity end.
Qed.
Print Assumptions C16_class_of_code.
Theorem C16_no_code_raises : forall (A : Type) kind (b : mclass -> result A) s,
  g_code s = None -> create kind b ANone s = (Err ValueError, s).
Proof. intros A kind b s H. unfold create, use_design_code. rewrite H. reflexivity. Qed.
Print Assumptions C16_no_code_raises.
Theorem C16_invalid_code_raises : forall (A : Type) kind (b : mclass -> result A) a s,
  a <> ANone -> (forall v, ~ selects a v) -> create kind b a s = (Err ValueError, s).
Proof. intros A kind b a s N H. unfold create. rewrite (use_invalid _ _ N H). reflexivity. Qed.
Print Assumptions C16_invalid_code_raises.
(** A code module that does not cover the material is refused. *)
Theorem C16_uncovered_material_raises : forall (A : Type) kind (b : mclass -> result A) m ms s,
  selects (AMod m) (Some m) -> md_materials m = Some ms -> ~ In kind ms ->
  fst (create kind b (AMod m) s) = Err ValueError.
Proof.
  intros A kind b m ms s H M N. unfold create. rewrite (use_valid (AMod m) (Some m) s ltac:(discriminate) H). rewrite M.
  destruct (existsb (String.eqb kind) ms) eqn:E; [|reflexivity].
  apply existsb_exists in E as (x & Hx & E). apply String.eqb_eq in E. subst x. contradiction.
Qed.
Print Assumptions C16_uncovered_material_raises.
(** The only way to get None is a valid code without registered class ... *)
Theorem C16_none_only_for_unregistered : forall (A : Type) kind (b : mclass -> result A) a s,
  fst (create kind b a s) = Ok None ->
  exists m, fst (use_design_code a s) = Ok (Some m) /\
   md_title m <> Some "fib Model Code 2010" /\ md_title m <> Some "EUROCODE 2 1992-1-1:2004" /\
   md_title m <> Some "EUROCODE 2 1992-1-1:2023".
Proof.
  intros A kind b a s. unfold create. destruct (use_design_code a s) as [[[m|]|x] s']; try discriminate.
  cbn [fst]. intros H. exists m. split; [reflexivity|]. destruct (md_materials m) as [ms|]; [|discriminate].
  destruct (existsb _ ms); [|discriminate]. destruct (md_title m) as [t|]; [|discriminate].
  repeat split; intros [= ->]; cbn in H; match type of H with context [b ?c] => destruct (b c); discriminate end.
Qed.
Print Assumptions C16_none_only_for_unregistered.
(** ... and exactly then, for a code module that covers the material. *)
Theorem C16_none_exactly_for_unregistered : forall (A : Type) kind (b : mclass -> result A) a s,
  fst (create kind b a s) = Ok None <->
  exists m ms t, fst (use_design_code a s) = Ok (Some m) /\ md_materials m = Some ms /\ In kind ms /\ md_title m = Some t /\
   t <> "fib Model Code 2010" /\ t <> "EUROCODE 2 1992-1-1:2004" /\ t <> "EUROCODE 2 1992-1-1:2023".
Proof.
  intros A kind b a s. unfold create. destruct (use_design_code a s) as [[[m|]|x] s']; cbn [fst].
  2:{ split; [discriminate|]. intros (m & ms & t & E & _). discriminate E. }
  2:{ split; [discriminate|]. intros (m & ms & t & E & _). discriminate E. }
  split.
  - intros H. destruct (md_materials m) as [ms|] eqn:M; [|discriminate].
    destruct (existsb (String.eqb kind) ms) eqn:X; [|discriminate]. destruct (md_title m) as [t|] eqn:T; [|discriminate].
    exists m, ms, t. split; [reflexivity|]. split; [exact M|]. split.
    { apply existsb_exists in X. destruct X as (k & I & E). apply String.eqb_eq in E. subst k. exact I. }
    split; [exact T|]. repeat split; intros ->; cbn in H; match type of H with context [b ?c] => destruct (b c); discriminate end.
  - intros (m' & ms & t & [= <-] & M & I & T & N1 & N2 & N3). rewrite M, T.
    replace (existsb (String.eqb kind) ms) with true.
    2:{ symmetry. apply existsb_exists. exists kind. split; [exact I|apply String.eqb_refl]. }
    unfold classes. cbn [dict_get].
    destruct (String.eqb_spec t "fib Model Code 2010"); [congruence|].
    destruct (String.eqb_spec t "EUROCODE 2 1992-1-1:2004"); [congruence|].
    destruct (String.eqb_spec t "EUROCODE 2 1992-1-1:2023"); [congruence|]. reflexivity.
Qed.
Print Assumptions C16_none_exactly_for_unregistered.
(** ... which happens for the listed code mc2020. *)
Theorem C16_never_none_refuted : exists n, In n get_design_codes /\
  forall (A : Type) (b : mclass -> result A) s,
   fst (create "concrete" b (AStr n) s) = Ok None /\ fst (create "reinforcement" b (AStr n) s) = Ok None.
Proof. exists "mc2020". split; [cbn; auto|]. intros; split; reflexivity. Qed.
Print Assumptions C16_never_none_refuted.

(** * C17 *)
(** Registered names, written without capitals, give the registered class fed
    with what the material's special method returns. *)
Theorem C17_law_lowercase : forall (K A : Type) (methods : string -> option (result K)) (build : lclass -> K -> result A) n c k,
  In (n, c) constitutive_laws -> methods ("__" ++ n ++ "__")%string = Some k ->
  create_law methods build n = (do kw <- k; build c kw).
Proof.
  intros K A methods build n c k H M. unfold create_law.
  cbn in H. repeat (destruct H as [H|H]; [injection H as <- <-; cbn [lower dict_get]; cbn -[append]; rewrite M; reflexivity|]). contradiction.
Qed.
Print Assumptions C17_law_lowercase.
Theorem C17_unknown_law_rejected : forall (K A : Type) (methods : string -> option (result K)) (build : lclass -> K -> result A) n,
  (forall n' c, In (n', c) constitutive_laws -> ~ same_name n n') -> create_law methods build n = Err ValueError.
Proof.
  intros K A methods build n H. unfold create_law.
  destruct (dict_get constitutive_laws (lower n)) as [c|] eqn:E; [|reflexivity]. exfalso.
  assert (X : forall l, dict_get l (lower n) = Some c -> In (lower n, c) l).
  { induction l as [|[k v] l IH]; cbn [dict_get]; [discriminate|].
    destruct (String.eqb_spec (lower n) k) as [->|]; [intros [= ->]; left; reflexivity|intros Y; right; apply IH; exact Y]. }
  apply X in E. apply (H _ _ E). apply lower_same. symmetry. apply lower_idem.
Qed.
Print Assumptions C17_unknown_law_rejected.
Theorem C17_unavailable_law_rejected : forall (K A : Type) (methods : string -> option (result K)) (build : lclass -> K -> result A) n,
  methods ("__" ++ n ++ "__")%string = None -> create_law methods build n = Err ValueError.
Proof. intros K A methods build n H. unfold create_law. destruct (dict_get _ _); [rewrite H|]; reflexivity. Qed.
Print Assumptions C17_unavailable_law_rejected.
(** Case-insensitivity fails: the lookup ignores case, the method name does not. *)
Theorem C17_law_case_insensitive_refuted : exists n n' (methods : string -> option (result unit)),
  same_name n n' /\ create_law methods (fun c _ => Ok c) n' = Ok CElastic /\
  create_law methods (fun c _ => Ok c) n = Err ValueError.
Proof.
  exists "Elastic", "elastic", (fun m => if String.eqb m "__elastic__" then Some (Ok tt) else None).
  split; [apply lower_same; reflexivity|]. split; reflexivity.
Qed.
Print Assumptions C17_law_case_insensitive_refuted.
(** Two library laws cannot be reached by name. *)
Theorem C17_all_laws_by_name_refuted : forall n, In n ["userdefined"; "parallel"] ->
  forall (K A : Type) (methods : string -> option (result K)) (build : lclass -> K -> result A),
  create_law methods build n = Err ValueError.
Proof. intros n [<-|[<-|[]]]; reflexivity. Qed.
Print Assumptions C17_all_laws_by_name_refuted.
Theorem C17_integrator : forall h n, 
  fst (integrator_factory n (run h g_initial)) = Ok Fiber /\ same_name n "fiber" \/
  fst (integrator_factory n (run h g_initial)) = Ok Marin /\ ~ same_name n "fiber".
Proof.
  intros h n. assert (I0 : inst_ok (g_inst g_initial)) by (intros k c [=]).
  destruct (factory_ok n _ (inst_run h _ I0)) as [E _]. rewrite E. rewrite <- lower_same.
  change (lower "fiber") with "fiber". destruct (String.eqb_spec (lower n) "fiber"); auto.
Qed.
Print Assumptions C17_integrator.
Example C17_example : create_law (fun m => if String.eqb m "__sargin__" then Some (Ok 3%nat) else None) (fun c k => Ok (c, k)) "sargin" = Ok (CSargin, 3%nat).
Proof. reflexivity. Qed.
