From Coq Require Import String Ascii.
From Verif Require Import Base M_Registry S_Registry.
Open Scope string_scope.
Open Scope list_scope.

Lemma ascii_all (P : ascii -> bool) : 
  (forallb (fun n => P (ascii_of_nat n)) (seq 0 256)) = true -> forall a, P a = true.
Proof.
  intros H a. rewrite forallb_forall in H. rewrite <- (ascii_nat_embedding a). apply H.
  apply in_seq. pose proof (nat_ascii_bounded a). lia.
Qed.
Lemma lower_char_letter k : (k < 26)%nat -> lower_char (ascii_of_nat (65 + k)) = ascii_of_nat (97 + k).
Proof. intros H. do 26 (destruct k as [|k]; [reflexivity|]). lia. Qed.
Lemma lower_char_small k : (k < 26)%nat -> lower_char (ascii_of_nat (97 + k)) = ascii_of_nat (97 + k).
Proof. intros H. do 26 (destruct k as [|k]; [reflexivity|]). lia. Qed.
Lemma lower_char_cases a : lower_char a = a \/ exists k, (k < 26)%nat /\ a = ascii_of_nat (65 + k) /\ lower_char a = ascii_of_nat (97 + k).
Proof.
  unfold lower_char. destruct (Nat.leb_spec 65 (nat_of_ascii a)); cbn [andb]; [|auto].
  destruct (Nat.leb_spec (nat_of_ascii a) 90); [|auto]. right. exists (nat_of_ascii a - 65)%nat.
  split; [lia|]. replace (65 + (nat_of_ascii a - 65))%nat with (nat_of_ascii a) by lia.
  rewrite ascii_nat_embedding. split; [reflexivity|]. f_equal. lia.
Qed.
Lemma letter_cap_small k j : (k < 26)%nat -> (j < 26)%nat -> ascii_of_nat (65 + k) <> ascii_of_nat (97 + j).
Proof.
  intros Hk Hj E. assert (X : (65 + k = 97 + j)%nat); [|lia].
  rewrite <- (nat_ascii_embedding (65 + k)), <- (nat_ascii_embedding (97 + j)) by lia. rewrite E. reflexivity.
Qed.
Lemma lower_char_same a b : lower_char a = lower_char b <-> same_letter a b.
Proof.
  split.
  - intros H. destruct (lower_char_cases a) as [A|(k & Hk & A1 & A2)], (lower_char_cases b) as [B|(j & Hj & B1 & B2)].
    + left. congruence.
    + right. exists j. split; [exact Hj|]. right. split; [exact B1|congruence].
    + right. exists k. split; [exact Hk|]. left. split; [exact A1|congruence].
    + left. assert (X : (97 + k = 97 + j)%nat).
      { rewrite <- (nat_ascii_embedding (97 + k)), <- (nat_ascii_embedding (97 + j)) by lia. congruence. }
      rewrite A1, B1. f_equal. lia.
  - intros [->|(k & Hk & [[-> ->]|[-> ->]])]; [reflexivity|..]; rewrite lower_char_letter, lower_char_small by exact Hk; reflexivity.
Qed.
Lemma lower_same s : forall t, lower s = lower t <-> same_name s t.
Proof.
  induction s as [|a s IH]; intros [|b t]; cbn [lower same_name]; try (split; [discriminate|contradiction]).
  - tauto.
  - rewrite <- IH, <- lower_char_same. split; [intros [= -> ->]; auto|intros [-> ->]; reflexivity].
Qed.
Lemma lower_id s : no_capitals s -> lower s = s.
Proof.
  induction s as [|a s IH]; cbn [lower no_capitals]; [reflexivity|]. intros [A B]. rewrite (IH B). f_equal.
  destruct (lower_char_cases a) as [E|(k & Hk & E & _)]; [exact E|]. destruct (A k Hk E).
Qed.
Lemma lower_idem s : lower (lower s) = lower s.
Proof.
  induction s as [|a s IH]; cbn [lower]; [reflexivity|]. rewrite IH. f_equal.
  destruct (lower_char_cases a) as [E|(k & Hk & _ & E)]; rewrite E; [exact E|apply lower_char_small; exact Hk].
Qed.

Lemma lookup_code n m : dict_get design_codes (lower n) = Some m <-> selects (AStr n) (Some m).
Proof.
  cbn [selects]. rewrite <- !lower_same. cbn [dict_get design_codes].
  change (lower "mc2010") with "mc2010". change (lower "mc2020") with "mc2020".
  change (lower "ec2_2004") with "ec2_2004". change (lower "ec2_2023") with "ec2_2023".
  destruct (String.eqb_spec (lower n) "mc2010") as [E|E].
  { rewrite E. split; [intros [= <-]; auto|]. intros [[_ [= <-]]|[[H _]|[[H _]|[H _]]]]; [reflexivity|discriminate H..]. }
  destruct (String.eqb_spec (lower n) "mc2020") as [E2|E2].
  { rewrite E2. split; [intros [= <-]; auto|]. intros [[H _]|[[_ [= <-]]|[[H _]|[H _]]]]; try discriminate H; reflexivity. }
  destruct (String.eqb_spec (lower n) "ec2_2004") as [E3|E3].
  { rewrite E3. split; [intros [= <-]; auto|]. intros [[H _]|[[H _]|[[_ [= <-]]|[H _]]]]; try discriminate H; reflexivity. }
  destruct (String.eqb_spec (lower n) "ec2_2023") as [E4|E4].
  { rewrite E4. split; [intros [= <-]; auto 6|]. intros [[H _]|[[H _]|[[H _]|[_ [= <-]]]]]; try discriminate H; reflexivity. }
  split; [discriminate|]. intros [[H _]|[[H _]|[[H _]|[H _]]]]; contradiction.
Qed.
Lemma str_selects_some n v : selects (AStr n) v -> exists m, v = Some m.
Proof. cbn. intros [[_ ->]|[[_ ->]|[[_ ->]|[_ ->]]]]; eauto. Qed.

Lemma selects_fun a v w : selects a v -> selects a w -> v = w.
Proof.
  destruct a as [|n|m|]; [cbn; intros; congruence| | |intros []].
  - intros A B. destruct (str_selects_some _ _ A) as [m ->], (str_selects_some _ _ B) as [m' ->].
    apply lookup_code in A, B. congruence.
  - cbn. intros (_ & _ & _ & ->) (_ & _ & _ & ->). reflexivity.
Qed.
Lemma set_code_valid a v s : selects a v -> set_design_code a s = (Ok tt, with_code v s).
Proof.
  destruct a as [|n|m|]; cbn [selects set_design_code].
  - intros ->. reflexivity.
  - intros H. change (selects (AStr n) v) in H. destruct (str_selects_some _ _ H) as [m ->]. apply lookup_code in H. rewrite H. reflexivity.
  - intros (A & B & C & ->). destruct (md_title m), (md_year m), (md_materials m); congruence.
  - contradiction.
Qed.
Lemma set_code_invalid a s : (forall v, ~ selects a v) -> set_design_code a s = (Err ValueError, s).
Proof.
  intros H. destruct a as [|n|m|]; cbn [set_design_code].
  - destruct (H None). reflexivity.
  - destruct (dict_get design_codes (lower n)) as [m|] eqn:E; [|reflexivity]. apply lookup_code in E. destruct (H _ E).
  - destruct (md_title m) eqn:A, (md_year m) eqn:B, (md_materials m) eqn:C; try reflexivity.
    destruct (H (Some m)). cbn. rewrite A, B, C. repeat split; discriminate.
  - reflexivity.
Qed.
Lemma selects_dec a : (exists v, selects a v) \/ (forall v, ~ selects a v).
Proof.
  destruct a as [|n|m|].
  - left. exists None. reflexivity.
  - destruct (dict_get design_codes (lower n)) as [m|] eqn:E.
    + left. exists (Some m). apply lookup_code. exact E.
    + right. intros v H. destruct (str_selects_some _ _ H) as [m ->]. apply lookup_code in H. congruence.
  - destruct (md_title m) eqn:A, (md_year m) eqn:B, (md_materials m) eqn:C; cbn; rewrite ?A, ?B, ?C;
      [left; exists (Some m); repeat split; discriminate|right; intros v (X & Y & Z & _); congruence..].
  - right. intros v [].
Qed.
Lemma use_valid a v s : a <> ANone -> selects a v -> use_design_code a s = (Ok v, with_code v s).
Proof.
  intros N H. pose proof (set_code_valid a v s H) as E. unfold use_design_code.
  destruct a; [contradiction|..]; rewrite E; reflexivity.
Qed.
Lemma use_invalid a s : a <> ANone -> (forall v, ~ selects a v) -> use_design_code a s = (Err ValueError, s).
Proof.
  intros N H. pose proof (set_code_invalid a s H) as E. unfold use_design_code.
  destruct a; [contradiction|..]; rewrite E; reflexivity.
Qed.
Lemma create_state {A} kind (b : mclass -> result A) a s : snd (create kind b a s) = snd (use_design_code a s).
Proof. unfold create. destruct (use_design_code a s) as [[[m|]|x] s']; reflexivity. Qed.
Lemma create_none_state {A} kind (b : mclass -> result A) s : snd (create kind b ANone s) = s.
Proof. rewrite create_state. reflexivity. Qed.

Lemma step_code_sel c v s : any_selection c v -> g_code (step c s) = v.
Proof.
  destruct c as [a|n| |a b|a b|n]; cbn [any_selection step]; try contradiction.
  - intros H. rewrite (set_code_valid _ _ _ H). reflexivity.
  - intros [N H]. rewrite create_state, (use_valid _ _ _ N H). reflexivity.
  - intros [N H]. rewrite create_state, (use_valid _ _ _ N H). reflexivity.
Qed.
Lemma integrator_code n s : g_code (snd (integrator_factory n s)) = g_code s /\ g_annex (snd (integrator_factory n s)) = g_annex s.
Proof. unfold integrator_factory. cbv zeta. cbn [snd]. destruct (dict_get (g_inst s) (lower n)); auto. Qed.
Lemma step_code_other c s : (forall v, ~ any_selection c v) -> g_code (step c s) = g_code s.
Proof.
  destruct c as [a|n| |a b|a b|n]; cbn [any_selection step]; intros H.
  - rewrite set_code_invalid by exact H. reflexivity.
  - reflexivity.
  - reflexivity.
  - rewrite create_state. destruct a as [|n|m|]; [reflexivity|..]; rewrite use_invalid; try discriminate; try reflexivity;
      intros v Hv; apply (H v); (split; [discriminate|exact Hv]).
  - rewrite create_state. destruct a as [|n|m|]; [reflexivity|..]; rewrite use_invalid; try discriminate; try reflexivity;
      intros v Hv; apply (H v); (split; [discriminate|exact Hv]).
  - apply integrator_code.
Qed.
Lemma named_dec a : (exists v, a <> ANone /\ selects a v) \/ (forall v, ~ (a <> ANone /\ selects a v)).
Proof.
  destruct (selects_dec a) as [[v H]|H].
  - destruct a; [right; intros w [N _]; congruence|..]; left; exists v; (split; [discriminate|exact H]).
  - right. intros v [_ Hv]. exact (H v Hv).
Qed.
Lemma any_dec c : (exists v, any_selection c v) \/ (forall v, ~ any_selection c v).
Proof.
  destruct c as [a|n| |a b|a b|n]; cbn [any_selection]; [|right; intros v H; exact H..| | |right; intros v H; exact H].
  - apply selects_dec.
  - apply named_dec.
  - apply named_dec.
Qed.
Lemma run_app h1 h2 s : run (h1 ++ h2) s = run h2 (run h1 s).
Proof. apply fold_left_app. Qed.
Lemma run_last h : forall s, last_selected any_selection (g_code s) h (g_code (run h s)).
Proof.
  induction h as [|c h IH] using rev_ind; intros s.
  - right. split; [intros c w []|reflexivity].
  - rewrite run_app. cbn [run fold_left]. destruct (any_dec c) as [[v Hv]|Hn].
    + left. exists h, c, []. split; [reflexivity|]. rewrite (step_code_sel c v _ Hv). split; [exact Hv|intros c' w []].
    + rewrite step_code_other by exact Hn. destruct (IH s) as [(h1 & c1 & h2 & E & S1 & N)|[N E]].
      * left. exists h1, c1, (h2 ++ [c]). split; [rewrite E, <- app_assoc; reflexivity|]. split; [exact S1|].
        intros c' w Hin. apply in_app_or in Hin as [Hin|[<-|[]]]; [exact (N _ _ Hin)|apply Hn].
      * right. split; [|exact E]. intros c' w Hin. apply in_app_or in Hin as [Hin|[<-|[]]]; [exact (N _ _ Hin)|apply Hn].
Qed.
Lemma any_is_selection c v : ~ names_code c -> any_selection c v <-> selection c v.
Proof. destruct c as [a|n| |a b|a b|n]; cbn; tauto. Qed.
Lemma run_last_user h s : (forall c, In c h -> ~ names_code c) -> last_selected selection (g_code s) h (g_code (run h s)).
Proof.
  intros H. destruct (run_last h s) as [(h1 & c & h2 & E & S1 & N)|[N E]].
  - left. exists h1, c, h2. split; [exact E|]. split.
    + apply any_is_selection; [apply H; rewrite E; apply in_or_app; right; left; reflexivity|exact S1].
    + intros c' w Hin Hs. apply (N c' w Hin). apply any_is_selection; [|exact Hs]. apply H. rewrite E.
      apply in_or_app. right. right. exact Hin.
  - right. split; [|exact E]. intros c' w Hin Hs. apply (N c' w Hin). apply any_is_selection; [exact (H _ Hin)|exact Hs].
Qed.

(** ** integrators *)
Definition inst_ok (l : list (string * integrator)) : Prop :=
  forall k c, dict_get l k = Some c -> c = (if String.eqb k "fiber" then Fiber else Marin).
Lemma dict_get_app {A} (l1 l2 : list (string * A)) k :
  dict_get (l1 ++ l2) k = match dict_get l1 k with Some v => Some v | None => dict_get l2 k end.
Proof. induction l1 as [|[k' v] l1 IH]; cbn [app dict_get]; [reflexivity|]. destruct (String.eqb k k'); [reflexivity|exact IH]. Qed.
Lemma registry_default k : match dict_get integrator_registry k with Some c => c | None => Marin end = (if String.eqb k "fiber" then Fiber else Marin).
Proof.
  cbn [dict_get integrator_registry]. destruct (String.eqb_spec k "marin") as [->|N]; [reflexivity|].
  destruct (String.eqb_spec k "fiber"); reflexivity.
Qed.
Lemma factory_ok n s : inst_ok (g_inst s) ->
  fst (integrator_factory n s) = Ok (if String.eqb (lower n) "fiber" then Fiber else Marin) /\
  inst_ok (g_inst (snd (integrator_factory n s))).
Proof.
  intros I. unfold integrator_factory. cbv zeta. cbn [fst snd].
  destruct (dict_get (g_inst s) (lower n)) as [c|] eqn:E.
  - rewrite E. rewrite (I _ _ E). split; [reflexivity|exact I].
  - cbn [g_inst]. rewrite dict_get_app, E. cbn [dict_get]. rewrite String.eqb_refl, registry_default. split; [reflexivity|].
    intros k c H. rewrite dict_get_app in H. destruct (dict_get (g_inst s) k) as [c'|] eqn:E2.
    + injection H as <-. exact (I _ _ E2).
    + cbn [dict_get] in H. destruct (String.eqb_spec k (lower n)) as [->|]; [|discriminate]. congruence.
Qed.
Lemma inst_step c s : inst_ok (g_inst s) -> inst_ok (g_inst (step c s)).
Proof.
  intros I. assert (SC : forall a, g_inst (snd (set_design_code a s)) = g_inst s).
  { intros [|n|m|]; cbn [set_design_code]; [reflexivity|destruct (dict_get design_codes (lower n)); reflexivity| |reflexivity].
    destruct (md_title m), (md_year m), (md_materials m); reflexivity. }
  assert (UC : forall a, g_inst (snd (use_design_code a s)) = g_inst s).
  { intros a. destruct a; [reflexivity|..]; unfold use_design_code;
      match goal with |- context [set_design_code ?a s] => pose proof (SC a) as E; destruct (set_design_code a s) as [[] s'] end; exact E. }
  destruct c as [a|n| |a b|a b|n]; cbn [step]; rewrite ?create_state, ?SC, ?UC; try exact I.
  apply factory_ok. exact I.
Qed.
Lemma inst_run h : forall s, inst_ok (g_inst s) -> inst_ok (g_inst (run h s)).
Proof. induction h as [|c h IH]; intros s I; [exact I|]. cbn [run fold_left]. apply IH. apply inst_step. exact I. Qed.

(** annex *)
Lemma annex_step c s : g_annex (step c s) = match c with CallSetAnnex n => Some (lower n) | _ => g_annex s end.
Proof.
  assert (SC : forall a, g_annex (snd (set_design_code a s)) = g_annex s).
  { intros [|n|m|]; cbn [set_design_code]; [reflexivity|destruct (dict_get design_codes (lower n)); reflexivity| |reflexivity].
    destruct (md_title m), (md_year m), (md_materials m); reflexivity. }
  assert (UC : forall a, g_annex (snd (use_design_code a s)) = g_annex s).
  { intros a. destruct a; [reflexivity|..]; unfold use_design_code;
      match goal with |- context [set_design_code ?a s] => pose proof (SC a) as E; destruct (set_design_code a s) as [[] s'] end; exact E. }
  destruct c as [a|n| |a b|a b|n]; cbn [step]; rewrite ?create_state, ?SC, ?UC; try reflexivity. apply integrator_code.
Qed.
