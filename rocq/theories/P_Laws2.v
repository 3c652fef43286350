(** Properties C11-C14 (wrapper laws, user-defined law, initial stress), and the
    UserDefined part of C05, C06 and C08. *)
From Coquelicot Require Import Coquelicot.
From Verif Require Import Base M_Laws S_Laws L_Laws L_LawsB L_LawsC M_Laws2 S_Laws2 L_Laws2 L_Laws3 L_Laws4 L_Laws5.

(** * C13: user-defined law *)
Theorem C13_length_mismatch_rejected : forall x y u flag,
  length x <> length y -> ud_init x y u flag = Err ValueError.
Proof. intros x y u flag H. unfold ud_init. destruct (Nat.eqb_spec (length x) (length y)); [contradiction|reflexivity]. Qed.
Print Assumptions C13_length_mismatch_rejected.
Theorem C13_bad_flag_rejected : forall x y u flag, (3 < flag)%nat -> ud_init x y u flag = Err ValueError.
Proof.
  intros x y u flag H. unfold ud_init. destruct (negb _); [reflexivity|]. destruct (ud_base x y).
  destruct (Nat.ltb_spec 3 flag); [reflexivity|lia].
Qed.
Print Assumptions C13_bad_flag_rejected.
(** Linear between neighbouring points, whatever the flag (two-sided data). *)
Theorem C13_linear_between_points : forall x y u flag l i e,
  ud_init x y u flag = Ok l -> increasing x -> nth 0 x 0 < 0 -> 0 < last x 0 ->
  (S i < length x)%nat -> nth i x 0 <= e <= nth (S i) x 0 -> settled (ud_ult l) e ->
  ud_stress l e = chord x y i e.
Proof.
  intros x y u flag l i e H I A B Hi He Hs. apply two_sided_init in H as (L & _ & E & _); [|exact A].
  rewrite (ud_stress_settled _ _ Hs). exact (extend_mid _ _ _ _ _ _ _ E L I A B Hi He).
Qed.
Print Assumptions C13_linear_between_points.
Theorem C13_points_are_hit : forall x y u flag l i,
  ud_init x y u flag = Ok l -> increasing x -> nth 0 x 0 < 0 -> 0 < last x 0 ->
  (i < length x)%nat -> settled (ud_ult l) (nth i x 0) ->
  ud_stress l (nth i x 0) = nth i y 0.
Proof.
  intros x y u flag l i H I A B Hi Hs. pose proof (two_sided_len x I A B).
  destruct (Nat.eq_dec (S i) (length x)) as [E|E].
  - assert (X : nth (i - 1) x 0 < nth i x 0) by (apply I; lia). destruct i as [|i]; [lia|].
    replace (S i - 1)%nat with i in X by lia.
    rewrite (C13_linear_between_points x y u flag l i (nth (S i) x 0) H I A B ltac:(lia) ltac:(lra) Hs).
    unfold chord. field. lra.
  - assert (X : nth i x 0 < nth (S i) x 0) by (apply I; lia).
    rewrite (C13_linear_between_points x y u flag l i (nth i x 0) H I A B ltac:(lia) ltac:(lra) Hs).
    unfold chord. lra.
Qed.
Print Assumptions C13_points_are_hit.
(** Outside the points: zero (flag 0) resp. the selected extension up to a
    hundred times the last strain. *)
Theorem C13_extension_right : forall x y u flag l e,
  ud_init x y u flag = Ok l -> increasing x -> nth 0 x 0 < 0 -> 0 < last x 0 ->
  last x 0 < e <= 100 * last x 0 -> settled (ud_ult l) e ->
  ud_stress l e = beyond_right flag x y e.
Proof.
  intros x y u flag l e H I A B He Hs. apply two_sided_init in H as (L & _ & E & _); [|exact A].
  rewrite (ud_stress_settled _ _ Hs). exact (extend_right _ _ _ _ _ _ E L I A B He).
Qed.
Print Assumptions C13_extension_right.
Theorem C13_extension_left : forall x y u flag l e,
  ud_init x y u flag = Ok l -> increasing x -> nth 0 x 0 < 0 -> 0 < last x 0 ->
  100 * nth 0 x 0 <= e < nth 0 x 0 -> settled (ud_ult l) e ->
  ud_stress l e = beyond_left flag x y e.
Proof.
  intros x y u flag l e H I A B He Hs. apply two_sided_init in H as (L & _ & E & _); [|exact A].
  rewrite (ud_stress_settled _ _ Hs). exact (extend_left _ _ _ _ _ _ E L I A B He).
Qed.
Print Assumptions C13_extension_left.
(** Data for non-negative strains starting at the origin are completed to an odd
    law, for every flag: the object is the one built from the completed data. *)
Theorem C13_odd_completion : forall x y u flag,
  increasing x -> nth 0 x 0 = 0 -> nth 0 y 0 = 0 -> length x = length y ->
  ud_init x y u flag = ud_init (odd_completion x) (odd_completion y) u flag.
Proof. exact ud_init_completion. Qed.
Print Assumptions C13_odd_completion.
Theorem C13_odd : forall x y l e,
  ud_init x y None 0 = Ok l -> increasing x -> nth 0 x 0 = 0 -> nth 0 y 0 = 0 ->
  tol (last x 0) < last x 0 ->
  ud_stress l (- e) = - ud_stress l e.
Proof.
  intros x y l e H I X0 Y0 Ht.
  assert (P : forall a, In a x -> 0 <= a) by (apply increasing_ge0; [exact I|lra]).
  pose proof (ud_init_inv _ _ _ _ _ _ _ (ud_base_pos x y P) H) as (L & _ & _ & E & U).
  injection E as EX EY. unfold ud_stress. rewrite U, <- EX, <- EY. clear U EX EY H l.
  assert (LP : 0 < last x 0) by (unfold tol in Ht; pose proof (Rabs_pos (last x 0)); lra).
  assert (L2 : (2 <= length x)%nat).
  { destruct x as [|a [|b t]]; cbn in *; try lra; lia. }
  assert (OL : length (odd_completion x) = (length x - 1 + length x)%nat) by apply oc_length.
  assert (La : last (odd_completion x) 0 = last x 0).
  { rewrite !last_nth, oc_nth_hi by lia. f_equal. lia. }
  assert (Fi : nth 0 (odd_completion x) 0 = - last x 0).
  { rewrite oc_nth_lo by lia. rewrite last_nth. do 2 f_equal. lia. }
  rewrite La, Fi, prep_odd by exact Ht.
  apply interp_odd.
  - apply oc_increasing; [exact I|lra].
  - rewrite !oc_length. lia.
  - lia.
  - apply oc_antisym; exact X0.
  - apply oc_antisym; exact Y0.
Qed.
Print Assumptions C13_odd.
(** The ultimate strains are the ends of the (completed) data unless given. *)
Theorem C13_ultimate_default : forall x y flag l, ud_init x y None flag = Ok l -> nth 0 x 0 < 0 ->
  ud_ult l = (nth 0 x 0, last x 0).
Proof. intros x y flag l H A. apply two_sided_init in H as (_ & _ & _ & U); [exact U|exact A]. Qed.
Print Assumptions C13_ultimate_default.
Theorem C13_ultimate_given : forall x y a flag l, ud_init x y (Some a) flag = Ok l -> nth 0 x 0 < 0 ->
  set_ultimate a = Ok (ud_ult l).
Proof. intros x y a flag l H A. apply two_sided_init in H as (_ & _ & _ & U); [exact U|exact A]. Qed.
Print Assumptions C13_ultimate_given.
Theorem C13_marin_form : forall x y u flag l e0 e1,
  ud_init x y u flag = Ok l -> increasing x -> nth 0 x 0 < 0 -> 0 < last x 0 ->
  describes (settled (ud_ult l)) (ud_stress l) e0 e1 (snd (ud_marin l (e0, e1))).
Proof.
  intros x y u flag l e0 e1 H I A B. apply two_sided_init in H as (L & _ & E & _); [|exact A].
  destruct (extend_increasing _ _ _ _ _ E L I A B) as (IX & LX & L2). exact (describes_stored l e0 e1 IX LX L2).
Qed.
Print Assumptions C13_marin_form.

(** Concrete data satisfying the hypotheses. *)
Definition ex_x := [-1/100; 0; 2/1000; 1/100].
Definition ex_y := [-400; 0; 400; 500].
Example C13_example_data : increasing ex_x /\ nth 0 ex_x 0 < 0 /\ 0 < last ex_x 0 /\
  exists l, ud_init ex_x ex_y None 3 = Ok l /\ settled (ud_ult l) (2/1000) /\ settled (ud_ult l) (2/100).
Proof.
  split; [|split; [cbn; lra|split; [cbn; lra|]]].
  - intros i j [H1 H2]. cbn in H2. destruct i as [|[|[|i]]], j as [|[|[|[|j]]]]; cbn; try lra; lia.
  - unfold ud_init. cbn [ex_x ex_y length Nat.eqb negb].
    rewrite ud_base_neg by (exists (-1/100); split; [left; reflexivity|lra]).
    cbn [Nat.ltb Nat.leb ex_x]. eexists. split; [reflexivity|].
    unfold ud_ult; cbn [ud_un ud_up last ex_x]. split; left; unfold far, tol; cbn [fst snd]; split; rnum.
Qed.

(** Refuted parts. *)
(** The "constant" extension ends at a hundred times the last strain. *)
Theorem C13_constant_extension_unbounded_refuted : exists l e,
  ud_init [-1/1000; 1/1000] [-200; 200] None 1 = Ok l /\ 1/1000 < e /\ settled (ud_ult l) e /\ ud_stress l e = 0.
Proof.
  unfold ud_init. cbn [length Nat.eqb negb].
  rewrite ud_base_neg by (exists (-1/1000); split; [left; reflexivity|lra]).
  cbn [Nat.ltb Nat.leb]. eexists. exists 1. split; [reflexivity|]. split; [lra|].
  assert (Hs : settled (-1/1000, 1/1000) 1) by (left; unfold far, tol; cbn [fst snd]; split; rnum).
  split; [exact Hs|]. rewrite ud_stress_settled by exact Hs. cbn [ud_x ud_y fst snd].
  apply interp_right; [reflexivity| |cbn; lra].
  intros i j [H1 H2]. cbn in H2. destruct i as [|[|[|i]]], j as [|[|[|[|j]]]]; cbn; try lra; lia.
Qed.
Print Assumptions C13_constant_extension_unbounded_refuted.
(** Positive data not starting at zero are not completed to an odd law: the
    first point is dropped from the mirrored part. *)
Theorem C13_odd_without_origin_refuted : exists l,
  ud_init [1/1000; 2/1000] [300; 400] None 0 = Ok l /\ ud_stress l (- (1/1000)) <> - ud_stress l (1/1000).
Proof.
  unfold ud_init. cbn [length Nat.eqb negb].
  rewrite ud_base_pos by (intros a [<-|[<-|[]]]; lra).
  cbn [Nat.ltb Nat.leb]. cbn [odd_completion tl rev map app]. eexists. split; [reflexivity|].
  unfold ud_stress, ud_ult. cbn [ud_un ud_up fst snd ud_x ud_y last].
  rewrite !prep_far by (unfold far, tol; cbn [fst snd]; rnum).
  rewrite (interp_seg _ _ 0%nat), (interp_seg _ _ 1%nat); [|reflexivity| |cbn; lia|cbn; lra|reflexivity| |cbn; lia|cbn; lra].
  - unfold chord. cbn [nth]. intros H. field_simplify in H. lra.
  - intros i j [H1 H2]. cbn in H2. destruct i as [|[|[|i]]], j as [|[|[|[|j]]]]; cbn; try lra; lia.
  - intros i j [H1 H2]. cbn in H2. destruct i as [|[|[|i]]], j as [|[|[|[|j]]]]; cbn; try lra; lia.
Qed.
Print Assumptions C13_odd_without_origin_refuted.
(** A point closer to an ultimate strain than the snapping tolerance is missed. *)
Theorem C13_point_near_limit_refuted : exists l,
  ud_init [-1/1000; 1/1000; 1/1000 + / 2000000] [-200; 200; 0] None 0 = Ok l /\ ud_stress l (1/1000) <> 200.
Proof.
  unfold ud_init. cbn [length Nat.eqb negb].
  rewrite ud_base_neg by (exists (-1/1000); split; [left; reflexivity|lra]).
  cbn [Nat.ltb Nat.leb]. eexists. split; [reflexivity|].
  unfold ud_stress, ud_ult. cbn [ud_un ud_up fst snd ud_x ud_y last].
  rewrite prep_max by (unfold near, tol; cbn [fst snd]; rnum). cbn [snd].
  rewrite (interp_seg _ _ 1%nat); [|reflexivity| |cbn; lia|cbn; lra].
  - unfold chord. cbn [nth]. intros H. field_simplify in H. lra.
  - intros i j [H1 H2]. cbn in H2. destruct i as [|[|[|i]]], j as [|[|[|[|j]]]]; cbn; try lra; lia.
Qed.
Print Assumptions C13_point_near_limit_refuted.

(** UserDefined part of C05, C06, C08. *)
Theorem C05_userdefined_arrays : forall l eps, separated (ud_ult l) ->
  ud_stress_arr l eps = map (ud_stress l) eps /\ ud_tangent_arr l eps = map (ud_tangent l) eps.
Proof. intros l eps H. exact (conj (ud_stress_arr_map l eps H) (ud_tangent_arr_map l eps)). Qed.
Print Assumptions C05_userdefined_arrays.
Theorem C06_userdefined : forall x y u l i e,
  ud_init x y u 0 = Ok l -> increasing x -> nth 0 x 0 < 0 -> 0 < last x 0 ->
  (S i < length x)%nat -> nth i x 0 < e < nth (S i) x 0 ->
  far (fst (ud_ult l)) e -> far (snd (ud_ult l)) e ->
  is_derive (ud_stress l) e (ud_tangent l e).
Proof.
  intros x y u l i e H I A B Hi He F1 F2. apply two_sided_init in H as (L & _ & E & _); [|exact A].
  injection E as EX EY. apply (ud_deriv l i); rewrite <- ?EX, <- ?EY; assumption.
Qed.
Print Assumptions C06_userdefined.
Theorem C08_userdefined_tangent : forall x y u l e0 e1,
  ud_init x y u 0 = Ok l -> increasing x -> nth 0 x 0 < 0 -> 0 < last x 0 ->
  describes (fun e => settled (ud_ult l) e /\ ~ In e x) (ud_tangent l) e0 e1 (snd (ud_marin_tangent l (e0, e1))).
Proof.
  intros x y u l e0 e1 H I A B. apply two_sided_init in H as (L & _ & E & _); [|exact A].
  destruct (extend_increasing _ _ _ _ _ E L I A B) as (IX & LX & L2). injection E as EX EY.
  pose proof (ud_describes_tangent l e0 e1 IX LX L2) as D. rewrite <- EX in D. exact D.
Qed.
Print Assumptions C08_userdefined_tangent.

(** * C11: parallel material *)
Theorem C11_mismatching_weights_rejected : forall laws w, length w <> length laws -> par_init laws (Some w) = Err ValueError.
Proof. intros laws w H. unfold par_init. destruct (Nat.eqb_spec (length w) (length laws)); [contradiction|reflexivity]. Qed.
Print Assumptions C11_mismatching_weights_rejected.
Theorem C11_stress_and_tangent : forall laws w p e, par_init laws (Some w) = Ok p ->
  par_stress p e = wsum w (map lw_stress laws) e /\ par_tangent p e = wsum w (map lw_tangent laws) e.
Proof.
  intros laws w p e H. unfold par_init in H. destruct (length w =? length laws)%nat; [|discriminate].
  injection H as <-. split; [apply par_stress_sum|apply par_tangent_sum].
Qed.
Print Assumptions C11_stress_and_tangent.
Theorem C11_default_weights : forall laws p e, par_init laws None = Ok p ->
  par_stress p e = lsum (map (fun l => lw_stress l e) laws) /\
  par_tangent p e = lsum (map (fun l => lw_tangent l e) laws).
Proof.
  intros laws p e H. injection H as <-. rewrite par_stress_sum, par_tangent_sum. cbn [pa_w pa_laws].
  split; induction laws as [|l laws IH]; cbn [map wsum lsum]; rewrite ?lsum_cons, ?IH; try reflexivity; lra.
Qed.
Print Assumptions C11_default_weights.
Theorem C11_array_evaluation : forall laws w p eps, par_init laws w = Ok p ->
  (forall l, In l laws -> lw_stress_arr l eps = (map (lw_stress l) eps, eps)) ->
  par_stress_arr p eps = (map (par_stress p) eps, eps).
Proof.
  intros laws w p eps H A. apply par_arr_ok. intros l Hl. apply A.
  unfold par_init in H. destruct w as [w|]; [destruct (length w =? length laws)%nat; [|discriminate]|]; injection H as <-; exact Hl.
Qed.
Print Assumptions C11_array_evaluation.
(** The limits are the outermost limits of the constituents. *)
Theorem C11_ultimate_strain : forall laws w p, par_init laws w = Ok p -> laws <> [] ->
  exists a b, par_ult p = Some (a, b) /\
  (forall l, In l laws -> a <= fst (lw_ult l) /\ snd (lw_ult l) <= b) /\
  (exists l, In l laws /\ a = fst (lw_ult l)) /\ (exists l, In l laws /\ b = snd (lw_ult l)).
Proof.
  intros laws w p H N. assert (E : pa_laws p = laws).
  { unfold par_init in H. destruct w as [w|]; [destruct (length w =? length laws)%nat; [|discriminate]|]; injection H as <-; reflexivity. }
  rewrite <- E in *. exact (par_ult_spec p N).
Qed.
Print Assumptions C11_ultimate_strain.
(** Merged marin form.  Full claim: for all constituents whose own output
    describes them.  Proved when either all or none of the outputs carry ranges;
    the mixed case is refuted below. *)
Theorem C11_marin : forall (ok : R -> Prop) laws w p e0 e1 out,
  par_init laws (Some w) = Ok p ->
  (forall l, In l laws -> fst (lw_marin l (e0, e1)) = e0 /\
     describes ok (lw_stress l) e0 e1 (snd (lw_marin l (e0, e1))) /\
     (forall rs, fst (snd (lw_marin l (e0, e1))) = Some rs -> tidy rs)) ->
  (forall l l', In l laws -> In l' laws ->
     fst (snd (lw_marin l (e0, e1))) = None -> fst (snd (lw_marin l' (e0, e1))) = None) ->
  snd (par_marin p (e0, e1)) = Ok out ->
  describes (fun e => ok e /\ ~ is_break (map (fun l => snd (lw_marin l (e0, e1))) laws) e)
    (par_stress p) e0 e1 out.
Proof.
  intros ok laws w p e0 e1 out H A Hm Ho. unfold par_init in H.
  destruct (length w =? length laws)%nat; [|discriminate]. injection H as <-.
  unfold par_marin in Ho. cbn [pa_laws pa_w] in Ho.
  rewrite par_collect_same in Ho by (intros l Hl; exact (proj1 (A l Hl))). cbn [snd fst] in Ho.
  assert (D : describes (fun e => ok e /\ ~ is_break (map (fun l => snd (lw_marin l (e0, e1))) laws) e)
     (wsum w (map lw_stress laws)) e0 e1 out).
  { eapply split_describes; [| | |exact Ho].
    - clear Ho Hm. induction laws as [|l laws IH]; cbn [map]; constructor.
      + apply (A l). left; reflexivity.
      + apply IH. intros l' Hl'. apply A. right; exact Hl'.
    - intros o rs Hin Hr. apply in_map_iff in Hin as (l & <- & Hl). exact (proj2 (proj2 (A l Hl)) rs Hr).
    - intros o o' Hin Hin'. apply in_map_iff in Hin as (l & <- & Hl). apply in_map_iff in Hin' as (l' & <- & Hl').
      exact (Hm l l' Hl Hl'). }
  revert D. unfold describes. destruct (fst out).
  - intros [L D]. split; [exact L|]. intros y Hy. specialize (D y Hy). rewrite par_stress_sum. exact D.
  - intros (c & E & D). exists c. split; [exact E|]. intros y Hy. rewrite par_stress_sum. exact (D y Hy).
Qed.
Print Assumptions C11_marin.
(** The merge itself succeeds. *)
Theorem C11_marin_succeeds : forall laws w p e0 e1, par_init laws (Some w) = Ok p ->
  (forall l, In l laws -> fst (lw_marin l (e0, e1)) = e0) ->
  (forall l, In l laws -> match fst (snd (lw_marin l (e0, e1))) with
      | None => snd (snd (lw_marin l (e0, e1))) <> []
      | Some rs => combine rs (snd (snd (lw_marin l (e0, e1)))) <> [] end) ->
  (exists l rs r, In l laws /\ fst (snd (lw_marin l (e0, e1))) = Some rs /\ In r rs /\ fst r < snd r) ->
  exists out, snd (par_marin p (e0, e1)) = Ok out.
Proof.
  intros laws w p e0 e1 H A B (l & rs & r & Hl & Hr & Hi & Hlt). unfold par_init in H.
  destruct (length w =? length laws)%nat; [|discriminate]. injection H as <-.
  unfold par_marin. cbn [pa_laws pa_w].
  rewrite par_collect_same by (intros l' Hl'; exact (A l' Hl')). cbn [snd fst].
  apply split_ok.
  - intros o Ho. apply in_map_iff in Ho as (l' & <- & Hl'). exact (B l' Hl').
  - exists (snd (lw_marin l (e0, e1))), rs, r. split; [apply in_map_iff; exists l; auto|auto].
Qed.
Print Assumptions C11_marin_succeeds.

(** Steel and concrete in parallel with a strain gradient meet the hypotheses. *)
Example C11_marin_example :
  let steel := ep_law {| ep_E := 200000; ep_fy := 400; ep_Eh := 0; ep_su := Some (25/1000); ep_sy := 2/1000 |} in
  let conc := pr_law (pr_init 30 (2/1000) (35/10000) 2) in
  exists p out, par_init [steel; conc] (Some [1/10; 9/10]) = Ok p /\ snd (par_marin p (0, 1)) = Ok out.
Proof.
  intros steel conc. eexists. destruct (C11_marin_succeeds [steel; conc] [1/10; 9/10] _ 0 1 eq_refl) as [out Ho].
  - intros l [<-|[<-|[]]]; cbn; destruct (Reqb_spec 1 0); try lra; reflexivity.
  - intros l [<-|[<-|[]]]; cbn; destruct (Reqb_spec 1 0); try lra; discriminate.
  - exists steel. cbn. destruct (Reqb_spec 1 0); [lra|]. cbn. eexists. eexists. split; [auto|]. split; [reflexivity|].
    split; [right; left; reflexivity|]. cbn. lra.
  - exists out. split; [reflexivity|exact Ho].
Qed.

(** Mixed case: an elastic constituent (no ranges) next to concrete (ranges
    only in compression) loses all its stress in tension. *)
Theorem C11_marin_mixed_refuted : exists le p out y,
  elastic_init 200000 None = Ok le /\
  par_init [elastic_law le; pr_law (pr_init 30 (2/1000) (35/10000) 2)] None = Ok p /\
  snd (par_marin p (0, 1)) = Ok out /\
  (exists rs, fst out = Some rs /\ forall r, In r rs -> ~ (fst r <= 0 + 1 * y <= snd r)) /\
  par_stress p (0 + 1 * y) <> 0.
Proof.
  unfold elastic_init. destruct (Rleb_spec 200000 0); [lra|]. eexists.
  set (le := {| el_E := 200000; el_u := None |}).
  set (pc := pr_init 30 (2/1000) (35/10000) 2). eexists.
  destruct (C11_marin_succeeds [elastic_law le; pr_law pc] [1; 1] _ 0 1 eq_refl) as [out Ho].
  - intros l [<-|[<-|[]]]; cbn; destruct (Reqb_spec 1 0); try lra; reflexivity.
  - intros l [<-|[<-|[]]]; cbn; destruct (Reqb_spec 1 0); try lra; discriminate.
  - exists (pr_law pc). cbn. destruct (Reqb_spec 1 0); [lra|]. cbn. eexists. eexists. split; [auto|]. split; [reflexivity|].
    split; [left; reflexivity|]. cbn. rewrite !(Rabs_pos_eq) by lra. lra.
  - exists out, (1/100). split; [reflexivity|]. split; [reflexivity|]. split; [exact Ho|]. split.
    + unfold par_marin in Ho. cbn [pa_laws pa_w] in Ho.
      rewrite par_collect_same in Ho by (intros l [<-|[<-|[]]]; cbn; destruct (Reqb_spec 1 0); try lra; reflexivity).
      cbn [snd fst map lw_marin elastic_law pr_law] in Ho. unfold split_marin in Ho.
      match type of Ho with context [breakpoints ?o] => set (outs := o) in * end.
      destruct (mapM _ _) as [maps|] in Ho; [|discriminate]. cbn [bind] in Ho.
      destruct (mapM _ _) as [cs|] in Ho; [|discriminate]. cbn [bind] in Ho.
      assert (Br : forall e, is_break outs e -> e <= 0).
      { intros e (o & rs & r & Hin & Hf & Hr & He). subst outs. destruct Hin as [<-|[<-|[]]]; [discriminate Hf|].
        cbn in Hf. destruct (Reqb_spec 1 0); [lra|]. cbn in Hf. injection Hf as <-.
        rewrite !Rabs_pos_eq in Hr by lra.
        destruct Hr as [<-|[<-|[]]]; cbn in He; lra. }
      assert (Re : forall a b, In (a, b) (refine (breakpoints outs)) -> b <= 0).
      { intros a b Hab. apply refine_in in Hab as (_ & _ & Hb & _); [|apply breakpoints_sorted].
        apply breakpoints_in in Hb. exact (Br b Hb). }
      assert (NN : refine (breakpoints outs) <> []).
      { assert (Z : is_break outs 0 /\ is_break outs (- (2/1000))).
        { split; exists (snd (pr_marin2 pc (0, 1))); cbn; destruct (Reqb_spec 1 0); try lra; cbn;
            eexists; exists (- Rabs (2/1000), 0); (split; [right; left; reflexivity|]);
            (split; [reflexivity|]); (split; [left; reflexivity|]); cbn; rewrite !Rabs_pos_eq by lra; auto. }
        destruct Z as [Z1 Z2]. apply breakpoints_in in Z1, Z2.
        destruct (breakpoints outs) as [|b1 [|b2 t]]; cbn in *; [contradiction|intuition lra|discriminate]. }
      injection Ho as <-. destruct (refine (breakpoints outs)) as [|q qs]; [contradiction|].
      eexists. split; [reflexivity|]. intros [a b] Hr. cbn [fst snd]. pose proof (Re a b Hr). lra.
    + rewrite par_stress_sum. cbn [pa_w pa_laws map wsum lw_stress elastic_law pr_law]. unfold elastic_stress. cbn [el_E le].
      assert (Z : pr_stress pc (0 + 1 * (1/100)) = 0).
      { apply pr_tension; [apply pr_init_wf; [lra| |lra]; rewrite !Rabs_pos_eq; lra|lra|].
        cbn. unfold far, tol. rnum. }
      rewrite Z. lra.
Qed.
Print Assumptions C11_marin_mixed_refuted.

(** * C12: initial-strain wrapper *)
Theorem C12_compatible : forall l e0 e, let i := is_init l e0 true in
  is_stress i e = lw_stress l (e + e0) /\
  is_tangent i e = lw_tangent l (e + e0) /\
  is_ult i = (fst (lw_ult l) - e0, snd (lw_ult l) - e0) /\
  is_stress i 0 = lw_stress l e0.
Proof. intros l e0 e i. cbn. rewrite Rplus_0_l. auto. Qed.
Print Assumptions C12_compatible.
Theorem C12_incompatible_is_constant : forall l e0 e, is_stress (is_init l e0 false) e = lw_stress l e0.
Proof. intros. cbn. lra. Qed.
Print Assumptions C12_incompatible_is_constant.
(** Its tangent is a millionth of the wrapped law's initial tangent, whatever the strain. *)
Theorem C12_incompatible_tangent : forall l e0 e, 10 ^ 6 * is_tangent (is_init l e0 false) e = lw_tangent l 0.
Proof. intros. unfold is_tangent. cbn [is_compat is_init is_law]. cbn [pow]. field. Qed.
Print Assumptions C12_incompatible_tangent.
Theorem C12_tangent_is_derivative : forall l e0 e,
  is_derive (lw_stress l) (e + e0) (lw_tangent l (e + e0)) ->
  is_derive (is_stress (is_init l e0 true)) e (is_tangent (is_init l e0 true) e).
Proof.
  intros l e0 e H. cbn. apply (is_derive_ext (fun x => lw_stress l (x + e0))); [reflexivity|].
  evar_last.
  - apply (is_derive_comp (lw_stress l) (fun x => x + e0)); [exact H|].
    evar_last; [apply @is_derive_plus; [apply is_derive_id|apply is_derive_const]|]. reflexivity.
  - unfold scal, plus, one, zero; cbn. unfold mult; cbn. lra.
Qed.
Print Assumptions C12_tangent_is_derivative.
Theorem C12_caller_strain_untouched : forall l e0 c s,
  fst (is_marin (is_init l e0 c) s) = fst s /\ fst (is_marin_tangent (is_init l e0 c) s) = fst s.
Proof. intros. split; reflexivity. Qed.
Print Assumptions C12_caller_strain_untouched.
(** Full claim: the output of __marin__ describes the wrapper.  Proved for
    outputs without ranges (elastic law, or uniform strain). *)
Theorem C12_marin_uniform : forall (ok : R -> Prop) l e0 a0 a1,
  describes ok (lw_stress l) (a0 + e0) a1 (snd (lw_marin l (a0 + e0, a1))) ->
  fst (snd (lw_marin l (a0 + e0, a1))) = None ->
  describes (fun e => ok (e + e0)) (is_stress (is_init l e0 true)) a0 a1 (snd (is_marin (is_init l e0 true) (a0, a1))).
Proof.
  intros ok l e0 a0 a1 D N. unfold describes in *. unfold is_marin. cbn [snd fst is_law is_e0 is_init].
  rewrite N in *. destruct D as (c & E & D). exists c. split; [exact E|]. intros y Hy.
  replace (a0 + a1 * y + e0) with (a0 + e0 + a1 * y) in Hy by ring.
  unfold is_stress. cbn [is_law is_e0 is_init is_compat]. rewrite (D y Hy). f_equal. ring.
Qed.
Print Assumptions C12_marin_uniform.
(** The same for the tangent. *)
Theorem C12_marin_tangent_uniform : forall (ok : R -> Prop) l e0 a0 a1,
  describes ok (lw_tangent l) (a0 + e0) a1 (snd (lw_marin_tangent l (a0 + e0, a1))) ->
  fst (snd (lw_marin_tangent l (a0 + e0, a1))) = None ->
  describes (fun e => ok (e + e0)) (is_tangent (is_init l e0 true)) a0 a1 (snd (is_marin_tangent (is_init l e0 true) (a0, a1))).
Proof.
  intros ok l e0 a0 a1 D N. unfold describes in *. unfold is_marin_tangent. cbn [snd fst is_law is_e0 is_init].
  rewrite N in *. destruct D as (c & E & D). exists c. split; [exact E|]. intros y Hy.
  replace (a0 + a1 * y + e0) with (a0 + e0 + a1 * y) in Hy by ring.
  unfold is_tangent. cbn [is_law is_e0 is_init is_compat]. rewrite (D y Hy). f_equal. ring.
Qed.
Print Assumptions C12_marin_tangent_uniform.
(** With a strain gradient the ranges are those of the wrapped law, not shifted
    by the initial strain, so the output does not describe the wrapper. *)
Theorem C12_marin_ranges_not_shifted_refuted : exists l,
  ep_init 200000 400 0 (Some (25/1000)) = Ok l /\
  ~ describes (settled (is_ult (is_init (ep_law l) (1/1000) true)))
      (is_stress (is_init (ep_law l) (1/1000) true)) 0 1
      (snd (is_marin (is_init (ep_law l) (1/1000) true) (0, 1))).
Proof.
  unfold ep_init. destruct (Rltb_spec 0 200000); [|lra]. eexists. split; [reflexivity|].
  unfold is_marin. cbn [snd fst is_law is_e0 is_init ep_law lw_marin]. unfold ep_marin.
  destruct (Reqb_spec 1 0); [lra|]. unfold describes.
  cbn [fst snd ep_E ep_fy ep_Eh ep_su ep_sy ep_yield ep_ult]. intros [_ D].
  assert (S0 : settled (is_ult (is_init (ep_law {| ep_E := 200000; ep_fy := 400; ep_Eh := 0;
     ep_su := Some (25/1000); ep_sy := 400 / 200000 |}) (1/1000) true)) (0 + 1 * (3/2000))).
  { left. unfold is_ult. cbn. unfold far, tol. split; rnum. }
  destruct (D (3/2000) S0) as [Q _]. specialize (Q _ _ (or_intror (or_introl eq_refl))). cbn [fst snd] in Q.
  unfold is_stress in Q. cbn [is_law is_e0 is_init is_compat ep_law lw_stress] in Q.
  unfold ep_stress in Q. rewrite prep_far in Q;
    [|unfold far, tol; cbn [ep_ult ep_su fst snd]; rnum|unfold far, tol; cbn [ep_ult ep_su fst snd]; rnum].
  cbn [ep_E ep_fy ep_Eh ep_su ep_sy] in Q. cbv zeta in Q.
  assert (X : - (400 / 200000) <= 0 + 1 * (3/2000) <= 400 / 200000) by lra. specialize (Q X). revert Q. cbn [poly].
  repeat (rsplit1; cbn [andb orb negb]; try lra).
Qed.
Print Assumptions C12_marin_ranges_not_shifted_refuted.
(** Without strain compatibility the marin form still follows the law. *)
Theorem C12_marin_incompatible_refuted : exists l,
  elastic_init 200000 None = Ok l /\
  ~ describes (fun _ => True) (is_stress (is_init (elastic_law l) (1/1000) false)) 0 1
      (snd (is_marin (is_init (elastic_law l) (1/1000) false) (0, 1))).
Proof.
  unfold elastic_init. destruct (Rleb_spec 200000 0); [lra|]. eexists. split; [reflexivity|].
  cbn. intros (c & [= <-] & D). specialize (D 1 I). cbn in D. unfold elastic_stress in D. cbn in D. lra.
Qed.
Print Assumptions C12_marin_incompatible_refuted.

(** * C14: initial stress *)
Theorem C14_both_rejected : forall e s c, mat_init (Some e) (Some s) c = Err ValueError.
Proof. reflexivity. Qed.
Print Assumptions C14_both_rejected.
Theorem C14_strain_matches_stress : forall (stress tangent : R -> R) target e,
  strain_from_stress stress tangent target = Ok e -> Rabs (stress e - target) <= / 10 ^ 12.
Proof. exact strain_from_stress_sound. Qed.
Print Assumptions C14_strain_matches_stress.
Theorem C14_failures : forall (stress tangent : R -> R) target x,
  strain_from_stress stress tangent target = Err x -> x = ValueError \/ x = RuntimeError.
Proof. exact strain_from_stress_err. Qed.
Print Assumptions C14_failures.
Theorem C14_linear_law : forall E target, E <> 0 -> / 10 ^ 12 < Rabs target ->
  strain_from_stress (fun e => E * e) (fun _ => E) target = Ok (target / E).
Proof. intros E target HE Ht. destruct (newton_linear E target HE) as [H|[H _]]; [exact H|lra]. Qed.
Print Assumptions C14_linear_law.
Local Opaque strain_from_stress.
(** The material object: an initial stress ends up as a law whose stress at zero
    strain is that stress within 1e-12 and the request stays readable. *)
Theorem C14_material_with_initial_stress : forall s c m l m' w,
  mat_init None (Some s) c = Ok m -> apply_initial m l = Ok (m', w) ->
  exists i e, w = Some i /\ mt_strain m' = Some e /\ mt_stress m' = Some s /\
    Rabs (is_stress i 0 - s) <= / 10 ^ 12 /\ Rabs (lw_stress l e - s) <= / 10 ^ 12.
Proof.
  intros s c m l m' w H A. injection H as <-. unfold apply_initial in A. cbn [mt_stress mt_strain mt_compat] in A.
  destruct (strain_from_stress (lw_stress l) (lw_tangent l) s) as [e|] eqn:E; [|discriminate].
  cbn [bind mt_strain mt_stress mt_compat] in A. injection A as <- <-. eexists. exists e.
  split; [reflexivity|]. split; [reflexivity|]. split; [reflexivity|].
  pose proof (strain_from_stress_sound _ _ _ _ E) as B. split; [|exact B].
  unfold is_stress. cbn [is_law is_e0 is_init is_compat is_s0]. rewrite Rplus_0_l.
  destruct c as [[]|]; rewrite ?Rmult_1_l; exact B.
Qed.
Print Assumptions C14_material_with_initial_stress.
Theorem C14_material_with_initial_strain : forall e c m l m' w,
  mat_init (Some e) None c = Ok m -> apply_initial m l = Ok (m', w) ->
  exists i, w = Some i /\ mt_strain m' = Some e /\ mt_stress m' = Some (lw_stress l e) /\
    is_stress i 0 = lw_stress l e.
Proof.
  intros e c m l m' w H A. injection H as <-. cbn in A. injection A as <- <-. eexists.
  split; [reflexivity|]. split; [reflexivity|]. split; [reflexivity|].
  unfold is_stress. cbn [is_law is_e0 is_init is_compat is_s0]. rewrite Rplus_0_l.
  destruct c as [[]|]; rewrite ?Rmult_1_l; reflexivity.
Qed.
Print Assumptions C14_material_with_initial_strain.
(** Strain compatibility is kept unless it is switched off: the law of the
    material then is the original one, shifted; otherwise its stress is constant. *)
Theorem C14_compatibility : forall st ss c m l m' w e, mat_init st ss c = Ok m -> apply_initial m l = Ok (m', w) -> mt_strain m' = Some e ->
  exists i, w = Some i /\ mt_compat m' = c /\
    (c <> Some false -> forall x, is_stress i x = lw_stress l (x + e) /\ is_tangent i x = lw_tangent l (x + e)) /\
    (c = Some false -> forall x, is_stress i x = lw_stress l e).
Proof.
  intros st ss c m l m' w e H A M. assert (G : exists i, w = Some i /\ mt_compat m' = c /\ i = is_init l e (match c with Some b => b | None => true end)).
  { unfold mat_init in H. destruct st as [e1|], ss as [s1|]; try discriminate; injection H as <-; unfold apply_initial in A; cbn [mt_stress mt_strain mt_compat bind] in A.
    - injection A as <- <-. cbn [mt_strain] in M. injection M as <-. eexists. split; [reflexivity|]. split; reflexivity.
    - destruct (strain_from_stress _ _ _) as [e1|]; [|discriminate]. cbn [mt_stress mt_strain mt_compat bind] in A. injection A as <- <-. cbn [mt_strain] in M. injection M as <-. eexists. split; [reflexivity|]. split; reflexivity.
    - injection A as <- <-. discriminate M. }
  destruct G as (i & -> & MC & ->). eexists. split; [reflexivity|]. split; [exact MC|]. split.
  - intros NC x. destruct c as [[]|]; [| contradiction |]; split; reflexivity.
  - intros -> x. apply C12_incompatible_is_constant.
Qed.
Print Assumptions C14_compatibility.
Theorem C14_material_without_initial : forall c m l, mat_init None None c = Ok m -> apply_initial m l = Ok (m, None).
Proof. intros c m l H. injection H as <-. reflexivity. Qed.
Print Assumptions C14_material_without_initial.
Example C14_example : strain_from_stress (fun e => 200000 * e) (fun _ => 200000) 1000 = Ok (1000 / 200000).
Proof. apply C14_linear_law; [lra|]. rewrite Rabs_pos_eq by lra. apply Rlt_trans with 1; [|lra].
  rewrite <- Rinv_1. apply Rinv_lt_contravar; [|]; cbn; lra. Qed.

(** * C10: evaluation order *)
(** When no strain is within the snapping tolerance of a limit of any of the
    laws, every law answers as if it were evaluated alone, whatever was evaluated
    before it, and the caller's array is untouched. *)
Theorem C10_order_independence : forall laws eps,
  (forall l, In l laws -> (exists q, l = elastic_law q) \/ (exists q, l = ep_law q) \/ (exists q, l = pr_law q) \/ (exists q, l = ud_law q)) ->
  (forall l, In l laws -> separated (lw_ult l) /\ forall e, In e eps -> far (fst (lw_ult l)) e /\ far (snd (lw_ult l)) e) ->
  in_turn (map lw_stress_arr laws) eps = (map (fun l => fst (lw_stress_arr l eps)) laws, eps).
Proof.
  intros laws eps K F. induction laws as [|l laws IH]; [reflexivity|]. cbn [map in_turn].
  assert (E : snd (lw_stress_arr l eps) = eps).
  { destruct (F l (or_introl eq_refl)) as [S0 Fe].
    assert (P : prep_arr (lw_ult l) eps = eps).
    { rewrite (prep_arr_map _ _ S0). rewrite <- (map_id eps) at 2. apply map_ext_in. intros e He. apply prep_far; apply (Fe e He). }
    destruct (K l (or_introl eq_refl)) as [[q ->]|[[q ->]|[[q ->]|[q ->]]]]; [reflexivity|exact P|exact P|exact P]. }
  rewrite E, IH; [reflexivity| |]; intros l' I; [apply K|apply F]; right; exact I.
Qed.
Print Assumptions C10_order_independence.
