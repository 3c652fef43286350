(** Properties C04-C10 for the closed-form constitutive laws. *)
From Coquelicot Require Import Coquelicot.
From Verif Require Import Base M_Laws S_Laws L_Laws L_LawsB L_LawsC.

(** * C04: strain snapping *)
Theorem C04_snap_to_max : forall lim eps, near (snd lim) eps -> prep lim eps = snd lim.
Proof. exact prep_max. Qed.
Print Assumptions C04_snap_to_max.
Theorem C04_snap_to_min : forall lim eps,
  far (snd lim) eps -> near (fst lim) eps -> prep lim eps = fst lim.
Proof. exact prep_min. Qed.
Print Assumptions C04_snap_to_min.
Theorem C04_unchanged_otherwise : forall lim eps,
  far (snd lim) eps -> far (fst lim) eps -> prep lim eps = eps.
Proof. exact prep_far. Qed.
Print Assumptions C04_unchanged_otherwise.
Theorem C04_distance : forall lim eps,
  Rabs (prep lim eps - eps) <= Rmax (tol (fst lim)) (tol (snd lim)).
Proof. exact prep_close. Qed.
Print Assumptions C04_distance.
Theorem C04_idempotent : forall lim eps,
  far (snd lim) (fst lim) -> prep lim (prep lim eps) = prep lim eps.
Proof. exact prep_idem. Qed.
Print Assumptions C04_idempotent.
Theorem C04_array_is_elementwise : forall lim eps,
  separated lim -> prep_arr lim eps = map (prep lim) eps.
Proof. exact prep_arr_map. Qed.
Print Assumptions C04_array_is_elementwise.
(** Without separation the array branch lets the minimum win, the scalar branch
    the maximum. *)
Theorem C04_array_is_elementwise_refuted : exists lim eps,
  fst lim < snd lim /\ prep_arr lim [eps] <> [prep lim eps].
Proof.
  exists (- / 2500000, / 2500000), 0. split; [cbn; lra|].
  unfold prep_arr, prep. cbn [map masked fst snd]. intros [= H]. revert H.
  rnum.
Qed.
Print Assumptions C04_array_is_elementwise_refuted.

Example C04_separated_example : separated (-35/10000, 100).
Proof. unfold separated, far, tol; cbn [fst snd]. rnum. Qed.
Example C04_near_example : near (25/1000) (25/1000 + / 1000000).
Proof. unfold near, tol. rnum. Qed.

(** * C05: arrays are evaluated element by element *)
Theorem C05_elastic_arrays : forall l eps,
  elastic_stress_arr l eps = map (elastic_stress l) eps /\
  elastic_tangent_arr l eps = map (elastic_tangent l) eps.
Proof. exact (fun l eps => conj (elastic_stress_arr_map l eps) (elastic_tangent_arr_map l eps)). Qed.
Print Assumptions C05_elastic_arrays.
Theorem C05_elasticplastic_arrays : forall E fy Eh su l eps,
  ep_init E fy Eh su = Ok l -> 0 < fy -> 0 <= Eh -> (forall u, su = Some u -> fy / E <= u) ->
  / 1000000 < snd (ep_ult l) ->
  ep_stress_arr l eps = map (ep_stress l) eps /\ ep_tangent_arr l eps = map (ep_tangent l) eps.
Proof.
  intros E fy Eh su l eps H Hf Hh Hu Hs. pose proof (ep_init_wf _ _ _ _ _ H Hf Hh Hu) as W.
  exact (conj (ep_stress_arr_map l eps (ep_separated l W Hs)) (ep_tangent_arr_map l eps (Rlt_le _ _ (ep_sy_pos l W)))).
Qed.
Print Assumptions C05_elasticplastic_arrays.
Theorem C05_parabolarectangle_arrays : forall fc e0 eu n eps,
  e0 <> 0 -> Rabs e0 <= Rabs eu -> 0 < n ->
  pr_stress_arr (pr_init fc e0 eu n) eps = map (pr_stress (pr_init fc e0 eu n)) eps /\
  pr_tangent_arr (pr_init fc e0 eu n) eps = map (pr_tangent (pr_init fc e0 eu n)) eps.
Proof.
  intros fc e0 eu n eps H0 Hu Hn. split; [|apply pr_tangent_arr_map].
  apply pr_stress_arr_map; [apply pr_init_wf; assumption|].
  apply ult_separated; [reflexivity|]. cbn. assert (P := Rabs_pos eu). lra.
Qed.
Print Assumptions C05_parabolarectangle_arrays.
(** A law whose crushing strain is below its peak strain is accepted by the
    constructor and then answers differently for scalars and arrays. *)
Theorem C05_parabolarectangle_arrays_refuted : exists l eps,
  l = pr_init 30 (2/1000) (1/1000) 2 /\ pr_stress_arr l [eps] <> [pr_stress l eps].
Proof.
  exists (pr_init 30 (2/1000) (1/1000) 2), (-15/10000). split; [reflexivity|].
  assert (P : prep (pr_ult (pr_init 30 (2/1000) (1/1000) 2)) (-15/10000) = -15/10000).
  { apply prep_far; cbn; unfold far, tol; rnum. }
  assert (Pa : prep_arr (pr_ult (pr_init 30 (2/1000) (1/1000) 2)) [-15/10000] = [-15/10000]).
  { rewrite prep_arr_map; [cbn [map]; rewrite P; reflexivity|].
    apply ult_separated; [reflexivity|]. cbn. rnum. }
  unfold pr_stress_arr, pr_stress. rewrite P, Pa. cbv zeta. unfold pr_init. cbn [map masked pr_fc pr_e0 pr_eu pr_n].
  rewrite (Rabs_pos_eq (2/1000)), (Rabs_pos_eq (1/1000)), (Rabs_pos_eq 30) by lra.
  intros [= H]. revert H.
  replace (1 - -15/10000 / - (2/1000)) with (1/4) by field. rewrite pypow_2 by lra.
  rsplit.
Qed.
Print Assumptions C05_parabolarectangle_arrays_refuted.
Theorem C05_bilinear_arrays : forall fc ec u l eps, bil_init fc ec (Some u) = Ok l ->
  bil_stress_arr l eps = map (bil_stress l) eps.
Proof.
  intros fc ec u l eps H. apply bil_init_wf in H as ((v & _ & E1) & _).
  apply bil_stress_arr_map, ult_separated; [reflexivity|]. cbn. rewrite E1. assert (P := Rabs_pos v). lra.
Qed.
Print Assumptions C05_bilinear_arrays.
(** Tangents agree except at strain 0 and at the peak strain ... *)
Theorem C05_bilinear_tangent_arrays : forall l eps,
  (forall e, In e eps -> e <> 0 /\ e <> bi_ec l) -> bil_tangent_arr l eps = map (bil_tangent l) eps.
Proof. exact bil_tangent_arr_map. Qed.
Print Assumptions C05_bilinear_tangent_arrays.
(** ... where they do not. *)
Theorem C05_bilinear_tangent_arrays_refuted : exists l,
  bil_init 30 (2/1000) (Some (35/10000)) = Ok l /\
  bil_tangent_arr l [0] <> [bil_tangent l 0] /\
  bil_tangent_arr l [-2/1000] <> [bil_tangent l (-2/1000)].
Proof.
  unfold bil_init. destruct (Reqb_spec (2/1000) 0); [lra|]. eexists. split; [reflexivity|].
  unfold bil_tangent_arr, bil_tangent. cbn [bi_fc bi_ec bi_ecu bi_E map masked].
  rewrite (Rabs_pos_eq (2/1000)), (Rabs_pos_eq 30) by lra.
  split; intros [= H]; revert H; rsplit; intros H; field_simplify in H; lra.
Qed.
Print Assumptions C05_bilinear_tangent_arrays_refuted.
Theorem C05_sargin_arrays : forall fc e1 eu k eps,
  (forall e, In e eps -> is_ok (sargin_stress (sargin_init fc e1 eu k) e)) ->
  map Ok (sargin_stress_arr (sargin_init fc e1 eu k) eps) = map (sargin_stress (sargin_init fc e1 eu k)) eps.
Proof.
  intros fc e1 eu k eps H. apply sargin_arr_map; [|exact H]. apply ult_separated; [reflexivity|].
  cbn. assert (P := Rabs_pos eu). lra.
Qed.
Print Assumptions C05_sargin_arrays.
Theorem C05_sargin_tangent_arrays : forall l eps,
  (forall e, In e eps -> is_ok (sargin_tangent l e)) ->
  map Ok (sargin_tangent_arr l eps) = map (sargin_tangent l) eps.
Proof. exact sargin_tangent_arr_map. Qed.
Print Assumptions C05_sargin_tangent_arrays.
(** One tensile strain makes the scalar call of a normal law raise, while the
    array call answers 0. *)
Theorem C05_sargin_arrays_refuted : exists l eps,
  l = sargin_init 35 (2/1000) (35/10000) 3 /\ 0 < eps /\
  sargin_stress l eps = Err ZeroDivisionError /\ sargin_stress_arr l [eps] = [0].
Proof.
  exists (sargin_init 35 (2/1000) (35/10000) 3), (2/1000).
  assert (P : prep (sargin_ult (sargin_init 35 (2/1000) (35/10000) 3)) (2/1000) = 2/1000).
  { apply prep_far; cbn; unfold far, tol; rnum. }
  assert (Pa : prep_arr (sargin_ult (sargin_init 35 (2/1000) (35/10000) 3)) [2/1000] = [2/1000]).
  { rewrite prep_arr_map; [cbn [map]; rewrite P; reflexivity|].
    apply ult_separated; [reflexivity|]. cbn. rnum. }
  split; [reflexivity|]. split; [lra|].
  unfold sargin_stress, sargin_stress_arr. rewrite P, Pa. cbv zeta. cbn [map masked].
  unfold sargin_init; cbn [sa_fc sa_ec1 sa_ecu1 sa_k].
  rewrite (Rabs_pos_eq (2/1000)) by lra.
  replace (2/1000 / - (2/1000)) with (-1) by field.
  split; [destruct (Reqb_spec (- (2/1000)) 0); [lra|]; destruct (Reqb_spec (1 + (3 - 2) * -1) 0); [reflexivity|lra]|].
  destruct (Rltb_spec 0 (2/1000)); [reflexivity|lra].
Qed.
Print Assumptions C05_sargin_arrays_refuted.
Theorem C05_popovics_arrays : forall fc ec ecu Ec l eps, popovics_init fc ec ecu Ec = Ok l ->
  popovics_stress_arr l eps = map (popovics_stress l) eps /\
  popovics_tangent_arr l eps = map (popovics_tangent l) eps.
Proof.
  intros fc ec ecu Ec l eps H.
  assert (U : po_ecu l = - Rabs ecu).
  { revert H. unfold popovics_init. cbv zeta. repeat (match goal with |- context [if ?b then _ else _] => destruct b end; try discriminate).
    all: intros [= <-]; reflexivity. }
  assert (S0 : separated (popovics_ult l)).
  { apply ult_separated; [reflexivity|]. cbn. rewrite U. assert (P := Rabs_pos ecu). lra. }
  exact (conj (popovics_stress_arr_map l eps S0) (popovics_tangent_arr_map l eps S0)).
Qed.
Print Assumptions C05_popovics_arrays.

Example C05_ep_example : exists l, ep_init 200000 450 1000 (Some (25/1000)) = Ok l /\
  / 1000000 < snd (ep_ult l) /\ 450 / 200000 <= 25/1000.
Proof. unfold ep_init. destruct (Rltb_spec 0 200000); [|lra]. eexists; split; [reflexivity|]. cbn. lra. Qed.
Example C05_sargin_example : is_ok (sargin_stress (sargin_init 35 (2/1000) (35/10000) 2) (-1/1000)).
Proof.
  eexists. apply sargin_stress_in; [apply sargin_init_wf; try lra; rnum|].
  rewrite prep_far; cbn; unfold far, tol; rnum.
Qed.

(** * C06: the tangent is the derivative *)
Theorem C06_elastic : forall l eps, is_derive (elastic_stress l) eps (elastic_tangent l eps).
Proof. exact elastic_deriv. Qed.
Print Assumptions C06_elastic.
Theorem C06_elasticplastic : forall E fy Eh su l x, ep_init E fy Eh su = Ok l -> 0 < fy -> 0 <= Eh ->
  (forall u, su = Some u -> fy / E <= u) ->
  far (fst (ep_ult l)) x -> far (snd (ep_ult l)) x -> Rabs x <> fy / E ->
  is_derive (ep_stress l) x (ep_tangent l x).
Proof.
  intros E fy Eh su l x H Hf Hh Hu F1 F2 N. pose proof (ep_init_wf _ _ _ _ _ H Hf Hh Hu) as W.
  assert (P := ep_sy_pos l W). apply ep_init_inv in H as [HE ->]. cbn [ep_sy] in P.
  apply ep_deriv; try assumption; cbn [ep_sy]; intros ->; apply N.
  - apply Rabs_pos_eq; lra.
  - rewrite Rabs_Ropp. apply Rabs_pos_eq; lra.
Qed.
Print Assumptions C06_elasticplastic.
Theorem C06_parabolarectangle : forall fc e0 eu n x, e0 <> 0 -> Rabs e0 <= Rabs eu -> 0 < n ->
  far (- Rabs eu) x -> far 100 x -> x <> 0 -> x <> - Rabs e0 ->
  is_derive (pr_stress (pr_init fc e0 eu n)) x (pr_tangent (pr_init fc e0 eu n) x).
Proof. intros. apply pr_deriv; try assumption. apply pr_init_wf; assumption. Qed.
Print Assumptions C06_parabolarectangle.
Theorem C06_bilinear : forall fc ec u l x, bil_init fc ec (Some u) = Ok l -> Rabs ec <= Rabs u ->
  far (fst (bil_ult l)) x -> far (snd (bil_ult l)) x -> x <> 0 -> x <> - Rabs ec ->
  is_derive (bil_stress l) x (bil_tangent l x).
Proof.
  intros fc ec u l x H Hu F1 F2 N1 N2. apply bil_deriv; try assumption; [eapply bil_init_wf2; eassumption|].
  apply bil_init_wf in H as (_ & _ & -> & _). exact N2.
Qed.
Print Assumptions C06_bilinear.
Theorem C06_sargin : forall fc e1 eu k x, e1 <> 0 -> eu <> 0 -> 0 < 1 + (k - 2) * (Rabs eu / Rabs e1) ->
  far (- Rabs eu) x -> - Rabs eu < x < 0 ->
  exists d, sargin_tangent (sargin_init fc e1 eu k) x = Ok d /\
            is_derive (fun e => val (sargin_stress (sargin_init fc e1 eu k) e)) x d.
Proof.
  intros fc e1 eu k x H1 Hu Hk F1 Hx. apply sargin_deriv; try assumption; [apply sargin_init_wf; assumption|].
  apply ult100; [reflexivity|lra].
Qed.
Print Assumptions C06_sargin.
Theorem C06_popovics : forall fc ec ecu Ec l x, popovics_init fc ec ecu Ec = Ok l -> fc <> 0 -> ecu <> 0 ->
  Rabs fc / Rabs ec < (match Ec with None => 5000 * sqrt (Rabs fc) | Some e => e end) ->
  far (- Rabs ecu) x -> far 100 x -> x <> 0 ->
  is_derive (popovics_stress l) x (popovics_tangent l x).
Proof.
  intros fc ec ecu Ec l x H H1 H2 H3 F1 F2 N.
  destruct (popovics_init_wf _ _ _ _ _ H H1 H2 H3) as (W & _ & _ & U).
  apply popovics_deriv; try assumption. cbn. rewrite U. exact F1.
Qed.
Print Assumptions C06_popovics.

Example C06_far_example : far (- Rabs (35/10000)) (-1/1000) /\ far 100 (-1/1000).
Proof. unfold far, tol. split; rnum. Qed.
Example C06_sargin_example : 0 < 1 + (175/100 - 2) * (Rabs (35/10000) / Rabs (2/1000)).
Proof. rnum. Qed.
Example C06_popovics_example : exists l, popovics_init 35 (2/1000) (35/10000) (Some 33000) = Ok l /\
  Rabs 35 / Rabs (2/1000) < 33000.
Proof.
  unfold popovics_init. rewrite !Rabs_pos_eq by lra.
  destruct (Rleb_spec 33000 0); [lra|]. destruct (Reqb_spec (2/1000) 0); [lra|].
  destruct (Reqb_spec (33000 - - (35) / - (2/1000)) 0) as [H|H];
   [replace (- (35) / - (2/1000)) with 17500 in H by field; lra|].
  eexists; split; [reflexivity|lra].
Qed.

(** * C07: shape of the laws *)
Theorem C07_elastic_odd : forall l e, elastic_stress l (- e) = - elastic_stress l e.
Proof. intros l e. unfold elastic_stress. ring. Qed.
Print Assumptions C07_elastic_odd.
Theorem C07_elastic_modulus_positive : forall E u l, elastic_init E u = Ok l -> 0 < E /\ el_E l = E.
Proof. exact elastic_init_ok. Qed.
Print Assumptions C07_elastic_modulus_positive.
Theorem C07_elastic_limits_bracket_zero : forall a u, set_ultimate a = Ok u -> fst u <= 0 <= snd u.
Proof. exact set_ultimate_ok. Qed.
Print Assumptions C07_elastic_limits_bracket_zero.
(** The strain limits each law reports. *)
Theorem C07_limits :
  (forall E l, elastic_init E None = Ok l -> elastic_ult l = (-100, 100)) /\
  (forall E a l u, set_ultimate a = Ok u -> elastic_init E (Some a) = Ok l -> elastic_ult l = u) /\
  (forall x, set_ultimate (EFloat x) = Ok (- Rabs x, Rabs x)) /\
  (forall n p, n <= 0 <= p -> set_ultimate (ETuple [n; p]) = Ok (n, p) /\ set_ultimate (ETuple [p; n]) = Ok (n, p)) /\
  (forall E fy Eh l, ep_init E fy Eh None = Ok l -> 0 < E /\ ep_ult l = (- 2 * (fy / E), 2 * (fy / E)) /\ ep_yield l = (- (fy / E), fy / E)) /\
  (forall E fy Eh u l, ep_init E fy Eh (Some u) = Ok l -> ep_ult l = (- u, u) /\ ep_yield l = (- (fy / E), fy / E)) /\
  (forall fc e0 eu n, pr_ult (pr_init fc e0 eu n) = (- Rabs eu, 100)) /\
  (forall fc ec u l, bil_init fc ec (Some u) = Ok l -> bil_ult l = (- Rabs u, 100)) /\
  (forall fc e1 eu k, sargin_ult (sargin_init fc e1 eu k) = (- Rabs eu, 100)) /\
  (forall fc ec ecu Ec l, popovics_init fc ec ecu Ec = Ok l -> popovics_ult l = (- Rabs ecu, 100)).
Proof.
  split; [|split; [|split; [|split; [|split; [|split; [|split; [|split; [|split]]]]]]]].
  - intros E l. unfold elastic_init. destruct (Rleb E 0); [discriminate|]. intros [= <-]. reflexivity.
  - intros E a l u H. unfold elastic_init. destruct (Rleb E 0); [discriminate|]. rewrite H. intros [= <-]. reflexivity.
  - reflexivity.
  - intros n p H. cbn. destruct (Rltb_spec p n) as [A|A]; destruct (Rltb_spec n p) as [B|B]; try lra.
    + rewrite (proj2 (Rltb_false p 0)), (proj2 (Rltb_false 0 n)) by lra. split; reflexivity.
    + assert (n = p) by lra. subst. rewrite (proj2 (Rltb_false p 0)), (proj2 (Rltb_false 0 p)) by lra. split; reflexivity.
  - intros E fy Eh l. unfold ep_init. destruct (Rltb_spec 0 E); [|discriminate]. intros H. assert (l = {| ep_E := E; ep_fy := fy; ep_Eh := Eh; ep_su := None; ep_sy := fy / E |}) by congruence. subst l. unfold ep_ult, ep_yield. cbn [ep_su ep_sy]. split; [assumption|]. split; [f_equal; ring|reflexivity].
  - intros E fy Eh u l. unfold ep_init. destruct (Rltb_spec 0 E); [|discriminate]. intros H. assert (l = {| ep_E := E; ep_fy := fy; ep_Eh := Eh; ep_su := Some u; ep_sy := fy / E |}) by congruence. subst l. split; reflexivity.
  - reflexivity.
  - intros fc ec u l. unfold bil_init. destruct (Reqb ec 0); [discriminate|]. intros [= <-]. reflexivity.
  - reflexivity.
  - intros fc ec ecu Ec l. unfold popovics_init. cbv zeta. destruct (Rleb _ 0); [discriminate|]. destruct (Reqb _ 0); [discriminate|]. destruct (Reqb _ 0); [discriminate|]. intros [= <-]. reflexivity.
Qed.
Print Assumptions C07_limits.
Theorem C07_ep_odd : forall E fy Eh su l e, ep_init E fy Eh su = Ok l -> 0 < fy -> 0 <= Eh ->
  (forall u, su = Some u -> fy / E <= u) -> tol (snd (ep_ult l)) < snd (ep_ult l) ->
  ep_stress l (- e) = - ep_stress l e.
Proof. intros E fy Eh su l e H Hf Hh Hu. apply ep_odd. eapply ep_init_wf; eassumption. Qed.
Print Assumptions C07_ep_odd.
(** With a softening branch (negative Eh, accepted by the constructor) the law
    is not odd: the compressive branch is overwritten by the tensile one. *)
Theorem C07_ep_odd_refuted : exists l e, ep_init 1000 1 (-1000) None = Ok l /\
  far (fst (ep_ult l)) e /\ far (snd (ep_ult l)) e /\ ep_stress l (- e) <> - ep_stress l e.
Proof.
  unfold ep_init. destruct (Rltb_spec 0 1000); [|lra]. eexists. exists (5/1000). split; [reflexivity|].
  assert (P1 : prep (ep_ult {| ep_E := 1000; ep_fy := 1; ep_Eh := -1000; ep_su := None; ep_sy := 1 / 1000 |}) (5/1000) = 5/1000).
  { apply prep_far; cbn; unfold far, tol; rnum. }
  assert (P2 : prep (ep_ult {| ep_E := 1000; ep_fy := 1; ep_Eh := -1000; ep_su := None; ep_sy := 1 / 1000 |}) (- (5/1000)) = - (5/1000)).
  { apply prep_far; cbn; unfold far, tol; rnum. }
  split; [cbn; unfold far, tol; rnum|]. split; [cbn; unfold far, tol; rnum|].
  unfold ep_stress. rewrite P1, P2. cbn [ep_E ep_fy ep_Eh ep_su ep_sy]. cbv zeta. intros H; revert H. rsplit.
Qed.
Print Assumptions C07_ep_odd_refuted.
Theorem C07_ep_elastic_range : forall E fy Eh su l e, ep_init E fy Eh su = Ok l -> 0 < fy -> 0 <= Eh ->
  (forall u, su = Some u -> fy / E <= u) -> settled (ep_ult l) e -> Rabs e <= fy / E -> ep_stress l e = E * e.
Proof.
  intros E fy Eh su l e H Hf Hh Hu S0 He. pose proof (ep_init_wf _ _ _ _ _ H Hf Hh Hu) as W.
  apply ep_init_inv in H as [HE ->]. exact (ep_elastic_range _ e W S0 He).
Qed.
Print Assumptions C07_ep_elastic_range.
Theorem C07_ep_hardening_range : forall E fy Eh su l e, ep_init E fy Eh su = Ok l -> 0 < fy -> 0 <= Eh ->
  (forall u, su = Some u -> fy / E <= u) -> settled (ep_ult l) e ->
  fy / E <= e -> (forall u, su = Some u -> e <= u) -> ep_stress l e = fy + Eh * (e - fy / E).
Proof.
  intros E fy Eh su l e H Hf Hh Hu S0 He Hu2. pose proof (ep_init_wf _ _ _ _ _ H Hf Hh Hu) as W.
  apply ep_init_inv in H as [HE ->]. exact (ep_plastic_range _ e W S0 He Hu2).
Qed.
Print Assumptions C07_ep_hardening_range.
Theorem C07_ep_zero_beyond_ultimate : forall l u e, ep_su l = Some u ->
  far u e -> far (- u) e -> u < Rabs e -> ep_stress l e = 0.
Proof. exact ep_beyond. Qed.
Print Assumptions C07_ep_zero_beyond_ultimate.
(** Continuity (a Lipschitz bound) and monotonicity inside the ultimate strains. *)
Theorem C07_ep_continuous_monotone : forall E fy Eh su l a b, ep_init E fy Eh su = Ok l -> 0 < fy -> 0 <= Eh ->
  (forall u, su = Some u -> fy / E <= u) -> settled (ep_ult l) a -> settled (ep_ult l) b -> a <= b ->
  (forall u, su = Some u -> - u <= a /\ b <= u) ->
  0 <= ep_stress l b - ep_stress l a <= Rmax E Eh * (b - a).
Proof.
  intros E fy Eh su l a b H Hf Hh Hu Sa Sb Hab Hin. pose proof (ep_init_wf _ _ _ _ _ H Hf Hh Hu) as W.
  apply ep_init_inv in H as [HE ->]. apply (ep_lipschitz _ a b W Sa Sb Hab). cbn [ep_su].
  destruct su as [u|]; [exact (Hin u eq_refl)|exact I].
Qed.
Print Assumptions C07_ep_continuous_monotone.
Theorem C07_ep_bounded : forall E fy Eh u l e, ep_init E fy Eh (Some u) = Ok l -> 0 < fy -> 0 <= Eh -> fy / E <= u ->
  Rabs (ep_stress l e) <= fy + Eh * (u - fy / E).
Proof.
  intros E fy Eh u l e H Hf Hh Hu.
  pose proof (ep_init_wf _ _ _ _ _ H Hf Hh ltac:(intros ? [= <-]; exact Hu)) as W.
  rewrite (ep_stress_raw l e W). assert (B := ep_raw_bound l (prep (ep_ult l) e) W).
  apply ep_init_inv in H as [HE ->]. exact B.
Qed.
Print Assumptions C07_ep_bounded.
Theorem C07_pr_shape : forall fc e0 eu n e, e0 <> 0 -> Rabs e0 <= Rabs eu -> 0 < n ->
  let f := pr_stress (pr_init fc e0 eu n) in
  - Rabs fc <= f e <= 0 /\
  (0 < e -> far (- Rabs eu) e -> f e = 0) /\
  (e < - Rabs eu -> far (- Rabs eu) e -> f e = 0) /\
  (settled (- Rabs eu, 100) e -> - Rabs eu <= e <= - Rabs e0 -> f e = - Rabs fc) /\
  (far (- Rabs eu) 0 -> f 0 = 0).
Proof.
  intros fc e0 eu n e H0 Hu Hn f. pose proof (pr_init_wf fc e0 eu n H0 Hu Hn) as W.
  exact (conj (pr_bounds _ e W) (conj (pr_tension _ e W) (conj (pr_crushed _ e W) (conj (pr_plateau _ e W) (pr_zero _ W))))).
Qed.
Print Assumptions C07_pr_shape.
Theorem C07_pr_monotone : forall fc e0 eu n a b, e0 <> 0 -> Rabs e0 <= Rabs eu -> 0 < n ->
  settled (- Rabs eu, 100) a -> settled (- Rabs eu, 100) b -> - Rabs eu <= a -> a <= b -> b <= 0 ->
  pr_stress (pr_init fc e0 eu n) a <= pr_stress (pr_init fc e0 eu n) b.
Proof. intros fc e0 eu n a b H0 Hu Hn. exact (pr_mono _ a b (pr_init_wf fc e0 eu n H0 Hu Hn)). Qed.
Print Assumptions C07_pr_monotone.
Theorem C07_bilinear_shape : forall fc ec u l e, bil_init fc ec (Some u) = Ok l -> Rabs ec <= Rabs u ->
  - Rabs fc <= bil_stress l e <= 0 /\
  (0 < e -> far (- Rabs u) e -> bil_stress l e = 0) /\
  (e < - Rabs u -> far (- Rabs u) e -> bil_stress l e = 0) /\
  (settled (- Rabs u, 100) e -> - Rabs u <= e <= - Rabs ec -> bil_stress l e = - Rabs fc) /\
  (settled (- Rabs u, 100) e -> - Rabs ec <= e <= 0 -> bil_stress l e = Rabs fc / Rabs ec * e).
Proof.
  intros fc ec u l e H Hu. pose proof (bil_init_wf2 _ _ _ _ H Hu) as W.
  apply bil_init_wf in H as ((v & [= <-] & E1) & E2 & E3 & E4 & E5).
  assert (A1 := bil_bounds l e W). assert (A2 := bil_tension l e W). assert (A3 := bil_crushed l e W).
  assert (A4 := bil_plateau l e W). assert (A5 := bil_line l e W). unfold bil_ult in *.
  rewrite E1 in A2, A3, A4, A5. rewrite E2, E3 in *.
  replace (Rabs fc / Rabs ec) with (- Rabs fc / - Rabs ec) by (field; lra). tauto.
Qed.
Print Assumptions C07_bilinear_shape.
(** The documented default eps_cu=None cannot be constructed. *)
Theorem C07_bilinear_default_refuted : forall fc ec, bil_init fc ec None = Err TypeError.
Proof. reflexivity. Qed.
Print Assumptions C07_bilinear_default_refuted.
Theorem C07_sargin_shape : forall fc e1 eu k e, e1 <> 0 -> Rabs e1 <= Rabs eu ->
  0 < 1 + (k - 2) * (Rabs eu / Rabs e1) ->
  let l := sargin_init fc e1 eu k in
  (forall v, sargin_stress l e = Ok v ->
     - Rabs fc <= v /\ (Rabs eu / Rabs e1 <= k -> v <= 0) /\
     (far (- Rabs eu) e -> e < - Rabs eu \/ 0 < e -> v = 0)) /\
  (settled (- Rabs eu, 100) e -> - Rabs eu <= e <= 0 ->
     sargin_stress l e = Ok (- Rabs fc * (k * (e / - Rabs e1) - (e / - Rabs e1) ^ 2) / (1 + (k - 2) * (e / - Rabs e1)))) /\
  (settled (- Rabs eu, 100) (- Rabs e1) -> sargin_stress l (- Rabs e1) = Ok (- Rabs fc)).
Proof.
  intros fc e1 eu k e H1 Hu Hk l.
  assert (Q := Rabs_pos_lt e1 H1).
  assert (Hu0 : eu <> 0). { intros ->. rewrite Rabs_R0 in Hu. lra. }
  pose proof (sargin_init_wf fc e1 eu k H1 Hu0 Hk) as W. fold l in W.
  split; [|split].
  - intros v Hv. destruct (sargin_bounds l e v W Hv) as [B1 B2]. split; [exact B1|]. split.
    + intros Hr. apply B2. cbn. replace (- Rabs eu / - Rabs e1) with (Rabs eu / Rabs e1) by (field; lra). exact Hr.
    + intros Hf Ho. exact (sargin_outside l e v W Hf Ho Hv).
  - exact (sargin_ok_compr l e W).
  - intros S0. apply (sargin_at_peak l W S0). cbn. lra.
Qed.
Print Assumptions C07_sargin_shape.
Theorem C07_popovics_shape : forall fc ec ecu Ec l e, popovics_init fc ec ecu Ec = Ok l -> fc <> 0 -> ecu <> 0 ->
  Rabs fc / Rabs ec < (match Ec with None => 5000 * sqrt (Rabs fc) | Some m => m end) ->
  - Rabs fc <= popovics_stress l e <= 0 /\
  (0 < e -> far (- Rabs ecu) e -> popovics_stress l e = 0) /\
  (e < - Rabs ecu -> far (- Rabs ecu) e -> popovics_stress l e = 0) /\
  (settled (- Rabs ecu, 100) (- Rabs ec) -> Rabs ec <= Rabs ecu -> popovics_stress l (- Rabs ec) = - Rabs fc).
Proof.
  intros fc ec ecu Ec l e H H1 H2 H3.
  destruct (popovics_init_wf _ _ _ _ _ H H1 H2 H3) as (W & E1 & E2 & E3).
  assert (A1 := popovics_bounds l e W). assert (A2 := popovics_tension l e W).
  assert (A3 := popovics_crushed l e W). assert (A4 := popovics_at_peak l W).
  unfold popovics_ult in *. rewrite ?E1, ?E2, ?E3 in *. split; [exact A1|].
  split; [exact A2|]. split; [exact A3|]. intros S0 Hle. apply A4; [exact S0|lra].
Qed.
Print Assumptions C07_popovics_shape.

Example C07_settled_example : settled (- Rabs (35/10000), 100) (-1/1000).
Proof. left. cbn. unfold far, tol. split; rnum. Qed.
Example C07_settled_limit_example : settled (- Rabs (35/10000), 100) (- Rabs (35/10000)).
Proof. right; right. cbn. split; [reflexivity|]. unfold far, tol. rnum. Qed.
Example C07_ep_odd_example : tol (25/1000) < 25/1000.
Proof. unfold tol. rnum. Qed.

(** * C08: the marin coefficients describe the law *)
Theorem C08_elastic : forall l e0 e1,
  describes (fun _ => True) (elastic_stress l) e0 e1 (snd (elastic_marin l (e0, e1))) /\
  describes (fun _ => True) (elastic_tangent l) e0 e1 (snd (elastic_marin_tangent l (e0, e1))).
Proof. exact (fun l e0 e1 => conj (elastic_describes l e0 e1) (elastic_describes_tangent l e0 e1)). Qed.
Print Assumptions C08_elastic.
Theorem C08_elasticplastic : forall E fy Eh u l e0 e1, ep_init E fy Eh (Some u) = Ok l ->
  0 < fy -> 0 <= Eh -> fy / E <= u ->
  describes (settled (- u, u)) (ep_stress l) e0 e1 (snd (ep_marin l (e0, e1))) /\
  describes (fun e => settled (- u, u) e /\ Rabs e <> fy / E)
    (ep_tangent l) e0 e1 (snd (ep_marin_tangent l (e0, e1))).
Proof.
  intros E fy Eh u l e0 e1 H Hf Hh Hu.
  pose proof (ep_init_wf _ _ _ _ _ H Hf Hh ltac:(intros ? [= <-]; exact Hu)) as W.
  assert (P := ep_sy_pos l W).
  apply ep_init_inv in H as [HE ->]. split.
  - eapply describes_weaken; [|apply (ep_describes _ u); [exact W|reflexivity]].
    intros e S0. exact (settled_prep _ _ S0).
  - eapply describes_weaken; [|apply (ep_describes_tangent _ u); [exact W|reflexivity]].
    intros e [S0 N]. cbn [ep_sy] in *. split; [exact (settled_prep _ _ S0)|].
    split; intros ->; apply N; [|rewrite Rabs_Ropp]; apply Rabs_pos_eq; lra.
Qed.
Print Assumptions C08_elasticplastic.
(** Without an ultimate strain the coefficients stop at twice the yield strain
    although get_stress goes on. *)
Theorem C08_elasticplastic_unlimited_refuted : exists l e0 e1, ep_init 200000 400 0 None = Ok l /\
  ~ describes (settled (ep_ult l)) (ep_stress l) e0 e1 (snd (ep_marin l (e0, e1))).
Proof.
  unfold ep_init. destruct (Rltb_spec 0 200000); [|lra]. eexists. exists (1/100), 1. split; [reflexivity|].
  unfold ep_marin. cbn [ep_E ep_fy ep_Eh ep_su ep_sy ep_yield ep_ult].
  destruct (Reqb_spec 1 0); [lra|]. unfold describes. cbn [fst snd]. intros [_ D].
  destruct (D 0) as [_ Z].
  - left. cbn. unfold far, tol. split; rnum.
  - assert (X : ep_stress {| ep_E := 200000; ep_fy := 400; ep_Eh := 0; ep_su := None; ep_sy := 400 / 200000 |} (1 / 100 + 1 * 0) = 400).
    { replace (1/100 + 1*0) with (1/100) by lra. unfold ep_stress.
      rewrite prep_far; [|cbn; unfold far, tol; rnum..].
      cbn [ep_E ep_fy ep_Eh ep_su ep_sy]. cbv zeta. rsplit. }
    rewrite X in Z. assert (400 = 0); [|lra]. apply Z.
    intros q [<-|[<-|[<-|[]]]]; cbn; lra.
Qed.
Print Assumptions C08_elasticplastic_unlimited_refuted.
Theorem C08_parabolarectangle : forall fc p u e0 e1, p <> 0 -> Rabs p <= Rabs u ->
  describes (settled (- Rabs u, 100)) (pr_stress (pr_init fc p u 2)) e0 e1 (snd (pr_marin2 (pr_init fc p u 2) (e0, e1))) /\
  describes (fun e => settled (- Rabs u, 100) e /\ e <> - Rabs p /\ e <> 0)
    (pr_tangent (pr_init fc p u 2)) e0 e1 (snd (pr_marin_tangent2 (pr_init fc p u 2) (e0, e1))).
Proof.
  intros fc p u e0 e1 Hp Hu. pose proof (pr_init_wf fc p u 2 Hp Hu ltac:(lra)) as W. split.
  - eapply describes_weaken; [|apply pr_describes; [exact W|reflexivity]]. intros e. exact (settled_prep _ e).
  - eapply describes_weaken; [|apply pr_describes_tangent; [exact W|reflexivity]].
    intros e [S0 N]. split; [exact (settled_prep _ _ S0)|exact N].
Qed.
Print Assumptions C08_parabolarectangle.
Theorem C08_bilinear : forall fc ec u l e0 e1, bil_init fc ec (Some u) = Ok l -> Rabs ec <= Rabs u ->
  describes (settled (- Rabs u, 100)) (bil_stress l) e0 e1 (snd (bil_marin l (e0, e1))) /\
  describes (fun e => settled (- Rabs u, 100) e /\ e <> - Rabs ec)
    (bil_tangent l) e0 e1 (snd (bil_marin_tangent l (e0, e1))).
Proof.
  intros fc ec u l e0 e1 H Hu. pose proof (bil_init_wf2 _ _ _ _ H Hu) as W.
  apply bil_init_wf in H as ((v & [= <-] & E1) & E2 & E3 & E4 & E5).
  split.
  - eapply describes_weaken; [|apply bil_describes; exact W]. intros e S0. apply settled_prep. unfold bil_ult. rewrite E1. exact S0.
  - eapply describes_weaken; [|apply bil_describes_tangent; exact W].
    intros e [S0 N]. split; [apply settled_prep; unfold bil_ult; rewrite E1; exact S0|rewrite E3; exact N].
Qed.
Print Assumptions C08_bilinear.

(** * C09: secant modulus *)
Theorem C09_secant : forall (stress tangent : R -> R) e,
  (e <> 0 -> secant stress tangent e * e = stress e) /\ secant stress tangent 0 = tangent 0.
Proof. exact secant_def. Qed.
Print Assumptions C09_secant.
Theorem C09_secant_array : forall (stress tangent : R -> R) (stress_arr tangent_arr : list R -> list R) eps,
  (forall l, incl l eps -> stress_arr l = map stress l) ->
  (forall l, incl l eps -> tangent_arr l = map tangent l) ->
  secant_arr stress_arr tangent_arr eps = map (secant stress tangent) eps.
Proof. exact secant_arr_map. Qed.
Print Assumptions C09_secant_array.
Theorem C09_secant_array_parabolarectangle : forall fc p u n eps, p <> 0 -> Rabs p <= Rabs u -> 0 < n ->
  let l := pr_init fc p u n in
  secant_arr (pr_stress_arr l) (pr_tangent_arr l) eps = map (secant (pr_stress l) (pr_tangent l)) eps.
Proof.
  intros fc p u n eps Hp Hu Hn l. apply secant_arr_map; intros xs _; apply (C05_parabolarectangle_arrays fc p u n xs Hp Hu Hn).
Qed.
Print Assumptions C09_secant_array_parabolarectangle.
Theorem C09_secant_array_elasticplastic : forall E fy Eh su l eps, ep_init E fy Eh su = Ok l ->
  0 < fy -> 0 <= Eh -> (forall u, su = Some u -> fy / E <= u) -> / 1000000 < snd (ep_ult l) ->
  secant_arr (ep_stress_arr l) (ep_tangent_arr l) eps = map (secant (ep_stress l) (ep_tangent l)) eps.
Proof.
  intros E fy Eh su l eps H Hf Hh Hu Hs. apply secant_arr_map; intros xs _;
    apply (C05_elasticplastic_arrays E fy Eh su l xs H Hf Hh Hu Hs).
Qed.
Print Assumptions C09_secant_array_elasticplastic.
(** For the bilinear law the secant at zero strain differs between a scalar and
    an array. *)
Theorem C09_secant_array_bilinear_refuted : exists l,
  bil_init 30 (2/1000) (Some (35/10000)) = Ok l /\
  secant_arr (bil_stress_arr l) (bil_tangent_arr l) [0] <> [secant (bil_stress l) (bil_tangent l) 0].
Proof.
  unfold bil_init. destruct (Reqb_spec (2/1000) 0); [lra|]. eexists. split; [reflexivity|].
  unfold secant_arr, secant, bil_tangent, bil_tangent_arr. cbn [map select scatter].
  destruct (Reqb_spec 0 0); [|lra]. cbn [negb select scatter map masked bi_fc bi_ec bi_ecu bi_E].
  rewrite (Rabs_pos_eq (2/1000)), (Rabs_pos_eq 30) by lra. intros [= H]; revert H. rsplit; intros H; field_simplify in H; lra.
Qed.
Print Assumptions C09_secant_array_bilinear_refuted.

(** * C10: side effects on the caller's strain array *)
(** Evaluating a law rewrites the caller's array (prep_arr is both the processed
    strains and the new content of the array), so a second law evaluated on the
    same array afterwards answers for different strains. *)
Theorem C10_caller_array_unchanged_refuted : exists l eps,
  ep_init 200000 400 0 (Some (25/1000)) = Ok l /\ prep_arr (ep_ult l) eps <> eps.
Proof.
  unfold ep_init. destruct (Rltb_spec 0 200000); [|lra]. eexists. exists [25/1000 + / 1000000]. split; [reflexivity|].
  rewrite prep_arr_map; [|unfold separated, far, tol; cbn; rnum]. cbn [map].
  rewrite prep_max; [cbn; intros [= H]; lra|]. cbn. unfold near, tol. rnum.
Qed.
Print Assumptions C10_caller_array_unchanged_refuted.
Theorem C10_order_independence_refuted : exists la lb eps,
  ep_init 200000 400 0 (Some (25/1000)) = Ok la /\ elastic_init 200000 None = Ok lb /\
  elastic_stress_arr lb (prep_arr (ep_ult la) eps) <> elastic_stress_arr lb eps.
Proof.
  unfold ep_init, elastic_init. destruct (Rltb_spec 0 200000); [|lra]. destruct (Rleb_spec 200000 0); [lra|].
  eexists. eexists. exists [25/1000 + / 1000000]. split; [reflexivity|]. split; [reflexivity|].
  rewrite prep_arr_map; [|unfold separated, far, tol; cbn; rnum]. cbn [map].
  rewrite prep_max; [cbn; intros [= H]; lra|]. cbn. unfold near, tol. rnum.
Qed.
Print Assumptions C10_order_independence_refuted.
(** What does hold: the array is untouched when no strain is near a limit, and
    the change is always within the tolerance. *)
Theorem C10_caller_array : forall lim eps, separated lim ->
  ((forall e, In e eps -> far (fst lim) e /\ far (snd lim) e) -> prep_arr lim eps = eps) /\
  Forall2 (fun e e' => Rabs (e' - e) <= Rmax (tol (fst lim)) (tol (snd lim))) eps (prep_arr lim eps).
Proof.
  intros lim eps Hs. rewrite (prep_arr_map _ _ Hs). split.
  - intros H. rewrite <- (map_id eps) at 2. apply map_ext_in. intros e He. apply prep_far; apply (H e He).
  - induction eps as [|e eps IH]; constructor; [apply prep_close|exact IH].
Qed.
Print Assumptions C10_caller_array.
