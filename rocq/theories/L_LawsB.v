From Coquelicot Require Import Coquelicot.
From Verif Require Import Base M_Laws S_Laws L_Laws.

(** *** Popovics *)
Definition popovics_wf (l : popovics) : Prop :=
  po_fc l <= 0 /\ po_ec l < 0 /\ po_ecu l < 0 /\ 1 < po_n l.

(** The constructor yields well-formed objects whenever the elastic modulus
    exceeds the secant modulus |fc/eps_c|. *)
Lemma popovics_init_wf fc ec ecu Ec l : popovics_init fc ec ecu Ec = Ok l ->
  fc <> 0 -> ecu <> 0 ->
  Rabs fc / Rabs ec < (match Ec with None => 5000 * sqrt (Rabs fc) | Some e => e end) ->
  popovics_wf l /\ po_fc l = - Rabs fc /\ po_ec l = - Rabs ec /\ po_ecu l = - Rabs ecu.
Proof.
  unfold popovics_init. cbv zeta. set (m := match Ec with None => _ | Some e => e end).
  destruct (Rleb_spec m 0); [discriminate|]. destruct (Reqb_spec ec 0); [discriminate|].
  assert (Hec := Rabs_pos_lt ec ltac:(assumption)).
  replace (- Rabs fc / - Rabs ec) with (Rabs fc / Rabs ec) by (field; lra).
  destruct (Reqb_spec (m - Rabs fc / Rabs ec) 0); [discriminate|].
  intros [= <-] Hfc Hecu Hm. assert (Hfc' := Rabs_pos_lt fc Hfc). assert (Hecu' := Rabs_pos_lt ecu Hecu).
  split; [|cbn; auto]. unfold popovics_wf; cbn. repeat split; try lra.
  assert (0 < Rabs fc / Rabs ec) by (apply Rdiv_lt_0_compat; lra).
  apply (Rmult_lt_reg_r (m - Rabs fc / Rabs ec)); [lra|].
  unfold Rdiv at 2. rewrite Rmult_assoc, Rinv_l by lra. lra.
Qed.

Definition popovics_cut (l : popovics) (e : R) : R :=
  if orb (Rltb e (po_ecu l)) (Rltb 0 e) then 0 else popovics_raw l e.

Lemma popovics_stress_raw l e : popovics_stress l e = popovics_cut l (prep (popovics_ult l) e).
Proof. reflexivity. Qed.

Lemma popovics_stress_arr_map l eps : separated (popovics_ult l) ->
  popovics_stress_arr l eps = map (popovics_stress l) eps.
Proof.
  intros Hs. unfold popovics_stress_arr. rewrite (prep_arr_map _ _ Hs). cbv zeta.
  arr_norm. apply map_ext. intros e. unfold popovics_stress. cbv zeta.
  destruct (Rltb 0 _); destruct (Rltb _ (po_ecu l)); reflexivity.
Qed.
Lemma popovics_tangent_arr_map l eps : separated (popovics_ult l) ->
  popovics_tangent_arr l eps = map (popovics_tangent l) eps.
Proof.
  intros Hs. unfold popovics_tangent_arr. rewrite (prep_arr_map _ _ Hs). cbv zeta.
  arr_norm. apply map_ext. intros e. unfold popovics_tangent. cbv zeta.
  destruct (Rltb 0 _); destruct (Rltb _ (po_ecu l)); reflexivity.
Qed.

(** Bernoulli's inequality for real exponents. *)
Lemma ln_ge x : 0 < x -> 1 - / x <= ln x.
Proof.
  intros H. assert (E := exp_ineq1_le (- ln x)). rewrite exp_Ropp, exp_ln in E by exact H. lra.
Qed.
Lemma bernoulli x n : 0 <= x -> 1 < n -> n * x <= n - 1 + pypow x n.
Proof.
  intros [H|<-] Hn.
  - rewrite pypow_pos by exact H.
    replace n with (1 + (n - 1)) at 3 by lra. rewrite Rpower_plus, Rpower_1 by exact H.
    assert (L := ln_ge x H). assert (E := exp_ineq1_le ((n - 1) * ln x)).
    fold (Rpower x (n - 1)) in E.
    assert (1 + (n - 1) * (1 - / x) <= Rpower x (n - 1)) by nra.
    assert (x * (1 + (n - 1) * (1 - / x)) <= x * Rpower x (n - 1)) by (apply Rmult_le_compat_l; lra).
    assert (x * (1 + (n - 1) * (1 - / x)) = n * x - (n - 1)) by (field; lra). lra.
  - rewrite pypow_0 by lra. lra.
Qed.

Lemma popovics_den l e : popovics_wf l -> 0 < po_n l - 1 + pypow (e / po_ec l) (po_n l).
Proof. intros (_ & _ & _ & H). assert (P := pypow_ge0 (e / po_ec l) (po_n l)). lra. Qed.

Lemma popovics_bounds l e : popovics_wf l -> po_fc l <= popovics_stress l e <= 0.
Proof.
  intros W. rewrite popovics_stress_raw. set (x := prep _ e).
  assert (D := popovics_den l x W). destruct W as (H1 & H2 & H3 & H4).
  unfold popovics_cut. destruct (Rltb_spec x (po_ecu l)); cbn [orb]; [lra|].
  destruct (Rltb_spec 0 x); [lra|]. unfold popovics_raw. cbv zeta.
  assert (R := ratio_range (po_ec l) (po_ecu l) x H2 ltac:(lra)).
  set (t := x / po_ec l) in *.
  assert (B := bernoulli t (po_n l) ltac:(lra) H4).
  set (d := po_n l - 1 + pypow t (po_n l)) in *.
  assert (Hq : 0 <= t * po_n l / d <= 1).
  { split.
    - apply Rmult_le_pos; [nra|]. left. apply Rinv_0_lt_compat. exact D.
    - apply (Rmult_le_reg_r d); [exact D|]. unfold Rdiv. rewrite Rmult_assoc, Rinv_l by lra. lra. }
  replace (po_fc l * t * po_n l / d) with (po_fc l * (t * po_n l / d)) by (unfold Rdiv; ring). nra.
Qed.

Lemma popovics_peak l : popovics_wf l -> popovics_raw l (po_ec l) = po_fc l.
Proof.
  intros (H1 & H2 & H3 & H4). unfold popovics_raw. cbv zeta.
  replace (po_ec l / po_ec l) with 1 by (field; lra). rewrite pypow_1. field. lra.
Qed.

Lemma popovics_deriv l x : popovics_wf l ->
  far (fst (popovics_ult l)) x -> far (snd (popovics_ult l)) x -> x <> 0 ->
  is_derive (popovics_stress l) x (popovics_tangent l x).
Proof.
  intros W F1 F2 N1.
  assert (Nu : x <> po_ecu l).
  { cbn in F1. unfold far in F1. intros ->. replace (po_ecu l - po_ecu l) with 0 in F1 by lra. rewrite Rabs_R0 in F1.
    assert (T := tol_pos (po_ecu l)). lra. }
  assert (Hx : forall e, popovics_stress l e = popovics_cut l (prep (popovics_ult l) e)) by reflexivity.
  unfold popovics_tangent. rewrite (prep_far _ _ F2 F1). cbv zeta.
  assert (D0 : forall c y, is_derive (fun _ : R => c) y 0) by (intros; auto_derive; trivial).
  destruct (Rltb_spec x (po_ecu l)) as [A|A]; cbn [orb].
  { eapply (deriv_prep _ _ (popovics_cut l) (fun _ => 0) x _ (x - 1) (po_ecu l) Hx F2 F1); [lra| |apply D0].
    intros t Ht. unfold popovics_cut. destruct (Rltb_spec t (po_ecu l)); [reflexivity|lra]. }
  destruct (Rltb_spec 0 x) as [B|B].
  { eapply (deriv_prep _ _ (popovics_cut l) (fun _ => 0) x _ 0 (x + 1) Hx F2 F1); [lra| |apply D0].
    intros t Ht. unfold popovics_cut. destruct (Rltb_spec t (po_ecu l)); [reflexivity|]. cbn [orb].
    destruct (Rltb_spec 0 t); [reflexivity|lra]. }
  assert (D := popovics_den l x W). destruct W as (H1 & H2 & H3 & H4).
  assert (P : forall t, t < 0 -> 0 < t / po_ec l).
  { intros t Ht. replace (t / po_ec l) with (- t / - po_ec l) by (field; lra). apply Rdiv_lt_0_compat; lra. }
  eapply (deriv_prep _ _ (popovics_cut l)
    (fun t => po_fc l * (t / po_ec l) * po_n l / (po_n l - 1 + Rpower (t / po_ec l) (po_n l))) x _ (po_ecu l) 0 Hx F2 F1); [lra| |].
  - intros t Ht. unfold popovics_cut. destruct (Rltb_spec t (po_ecu l)); [lra|]. cbn [orb].
    destruct (Rltb_spec 0 t); [lra|]. unfold popovics_raw. cbv zeta. rewrite pypow_pos by (apply P; lra). reflexivity.
  - unfold popovics_raw_tangent. cbv zeta. assert (Px := P x ltac:(lra)).
    rewrite pypow_pos in * by exact Px. unfold Rpower in *.
    unfold Rdiv in Px, D. auto_derive.
    + split; [exact Px|]. split; [lra|exact I].
    + unfold Rdiv. set (E := exp (po_n l * ln (x * / po_ec l))) in *. field.
      repeat split; try lra.
Qed.

(** *** Secant *)
Lemma secant_def (st tg : R -> R) e :
  (e <> 0 -> secant st tg e * e = st e) /\ secant st tg 0 = tg 0.
Proof.
  unfold secant. split.
  - intros N. destruct (Reqb_spec e 0); [contradiction|]. cbn [negb]. field. exact N.
  - destruct (Reqb_spec 0 0); [reflexivity|lra].
Qed.

Lemma secant_arr_map (st tg : R -> R) (sta tga : list R -> list R) eps :
  (forall l, incl l eps -> sta l = map st l) ->
  (forall l, incl l eps -> tga l = map tg l) ->
  secant_arr sta tga eps = map (secant st tg) eps.
Proof.
  intros Hs Ht. unfold secant_arr.
  assert (Sel : forall (p : R -> bool) l, incl (select (map p l) l) l).
  { intros p l. induction l as [|a l IH]; cbn; [apply incl_refl|].
    destruct (p a); [apply incl_cons; [left; reflexivity|]|]; apply incl_tl; exact IH. }
  rewrite Ht, Hs by apply Sel. clear Hs Ht Sel.
  induction eps as [|e l IH]; [reflexivity|].
  cbn [map select scatter]. unfold secant at 1.
  destruct (Reqb e 0); cbn [negb scatter select map zipdiv combine fst snd].
  - f_equal. exact IH.
  - cbn. f_equal. exact IH.
Qed.
