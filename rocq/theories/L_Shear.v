From Coq Require Import ZArith Lra Lia.
From Verif Require Import Base M_Bars S_Bars L_Bars M_Calc S_Calc L_Calc M_Conc L_Conc M_Creep L_Creep M_Reinf M_Shear.
Open Scope R_scope.
Open Scope list_scope.

Lemma round2_near x : Rabs (round2 x - x) <= 5 / 1000.
Proof.
  unfold round2. cbv zeta. pose proof (floor_spec (100 * x + 1 / 2)) as [F1 F2]. set (f := floorZ (100 * x + 1 / 2)) in *.
  destruct (Reqb_spec (100 * x + 1 / 2) (IZR f)) as [E|E]; destruct (Z.odd f); cbn [andb]; rewrite ?minus_IZR; apply Rabs_le; lra.
Qed.
Lemma round2_lo x n : IZR n / 100 <= x -> IZR n / 100 <= round2 x.
Proof.
  intros H. unfold round2. cbv zeta. pose proof (floor_spec (100 * x + 1 / 2)) as [F1 F2]. set (f := floorZ (100 * x + 1 / 2)) in *.
  assert (L : (n <= f)%Z) by (apply Z.lt_succ_r, lt_IZR; rewrite succ_IZR; lra). destruct (Reqb_spec (100 * x + 1 / 2) (IZR f)) as [E|E]; cbn [andb].
  - assert (L2 : (n <= f - 1)%Z) by (apply Z.lt_succ_r, lt_IZR; rewrite succ_IZR, minus_IZR; lra). apply IZR_le in L, L2. destruct (Z.odd f); lra.
  - apply IZR_le in L. lra.
Qed.
Lemma round2_hi x n : x <= IZR n / 100 -> round2 x <= IZR n / 100.
Proof.
  intros H. unfold round2. cbv zeta. pose proof (floor_spec (100 * x + 1 / 2)) as [F1 F2]. set (f := floorZ (100 * x + 1 / 2)) in *.
  assert (L : (f <= n)%Z) by (apply Z.lt_succ_r, lt_IZR; rewrite succ_IZR; lra). apply IZR_le in L.
  destruct (Reqb_spec (100 * x + 1 / 2) (IZR f)) as [E|E]; destruct (Z.odd f); cbn [andb]; rewrite ?minus_IZR; lra.
Qed.
(** round2 beyond the ties at 0.995 and 2.505: 99.5 and 250.5 hundredths go to the even 100 and 250. *)
Lemma theta_ok theta : (sh_theta theta = Ok tt <-> 995 / 1000 <= cot (radians theta) <= 2505 / 1000) /\ (sh_theta theta = Ok tt \/ sh_theta theta = Err ValueError).
Proof.
  unfold sh_theta. set (c := cot (radians theta)).
  assert (A : (1 <= round2 c <-> 995 / 1000 <= c) /\ (round2 c <= 25 / 10 <-> c <= 2505 / 1000)).
  { assert (N2 : - (5 / 1000) <= round2 c - c <= 5 / 1000) by (pose proof (round2_near c) as N; pose proof (Rle_abs (round2 c - c)); pose proof (Rle_abs (- (round2 c - c))) as N3; rewrite Rabs_Ropp in N3; lra).
    split; split; intros H; try lra.
    - destruct (Rle_lt_dec (100 / 100) c) as [G|G]; [pose proof (round2_lo c 100 ltac:(lra)); lra|]. unfold round2. cbv zeta. pose proof (floor_spec (100 * c + 1 / 2)) as [F1 F2]. set (f := floorZ (100 * c + 1 / 2)) in *.
      assert (E : f = 100%Z). { assert (99 < f)%Z by (apply lt_IZR; lra). assert (f < 101)%Z by (apply lt_IZR; lra). lia. } rewrite E in *. cbn [Z.odd]. rewrite Bool.andb_false_r. lra.
    - destruct (Rle_lt_dec c (250 / 100)) as [G|G]; [pose proof (round2_hi c 250 ltac:(lra)); lra|]. unfold round2. cbv zeta. pose proof (floor_spec (100 * c + 1 / 2)) as [F1 F2]. set (f := floorZ (100 * c + 1 / 2)) in *.
      assert (250 <= f)%Z by (apply Z.lt_succ_r, lt_IZR; rewrite succ_IZR; lra). assert (f <= 251)%Z by (apply le_IZR; lra). assert (C : f = 250%Z \/ f = 251%Z) by lia. destruct C as [C|C]; rewrite C in *.
      + cbn [Z.odd]. rewrite Bool.andb_false_r. lra.
      + destruct (Reqb_spec (100 * c + 1 / 2) 251) as [E|E]; [cbn [Z.odd andb]; rewrite minus_IZR; lra|lra]. }
  destruct A as [A1 A2]. destruct (Rltb_spec (round2 c) 1) as [L|L]; cbn [orb]; [split; [split; [discriminate|intros; lra]|now right]|].
  destruct (Rltb_spec (25 / 10) (round2 c)) as [U|U]; (split; [split; [try discriminate; intros; lra|intros]|tauto]); [lra|reflexivity].
Qed.
Lemma cot_90 : sin (radians 90) = 1 /\ cot (radians 90) = 0.
Proof. unfold cot, radians. replace (90 * PI / 180) with (PI / 2) by field. rewrite sin_PI2, cos_PI2. split; [reflexivity|field]. Qed.
Lemma cot_45 : cot (radians 45) = 1.
Proof. unfold cot, radians. replace (45 * PI / 180) with (PI / 4) by field. rewrite <- sin_cos_PI4. apply Rdiv_diag || field. all: apply Rgt_not_eq, sin_gt_0; pose proof PI_RGT_0; lra. Qed.
Lemma sh_k_facts d : 0 < d -> 1 < sh_k d <= 2 /\ (d <= 200 -> sh_k d = 2) /\ (200 <= d -> (sh_k d - 1) ^ 2 * d = 200).
Proof.
  intros P. assert (Q : 0 < 200 / d) by (apply Rdiv_lt_0_compat; lra). pose proof (sqrt_lt_R0 _ Q). unfold sh_k. split; [unfold Rmin; destruct (Rle_dec _ _); lra|]. split; intros H1.
  - apply Rmin_right. assert (1 <= sqrt (200 / d)); [|lra]. rewrite <- sqrt_1. apply sqrt_le_1; try lra. apply (Rmult_le_reg_r d); [exact P|]. replace (200 / d * d) with 200 by (field; lra). lra.
  - rewrite Rmin_left. { replace (1 + sqrt (200 / d) - 1) with (sqrt (200 / d)) by ring. rewrite pow2_sqrt by lra. field. lra. }
    assert (sqrt (200 / d) <= 1); [|lra]. rewrite <- sqrt_1. apply sqrt_le_1; try lra. apply (Rmult_le_reg_r d); [exact P|]. replace (200 / d * d) with 200 by (field; lra). lra.
Qed.
