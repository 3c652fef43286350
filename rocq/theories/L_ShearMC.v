(** Lemmas for MC2010 shear and torsion. *)
From Coq Require Import ZArith Lra Lia.
From Verif Require Import Base M_Calc S_Calc L_Calc L_Conc L_Shear L_Crack M_ShearMC S_ShearMC.
Open Scope R_scope.

Lemma eps_nonneg E A z l : 0 <= epsilon_x E A z l.
Proof. apply Rmax_r. Qed.
Lemma eps_force E A z l : 0 < E -> 0 < A -> 2 * E * A * epsilon_x E A z l = Rmax (chord_force z l) 0.
Proof.
  intros PE PA. unfold epsilon_x. fold (chord_force z l). assert (P : 0 < 2 * E * A) by (repeat apply Rmult_lt_0_compat; lra). replace (1 / (2 * E * A) * chord_force z l) with (chord_force z l / (2 * E * A)) by (field; lra).
  replace 0 with (0 / (2 * E * A)) at 1 by (field; lra). rewrite Rmax_div by exact P. field. lra.
Qed.
Lemma eta_bounds f : 0 < f -> 0 < eta_fc f <= 1.
Proof.
  intros P. unfold eta_fc. assert (0 < pw (30 / f) (1 / 3)) by (apply pw_pos, Rdiv_lt_0_compat; lra). unfold Rmin. destruct (Rle_dec _ _); lra.
Qed.
(** The strut geometry factor. *)
Lemma strut_90 x : sin x <> 0 -> (cot x + 0) / (1 + cot x ^ 2) = sin x * cos x.
Proof.
  intros NS. unfold cot. pose proof (sin2_cos2 x) as SC. unfold Rsqr in SC. assert (D : 1 + (cos x / sin x) ^ 2 = / (sin x * sin x)). { replace (1 + (cos x / sin x) ^ 2) with ((sin x * sin x + cos x * cos x) * / (sin x * sin x)) by (field; exact NS). rewrite SC. ring. } rewrite D. field. exact NS.
Qed.
Lemma strain_factor_min e c : 0 <= e -> strain_factor e c (Rmin (1 / (12 / 10 + 55 * (e + (e + 2 / 1000) * c ^ 2))) (65 / 100)).
Proof.
  intros P. unfold strain_factor. replace (c ^ 2) with (c * c) by ring. set (q := 12 / 10 + 55 * (e + (e + 2 / 1000) * (c * c))). assert (Q : 0 < q). { assert (0 <= c * c) by (apply Rle_0_sqr). unfold q. assert (0 <= (e + 2 / 1000) * (c * c)) by (apply Rmult_le_pos; lra). lra. }
  split; [apply Rmin_r|]. split.
  - apply Rle_trans with (1 / q * q); [apply Rmult_le_compat_r; [lra|apply Rmin_l]|]. right. field. lra.
  - unfold Rmin. destruct (Rle_dec _ _); [right; field; lra|left; reflexivity].
Qed.
Lemma strain_factor_pos e c k : 0 <= e -> strain_factor e c k -> 0 < k.
Proof.
  intros P (K1 & K2 & [K|K]); [lra|]. revert K. set (q := 12 / 10 + _). intros K. assert (Q : 0 < q). { assert (0 <= c * c) by (apply Rle_0_sqr). unfold q. assert (0 <= (e + 2 / 1000) * (c * c)) by (apply Rmult_le_pos; lra). lra. } apply Rnot_le_lt. intros L. nra.
Qed.
Lemma strain_factor_fun e c k k' : 0 <= e -> strain_factor e c k -> strain_factor e c k' -> k = k'.
Proof.
  intros P. unfold strain_factor. cbv zeta. set (q := 12 / 10 + _). assert (Q : 0 < q). { assert (0 <= c * c) by (apply Rle_0_sqr). unfold q. assert (0 <= (e + 2 / 1000) * (c * c)) by (apply Rmult_le_pos; lra). lra. }
  assert (M : forall a b, a * q <= b * q -> a <= b) by (intros a b L; apply (Rmult_le_reg_r q); lra). intros (A1 & A2 & A3) (B1 & B2 & B3). apply Rle_antisym; destruct A3 as [A3|A3], B3 as [B3|B3]; try lra; apply M; lra.
Qed.
Lemma fsqr_pos f : 0 < f -> 0 < Rmin (sqrt f) 8.
Proof. intros P. pose proof (sqrt_lt_R0 f P). unfold Rmin. destruct (Rle_dec _ _); lra. Qed.
Lemma sin_cos_half x : sin x * cos x <= 1 / 2.
Proof. pose proof (sin2_cos2 x) as SC. unfold Rsqr in SC. pose proof (pow2_ge_0 (sin x - cos x)). nra. Qed.
