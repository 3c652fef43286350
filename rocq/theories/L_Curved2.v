(** Lemmas for C60: a polygon through the tenths of a curve is close to the curve. *)
From Coquelicot Require Import Coquelicot.
From Coq Require Import FunctionalExtensionality Lra Lia.
From Verif Require Import Base S_Laws S_Discr S_Curved M_Laws M_Laws2 L_Laws.

Lemma at_tenth u e : u < 0 -> u <= e <= 0 -> exists k w, (k < 10)%nat /\ 0 <= w <= 1 /\ e = u * ((INR k + w) / 10).
Proof.
  intros U E. assert (V : 0 <= e / u * 10 <= 10).
  { assert (0 <= e / u). { replace (e / u) with (- e * / - u) by (field; lra). apply Rmult_le_pos; [lra|apply Rlt_le, Rinv_0_lt_compat; lra]. }
    assert (e / u <= 1). { apply Rmult_le_reg_r with (- u); [lra|]. replace (e / u * - u) with (- e) by (field; lra). lra. } lra. }
  assert (K : forall n, (n <= 10)%nat -> e / u * 10 <= INR n -> exists k w, (k < 10)%nat /\ 0 <= w <= 1 /\ e / u * 10 = INR k + w).
  { induction n as [|n IH]; intros Hn H.
    - exists 0%nat, 0. split; [lia|]. split; [lra|]. cbn in *. lra.
    - destruct (Rle_dec (e / u * 10) (INR n)) as [A|A]; [apply IH; [lia|exact A]|].
      exists n, (e / u * 10 - INR n). rewrite S_INR in H. split; [lia|]. split; [lra|]. ring. }
  destruct (K 10%nat (le_n _)) as (k & w & Hk & W & Q); [cbn; lra|]. exists k, w. split; [exact Hk|]. split; [exact W|]. rewrite <- Q. field. lra.
Qed.
Lemma steep_error u s L f : u < 0 -> 0 <= L -> polygon_at_tenths u s f -> steep_at_most L u s -> forall e, u <= e <= 0 -> Rabs (f e - s e) <= L * (- u) / 20.
Proof.
  intros U L0 [_ P] LP e E. destruct (at_tenth u e U E) as (k & w & Hk & W & ->). rewrite (P k Hk w W).
  assert (B : 0 <= INR k <= 9). { split; [apply pos_INR|]. replace 9 with (INR 9) by (cbn; lra). apply le_INR. lia. }
  rewrite S_INR in *. set (a := u * (INR k / 10)). set (b := u * ((INR k + 1) / 10)). set (x := u * ((INR k + w) / 10)) in *.
  assert (AB : u <= a <= 0 /\ u <= b <= 0) by (unfold a, b; nra). destruct AB as (A & B').
  replace ((1 - w) * s a + w * s b - s x) with ((1 - w) * (s a - s x) + w * (s b - s x)) by ring.
  eapply Rle_trans; [apply Rabs_triang|]. rewrite !Rabs_mult, (Rabs_pos_eq (1 - w)), (Rabs_pos_eq w) by lra.
  pose proof (LP a x A E) as H1. pose proof (LP b x B' E) as H2.
  replace (a - x) with (w * (- u / 10)) in H1 by (unfold a, x; field). replace (b - x) with (- ((1 - w) * (- u / 10))) in H2 by (unfold b, x; field).
  rewrite Rabs_Ropp in H2. rewrite Rabs_mult, (Rabs_pos_eq w), (Rabs_pos_eq (- u / 10)) in H1 by lra. rewrite Rabs_mult, (Rabs_pos_eq (1 - w)), (Rabs_pos_eq (- u / 10)) in H2 by lra.
  apply (Rmult_le_compat_l (1 - w)) in H1; [|lra]. apply (Rmult_le_compat_l w) in H2; [|lra].
  apply Rle_trans with (2 * (w * (1 - w)) * (L * (- u / 10))); [lra|].
  assert (Q : w * (1 - w) <= 1/4) by (pose proof (pow2_ge_0 (w - 1/2)); lra).
  assert (LU : 0 <= L * (- u / 10)) by (apply Rmult_le_pos; lra).
  apply (Rmult_le_compat_r (L * (- u / 10))) in Q; [|exact LU]. lra.
Qed.
Lemma compression_is u s e : u <= e <= 0 -> in_compression u s e = s e.
Proof. intros E. unfold in_compression. destruct (Rle_dec e u); [f_equal; lra|]. destruct (Rle_dec e 0); [reflexivity|lra]. Qed.
Lemma compression_clamped u s e : u <= 0 -> in_compression u s e = s (Rmin 0 (Rmax u e)).
Proof.
  intros U. unfold in_compression. destruct (Rle_dec e u); [rewrite (Rmax_left u e) by lra; rewrite Rmin_right by lra; reflexivity|]. rewrite Rmax_right by lra.
  destruct (Rle_dec e 0); [now rewrite Rmin_right by lra|now rewrite Rmin_left by lra].
Qed.
Lemma clamp_continuous u (e : R) : continuity_pt (fun e => Rmin 0 (Rmax u e)) e.
Proof.
  intros eps E. exists eps. split; [exact E|]. intros y (_ & D). unfold Base, dist in *. cbn in *. unfold R_dist in *. eapply Rle_lt_trans; [|exact D].
  unfold Rmax, Rmin. destruct (Rle_dec u y), (Rle_dec u e); repeat destruct (Rle_dec 0 _); unfold Rabs; repeat destruct (Rcase_abs _); lra.
Qed.
Lemma compression_continuous u s : u < 0 -> (forall e, u <= e <= 0 -> continuity_pt s e) -> forall e, continuity_pt (in_compression u s) e.
Proof.
  intros U C e. replace (in_compression u s) with (fun e => s (Rmin 0 (Rmax u e))) by (apply functional_extensionality; intros x; symmetry; apply compression_clamped; lra).
  apply (continuity_pt_comp (fun e => Rmin 0 (Rmax u e)) s); [apply clamp_continuous|]. apply C.
  unfold Rmax, Rmin. destruct (Rle_dec u e); repeat destruct (Rle_dec 0 _); lra.
Qed.
Lemma compression_steep u s L : u < 0 -> 0 <= L -> steep_at_most L u s -> forall e, continuity_pt (in_compression u s) e.
Proof.
  intros U L0 LP e. replace (in_compression u s) with (fun e => s (Rmin 0 (Rmax u e))) by (apply functional_extensionality; intros x; symmetry; apply compression_clamped; lra).
  intros eps E. destruct (clamp_continuous u e (eps / (L + 1)) ltac:(apply Rdiv_lt_0_compat; lra)) as (al & A & H).
  exists al. split; [exact A|]. intros y HY. specialize (H y HY). unfold Base, dist in *. cbn in *. unfold R_dist in *.
  assert (IN : forall x, u <= Rmin 0 (Rmax u x) <= 0) by (intros x; unfold Rmax, Rmin; destruct (Rle_dec u x); repeat destruct (Rle_dec 0 _); lra).
  eapply Rle_lt_trans; [apply LP; apply IN|]. set (m := Rabs _) in *.
  apply Rle_lt_trans with ((L + 1) * m); [apply Rmult_le_compat_r; [apply Rabs_pos|lra]|].
  apply (Rmult_lt_compat_l (L + 1)) in H; [|lra]. replace ((L + 1) * (eps / (L + 1))) with eps in H by (field; lra). exact H.
Qed.
Lemma bounded_slope (f df : R -> R) M a b : (forall x, a <= x <= b -> is_derive f x (df x)) -> (forall x, a <= x <= b -> Rabs (df x) <= M) ->
  forall x y, a <= x <= b -> a <= y <= b -> Rabs (f y - f x) <= M * Rabs (y - x).
Proof.
  intros D B x y X Y. assert (IN : forall c, Rmin x y <= c <= Rmax x y -> a <= c <= b) by (intros c; unfold Rmin, Rmax; destruct (Rle_dec x y); lra).
  destruct (MVT_gen f x y df) as (c & C & E).
  - intros c C. apply D, IN. lra.
  - intros c C. apply continuity_pt_filterlim. apply (ex_derive_continuous (V := R_NormedModule)). exists (df c). apply D, IN, C.
  - rewrite E, Rabs_mult. apply Rmult_le_compat_r; [apply Rabs_pos|]. apply B, IN, C.
Qed.
(** Sargin's curve. *)
Section Sargin.
Variables (F E1 k U : R).
Hypothesis F0 : 0 <= F.
Hypothesis E0 : 0 < E1.
Hypothesis U0 : 0 < U.
Hypothesis D0 : 0 < 1 + (k - 2) * (U / E1).
Let mm := Rmin 1 (1 + (k - 2) * (U / E1)).
Definition sargin_slope (e : R) : R := let x := - e / E1 in F / E1 * (k - 2 * x - (k - 2) * x ^ 2) / (1 + (k - 2) * x) ^ 2.
Definition sargin_bend (e : R) : R := let x := - e / E1 in 2 * F * (k - 1) ^ 2 / (E1 ^ 2 * (1 + (k - 2) * x) ^ 3).
Lemma sargin_denom e : - U <= e <= 0 -> mm <= 1 + (k - 2) * (- e / E1) /\ 0 < mm.
Proof.
  intros E. assert (X : 0 <= - e / E1 <= U / E1).
  { split; [apply Rmult_le_pos; [lra|apply Rlt_le, Rinv_0_lt_compat, E0]|]. apply Rmult_le_compat_r; [apply Rlt_le, Rinv_0_lt_compat, E0|lra]. }
  unfold mm. split; [|unfold Rmin; destruct (Rle_dec 1 _); lra].
  destruct (Rle_dec 0 (k - 2)) as [S|S].
  - eapply Rle_trans; [apply Rmin_l|]. assert (0 <= (k - 2) * (- e / E1)) by (apply Rmult_le_pos; lra). lra.
  - eapply Rle_trans; [apply Rmin_r|]. assert ((2 - k) * (- e / E1) <= (2 - k) * (U / E1)) by (apply Rmult_le_compat_l; lra). lra.
Qed.
Lemma sargin_derives e : - U <= e <= 0 -> is_derive (sargin_curve F E1 k) e (sargin_slope e).
Proof.
  intros E. destruct (sargin_denom e E) as (A & B). unfold sargin_curve, sargin_slope. 
  assert (N : 1 + (k - 2) * (- e / E1) <> 0) by lra. 
  auto_derive; [split; [lra|exact Logic.I] || (repeat split; lra)|]. field. split; [lra|].
  intros Z. apply N. replace (1 + (k - 2) * (- e / E1)) with ((E1 + (k - 2) * - e) / E1) by (field; lra). rewrite Z. unfold Rdiv. ring.
Qed.
Lemma sargin_bends e : - U <= e <= 0 -> is_derive sargin_slope e (sargin_bend e).
Proof.
  intros E. destruct (sargin_denom e E) as (A & B). unfold sargin_slope, sargin_bend.
  assert (N : 1 + (k - 2) * (- e / E1) <> 0) by lra. assert (N2 : (1 + (k - 2) * (- e / E1)) ^ 2 <> 0) by (apply pow_nonzero, N).
  auto_derive; [cbn in *; repeat split; try lra; try assumption|]. field. split; [lra|].
  intros Z. apply N. replace (1 + (k - 2) * (- e / E1)) with ((E1 + (k - 2) * - e) / E1) by (field; lra). rewrite Z. unfold Rdiv. ring.
Qed.
Lemma sargin_bends_at_most : bends_at_most (2 * F * (k - 1) ^ 2 / (E1 ^ 2 * mm ^ 3)) (- U) (sargin_curve F E1 k).
Proof.
  exists sargin_slope. split; [intros e E; apply is_derive_Reals, sargin_derives, E|].
  intros x y X XY Y. rewrite <- (Rabs_pos_eq (y - x)) by lra.
  apply (bounded_slope sargin_slope sargin_bend _ (- U) 0); [intros c C; apply sargin_bends, C| |lra|lra].
  intros c C. destruct (sargin_denom c C) as (A & B). unfold sargin_bend. set (D := 1 + (k - 2) * (- c / E1)) in *.
  assert (P1 : 0 < E1 ^ 2) by (apply pow_lt; lra). assert (P2 : 0 < mm ^ 3) by (apply pow_lt; lra). assert (P3 : mm ^ 3 <= D ^ 3) by (apply pow_incr; lra).
  assert (P4 : 0 <= 2 * F * (k - 1) ^ 2) by (apply Rmult_le_pos; [lra|apply pow2_ge_0]).
  assert (P5 : 0 < E1 ^ 2 * mm ^ 3) by (apply Rmult_lt_0_compat; assumption). assert (P6 : E1 ^ 2 * mm ^ 3 <= E1 ^ 2 * D ^ 3) by (apply Rmult_le_compat_l; lra).
  rewrite Rabs_pos_eq.
  - apply Rmult_le_compat_l; [exact P4|]. apply Rinv_le_contravar; assumption.
  - apply Rmult_le_pos; [exact P4|apply Rlt_le, Rinv_0_lt_compat; lra].
Qed.
End Sargin.
(** The parabola with exponent n >= 1 and its plateau. *)
Lemma power_steep n x y : 1 <= n -> 0 <= x <= 1 -> 0 <= y <= 1 -> Rabs (pypow x n - pypow y n) <= n * Rabs (x - y).
Proof.
  intros N. 
  assert (Z : forall x, 0 < x <= 1 -> 0 <= Rpower x n <= n * x).
  { intros t T. split; [apply Rlt_le, exp_pos|]. apply Rle_trans with (1 * t); [|apply Rmult_le_compat_r; lra]. rewrite Rmult_1_l.
    rewrite <- (Rpower_1 t) at 2 by lra. unfold Rpower. assert (LN : ln t <= 0) by (rewrite <- ln_1; destruct T as [T [T1 | ->]]; [left; apply ln_increasing; lra|right; reflexivity]).
    destruct (Req_dec n 1) as [-> |]; [lra|]. destruct (Req_dec (ln t) 0) as [E|E]; [rewrite E, !Rmult_0_r; lra|]. left. apply exp_increasing.
    assert (0 < (n - 1) * - ln t) by (apply Rmult_lt_0_compat; lra). lra. }
  assert (W : forall x y, 0 < x <= 1 -> 0 < y <= 1 -> Rabs (Rpower y n - Rpower x n) <= n * Rabs (y - x)).
  { intros a b A B. apply (bounded_slope (fun t => Rpower t n) (fun t => n * Rpower t (n - 1)) n (Rmin a b) 1).
    - intros t T. assert (0 < t) by (pose proof (Rmin_pos a b (proj1 A) (proj1 B)); lra). apply is_derive_Reals. now apply derivable_pt_lim_power.
    - intros t T. assert (TP : 0 < t) by (pose proof (Rmin_pos a b (proj1 A) (proj1 B)); lra). rewrite Rabs_pos_eq; [|apply Rmult_le_pos; [lra|apply Rlt_le, exp_pos]].
      apply Rle_trans with (n * 1); [|lra]. apply Rmult_le_compat_l; [lra|]. unfold Rpower. apply Rle_trans with (exp 0); [|rewrite exp_0; lra].
      assert (LN : ln t <= 0) by (rewrite <- ln_1; destruct T as [_ [T1 | ->]]; [left; apply ln_increasing; lra|right; reflexivity]).
      assert (Q : (n - 1) * ln t <= 0) by (assert (0 <= (n - 1) * - ln t) by (apply Rmult_le_pos; lra); lra).
      destruct Q as [Q|Q]; [left; apply exp_increasing, Q|rewrite Q; lra].
    - split; [apply Rmin_l|lra].
    - split; [apply Rmin_r|lra]. }
  assert (PZ : pypow 0 n = 0) by (unfold pypow; destruct (Reqb_spec 0 0); [|lra]; destruct (Reqb_spec n 0); [lra|reflexivity]).
  intros X Y. destruct (Req_dec x 0) as [-> |NX]; destruct (Req_dec y 0) as [-> |NY].
  - rewrite !Rminus_eq_0, !Rabs_R0. lra.
  - rewrite PZ, (pypow_pos y) by lra. destruct (Z y ltac:(lra)). rewrite !Rminus_0_l, !Rabs_Ropp, !Rabs_pos_eq by lra. lra.
  - rewrite PZ, (pypow_pos x) by lra. destruct (Z x ltac:(lra)). rewrite !Rminus_0_r, !Rabs_pos_eq by lra. lra.
  - rewrite !pypow_pos by lra. apply W; lra.
Qed.
Lemma parabola_steep F p n u : 0 <= F -> 0 < p -> 1 <= n -> steep_at_most (n * F / p) u (parabola_curve F p n).
Proof.
  intros F0 P N.
  assert (Q : forall e, e <= 0 -> parabola_curve F p n e = - F * (1 - pypow (Rmax 0 (1 + e / p)) n) /\ 0 <= Rmax 0 (1 + e / p) <= 1).
  { intros e E. assert (X : e / p <= 0) by (assert (0 <= - e / p) by (apply Rmult_le_pos; [lra|apply Rlt_le, Rinv_0_lt_compat, P]); lra).
    split; [|unfold Rmax; destruct (Rle_dec 0 (1 + e / p)); lra]. unfold parabola_curve.
    assert (PZ : pypow 0 n = 0) by (unfold pypow; destruct (Reqb_spec 0 0); [|lra]; destruct (Reqb_spec n 0); [lra|reflexivity]).
    destruct (Rle_dec e (- p)) as [A|A].
    - rewrite Rmax_left; [rewrite PZ; ring|]. apply Rmult_le_reg_r with p; [exact P|]. replace ((1 + e / p) * p) with (p + e) by (field; lra). lra.
    - assert (0 < 1 + e / p). { apply Rmult_lt_reg_r with p; [exact P|]. replace ((1 + e / p) * p) with (p + e) by (field; lra). lra. }
      rewrite Rmax_right, pypow_pos by lra. reflexivity. }
  intros x y X Y. destruct (Q x ltac:(lra)) as (-> & X1). destruct (Q y ltac:(lra)) as (-> & Y1).
  set (a := Rmax 0 (1 + x / p)) in *. set (b := Rmax 0 (1 + y / p)) in *.
  replace (- F * (1 - pypow a n) - - F * (1 - pypow b n)) with (F * (pypow a n - pypow b n)) by ring. rewrite Rabs_mult, (Rabs_pos_eq F) by lra.
  pose proof (power_steep n a b N X1 Y1) as H. assert (AB : Rabs (a - b) <= Rabs (x - y) / p).
  { apply Rle_trans with (Rabs (x / p - y / p)); [unfold a, b, Rmax; destruct (Rle_dec 0 (1 + x / p)), (Rle_dec 0 (1 + y / p)); unfold Rabs; repeat destruct (Rcase_abs _); lra|].
    replace (x / p - y / p) with ((x - y) * / p) by (field; lra). rewrite Rabs_mult, (Rabs_pos_eq (/ p)) by (apply Rlt_le, Rinv_0_lt_compat, P). unfold Rdiv. lra. }
  apply (Rmult_le_compat_l F) in H; [|exact F0]. apply (Rmult_le_compat_l (F * n)) in AB; [|apply Rmult_le_pos; lra].
  replace (n * F / p * Rabs (x - y)) with (F * n * (Rabs (x - y) / p)) by (field; lra). lra.
Qed.
(** Popovics' curve. *)
Section Popovics.
Variables (F E1 n : R).
Hypothesis F0 : 0 <= F.
Hypothesis E0 : 0 < E1.
Hypothesis N1 : 1 < n.
Let g (x : R) : R := x * n / (n - 1 + pypow x n).
Let L := n * Rmax (/ (n - 1)) (/ 4).
Lemma ratio_bound q : 0 <= q -> Rabs ((n - 1) * (1 - q) / (n - 1 + q) ^ 2) <= Rmax (/ (n - 1)) (/ 4).
Proof.
  intros Q. set (m := n - 1). assert (M : 0 < m) by (unfold m; lra). assert (D : 0 < (m + q) ^ 2) by (apply pow_lt; lra).
  unfold Rdiv. rewrite Rabs_mult, (Rabs_pos_eq (/ _)) by (apply Rlt_le, Rinv_0_lt_compat, D).
  apply Rmult_le_reg_r with ((m + q) ^ 2); [exact D|]. rewrite Rmult_assoc, Rinv_l, Rmult_1_r by lra.
  destruct (Rle_dec q 1) as [H|H].
  - apply Rle_trans with (/ m * (m + q) ^ 2); [|apply Rmult_le_compat_r; [lra|apply Rmax_l]]. rewrite Rabs_pos_eq by (apply Rmult_le_pos; lra).
    apply Rle_trans with (/ m * m ^ 2). { replace (/ m * m ^ 2) with (m * 1) by (field; lra). apply Rmult_le_compat_l; lra. }
    apply Rmult_le_compat_l; [apply Rlt_le, Rinv_0_lt_compat, M|]. apply pow_incr. lra.
  - apply Rle_trans with (/ 4 * (m + q) ^ 2); [|apply Rmult_le_compat_r; [lra|apply Rmax_r]]. rewrite Rabs_left1 by (assert (0 <= m * (q - 1)) by (apply Rmult_le_pos; lra); lra).
    pose proof (pow2_ge_0 (m - q)). assert (0 < m * q) by (apply Rmult_lt_0_compat; lra). lra.
Qed.
Lemma hill_steep x y : 0 <= x -> 0 <= y -> Rabs (g x - g y) <= L * Rabs (x - y).
Proof.
  assert (LP : 0 < L) by (unfold L; apply Rmult_lt_0_compat; [lra|]; eapply Rlt_le_trans; [|apply Rmax_r]; lra).
  assert (Z : forall x, 0 < x -> 0 <= g x <= L * x).
  { intros t T. unfold g. rewrite pypow_pos by exact T. pose proof (exp_pos (n * ln t)) as Q. fold (Rpower t n) in Q.
    split; [apply Rmult_le_pos; [apply Rmult_le_pos; lra|apply Rlt_le, Rinv_0_lt_compat; lra]|].
    apply Rle_trans with (t * n * / (n - 1)).
    - unfold Rdiv. apply Rmult_le_compat_l; [apply Rmult_le_pos; lra|]. apply Rinv_le_contravar; lra.
    - unfold L. replace (t * n * / (n - 1)) with (n * t * / (n - 1)) by ring. replace (n * Rmax (/ (n - 1)) (/ 4) * t) with (n * t * Rmax (/ (n - 1)) (/ 4)) by ring.
      apply Rmult_le_compat_l; [apply Rmult_le_pos; lra|apply Rmax_l]. }
  assert (G0 : g 0 = 0) by (unfold g; unfold Rdiv; ring).
  assert (W : forall a b, 0 < a -> 0 < b -> Rabs (g b - g a) <= L * Rabs (b - a)).
  { intros a b A B. assert (MP : 0 < Rmin a b) by (now apply Rmin_pos).
    assert (X : Rabs ((fun t => t * n / (n - 1 + Rpower t n)) b - (fun t => t * n / (n - 1 + Rpower t n)) a) <= L * Rabs (b - a)).
    { apply (bounded_slope (fun t => t * n / (n - 1 + Rpower t n)) (fun t => n * ((n - 1) * (1 - Rpower t n) / (n - 1 + Rpower t n) ^ 2)) L (Rmin a b) (Rmax a b)).
      - intros t (T & _). assert (0 < t) by lra. assert (DP : is_derive (fun t => Rpower t n) t (n * Rpower t (n - 1))) by (apply is_derive_Reals; now apply derivable_pt_lim_power).
        pose proof (exp_pos (n * ln t)) as Q. fold (Rpower t n) in Q.
        evar_last; [apply (is_derive_div (fun t => t * n) (fun t => n - 1 + Rpower t n) t n (n * Rpower t (n - 1)))|].
        + auto_derive; [exact Logic.I|ring].
        + evar_last; [apply (is_derive_plus (fun _ => n - 1) (fun t => Rpower t n)); [apply is_derive_const|exact DP]|]. apply Rplus_0_l.
        + lra.
        + unfold minus, plus, opp, mult, scal; cbn. replace (Rpower t (n - 1)) with (Rpower t n / t). 2:{ unfold Rminus. rewrite Rpower_plus, Rpower_Ropp, Rpower_1 by lra. reflexivity. }
          field. split; [lra|]. lra.
      - intros t (T & _). assert (0 < t) by lra. rewrite Rabs_mult, (Rabs_pos_eq n) by lra. apply Rmult_le_compat_l; [lra|]. apply ratio_bound. apply Rlt_le, exp_pos.
      - split; [apply Rmin_l|apply Rmax_l].
      - split; [apply Rmin_r|apply Rmax_r]. }
    unfold g. rewrite !pypow_pos by assumption. exact X. }
  intros X Y. destruct (Req_dec x 0) as [-> |NX]; destruct (Req_dec y 0) as [-> |NY].
  - rewrite !Rminus_eq_0, !Rabs_R0. lra.
  - rewrite G0. destruct (Z y ltac:(lra)). rewrite !Rminus_0_l, !Rabs_Ropp, !Rabs_pos_eq by lra. lra.
  - rewrite G0. destruct (Z x ltac:(lra)). rewrite !Rminus_0_r, !Rabs_pos_eq by lra. lra.
  - apply W; lra.
Qed.
Lemma popovics_is_hill e : e <= 0 -> popovics_curve F E1 n e = - F * g (- e / E1).
Proof.
  intros E. unfold popovics_curve, g. cbv zeta. destruct (Rle_dec 0 e) as [H|H].
  - replace e with 0 by lra. unfold Rdiv. ring.
  - rewrite pypow_pos; [unfold Rdiv; ring|]. apply Rdiv_lt_0_compat; lra.
Qed.
Lemma popovics_steep u : steep_at_most (n * Rmax (/ (n - 1)) (/ 4) * F / E1) u (popovics_curve F E1 n).
Proof.
  intros x y X Y. rewrite !popovics_is_hill by lra.
  assert (PX : forall e, u <= e <= 0 -> 0 <= - e / E1) by (intros e E; apply Rmult_le_pos; [lra|apply Rlt_le, Rinv_0_lt_compat, E0]).
  pose proof (hill_steep _ _ (PX x X) (PX y Y)) as H. replace (- F * g (- x / E1) - - F * g (- y / E1)) with (- (F * (g (- x / E1) - g (- y / E1)))) by ring.
  rewrite Rabs_Ropp, Rabs_mult, (Rabs_pos_eq F) by lra. replace (- x / E1 - - y / E1) with (- ((x - y) * / E1)) in H by (field; lra).
  rewrite Rabs_Ropp, Rabs_mult, (Rabs_pos_eq (/ E1)) in H by (apply Rlt_le, Rinv_0_lt_compat, E0).
  apply (Rmult_le_compat_l F) in H; [|exact F0]. fold L. replace (L * F / E1 * Rabs (x - y)) with (F * (L * (Rabs (x - y) * / E1))) by (field; lra). exact H.
Qed.
End Popovics.
