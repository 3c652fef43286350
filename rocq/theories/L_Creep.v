From Coq Require Import String ZArith Lra Lia.
From Verif Require Import Base S_Marin L_Marin M_Registry M_Calc S_Calc L_Calc M_Conc L_Conc M_Creep.
Open Scope R_scope.
Open Scope list_scope.

(** * Continuity *)
Lemma no_jump_cont f x : continuity_pt f x -> no_jump f x.
Proof.
  intros C e P. destruct (C e P) as (d & PD & H). exists d. split; [exact PD|]. intros y L. destruct (Req_dec y x) as [-> | N]; [rewrite Rminus_diag_eq, Rabs_R0 by reflexivity; exact P|].
  apply (H y). split; [split; [exact I|congruence]|exact L].
Qed.
Lemma no_jump_glue f g x : no_jump f x -> no_jump g x -> f x = g x -> forall h, (forall y, y < x -> h y = f y) -> (forall y, x <= y -> h y = g y) -> no_jump h x.
Proof.
  intros F G E h HF HG e P. destruct (F e P) as (d1 & P1 & H1). destruct (G e P) as (d2 & P2 & H2). exists (Rmin d1 d2). split; [unfold Rmin; destruct (Rle_dec _ _); assumption|].
  intros y L. pose proof (Rmin_l d1 d2). pose proof (Rmin_r d1 d2). rewrite (HG x) by lra. destruct (Rlt_dec y x) as [Y|Y]; [rewrite (HF y Y), <- E; apply H1; lra|rewrite (HG y) by lra; apply H2; lra].
Qed.
Lemma no_jump_glue_r f g x : no_jump f x -> no_jump g x -> f x = g x -> forall h, (forall y, y <= x -> h y = f y) -> (forall y, x < y -> h y = g y) -> no_jump h x.
Proof.
  intros F G E h HF HG e P. destruct (F e P) as (d1 & P1 & H1). destruct (G e P) as (d2 & P2 & H2). exists (Rmin d1 d2). split; [unfold Rmin; destruct (Rle_dec _ _); assumption|].
  intros y L. pose proof (Rmin_l d1 d2). pose proof (Rmin_r d1 d2). rewrite (HF x) by lra. destruct (Rle_dec y x) as [Y|Y]; [rewrite (HF y Y); apply H1; lra|rewrite (HG y) by lra; rewrite E; apply H2; lra].
Qed.
Lemma no_jump_near f g x d : 0 < d -> (forall y, Rabs (y - x) < d -> f y = g y) -> no_jump g x -> no_jump f x.
Proof.
  intros P E G e PE. destruct (G e PE) as (d' & P' & H). exists (Rmin d d'). split; [unfold Rmin; destruct (Rle_dec _ _); assumption|]. intros y L. pose proof (Rmin_l d d'). pose proof (Rmin_r d d').
  rewrite (E y) by lra. rewrite (E x) by (rewrite Rminus_diag_eq, Rabs_R0 by reflexivity; exact P). apply H. lra.
Qed.
Lemma pw_derivable a x : 0 < x -> continuity_pt (fun y => Rpower y a) x.
Proof. intros P. apply derivable_continuous_pt. exists (a * Rpower x (a - 1)). apply derivable_pt_lim_power, P. Qed.
Lemma no_jump_pw f a x : no_jump f x -> 0 < f x -> no_jump (fun y => pw (f y) a) x.
Proof.
  intros F P e PE. destruct (no_jump_cont _ _ (pw_derivable a (f x) P) e PE) as (d & PD & H). destruct (F (Rmin d (f x)) ltac:(unfold Rmin; destruct (Rle_dec _ _); assumption)) as (d' & PD' & H'). exists d'. split; [exact PD'|].
  intros y L. specialize (H' y L). pose proof (Rmin_l d (f x)). pose proof (Rmin_r d (f x)). assert (0 < f y). { assert (Q : Rabs (f y - f x) < f x) by lra. apply Rabs_def2 in Q. lra. }
  rewrite !pw_Rpower by assumption. apply H. lra.
Qed.
(** * Fractions x / (c + x) *)
Definition frac (c x : R) : R := x / (c + x).
Lemma frac_range c x : 0 < c -> 0 <= x -> 0 <= frac c x < 1.
Proof.
  intros C X. unfold frac. split; [apply Rmult_le_pos; [exact X|apply Rlt_le, Rinv_0_lt_compat; lra]|]. apply (Rmult_lt_reg_r (c + x)); [lra|]. replace (x / (c + x) * (c + x)) with x by (field; lra). lra.
Qed.
Lemma frac_lt c x y : 0 < c -> 0 <= x < y -> frac c x < frac c y.
Proof.
  intros C H. unfold frac. apply (Rmult_lt_reg_r ((c + x) * (c + y))); [apply Rmult_lt_0_compat; lra|].
  replace (x / (c + x) * ((c + x) * (c + y))) with (x * (c + y)) by (field; lra). replace (y / (c + y) * ((c + x) * (c + y))) with (y * (c + x)) by (field; lra). nra.
Qed.
Lemma frac_le c x y : 0 < c -> 0 <= x <= y -> frac c x <= frac c y.
Proof. intros C [H0 [H|H]]; [apply Rlt_le, frac_lt; lra|subst; lra]. Qed.
Lemma frac_0 c x : 0 < c -> 0 <= x -> frac c x = 0 <-> x = 0.
Proof. intros C X. unfold frac. split; [intros E; assert (Q : x / (c + x) * (c + x) = x) by (field; lra); rewrite E in Q; lra|intros ->; unfold Rdiv; ring]. Qed.
Lemma frac_settles c e : 0 < c -> 0 < e -> forall x, c / e <= x -> 1 - e < frac c x.
Proof.
  intros C E x H. assert (P : 0 < c / e) by (apply Rdiv_lt_0_compat; assumption). unfold frac. apply (Rmult_lt_reg_r (c + x)); [lra|]. replace (x / (c + x) * (c + x)) with x by (field; lra).
  assert (Q : c / e * e <= x * e) by (apply Rmult_le_compat_r; lra). replace (c / e * e) with c in Q by (field; lra). nra.
Qed.
Lemma pw_self u y : 0 <= u <= 1 -> 0 < y <= 1 -> u <= pw u y.
Proof.
  intros U Y. destruct (Req_dec u 0) as [-> | N]; [rewrite pw_0; lra|]. rewrite pw_Rpower by lra. unfold Rpower. replace u with (exp (ln u)) at 1 by (apply exp_ln; lra).
  assert (L : ln u <= 0). { rewrite <- ln_1. destruct (Req_dec u 1) as [-> | N1]; [lra|]. apply Rlt_le, ln_increasing; lra. }
  destruct (Req_dec (ln u) (y * ln u)) as [E|E]; [rewrite <- E; lra|]. apply Rlt_le, exp_increasing. nra.
Qed.
Lemma sqrt_self u : 0 <= u <= 1 -> u <= sqrt u.
Proof. intros U. pose proof (sqrt_pos u). pose proof (sqrt_sqrt u ltac:(lra)). assert (sqrt u <= 1) by (rewrite <- sqrt_1; apply sqrt_le_1; lra). nra. Qed.
Lemma exp_neg_bound y : 1 - y <= exp (- y).
Proof. pose proof (exp_ineq1_le (- y)). lra. Qed.
Lemma exp_lt_1 y : 0 < y -> exp (- y) < 1.
Proof. intros P. rewrite <- exp_0. apply exp_increasing. lra. Qed.
Lemma Rabs_near_1 x e : 1 - e < x -> x < 1 -> 0 < e -> Rabs (x - 1) < e.
Proof. intros A B C. rewrite Rabs_left by lra. lra. Qed.
Lemma Rmax_pos a : 0 <= Rmax a 0.
Proof. apply Rmax_r. Qed.
Lemma Rmax_mono a b : a <= b -> Rmax a 0 <= Rmax b 0.
Proof. intros H. unfold Rmax. destruct (Rle_dec a 0), (Rle_dec b 0); lra. Qed.
Lemma Rmax_0 a : Rmax a 0 = 0 <-> a <= 0.
Proof. unfold Rmax. destruct (Rle_dec a 0); split; intros; lra. Qed.
(** * 1 - exp(-a sqrt t) *)
Lemma autogenous a : 0 < a -> let f := fun t => 1 - exp (- a * sqrt t) in f 0 = 0 /\ (forall t, 0 <= t -> 0 <= f t < 1) /\ increases (fun t => 0 <= t) f /\ settles f 1.
Proof.
  intros A f. assert (F : forall t, 0 <= t -> 0 <= f t < 1).
  { intros t T. unfold f. pose proof (exp_pos (- a * sqrt t)). pose proof (sqrt_pos t). assert (exp (- a * sqrt t) <= 1); [|lra]. rewrite <- exp_0. assert (L : - a * sqrt t <= 0) by nra. destruct L as [L|L]; [apply Rlt_le, exp_increasing, L|rewrite L; lra]. }
  split; [unfold f; rewrite sqrt_0, Rmult_0_r, exp_0; ring|]. split; [exact F|]. split.
  - intros x y HX HY H. unfold f. assert (exp (- a * sqrt y) < exp (- a * sqrt x)); [|lra]. apply exp_increasing. pose proof (sqrt_lt_1 x y HX HY H). nra.
  - intros e P. set (q := / (a * e)). assert (PQ : 0 < q) by (apply Rinv_0_lt_compat, Rmult_lt_0_compat; assumption). exists (Rsqr q). intros x L. assert (X : 0 < x) by (pose proof (Rlt_0_sqr q ltac:(lra)); lra).
    apply Rabs_near_1; [|apply F; lra|exact P]. unfold f. assert (S1 : q <= sqrt x). { replace q with (sqrt (Rsqr q)) by (apply sqrt_Rsqr; lra). apply sqrt_le_1; [apply Rle_0_sqr|lra|exact L]. }
    replace (- a * sqrt x) with (- (a * sqrt x)) by ring. rewrite exp_Ropp. assert (Z : 0 < a * sqrt x) by (apply Rmult_lt_0_compat; lra). pose proof (exp_ineq1 (a * sqrt x) ltac:(lra)) as Q.
    assert (U : / e < exp (a * sqrt x)). { assert (a * q <= a * sqrt x) by (apply Rmult_le_compat_l; lra). assert (a * q = / e) by (unfold q; field; lra). lra. }
    assert (V : / exp (a * sqrt x) < / / e). { apply Rinv_lt_contravar; [apply Rmult_lt_0_compat; [apply Rinv_0_lt_compat, P|apply exp_pos]|exact U]. } rewrite Rinv_inv in V. lra.
Qed.
(** * beta_cc *)
Lemma beta_cc_facts s : 0 < s -> ec_beta_cc 28 s = 1 /\ increases (fun t => 0 < t) (fun t => ec_beta_cc t s) /\ (forall t, 0 < t -> 0 < ec_beta_cc t s < exp s) /\ settles (fun t => ec_beta_cc t s) (exp s).
Proof.
  intros PS. assert (SQ : forall t, 0 < t -> 0 < sqrt (28 / t)) by (intros t T; apply sqrt_lt_R0, Rdiv_lt_0_compat; lra). unfold ec_beta_cc. split; [|split; [|split]].
  - replace (28 / 28) with 1 by field. rewrite sqrt_1. replace (s * (1 - 1)) with 0 by ring. apply exp_0.
  - intros x y HX HY H. apply exp_increasing. apply Rmult_lt_compat_l; [exact PS|]. assert (sqrt (28 / y) < sqrt (28 / x)); [|lra]. apply sqrt_lt_1; try (apply Rlt_le, Rdiv_lt_0_compat; lra).
    apply Rmult_lt_compat_l; [lra|]. apply Rinv_lt_contravar; [apply Rmult_lt_0_compat; assumption|exact H].
  - intros t T. split; [apply exp_pos|]. apply exp_increasing. pose proof (SQ t T). nra.
  - intros e P. pose proof (exp_pos s) as PE. set (d := e / (2 * exp s * s)). assert (PD : 0 < d) by (apply Rdiv_lt_0_compat; [exact P|]; apply Rmult_lt_0_compat; [lra|exact PS]).
    exists (28 / Rsqr d). intros t T. assert (P2 : 0 < Rsqr d) by (apply Rlt_0_sqr; lra). assert (PT : 0 < t) by (pose proof (Rdiv_lt_0_compat 28 _ ltac:(lra) P2); lra).
    assert (L : sqrt (28 / t) <= d). { replace d with (sqrt (Rsqr d)) by (apply sqrt_Rsqr; lra). apply sqrt_le_1; [apply Rlt_le, Rdiv_lt_0_compat; lra|lra|]. apply (Rmult_le_reg_r t); [exact PT|]. replace (28 / t * t) with 28 by (field; lra).
      assert (Q : 28 / Rsqr d * Rsqr d <= t * Rsqr d) by (apply Rmult_le_compat_r; lra). replace (28 / Rsqr d * Rsqr d) with 28 in Q by (field; lra). lra. }
    pose proof (SQ t PT) as P3. replace (s * (1 - sqrt (28 / t))) with (s + - (s * sqrt (28 / t))) by ring. rewrite exp_plus. pose proof (exp_neg_bound (s * sqrt (28 / t))) as B. pose proof (exp_lt_1 (s * sqrt (28 / t)) ltac:(apply Rmult_lt_0_compat; lra)) as B1.
    set (z := exp (- (s * sqrt (28 / t)))) in *. replace (exp s * z - exp s) with (- (exp s * (1 - z))) by ring. rewrite Rabs_Ropp, Rabs_pos_eq by (apply Rmult_le_pos; lra).
    apply Rle_lt_trans with (exp s * (s * d)); [apply Rmult_le_compat_l; [lra|]; nra|]. unfold d. replace (exp s * (s * (e / (2 * exp s * s)))) with (e / 2) by (field; lra). lra.
Qed.
Lemma beta_cc_cont s t : 0 < t -> continuity_pt (fun t => ec_beta_cc t s) t.
Proof.
  intros T. unfold ec_beta_cc. assert (Q : 0 < 28 / t) by (apply Rdiv_lt_0_compat; lra).
  apply (continuity_pt_comp (fun t => s * (1 - sqrt (28 / t))) exp); [|apply derivable_continuous_pt, derivable_pt_exp].
  apply continuity_pt_mult; [apply continuity_pt_const; intros a b; reflexivity|]. apply continuity_pt_minus; [apply continuity_pt_const; intros a b; reflexivity|].
  apply (continuity_pt_comp (fun t => 28 / t) sqrt); [|apply continuity_pt_sqrt; lra]. apply continuity_pt_mult; [apply continuity_pt_const; intros a b; reflexivity|]. apply continuity_pt_inv; [apply derivable_continuous_pt, derivable_pt_id|unfold id; lra].
Qed.
Lemma ec_beta_as_sqrt t : 0 <= t -> ec_beta_as t = 1 - exp (- (2 / 10) * sqrt t).
Proof. intros H. unfold ec_beta_as. destruct (Req_dec t 0) as [-> | N]; [rewrite pw_0, sqrt_0; reflexivity|]. rewrite pw_Rpower by lra. replace (1 / 2) with (/ 2) by field. rewrite Rpower_sqrt by lra. reflexivity. Qed.
