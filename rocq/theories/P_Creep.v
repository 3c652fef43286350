(** C36: creep and shrinkage, EC2:2004 and MC2010. *)
From Coq Require Import String ZArith Lra Lia.
From Verif Require Import Base S_Marin L_Marin M_Registry M_Calc S_Calc L_Calc M_Conc S_Conc L_Conc M_Creep S_Creep L_Creep.
Open Scope R_scope.
Open Scope list_scope.

(** * EC2:2004 shrinkage *)
Theorem C36_ec_drying : forall ts h, 0 < h -> develops ts (fun t => ec_beta_ds t ts h) /\
  forall t, ts <= t -> exists r, 0 < r /\ r ^ 2 = h ^ 3 /\ ec_beta_ds t ts h * (t - ts + 4 / 100 * r) = t - ts.
Proof.
  intros ts h P. pose proof (pw_pos h (3 / 2) P) as PR. set (c := 4 / 100 * pw h (3 / 2)). assert (PC : 0 < c) by (unfold c; lra).
  assert (E : forall t, ec_beta_ds t ts h = frac c (Rmax (t - ts) 0)) by (intros t; unfold ec_beta_ds, frac; fold c; cbv zeta; rewrite (Rplus_comm _ c); reflexivity).
  split; [split; [|split; [|split]]|].
  - intros t. rewrite E. apply frac_range; [exact PC|apply Rmax_pos].
  - intros t. rewrite E, frac_0, Rmax_0 by (exact PC || apply Rmax_pos). split; lra.
  - intros x y HX HY H. rewrite !E, !Rmax_left by lra. apply frac_lt; [exact PC|lra].
  - intros e PE. exists (ts + c / e). intros t T. rewrite E. assert (0 < c / e) by (apply Rdiv_lt_0_compat; assumption). rewrite Rmax_left by lra. apply Rabs_near_1; [apply frac_settles; [exact PC|exact PE|lra]|apply frac_range; lra|exact PE].
  - intros t T. exists (pw h (3 / 2)). split; [exact PR|]. split; [apply (pw_frac h (3 / 2) 3 2); [lia|lra|cbn [Z.of_nat Pos.of_succ_nat Pos.succ]; lra]|].
    rewrite E, Rmax_left by lra. unfold frac. fold c. field. lra.
Qed.
Print Assumptions C36_ec_drying.
Theorem C36_ec_k_h : never_rises (fun _ => True) ec_k_h /\ (forall h, h <= 100 -> ec_k_h h = 1) /\ (forall h, 500 <= h -> ec_k_h h = 7 / 10) /\
  forall h, 100 <= h <= 500 -> on_table [(100, 1); (200, 85 / 100); (300, 75 / 100); (500, 7 / 10)] h (ec_k_h h).
Proof.
  assert (RS : rising [(100, 1); (200, 85 / 100); (300, 75 / 100); (500, 7 / 10)]) by rising_tac.
  split; [|split; [|split]].
  - intros x y _ _ H. unfold ec_k_h. pose proof (np_interp_mono (-1) (100, 1) [(200, 85 / 100); (300, 75 / 100); (500, 7 / 10)] x y ltac:(lra) RS) as Q.
    assert (M : forall a b, In (a, b) (edges [(100, 1); (200, 85 / 100); (300, 75 / 100); (500, 7 / 10)]) -> -1 * snd a <= -1 * snd b) by (intros a b I; cbn [edges] in I; repeat (destruct I as [I|I]; [injection I as <- <-; cbn [snd]; lra|]); destruct I).
    specialize (Q M H). lra.
  - intros h H. unfold ec_k_h, np_interp. cbn [fst snd]. destruct (Rleb_spec h 100); [reflexivity|lra].
  - intros h H. unfold ec_k_h, np_interp. cbn [fst snd]. destruct (Rleb_spec h 100); [lra|]. rewrite interp_end; [reflexivity|exact RS|discriminate|cbn [last fst]; lra].
  - intros h H. apply np_interp_on; [exact RS|cbn [fst last]; lra].
Qed.
Print Assumptions C36_ec_k_h.
Theorem C36_autogenous : forall f, f = ec_beta_as \/ f = mc_beta_bs ->
  f 0 = 0 /\ (forall t, 0 <= t -> 0 <= f t < 1 /\ exists x, 0 <= x /\ x ^ 2 = t /\ ln (1 - f t) = - x / 5) /\ increases (fun t => 0 <= t) f /\ settles f 1.
Proof.
  assert (A : forall f, (forall t, 0 <= t -> f t = 1 - exp (- (2 / 10) * sqrt t)) -> f 0 = 0 /\ (forall t, 0 <= t -> 0 <= f t < 1 /\ exists x, 0 <= x /\ x ^ 2 = t /\ ln (1 - f t) = - x / 5) /\ increases (fun t => 0 <= t) f /\ settles f 1).
  { intros f E. destruct (autogenous (2 / 10) ltac:(lra)) as (Z & B & M & S1). cbv beta in Z, B, M. split; [rewrite E by lra; exact Z|]. split; [|split].
    - intros t T. rewrite E by exact T. split; [apply B, T|]. exists (sqrt t). split; [apply sqrt_pos|]. split; [apply pow2_sqrt, T|]. replace (1 - (1 - exp (- (2 / 10) * sqrt t))) with (exp (- (2 / 10) * sqrt t)) by ring. rewrite ln_exp. field.
    - intros x y HX HY H. rewrite !E by assumption. apply M; assumption.
    - intros e P. destruct (S1 e P) as (t & Q). exists (Rmax t 0). intros x L. pose proof (Rmax_l t 0). pose proof (Rmax_r t 0). rewrite E by lra. apply Q. lra. }
  intros f [-> | ->]; apply A; intros t T; [apply ec_beta_as_sqrt, T|reflexivity].
Qed.
Print Assumptions C36_autogenous.
(** Basic values.  Drying: positive below 100% humidity, 0.85 times MC2010's strain
    times beta_RH, and less for stronger concrete.  Autogenous: positive above 10 MPa
    only, negative below. *)
Theorem C36_ec_basic : forall a1 a2 fcm RH, 0 <= a1 -> 0 < a2 ->
  (RH <= 100 -> 0 <= ec_eps_cd_0 a1 a2 fcm (ec_beta_RH RH 100) 10) /\ (0 <= RH < 100 -> 0 < ec_eps_cd_0 a1 a2 fcm (ec_beta_RH RH 100) 10) /\
  ec_beta_RH 100 100 = 0 /\ ec_beta_RH 0 100 = 155 / 100 /\ decreases (fun _ => True) (fun RH => ec_beta_RH RH 100) /\
  (0 <= RH < 100 -> decreases (fun _ => True) (fun fcm => ec_eps_cd_0 a1 a2 fcm (ec_beta_RH RH 100) 10)) /\
  (forall b, ec_eps_cd_0 a1 a2 fcm b 10 * 10 ^ 6 = 85 / 100 * (220 + 110 * a1) * exp (- a2 * fcm / 10) * b) /\
  (forall fck, ec_eps_ca_inf fck * 10 ^ 6 = 5 / 2 * (fck - 10)) /\ (forall fck, 0 <= ec_eps_ca_inf fck <-> 10 <= fck).
Proof.
  intros a1 a2 fcm RH P1 P2.
  assert (CU : forall x y, x < y -> x ^ 3 < y ^ 3). { intros x y H. assert (0 < y ^ 3 - x ^ 3); [|lra]. replace (y ^ 3 - x ^ 3) with ((y - x) * (((2 * y + x) ^ 2 + 3 * x ^ 2) / 4)) by field. apply Rmult_lt_0_compat; [lra|].
    pose proof (pow2_ge_0 (2 * y + x)). pose proof (pow2_ge_0 x). destruct (Req_dec x 0) as [-> | N]; [nra|]. assert (0 < x ^ 2) by (pose proof (Rsqr_pos_lt x N); unfold Rsqr in *; lra). lra. }
  assert (D : decreases (fun _ => True) (fun RH => ec_beta_RH RH 100)). { intros x y _ _ H. unfold ec_beta_RH. assert ((x / 100) ^ 3 < (y / 100) ^ 3) by (apply CU; lra). lra. }
  assert (E1 : ec_beta_RH 100 100 = 0) by (unfold ec_beta_RH; field). assert (E0 : ec_beta_RH 0 100 = 155 / 100) by (unfold ec_beta_RH; field).
  assert (NB : forall r, r < 100 -> 0 < ec_beta_RH r 100) by (intros r H; rewrite <- E1; apply D; trivial).
  assert (K : forall f, 0 < 85 / 100 * ((220 + 110 * a1) * exp (- a2 * f / 10)) * / 1000000). { intros f. pose proof (exp_pos (- a2 * f / 10)). assert (0 < (220 + 110 * a1) * exp (- a2 * f / 10)) by (apply Rmult_lt_0_compat; lra). lra. }
  split; [|split; [|split; [exact E1|split; [exact E0|split; [exact D|split; [|split; [|split]]]]]]].
  - intros H. unfold ec_eps_cd_0. apply Rmult_le_pos; [apply Rlt_le, K|]. destruct (Req_dec RH 100) as [-> | N]; [lra|]. apply Rlt_le, NB. lra.
  - intros H. unfold ec_eps_cd_0. apply Rmult_lt_0_compat; [apply K|apply NB; lra].
  - intros H x y _ _ L. unfold ec_eps_cd_0. apply Rmult_lt_compat_r; [apply NB; lra|]. apply Rmult_lt_compat_r; [lra|]. apply Rmult_lt_compat_l; [lra|]. apply Rmult_lt_compat_l; [lra|]. apply exp_increasing. unfold Rdiv. apply Rmult_lt_compat_r; [lra|]. nra.
  - intros b. unfold ec_eps_cd_0. field.
  - intros fck. unfold ec_eps_ca_inf. field.
  - intros fck. unfold ec_eps_ca_inf. split; lra.
Qed.
Print Assumptions C36_ec_basic.
(** Total shrinkage over time: never falls and stays below the final value. *)
Theorem C36_ec_total : forall ts h eps0 ca, 0 < h -> 0 <= eps0 -> 0 <= ca ->
  let eps t := ec_eps_cs (ec_eps_cd (ec_beta_ds t ts h) (ec_k_h h) eps0) (ec_eps_ca (ec_beta_as t) ca) in
  never_falls (fun t => 0 <= t) eps /\ (forall t, 0 <= t -> 0 <= eps t <= ec_k_h h * eps0 + ca).
Proof.
  intros ts h eps0 ca PH P0 PC eps. destruct (C36_ec_drying ts h PH) as ((B1 & Z1 & M1 & _) & _). destruct (C36_autogenous ec_beta_as (or_introl eq_refl)) as (Z2 & B2 & M2 & _).
  assert (KH : 7 / 10 <= ec_k_h h <= 1). { destruct C36_ec_k_h as (M & L & U & _). split; [rewrite <- (U (Rmax h 500)) by apply Rmax_r; apply M; trivial; apply Rmax_l|rewrite <- (L (Rmin h 100)) by apply Rmin_r; apply M; trivial; apply Rmin_l]. }
  unfold eps, ec_eps_cs, ec_eps_cd, ec_eps_ca. split.
  - intros x y HX HY H. apply Rplus_le_compat.
    + apply Rmult_le_compat_r; [exact P0|]. apply Rmult_le_compat_r; [lra|]. destruct (Rle_dec x ts) as [A|A]; [rewrite (proj2 (Z1 x) A); apply B1|]. destruct H as [H|H]; [apply Rlt_le, M1; lra|subst; lra].
    + apply Rmult_le_compat_r; [exact PC|]. destruct H as [H|H]; [apply Rlt_le, M2; assumption|subst; lra].
  - intros t T. pose proof (B1 t). destruct (B2 t T) as [B3 _]. assert (0 <= ec_k_h h * eps0) by (apply Rmult_le_pos; lra). rewrite Rmult_assoc. split.
    + apply Rplus_le_le_0_compat; apply Rmult_le_pos; lra.
    + apply Rplus_le_compat; [rewrite <- (Rmult_1_l (ec_k_h h * eps0)) at 2; apply Rmult_le_compat_r; lra|rewrite <- (Rmult_1_l ca) at 2; apply Rmult_le_compat_r; lra].
Qed.
Print Assumptions C36_ec_total.

(** * EC2:2004 creep *)
(** The strength factors: 1 at 35 MPa, below 1 and falling above. *)
Theorem C36_ec_alphas : forall f, f = ec_alpha_1 \/ f = ec_alpha_2 \/ f = ec_alpha_3 -> f 35 = 1 /\ decreases (fun x => 0 < x) f /\ forall x, 0 < x -> 0 < f x.
Proof.
  assert (A : forall a, 0 < a -> let f := fun x => pw (35 / x) a in f 35 = 1 /\ decreases (fun x => 0 < x) f /\ forall x, 0 < x -> 0 < f x).
  { intros a P f. unfold f. split; [replace (35 / 35) with 1 by field; apply pw_1|]. split.
    - intros x y HX HY H. apply pw_lt; [exact P|]. split; [apply Rlt_le, Rdiv_lt_0_compat; lra|]. apply Rmult_lt_compat_l; [lra|]. apply Rinv_lt_contravar; [apply Rmult_lt_0_compat; assumption|exact H].
    - intros x HX. apply pw_pos, Rdiv_lt_0_compat; lra. }
  intros f [-> | [-> | ->]]; [apply (A (7 / 10))|apply (A (2 / 10))|apply (A (1 / 2))]; lra.
Qed.
Print Assumptions C36_ec_alphas.
Theorem C36_ec_alpha_powers : forall x, 0 < x -> ec_alpha_1 x ^ 10 = (35 / x) ^ 7 /\ ec_alpha_2 x ^ 5 = 35 / x /\ ec_alpha_3 x ^ 2 = 35 / x.
Proof.
  intros x P. assert (0 <= 35 / x) by (apply Rlt_le, Rdiv_lt_0_compat; lra). unfold ec_alpha_1, ec_alpha_2, ec_alpha_3.
  split; [apply (pw_frac _ _ 7 10)|split; [rewrite (pw_frac _ _ 1 5); [ring|..]|rewrite (pw_frac _ _ 1 2); [ring|..]]]; try lia; try assumption; cbn [Z.of_nat Pos.of_succ_nat Pos.succ]; lra.
Qed.
Print Assumptions C36_ec_alpha_powers.
(** Humidity: phi_RH is at least 1 (its factor alpha_2 aside) up to 100%, falls with
    the humidity; with the code's factors it and beta_H have no jump at 35 MPa. *)
Theorem C36_ec_humidity : forall h, 0 < h ->
  (forall fcm RH, 0 < fcm -> RH <= 100 -> fcm <= 35 /\ 1 <= ec_phi_RH h fcm RH (ec_alpha_1 fcm) (ec_alpha_2 fcm) \/ 35 < fcm /\ ec_alpha_2 fcm <= ec_phi_RH h fcm RH (ec_alpha_1 fcm) (ec_alpha_2 fcm)) /\
  (forall fcm, 0 < fcm -> decreases (fun _ => True) (fun RH => ec_phi_RH h fcm RH (ec_alpha_1 fcm) (ec_alpha_2 fcm))) /\
  (forall RH, no_jump (fun fcm => ec_phi_RH h fcm RH (ec_alpha_1 fcm) (ec_alpha_2 fcm)) 35) /\
  (forall RH, no_jump (fun fcm => ec_beta_H h fcm RH (ec_alpha_3 fcm)) 35) /\
  (forall fcm RH, 0 < fcm -> 0 < ec_beta_H h fcm RH (ec_alpha_3 fcm) <= 1500) /\
  (forall RH a1 a2, exists r, 0 < r /\ r ^ 3 = h /\ (ec_phi_RH h 35 RH a1 a2 - 1) * r = (100 - RH) / 10).
Proof.
  intros h P. pose proof (pw_pos h (1 / 3) P) as PR. set (r := 1 / 10 * pw h (1 / 3)) in *. assert (Pr : 0 < r) by (unfold r; lra). pose proof (Rinv_0_lt_compat r Pr) as PI.
  destruct (C36_ec_alphas ec_alpha_1 (or_introl eq_refl)) as (O1 & D1 & P1). destruct (C36_ec_alphas ec_alpha_2 (or_intror (or_introl eq_refl))) as (O2 & D2 & P2). destruct (C36_ec_alphas ec_alpha_3 (or_intror (or_intror eq_refl))) as (O3 & D3 & P3).
  assert (LO : forall fcm RH a1 a2, fcm <= 35 -> ec_phi_RH h fcm RH a1 a2 = 1 + (1 - RH / 100) / r) by (intros; unfold ec_phi_RH; destruct (Rleb_spec fcm 35); [reflexivity|lra]).
  assert (HI : forall fcm RH a1 a2, 35 < fcm -> ec_phi_RH h fcm RH a1 a2 = (1 + (1 - RH / 100) / r * a1) * a2) by (intros; unfold ec_phi_RH; destruct (Rleb_spec fcm 35); [lra|reflexivity]).
  assert (NJ : forall a, no_jump (fun f => pw (35 / f) a) 35).
  { intros a. apply no_jump_pw; [|lra]. apply no_jump_cont. apply continuity_pt_mult; [apply continuity_pt_const; intros u v; reflexivity|]. apply continuity_pt_inv; [apply derivable_continuous_pt, derivable_pt_id|unfold id; lra]. }
  assert (NK : forall c, no_jump (fun _ => c) 35) by (intros c e PE; exists 1; split; [lra|]; intros y _; rewrite Rminus_diag_eq, Rabs_R0 by reflexivity; exact PE).
  assert (CJ : forall f x, no_jump f x -> continuity_pt f x) by (intros f x N e PE; destruct (N e PE) as (d & PD & H); exists d; split; [exact PD|]; intros y [_ L]; apply H, L).
  split; [|split; [|split; [|split; [|split]]]].
  - intros fcm RH PF HR. destruct (Rle_dec fcm 35) as [L|L]; [left; split; [exact L|]; rewrite LO by exact L|right; split; [lra|]; rewrite HI by lra].
    + assert (0 <= (1 - RH / 100) / r) by (apply Rmult_le_pos; lra). lra.
    + pose proof (P1 fcm PF). pose proof (P2 fcm PF). assert (0 <= (1 - RH / 100) / r) by (apply Rmult_le_pos; lra). assert (0 <= (1 - RH / 100) / r * ec_alpha_1 fcm) by (apply Rmult_le_pos; lra). nra.
  - intros fcm PF x y _ _ H. assert (Q : (1 - y / 100) / r < (1 - x / 100) / r) by (apply Rmult_lt_compat_r; lra). destruct (Rle_dec fcm 35) as [L|L]; [rewrite !LO by exact L; lra|rewrite !HI by lra].
    pose proof (P1 fcm PF). pose proof (P2 fcm PF). apply Rmult_lt_compat_r; [assumption|]. apply Rplus_lt_compat_l. apply Rmult_lt_compat_r; assumption.
  - intros RH. apply (no_jump_glue_r (fun _ => 1 + (1 - RH / 100) / r) (fun f => (1 + (1 - RH / 100) / r * ec_alpha_1 f) * ec_alpha_2 f)); [apply NK| |rewrite O1, O2; ring|intros y L; apply LO, L|intros y L; apply HI, L].
    apply no_jump_cont. apply continuity_pt_mult; [|apply CJ, NJ]. apply continuity_pt_plus; [apply CJ, NK|]. apply continuity_pt_mult; [apply CJ, NK|apply CJ, NJ].
  - intros RH. set (A := 15 / 10 * (1 + (12 / 1000 * RH) ^ 18) * h). apply (no_jump_glue_r (fun _ => Rmin (A + 250) 1500) (fun f => Rmin (A + 250 * ec_alpha_3 f) (1500 * ec_alpha_3 f))); [apply NK| |rewrite O3, !Rmult_1_r; reflexivity|intros y L; unfold ec_beta_H; destruct (Rleb_spec y 35); [reflexivity|lra]|intros y L; unfold ec_beta_H; destruct (Rleb_spec y 35); [lra|reflexivity]].
    intros e PE. destruct (NJ (1 / 2) (e / 1500) ltac:(lra)) as (d & PD & H). exists d. split; [exact PD|]. intros y L. specialize (H y L). fold (ec_alpha_3 y) (ec_alpha_3 35) in H. set (u := ec_alpha_3 y) in *. set (v := ec_alpha_3 35) in *. apply Rabs_def2 in H.
    apply Rabs_def1; unfold Rmin; destruct (Rle_dec (A + 250 * u) (1500 * u)), (Rle_dec (A + 250 * v) (1500 * v)); lra.
  - intros fcm RH PF. assert (Q : 0 <= (12 / 1000 * RH) ^ 18) by (replace ((12 / 1000 * RH) ^ 18) with (((12 / 1000 * RH) ^ 9) ^ 2) by ring; apply pow2_ge_0). assert (0 < 15 / 10 * (1 + (12 / 1000 * RH) ^ 18) * h) by (apply Rmult_lt_0_compat; lra).
    unfold ec_beta_H. pose proof (P3 fcm PF). destruct (Rleb_spec fcm 35); [unfold Rmin; destruct (Rle_dec _ _); lra|]. assert (ec_alpha_3 fcm < 1) by (rewrite <- O3; apply D3; lra). unfold Rmin; destruct (Rle_dec _ _); lra.
  - intros RH a1 a2. exists (pw h (1 / 3)). split; [exact PR|]. split; [apply cube_root; lra|]. rewrite LO by lra. unfold r. field. lra.
Qed.
Print Assumptions C36_ec_humidity.
(** beta_c develops from t0 for every positive beta_H; creep grows with time and is
    bounded by phi_0. *)
Theorem C36_ec_creep : forall t0 bH, 0 < bH -> develops t0 (fun t => ec_beta_c t0 t bH) /\
  (forall t, t0 <= t -> ec_beta_c t0 t bH ^ 10 * (bH + (t - t0)) ^ 3 = (t - t0) ^ 3) /\
  forall phi0, 0 <= phi0 -> never_falls (fun _ => True) (fun t => ec_phi phi0 (ec_beta_c t0 t bH)) /\ forall t, 0 <= ec_phi phi0 (ec_beta_c t0 t bH) <= phi0.
Proof.
  intros t0 bH P. assert (E : forall t, ec_beta_c t0 t bH = pw (frac bH (Rmax (t - t0) 0)) (3 / 10)) by reflexivity.
  assert (FR : forall t, 0 <= frac bH (Rmax (t - t0) 0) < 1) by (intros t; apply frac_range; [exact P|apply Rmax_pos]).
  assert (D : develops t0 (fun t => ec_beta_c t0 t bH)).
  { split; [|split; [|split]].
    - intros t. rewrite E. split; [apply pw_nonneg|apply pw_lt_1; [lra|apply FR]].
    - intros t. rewrite E.  split.
      + intros Z. destruct (FR t) as [[F|F] _]; [pose proof (pw_pos _ (3 / 10) F); lra|]. symmetry in F. apply frac_0 in F; [|exact P|apply Rmax_pos]. apply Rmax_0 in F. lra.
      + intros L. rewrite (proj2 (Rmax_0 (t - t0))) by lra. rewrite (proj2 (frac_0 bH 0 P ltac:(lra)) eq_refl). apply pw_0.
    - intros x y HX HY H. rewrite !E. apply pw_lt; [lra|]. split; [apply FR|]. rewrite !Rmax_left by lra. apply frac_lt; [exact P|lra].
    - intros e PE. exists (t0 + bH / e). intros t T. rewrite E. assert (0 < bH / e) by (apply Rdiv_lt_0_compat; assumption). apply Rabs_near_1; [|apply pw_lt_1; [lra|apply FR]|exact PE].
      apply Rlt_le_trans with (frac bH (Rmax (t - t0) 0)); [rewrite Rmax_left by lra; apply frac_settles; [exact P|exact PE|lra]|apply pw_self; [|lra]]. pose proof (FR t). lra. }
  split; [exact D|]. split.
  - intros t T. rewrite E, Rmax_left by lra. rewrite (pw_frac _ (3 / 10) 3 10); [|lia|apply frac_range; lra|cbn [Z.of_nat Pos.of_succ_nat Pos.succ]; lra]. unfold frac. rewrite <- Rpow_mult_distr. f_equal. field. lra.
  - intros phi0 P0. destruct D as (B & Z & M & _). unfold ec_phi. split.
    + intros x y _ _ H. apply Rmult_le_compat_l; [exact P0|]. destruct (Rle_dec x t0) as [A|A]; [rewrite (proj2 (Z x) A); apply B|]. destruct H as [H|H]; [apply Rlt_le, M; lra|subst; lra].
    + intros t. pose proof (B t). split; [apply Rmult_le_pos; lra|rewrite <- (Rmult_1_r phi0) at 2; apply Rmult_le_compat_l; lra].
Qed.
Print Assumptions C36_ec_creep.
(** phi_0 is the product of positive factors; stronger concrete and later loading
    creep less. *)
Theorem C36_ec_phi0 : decreases (fun f => 0 < f) ec_beta_fcm /\ decreases (fun t => 0 <= t) ec_beta_t0 /\
  (forall f, 0 < f -> 0 < ec_beta_fcm f /\ ec_beta_fcm f ^ 2 * f = (168 / 10) ^ 2) /\ (forall t, 0 <= t -> 0 < ec_beta_t0 t <= 10 /\ exists x, 0 <= x /\ x ^ 5 = t /\ ec_beta_t0 t * (1 / 10 + x) = 1) /\
  (forall a b c, 0 < a -> 0 < b -> 0 < c -> 0 < ec_phi_0 a b c) /\ mc_beta_dc_t0 = ec_beta_t0.
Proof.
  split; [|split; [|split; [|split; [|split]]]].
  - intros x y HX HY H. unfold ec_beta_fcm. pose proof (pw_lt x y (1 / 2) ltac:(lra) ltac:(lra)). pose proof (pw_pos x (1 / 2) HX). apply Rmult_lt_compat_l; [lra|]. apply Rinv_lt_contravar; [apply Rmult_lt_0_compat; lra|assumption].
  - intros x y HX HY H. unfold ec_beta_t0. pose proof (pw_lt x y (2 / 10) ltac:(lra) ltac:(lra)). pose proof (pw_nonneg x (2 / 10)). apply Rmult_lt_compat_l; [lra|]. apply Rinv_lt_contravar; [apply Rmult_lt_0_compat; lra|lra].
  - intros f P. unfold ec_beta_fcm. pose proof (pw_pos f (1 / 2) P). split; [apply Rdiv_lt_0_compat; lra|]. assert (Q : pw f (1 / 2) ^ 2 = f) by (rewrite (pw_frac f (1 / 2) 1 2); [ring|lia|lra|cbn [Z.of_nat Pos.of_succ_nat Pos.succ]; lra]). rewrite <- Q at 2. field. lra.
  - intros t P. unfold ec_beta_t0. pose proof (pw_nonneg t (2 / 10)). split; [split; [apply Rdiv_lt_0_compat; lra|]|].
    + apply (Rmult_le_reg_r (1 / 10 + pw t (2 / 10))); [lra|]. replace (1 / (1 / 10 + pw t (2 / 10)) * (1 / 10 + pw t (2 / 10))) with 1 by (field; lra). lra.
    + exists (pw t (2 / 10)). split; [assumption|]. split; [rewrite (pw_frac t (2 / 10) 1 5); [ring|lia|lra|cbn [Z.of_nat Pos.of_succ_nat Pos.succ]; lra]|field; lra].
  - intros a b c PA PB PC. unfold ec_phi_0. repeat apply Rmult_lt_0_compat; assumption.
  - reflexivity.
Qed.
Print Assumptions C36_ec_phi0.

(** * Adjusted ages (both codes) *)
(** At least half a day; slow cement not later, rapid not earlier than normal cement,
    which leaves ages from half a day unchanged. *)
Theorem C36_adjusted_age : forall t, 0 < t ->
  (forall a, 5 / 10 <= ec_t0_adj t a) /\ ec_t0_adj t (-1) <= ec_t0_adj t 0 <= ec_t0_adj t 1 /\ ec_t0_adj t 0 = Rmax t (5 / 10) /\
  (exists x, 0 < x /\ x ^ 5 = t ^ 6 /\ ec_t0_adj t 1 = Rmax (t * (9 / (2 + x) + 1)) (5 / 10) /\ ec_t0_adj t (-1) = Rmax (t / (9 / (2 + x) + 1)) (5 / 10)) /\
  (forall cem, mc_t0_adj t cem = do a <- dict_item mc_ALPHA cem; Ok (ec_t0_adj t a)).
Proof.
  intros t P. pose proof (pw_pos t (12 / 10) P) as PX. set (x := pw t (12 / 10)) in *. set (b := 9 / (2 + x) + 1). assert (PB : 1 < b) by (unfold b; assert (0 < 9 / (2 + x)) by (apply Rdiv_lt_0_compat; lra); lra).
  assert (E0 : ec_t0_adj t 0 = Rmax t (5 / 10)) by (unfold ec_t0_adj, pw_any; rewrite Rpower_O by (fold x; fold b; lra); now rewrite Rmult_1_r).
  assert (E1 : ec_t0_adj t 1 = Rmax (t * b) (5 / 10)) by (unfold ec_t0_adj, pw_any; fold x; fold b; rewrite Rpower_1 by lra; reflexivity).
  assert (E2 : ec_t0_adj t (-1) = Rmax (t / b) (5 / 10)) by (unfold ec_t0_adj, pw_any; fold x; fold b; replace (-1) with (- (1)) by ring; rewrite Rpower_Ropp, Rpower_1 by lra; reflexivity).
  split; [intros a; apply Rmax_r|]. split.
  - rewrite E0, E1, E2. assert (t <= t * b) by nra. assert (t / b <= t). { apply (Rmult_le_reg_r b); [lra|]. replace (t / b * b) with t by (field; lra). nra. } unfold Rmax. repeat destruct (Rle_dec _ _); lra.
  - split; [exact E0|]. split; [|reflexivity]. exists x. split; [exact PX|]. split; [apply (pw_frac t (12 / 10) 6 5); [lia|lra|cbn [Z.of_nat Pos.of_succ_nat Pos.succ]; lra]|]. split; assumption.
Qed.
Print Assumptions C36_adjusted_age.
(** Equivalent age under a temperature history: entry by entry, additive over
    periods, growing with the temperature; numbers and arrays must not be mixed and
    lengths must agree. *)
Theorem C36_temperature_age : mc_t_T = ec_t_T /\
  (forall T dt, ec_t_T (Num T) (Num dt) = ec_t_T (Arr [T]) (Arr [dt])) /\
  (forall Ts dts Us dus a b, ec_t_T (Arr Ts) (Arr dts) = Ok a -> ec_t_T (Arr Us) (Arr dus) = Ok b -> ec_t_T (Arr (Ts ++ Us)) (Arr (dts ++ dus)) = Ok (a + b)) /\
  (forall T dt, exists v, ec_t_T (Num T) (Num dt) = Ok v /\ (-273 < T -> 0 < dt -> 0 < v /\ ln (v / dt) * (273 + T) = 1365 / 100 * (273 + T) - 4000) /\ (-273 < T -> forall T' v', T < T' -> 0 < dt -> ec_t_T (Num T') (Num dt) = Ok v' -> v < v')) /\
  (forall Ts dts, (exists v, ec_t_T (Arr Ts) (Arr dts) = Ok v) <-> List.length Ts = List.length dts) /\
  (forall Ts dts, List.length Ts <> List.length dts -> ec_t_T (Arr Ts) (Arr dts) = Err ValueError) /\
  (forall x l, ec_t_T (Num x) (Arr l) = Err ValueError /\ ec_t_T (Arr l) (Num x) = Err ValueError).
Proof.
  split; [reflexivity|]. split; [intros; cbn; unfold lsum; cbn; f_equal; ring|]. split; [|split; [|split; [|split]]].
  - intros Ts dts Us dus a b. cbn. destruct (Nat.eqb_spec (List.length Ts) (List.length dts)) as [L1|]; [|discriminate]. destruct (Nat.eqb_spec (List.length Us) (List.length dus)) as [L2|]; [|discriminate].
    intros A B. injection A as <-. injection B as <-. rewrite !app_length, L1, L2, Nat.eqb_refl. f_equal. rewrite <- lsum_app, <- map_app. f_equal. f_equal. clear - L1. revert dts L1. induction Ts as [|T Ts IH]; intros [|d ds] L; try discriminate L; [reflexivity|]. cbn. f_equal. apply IH. now injection L.
  - intros T dt. eexists. split; [reflexivity|]. unfold aged. split.
    + intros HT HD. split; [apply Rmult_lt_0_compat; [apply exp_pos|exact HD]|]. replace (exp (1365 / 100 - 4000 / (273 + T)) * dt / dt) with (exp (1365 / 100 - 4000 / (273 + T))) by (field; lra). rewrite ln_exp. field. lra.
    + intros HT T' v' L HD E. injection E as <-. unfold aged. apply Rmult_lt_compat_r; [exact HD|]. apply exp_increasing. assert (4000 / (273 + T') < 4000 / (273 + T)); [|lra]. apply Rmult_lt_compat_l; [lra|]. apply Rinv_lt_contravar; [apply Rmult_lt_0_compat; lra|lra].
  - intros Ts dts. cbn. destruct (Nat.eqb_spec (List.length Ts) (List.length dts)); split; try tauto; [intros _; eexists; reflexivity|intros (v & E); discriminate].
  - intros Ts dts N. cbn. destruct (Nat.eqb_spec (List.length Ts) (List.length dts)); [tauto|reflexivity].
  - intros x l. split; reflexivity.
Qed.
Print Assumptions C36_temperature_age.
(** Cement classes of EC2:2004: both lookups know R, N, S in either case; only the one
    for drying shrinkage ignores blanks. *)
Theorem C36_ec_cement : forall c,
  (written "R" c -> ec_alpha_ds1 c = Ok 6 /\ ec_alpha_ds2 c = Ok (11 / 100)) /\ (written "N" c -> ec_alpha_ds1 c = Ok 4 /\ ec_alpha_ds2 c = Ok (12 / 100)) /\ (written "S" c -> ec_alpha_ds1 c = Ok 3 /\ ec_alpha_ds2 c = Ok (13 / 100)) /\
  (~ written "R" c -> ~ written "N" c -> ~ written "S" c -> ec_alpha_ds1 c = Err ValueError /\ ec_alpha_ds2 c = Err ValueError) /\
  (same_word "R" c = true -> ec_alpha_cement c = Ok 1) /\ (same_word "N" c = true -> ec_alpha_cement c = Ok 0) /\ (same_word "S" c = true -> ec_alpha_cement c = Ok (-1)) /\
  (same_word "R" c = false -> same_word "N" c = false -> same_word "S" c = false -> ec_alpha_cement c = Err ValueError).
Proof.
  intros c. rewrite <- (written_upper "R" c), <- (written_upper "N" c), <- (written_upper "S" c) by reflexivity. unfold ec_alpha_ds1, ec_alpha_ds2, ec_get_alpha_ds.
  split; [intros ->; split; reflexivity|]. split; [intros ->; split; reflexivity|]. split; [intros ->; split; reflexivity|]. split.
  - intros NR NN NS. unfold ec_alpha_ds. cbn [dict_get].
    repeat match goal with |- context [String.eqb ?a ?b] => destruct (String.eqb_spec a b) as [E|_]; [exfalso; first [apply NR; rewrite <- E; reflexivity|apply NN; rewrite <- E; reflexivity|apply NS; rewrite <- E; reflexivity|apply NR; rewrite E; reflexivity|apply NN; rewrite E; reflexivity|apply NS; rewrite E; reflexivity]|] end. split; reflexivity.
  - unfold ec_alpha_cement. split; [intros E; apply word_upper in E; rewrite E; reflexivity|]. split; [intros E; apply word_upper in E; rewrite E; reflexivity|]. split; [intros E; apply word_upper in E; rewrite E; reflexivity|].
    intros NR NN NS. assert (A : forall w, same_word w c = false -> str_upper c <> str_upper w) by (intros w F E; apply word_upper in E; congruence). apply A in NR, NN, NS. clear A. unfold ec_alpha_cement_dict. cbn [dict_get].
    repeat match goal with |- context [String.eqb ?a ?b] => destruct (String.eqb_spec a b) as [E|_]; [exfalso; first [apply NR; rewrite <- E; reflexivity|apply NN; rewrite <- E; reflexivity|apply NS; rewrite <- E; reflexivity|apply NR; rewrite E; reflexivity|apply NN; rewrite E; reflexivity|apply NS; rewrite E; reflexivity]|] end. reflexivity.
Qed.
Print Assumptions C36_ec_cement.
