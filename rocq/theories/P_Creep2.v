(** C36, MC2010 part. *)
From Coq Require Import String ZArith Lra Lia.
From Verif Require Import Base S_Marin L_Marin M_Registry M_Calc S_Calc L_Calc M_Conc S_Conc L_Conc M_Creep S_Creep L_Creep.
Open Scope R_scope.
Open Scope list_scope.

(** Cement classes: exactly six names, case matters, KeyError otherwise. *)
Theorem C36_mc_cement : forall cem,
  (forall a bs d1 d2, cement_row cem (a, bs, d1, d2) -> forall t fcm,
     mc_t0_adj t cem = Ok (ec_t0_adj t a) /\
     (exists v, mc_eps_cds0 fcm cem = Ok v /\ v * 10 ^ 6 = (220 + 110 * d1) * exp (- (d2 / 1000) * fcm) /\ 0 < v) /\
     (0 < fcm -> exists v x, mc_eps_cbs0 fcm cem = Ok v /\ 0 < x < 1 /\ x ^ 2 * (60 + fcm) ^ 5 = fcm ^ 5 /\ v * 10 ^ 6 = - bs * x)) /\
  (~ In cem cements -> forall t fcm, mc_t0_adj t cem = Err KeyError /\ mc_eps_cds0 fcm cem = Err KeyError /\ mc_eps_cbs0 fcm cem = Err KeyError).
Proof.
  intros cem. split.
  - intros a bs d1 d2 HR t fcm.
    assert (E : dict_item mc_ALPHA cem = Ok a /\ dict_item mc_ALPHA_BS cem = Ok bs /\ dict_item mc_ALPHA_DS1 cem = Ok d1 /\ dict_item mc_ALPHA_DS2 cem = Ok (d2 / 1000) /\ 0 <= d1).
    { destruct HR as [[-> E]|[[I E]|[I E]]]; injection E as -> -> -> ->; [|cbn [In] in I|cbn [In] in I]; try (repeat (destruct I as [<- | I]; [repeat split; try reflexivity; lra|]); destruct I). repeat split; try reflexivity; lra. }
    destruct E as (E1 & E2 & E3 & E4 & P). split; [|split].
    + unfold mc_t0_adj. rewrite E1. reflexivity.
    + unfold mc_eps_cds0. rewrite E3, E4. cbn [bind]. eexists. split; [reflexivity|]. split; [field|]. pose proof (exp_pos (- (d2 / 1000) * fcm)). assert (0 < (220 + 110 * d1) * exp (- (d2 / 1000) * fcm)) by (apply Rmult_lt_0_compat; lra). lra.
    + intros PF. unfold mc_eps_cbs0. rewrite E2. cbn [bind]. set (u := 1 / 10 * fcm / (6 + 1 / 10 * fcm)). assert (U : 0 < u < 1). { unfold u. split; [apply Rdiv_lt_0_compat; lra|]. apply (Rmult_lt_reg_r (6 + 1 / 10 * fcm)); [lra|]. replace (1 / 10 * fcm / (6 + 1 / 10 * fcm) * (6 + 1 / 10 * fcm)) with (1 / 10 * fcm) by (field; lra). lra. }
      exists (- bs * pw u (25 / 10) * / 1000000), (pw u (25 / 10)). split; [reflexivity|]. split; [split; [apply pw_pos; lra|apply pw_lt_1; lra]|]. split; [|field].
      rewrite (pw_frac u (25 / 10) 5 2); [|lia|lra|cbn [Z.of_nat Pos.of_succ_nat Pos.succ]; lra]. rewrite <- Rpow_mult_distr. f_equal. unfold u. field. lra.
  - intros N t fcm.
    assert (K : forall (A : Type) (d : list (string * A)), (forall k, In k (map fst d) -> In k cements) -> dict_item d cem = Err KeyError).
    { intros A d H. unfold dict_item. assert (G : dict_get d cem = None); [|now rewrite G]. induction d as [|[k v] d IH]; [reflexivity|]. cbn [dict_get]. destruct (String.eqb_spec cem k) as [E|E]; [exfalso; apply N, H; left; symmetry; exact E|].
      apply IH. intros q I. apply H. now right. }
    unfold mc_t0_adj, mc_eps_cds0, mc_eps_cbs0. rewrite !K; try (cbn [bind]; repeat split; reflexivity); intros k I; cbn in I |- *; tauto.
Qed.
Print Assumptions C36_mc_cement.
(** Drying shrinkage develops from ts. *)
Theorem C36_mc_drying : forall ts h, 0 < h -> develops ts (fun t => mc_beta_ds t ts h) /\
  forall t, ts <= t -> mc_beta_ds t ts h ^ 2 * (35 / 1000 * h ^ 2 + (t - ts)) = t - ts.
Proof.
  intros ts h P. set (c := 35 / 1000 * h ^ 2). assert (PC : 0 < c) by (unfold c; assert (0 < h ^ 2) by (apply pow_lt, P); lra).
  assert (E : forall t, mc_beta_ds t ts h = sqrt (frac c (Rmax (t - ts) 0))) by reflexivity.
  assert (FR : forall t, 0 <= frac c (Rmax (t - ts) 0) < 1) by (intros t; apply frac_range; [exact PC|apply Rmax_pos]).
  assert (S1 : forall t, sqrt (frac c (Rmax (t - ts) 0)) < 1) by (intros t; rewrite <- sqrt_1; pose proof (FR t); apply sqrt_lt_1; lra).
  split; [split; [|split; [|split]]|].
  - intros t. rewrite E. split; [apply sqrt_pos|apply S1].
  - intros t. rewrite E. split.
    + intros Z. apply sqrt_eq_0 in Z; [|apply FR]. apply frac_0 in Z; [|exact PC|apply Rmax_pos]. apply Rmax_0 in Z. lra.
    + intros L. rewrite (proj2 (Rmax_0 (t - ts))) by lra. rewrite (proj2 (frac_0 c 0 PC ltac:(lra)) eq_refl). apply sqrt_0.
  - intros x y HX HY H. rewrite !E. apply sqrt_lt_1; [apply FR|apply FR|]. rewrite !Rmax_left by lra. apply frac_lt; [exact PC|lra].
  - intros e PE. exists (ts + c / e). intros t T. rewrite E. assert (0 < c / e) by (apply Rdiv_lt_0_compat; assumption). apply Rabs_near_1; [|apply S1|exact PE].
    apply Rlt_le_trans with (frac c (Rmax (t - ts) 0)); [rewrite Rmax_left by lra; apply frac_settles; [exact PC|exact PE|lra]|apply sqrt_self]. pose proof (FR t). lra.
  - intros t T. rewrite E, pow2_sqrt by apply FR. rewrite Rmax_left by lra. unfold frac. fold c. field. lra.
Qed.
Print Assumptions C36_mc_drying.
(** Relative humidity: a fraction in [0.4, 1] and the same humidity in percent give the
    same value; everything else is rejected.  With the code's own beta_s1 there is always
    a value: swelling 0.25 from 0.99 beta_s1 on, else -1.55 (1 - r^3) < 0. *)
Theorem C36_mc_humidity : forall fcm, 0 < fcm ->
  (forall rh r, humidity rh r ->
     mc_beta_RH rh (mc_beta_s1 fcm) = Ok (if Rle_dec (99 / 100 * mc_beta_s1 fcm) r then 25 / 100 else - (155 / 100) * (1 - r ^ 3)) /\
     (r < 99 / 100 * mc_beta_s1 fcm -> - (155 / 100) * (1 - r ^ 3) < 0) /\
     (forall h, 0 < h -> exists v x, mc_beta_dc_RH rh h = Ok v /\ 0 < x /\ x ^ 3 = h / 1000 /\ v * x = 1 - r /\ 0 <= v)) /\
  (forall rh, (forall r, ~ humidity rh r) -> mc_beta_RH rh (mc_beta_s1 fcm) = Err ValueError /\ forall h, mc_beta_dc_RH rh h = Err ValueError) /\
  0 < mc_beta_s1 fcm <= 1 /\ (fcm <= 35 -> mc_beta_s1 fcm = 1) /\ (35 <= fcm -> mc_beta_s1 fcm ^ 10 = 35 / fcm).
Proof.
  intros fcm PF. assert (Q : 0 < 35 / fcm) by (apply Rdiv_lt_0_compat; lra). pose proof (pw_pos (35 / fcm) (1 / 10) Q) as PW.
  assert (B : 0 < mc_beta_s1 fcm <= 1) by (unfold mc_beta_s1, Rmin; destruct (Rle_dec _ _); lra).
  assert (NORM : forall rh r, humidity rh r -> mc_check_RH rh = Ok tt /\ (if Rltb 1 rh then rh / 100 else rh) = r).
  { intros rh r [HR HE]. unfold mc_check_RH. destruct HE as [-> | ->].
    - destruct (Rltb_spec r (4 / 10)); [lra|]. destruct (Rltb_spec 1 r); [lra|]. split; reflexivity.
    - destruct (Rltb_spec (100 * r) 40); [lra|]. destruct (Rltb_spec 100 (100 * r)); [lra|]. rewrite Bool.andb_false_r. destruct (Rltb_spec 1 (100 * r)); [|lra]. split; [reflexivity|field]. }
  split; [|split; [|split; [exact B|split]]].
  - intros rh r H. destruct (NORM rh r H) as [C1 N]. destruct H as [HR _]. split; [|split].
    + unfold mc_beta_RH. rewrite C1. cbn [bind]. rewrite N. destruct (Rleb_spec (99 / 100 * mc_beta_s1 fcm) r), (Rle_dec (99 / 100 * mc_beta_s1 fcm) r); try lra; [reflexivity|].
      destruct (Rleb_spec (4 / 10 * mc_beta_s1 fcm) r); [|lra]. destruct (Rltb_spec r (99 / 100 * mc_beta_s1 fcm)); [|lra]. reflexivity.
    + intros L. assert (r ^ 3 < 1); [|lra]. replace 1 with (1 ^ 3) by ring. apply pow_lt_inc; [lia|lra].
    + intros h PH. assert (PX : 0 < 1 / 10 * h / 100) by lra. pose proof (pw_pos _ (1 / 3) PX) as PP. unfold mc_beta_dc_RH. rewrite C1. cbn [bind]. rewrite N. exists ((1 - r) / pw (1 / 10 * h / 100) (1 / 3)), (pw (1 / 10 * h / 100) (1 / 3)).
      split; [reflexivity|]. split; [exact PP|]. split; [rewrite cube_root by lra; field|]. split; [field; lra|]. apply Rmult_le_pos; [lra|apply Rlt_le, Rinv_0_lt_compat, PP].
  - intros rh N. assert (C1 : mc_check_RH rh = Err ValueError).
    { unfold mc_check_RH. destruct (Rltb_spec rh (4 / 10)) as [L|L]; [|destruct (Rltb_spec 1 rh) as [L2|L2]; [|exfalso; apply (N rh); split; [lra|now left]]].
      - destruct (Rltb_spec rh 40) as [L3|L3]; [reflexivity|lra].
      - cbn [orb andb]. destruct (Rltb_spec rh 40); [reflexivity|]. destruct (Rltb_spec 100 rh); [reflexivity|]. exfalso. apply (N (rh / 100)). split; [lra|right; field]. }
    unfold mc_beta_RH, mc_beta_dc_RH. rewrite C1. split; [reflexivity|intros h; reflexivity].
  - intros L. unfold mc_beta_s1. apply Rmin_right. apply pw_ge_1; [lra|]. apply (Rmult_le_reg_r fcm); [exact PF|]. replace (35 / fcm * fcm) with 35 by (field; lra). lra.
  - intros L. unfold mc_beta_s1. rewrite Rmin_left; [rewrite (pw_frac _ (1 / 10) 1 10); [ring|lia|lra|cbn [Z.of_nat Pos.of_succ_nat Pos.succ]; lra]|]. apply pw_le_1; [lra|]. split; [lra|]. apply (Rmult_le_reg_r fcm); [exact PF|]. replace (35 / fcm * fcm) with 35 by (field; lra). lra.
Qed.
Print Assumptions C36_mc_humidity.
(** Basic creep starts at zero at t0 and grows without bound, like a logarithm. *)
Theorem C36_mc_basic_creep : forall t0 ta, 0 < ta -> mc_beta_bc_t t0 t0 ta = 0 /\ increases (fun t => t0 <= t) (fun t => mc_beta_bc_t t t0 ta) /\
  (forall M, exists t, t0 <= t /\ M < mc_beta_bc_t t t0 ta) /\ (forall t, t0 <= t -> exp (mc_beta_bc_t t t0 ta) = 1 + (30 / ta + 35 / 1000) ^ 2 * (t - t0)) /\
  (forall f, 0 < f -> 0 < mc_beta_bc_fcm f /\ mc_beta_bc_fcm f ^ 10 * f ^ 7 = (18 / 10) ^ 10) /\ (forall f, 0 < f -> 0 < mc_beta_dc_fcm f /\ mc_beta_dc_fcm f ^ 5 * f ^ 7 = 412 ^ 5).
Proof.
  intros t0 ta P. set (q := (30 / ta + 35 / 1000) ^ 2). assert (PQ : 0 < q) by (unfold q; apply pow_lt; assert (0 < 30 / ta) by (apply Rdiv_lt_0_compat; lra); lra).
  assert (PX : forall t, t0 <= t -> 0 < q * (t - t0) + 1) by (intros t T; assert (0 <= q * (t - t0)) by (apply Rmult_le_pos; lra); lra).
  unfold mc_beta_bc_t. fold q. split; [replace (q * (t0 - t0) + 1) with 1 by ring; apply ln_1|]. split; [|split; [|split; [|split]]].
  - intros x y HX HY H. apply ln_increasing; [apply PX, HX|]. assert (q * (x - t0) < q * (y - t0)) by (apply Rmult_lt_compat_l; lra). lra.
  - intros M. pose proof (exp_pos M). assert (0 < exp M / q) by (apply Rdiv_lt_0_compat; assumption). exists (t0 + exp M / q). split; [lra|]. replace (q * (t0 + exp M / q - t0) + 1) with (exp M + 1) by (field; lra). rewrite <- (ln_exp M) at 1. apply ln_increasing; [assumption|lra].
  - intros t T. rewrite exp_ln by (apply PX, T). ring.
  - intros f F. unfold mc_beta_bc_fcm. pose proof (pw_pos f (7 / 10) F). split; [apply Rdiv_lt_0_compat; lra|]. rewrite <- (pw_frac f (7 / 10) 7 10); [|lia|lra|cbn [Z.of_nat Pos.of_succ_nat Pos.succ]; lra]. rewrite <- Rpow_mult_distr. f_equal. field. lra.
  - intros f F. unfold mc_beta_dc_fcm. pose proof (pw_pos f (14 / 10) F). split; [apply Rdiv_lt_0_compat; lra|]. rewrite <- (pw_frac f (14 / 10) 7 5); [|lia|lra|cbn [Z.of_nat Pos.of_succ_nat Pos.succ]; lra]. rewrite <- Rpow_mult_distr. f_equal. field. lra.
Qed.
Print Assumptions C36_mc_basic_creep.
(** Drying creep from t0 on: in [0, 1), rising, towards 1; the exponent lies in
    (0, 1/2.3) and grows with the age at loading. *)
Theorem C36_mc_drying_creep : forall t0 bh ta, 0 < bh -> 0 < ta ->
  let f t := mc_beta_dc_t t t0 bh (mc_gamma_t0 ta) in
  f t0 = 0 /\ (forall t, t0 <= t -> 0 <= f t < 1) /\ increases (fun t => t0 <= t) f /\ settles f 1 /\
  0 < mc_gamma_t0 ta < 10 / 23 /\ increases (fun t => 0 < t) mc_gamma_t0 /\
  (exists x, 0 < x /\ x ^ 2 = ta /\ mc_gamma_t0 ta * (23 / 10 + 35 / 10 / x) = 1) /\
  (forall t, t0 < t -> ln (f t) = mc_gamma_t0 ta * (ln (t - t0) - ln (bh + (t - t0)))) /\
  (forall h fcm, 0 < h -> 0 < fcm -> 0 < mc_beta_h h (mc_alpha_fcm fcm) <= 1500 * mc_alpha_fcm fcm /\ mc_alpha_fcm fcm ^ 2 = 35 / fcm).
Proof.
  intros t0 bh ta PB PA f. set (g := mc_gamma_t0 ta).
  assert (G : forall a, 0 < a -> 0 < sqrt a /\ 0 < 35 / 10 / sqrt a) by (intros a Q; assert (0 < sqrt a) by (apply sqrt_lt_R0, Q); split; [assumption|apply Rdiv_lt_0_compat; lra]).
  destruct (G ta PA) as [G0 G1].
  assert (PG : 0 < g < 10 / 23). { unfold g, mc_gamma_t0. split; [apply Rdiv_lt_0_compat; lra|]. apply (Rmult_lt_reg_r (23 / 10 + 35 / 10 / sqrt ta)); [lra|]. replace (1 / (23 / 10 + 35 / 10 / sqrt ta) * (23 / 10 + 35 / 10 / sqrt ta)) with 1 by (field; lra). lra. }
  assert (E : forall t, f t = pw (frac bh (t - t0)) g) by reflexivity.
  assert (FR : forall t, t0 <= t -> 0 <= frac bh (t - t0) < 1) by (intros t T; apply frac_range; lra).
  split; [rewrite E; replace (t0 - t0) with 0 by ring; rewrite (proj2 (frac_0 bh 0 PB ltac:(lra)) eq_refl); apply pw_0|]. split; [|split; [|split; [|split; [exact PG|split; [|split; [|split]]]]]].
  - intros t T. rewrite E. split; [apply pw_nonneg|apply pw_lt_1; [lra|apply FR, T]].
  - intros x y HX HY H. rewrite !E. apply pw_lt; [lra|]. split; [apply FR, HX|apply frac_lt; [exact PB|lra]].
  - intros e PE. exists (t0 + bh / e). intros t T. rewrite E. assert (0 < bh / e) by (apply Rdiv_lt_0_compat; assumption). apply Rabs_near_1; [|apply pw_lt_1; [lra|apply FR; lra]|exact PE].
    apply Rlt_le_trans with (frac bh (t - t0)); [apply frac_settles; [exact PB|exact PE|lra]|apply pw_self; [|lra]]. pose proof (FR t ltac:(lra)). lra.
  - intros x y HX HY H. unfold mc_gamma_t0. destruct (G x HX), (G y HY). pose proof (sqrt_lt_1 x y ltac:(lra) ltac:(lra) H). assert (35 / 10 / sqrt y < 35 / 10 / sqrt x) by (apply Rmult_lt_compat_l; [lra|]; apply Rinv_lt_contravar; [apply Rmult_lt_0_compat; assumption|assumption]).
    apply Rmult_lt_compat_l; [lra|]. apply Rinv_lt_contravar; [apply Rmult_lt_0_compat; lra|lra].
  - exists (sqrt ta). split; [exact G0|]. split; [apply pow2_sqrt; lra|]. unfold g, mc_gamma_t0. field. split; lra.
  - intros t T. rewrite E. assert (PF : 0 < frac bh (t - t0)) by (unfold frac; apply Rdiv_lt_0_compat; lra). rewrite pw_Rpower by exact PF. unfold Rpower. rewrite ln_exp. f_equal. unfold frac, Rdiv. rewrite ln_mult, ln_Rinv by (try apply Rinv_0_lt_compat; lra). ring.
  - intros h fcm PH PF. assert (Q : 0 < 35 / fcm) by (apply Rdiv_lt_0_compat; lra). assert (PS : 0 < mc_alpha_fcm fcm) by (apply sqrt_lt_R0, Q). split; [|apply pow2_sqrt; lra]. unfold mc_beta_h, Rmin. destruct (Rle_dec _ _); lra.
Qed.
Print Assumptions C36_mc_drying_creep.
(** Total creep: the sum of basic and drying creep up to 0.4 fcm, enlarged by
    exp(1.5 (k - 0.4)) without a jump from there, rejected beyond 0.6 fcm; the sign of
    the stress does not matter. *)
Theorem C36_mc_nonlinear : forall fcm b d, 0 < fcm ->
  (forall s, Rabs s <= 4 / 10 * fcm -> mc_phi b d s fcm = Ok (b + d)) /\
  (forall s, 4 / 10 * fcm < Rabs s <= 6 / 10 * fcm -> mc_phi b d s fcm = Ok (exp (15 / 10 * (Rabs s / fcm - 4 / 10)) * (b + d))) /\
  (forall s, 6 / 10 * fcm < Rabs s -> mc_phi b d s fcm = Err ValueError /\ mc_k_sigma s fcm = Err ValueError) /\
  (forall s v, mc_phi b d s fcm = Ok v -> 0 <= b + d -> b + d <= v <= exp (3 / 10) * (b + d)) /\
  (forall s v s' v', mc_phi b d s fcm = Ok v -> mc_phi b d s' fcm = Ok v' -> 0 <= b + d -> Rabs s <= Rabs s' -> v <= v').
Proof.
  intros fcm b d P.
  assert (AD : forall s, Rabs (s / fcm) = Rabs s / fcm) by (intros s; unfold Rdiv; rewrite Rabs_mult, (Rabs_pos_eq (/ fcm)); [reflexivity|apply Rlt_le, Rinv_0_lt_compat, P]).
  assert (SC : forall x c, x / fcm <= c <-> x <= c * fcm). { intros x c. assert (E : x / fcm * fcm = x) by (field; lra). split; intros H; [rewrite <- E; apply Rmult_le_compat_r; lra|apply (Rmult_le_reg_r fcm); lra]. }
  assert (F : forall s, mc_phi b d s fcm = if Rltb (6 / 10 * fcm) (Rabs s) then Err ValueError else if Rltb (4 / 10 * fcm) (Rabs s) then Ok (exp (15 / 10 * (Rabs s / fcm - 4 / 10)) * (b + d)) else Ok (b + d)).
  { intros s. unfold mc_phi, mc_k_sigma, mc_check_initial_stress. destruct (Rltb_spec (6 / 10 * fcm) (Rabs s)) as [L|L]; cbn [bind]; [reflexivity|]. rewrite AD.
    pose proof (SC (Rabs s) (4 / 10)). pose proof (SC (Rabs s) (6 / 10)). destruct (Rltb_spec (4 / 10) (Rabs s / fcm)), (Rltb_spec (4 / 10 * fcm) (Rabs s)), (Rleb_spec (Rabs s / fcm) (6 / 10)); try reflexivity; exfalso; lra. }
  split; [|split; [|split; [|split]]].
  - intros s H. rewrite F. destruct (Rltb_spec (6 / 10 * fcm) (Rabs s)); [lra|]. destruct (Rltb_spec (4 / 10 * fcm) (Rabs s)); [lra|reflexivity].
  - intros s H. rewrite F. destruct (Rltb_spec (6 / 10 * fcm) (Rabs s)); [lra|]. destruct (Rltb_spec (4 / 10 * fcm) (Rabs s)); [reflexivity|lra].
  - intros s H. split; [rewrite F; destruct (Rltb_spec (6 / 10 * fcm) (Rabs s)); [reflexivity|lra]|]. unfold mc_k_sigma, mc_check_initial_stress. destruct (Rltb_spec (6 / 10 * fcm) (Rabs s)); [reflexivity|lra].
  - intros s v E N. rewrite F in E. assert (X1 : 1 <= exp (3 / 10)) by (pose proof (exp_ineq1_le (3 / 10)); lra). destruct (Rltb_spec (6 / 10 * fcm) (Rabs s)) as [|L]; [discriminate|]. destruct (Rltb_spec (4 / 10 * fcm) (Rabs s)) as [M|M]; injection E as <-; [|split; [lra|nra]].
    pose proof (SC (Rabs s) (4 / 10)). pose proof (SC (Rabs s) (6 / 10)). pose proof (exp_ineq1_le (15 / 10 * (Rabs s / fcm - 4 / 10))). assert (U : exp (15 / 10 * (Rabs s / fcm - 4 / 10)) <= exp (3 / 10)).
    { assert (LE : 15 / 10 * (Rabs s / fcm - 4 / 10) <= 3 / 10) by lra. destruct LE as [LE|LE]; [apply Rlt_le, exp_increasing, LE|rewrite LE; lra]. }
    assert (4 / 10 < Rabs s / fcm) by (apply Rnot_le_lt; lra). split; [rewrite <- (Rmult_1_l (b + d)) at 1; apply Rmult_le_compat_r; lra|apply Rmult_le_compat_r; lra].
  - intros s v s' v' E E' N L. rewrite F in E, E'. destruct (Rltb_spec (6 / 10 * fcm) (Rabs s)) as [|L1]; [discriminate|]. destruct (Rltb_spec (6 / 10 * fcm) (Rabs s')) as [|L2]; [discriminate|].
    pose proof (SC (Rabs s') (4 / 10)). destruct (Rltb_spec (4 / 10 * fcm) (Rabs s)), (Rltb_spec (4 / 10 * fcm) (Rabs s')); injection E as <-; injection E' as <-; try lra.
    + apply Rmult_le_compat_r; [exact N|]. assert (Q : Rabs s / fcm <= Rabs s' / fcm) by (apply Rmult_le_compat_r; [apply Rlt_le, Rinv_0_lt_compat, P|exact L]). destruct Q as [Q|Q]; [apply Rlt_le, exp_increasing; lra|rewrite Q; lra].
    + assert (4 / 10 < Rabs s' / fcm) by (apply Rnot_le_lt; lra). pose proof (exp_ineq1_le (15 / 10 * (Rabs s' / fcm - 4 / 10))). rewrite <- (Rmult_1_l (b + d)) at 1. apply Rmult_le_compat_r; lra.
Qed.
Print Assumptions C36_mc_nonlinear.
(** Shrinkage parts and compliance. *)
Theorem C36_mc_values : forall e0 b r E0 E p, 0 < E0 -> 0 < E ->
  (0 <= e0 -> r < 0 -> 0 <= b <= 1 -> e0 * r <= mc_eps_cds e0 b r <= 0) /\ (e0 <= 0 -> 0 <= b <= 1 -> e0 <= mc_eps_cbs e0 b <= 0) /\
  mc_calc_J E0 p E * (E0 * E) = E + p * E0 /\ (0 <= p -> 1 / E0 <= mc_calc_J E0 p E) /\
  (forall f, mc_check_fcm f = Ok tt <-> 20 <= f <= 130) /\ (forall t, mc_check_age_at_loading t = Ok tt <-> 1 <= t).
Proof.
  intros e0 b r E0 E p P0 P. split; [|split; [|split; [|split; [|split]]]].
  - intros H1 H2 H3. unfold mc_eps_cds. assert (e0 * r <= 0) by nra. nra.
  - intros H1 H2. unfold mc_eps_cbs. nra.
  - unfold mc_calc_J. field. lra.
  - intros H. unfold mc_calc_J. assert (0 <= p / E) by (apply Rmult_le_pos; [exact H|apply Rlt_le, Rinv_0_lt_compat, P]). lra.
  - intros f. unfold mc_check_fcm. destruct (Rltb_spec f 20), (Rltb_spec 130 f); cbn [orb]; split; intros; try discriminate; try reflexivity; lra.
  - intros t. unfold mc_check_age_at_loading. destruct (Rltb_spec t 1); split; intros; try discriminate; try reflexivity; lra.
Qed.
Print Assumptions C36_mc_values.
Example C36_cases : humidity 80 (8 / 10) /\ humidity (8 / 10) (8 / 10) /\ cement_row "42.5 R" (1, 600, 6, 12) /\ (exists v, mc_phi 1 1 (-15) 30 = Ok v /\ 2 < v).
Proof.
  split; [split; [lra|right; lra]|]. split; [split; [lra|now left]|]. split; [right; right; cbn; tauto|].
  destruct (C36_mc_nonlinear 30 1 1 ltac:(lra)) as (_ & A & _). rewrite A by (rewrite Rabs_left by lra; lra). eexists. split; [reflexivity|]. rewrite Rabs_left by lra.
  pose proof (exp_ineq1 (15 / 10 * (- (-15) / 30 - 4 / 10)) ltac:(lra)). lra.
Qed.
