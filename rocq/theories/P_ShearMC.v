(** C39: MC2010 shear. *)
From Coq Require Import ZArith Lra Lia.
From Verif Require Import Base M_Calc S_Calc L_Calc M_Conc L_Conc L_Creep L_Shear L_Crack M_ShearMC S_ShearMC L_ShearMC.
Open Scope R_scope.

(** Longitudinal strain: half the tensile chord force over E A, zero in compression;
    brittleness factor: 1 up to 30 MPa, then the cube root of 30/fck. *)
Theorem C39_strain_and_strength : forall E A z l, 0 < E -> 0 < A -> (0 <= epsilon_x E A z l /\ 2 * E * A * epsilon_x E A z l = Rmax (chord_force z l) 0) /\
  (forall f, 0 < f -> 0 < eta_fc f <= 1) /\ (forall f, 0 < f <= 30 -> eta_fc f = 1) /\ (forall f, 30 <= f -> eta_fc f ^ 3 * f = 30) /\ never_rises (fun f => 0 < f) eta_fc.
Proof.
  intros E A z l PE PA. split; [split; [apply eps_nonneg|apply eps_force; assumption]|]. split; [apply eta_bounds|]. split; [|split].
  - intros f H. unfold eta_fc. apply Rmin_right. apply pw_ge_1; [lra|]. apply (Rmult_le_reg_r f); [lra|]. replace (30 / f * f) with 30 by (field; lra). lra.
  - intros f H. unfold eta_fc. assert (P : 0 < 30 / f) by (apply Rdiv_lt_0_compat; lra). rewrite Rmin_left; [rewrite cube_root by lra; field; lra|]. apply pw_le_1; [lra|]. split; [lra|]. apply (Rmult_le_reg_r f); [lra|]. replace (30 / f * f) with 30 by (field; lra). lra.
  - intros x y PX PY L. unfold eta_fc. apply Rle_min_compat_r. apply pw_le; [lra|]. split; [apply Rlt_le, Rdiv_lt_0_compat; lra|]. apply Rmult_le_compat_l; [lra|]. apply Rinv_le_contravar; assumption.
Qed.
Print Assumptions C39_strain_and_strength.
(** Members without stirrups. *)
Theorem C39_v_rdc : forall fck z bw dg E A l alpha g, 0 < fck -> 0 < z -> 0 < bw -> 0 <= dg -> 0 < g ->
  let r := Rmin (sqrt fck) 8 in let e := epsilon_x E A z l in
  (exists V, v_rdc 1 fck z bw dg E A l alpha g = Ok V /\ 0 < V /\ V * g * (1000 + 5 / 4 * z) = 180 * r * z * bw) /\
  (exists V k, v_rdc 2 fck z bw dg E A l alpha g = Ok V /\ 0 < V /\ V * g * (1 + 1500 * e) * (1000 + k * z) = 520 * r * z * bw /\ 3 / 4 <= k <= 2 /\
     (70 < fck -> k = 2) /\ (fck <= 70 -> 80 <= 3 * dg -> k = 3 / 4) /\ (fck <= 70 -> 3 * dg <= 80 -> k * (16 + dg) = 32)) /\
  (forall m, v_rd_max 3 fck bw 0 z E A l alpha g = Ok m -> 0 < m -> exists V, v_rdc 3 fck z bw dg E A l alpha g = Ok V /\ 0 <= V /\ (m <= Ved l -> V = 0) /\
     (Ved l <= m -> V * g * (1 + 1500 * e) * m = 4 / 10 * r * z * bw * (m - Ved l))) /\
  (forall lvl, lvl <> 1%Z -> lvl <> 2%Z -> lvl <> 3%Z -> v_rdc lvl fck z bw dg E A l alpha g = Err ValueError).
Proof.
  intros fck z bw dg E A l alpha g PF PZ PB PD PG r e. assert (PR : 0 < r) by (apply fsqr_pos, PF). assert (PE : 0 <= e) by apply eps_nonneg. assert (PI' : 0 < 1 + 1500 * e) by lra. split; [|split; [|split]].
  - eexists. split; [reflexivity|]. unfold v_rdc_approx1. fold r. cbv zeta. split; [repeat apply Rmult_lt_0_compat; try lra; apply Rinv_0_lt_compat; lra|]. field. lra.
  - set (dg' := if Rltb 70 fck then 0 else dg). assert (D0 : 0 <= dg') by (unfold dg'; destruct (Rltb 70 fck); lra). set (k := Rmax (32 / (16 + dg')) (75 / 100)).
    assert (S1 : 32 / (16 + dg') * (16 + dg') = 32) by (field; lra). assert (K1 : 75 / 100 <= k) by apply Rmax_r. assert (K2 : k <= 2). { apply Rmax_lub; [|lra]. apply (Rmult_le_reg_r (16 + dg')); [lra|]. rewrite S1. lra. }
    assert (PK : 0 < 1000 + k * z) by (assert (0 < k * z) by (apply Rmult_lt_0_compat; lra); lra).
    exists (v_rdc_approx2 fck z bw dg E A l g), k. split; [reflexivity|]. unfold v_rdc_approx2. fold r e dg'. cbv zeta. fold k. split; [repeat apply Rmult_lt_0_compat; try lra; apply Rinv_0_lt_compat; lra|]. split; [field; lra|]. split; [lra|]. split; [|split].
    + intros H. unfold k, dg'. destruct (Rltb_spec 70 fck); [|lra]. rewrite Rmax_left; lra.
    + intros H1 H2. unfold k. rewrite Rmax_right; [lra|]. apply (Rmult_le_reg_r (16 + dg')); [lra|]. rewrite S1. unfold dg' in *. destruct (Rltb_spec 70 fck); lra.
    + intros H1 H2. assert (ED : dg' = dg) by (unfold dg'; destruct (Rltb_spec 70 fck); lra). rewrite ED in *. unfold k. rewrite Rmax_left; [rewrite ED; exact S1|]. rewrite ED. apply (Rmult_le_reg_r (16 + dg)); [lra|]. rewrite S1. lra.
  - intros m EM PM. cbn [v_rd_max Z.eqb Pos.eqb] in EM. apply Ok_inj in EM. eexists. split; [reflexivity|]. unfold v_rdc_approx3. fold r e. cbv zeta. rewrite EM. set (kv := Rmax _ 0). assert (KV : 0 <= kv) by apply Rmax_r.
    assert (P4 : 0 < 4 / 10 / (1 + 1500 * e)) by (apply Rdiv_lt_0_compat; lra). assert (SM : Ved l / m * m = Ved l) by (field; lra).
    split; [repeat apply Rmult_le_pos; try lra; apply Rlt_le, Rinv_0_lt_compat, PG|]. split.
    + intros H. assert (Z : kv = 0). { unfold kv. apply Rmax_right. assert (1 <= Ved l / m) by (apply (Rmult_le_reg_r m); lra). rewrite <- (Rmult_0_r (4 / 10 / (1 + 1500 * e))). apply Rmult_le_compat_l; lra. } rewrite Z. field. lra.
    + intros H. assert (Z : kv = 4 / 10 / (1 + 1500 * e) * (1 - Ved l / m)). { unfold kv. apply Rmax_left. assert (Ved l / m <= 1) by (apply (Rmult_le_reg_r m); lra). apply Rmult_le_pos; lra. } rewrite Z. field. lra.
  - intros lvl N1 N2 N3. unfold v_rdc. destruct (Z.eqb_spec lvl 1); [contradiction|]. destruct (Z.eqb_spec lvl 2); [contradiction|]. destruct (Z.eqb_spec lvl 3); [contradiction|reflexivity].
Qed.
Print Assumptions C39_v_rdc.
(** Strut crushing with vertical stirrups: k eta fck/gamma_c bw z sin cos of the angle, at most
    half of k eta fck/gamma_c bw z; k is 0.55 at level 1 and the strain factor at levels 2 (the
    given angle) and 3 (the least angle). *)
Theorem C39_v_rd_max : forall fck bw theta z E A l g, 0 < fck -> 0 < bw -> 0 < z -> 0 < g ->
  let e := epsilon_x E A z l in let u := eta_fc fck * (fck / g) * bw * z in let t3 := 20 + 10000 * e in
  (sin (radians theta) <> 0 -> v_rd_max 1 fck bw theta z E A l 90 g = Ok (55 / 100 * u * (sin (radians theta) * cos (radians theta)))) /\
  (sin (radians theta) <> 0 -> exists k, strain_factor e (cot (radians theta)) k /\ 0 < k /\ v_rd_max 2 fck bw theta z E A l 90 g = Ok (k * u * (sin (radians theta) * cos (radians theta)))) /\
  (sin (radians t3) <> 0 -> exists k, strain_factor e (cot (radians t3)) k /\ 0 < k /\ v_rd_max 3 fck bw theta z E A l 90 g = Ok (k * u * (sin (radians t3) * cos (radians t3)))) /\
  (forall lvl m, sin (radians theta) <> 0 -> sin (radians t3) <> 0 -> v_rd_max lvl fck bw theta z E A l 90 g = Ok m -> m <= 325 / 1000 * u /\ m < 1 / 2 * (fck / g) * bw * z) /\
  (forall lvl alpha, lvl <> 1%Z -> lvl <> 2%Z -> lvl <> 3%Z -> v_rd_max lvl fck bw theta z E A l alpha g = Err ValueError).
Proof.
  intros fck bw theta z E A l g PF PB PZ PG e u t3. destruct cot_90 as [_ C90]. assert (PE : 0 <= e) by apply eps_nonneg. destruct (eta_bounds fck PF) as [H1 H2]. assert (PFG : 0 < fck / g) by (apply Rdiv_lt_0_compat; assumption).
  assert (PX : 0 < (fck / g) * bw * z) by (apply Rmult_lt_0_compat; [apply Rmult_lt_0_compat; assumption|assumption]). assert (EU : u = eta_fc fck * ((fck / g) * bw * z)) by (unfold u; ring). assert (PU : 0 < u) by (rewrite EU; apply Rmult_lt_0_compat; assumption). assert (LU : u <= (fck / g) * bw * z) by (rewrite EU; nra).
  assert (V1 : sin (radians theta) <> 0 -> v_rd_max 1 fck bw theta z E A l 90 g = Ok (55 / 100 * u * (sin (radians theta) * cos (radians theta)))).
  { intros NS. cbn [v_rd_max Z.eqb Pos.eqb]. unfold v_rd_max_approx1. rewrite C90, strut_90 by exact NS. f_equal. unfold u. ring. }
  assert (V2 : forall t, sin (radians t) <> 0 -> exists k, strain_factor e (cot (radians t)) k /\ 0 < k /\ v_rd_max_approx2 fck bw t z E A l 90 g = k * u * (sin (radians t) * cos (radians t))).
  { intros t NS. unfold v_rd_max_approx2. fold e. cbv zeta. rewrite C90, strut_90 by exact NS. pose proof (strain_factor_min e (cot (radians t)) PE) as SF. eexists. split; [exact SF|]. split; [apply (strain_factor_pos _ _ _ PE SF)|]. unfold u. ring. }
  split; [exact V1|]. split; [intros NS; destruct (V2 theta NS) as (k & A1 & A2 & A3); exists k; split; [exact A1|split; [exact A2|]]; cbn [v_rd_max Z.eqb Pos.eqb]; f_equal; exact A3|].
  split; [intros NS; destruct (V2 t3 NS) as (k & A1 & A2 & A3); exists k; split; [exact A1|split; [exact A2|]]; cbn [v_rd_max Z.eqb Pos.eqb]; f_equal; exact A3|]. split.
  - intros lvl m NS N3 EM. assert (B : exists k t, 0 <= k <= 65 / 100 /\ m = k * u * (sin (radians t) * cos (radians t))).
    { unfold v_rd_max in EM. destruct (Z.eqb_spec lvl 1); [|destruct (Z.eqb_spec lvl 2); [|destruct (Z.eqb_spec lvl 3); [|discriminate]]].
      - pose proof (V1 NS) as W. cbn [v_rd_max Z.eqb Pos.eqb] in W. rewrite W in EM. apply Ok_inj in EM. exists (55 / 100), theta. split; [lra|congruence].
      - destruct (V2 theta NS) as (k & (A1 & _) & A2 & A3). apply Ok_inj in EM. exists k, theta. split; [lra|congruence].
      - destruct (V2 t3 N3) as (k & (A1 & _) & A2 & A3). apply Ok_inj in EM. exists k, t3. split; [lra|]. rewrite <- EM. exact A3. }
    destruct B as (k & t & HK & ->). pose proof (sin_cos_half (radians t)) as SH. set (sc := sin (radians t) * cos (radians t)) in *. assert (L1 : k * u * sc <= 325 / 1000 * u). { apply Rle_trans with (k * u * (1 / 2)); [apply Rmult_le_compat_l; [apply Rmult_le_pos; lra|exact SH]|]. assert (k * u <= 65 / 100 * u) by (apply Rmult_le_compat_r; lra). lra. }
    split; [exact L1|]. replace (1 / 2 * (fck / g) * bw * z) with (1 / 2 * ((fck / g) * bw * z)) by ring. lra.
  - intros lvl alpha N1 N2 N3. unfold v_rd_max. destruct (Z.eqb_spec lvl 1); [contradiction|]. destruct (Z.eqb_spec lvl 2); [contradiction|]. destruct (Z.eqb_spec lvl 3); [contradiction|reflexivity].
Qed.
Print Assumptions C39_v_rd_max.
(** Without stirrups v_rd is v_rdc of the level, whatever the stirrup arguments and gamma_s. *)
Theorem C39_v_rd_plain : forall lvl fck z bw dg E A l asw sw fy theta alpha g gs, v_rd lvl false fck z bw dg E A l asw sw fy theta alpha g gs = v_rdc lvl fck z bw dg E A l alpha g.
Proof. reflexivity. Qed.
Print Assumptions C39_v_rd_plain.
(** Levels 1 and 2 with stirrups: the smaller of the stirrup resistance, with partial factor
    1.15, and the crushing resistance of the level. *)
Theorem C39_v_rd_12 : forall lvl fck z bw dg E A l asw sw fy theta alpha g gs, lvl = 1%Z \/ lvl = 2%Z -> 0 < sw ->
  exists V m, v_rd lvl true fck z bw dg E A l (Some asw) (Some sw) (Some fy) (Some theta) alpha g gs = Ok V /\ v_rd_max lvl fck bw theta z E A l alpha g = Ok m /\ V <= m /\
    let s := asw * z * fy * (cot (radians theta) + cot (radians alpha)) * sin (radians alpha) in V * sw * (115 / 100) <= s /\ (V = m \/ V * sw * (115 / 100) = s).
Proof.
  intros lvl fck z bw dg E A l asw sw fy theta alpha g gs HL PS. assert (EM : exists m, v_rd_max lvl fck bw theta z E A l alpha g = Ok m) by (destruct HL as [-> | ->]; eexists; reflexivity). destruct EM as [m EM].
  set (q := v_rds asw sw z fy theta alpha (115 / 100)). exists (Rmin q m), m. split; [|split; [exact EM|]].
  - unfold v_rd, v_rd_12. cbn [negb]. cbv zeta. rewrite EM. destruct HL as [-> | ->]; reflexivity.
  - split; [apply Rmin_r|]. cbv zeta. set (s := asw * z * fy * _ * _). assert (EQ : q * sw * (115 / 100) = s) by (unfold q, v_rds, s; cbv zeta; field; lra). assert (P : 0 < sw * (115 / 100)) by lra. split.
    + rewrite <- EQ, !Rmult_assoc. apply Rmult_le_compat_r; [lra|apply Rmin_l].
    + unfold Rmin. destruct (Rle_dec _ _); [right; exact EQ|left; reflexivity].
Qed.
Print Assumptions C39_v_rd_12.
(** Level 3 with stirrups: concrete and stirrup resistance, the latter with fy divided by the
    caller's factor and by 1.15, if that is below the level 3 crushing resistance; otherwise
    the level 2 resistance. *)
Theorem C39_v_rd_3 : forall fck z bw dg E A l asw sw fy theta alpha g gs, 0 < sw -> 0 < gs ->
  exists c m s, v_rdc 3 fck z bw dg E A l alpha g = Ok c /\ v_rd_max 3 fck bw theta z E A l alpha g = Ok m /\ s * sw * (gs * (115 / 100)) = asw * z * fy * (cot (radians theta) + cot (radians alpha)) * sin (radians alpha) /\
    let V := v_rd 3 true fck z bw dg E A l (Some asw) (Some sw) (Some fy) (Some theta) alpha g gs in
    (c + s < m -> V = Ok (c + s)) /\ (m <= c + s -> forall gs', V = v_rd 2 true fck z bw dg E A l (Some asw) (Some sw) (Some fy) (Some theta) alpha g gs').
Proof.
  intros fck z bw dg E A l asw sw fy theta alpha g gs PS PG. exists (v_rdc_approx3 fck z bw E A l alpha g), (v_rd_max_approx3 fck bw z E A l alpha g), (v_rds asw sw z (fy / gs) theta alpha (115 / 100)). split; [reflexivity|]. split; [reflexivity|]. split; [unfold v_rds; cbv zeta; field; lra|].
  cbv zeta. unfold v_rd. cbn [negb orb Z.eqb Pos.eqb v_rdc v_rd_max bind]. cbv zeta. set (c := v_rdc_approx3 _ _ _ _ _ _ _ _). set (m := v_rd_max_approx3 _ _ _ _ _ _ _ _). set (s := v_rds _ _ _ _ _ _ _). split; intros H; destruct (Rltb_spec (c + s) m); try lra; reflexivity.
Qed.
Print Assumptions C39_v_rd_3.
(** Missing stirrup data and unknown levels. *)
Theorem C39_v_rd_checks : forall lvl fck z bw dg E A l asw sw fy theta alpha g gs,
  (fy = None -> v_rd lvl true fck z bw dg E A l asw sw fy theta alpha g gs = Err TypeError) /\
  ((lvl = 1 \/ lvl = 2 \/ lvl = 3)%Z -> asw = None \/ sw = None \/ theta = None -> v_rd lvl true fck z bw dg E A l asw sw fy theta alpha g gs = Err TypeError) /\
  ((lvl <> 1 /\ lvl <> 2 /\ lvl <> 3)%Z -> forall f, fy = Some f -> v_rd lvl true fck z bw dg E A l asw sw fy theta alpha g gs = Err ValueError).
Proof.
  intros lvl fck z bw dg E A l asw sw fy theta alpha g gs. unfold v_rd. cbn [negb]. split; [intros ->; reflexivity|]. split.
  - intros HL HN. destruct fy; [|reflexivity]. cbv zeta. unfold v_rd_12. destruct HL as [-> | [-> | ->]]; cbn [Z.eqb Pos.eqb orb v_rdc v_rd_max bind]; destruct asw, sw, theta; try reflexivity; destruct HN as [HN|[HN|HN]]; discriminate.
  - intros (N1 & N2 & N3) f ->. cbv zeta. destruct (Z.eqb_spec lvl 1); [contradiction|]. destruct (Z.eqb_spec lvl 2); [contradiction|]. destruct (Z.eqb_spec lvl 3); [contradiction|reflexivity].
Qed.
Print Assumptions C39_v_rd_checks.
(** The caller's steel factor has no effect at levels 1 and 2. *)
Theorem C39_gamma_s_refuted : forall lvl fck z bw dg E A l asw sw fy theta alpha g gs gs', lvl = 1%Z \/ lvl = 2%Z ->
  v_rd lvl true fck z bw dg E A l asw sw fy theta alpha g gs = v_rd lvl true fck z bw dg E A l asw sw fy theta alpha g gs'.
Proof. intros lvl fck z bw dg E A l asw sw fy theta alpha g gs gs' [-> | ->]; destruct fy; reflexivity. Qed.
Print Assumptions C39_gamma_s_refuted.
(** At level 3 the result can exceed the level 3 crushing resistance: chord strain 0.001,
    strut at 45 degrees, enough stirrups. *)
Theorem C39_level3_limit_refuted : forall fck z bw dg E A l, 0 < fck -> 0 < z -> 0 < bw -> 0 <= dg -> 0 < E -> 0 < A -> epsilon_x E A z l = 1 / 1000 ->
  exists m V asw, v_rd_max 3 fck bw 45 z E A l 90 (15 / 10) = Ok m /\ v_rd 3 true fck z bw dg E A l (Some asw) (Some 100) (Some 500) (Some 45) 90 (15 / 10) (115 / 100) = Ok V /\ 0 < m /\ 13 / 10 * m < V.
Proof.
  intros fck z bw dg E A l PF PZ PB PD PE PA EE.
  assert (R45 : radians 45 = PI / 4) by (unfold radians; field). assert (S45 : sin (radians 45) <> 0) by (rewrite R45; apply Rgt_not_eq, sin_gt_0; pose proof PI_RGT_0; lra).
  assert (R30 : radians (20 + 10000 * epsilon_x E A z l) = PI / 6) by (rewrite EE; unfold radians; field). assert (S30 : sin (radians (20 + 10000 * epsilon_x E A z l)) <> 0) by (rewrite R30, sin_PI6; lra).
  assert (SC45 : sin (radians 45) * cos (radians 45) = 1 / 2). { rewrite R45, <- sin_cos_PI4. pose proof (sin2_cos2 (PI / 4)) as SC. rewrite <- sin_cos_PI4 in SC. unfold Rsqr in SC. lra. }
  destruct (C39_v_rd_max fck bw 45 z E A l (15 / 10) PF PB PZ ltac:(lra)) as (_ & V2 & V3 & _ & _). destruct (V2 S45) as (k2 & F2 & P2 & E2). destruct (V3 S30) as (k3 & F3 & P3 & E3).
  rewrite R30 in *. rewrite EE in *. rewrite SC45 in E2. set (u := eta_fc fck * (fck / (15 / 10)) * bw * z) in *.
  assert (PU : 0 < u) by (destruct (eta_bounds fck PF); unfold u; repeat apply Rmult_lt_0_compat; lra).
  assert (K2 : k2 = 65 / 100). { destruct F2 as (L & _ & [K|K]); [exact K|]. rewrite cot_45 in K. lra. }
  assert (S3 : 0 <= sqrt 3) by apply sqrt_pos. assert (Q3 : sqrt 3 * sqrt 3 = 3) by (apply sqrt_sqrt; lra). assert (C30 : cot (PI / 6) * cot (PI / 6) = 3). { unfold cot. rewrite sin_PI6, cos_PI6. replace (sqrt 3 / 2 / (1 / 2)) with (sqrt 3) by field. exact Q3. }
  assert (K3 : k3 = 100 / 175). { destruct F3 as (L & L2 & [K|K]); rewrite C30 in *; lra. }
  assert (SC30 : sin (PI / 6) * cos (PI / 6) = sqrt 3 / 4) by (rewrite sin_PI6, cos_PI6; field). rewrite SC30, K3 in E3. rewrite K2 in E2.
  assert (U3 : sqrt 3 < 1733 / 1000) by (apply Rnot_le_lt; intros L; nra). assert (P3' : 0 < sqrt 3) by (apply sqrt_lt_R0; lra).
  set (m := 100 / 175 * u * (sqrt 3 / 4)) in *. set (w := 65 / 100 * u * (1 / 2)) in *. assert (PM : 0 < m) by (unfold m; apply Rmult_lt_0_compat; [apply Rmult_lt_0_compat; [lra|exact PU]|lra]). assert (MW : 13 / 10 * m < w). { unfold m, w. assert (u * sqrt 3 < u * (1733 / 1000)) by (apply Rmult_lt_compat_l; lra). lra. }
  set (asw := (m + w) * (115 / 100) * (115 / 100) * 100 / (z * 500)). exists m, w, asw. split; [exact E3|]. split; [|split; [exact PM|exact MW]].
  assert (Pasw : v_rds asw 100 z 500 45 90 (115 / 100) = (m + w) * (115 / 100)). { unfold v_rds. destruct cot_90 as [E90 C90]. rewrite C90, E90, cot_45. unfold asw. cbv zeta. field. lra. }
  assert (Pasw' : v_rds asw 100 z (500 / (115 / 100)) 45 90 (115 / 100) = m + w). { assert (E0 : v_rds asw 100 z (500 / (115 / 100)) 45 90 (115 / 100) = v_rds asw 100 z 500 45 90 (115 / 100) / (115 / 100)) by (unfold v_rds; cbv zeta; field). rewrite E0, Pasw. field. }
  destruct (C39_v_rdc fck z bw dg E A l 90 (15 / 10) PF PZ PB PD ltac:(lra)) as (_ & _ & V3' & _). destruct (V3' m E3 PM) as (c & EC & PC & _).
  unfold v_rd. cbn [negb orb Z.eqb Pos.eqb]. cbv zeta. rewrite EC. cbn [bind]. change (v_rd_max 3 fck bw 0 z E A l 90 (15 / 10)) with (v_rd_max 3 fck bw 45 z E A l 90 (15 / 10)). rewrite E3. cbn [bind]. rewrite Pasw'. destruct (Rltb_spec (c + (m + w)) m); [lra|]. unfold v_rd_12. rewrite E2. cbn [bind]. rewrite Pasw, Rmin_right by lra. reflexivity.
Qed.
Print Assumptions C39_level3_limit_refuted.
(** The sign of the shear force matters at level 3: reversing a positive force raises the
    concrete resistance. *)
Theorem C39_sign_refuted : forall fck z bw dg E A l alpha g m, 0 < fck -> 0 < z -> 0 < bw -> 0 <= dg -> 0 < g -> 0 < Ved l -> v_rd_max 3 fck bw 0 z E A l alpha g = Ok m -> 0 < m ->
  exists V V', v_rdc 3 fck z bw dg E A l alpha g = Ok V /\ v_rdc 3 fck z bw dg E A (with_shear_force l (- Ved l)) alpha g = Ok V' /\ V < V'.
Proof.
  intros fck z bw dg E A l alpha g m PF PZ PB PD PG PV EM PM. set (l' := with_shear_force l (- Ved l)). assert (EE : epsilon_x E A z l' = epsilon_x E A z l) by (unfold epsilon_x, l'; cbn [with_shear_force Med Ved Ned delta_e]; rewrite Rabs_Ropp; reflexivity).
  assert (EM' : v_rd_max 3 fck bw 0 z E A l' alpha g = Ok m). { rewrite <- EM. cbn [v_rd_max Z.eqb Pos.eqb]. unfold v_rd_max_approx3, v_rd_max_approx2. rewrite EE. reflexivity. }
  destruct (C39_v_rdc fck z bw dg E A l alpha g PF PZ PB PD PG) as (_ & _ & H & _). destruct (H m EM PM) as (V & E1 & P1 & Z1 & F1). destruct (C39_v_rdc fck z bw dg E A l' alpha g PF PZ PB PD PG) as (_ & _ & H' & _). destruct (H' m EM' PM) as (V' & E1' & P1' & Z1' & F1').
  exists V, V'. split; [exact E1|]. split; [exact E1'|]. rewrite EE in F1'. cbn [l' with_shear_force Ved] in F1'. unfold l' in F1'. cbn [with_shear_force Ved] in F1'. specialize (F1' ltac:(lra)). set (r := Rmin (sqrt fck) 8) in *. set (e := epsilon_x E A z l) in *. assert (PR : 0 < r) by (apply fsqr_pos, PF). assert (PE : 0 <= e) by apply eps_nonneg.
  assert (PD' : 0 < g * (1 + 1500 * e) * m) by (repeat apply Rmult_lt_0_compat; lra). assert (PK : 0 < 4 / 10 * r * z * bw) by (repeat apply Rmult_lt_0_compat; lra). apply (Rmult_lt_reg_r (g * (1 + 1500 * e) * m)); [exact PD'|]. rewrite <- !Rmult_assoc. rewrite F1'.
  destruct (Rle_dec (Ved l) m) as [L|L]; [rewrite (F1 L); apply Rmult_lt_compat_l; lra|]. rewrite (Z1 ltac:(lra)), !Rmult_0_l. apply Rmult_lt_0_compat; lra.
Qed.
Print Assumptions C39_sign_refuted.
(** Hollow cores: level 1 shear tension, levels other than 1 and 2 rejected. *)
Theorem C39_v_rd_ct : forall f ic sc bw s lx lb Scy bwy y yc Ac Acy yp F dF, 0 < f -> 0 < sc -> 0 < lb -> 0 <= f * lb * (12 / 10) + lx * s ->
  (exists V, v_rd_ct 1 f ic sc bw s lx lb Scy bwy y yc Ac Acy yp F dF = Ok V /\ (V * sc) ^ 2 * (12 / 10 * lb) = 64 / 100 * (ic * bw) ^ 2 * (f * (f * lb * (12 / 10) + lx * s)) /\ (0 <= ic * bw -> 0 <= V)) /\
  (forall sg, 0 < bwy -> 0 < Scy -> 0 < Ac -> 0 < ic -> sg * (Ac * ic) = (yc - y) * F -> 0 <= f * lb * (12 / 10) + lx * sg -> exists V q, v_rd_ct 2 f ic sc bw s lx lb Scy bwy y yc Ac Acy yp F dF = Ok V /\
     0 <= q /\ q ^ 2 * (12 / 10 * lb) = f * (f * lb * (12 / 10) + lx * sg) /\ V * Scy = ic * bwy * q - (ic * Acy / Ac - Scy * (yc - yp)) * dF) /\
  (forall lvl, lvl <> 1%Z -> lvl <> 2%Z -> v_rd_ct lvl f ic sc bw s lx lb Scy bwy y yc Ac Acy yp F dF = Err ValueError).
Proof.
  intros f ic sc bw s lx lb Scy bwy y yc Ac Acy yp F dF PF PS PL PQ.
  assert (Q : forall x, 0 <= f * lb * (12 / 10) + lx * x -> 0 <= f ^ 2 + lx / (12 / 10 * lb) * x * f).
  { intros x H. replace (f ^ 2 + lx / (12 / 10 * lb) * x * f) with (f * (f * lb * (12 / 10) + lx * x) * / (12 / 10 * lb)) by (field; lra). apply Rmult_le_pos; [apply Rmult_le_pos; lra|apply Rlt_le, Rinv_0_lt_compat; lra]. }
  split; [|split].
  - eexists. split; [reflexivity|]. unfold v_rd_ct_approx1. cbv zeta. pose proof (pow2_sqrt _ (Q s PQ)) as E. set (q := sqrt _) in *. split.
    + replace ((8 / 10 * (ic * bw / sc) * q * sc) ^ 2 * (12 / 10 * lb)) with (64 / 100 * (ic * bw) ^ 2 * (q ^ 2 * (12 / 10 * lb))) by (field; lra). rewrite E. f_equal. field. lra.
    + intros H. apply Rmult_le_pos; [|apply sqrt_pos]. apply Rmult_le_pos; [lra|]. apply Rmult_le_pos; [exact H|apply Rlt_le, Rinv_0_lt_compat, PS].
  - intros sg PB PC PA PI' ES H. assert (EG : 1 / Ac * ((yc - y) / ic) * F = sg) by (apply (Rmult_eq_reg_r (Ac * ic)); [rewrite ES; field; lra|apply Rgt_not_eq, Rmult_lt_0_compat; assumption]).
    pose proof (pow2_sqrt _ (Q sg H)) as E. exists (v_rd_ct_approx2 f ic lx lb Scy bwy y yc Ac Acy yp F dF), (sqrt (f ^ 2 + lx / (12 / 10 * lb) * sg * f)). split; [reflexivity|]. split; [apply sqrt_pos|]. split; [rewrite E; field; lra|]. unfold v_rd_ct_approx2. cbv zeta. rewrite EG. field. lra.
  - intros lvl N1 N2. unfold v_rd_ct. destruct (Z.eqb_spec lvl 1); [contradiction|]. destruct (Z.eqb_spec lvl 2); [contradiction|reflexivity].
Qed.
Print Assumptions C39_v_rd_ct.
Example C39_cases : let l := {| Med := 400000000; Ved := 0; Ned := 0; delta_e := 0 |} in epsilon_x 200000 1000 1000 l = 1 / 1000 /\ sin (radians 45) <> 0 /\ strain_factor (1 / 1000) 1 (65 / 100).
Proof.
  cbv zeta. split; [|split].
  - unfold epsilon_x. cbn [Med Ved Ned delta_e]. rewrite Rabs_R0, Rabs_pos_eq by lra. rewrite Rmax_left; lra.
  - unfold radians. apply Rgt_not_eq, sin_gt_0; pose proof PI_RGT_0; lra.
  - unfold strain_factor. lra.
Qed.
