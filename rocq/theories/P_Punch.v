(** C40: MC2010 torsion, punching, interfaces, bond. *)
From Coq Require Import String ZArith Lra Lia.
From Verif Require Import Base M_Registry M_Calc S_Calc L_Calc L_Conc L_Creep L_Shear M_Crack L_Crack M_ShearMC S_ShearMC L_ShearMC M_Punch L_Punch.
Open Scope R_scope.
Open Scope list_scope.

(** Torsional crushing resistance: k eta fck/gamma_c (d_k/8) 2 A_k sin cos of the given angle, k
    as for shear; an unknown level ends in UnboundLocalError. *)
Theorem C40_t_rd_max : forall f dk ak theta lvl z E A l g, 0 < g ->
  let e := epsilon_x E A z l in let T k := k * eta_fc f * f * (dk / 8) * (2 * ak) * (sin (radians theta) * cos (radians theta)) / g in
  t_rd_max f dk ak theta 1 z E A l g = Ok (T (55 / 100)) /\ (exists k, strain_factor e (cot (radians theta)) k /\ t_rd_max f dk ak theta 2 z E A l g = Ok (T k)) /\
  (exists k, strain_factor e (cot (radians (20 + 10000 * e))) k /\ t_rd_max f dk ak theta 3 z E A l g = Ok (T k)) /\ (lvl <> 1%Z -> lvl <> 2%Z -> lvl <> 3%Z -> t_rd_max f dk ak theta lvl z E A l g = Err UnboundLocalError).
Proof.
  intros f dk ak theta lvl z E A l g PG e T. assert (PE : 0 <= e) by apply eps_nonneg. unfold t_rd_max. cbn [Z.eqb Pos.eqb bind]. cbv zeta. fold e. split; [|split; [|split]].
  - f_equal. unfold T. field. lra.
  - eexists. split; [apply (strain_factor_min e (cot (radians theta)) PE)|]. f_equal. unfold T. field. lra.
  - eexists. split; [apply (strain_factor_min e (cot (radians (20 + 10000 * e))) PE)|]. f_equal. unfold T. field. lra.
  - intros N1 N2 N3. destruct (Z.eqb_spec lvl 1); [contradiction|]. destruct (Z.eqb_spec lvl 2); [contradiction|]. destruct (Z.eqb_spec lvl 3); [contradiction|reflexivity].
Qed.
Print Assumptions C40_t_rd_max.
(** The interaction check accepts exactly the circle; hence neither action alone exceeds its
    resistance, signs do not matter, and less torsion keeps an accepted case accepted. *)
Theorem C40_t_rd : forall T lvl f bw theta z E A l dk ak alpha g t v, t_rd_max f dk ak theta lvl z E A l g = Ok t -> v_rd_max lvl f bw theta z E A l alpha g = Ok v -> 0 < t -> 0 < v ->
  exists b, t_rd T lvl f bw theta z E A l dk ak alpha g = Ok b /\ (b = true <-> (T * v) ^ 2 + (Ved l * t) ^ 2 <= (t * v) ^ 2) /\ (b = true -> Rabs T <= t /\ Rabs (Ved l) <= v) /\
    t_rd (- T) lvl f bw theta z E A l dk ak alpha g = Ok b /\ (b = true -> forall T', Rabs T' <= Rabs T -> t_rd T' lvl f bw theta z E A l dk ak alpha g = Ok true).
Proof.
  intros T lvl f bw theta z E A l dk ak alpha g t v ET EV PT PV.
  assert (EQ : forall T, t_rd T lvl f bw theta z E A l dk ak alpha g = Ok (Rleb ((T / t) ^ 2 + (Ved l / v) ^ 2) 1)) by (intros T'; unfold t_rd; rewrite ET; cbn [bind]; rewrite pdiv_ok by lra; cbn [bind]; rewrite EV; cbn [bind]; rewrite pdiv_ok by lra; reflexivity).
  rewrite !EQ. eexists. split; [reflexivity|]. set (W := Ved l) in *. rewrite Rleb_true.
  assert (PTV : 0 < (t * v) ^ 2) by (apply pow_lt, Rmult_lt_0_compat; assumption). assert (EE : forall T, ((T / t) ^ 2 + (W / v) ^ 2) * (t * v) ^ 2 = (T * v) ^ 2 + (W * t) ^ 2) by (intros; field; lra).
  assert (SQ : forall x y, 0 < y -> (x / y) ^ 2 <= 1 -> Rabs x <= y). { intros x y P H. assert (E1 : x ^ 2 = (x / y) ^ 2 * y ^ 2) by (field; lra). assert (x ^ 2 <= y ^ 2) by (rewrite E1; pose proof (pow2_ge_0 y); nra). rewrite <- (Rabs_pos_eq y) by lra. apply Rsqr_le_abs_0. unfold Rsqr. nra. }
  split; [|split; [|split]].
  - rewrite <- EE. split; intros H; [rewrite <- (Rmult_1_l ((t * v) ^ 2)) at 2; apply Rmult_le_compat_r; lra|]. apply (Rmult_le_reg_r ((t * v) ^ 2)); lra.
  - intros H. pose proof (pow2_ge_0 (T / t)). pose proof (pow2_ge_0 (W / v)). split; apply SQ; lra.
  - f_equal. f_equal. f_equal. field. lra.
  - intros H T' L. rewrite EQ. f_equal. apply Rleb_true. apply Rle_trans with ((T / t) ^ 2 + (W / v) ^ 2); [|exact H]. apply Rplus_le_compat_r. apply Rsqr_le_abs_1 in L. unfold Rsqr in L. replace ((T' / t) ^ 2) with (T' * T' * / (t * t)) by (field; lra). replace ((T / t) ^ 2) with (T * T * / (t * t)) by (field; lra). apply Rmult_le_compat_r; [|exact L]. apply Rlt_le, Rinv_0_lt_compat, Rmult_lt_0_compat; assumption.
Qed.
Print Assumptions C40_t_rd.
(** Wall shear flow. *)
Theorem C40_wall_shear : forall T ak z, 0 < ak -> v_ed_ti T ak z * (2 * ak) = T * z.
Proof. intros. unfold v_ed_ti. field. lra. Qed.
Print Assumptions C40_wall_shear.
(** Punching: support strip and moments. *)
Theorem C40_strip : forall lx ly, 0 < lx -> 0 < ly ->
  (0 < pu_b_s lx ly /\ pu_b_s lx ly <= lx /\ pu_b_s lx ly <= ly /\ pu_b_s lx ly ^ 2 <= (33 / 100) ^ 2 * (lx * ly) /\ (pu_b_s lx ly = lx \/ pu_b_s lx ly = ly \/ pu_b_s lx ly ^ 2 = (33 / 100) ^ 2 * (lx * ly))) /\
  pu_b_sr lx ly <= lx /\ pu_b_sr lx ly <= ly /\ (pu_b_sr lx ly = lx \/ pu_b_sr lx ly = ly) /\
  (forall v p, p <> 0 -> pu_b_0 v p * p = v) /\
  forall l3 ec b, pu_r_s lx ly true l3 ec b = (if ec && l3 then match b with Some b => Ok (Rmax (22 / 100 * lx) (67 / 100 * b)) | None => Err ValueError end else Ok (22 / 100 * lx))%bool /\
    pu_r_s lx ly false l3 ec b = pu_r_s ly lx true l3 ec b.
Proof.
  intros lx ly PX PY. assert (PXY : 0 < lx * ly) by (apply Rmult_lt_0_compat; assumption). split.
  - unfold pu_b_s. cbv zeta. set (q := 15 / 10 * sqrt (22 / 100 * lx * (22 / 100 * ly))). assert (Q : 0 < 22 / 100 * lx * (22 / 100 * ly)) by (apply Rmult_lt_0_compat; lra). assert (Q2 : q ^ 2 = (33 / 100) ^ 2 * (lx * ly)) by (unfold q; rewrite Rpow_mult_distr, pow2_sqrt by lra; field). assert (PQ : 0 < q) by (unfold q; apply Rmult_lt_0_compat; [lra|apply sqrt_lt_R0, Q]).
    set (m := Rmin lx ly). assert (PM : 0 < m) by (unfold m, Rmin; destruct (Rle_dec _ _); lra). assert (M1 : m <= lx) by apply Rmin_l. assert (M2 : m <= ly) by apply Rmin_r. assert (M3 : m = lx \/ m = ly) by (unfold m, Rmin; destruct (Rle_dec _ _); tauto).
    unfold Rmin. destruct (Rle_dec q m) as [L|L]; (split; [lra|split; [lra|split; [lra|]]]).
    + split; [rewrite Q2; lra|]. right. right. exact Q2.
    + split; [rewrite <- Q2; apply pow_incr; lra|]. tauto.
  - unfold pu_b_sr. split; [apply Rmin_l|]. split; [apply Rmin_r|]. split; [unfold Rmin; destruct (Rle_dec _ _); tauto|]. split; [intros v p NP; unfold pu_b_0; field; exact NP|]. intros l3 ec b. unfold pu_r_s. split; [|reflexivity]. destruct (ec && l3)%bool, b; reflexivity.
Qed.
Print Assumptions C40_strip.
Theorem C40_m_ed : forall V e b inner par per corner, 0 < V -> 0 < b ->
  (inner = true -> exists m, pu_m_ed V e b inner par per corner = Ok m /\ V / 8 <= m /\ m = V / 8 + V * Rabs e / (2 * b)) /\
  (inner = false -> par = true -> exists m, pu_m_ed V e b inner par per corner = Ok m /\ V / 4 <= m /\ V / 8 + V * e / (2 * b) <= m /\ (m = V / 4 \/ m = V / 8 + V * e / (2 * b))) /\
  (inner = false -> par = false -> per = true -> pu_m_ed V e b inner par per corner = Ok (V / 8 + V * e / b)) /\
  (inner = false -> par = false -> per = false -> corner = true -> exists m, pu_m_ed V e b inner par per corner = Ok m /\ V / 2 <= m /\ V / 8 + V * e / b <= m /\ (m = V / 2 \/ m = V / 8 + V * e / b)) /\
  (inner = false -> par = false -> per = false -> corner = false -> pu_m_ed V e b inner par per corner = Err ValueError).
Proof.
  intros V e b inner par per corner PV PB. unfold pu_m_ed. split; [|split; [|split; [|split]]].
  - intros ->. eexists. split; [reflexivity|]. assert (E : V * (1 / 8 + Rabs e / (2 * b)) = V / 8 + V * Rabs e / (2 * b)) by (field; lra). rewrite E. split; [|reflexivity]. assert (0 <= V * Rabs e / (2 * b)) by (apply Rmult_le_pos; [apply Rmult_le_pos; [lra|apply Rabs_pos]|apply Rlt_le, Rinv_0_lt_compat; lra]). lra.
  - intros -> ->. eexists. split; [reflexivity|]. assert (E : V * (1 / 8 + e / (2 * b)) = V / 8 + V * e / (2 * b)) by (field; lra). rewrite E. split; [apply Rmax_r|]. split; [apply Rmax_l|]. unfold Rmax. destruct (Rle_dec _ _); tauto.
  - intros -> -> ->. f_equal. field. lra.
  - intros -> -> -> ->. eexists. split; [reflexivity|]. assert (E : V * (1 / 8 + e / b) = V / 8 + V * e / b) by (field; lra). rewrite E. split; [apply Rmax_r|]. split; [apply Rmax_l|]. unfold Rmax. destruct (Rle_dec _ _); tauto.
  - intros -> -> -> ->. reflexivity.
Qed.
Print Assumptions C40_m_ed.
(** Rotations: level 1 from the larger span; level 2 scaled by the load ratio to the power
    3/2, equal to level 1's expression at full utilisation and below it for less; level 3
    reduced by a fifth only with the uncracked model. *)
Theorem C40_rotation : forall lx ly rs fyd d es m mR mP, 0 < lx -> 0 < ly -> 0 < d -> 0 < es -> 0 < fyd -> mP <= m -> mP < mR -> 0 <= rs ->
  pu_psi1 lx ly fyd d es * (d * es) = 33 / 100 * Rmax lx ly * fyd /\
  0 <= pu_psi2 rs fyd d es m mR mP /\ (pu_psi2 rs fyd d es m mR mP * (d * es)) ^ 2 * (mR - mP) ^ 3 = (3 / 2 * rs * fyd) ^ 2 * (m - mP) ^ 3 /\
  (m <= mR -> rs <= 22 / 100 * Rmax lx ly -> pu_psi2 rs fyd d es m mR mP <= pu_psi1 lx ly fyd d es) /\
  (forall p u v, pu_psi3 p u v = if (u && v)%bool then 4 / 5 * p else p) /\
  (forall p1 p2 p3 lvl, (lvl = 1 -> pu_psi p1 p2 p3 lvl = Ok p1) /\ (lvl = 2 -> pu_psi p1 p2 p3 lvl = Ok p2) /\ (lvl = 3 -> pu_psi p1 p2 p3 lvl = Ok p3) /\ (lvl <> 1 -> lvl <> 2 -> lvl <> 3 -> pu_psi p1 p2 p3 lvl = Err ValueError)).
Proof.
  intros lx ly rs fyd d es m mR mP PX PY PD PE PF HM HR HS.
  assert (EM : Rmax (22 / 100 * lx) (22 / 100 * ly) = 22 / 100 * Rmax lx ly) by (apply RmaxRmult; lra). assert (PDE : 0 < d * es) by (apply Rmult_lt_0_compat; assumption). assert (PM : 0 < Rmax lx ly) by (unfold Rmax; destruct (Rle_dec _ _); lra).
  set (x := (m - mP) / (mR - mP)). assert (PXX : 0 <= x) by (apply Rmult_le_pos; [lra|apply Rlt_le, Rinv_0_lt_compat; lra]).
  assert (E1 : pu_psi1 lx ly fyd d es * (d * es) = 33 / 100 * Rmax lx ly * fyd) by (unfold pu_psi1; cbv zeta; rewrite EM; field; lra).
  assert (E2 : pu_psi2 rs fyd d es m mR mP * (d * es) = 3 / 2 * rs * fyd * pw x (3 / 2)) by (unfold pu_psi2; fold x; field; lra).
  split; [exact E1|]. split; [|split; [|split; [|split]]].
  - unfold pu_psi2. apply Rmult_le_pos; [|apply pw_nonneg]. apply Rmult_le_pos; [repeat apply Rmult_le_pos; lra|apply Rlt_le, Rinv_0_lt_compat, PDE].
  - rewrite E2. rewrite (Rpow_mult_distr (3 / 2 * rs * fyd)). rewrite (pw_frac x (3 / 2) 3 2); [|lia|exact PXX|cbn [Z.of_nat Pos.of_succ_nat Pos.succ]; lra]. unfold x. field. lra.
  - intros L1 L2. apply (Rmult_le_reg_r (d * es)); [exact PDE|]. rewrite E1, E2. assert (X1 : pw x (3 / 2) <= 1). { apply pw_le_1; [lra|]. split; [exact PXX|]. apply (Rmult_le_reg_r (mR - mP)); [lra|]. unfold x. replace ((m - mP) / (mR - mP) * (mR - mP)) with (m - mP) by (field; lra). lra. }
    assert (0 <= rs * fyd) by (apply Rmult_le_pos; lra). assert (rs * fyd * pw x (3 / 2) <= rs * fyd * 1) by (apply Rmult_le_compat_l; assumption). assert (rs * fyd <= 22 / 100 * Rmax lx ly * fyd) by (apply Rmult_le_compat_r; lra). lra.
  - intros p u v. unfold pu_psi3. destruct (u && v)%bool; [field|reflexivity].
  - intros p1 p2 p3 lvl. unfold pu_psi. repeat split; intros; repeat (match goal with |- context [Reqb ?a ?b] => destruct (Reqb_spec a b); try lra end); reflexivity.
Qed.
Print Assumptions C40_rotation.
(** Failure criterion. *)
Theorem C40_k_psi : forall dg d, 0 <= dg -> 0 < d -> let k := pu_k_dg dg in
  (3 / 4 <= k <= 2 /\ (3 * dg <= 80 -> k * (16 + dg) = 32) /\ (80 <= 3 * dg -> k = 3 / 4)) /\
  (forall psi, 0 <= psi -> let q := pu_k_psi k d psi in 0 < q <= 6 / 10 /\ q * (3 / 2 + 9 / 10 * k * d * psi) <= 1 /\ (q = 6 / 10 \/ q * (3 / 2 + 9 / 10 * k * d * psi) = 1)) /\ never_rises (fun psi => 0 <= psi) (pu_k_psi k d).
Proof.
  intros dg d PG PD k. assert (S1 : 32 / (16 + dg) * (16 + dg) = 32) by (field; lra). assert (K1 : 3 / 4 <= k) by (unfold k, pu_k_dg; pose proof (Rmax_r (32 / (16 + dg)) (75 / 100)); lra).
  assert (K2 : k <= 2). { unfold k, pu_k_dg. apply Rmax_lub; [|lra]. apply (Rmult_le_reg_r (16 + dg)); [lra|]. rewrite S1. lra. }
  assert (KD : 0 < 9 / 10 * k * d) by (repeat apply Rmult_lt_0_compat; lra). assert (Q : forall psi, 0 <= psi -> 0 < 15 / 10 + 9 / 10 * k * d * psi) by (intros psi H; assert (0 <= 9 / 10 * k * d * psi) by (apply Rmult_le_pos; lra); lra).
  split; [|split].
  - split; [lra|]. split; intros H; unfold k, pu_k_dg.
    + rewrite Rmax_left; [exact S1|]. apply (Rmult_le_reg_r (16 + dg)); [lra|]. rewrite S1. lra.
    + rewrite Rmax_right; [lra|]. apply (Rmult_le_reg_r (16 + dg)); [lra|]. rewrite S1. lra.
  - intros psi H. pose proof (Q psi H) as QP. cbv zeta. unfold pu_k_psi. set (w := 15 / 10 + 9 / 10 * k * d * psi) in *. replace (3 / 2 + 9 / 10 * k * d * psi) with w by (unfold w; lra). assert (0 < 1 / w) by (apply Rdiv_lt_0_compat; lra). assert (E : 1 / w * w = 1) by (field; lra).
    split; [split; [unfold Rmin; destruct (Rle_dec _ _); lra|apply Rmin_r]|]. split; [apply Rle_trans with (1 / w * w); [apply Rmult_le_compat_r; [lra|apply Rmin_l]|lra]|]. unfold Rmin. destruct (Rle_dec _ _); [right; exact E|left; reflexivity].
  - intros x y PX PY L. unfold pu_k_psi. apply Rle_min_compat_r. apply Rmult_le_compat_l; [lra|]. apply Rinv_le_contravar; [apply Q, PX|]. assert (9 / 10 * k * d * x <= 9 / 10 * k * d * y) by (apply Rmult_le_compat_l; lra). lra.
Qed.
Print Assumptions C40_k_psi.
(** Punching resistance: with k_psi from the failure criterion the concrete part never exceeds
    the crushing limit, so stirrups never lower the resistance; better anchorage never
    lowers the limit; stirrup stress never exceeds its yield strength. *)
Theorem C40_punching : forall kpsi b0 dv f g head comp vs, 0 < kpsi <= 6 / 10 -> 0 < b0 -> 0 < dv -> 0 < f -> 0 < g ->
  let c := pu_v_rdc kpsi b0 dv f g in let m := pu_v_rd_max dv f head comp b0 kpsi g in let u := b0 * dv * sqrt f / g in
  (0 < c /\ c = kpsi * u) /\ (c <= m <= u /\ (m = u \/ m = (if head : bool then 28 / 10 else if comp : bool then 24 / 10 else 2) * c)) /\
  pu_v_rd c vs m <= m /\ (0 <= vs -> c <= pu_v_rd c vs m <= c + vs) /\ (pu_v_rd c vs m = c + vs \/ pu_v_rd c vs m = m) /\
  pu_v_rd_max dv f false false b0 kpsi g <= pu_v_rd_max dv f false true b0 kpsi g <= pu_v_rd_max dv f true comp b0 kpsi g.
Proof.
  intros kpsi b0 dv f g head comp vs HK PB PD PF PG c m u. assert (PS : 0 < sqrt f) by (apply sqrt_lt_R0, PF). assert (PU : 0 < u) by (unfold u; apply Rdiv_lt_0_compat; [repeat apply Rmult_lt_0_compat; assumption|exact PG]).
  assert (EC : c = kpsi * u) by (unfold c, pu_v_rdc, u; field; lra). assert (PC : 0 < c) by (rewrite EC; apply Rmult_lt_0_compat; lra). assert (CU : c <= u) by (rewrite EC; nra).
  assert (EM : forall h s, pu_v_rd_max dv f h s b0 kpsi g = Rmin ((if h : bool then 28 / 10 else if s : bool then 24 / 10 else 2) * c) u). { intros h s. unfold pu_v_rd_max. cbv zeta. assert (EB : b0 * dv * (sqrt f / g) = u) by (unfold u; field; lra). rewrite EB, EC. f_equal. ring. }
  assert (LM : c <= m <= u). { unfold m. rewrite EM. split; [|apply Rmin_r]. apply Rmin_glb; [|exact CU]. destruct head; [lra|]. destruct comp; lra. }
  split; [split; assumption|]. split; [split; [exact LM|]|]. { unfold m. rewrite EM. unfold Rmin. destruct (Rle_dec _ _); tauto. }
  unfold pu_v_rd. split; [apply Rmin_r|]. split; [intros H; split; [apply Rmin_glb; lra|apply Rmin_l]|]. split; [unfold Rmin; destruct (Rle_dec _ _); tauto|].
  rewrite !EM. split; apply Rle_min_compat_r; lra.
Qed.
Print Assumptions C40_punching.
Theorem C40_stirrups : forall es psi alpha fbd d fy phi eu bu a v fyk g, 0 < fy -> 0 < bu -> 0 < g ->
  pu_sigma_swd es psi alpha fbd d fy phi <= fy /\ pu_f_ywd fyk g * g = fyk /\
  (0 < phi -> pu_sigma_swd es psi 90 fbd d fy phi = fy \/ pu_sigma_swd es psi 90 fbd d fy phi * (6 * fy * phi) = es * psi * (fy * phi + fbd * d)) /\
  forall s, 0 <= eu -> 0 <= a -> 0 <= s <= fy -> pu_v_rds fy eu bu 90 s a v * (bu + eu) = a * s * bu /\ 0 <= pu_v_rds fy eu bu 90 s a v <= a * fy.
Proof.
  intros es psi alpha fbd d fy phi eu bu a v fyk g PF PB PG. destruct cot_90 as [S90 C90]. assert (COS : cos (radians 90) = 0) by (unfold radians; replace (90 * PI / 180) with (PI / 2) by field; apply cos_PI2). split; [apply Rmin_r|]. split; [unfold pu_f_ywd; field; lra|]. split.
  - intros PP. unfold pu_sigma_swd. rewrite S90, COS. unfold Rmin. destruct (Rle_dec _ _); [right; field; lra|left; reflexivity].
  - intros s PE PA HS. unfold pu_v_rds. cbv zeta. rewrite S90. assert (0 <= eu / bu) by (apply Rmult_le_pos; [exact PE|apply Rlt_le, Rinv_0_lt_compat, PB]). split; [field; split; lra|]. set (ke := 1 / (1 + eu / bu)). assert (KE : 0 < ke <= 1). { unfold ke. split; [apply Rdiv_lt_0_compat; lra|]. apply (Rmult_le_reg_r (1 + eu / bu)); [lra|]. replace (1 / (1 + eu / bu) * (1 + eu / bu)) with 1 by (field; split; lra). lra. }
    assert (0 <= a * s) by (apply Rmult_le_pos; lra). assert (a * s <= a * fy) by (apply Rmult_le_compat_l; lra). replace (a * ke * s * 1) with (ke * (a * s)) by ring. split; [apply Rmult_le_pos; lra|]. apply Rle_trans with (1 * (a * s)); [apply Rmult_le_compat_r; lra|lra].
Qed.
Print Assumptions C40_stirrups.
(** Interfaces: capped by beta v fcd with v at most 0.55; below the cap the sum of its parts; a
    larger normal stress or reinforcement never lowers it. *)
Theorem C40_interface : forall ca fctd mu sn f fcd cr k1 k2 ro alpha bc fyd, 0 < f -> 0 < fcd -> 0 <= bc ->
  exists v, 0 < v <= 55 / 100 /\ (f <= 30 -> v = 55 / 100) /\ (30 <= f -> v ^ 3 * f = (55 / 100) ^ 3 * 30) /\
  (let t := if_tau_rdi ca fctd mu sn f fcd in t <= 1 / 2 * v * fcd /\ t <= ca * fctd + mu * sn /\ (t = 1 / 2 * v * fcd \/ t = ca * fctd + mu * sn)) /\
  (exists x y, 0 <= x /\ x ^ 3 = f /\ (0 <= fyd -> 0 <= y /\ y ^ 2 = fyd * fcd) /\
    let t := if_tau_rdi_reinf cr k1 k2 mu ro sn alpha bc f fyd fcd in let s := cr * x + mu * sn + k1 * ro * fyd * (mu * sin (radians alpha) + cos (radians alpha)) + k2 * ro * y in
    t <= bc * v * fcd /\ t <= s /\ (t = bc * v * fcd \/ t = s)) /\
  (0 <= mu -> never_falls (fun _ => True) (fun sn => if_tau_rdi ca fctd mu sn f fcd)) /\
  (0 <= k1 -> 0 <= k2 -> 0 <= fyd -> 0 <= mu * sin (radians alpha) + cos (radians alpha) -> never_falls (fun _ => True) (fun ro => if_tau_rdi_reinf cr k1 k2 mu ro sn alpha bc f fyd fcd)) /\
  forall be ved z bi, 0 < z -> 0 < bi -> if_tau_edi be ved z bi * (z * bi) = be * ved.
Proof.
  intros ca fctd mu sn f fcd cr k1 k2 ro alpha bc fyd PF PC PB. set (v := Rmin (55 / 100 * pw (30 / f) (1 / 3)) (55 / 100)). assert (P30 : 0 < 30 / f) by (apply Rdiv_lt_0_compat; lra). assert (P3 : 0 < pw (30 / f) (1 / 3)) by (apply pw_pos, P30).
  assert (S30 : 30 / f * f = 30) by (field; lra). exists v. split; [split; [unfold v, Rmin; destruct (Rle_dec _ _); lra|apply Rmin_r]|]. split; [|split; [|split; [|split; [|split; [|split]]]]].
  - intros H. unfold v. apply Rmin_right. assert (1 <= pw (30 / f) (1 / 3)) by (apply pw_ge_1; [lra|]; apply (Rmult_le_reg_r f); lra). lra.
  - intros H. unfold v. rewrite Rmin_left; [rewrite Rpow_mult_distr, cube_root by lra; field; lra|]. assert (pw (30 / f) (1 / 3) <= 1) by (apply pw_le_1; [lra|]; split; [lra|]; apply (Rmult_le_reg_r f); lra). lra.
  - cbv zeta. unfold if_tau_rdi. fold v. cbv zeta. replace (5 / 10 * v * fcd) with (1 / 2 * v * fcd) by lra. split; [apply Rmin_r|]. split; [apply Rmin_l|]. unfold Rmin. destruct (Rle_dec _ _); tauto.
  - exists (pw f (1 / 3)), (sqrt (fyd * fcd)). split; [apply pw_nonneg|]. split; [apply cube_root; lra|]. split; [intros H; split; [apply sqrt_pos|apply pow2_sqrt, Rmult_le_pos; lra]|]. cbv zeta. unfold if_tau_rdi_reinf. fold v. cbv zeta. split; [apply Rmin_r|]. split; [apply Rmin_l|]. unfold Rmin. destruct (Rle_dec _ _); tauto.
  - intros H x y _ _ L. unfold if_tau_rdi. apply Rle_min_compat_r. assert (mu * x <= mu * y) by (apply Rmult_le_compat_l; assumption). lra.
  - intros H1 H2 H3 H4 x y _ _ L. unfold if_tau_rdi_reinf. apply Rle_min_compat_r. set (q := mu * sin (radians alpha) + cos (radians alpha)) in *. pose proof (sqrt_pos (fyd * fcd)).
    assert (k1 * x * fyd * q <= k1 * y * fyd * q). { replace (k1 * x * fyd * q) with (k1 * fyd * q * x) by ring. replace (k1 * y * fyd * q) with (k1 * fyd * q * y) by ring. apply Rmult_le_compat_l; [repeat apply Rmult_le_pos; assumption|exact L]. }
    assert (k2 * x * sqrt (fyd * fcd) <= k2 * y * sqrt (fyd * fcd)) by (apply Rmult_le_compat_r; [assumption|]; apply Rmult_le_compat_l; assumption). lra.
  - intros be ved z bi PZ PBI. unfold if_tau_edi. field. lra.
Qed.
Print Assumptions C40_interface.
(** Bond: words in any case (but without surrounding white space); everything else ValueError. *)
Theorem C40_bond_words : forall bond f,
  (forall s, bond = PStr s -> same_word "good" s = true -> bo_eta_2 bond = Ok 1 /\ bo_tau_bmax bond f = Ok (5 / 2 * sqrt f) /\ bo_s_1 bond = Ok 1 /\ bo_s_2 bond = Ok 2) /\
  (forall s, bond = PStr s -> same_word "other" s = true -> bo_eta_2 bond = Ok (7 / 10) /\ bo_tau_bmax bond f = Ok (5 / 4 * sqrt f) /\ bo_s_1 bond = Ok (9 / 5) /\ bo_s_2 bond = Ok (18 / 5)) /\
  ((forall s, bond = PStr s -> same_word "good" s = false /\ same_word "other" s = false) -> bo_eta_2 bond = Err ValueError /\ bo_tau_bmax bond f = Err ValueError /\ bo_s_1 bond = Err ValueError /\ bo_s_2 bond = Err ValueError) /\
  (forall a b, bo_s_1 bond = Ok a -> bo_s_2 bond = Ok b -> 0 < a < b).
Proof.
  intros bond f. assert (T : forall a b, _) by (exact (bo_table_spec bond)). unfold bo_eta_2, bo_tau_bmax, bo_s_1, bo_s_2.
  assert (G : forall s, bond = PStr s -> same_word "good" s = true -> forall a b, bo_table bond a b = Ok a) by (intros s E H a b; exact (proj1 (T a b) s E H)).
  assert (O : forall s, bond = PStr s -> same_word "other" s = true -> forall a b, bo_table bond a b = Ok b) by (intros s E H a b; exact (proj1 (proj2 (T a b)) s E H)).
  assert (X : (forall s, bond = PStr s -> same_word "good" s = false /\ same_word "other" s = false) -> forall a b, bo_table bond a b = Err ValueError) by (intros H a b; exact (proj2 (proj2 (proj2 (T a b)) H))).
  split; [|split; [|split]].
  - intros s E H. rewrite !(G s E H). repeat split; f_equal; lra.
  - intros s E H. rewrite !(O s E H). repeat split; f_equal; lra.
  - intros H. rewrite !(X H). repeat split.
  - intros a b. destruct bond as [s|]; [|rewrite !X by (intros s E; discriminate); discriminate]. destruct (same_word "good" s) eqn:E1; [rewrite !(G s eq_refl E1); intros A B; apply Ok_inj in A, B; lra|]. destruct (same_word "other" s) eqn:E2; [rewrite !(O s eq_refl E2); intros A B; apply Ok_inj in A, B; lra|].
    rewrite !X by (intros s' E; injection E as <-; tauto). discriminate.
Qed.
Print Assumptions C40_bond_words.
Theorem C40_s_3 : forall fm bond conf cc s1 sb, bond = PStr sb -> same_word "good" sb = true \/ same_word "other" sb = true ->
  (forall s, fm = PStr s -> same_word "po" s = true -> bo_s_3 fm bond conf cc s1 = Ok cc) /\
  (forall s, fm = PStr s -> same_word "sp" s = true -> (forall c, conf = PStr c -> same_word "unconfined" c = true -> bo_s_3 fm bond conf cc s1 = Ok (12 / 10 * s1)) /\ (forall c, conf = PStr c -> same_word "stirrups" c = true -> bo_s_3 fm bond conf cc s1 = Ok (1 / 2 * cc)) /\
     ((forall c, conf = PStr c -> same_word "unconfined" c = false /\ same_word "stirrups" c = false) -> bo_s_3 fm bond conf cc s1 = Err ValueError)) /\
  ((forall s, fm = PStr s -> same_word "po" s = false /\ same_word "sp" s = false) -> bo_s_3 fm bond conf cc s1 = Err ValueError).
Proof.
  intros fm bond conf cc s1 sb EB HB.
  destruct (bo_valid_spec ["po"; "sp"]%string fm) as [F1 F2]; [repeat constructor|]. destruct (bo_valid_spec ["unconfined"; "stirrups"]%string conf) as [C1 C2]; [repeat constructor|]. fold bo_failmod in F1, F2. fold bo_confinement in C1, C2.
  assert (B : exists w, bo_bond bond = Ok w /\ (w = "good" \/ w = "other")%string). { destruct (bo_valid_spec ["good"; "other"]%string bond) as [B1 _]; [repeat constructor|]. fold bo_bond in B1. destruct HB as [H|H]; [exists "good"%string|exists "other"%string]; (split; [apply (B1 _ sb); [cbn; tauto|exact EB|exact H]|tauto]). }
  destruct B as (w & EW & HW). unfold bo_s_3. split; [|split].
  - intros s E H. rewrite (F1 "po"%string s) by (try assumption; cbn; tauto). cbn [bind String.eqb Ascii.eqb Bool.eqb]. unfold bo_table. rewrite EW. cbn [bind]. destruct HW as [-> | ->]; reflexivity.
  - intros s E H. rewrite (F1 "sp"%string s) by (try assumption; cbn; tauto). cbn [bind String.eqb Ascii.eqb Bool.eqb]. rewrite EW. cbn [bind]. set (d := [("unconfined"%string, 12 / 10 * s1); ("stirrups"%string, 5 / 10 * cc)]). assert (D : dict_item [("good"%string, d); ("other"%string, d)] w = Ok d) by (destruct HW as [-> | ->]; reflexivity). fold d. rewrite D. cbn [bind]. split; [|split].
    + intros c EC HC. rewrite (C1 "unconfined"%string c) by (try assumption; cbn; tauto). reflexivity.
    + intros c EC HC. rewrite (C1 "stirrups"%string c) by (try assumption; cbn; tauto). cbn [bind]. unfold dict_item, d. cbn [dict_get String.eqb Ascii.eqb Bool.eqb]. cbn. f_equal. lra.
    + intros HC. rewrite C2; [reflexivity|]. intros w' c [<- | [<- | []]] EC; apply (HC c EC).
  - intros HF. rewrite F2; [reflexivity|]. intros w' c [<- | [<- | []]] EC; apply (HF c EC).
Qed.
Print Assumptions C40_s_3.
(** Splitting: confinement is capped at 0.05; the slip at the splitting stress is where the
    rising branch tau_max (s/s_1)^alpha reaches it, and s_1 or less when the stress is not
    above the peak; a bar yields when the bond force equals its yield force. *)
Theorem C40_splitting : forall nt A nb phi st tm ts al s1 fy lb, 0 < nb -> 0 < phi -> 0 < st -> 0 < tm -> 0 <= ts -> 0 < al -> 0 < s1 -> 0 < lb ->
  (bo_K_tr nt A nb phi st <= 5 / 100 /\ (20 * nt * A <= nb * phi * st -> bo_K_tr nt A nb phi st * (nb * phi * st) = nt * A)) /\
  (let s := bo_s_split tm ts al s1 in 0 <= s /\ tm * pw (s / s1) al = ts /\ (ts <= tm -> s <= s1) /\ (ts = tm -> s = s1)) /\
  bo_tau_yield fy lb phi * (PI * phi * lb) = fy * (PI * (phi * phi) / 4).
Proof.
  intros nt A nb phi st tm ts al s1 fy lb P1 P2 P3 P4 P5 P6 P7 P8. split; [|split].
  - assert (P : 0 < nb * phi * st) by (repeat apply Rmult_lt_0_compat; assumption). unfold bo_K_tr. split; [apply Rmin_r|]. intros H. rewrite Rmin_left; [field; lra|]. apply (Rmult_le_reg_r (nb * phi * st)); [exact P|]. replace (nt * A / (nb * phi * st) * (nb * phi * st)) with (nt * A) by (field; lra). lra.
  - cbv zeta. unfold bo_s_split. assert (PA : 0 < 1 / al) by (apply Rdiv_lt_0_compat; lra). assert (PT : 0 <= ts / tm) by (apply Rmult_le_pos; [exact P5|apply Rlt_le, Rinv_0_lt_compat, P4]). pose proof (pw_nonneg (ts / tm) (1 / al)). split; [apply Rmult_le_pos; lra|]. split; [|split].
    + replace (pw (ts / tm) (1 / al) * s1 / s1) with (pw (ts / tm) (1 / al)) by (field; lra). rewrite pw_pw by assumption. replace (1 / al * al) with 1 by (field; lra). rewrite pw_id by exact PT. field. lra.
    + intros H1. assert (pw (ts / tm) (1 / al) <= 1). { apply pw_le_1; [exact PA|]. split; [exact PT|]. apply (Rmult_le_reg_r tm); [exact P4|]. replace (ts / tm * tm) with ts by (field; lra). lra. } nra.
    + intros ->. replace (tm / tm) with 1 by (field; lra). rewrite pw_Rpower by lra. unfold Rpower. rewrite ln_1, Rmult_0_r, exp_0. ring.
  - unfold bo_tau_yield. field. lra.
Qed.
Print Assumptions C40_splitting.
(** Splitting strength of bond and anchored steel stress. *)
Theorem C40_split_strength : forall eta fcm phi cmin cmax lb km ktr, 0 < fcm -> 0 < phi -> 0 < cmin -> 0 < cmax -> 0 < lb ->
  exists a b c d d' e, 0 < a /\ a ^ 4 * 25 = fcm /\ 0 < b /\ b ^ 5 * phi = 25 /\ 0 < c /\ c ^ 20 * phi ^ 11 = lb ^ 11 /\ 0 < d /\ d ^ 4 * phi = cmin /\ 0 < d' /\ d' ^ 100 * phi ^ 33 = cmin ^ 33 /\ 0 < e /\ e ^ 10 * cmin = cmax /\
    bo_tau_split eta fcm phi cmin cmax km ktr = 65 / 10 * eta * a * b * (d' * e + km * ktr) /\ bo_f_stm fcm phi lb cmin cmax km ktr = 54 * a * b * c * (d * e + km * ktr).
Proof.
  intros eta fcm phi cmin cmax lb km ktr P1 P2 P3 P4 P5. assert (D : forall x y, 0 < x -> 0 < y -> 0 < x / y) by (intros; apply Rdiv_lt_0_compat; assumption).
  exists (pw (fcm / 25) (1 / 4)), (pw (25 / phi) (1 / 5)), (pw (lb / phi) (55 / 100)), (pw (cmin / phi) (1 / 4)), (pw (cmin / phi) (33 / 100)), (pw (cmax / cmin) (1 / 10)).
  assert (F : forall x y a p q, 0 < x -> 0 < y -> (0 < p)%nat -> (0 < q)%nat -> a * IZR (Z.of_nat q) = IZR (Z.of_nat p) -> 0 < pw (x / y) a /\ pw (x / y) a ^ q * y ^ p = x ^ p).
  { intros x y a p q PX PY Hp Hq E. split; [apply pw_pos, D; assumption|]. rewrite (pw_frac (x / y) a p q); [|assumption|apply Rlt_le, D; assumption|exact E]. unfold Rdiv. rewrite Rpow_mult_distr, pow_inv || (rewrite <- Rinv_pow by lra). field. apply pow_nonzero. lra. }
  destruct (F fcm 25 (1 / 4) 1%nat 4%nat) as [A1 A2]; try lia; try lra; try (cbn [Z.of_nat Pos.of_succ_nat Pos.succ]; lra). destruct (F 25 phi (1 / 5) 1%nat 5%nat) as [B1 B2]; try lia; try lra; try (cbn [Z.of_nat Pos.of_succ_nat Pos.succ]; lra).
  destruct (F lb phi (55 / 100) 11%nat 20%nat) as [C1 C2]; try lia; try lra; try (cbn [Z.of_nat Pos.of_succ_nat Pos.succ]; lra). destruct (F cmin phi (1 / 4) 1%nat 4%nat) as [D1 D2]; try lia; try lra; try (cbn [Z.of_nat Pos.of_succ_nat Pos.succ]; lra).
  destruct (F cmin phi (33 / 100) 33%nat 100%nat) as [G1 G2]; try lia; try lra; try (cbn [Z.of_nat Pos.of_succ_nat Pos.succ]; lra). destruct (F cmax cmin (1 / 10) 1%nat 10%nat) as [E1 E2]; try lia; try lra; try (cbn [Z.of_nat Pos.of_succ_nat Pos.succ]; lra).
  rewrite !pow_1 in A2, B2, D2, E2. repeat (split; [assumption|]). unfold bo_tau_split, bo_f_stm. split; ring.
Qed.
Print Assumptions C40_split_strength.
Example C40_cases : pu_m_ed 800 100 400 true false false false = Ok 200 /\ bo_s_3 (PStr "SP") (PStr "Good") (PStr "stirrups") 10 1 = Ok (1 / 2 * 10) /\ 0 < pu_k_psi (pu_k_dg 16) 200 (1 / 100) <= 6 / 10.
Proof.
  split; [|split].
  - unfold pu_m_ed. rewrite Rabs_pos_eq by lra. f_equal. lra.
  - destruct (C40_s_3 (PStr "SP") (PStr "Good") (PStr "stirrups") 10 1 "Good" eq_refl) as (_ & H & _); [left; reflexivity|]. destruct (H _ eq_refl eq_refl) as (_ & H2 & _). exact (H2 _ eq_refl eq_refl).
  - destruct (C40_k_psi 16 200) as (_ & H & _); [lra|lra|]. destruct (H (1 / 100)) as (H2 & _); [lra|exact H2].
Qed.
