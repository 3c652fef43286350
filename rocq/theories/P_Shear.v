(** C37: EC2:2004 shear. *)
From Coq Require Import ZArith Lra Lia.
From Verif Require Import Base M_Calc S_Calc L_Calc M_Conc L_Conc M_Creep L_Creep M_Reinf M_Shear S_Shear L_Shear.
Open Scope R_scope.
Open Scope list_scope.

(** Size factor, reinforcement ratio, axial stress, transfer factor. *)
Theorem C37_factors : forall d Asl bw N Ac fcd lx lp, 0 < d -> 0 < bw -> 0 < Ac -> 0 < lp ->
  (1 < sh_k d <= 2 /\ (d <= 200 -> sh_k d = 2) /\ (200 <= d -> (sh_k d - 1) ^ 2 * d = 200)) /\
  (sh_rho_L Asl bw d <= 2 / 100 /\ (Asl <= 2 / 100 * (bw * d) -> sh_rho_L Asl bw d * (bw * d) = Asl)) /\
  (sh_sigma_cp N Ac fcd <= 2 / 10 * fcd /\ (N <= 2 / 10 * fcd * Ac -> sh_sigma_cp N Ac fcd * Ac = N)) /\
  (sh_alpha_l lx lp <= 1 /\ (lx <= lp -> sh_alpha_l lx lp * lp = lx)).
Proof.
  intros d Asl bw N Ac fcd lx lp PD PB PA PL. split; [apply sh_k_facts, PD|].
  assert (M : forall x y c, 0 < y -> Rmin (x / y) c <= c /\ (x <= c * y -> Rmin (x / y) c * y = x)).
  { intros x y c P. split; [apply Rmin_r|]. intros H. rewrite Rmin_left; [field; lra|]. apply (Rmult_le_reg_r y); [exact P|]. replace (x / y * y) with x by (field; lra). exact H. }
  split; [apply (M Asl (bw * d) (2 / 100)); apply Rmult_lt_0_compat; assumption|]. split; [apply (M N Ac (2 / 10 * fcd)), PA|]. destruct (M lx lp 1 PL) as [A B]. split; [exact A|]. intros H. apply B. lra.
Qed.
Print Assumptions C37_factors.
(** VRdc is the largest of zero, the resistance from reinforcement and the minimum
    resistance; it never falls when reinforcement is added.  A CRdc that is missing or 0
    means 0.18/gamma_c. *)
Theorem C37_VRdc : forall fck d Asl bw N Ac fcd k1 g CRdc, 0 < fck -> 0 < d -> 0 < bw -> 0 <= Asl ->
  exists c x m, c = (match CRdc with Some c => if Req_EM_T c 0 then 18 / 100 / g else c | None => 18 / 100 / g end) /\
    0 <= x /\ x ^ 3 = 100 * sh_rho_L Asl bw d * fck /\ 0 < m /\ m ^ 2 = (35 / 1000) ^ 2 * sh_k d ^ 3 * fck /\ sh_vmin fck d = m /\
    let s := k1 * sh_sigma_cp N Ac fcd in let V := sh_VRdc fck d Asl bw N Ac fcd k1 g CRdc in
    0 <= V /\ (c * sh_k d * x + s) * (bw * d) <= V /\ (m + s) * (bw * d) <= V /\ (V = 0 \/ V = (c * sh_k d * x + s) * (bw * d) \/ V = (m + s) * (bw * d)) /\
    (forall Asl', 0 <= c -> Asl <= Asl' -> V <= sh_VRdc fck d Asl' bw N Ac fcd k1 g CRdc).
Proof.
  intros fck d Asl bw N Ac fcd k1 g CRdc PF PD PB PA. destruct (sh_k_facts d PD) as ((K1 & K2) & _).
  set (c := match CRdc with Some c => if Req_EM_T c 0 then 18 / 100 / g else c | None => 18 / 100 / g end).
  assert (EC : py_or CRdc (18 / 100 / g) = c). { unfold py_or, c. destruct CRdc as [q|]; [|reflexivity]. destruct (Reqb_spec q 0), (Req_EM_T q 0); tauto. }
  assert (PBD : 0 < bw * d) by (apply Rmult_lt_0_compat; assumption).
  assert (PR : forall A, 0 <= A -> 0 <= sh_rho_L A bw d). { intros A HA. unfold sh_rho_L. assert (0 <= A / (bw * d)) by (apply Rmult_le_pos; [exact HA|apply Rlt_le, Rinv_0_lt_compat, PBD]). unfold Rmin. destruct (Rle_dec _ _); lra. }
  assert (PX : forall A, 0 <= A -> 0 <= 100 * sh_rho_L A bw d * fck) by (intros A HA; pose proof (PR A HA); apply Rmult_le_pos; lra).
  exists c, (pw (100 * sh_rho_L Asl bw d * fck) (1 / 3)), (sh_vmin fck d). split; [reflexivity|]. split; [apply pw_nonneg|]. split; [apply cube_root, PX, PA|].
  pose proof (pw_pos (sh_k d) (3 / 2) ltac:(lra)). pose proof (pw_pos fck (1 / 2) PF). split; [unfold sh_vmin; apply Rmult_lt_0_compat; [lra|assumption]|]. split.
  { unfold sh_vmin. rewrite !Rpow_mult_distr. rewrite (pw_frac (sh_k d) (3 / 2) 3 2), (pw_frac fck (1 / 2) 1 2); try lia; try lra; try (cbn [Z.of_nat Pos.of_succ_nat Pos.succ]; lra). }
  split; [reflexivity|]. cbv zeta.
  assert (EV : forall A, sh_VRdc fck d A bw N Ac fcd k1 g CRdc = Rmax (Rmax ((c * sh_k d * pw (100 * sh_rho_L A bw d * fck) (1 / 3) + k1 * sh_sigma_cp N Ac fcd) * (bw * d)) ((sh_vmin fck d + k1 * sh_sigma_cp N Ac fcd) * (bw * d))) 0).
  { intros A. unfold sh_VRdc. rewrite EC. cbv zeta. f_equal. rewrite Rmult_assoc. generalize (c * sh_k d * pw (100 * sh_rho_L A bw d * fck) (1 / 3) + k1 * sh_sigma_cp N Ac fcd) (sh_vmin fck d + k1 * sh_sigma_cp N Ac fcd). intros u v.
    unfold Rmax. destruct (Rle_dec u v), (Rle_dec (u * (bw * d)) (v * (bw * d))); try reflexivity; exfalso; nra. }
  rewrite !EV. set (u := (c * sh_k d * pw (100 * sh_rho_L Asl bw d * fck) (1 / 3) + k1 * sh_sigma_cp N Ac fcd) * (bw * d)). set (v := (sh_vmin fck d + k1 * sh_sigma_cp N Ac fcd) * (bw * d)).
  split; [apply Rmax_r|]. split; [apply Rle_trans with (Rmax u v); [apply Rmax_l|apply Rmax_l]|]. split; [apply Rle_trans with (Rmax u v); [apply Rmax_r|apply Rmax_l]|]. split.
  - unfold Rmax. destruct (Rle_dec u v); destruct (Rle_dec _ 0); tauto.
  - intros A' PC LA. rewrite EV. fold v. set (u' := (c * sh_k d * pw (100 * sh_rho_L A' bw d * fck) (1 / 3) + k1 * sh_sigma_cp N Ac fcd) * (bw * d)). assert (LU : u <= u').
    { unfold u, u'. apply Rmult_le_compat_r; [lra|]. apply Rplus_le_compat_r. apply Rmult_le_compat_l; [apply Rmult_le_pos; lra|]. apply pw_le; [lra|]. split; [apply PX, PA|]. apply Rmult_le_compat_r; [lra|]. apply Rmult_le_compat_l; [lra|].
      unfold sh_rho_L. apply Rle_min_compat_r. apply Rmult_le_compat_r; [apply Rlt_le, Rinv_0_lt_compat, PBD|exact LA]. }
    unfold Rmax. repeat destruct (Rle_dec _ _); lra.
Qed.
Print Assumptions C37_VRdc.
(** Compression chord coefficient: a function of r = sigma/fcd alone; 1 in tension, at
    most 1.25, positive, continuous, rejected from r = 1 on. *)
Theorem C37_alpha_cw : forall N Ac fcd, 0 < Ac -> 0 < fcd ->
  (N < fcd * Ac -> exists a, sh_alpha_cw N Ac fcd = Ok a /\ a = chord_coefficient (N / Ac / fcd) /\ 0 < a <= 5 / 4 /\ (2 * N <= fcd * Ac -> 1 <= a)) /\
  (fcd * Ac <= N -> sh_alpha_cw N Ac fcd = Err ValueError) /\
  (forall M, Rabs (chord_coefficient (M / Ac / fcd) - chord_coefficient (N / Ac / fcd)) <= 5 / 2 * Rabs (M - N) / (Ac * fcd)).
Proof.
  intros N Ac fcd PA PF. assert (SC : forall x c, x / fcd <= c <-> x <= c * fcd). { intros x c. assert (E : x / fcd * fcd = x) by (field; lra). split; intros H; [rewrite <- E; apply Rmult_le_compat_r; lra|apply (Rmult_le_reg_r fcd); lra]. }
  assert (SA : N / Ac < fcd <-> N < fcd * Ac). { assert (E : N / Ac * Ac = N) by (field; lra). split; intros H; [rewrite <- E; apply Rmult_lt_compat_r; lra|apply (Rmult_lt_reg_r Ac); lra]. }
  set (s := N / Ac) in *. set (r := s / fcd) in *. pose proof (SC s 0) as S0. pose proof (SC s (1 / 4)) as S1. pose proof (SC s (1 / 2)) as S2. fold r in S0, S1, S2. assert (S3 : r < 1 <-> s < fcd). { assert (E : r * fcd = s) by (unfold r; field; lra). split; intros; [nra|apply (Rmult_lt_reg_r fcd); lra]. }
  split; [|split].
  - intros H. apply SA in H. assert (R1 : r < 1) by tauto. unfold sh_alpha_cw. fold s. exists (chord_coefficient r). assert (B : 0 < chord_coefficient r <= 5 / 4) by (unfold chord_coefficient; repeat destruct (Rle_dec _ _); lra). split; [|split; [reflexivity|split; [exact B|]]].
    + unfold chord_coefficient. cbv zeta. fold r. destruct (Rleb_spec s 0), (Rle_dec r 0); try (exfalso; lra); [reflexivity|]. destruct (Rleb_spec s (25 / 100 * fcd)), (Rle_dec r (1 / 4)); try (exfalso; lra); [reflexivity|].
      destruct (Rleb_spec s (5 / 10 * fcd)), (Rle_dec r (1 / 2)); try (exfalso; lra); [f_equal; lra|]. destruct (Rltb_spec s fcd); [|exfalso; lra]. f_equal. lra.
    + intros L. assert (r <= 1 / 2). { apply S2. unfold s. apply (Rmult_le_reg_r Ac); [lra|]. replace (N / Ac * Ac) with N by (field; lra). lra. } unfold chord_coefficient; repeat destruct (Rle_dec _ _); lra.
  - intros H. unfold sh_alpha_cw. fold s. cbv zeta. assert (fcd <= s) by (apply Rnot_lt_le; intros L; apply SA in L; lra). destruct (Rleb_spec s 0); [lra|]. destruct (Rleb_spec s (25 / 100 * fcd)); [lra|]. destruct (Rleb_spec s (5 / 10 * fcd)); [lra|]. destruct (Rltb_spec s fcd); [lra|reflexivity].
  - intros M. assert (LIP : forall x y, x <= y -> Rabs (chord_coefficient y - chord_coefficient x) <= 5 / 2 * (y - x)). { intros x y L. unfold chord_coefficient. apply Rabs_le. repeat destruct (Rle_dec _ _); lra. }
    set (q := M / Ac / fcd). assert (E : 5 / 2 * Rabs (M - N) / (Ac * fcd) = 5 / 2 * Rabs (q - r)). { replace (q - r) with ((M - N) * / (Ac * fcd)) by (unfold q, r, s; field; lra). rewrite Rabs_mult, (Rabs_pos_eq (/ (Ac * fcd))) by (apply Rlt_le, Rinv_0_lt_compat, Rmult_lt_0_compat; assumption). unfold Rdiv. ring. }
    rewrite E. destruct (Rle_dec r q) as [L|L]; [rewrite (Rabs_pos_eq (q - r)) by lra; apply LIP, L|]. rewrite Rabs_minus_sym, (Rabs_minus_sym q), (Rabs_pos_eq (r - q)) by lra. apply LIP. lra.
Qed.
Print Assumptions C37_alpha_cw.
(** Shear tension: V S/(Iy bw) squared is fctd^2 + alpha sigma fctd; ValueError when that is
    negative; without both lengths alpha is 1. *)
Theorem C37_VRdc_prin : forall Iy bw S fctd N Ac lx lp, 0 < S -> 0 < Iy -> 0 < bw -> 0 < fctd ->
  let a := match lx, lp with Some x, Some l => sh_alpha_l x l | _, _ => 1 end in
  (0 <= fctd + a * (N / Ac) -> exists V, sh_VRdc_prin_stress Iy bw S fctd N Ac lx lp = Ok V /\ 0 <= V /\ (V * S) ^ 2 = (Iy * bw) ^ 2 * (fctd * (fctd + a * (N / Ac)))) /\
  (fctd + a * (N / Ac) < 0 -> sh_VRdc_prin_stress Iy bw S fctd N Ac lx lp = Err ValueError).
Proof.
  intros Iy bw S fctd N Ac lx lp PS PI PB PF a. unfold sh_VRdc_prin_stress. cbv zeta. fold a. assert (E : fctd ^ 2 + a * (N / Ac) * fctd = fctd * (fctd + a * (N / Ac))) by ring. rewrite E. split; intros H.
  - assert (Q : 0 <= fctd * (fctd + a * (N / Ac))) by (apply Rmult_le_pos; lra). destruct (Rltb_spec (fctd * (fctd + a * (N / Ac))) 0); [lra|]. eexists. split; [reflexivity|]. split; [apply Rmult_le_pos; [|apply sqrt_pos]; apply Rlt_le, Rdiv_lt_0_compat; [apply Rmult_lt_0_compat; assumption|assumption]|].
    rewrite <- (pow2_sqrt _ Q) at 2. field. lra.
  - destruct (Rltb_spec (fctd * (fctd + a * (N / Ac))) 0); [reflexivity|]. exfalso. assert (fctd * (fctd + a * (N / Ac)) < 0) by nra. lra.
Qed.
Print Assumptions C37_VRdc_prin.
(** Strength reduction factors. *)
Theorem C37_reduction : (forall f, 6 / 10 = sh_v f + 24 / 10000 * f) /\ (forall f, 0 <= f -> sh_v f <= sh_v1 f) /\ (forall f, 1 / 2 <= sh_v1 f <= 6 / 10) /\ never_rises (fun _ => True) sh_v1 /\ no_jump sh_v1 60 /\
  (forall f, f <= 60 -> sh_v1 f = 6 / 10) /\ (forall f, 60 < f <= 80 -> sh_v1 f = 9 / 10 - f / 200) /\ (forall f, 80 <= f -> sh_v1 f = 1 / 2) /\
  forall bw d f fcd, sh_VEdmax_unreinf bw d f fcd = 1 / 2 * (bw * d) * sh_v f * fcd.
Proof.
  unfold sh_v1, sh_v. split; [intros f; field|]. split; [|split; [|split; [|split; [|split; [|split; [|split]]]]]].
  - intros f H. destruct (Rleb_spec f 60); [lra|]. unfold Rmax. destruct (Rle_dec _ _); lra.
  - intros f. destruct (Rleb_spec f 60); [lra|]. unfold Rmax. destruct (Rle_dec _ _); lra.
  - intros x y _ _ H. destruct (Rleb_spec x 60), (Rleb_spec y 60); unfold Rmax; repeat destruct (Rle_dec _ _); lra.
  - intros e P. exists (Rmin 1 e). split; [unfold Rmin; destruct (Rle_dec _ _); lra|]. intros y L. pose proof (Rmin_l 1 e). pose proof (Rmin_r 1 e). assert (L2 : Rabs (y - 60) < 1 /\ Rabs (y - 60) < e) by lra. destruct L2 as [L2 L3]. apply Rabs_def2 in L2, L3.
    destruct (Rleb_spec 60 60); [|lra]. destruct (Rleb_spec y 60); [rewrite Rminus_diag_eq, Rabs_R0 by reflexivity; exact P|]. rewrite Rmax_left by lra. apply Rabs_def1; lra.
  - intros f H. destruct (Rleb_spec f 60); lra.
  - intros f H. destruct (Rleb_spec f 60); [lra|]. apply Rmax_left. lra.
  - intros f H. destruct (Rleb_spec f 60); [lra|]. rewrite Rmax_right; lra.
  - intros. unfold sh_VEdmax_unreinf, sh_v. field.
Qed.
Print Assumptions C37_reduction.
(** Strut angle: accepted exactly for a cotangent between 0.995 and 2.505 (the limits 1
    and 2.5 after rounding to two digits). *)
Theorem C37_strut_angle : forall theta Asw s z fyk alpha g bw fck N Ac fcd lim,
  let c := cot (radians theta) in
  (~ 995 / 1000 <= c <= 2505 / 1000 -> sh_VRds Asw s z theta fyk alpha g = Err ValueError /\ sh_VRdmax bw z fck theta N Ac fcd alpha lim = Err ValueError) /\
  (995 / 1000 <= c <= 2505 / 1000 -> (exists V, sh_VRds Asw s z theta fyk alpha g = Ok V) /\ (0 < Ac -> 0 < fcd -> N < fcd * Ac -> exists V, sh_VRdmax bw z fck theta N Ac fcd alpha lim = Ok V)).
Proof.
  intros. destruct (theta_ok theta) as [A B]. fold c in A. unfold sh_VRds, sh_VRdmax. split; intros H.
  - destruct B as [B|B]; [tauto|]. rewrite B. split; reflexivity.
  - apply A in H. rewrite H. cbn [bind]. split; [eexists; reflexivity|]. intros PA PF L. destruct (C37_alpha_cw N Ac fcd PA PF) as (E & _). destruct (E L) as (a & EA & _). rewrite EA. cbn [bind]. eexists. reflexivity.
Qed.
Print Assumptions C37_strut_angle.
(** Required stirrups and their resistance are inverse to each other. *)
Theorem C37_round_trip : forall V z theta fyk alpha g s, 0 < z -> 0 < fyk -> 0 < g -> 0 < s -> sin (radians alpha) <> 0 -> cot (radians theta) + cot (radians alpha) <> 0 -> 995 / 1000 <= cot (radians theta) <= 2505 / 1000 ->
  sh_VRds (sh_Asw_s_required V z theta (fyk / g) alpha * s) s z theta fyk alpha g = Ok V /\
  forall Asw V', sh_VRds Asw s z theta fyk alpha g = Ok V' -> sh_Asw_s_required V' z theta (fyk / g) alpha * s = Asw.
Proof.
  intros V z theta fyk alpha g s PZ PF PG PS NS NC H. destruct (theta_ok theta) as [A _]. apply A in H. unfold sh_VRds, sh_Asw_s_required. rewrite H. cbn [bind]. cbv zeta. split.
  - f_equal. field. repeat split; lra.
  - intros Asw V' E. injection E as <-. field. repeat split; lra.
Qed.
Print Assumptions C37_round_trip.
(** Strut crushing with vertical stirrups: alpha_cw bw z nu fcd sin cos of the angle,
    never above half of alpha_cw bw z nu fcd, which is reached at 45 degrees. *)
Theorem C37_strut_limit : forall bw z fck theta N Ac fcd lim a, sh_alpha_cw N Ac fcd = Ok a -> sin (radians theta) <> 0 ->
  let nu := if lim : bool then sh_v1 fck else sh_v fck in
  (forall V, sh_VRdmax bw z fck theta N Ac fcd 90 lim = Ok V -> V = a * bw * z * nu * fcd * (sin (radians theta) * cos (radians theta)) /\ (0 <= a * bw * z * nu * fcd -> V <= 1 / 2 * (a * bw * z * nu * fcd))) /\
  sh_VRdmax bw z fck 45 N Ac fcd 90 lim = Ok (1 / 2 * (a * bw * z * nu * fcd)).
Proof.
  intros bw z fck theta N Ac fcd lim a EA NS nu. destruct cot_90 as [_ C90]. split.
  - intros V. unfold sh_VRdmax. destruct (sh_theta theta) as [[]|]; cbn [bind]; [|discriminate]. rewrite EA. cbn [bind]. fold nu. rewrite C90. intros E. apply Ok_inj in E. subst V. set (x := radians theta) in *.
    assert (EE : a * bw * z * nu * fcd * (cot x + 0) / (1 + cot x ^ 2) = a * bw * z * nu * fcd * (sin x * cos x)).
    { unfold cot. pose proof (sin2_cos2 x) as SC. unfold Rsqr in SC. assert (D : 1 + (cos x / sin x) ^ 2 = / (sin x * sin x)). { replace (1 + (cos x / sin x) ^ 2) with ((sin x * sin x + cos x * cos x) * / (sin x * sin x)) by (field; exact NS). rewrite SC. ring. } rewrite D. field. exact NS. }
    rewrite EE. split; [reflexivity|]. intros P. rewrite (Rmult_comm (1 / 2)). apply Rmult_le_compat_l; [exact P|]. pose proof (sin2_cos2 x) as SC. unfold Rsqr in SC. pose proof (pow2_ge_0 (sin x - cos x)). nra.
  - unfold sh_VRdmax. destruct (theta_ok 45) as [A _]. rewrite (proj2 A) by (rewrite cot_45; lra). cbn [bind]. rewrite EA. cbn [bind]. rewrite C90, cot_45. f_equal. fold nu. field.
Qed.
Print Assumptions C37_strut_limit.
(** The largest useful stirrup area resists, at 45 degrees, exactly the crushing force of
    the strut. *)
Theorem C37_Asw_max : forall fcd fck bw s z fyk g N Ac alpha A, 0 < fyk -> 0 < g -> 0 < s -> sin (radians alpha) <> 0 ->
  sh_Asw_max fcd fck bw s (fyk / g) N Ac alpha = Ok A -> sh_VRds A s z 45 fyk alpha g = sh_VRdmax bw z fck 45 N Ac fcd alpha false.
Proof.
  intros fcd fck bw s z fyk g N Ac alpha A PF PG PS NS. unfold sh_Asw_max, sh_VRds, sh_VRdmax. destruct (theta_ok 45) as [B _]. rewrite (proj2 B) by (rewrite cot_45; lra). cbn [bind].
  destruct (sh_alpha_cw N Ac fcd) as [a|]; cbn [bind]; [|discriminate]. intros E. injection E as <-. cbv zeta. rewrite cot_45. f_equal. field. repeat split; lra.
Qed.
Print Assumptions C37_Asw_max.
Example C37_cases : sh_alpha_cw 300000 100000 20 = Ok (115 / 100) /\ (995 / 1000 <= cot (radians 45) <= 2505 / 1000) /\ sin (radians 90) <> 0.
Proof.
  split; [|split; [rewrite cot_45; lra|destruct cot_90 as [-> _]; lra]]. unfold sh_alpha_cw. replace (300000 / 100000) with 3 by field. destruct (Rleb_spec 3 0); [lra|]. destruct (Rleb_spec 3 (25 / 100 * 20)); [|lra]. f_equal. field.
Qed.
