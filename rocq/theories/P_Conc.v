(** C34: concrete strengths, moduli and strain limits of the three codes. *)
From Coq Require Import String ZArith Lra Lia.
From Coq Require ClassicalChoice.
From Verif Require Import Base S_Marin L_Marin M_Registry M_Calc S_Calc L_Calc M_Conc S_Conc L_Conc.
Open Scope R_scope.
Open Scope list_scope.

(** * Tension strength *)
(** MC2010 and EC2:2004: fctm cubed is 0.027 fck squared up to 50 MPa, and above it
    exp(fctm/2.12) = 1 + fcm/10 with fcm = fck + 8; the sign of fck is ignored. *)
Theorem C34_fctm : forall fck,
  ec_fctm fck = mc_fctm fck /\ mc_fctm (- fck) = mc_fctm fck /\
  (fck <> 0 -> 0 < mc_fctm fck) /\
  (Rabs fck <= 50 -> mc_fctm fck ^ 3 = 27 / 1000 * fck ^ 2) /\
  (50 < Rabs fck -> exp (mc_fctm fck / (212 / 100)) = 1 + mc_fcm fck 8 / 10).
Proof.
  intros f. split; [unfold ec_fctm, mc_fctm, mc_fcm; now rewrite !Rabs_Rabsolu|]. split; [unfold mc_fctm, mc_fcm; now rewrite !Rabs_Ropp|]. split; [apply mc_fctm_pos|]. split; intros H.
  - unfold mc_fctm. destruct (Rleb_spec (Rabs f) 50); [|lra]. rewrite Rpow_mult_distr, two_thirds by apply Rabs_pos. rewrite pow2_abs. field.
  - unfold mc_fctm. destruct (Rleb_spec (Rabs f) 50); [lra|]. replace (212 / 100 * ln (1 + 1 / 10 * mc_fcm f 8) / (212 / 100)) with (ln (1 + 1 / 10 * mc_fcm f 8)) by field.
    assert (0 <= mc_fcm f 8) by (unfold mc_fcm; pose proof (Rabs_pos f); pose proof (Rabs_pos 8); lra). rewrite exp_ln by lra. field.
Qed.
Print Assumptions C34_fctm.
Theorem C34_fctm_2023 : forall fck, e3_fctm (- fck) = e3_fctm fck /\ (fck <> 0 -> 0 < e3_fctm fck) /\
  (Rabs fck <= 50 -> e3_fctm fck = mc_fctm fck) /\ (50 < Rabs fck -> e3_fctm fck ^ 3 = 1331 / 1000 * Rabs fck).
Proof.
  intros f. split; [unfold e3_fctm; now rewrite Rabs_Ropp|]. split; [|split]; intros H.
  - unfold e3_fctm. apply Rabs_pos_lt in H. destruct (Rleb_spec (Rabs f) 50); apply Rmult_lt_0_compat; try lra; apply pw_pos, H.
  - unfold e3_fctm, mc_fctm. destruct (Rleb_spec (Rabs f) 50); [reflexivity|lra].
  - unfold e3_fctm. destruct (Rleb_spec (Rabs f) 50); [lra|]. rewrite Rpow_mult_distr, cube_root by apply Rabs_pos. field.
Qed.
Print Assumptions C34_fctm_2023.
(** Stronger concrete has a higher tension strength on each side of 50 MPa ... *)
Theorem C34_fctm_increases :
  increases (fun f => 0 <= f <= 50) mc_fctm /\ increases (fun f => 50 < f) mc_fctm /\ increases (fun f => 0 <= f <= 50) e3_fctm /\ increases (fun f => 50 < f) e3_fctm.
Proof.
  assert (A : increases (fun f => 0 <= f <= 50) mc_fctm) by (intros x y HX HY H; rewrite !mc_fctm_low by lra; apply Rmult_lt_compat_l; [lra|apply pw_lt; lra]).
  split; [exact A|]. split; [intros x y HX HY H; rewrite !mc_fctm_high by lra; apply Rmult_lt_compat_l; [lra|apply ln_increasing; lra]|]. split.
  - intros x y HX HY H. destruct (C34_fctm_2023 x) as (_ & _ & E1 & _). destruct (C34_fctm_2023 y) as (_ & _ & E2 & _). rewrite E1, E2 by (rewrite Rabs_pos_eq; lra). apply A; assumption.
  - intros x y HX HY H. unfold e3_fctm. rewrite !Rabs_pos_eq by lra. destruct (Rleb_spec x 50); [lra|]. destruct (Rleb_spec y 50); [lra|]. apply Rmult_lt_compat_l; [lra|apply pw_lt; lra].
Qed.
Print Assumptions C34_fctm_increases.
(** ... but not across it: slightly stronger concrete gets a lower value. *)
Theorem C34_fctm_increases_refuted : mc_fctm (50 + 1 / 100) < mc_fctm 50 /\ e3_fctm (50 + 1 / 100) < e3_fctm 50.
Proof.
  assert (E : e3_fctm 50 = mc_fctm 50) by (apply C34_fctm_2023; rewrite Rabs_pos_eq; lra). rewrite E, (mc_fctm_low 50) by lra.
  assert (L : 13567 / 1000 < pw 50 (2 / 3)) by (apply (pw_gt_frac 50 (2 / 3) (13567 / 1000) 2 3); [lia|lia|lra|lra|cbn [Z.of_nat Pos.of_succ_nat Pos.succ]; lra|cbn [pow]; lra]). split.
  - rewrite mc_fctm_high by lra. replace (18 / 10 + 1 / 10 * (50 + 1 / 100)) with (6801 / 1000) by field. pose proof ln_bound. lra.
  - unfold e3_fctm. rewrite Rabs_pos_eq by lra. destruct (Rleb_spec (50 + 1 / 100) 50); [lra|].
    assert (U : pw (50 + 1 / 100) (1 / 3) < 3686 / 1000) by (apply (pw_lt_frac (50 + 1 / 100) (1 / 3) (3686 / 1000) 1 3); [lia|lia|lra|lra|cbn [Z.of_nat Pos.of_succ_nat Pos.succ]; lra|cbn [pow]; lra]). lra.
Qed.
Print Assumptions C34_fctm_increases_refuted.
(** Fractiles bracket the mean, which is their mean. *)
Theorem C34_fractiles : forall fck,
  let mc := (mc_fctkmin (mc_fctm fck), mc_fctm fck, mc_fctkmax (mc_fctm fck)) in
  let ec := (ec_fctk_5 (ec_fctm fck), ec_fctm fck, ec_fctk_95 (ec_fctm fck)) in
  let e3 := (e3_fctk_5 (e3_fctm fck), e3_fctm fck, e3_fctk_95 (e3_fctm fck)) in
  forall x, x = mc \/ x = ec \/ x = e3 -> let '(lo, m, hi) := x in 0 <= lo <= m /\ m <= hi /\ lo + hi = 2 * m /\ (fck <> 0 -> 0 < lo < m /\ m < hi).
Proof.
  intros fck mc ec e3 x. assert (P : 0 <= mc_fctm fck /\ (fck <> 0 -> 0 < mc_fctm fck)).
  { split; [|apply mc_fctm_pos]. destruct (Req_dec fck 0) as [-> | N]; [rewrite mc_fctm_low, pw_0 by lra; lra|]. pose proof (mc_fctm_pos fck N). lra. }
  assert (P3 : 0 <= e3_fctm fck /\ (fck <> 0 -> 0 < e3_fctm fck)).
  { split; [|apply C34_fctm_2023]. unfold e3_fctm. destruct (Rleb_spec (Rabs fck) 50); apply Rmult_le_pos; try lra; apply pw_nonneg. }
  destruct (C34_fctm fck) as (EE & _). subst mc ec e3. rewrite EE. unfold ec_fctk_5, ec_fctk_95, e3_fctk_5, e3_fctk_95, mc_fctkmin, mc_fctkmax. rewrite !Rabs_pos_eq by (apply P || apply P3).
  destruct P as [P1 P2]. destruct P3 as [P3 P4]. intros [-> | [-> | ->]]; (split; [lra|]; split; [lra|]; split; [lra|]); intros N; specialize (P2 N); specialize (P4 N); lra.
Qed.
Print Assumptions C34_fractiles.

(** * Mean strength and moduli *)
Theorem C34_fcm : forall fck d, ec_fcm fck d = mc_fcm fck d /\ e3_fcm fck d = mc_fcm fck d /\ fck <= mc_fcm fck d /\ (0 < d -> fck < mc_fcm fck d) /\ (0 <= fck -> mc_fcm fck d - fck = Rabs d).
Proof.
  intros f d. unfold ec_fcm, e3_fcm, mc_fcm. rewrite !Rabs_Rabsolu. pose proof (Rle_abs f). pose proof (Rabs_pos d).
  split; [reflexivity|]. split; [reflexivity|]. split; [lra|]. split; [intros P; rewrite (Rabs_pos_eq d); lra|]. intros P. rewrite (Rabs_pos_eq f) by exact P. ring.
Qed.
Print Assumptions C34_fcm.
(** Moduli are roots of the mean strength: cube for MC2010 and EC2:2023, tenth root
    of the cube for EC2:2004; MC2010 knows four aggregates, in any letter case. *)
Theorem C34_moduli : forall fcm EC0 agg, 0 <= fcm ->
  (forall w f, In (w, f) [("basalt", 12 / 10); ("quartzite", 1); ("limestone", 9 / 10); ("sandstone", 7 / 10)]%string -> same_word w agg = true ->
    exists E, mc_Eci fcm agg EC0 = Ok E /\ E ^ 3 = (EC0 * f) ^ 3 * (fcm / 10)) /\
  ((forall w, In w ["basalt"; "quartzite"; "limestone"; "sandstone"]%string -> same_word w agg = false) -> mc_Eci fcm agg EC0 = Err KeyError) /\
  ec_Ecm fcm ^ 10 = 22000 ^ 10 * (fcm / 10) ^ 3 /\
  (forall kE, 5000 <= kE <= 13000 -> exists E, e3_Ecm fcm kE = Ok E /\ E ^ 3 = kE ^ 3 * fcm).
Proof.
  intros fcm EC0 agg P. split; [|split; [|split]].
  - intros w f I W. apply word_lower in W. unfold mc_Eci, dict_item. assert (G : dict_get mc_alpha_e (lower agg) = Some f).
    { rewrite W. destruct I as [I|[I|[I|[I|[]]]]]; injection I as <- <-; reflexivity. }
    rewrite G. eexists. split; [reflexivity|]. rewrite !Rpow_mult_distr, cube_root by (apply Rmult_le_pos; lra). ring.
  - intros H. unfold mc_Eci, dict_item. assert (N : forall w, In w ["basalt"; "quartzite"; "limestone"; "sandstone"]%string -> String.eqb (lower agg) w = false).
    { intros w I. apply String.eqb_neq. intros E. pose proof (H w I) as F. assert (same_word w agg = true); [|congruence]. apply word_lower. rewrite E. destruct I as [<- | [<- | [<- | [<- | []]]]]; reflexivity. }
    cbn [dict_get mc_alpha_e]. rewrite !N by (cbn; tauto). reflexivity.
  - unfold ec_Ecm. rewrite Rpow_mult_distr, Rabs_pos_eq by exact P. f_equal. apply (pw_frac _ _ 3 10); [lia|apply Rmult_le_pos; lra|cbn; lra].
  - intros kE H. unfold e3_Ecm. destruct (Rltb_spec fcm 0); [lra|]. destruct (Rltb_spec kE 5000); [lra|]. destruct (Rltb_spec 13000 kE); [lra|]. eexists. split; [reflexivity|]. rewrite Rpow_mult_distr, cube_root by exact P. reflexivity.
Qed.
Print Assumptions C34_moduli.
Theorem C34_moduli_rejected : forall fcm kE, e3_Ecm fcm kE = Err ValueError <-> fcm < 0 \/ kE < 5000 \/ 13000 < kE.
Proof. intros fcm kE. unfold e3_Ecm. destruct (Rltb_spec fcm 0), (Rltb_spec kE 5000), (Rltb_spec 13000 kE); split; try (intros _; reflexivity); try tauto; try discriminate; intros; lra. Qed.
Print Assumptions C34_moduli_rejected.
Theorem C34_moduli_increase :
  increases (fun f => 0 <= f) ec_Ecm /\
  (forall agg EC0 a b Ea Eb, 0 < EC0 -> 0 <= a < b -> mc_Eci a agg EC0 = Ok Ea -> mc_Eci b agg EC0 = Ok Eb -> Ea < Eb) /\
  (forall kE a b Ea Eb, 0 <= a < b -> e3_Ecm a kE = Ok Ea -> e3_Ecm b kE = Ok Eb -> Ea < Eb).
Proof.
  split; [intros x y HX HY H; unfold ec_Ecm; rewrite !Rabs_pos_eq by lra; apply Rmult_lt_compat_l; [lra|apply pw_lt; lra]|]. split.
  - intros agg EC0 a b Ea Eb PE H. unfold mc_Eci, dict_item. destruct (dict_get mc_alpha_e (lower agg)) as [f|] eqn:G; cbn [bind]; [|discriminate]. intros E1 E2. injection E1 as <-. injection E2 as <-.
    assert (PF : 0 < f). { cbn [dict_get mc_alpha_e] in G. repeat match type of G with context [if ?c then _ else _] => destruct c end; try discriminate; injection G as <-; lra. }
    apply Rmult_lt_compat_l; [apply Rmult_lt_0_compat; assumption|apply pw_lt; lra].
  - intros kE a b Ea Eb H. unfold e3_Ecm. destruct (Rltb_spec a 0); [lra|]. destruct (Rltb_spec b 0); [lra|]. destruct (Rltb_spec kE 5000); [discriminate|]. destruct (Rltb_spec 13000 kE); [discriminate|].
    intros E1 E2. injection E1 as <-. injection E2 as <-. apply Rmult_lt_compat_l; [lra|apply pw_lt; lra].
Qed.
Print Assumptions C34_moduli_increase.

(** * Strain limits *)
(** MC2010 table values: on the broken line through Table 5.1-8, rejected outside. *)
Theorem C34_mc_tables : forall fck,
  (12 <= fck <= 120 -> exists c1 cl k, mc_eps_c1 fck = Ok c1 /\ mc_eps_cu1 fck = Ok cl /\ mc_k_sargin fck = Ok k /\
     on_table peak_strains fck c1 /\ on_table limit_strains fck cl /\ on_table plasticities fck k /\ cl <= c1 < 0 /\ 1 < k) /\
  (~ 12 <= fck <= 120 -> mc_eps_c1 fck = Err ValueError /\ mc_eps_cu1 fck = Err ValueError /\ mc_k_sargin fck = Err ValueError).
Proof.
  intros fck. split; intros H; [|repeat split; apply graded_out, H].
  destruct (graded_in mc_eps_c1_table 1000 fck _ _ _ eq_refl eq_refl eq_refl rising_c1 H) as (c1 & E1 & T1 & V1).
  destruct (graded_in mc_eps_clim_table 1000 fck _ _ _ eq_refl eq_refl eq_refl rising_clim H) as (cl & E2 & T2 & V2).
  destruct (graded_in mc_k_table 1 fck _ _ _ eq_refl eq_refl eq_refl rising_k H) as (k & E3 & T3 & V3).
  exists (c1 / 1000), (cl / 1000), (k / 1). split; [exact E1|]. split; [exact E2|]. split; [exact E3|].
  assert (EQ : forall (a b c d : R), a = b -> c = d -> (a, c) = (b, d)) by (intros; subst; reflexivity).
  split; [|split; [|split; [|split]]].
  - apply on_table_scale with (c := / 1000) in T1. unfold Rdiv at 1. replace peak_strains with (map (fun p : R * R => (fst p, snd p * / 1000)) mc_eps_c1_table); [exact T1|]. unfold peak_strains, grades, mc_eps_c1_table. cbn [map fst snd]. repeat (f_equal; [apply EQ; [reflexivity|field]|]). reflexivity.
  - apply on_table_scale with (c := / 1000) in T2. unfold Rdiv at 1. replace limit_strains with (map (fun p : R * R => (fst p, snd p * / 1000)) mc_eps_clim_table); [exact T2|]. unfold limit_strains, grades, mc_eps_clim_table. cbn [map fst snd]. repeat (f_equal; [apply EQ; [reflexivity|field]|]). reflexivity.
  - replace (k / 1) with k by field. exact T3.
  - assert (B : -3 <= c1 <= -19 / 10). { apply (table_bounds _ _ _ (-3) (-19 / 10) rising_c1 T1). intros p I. unfold mc_eps_c1_table in I. cbn [In] in I. repeat (destruct I as [<- | I]; [cbn [snd]; lra|]). destruct I. }
    assert (C : -c1 <= -cl); [|lra]. subst c1 cl.
    assert (Q := interp_le (map (fun g => (fst g, - (- snd (fst (snd g)) / 10), - (- fst (fst (snd g)) / 10))) (tl grades)) fck ((12, 35 / 10), 19 / 10)). clear Q.
    pose proof (interp_le (map (fun g => ((fst g, - snd (fst (snd g)) / 10), - fst (fst (snd g)) / 10)) (tl grades)) fck ((12, -35 / 10), -19 / 10)) as Q.
    assert (G : interp_from fck (12, -35 / 10) (tl mc_eps_clim_table) <= interp_from fck (12, -19 / 10) (tl mc_eps_c1_table)).
    { replace (tl mc_eps_clim_table) with (map fst (map (fun g : R * (R * R * R) => ((fst g, - snd (fst (snd g)) / 10), - fst (fst (snd g)) / 10)) (tl grades))) by (cbn [tl map fst snd grades mc_eps_clim_table]; reflexivity).
      replace (tl mc_eps_c1_table) with (map (fun r : R * R * R => (fst (fst r), snd r)) (map (fun g : R * (R * R * R) => ((fst g, - snd (fst (snd g)) / 10), - fst (fst (snd g)) / 10)) (tl grades))) by (cbn [tl map fst snd grades mc_eps_c1_table]; reflexivity).
      apply Q; [|intros r I; cbn [tl map grades In fst snd] in I; repeat (destruct I as [<- | I]; [cbn [fst snd]; lra|]); destruct I|cbn; lra].
      clear. intros a b I. cbn [tl map grades fst snd edges] in I. repeat (destruct I as [I|I]; [injection I as <- <-; cbn [fst snd]; lra|]). destruct I. }
    change (- np_interp fck ((12, -19 / 10) :: tl mc_eps_c1_table) <= - np_interp fck ((12, -35 / 10) :: tl mc_eps_clim_table)). cbn [np_interp fst snd]. destruct (Rleb_spec fck 12); lra.
  - assert (B : 118 / 100 <= k <= 244 / 100); [|lra]. apply (table_bounds _ _ _ _ _ rising_k T3). intros p I. unfold mc_k_table in I. cbn [In] in I. repeat (destruct I as [<- | I]; [cbn [snd]; lra|]). destruct I.
Qed.
Print Assumptions C34_mc_tables.
(** Stronger concrete: peak strain not smaller in size, limit strain not larger,
    plasticity number not larger. *)
Theorem C34_mc_tables_monotone : forall a b ca cb la lb ka kb, a <= b ->
  mc_eps_c1 a = Ok ca -> mc_eps_c1 b = Ok cb -> mc_eps_cu1 a = Ok la -> mc_eps_cu1 b = Ok lb -> mc_k_sargin a = Ok ka -> mc_k_sargin b = Ok kb ->
  cb <= ca /\ la <= lb /\ kb <= ka.
Proof.
  intros a b ca cb la lb ka kb H. unfold mc_eps_c1, mc_eps_cu1, mc_eps_clim, mc_k_sargin, graded. destruct (Rltb a 12 || Rltb 120 a)%bool; [discriminate|]. destruct (Rltb b 12 || Rltb 120 b)%bool; [discriminate|].
  assert (OI : forall x y : R, Ok x = Ok y -> x = y) by (intros x y E; injection E; trivial).
  intros E1 E2 E3 E4 E5 E6. apply OI in E1, E2, E3, E4, E5, E6. subst ca cb la lb ka kb.
  assert (TB : forall s l, (forall p q, In (p, q) (edges l) -> s * snd p <= s * snd q) -> True) by trivial. clear TB.
  pose proof (np_interp_mono (-1) (12, -19 / 10) (tl mc_eps_c1_table) a b ltac:(lra) rising_c1) as Q1.
  pose proof (np_interp_mono 1 (12, -35 / 10) (tl mc_eps_clim_table) a b ltac:(lra) rising_clim) as Q2.
  pose proof (np_interp_mono (-1) (12, 244 / 100) (tl mc_k_table) a b ltac:(lra) rising_k) as Q3.
  assert (M1 : forall p q, In (p, q) (edges mc_eps_c1_table) -> -1 * snd p <= -1 * snd q) by (intros p q I; cbn [edges mc_eps_c1_table] in I; repeat (destruct I as [I|I]; [injection I as <- <-; cbn [snd]; lra|]); destruct I).
  assert (M2 : forall p q, In (p, q) (edges mc_eps_clim_table) -> 1 * snd p <= 1 * snd q) by (intros p q I; cbn [edges mc_eps_clim_table] in I; repeat (destruct I as [I|I]; [injection I as <- <-; cbn [snd]; lra|]); destruct I).
  assert (M3 : forall p q, In (p, q) (edges mc_k_table) -> -1 * snd p <= -1 * snd q) by (intros p q I; cbn [edges mc_k_table] in I; repeat (destruct I as [I|I]; [injection I as <- <-; cbn [snd]; lra|]); destruct I).
  specialize (Q1 M1 H). specialize (Q2 M2 H). specialize (Q3 M3 H). change ((12, -19 / 10) :: tl mc_eps_c1_table) with mc_eps_c1_table in Q1. change ((12, -35 / 10) :: tl mc_eps_clim_table) with mc_eps_clim_table in Q2. change ((12, 244 / 100) :: tl mc_k_table) with mc_k_table in Q3. lra.
Qed.
Print Assumptions C34_mc_tables_monotone.
(** Peak strains do not exceed limit strains: EC2:2004 nonlinear law for every
    strength, bilinear law for every strength, parabola-rectangle up to 89.9 MPa;
    EC2:2023 wherever accepted. *)
Theorem C34_strain_order :
  (forall fcm fck, 0 <= ec_eps_c1 fcm <= ec_eps_cu1 fck) /\
  (forall fck, 0 < ec_eps_c3 fck <= ec_eps_cu3 fck) /\
  (forall fck, Rabs fck <= 899 / 10 -> 0 < ec_eps_c2 fck <= ec_eps_cu2 fck) /\
  (forall fck, mc_eps_c2 fck = ec_eps_c2 fck /\ mc_eps_cu2 fck = ec_eps_cu2 fck /\ mc_n fck = ec_n fck /\ mc_eps_c3 fck = ec_eps_c3 fck /\ mc_eps_cu3 fck = ec_eps_cu3 fck) /\
  (forall fcm, (fcm < 20 -> e3_eps_c1 fcm = Err ValueError /\ e3_eps_cu1 fcm = Err ValueError) /\
     (20 <= fcm -> exists c u, e3_eps_c1 fcm = Ok c /\ e3_eps_cu1 fcm = Ok u /\ 0 < c <= u /\ u <= 35 / 10000)) /\
  0 < e3_eps_c2 < e3_eps_cu2 /\
  (forall fck, Rabs fck <= 130 -> 1 < ec_n fck <= 2).
Proof.
  assert (P4 : forall x, 0 <= x ^ 4) by (intros x; replace (x ^ 4) with ((x ^ 2) ^ 2) by ring; apply pow2_ge_0).
  split; [|split; [|split; [|split; [|split; [|split]]]]].
  - intros fcm fck. unfold ec_eps_c1, ec_eps_cu1. pose proof (pw_nonneg (Rabs fcm) (31 / 100)) as N. cbv zeta. pose proof (P4 ((98 - ec_fcm (Rabs fck) 8) / 100)).
    assert (M : 0 <= Rmin (7 / 10 * pw (Rabs fcm) (31 / 100)) (28 / 10) <= 28 / 10) by (unfold Rmin; destruct (Rle_dec _ _); lra). destruct (Rltb_spec (Rabs fck) 50); lra.
  - intros fck. unfold ec_eps_c3, ec_eps_cu3, ec_eps_cu2. cbv zeta. destruct (Rleb_spec (Rabs fck) 50); [lra|]. set (u := (90 - Rabs fck) / 100). replace (Rabs fck) with (90 - 100 * u) by (unfold u; field).
    pose proof (pow2_ge_0 (u ^ 2 - 46 / 1000)). pose proof (pow2_ge_0 (u + 1375 / 6440)). assert (Q : 35 * u ^ 4 + 1375 / 1000 * u + 3 / 10 >= 0) by nra. split; [|lra]. assert (u <= 4 / 10) by (unfold u; lra). lra.
  - intros fck H. unfold ec_eps_c2, ec_eps_cu2. cbv zeta. destruct (Rleb_spec (Rabs fck) 50); [lra|]. pose proof (pw_nonneg (Rabs fck - 50) (53 / 100)). pose proof (P4 ((90 - Rabs fck) / 100)).
    assert (L : pw (Rabs fck - 50) (53 / 100) <= 120 / 17); [|lra]. apply Rle_trans with (pw (399 / 10) (53 / 100)); [apply pw_le; lra|].
    apply (pw_le_frac (399 / 10) (53 / 100) (120 / 17) 53 100); [lia|lia|lra|lra|cbn [Z.of_nat Pos.of_succ_nat Pos.succ]; lra|apply pow_100_hi].
  - intros fck. repeat split; reflexivity.
  - intros fcm. unfold e3_eps_c1, e3_eps_cu1. destruct (Rltb_spec fcm 20) as [L|L]; (split; intros H; [|try lra]); try lra; [split; reflexivity|]. eexists. eexists. split; [reflexivity|]. split; [reflexivity|].
    pose proof (pw_pos fcm (1 / 3) ltac:(lra)). pose proof (P4 (1 - fcm / 108)). unfold Rmin. repeat destruct (Rle_dec _ _); lra.
  - unfold e3_eps_c2, e3_eps_cu2. lra.
  - intros fck H. unfold ec_n. cbv zeta. destruct (Rleb_spec (Rabs fck) 50); [lra|]. pose proof (P4 ((90 - Rabs fck) / 100)). split; [lra|]. set (u := (90 - Rabs fck) / 100) in *.
    assert (U : - (4 / 10) <= u <= 4 / 10) by (unfold u; lra). assert (u ^ 2 <= 16 / 100) by nra. assert (0 <= u ^ 2) by apply pow2_ge_0. replace (u ^ 4) with (u ^ 2 * u ^ 2) by ring. nra.
Qed.
Print Assumptions C34_strain_order.
(** At 90 MPa the parabola-rectangle strains are in the wrong order. *)
Theorem C34_strain_order_refuted : ec_eps_cu2 90 < ec_eps_c2 90.
Proof.
  unfold ec_eps_c2, ec_eps_cu2. cbv zeta. rewrite Rabs_pos_eq by lra. destruct (Rleb_spec 90 50); [lra|].
  assert (L : 120 / 17 < pw (90 - 50) (53 / 100)). { replace (90 - 50) with 40 by ring. apply (pw_gt_frac 40 (53 / 100) (120 / 17) 53 100); [lia|lia|lra|lra|cbn [Z.of_nat Pos.of_succ_nat Pos.succ]; lra|apply pow_100_lo]. }
  replace ((90 - 90) / 100) with 0 by field. rewrite pow_i by lia. lra.
Qed.
Print Assumptions C34_strain_order_refuted.

(** * Design strength *)
Theorem C34_fcd : forall fck a g, g <> 0 ->
  ec_fcd fck a g = mc_fcd fck a g /\ mc_fcd fck a g * Rabs g = Rabs a * Rabs fck /\ 0 <= mc_fcd fck a g /\
  (Rabs a <= Rabs g -> mc_fcd fck a g <= Rabs fck) /\ (forall fck', Rabs fck <= Rabs fck' -> mc_fcd fck a g <= mc_fcd fck' a g).
Proof.
  intros f a g N. unfold ec_fcd, mc_fcd. assert (P : 0 < Rabs g) by (apply Rabs_pos_lt, N). pose proof (Rabs_pos a) as PA. pose proof (Rabs_pos f) as PF. pose proof (Rinv_0_lt_compat _ P).
  split; [reflexivity|]. split; [field; lra|]. split; [apply Rmult_le_pos; [apply Rmult_le_pos; assumption|lra]|]. split.
  - intros L. apply (Rmult_le_reg_r (Rabs g)); [exact P|]. replace (Rabs a * Rabs f / Rabs g * Rabs g) with (Rabs a * Rabs f) by (field; lra). rewrite Rmult_comm. apply Rmult_le_compat_l; assumption.
  - intros f' L. apply Rmult_le_compat_r; [lra|]. apply Rmult_le_compat_l; assumption.
Qed.
Print Assumptions C34_fcd.
(** EC2:2023: eta_cc is in (0, 1], 1 up to the reference strength and falling above;
    k_tc is 0.85 or 1; with them fcd is accepted and at most fck. *)
Theorem C34_fcd_2023 : forall fck ref tref t0 cls g eta k, e3_eta_cc fck ref = Ok eta -> e3_k_tc tref t0 cls = Ok k ->
  0 < eta <= 1 /\ (fck <= ref -> eta = 1) /\ (ref < fck -> eta ^ 3 * fck = ref) /\ (k = 85 / 100 \/ k = 1) /\
  (1 <= g -> exists v, e3_fcd fck eta k g = Ok v /\ v * g = eta * k * fck /\ 0 < v <= fck) /\ (g < 1 -> e3_fcd fck eta k g = Err ValueError).
Proof.
  intros fck ref tref t0 cls g eta k. unfold e3_eta_cc. destruct (Rltb_spec fck 12) as [|F]; [discriminate|]. destruct (Rleb_spec ref 0) as [|PR]; [discriminate|]. intros E HK. injection E as <-.
  assert (Q : 0 < ref / fck) by (apply Rdiv_lt_0_compat; lra). pose proof (pw_pos (ref / fck) (1 / 3) Q) as PP.
  assert (B : 0 < Rmin (pw (ref / fck) (1 / 3)) 1 <= 1) by (unfold Rmin; destruct (Rle_dec _ _); lra).
  assert (K : k = 85 / 100 \/ k = 1).
  { unfold e3_k_tc in HK. destruct (Rltb tref 0); [discriminate|]. destruct (Rltb t0 0); [discriminate|]. destruct (negb _); [discriminate|]. destruct (_ && _)%bool; [injection HK as <-; now right|]. destruct (_ && _)%bool; injection HK as <-; tauto. }
  split; [exact B|]. split; [|split; [|split; [exact K|split]]].
  - intros L. apply Rmin_right. apply pw_ge_1; [lra|]. apply (Rmult_le_reg_r fck); [lra|]. unfold Rdiv. rewrite Rmult_assoc, Rinv_l by lra. lra.
  - intros L. rewrite Rmin_left; [rewrite cube_root by lra; field; lra|]. apply Rlt_le, pw_lt_1; [lra|]. split; [lra|]. apply (Rmult_lt_reg_r fck); [lra|]. unfold Rdiv. rewrite Rmult_assoc, Rinv_l by lra. lra.
  - intros G. unfold e3_fcd. set (eta := Rmin (pw (ref / fck) (1 / 3)) 1) in *. destruct (Rltb_spec fck 12); [lra|]. destruct (Rltb_spec eta 0); [lra|]. destruct (Rltb_spec 1 eta); [lra|]. destruct (Rltb_spec g 1); [lra|]. cbn [orb].
    eexists. split; [reflexivity|]. split; [field; lra|]. assert (KP : 0 < k <= 1) by lra. assert (0 < eta * k) by (apply Rmult_lt_0_compat; lra). assert (eta * k <= 1 * 1) by (apply Rmult_le_compat; lra).
    assert (0 < eta * k * fck) by (apply Rmult_lt_0_compat; lra). split; [apply Rdiv_lt_0_compat; lra|]. apply (Rmult_le_reg_r g); [lra|]. replace (eta * k * fck / g * g) with (eta * k * fck) by (field; lra). nra.
  - intros G. unfold e3_fcd. set (eta := Rmin (pw (ref / fck) (1 / 3)) 1) in *. destruct (Rltb_spec fck 12); [reflexivity|]. destruct (orb _ _); [reflexivity|]. destruct (Rltb_spec g 1); [reflexivity|lra].
Qed.
Print Assumptions C34_fcd_2023.

(** * Creep and shrinkage tables of EN 1992-1-1:2023 *)
(** phi(50y, t0): a value exactly for t0 within the ages of the class and hn within
    100-1000 mm; in the range of the table, and the table's own entry at its nodes;
    other words rejected. *)
Theorem C34_creep_table : forall gd, interpolates gd -> forall t0 atm hn cls,
  (forall (dry : bool) d w, written (if dry then "dry" else "humid") atm -> In w (class_names d) -> written w cls ->
     (hd 0 (ages d) <= t0 <= 365 /\ 100 <= hn <= 1000 -> exists v, e3_phi_50y gd t0 atm hn cls = Ok v /\ (if dry then 1 <= v <= 42 / 10 else 8 / 10 <= v <= 3) /\
        forall u, entry (ages d) (creep_rows dry) 10 t0 hn u -> v = u) /\
     (~ (hd 0 (ages d) <= t0 <= 365 /\ 100 <= hn <= 1000) -> e3_phi_50y gd t0 atm hn cls = Err ValueError)) /\
  ((~ written "dry" atm /\ ~ written "humid" atm) \/ (forall d w, In w (class_names d) -> ~ written w cls) -> e3_phi_50y gd t0 atm hn cls = Err ValueError).
Proof.
  intros gd G t0 atm hn cls. split.
  - intros dry d w WA IW WC.
    assert (EA : str_strip (lower atm) = if dry then "dry"%string else "humid"%string) by (destruct dry; match type of WA with written ?x _ => exact (proj2 (written_lower x atm eq_refl) WA) end).
    assert (EC : str_strip (str_upper cls) = w) by (destruct d; cbn [class_names In] in IW; repeat (destruct IW as [<- | IW]; [match type of WC with written ?x _ => exact (proj2 (written_upper x cls eq_refl) WC) end|]); destruct IW).
    assert (ET : e3_times w = ages d) by (destruct d; cbn [class_names In] in IW; repeat (destruct IW as [<- | IW]; [reflexivity|]); destruct IW).
    assert (EO : one_of w e3_classes = true) by (destruct d; cbn [class_names In] in IW; repeat (destruct IW as [<- | IW]; [reflexivity|]); destruct IW).
    assert (T : forall x y, (hd 0 (ages d) <= x <= 365 /\ 100 <= y <= 1000 -> exists v, gd (grid (ages d) e3_h (if dry then e3_phi_dry else e3_phi_humid)) (x, y) = Some v /\ (if dry then 1 <= v <= 42 / 10 else 8 / 10 <= v <= 3) /\
       forall u, In ((x, y), u) (grid (ages d) e3_h (if dry then e3_phi_dry else e3_phi_humid)) -> v = u) /\ (~ (hd 0 (ages d) <= x <= 365 /\ 100 <= y <= 1000) -> gd (grid (ages d) e3_h (if dry then e3_phi_dry else e3_phi_humid)) (x, y) = None)).
    { intros x y. assert (ND : NoDup (ages d)) by (destruct d; unfold ages; repeat (constructor; [cbn; intros Q; repeat destruct Q as [Q|Q]; try (lra || contradiction)|]); constructor).
      assert (HL : exists m, ages d = hd 0 (ages d) :: m ++ [365]) by (destruct d; [exists [10; 32; 91]|exists [7; 28; 91]|exists [3; 23; 91]]; reflexivity).
      assert (FX : Forall (fun x => hd 0 (ages d) <= x <= 365) (ages d)) by (destruct d; unfold ages; repeat (apply Forall_cons; [cbn [hd]; lra|]); apply Forall_nil).
      assert (LT : hd 0 (ages d) < 365) by (destruct d; cbn [ages hd]; lra).
      destruct dry; [refine (table_lookup gd (ages d) _ 365 e3_phi_dry 1 (42 / 10) G HL _ LT ND FX _ x y)|refine (table_lookup gd (ages d) _ 365 e3_phi_humid (8 / 10) 3 G HL _ LT ND FX _ x y)];
        try (destruct d; reflexivity); [unfold e3_phi_dry|unfold e3_phi_humid]; repeat (apply Forall_cons; [lra|]); apply Forall_nil. }
    assert (B1 : 1 <= hd 0 (ages d)) by (destruct d; cbn [ages hd]; lra).
    assert (EE : e3_phi_50y gd t0 atm hn cls = if Rltb t0 1 then Err ValueError else if Rltb hn 100 then Err ValueError else if Rltb 1000 hn then Err ValueError else
       match gd (grid (ages d) e3_h (if dry then e3_phi_dry else e3_phi_humid)) (t0, hn) with Some v => Ok v | None => Err ValueError end).
    { unfold e3_phi_50y. rewrite EA, EC, EO. cbv zeta. cbn [negb]. rewrite ET. destruct dry; reflexivity. }
    rewrite EE. destruct (T t0 hn) as [TI TO]. split; intros H.
    + destruct (Rltb_spec t0 1); [lra|]. destruct (Rltb_spec hn 100); [lra|]. destruct (Rltb_spec 1000 hn); [lra|]. destruct (TI H) as (v & EV & B & N). exists v. rewrite EV. split; [reflexivity|]. split; [exact B|].
      intros u (i & j & row & q0 & E1 & E2 & E3 & E4 & ->). apply N. clear - E1 E2 E3 E4.
      apply (grid_nth _ _ i j); [exact E1|exact E3|]. clear E1.
      destruct dry; (destruct i as [|[|[|[|[|i]]]]]; [..|destruct i; discriminate E2]); cbn [creep_rows nth_error] in E2; injection E2 as <-;
        (destruct j as [|[|[|[|j]]]]; [..|destruct j; discriminate E3]); cbn [nth_error] in E4; injection E4 as <-; reflexivity.
    + destruct (Rltb_spec t0 1); [reflexivity|]. destruct (Rltb_spec hn 100); [reflexivity|]. destruct (Rltb_spec 1000 hn); [reflexivity|]. rewrite (TO H). reflexivity.
  - unfold e3_phi_50y. intros [H|H]; [apply atm_words in H|apply class_words in H]; rewrite H; cbv zeta; cbn [negb]; repeat match goal with |- context [if ?c then _ else _] => destruct c end; reflexivity.
Qed.
Print Assumptions C34_creep_table.

(** Shrinkage after 50 years: likewise between the strengths of the class. *)
Theorem C34_shrinkage_table : forall gd, interpolates gd -> forall fck atm hn cls,
  (forall (dry : bool) d w, written (if dry then "dry" else "humid") atm -> In w (class_names d) -> written w cls ->
     (hd 0 (strengths d) <= fck <= last (strengths d) 0 /\ 100 <= hn <= 1000 -> exists v, e3_eps_cs_50y gd fck atm hn cls = Ok v /\ (if dry then 35 / 100 <= v <= 76 / 100 else 21 / 100 <= v <= 42 / 100) /\
        forall u, entry (strengths d) (shrinkage_rows dry d) 100 fck hn u -> v = u) /\
     (~ (hd 0 (strengths d) <= fck <= last (strengths d) 0 /\ 100 <= hn <= 1000) -> e3_eps_cs_50y gd fck atm hn cls = Err ValueError)) /\
  ((~ written "dry" atm /\ ~ written "humid" atm) \/ (forall d w, In w (class_names d) -> ~ written w cls) -> e3_eps_cs_50y gd fck atm hn cls = Err ValueError).
Proof.
  intros gd G fck atm hn cls. split.
  - intros dry d w WA IW WC.
    assert (EA : str_strip (lower atm) = if dry then "dry"%string else "humid"%string) by (destruct dry; match type of WA with written ?x _ => exact (proj2 (written_lower x atm eq_refl) WA) end).
    assert (EC : str_strip (str_upper cls) = w) by (destruct d; cbn [class_names In] in IW; repeat (destruct IW as [<- | IW]; [match type of WC with written ?x _ => exact (proj2 (written_upper x cls eq_refl) WC) end|]); destruct IW).
    set (vs := e3_eps_values dry (match d with slow => "CS" | normal => "CN" | rapid => "CR" end)%string).
    assert (EE : e3_eps_cs_50y gd fck atm hn cls = if Rltb fck 20 then Err ValueError else if Rltb 80 fck then Err ValueError else if Rltb hn 100 then Err ValueError else if Rltb 1000 hn then Err ValueError else
       match gd (grid (strengths d) e3_h vs) (fck, hn) with Some v => Ok v | None => Err ValueError end).
    { unfold e3_eps_cs_50y, vs. rewrite EA, EC. clear EA EC WA WC. destruct d; cbn [class_names In] in IW; repeat (destruct IW as [<- | IW]; [destruct dry; reflexivity|]); destruct IW. }
    assert (FV : Forall (fun v => (if dry then 35 / 100 else 21 / 100) <= v <= (if dry then 76 / 100 else 42 / 100)) vs) by (unfold vs; destruct dry, d; cbn [e3_eps_values String.eqb Ascii.eqb Bool.eqb]; repeat (apply Forall_cons; [lra|]); apply Forall_nil).
    assert (ND : NoDup (strengths d)) by (destruct d; unfold strengths; repeat (constructor; [cbn; intros Q; repeat destruct Q as [Q|Q]; try (lra || contradiction)|]); constructor).
    assert (HL : exists m, strengths d = hd 0 (strengths d) :: m ++ [last (strengths d) 0]) by (destruct d; [exists [35]|exists [35; 50]|exists [50]]; reflexivity).
    assert (FX : Forall (fun x => hd 0 (strengths d) <= x <= last (strengths d) 0) (strengths d)) by (destruct d; unfold strengths; repeat (apply Forall_cons; [cbn [hd last]; lra|]); apply Forall_nil).
    assert (LT : hd 0 (strengths d) < last (strengths d) 0) by (destruct d; cbn [strengths hd last]; lra).
    assert (LV : List.length vs = (List.length (strengths d) * 4)%nat) by (unfold vs; destruct dry, d; reflexivity).
    destruct (table_lookup gd (strengths d) _ _ vs _ _ G HL LV LT ND FX FV fck hn) as [TI TO].
    assert (B1 : 20 <= hd 0 (strengths d) /\ last (strengths d) 0 <= 80) by (destruct d; cbn [strengths hd last]; lra).
    rewrite EE. split; intros H.
    + destruct (Rltb_spec fck 20); [lra|]. destruct (Rltb_spec 80 fck); [lra|]. destruct (Rltb_spec hn 100); [lra|]. destruct (Rltb_spec 1000 hn); [lra|]. destruct (TI H) as (v & EV & B & N). exists v. rewrite EV. split; [reflexivity|]. split; [destruct dry; exact B|].
      intros u (i & j & row & q & E1 & E2 & E3 & E4 & ->). apply N. clear - E1 E2 E3 E4. apply (grid_nth _ _ i j); [exact E1|exact E3|]. clear E1. unfold vs. clear vs.
      destruct d, dry; cbn [shrinkage_rows] in E2; (destruct i as [|[|[|[|i]]]]; try discriminate E2; try match goal with z : nat |- _ => destruct z; discriminate E2 end); cbn [nth_error] in E2; injection E2 as <-;
        (destruct j as [|[|[|[|j]]]]; [..|destruct j; discriminate E3]); cbn [nth_error] in E4; injection E4 as <-; reflexivity.
    + destruct (Rltb_spec fck 20); [reflexivity|]. destruct (Rltb_spec 80 fck); [reflexivity|]. destruct (Rltb_spec hn 100); [reflexivity|]. destruct (Rltb_spec 1000 hn); [reflexivity|]. rewrite (TO H). reflexivity.
  - unfold e3_eps_cs_50y. intros [H|H]; [apply atm_words in H; rewrite H; cbv zeta; cbn [negb]; repeat match goal with |- context [if ?c then _ else _] => destruct c end; reflexivity|].
    assert (N : forall w, In w e3_classes -> str_strip (str_upper cls) <> w).
    { intros w I E. apply class_words in H. unfold one_of in H. rewrite E in H. unfold e3_classes in I, H. cbn [In] in I. repeat (destruct I as [<- | I]; [discriminate H|]). destruct I. }
    cbv zeta. repeat match goal with |- context [String.eqb (str_strip (str_upper cls)) ?b] => destruct (String.eqb_spec (str_strip (str_upper cls)) b) as [E|_]; [exfalso; apply (N b); [unfold e3_classes; cbn; tauto|exact E]|] end.
    assert (NN : one_of (str_strip (str_upper cls)) ["CS"; "CN"; "CR"]%string = false).
    { unfold one_of. cbn [existsb]. repeat match goal with |- context [String.eqb (str_strip (str_upper cls)) ?b] => destruct (String.eqb_spec (str_strip (str_upper cls)) b) as [E|_]; [exfalso; apply (N b); [unfold e3_classes; cbn; tauto|exact E]|] end. reflexivity. }
    rewrite NN. cbn [negb]. repeat match goal with |- context [if ?c then _ else _] => destruct c end; reflexivity.
Qed.
Print Assumptions C34_shrinkage_table.

(** Some interpolation meets the contract, and a case that meets the hypotheses. *)
Example C34_interpolation_exists : exists gd, interpolates gd.
Proof.
  assert (T : forall q : list ((R * R) * R) * (R * R), exists o : option R, let (l, p) := q in
    (forall v, o = Some v -> exists w, mean_of l w p v) /\ (o = None -> ~ exists w v, mean_of l w p v) /\ (NoDup (map fst l) -> forall d, In d l -> fst d = p -> o = Some (snd d))).
  { intros [l p]. destruct (Classical_Prop.classic (NoDup (map fst l) /\ exists d, In d l /\ fst d = p)) as [(N & d & I & E)|NO].
    - exists (Some (snd d)). split; [|split; [discriminate|]].
      + intros v EV. injection EV as <-. clear N. revert I. induction l as [|a l IH]; [intros []|]; intros [-> | I].
        * exists (1 :: map (fun _ => 0) l). assert (Z : forall k : (R * R) * R -> R, lsum (map (fun '(a, d) => a * k d) (combine (map (fun _ => 0) l) l)) = 0).
          { intros k. clear. induction l as [|b l IH]; cbn [map combine]; rewrite ?lsum_nil, ?lsum_cons; [reflexivity|]. rewrite IH. ring. }
          split; [cbn; now rewrite map_length|]. split; [constructor; [lra|]; apply Forall_forall; intros x J; apply in_map_iff in J; destruct J as (? & <- & _); lra|].
          split; [rewrite lsum_cons; assert (Y : lsum (map (fun _ : R * R * R => 0) l) = 0) by (clear; induction l as [|b l IH]; cbn [map]; rewrite ?lsum_nil, ?lsum_cons; [reflexivity|rewrite IH; ring]); rewrite Y; ring|].
          cbn [combine map]. rewrite !lsum_cons, (Z (fun d => fst (fst d))), (Z (fun d => snd (fst d))), (Z (fun d => snd d)). subst p. repeat split; ring.
        * destruct (IH I) as (w & L & F & S1 & X & Y & V). exists (0 :: w). split; [cbn; now rewrite L|]. split; [constructor; [lra|exact F]|]. cbn [combine map]. rewrite !lsum_cons. repeat split; lra.
      + intros N' d' I' E'. f_equal. revert I I' N. clear - E E'. induction l as [|a l IH]; [intros []|]. cbn [map]. intros [-> | I] [-> | I'] N; inversion N as [|? ? NI N2]; subst; [reflexivity|exfalso; apply NI; rewrite <- E'; now apply in_map|exfalso; apply NI; apply in_map_iff; exists d; split; congruence|now apply IH].
    - destruct (Classical_Prop.classic (exists w v, mean_of l w p v)) as [(w & v & M)|NM].
      + exists (Some v). split; [intros u EU; injection EU as <-; now exists w|]. split; [discriminate|]. intros N d I E. exfalso. apply NO. split; [exact N|]. exists d. tauto.
      + exists None. split; [discriminate|]. split; [trivial|]. intros N d I E. exfalso. apply NO. split; [exact N|]. exists d. tauto. }
  destruct (ClassicalChoice.choice _ T) as (f & Hf). exists (fun l p => f (l, p)). intros l p. destruct (Hf (l, p)) as (A & B & _). split; [exact A|]. split; [exact B|]. intros N d I. now apply (Hf (l, fst d)).
Qed.
Example C34_creep_case : forall gd, interpolates gd -> e3_phi_50y gd 28 " Dry" 200 "normal " = Ok (22 / 10).
Proof.
  intros gd G. destruct (C34_creep_table gd G 28 " Dry" 200 "normal ") as [T _].
  destruct (T true normal "NORMAL"%string) as [A _].
  - exists " "%string, "Dry"%string, ""%string. cbn. unfold blank. cbn. tauto.
  - cbn. tauto.
  - exists ""%string, "normal"%string, " "%string. cbn. unfold blank. cbn. tauto.
  - destruct A as (v & E & _ & N); [cbn [ages hd]; lra|]. rewrite E. f_equal. apply N. exists 2%nat, 1%nat, [24; 22; 19; 18], 22. repeat split.
Qed.

(** * Other EC2:2023 factors *)
(** A_phi is on the broken line of the table and always accepted by the correction
    of the creep coefficient, which is 1 at 35 MPa and falls with the strength. *)
Theorem C34_phi_correction : forall hn atm (dry : bool), written (if dry then "dry" else "humid") atm ->
  (~ 100 <= hn <= 1000 -> e3_A_phi hn atm = Err ValueError) /\
  (100 <= hn <= 1000 -> exists A, e3_A_phi hn atm = Ok A /\
     on_table (if dry then [(100, 82 / 100); (200, 79 / 100); (500, 75 / 100); (1000, 72 / 100)] else [(100, 71 / 100); (200, 68 / 100); (500, 66 / 100); (1000, 64 / 100)]) hn A /\
     forall fck, (~ 12 <= fck <= 100 -> e3_phi_correction fck A = Err ValueError) /\
       (12 <= fck <= 100 -> exists c, e3_phi_correction fck A = Ok c /\ 0 < c /\ ln c = A * ln (35 / fck) /\ (c = 1 <-> fck = 35) /\ (1 < c <-> fck < 35) /\
          forall fck' c', fck < fck' -> e3_phi_correction fck' A = Ok c' -> c' < c)).
Proof.
  intros hn atm dry W.
  assert (EA : str_strip (lower atm) = if dry then "dry"%string else "humid"%string) by (destruct dry; match type of W with written ?x _ => exact (proj2 (written_lower x atm eq_refl) W) end).
  set (tb := if dry then e3_A_phi_dry else e3_A_phi_humid).
  assert (EE : e3_A_phi hn atm = if Rltb hn 100 then Err ValueError else if Rltb 1000 hn then Err ValueError else Ok (np_interp hn tb)) by (unfold e3_A_phi, tb; rewrite EA; destruct dry; reflexivity).
  rewrite EE. split; intros H; [destruct (Rltb_spec hn 100); [reflexivity|]; destruct (Rltb_spec 1000 hn); [reflexivity|lra]|].
  destruct (Rltb_spec hn 100); [lra|]. destruct (Rltb_spec 1000 hn); [lra|]. exists (np_interp hn tb). split; [reflexivity|].
  assert (T : on_table tb hn (np_interp hn tb)) by (unfold tb; destruct dry; [unfold e3_A_phi_dry|unfold e3_A_phi_humid]; apply np_interp_on; try (cbn [fst last]; lra); [apply rising_dry|apply rising_humid]).
  split; [unfold tb in T; destruct dry; exact T|]. assert (RS : rising tb) by (unfold tb; destruct dry; [apply rising_dry|apply rising_humid]).
  assert (B : 64 / 100 <= np_interp hn tb <= 82 / 100) by (apply (table_bounds tb hn _ _ _ RS T); intros p I; unfold tb in I; destruct dry; cbn [e3_A_phi_dry e3_A_phi_humid In] in I; repeat (destruct I as [<- | I]; [cbn [snd]; lra|]); destruct I).
  generalize (np_interp hn tb) B. clear. intros A B.
  assert (F : forall fck c, 12 <= fck <= 100 -> e3_phi_correction fck A = Ok c -> c = Rpower (35 / fck) A).
  { intros fck c H. unfold e3_phi_correction. destruct (Rltb_spec fck 12); [lra|]. destruct (Rltb_spec 100 fck); [lra|]. destruct (Rltb_spec A (64 / 100)); [lra|]. destruct (Rltb_spec (82 / 100) A); [lra|].
    intros E. injection E as <-. apply pw_Rpower, Rdiv_lt_0_compat; lra. }
  assert (INV : forall x y, 0 < x -> x < y -> 35 / y < 35 / x) by (intros x y PX L; apply Rmult_lt_compat_l; [lra|]; apply Rinv_lt_contravar; [apply Rmult_lt_0_compat; lra|exact L]).
  assert (MON : forall x y, 12 <= x -> x < y -> Rpower (35 / y) A < Rpower (35 / x) A) by (intros x y L1 L2; apply Rlt_Rpower_l; [lra|]; split; [apply Rdiv_lt_0_compat; lra|apply INV; lra]).
  assert (ONE : Rpower (35 / 35) A = 1) by (replace (35 / 35) with 1 by field; unfold Rpower; rewrite ln_1, Rmult_0_r; apply exp_0).
  intros fck. split; intros H.
  - unfold e3_phi_correction. destruct (Rltb_spec fck 12); [reflexivity|]. destruct (Rltb_spec 100 fck); [reflexivity|lra].
  - assert (E : e3_phi_correction fck A = Ok (Rpower (35 / fck) A)).
    { destruct (e3_phi_correction fck A) as [c|e] eqn:E; [now rewrite (F fck c H E)|]. exfalso. revert E. unfold e3_phi_correction. destruct (Rltb_spec fck 12); [lra|]. destruct (Rltb_spec 100 fck); [lra|]. destruct (Rltb_spec A (64 / 100)); [lra|]. destruct (Rltb_spec (82 / 100) A); [lra|discriminate]. }
    exists (Rpower (35 / fck) A). split; [exact E|]. split; [apply exp_pos|]. split; [unfold Rpower; apply ln_exp|].
    assert (C : (fck < 35 -> 1 < Rpower (35 / fck) A) /\ (35 < fck -> Rpower (35 / fck) A < 1) /\ (fck = 35 -> Rpower (35 / fck) A = 1)).
    { split; [|split]; intros L; [rewrite <- ONE; apply MON; lra|rewrite <- ONE; apply MON; lra|subst; exact ONE]. }
    split; [split; [intros E1; destruct (Rtotal_order fck 35) as [L|[L|L]]; [|exact L|]; apply C in L; lra|tauto]|].
    split; [split; [intros E1; destruct (Rtotal_order fck 35) as [L|[L|L]]; [exact L| |]; apply C in L; lra|tauto]|].
    intros f' c' L E'. destruct (Rle_dec f' 100) as [U|U]; [rewrite (F f' c' ltac:(lra) E'); apply MON; lra|]. exfalso. revert E'. unfold e3_phi_correction. destruct (Rltb_spec f' 12); [lra|]. destruct (Rltb_spec 100 f'); [discriminate|lra].
Qed.
Print Assumptions C34_phi_correction.
(** Tension: k_tt is 0.8 while the strength is taken at an early enough age (28 days,
    56 for slow concrete) and 0.7 after; fctd follows and is below fctk. *)
Theorem C34_fctd_2023 : forall tref cls d w, In w (class_names d) -> written w cls ->
  (tref < 0 -> e3_k_tt tref cls = Err ValueError) /\
  (0 <= tref -> exists k, e3_k_tt tref cls = Ok k /\ k = (if Rle_dec tref (match d with slow => 56 | _ => 28 end) then 8 / 10 else 7 / 10) /\
     forall f g, (f < 0 \/ g < 1 -> e3_fctd f k g = Err ValueError) /\
       (0 <= f -> 1 <= g -> exists v, e3_fctd f k g = Ok v /\ v * g = k * f /\ 0 <= v <= f)) /\
  (forall t0, 0 <= tref -> 0 <= t0 -> e3_k_tc tref t0 cls = Ok (if Rle_dec tref (match d with slow => 56 | _ => 28 end) then if Rlt_dec 90 t0 then 1 else 85 / 100 else 85 / 100)).
Proof.
  intros tref cls d w IW WC.
  assert (EC : str_strip (str_upper cls) = w) by (destruct d; cbn [class_names In] in IW; repeat (destruct IW as [<- | IW]; [match type of WC with written ?x _ => exact (proj2 (written_upper x cls eq_refl) WC) end|]); destruct IW).
  assert (K : 0 <= tref -> e3_k_tt tref cls = Ok (if Rle_dec tref (match d with slow => 56 | _ => 28 end) then 8 / 10 else 7 / 10)).
  { intros H. unfold e3_k_tt. rewrite EC. destruct (Rltb_spec tref 0); [lra|]. cbv zeta. clear EC WC.
    destruct d; cbn [class_names In] in IW; repeat (destruct IW as [<- | IW]; [cbn - [Rleb]; match goal with |- context [Rleb tref ?b] => destruct (Rleb_spec tref b), (Rle_dec tref b); try lra; reflexivity end|]); destruct IW. }
  split; [intros H; unfold e3_k_tt; destruct (Rltb_spec tref 0); [reflexivity|lra]|]. split.
  - intros H. eexists. split; [exact (K H)|]. split; [reflexivity|]. set (k := if Rle_dec _ _ then _ else _). assert (PK : 7 / 10 <= k <= 8 / 10) by (unfold k; destruct (Rle_dec _ _); lra). clearbody k.
    intros f g. unfold e3_fctd. split; intros F; [destruct (Rltb_spec f 0); [reflexivity|]; destruct (Rltb_spec g 1); [reflexivity|lra]|].
    intros PG. destruct (Rltb_spec f 0); [lra|]. destruct (Rltb_spec g 1); [lra|]. eexists. split; [reflexivity|]. split; [field; lra|].
    assert (0 <= k * f) by (apply Rmult_le_pos; lra). split; [apply Rmult_le_pos; [assumption|apply Rlt_le, Rinv_0_lt_compat; lra]|].
    apply (Rmult_le_reg_r g); [lra|]. replace (k * f / g * g) with (k * f) by (field; lra). nra.
  - intros t0 H H0. unfold e3_k_tc. rewrite EC. destruct (Rltb_spec tref 0); [lra|]. destruct (Rltb_spec t0 0); [lra|]. cbv zeta. clear EC WC K.
    destruct d; cbn [class_names In] in IW; repeat (destruct IW as [<- | IW]; [cbn - [Rleb Rltb];
      match goal with |- context [Rleb tref ?b] => destruct (Rleb_spec tref b), (Rle_dec tref b); try lra; cbn [andb]; try reflexivity; destruct (Rltb_spec 90 t0), (Rlt_dec 90 t0); try lra; reflexivity end|]); destruct IW.
Qed.
Print Assumptions C34_fctd_2023.
(** The thermal expansion coefficient (both materials) is ten times 10e-6. *)
Theorem C34_thermal_refuted : e3_alpha_c_th = 10 * (10 / 10 ^ 6) /\ e3_alpha_s_th = 10 * (10 / 10 ^ 6) /\ e3_alpha_c_th <> 10 / 10 ^ 6.
Proof. unfold e3_alpha_c_th, e3_alpha_s_th. repeat split; lra. Qed.
Print Assumptions C34_thermal_refuted.

(** * Values of the strain limits *)
(** EN 1992-1-1 Table 3.1 (and, for c2, cu2, n, c3, cu3, MC2010 through
    [C34_strain_order]): the smaller of 0.7 fcm^0.31 and 2.8 per mille, and the
    polynomials and powers of 90 - fck above 50 MPa. *)
Theorem C34_strain_values_2004 : forall f,
  (let e := 1000 * ec_eps_c1 f in e <= 28 / 10 /\ e ^ 100 <= (7 / 10) ^ 100 * Rabs f ^ 31 /\ (e = 28 / 10 \/ e ^ 100 = (7 / 10) ^ 100 * Rabs f ^ 31)) /\
  (Rabs f < 50 -> ec_eps_cu1 f = 35 / 10000) /\ (50 <= Rabs f -> 1000 * ec_eps_cu1 f = 28 / 10 + 27 * ((90 - Rabs f) / 100) ^ 4) /\
  (Rabs f <= 50 -> ec_eps_c2 f = 2 / 1000 /\ ec_eps_cu2 f = 35 / 10000 /\ ec_n f = 2 /\ ec_eps_c3 f = 175 / 100000 /\ ec_eps_cu3 f = 35 / 10000) /\
  (50 < Rabs f -> 0 <= 1000 * ec_eps_c2 f - 2 /\ (1000 * ec_eps_c2 f - 2) ^ 100 = (85 / 1000) ^ 100 * (Rabs f - 50) ^ 53 /\
     1000 * ec_eps_cu2 f = 26 / 10 + 35 * ((90 - Rabs f) / 100) ^ 4 /\ ec_n f = 14 / 10 + 234 / 10 * ((90 - Rabs f) / 100) ^ 4 /\
     1000 * ec_eps_c3 f = 175 / 100 + 55 / 100 * (Rabs f - 50) / 40 /\ ec_eps_cu3 f = ec_eps_cu2 f).
Proof.
  intros f. pose proof (Rabs_pos f) as PF. split; [|split; [|split; [|split]]].
  - cbv zeta. unfold ec_eps_c1. replace (1000 * (Rmin (7 / 10 * pw (Rabs f) (31 / 100)) (28 / 10) / 1000)) with (Rmin (7 / 10 * pw (Rabs f) (31 / 100)) (28 / 10)) by field.
    assert (E : (7 / 10 * pw (Rabs f) (31 / 100)) ^ 100 = (7 / 10) ^ 100 * Rabs f ^ 31). { rewrite Rpow_mult_distr. f_equal. apply (pw_frac _ _ 31 100); [lia|exact PF|cbn [Z.of_nat Pos.of_succ_nat Pos.succ]; lra]. }
    pose proof (pw_nonneg (Rabs f) (31 / 100)) as N. unfold Rmin. destruct (Rle_dec _ _) as [L|L].
    + split; [exact L|]. rewrite E. split; [lra|right; reflexivity].
    + split; [lra|]. split; [|left; reflexivity]. rewrite <- E. apply pow_incr. lra.
  - intros H. unfold ec_eps_cu1. cbv zeta. destruct (Rltb_spec (Rabs f) 50); lra.
  - intros H. unfold ec_eps_cu1, ec_fcm, mc_fcm. cbv zeta. destruct (Rltb_spec (Rabs f) 50); [lra|]. rewrite !Rabs_Rabsolu, (Rabs_pos_eq 8) by lra. replace (98 - (Rabs f + 8)) with (90 - Rabs f) by ring. field.
  - intros H. unfold ec_eps_c2, ec_eps_cu2, ec_n, ec_eps_c3, ec_eps_cu3, ec_eps_cu2. cbv zeta. destruct (Rleb_spec (Rabs f) 50); [|lra]. lra.
  - intros H. unfold ec_eps_c2, ec_n, ec_eps_c3, ec_eps_cu3, ec_eps_cu2. cbv zeta. destruct (Rleb_spec (Rabs f) 50); [lra|].
    replace (1000 * ((2 + 85 / 1000 * pw (Rabs f - 50) (53 / 100)) / 1000) - 2) with (85 / 1000 * pw (Rabs f - 50) (53 / 100)) by field.
    pose proof (pw_nonneg (Rabs f - 50) (53 / 100)). split; [lra|]. split; [|split; [field|split; [reflexivity|split; [field|reflexivity]]]].
    rewrite Rpow_mult_distr. f_equal. apply (pw_frac _ _ 53 100); [lia|lra|cbn [Z.of_nat Pos.of_succ_nat Pos.succ]; lra].
Qed.
Print Assumptions C34_strain_values_2004.
(** EC2:2023: min(0.7 fcm^(1/3), 2.8) and min(2.8 + 14 (1 - fcm/108)^4, 3.5) per mille. *)
Theorem C34_strain_values_2023 : forall fcm c u, e3_eps_c1 fcm = Ok c -> e3_eps_cu1 fcm = Ok u ->
  1000 * c <= 28 / 10 /\ (1000 * c) ^ 3 <= 343 / 1000 * fcm /\ (1000 * c = 28 / 10 \/ (1000 * c) ^ 3 = 343 / 1000 * fcm) /\
  1000 * u <= 35 / 10 /\ 1000 * u <= 28 / 10 + 14 * (1 - fcm / 108) ^ 4 /\ (1000 * u = 35 / 10 \/ 1000 * u = 28 / 10 + 14 * (1 - fcm / 108) ^ 4) /\
  e3_eps_c2 = 2 / 1000 /\ e3_eps_cu2 = 35 / 10000 /\ e3_n = 2.
Proof.
  intros fcm c u EC EU. unfold e3_eps_c1 in EC. unfold e3_eps_cu1 in EU. destruct (Rltb_spec fcm 20); [discriminate|]. apply Ok_inj in EC. apply Ok_inj in EU. subst c u.
  replace (1000 * (Rmin (7 / 10 * pw fcm (1 / 3)) (28 / 10) / 1000)) with (Rmin (7 / 10 * pw fcm (1 / 3)) (28 / 10)) by field.
  replace (1000 * (Rmin (28 / 10 + 14 * (1 - fcm / 108) ^ 4) (35 / 10) / 1000)) with (Rmin (28 / 10 + 14 * (1 - fcm / 108) ^ 4) (35 / 10)) by field.
  assert (E : (7 / 10 * pw fcm (1 / 3)) ^ 3 = 343 / 1000 * fcm). { rewrite Rpow_mult_distr, cube_root by lra. field. }
  pose proof (pw_nonneg fcm (1 / 3)). pose proof (Rmin_l (28 / 10 + 14 * (1 - fcm / 108) ^ 4) (35 / 10)). pose proof (Rmin_r (28 / 10 + 14 * (1 - fcm / 108) ^ 4) (35 / 10)).
  split; [apply Rmin_r|]. split; [rewrite <- E; apply pow_incr; split; [apply Rmin_glb; lra|apply Rmin_l]|]. split; [unfold Rmin at 1 2; destruct (Rle_dec _ _); [right; exact E|left; reflexivity]|].
  split; [assumption|]. split; [assumption|]. split; [unfold Rmin; destruct (Rle_dec _ _); [right|left]; reflexivity|].
  unfold e3_eps_c2, e3_eps_cu2, e3_n. repeat split; lra.
Qed.
Print Assumptions C34_strain_values_2023.
(** Fracture energy 73 fcm^0.18 with fcm = |fck| + 8, higher for stronger concrete. *)
Theorem C34_fracture_energy : (forall fck, 0 < mc_Gf fck /\ mc_Gf fck ^ 50 = 73 ^ 50 * (Rabs fck + 8) ^ 9) /\ increases (fun f => 0 <= f) mc_Gf.
Proof.
  assert (F : forall f, mc_fcm f 8 = Rabs f + 8) by (intros f; unfold mc_fcm; rewrite (Rabs_pos_eq 8) by lra; ring).
  split.
  - intros f. unfold mc_Gf. rewrite F. pose proof (Rabs_pos f). split; [apply Rmult_lt_0_compat; [lra|apply pw_pos; lra]|].
    rewrite Rpow_mult_distr. f_equal. apply (pw_frac _ _ 9 50); [lia|lra|cbn [Z.of_nat Pos.of_succ_nat Pos.succ]; lra].
  - intros x y HX HY H. unfold mc_Gf. rewrite !F, !Rabs_pos_eq by assumption. apply Rmult_lt_compat_l; [lra|apply pw_lt; lra].
Qed.
Print Assumptions C34_fracture_energy.
(** EC2:2023 notional size 2 Ac / u, unit weights and modulus. *)
Theorem C34_constants_2023 : forall Ac u t,
  (Ac < 0 \/ u < 0 -> e3_hn Ac u = Err ValueError) /\ (0 <= Ac -> u = 0 -> e3_hn Ac u = Err ZeroDivisionError) /\
  (0 <= Ac -> 0 < u -> exists h, e3_hn Ac u = Ok h /\ h * u = 2 * Ac) /\
  (written "nc" t -> e3_weight_c t = Ok 25) /\ (written "npc" t -> e3_weight_c t = Ok 24) /\ (~ written "nc" t -> ~ written "npc" t -> e3_weight_c t = Err ValueError) /\
  e3_weight_s = 785 / 10 /\ e3_Es = 200000.
Proof.
  intros Ac u t. pose proof (written_lower "nc" t eq_refl) as W1. pose proof (written_lower "npc" t eq_refl) as W2.
  change (lower "nc") with "nc"%string in W1. change (lower "npc") with "npc"%string in W2.
  split; [|split; [|split; [|split; [|split; [|split; [|split; reflexivity]]]]]].
  - intros H. unfold e3_hn. destruct (Rltb_spec Ac 0); [reflexivity|]. destruct (Rltb_spec u 0); [reflexivity|lra].
  - intros P ->. unfold e3_hn, pdiv. destruct (Rltb_spec Ac 0); [lra|]. destruct (Rltb_spec 0 0); [lra|]. destruct (Reqb_spec 0 0); [reflexivity|lra].
  - intros P Q. unfold e3_hn, pdiv. destruct (Rltb_spec Ac 0); [lra|]. destruct (Rltb_spec u 0); [lra|]. destruct (Reqb_spec u 0); [lra|]. eexists. split; [reflexivity|field; lra].
  - intros H. apply W1 in H. unfold e3_weight_c. rewrite H. reflexivity.
  - intros H. apply W2 in H. unfold e3_weight_c. rewrite H. reflexivity.
  - intros H1 H2. unfold e3_weight_c. cbv zeta. destruct (String.eqb_spec (str_strip (lower t)) "nc") as [E|_]; [destruct (H1 (proj1 W1 E))|]. destruct (String.eqb_spec (str_strip (lower t)) "npc") as [E|_]; [destruct (H2 (proj1 W2 E))|]. reflexivity.
Qed.
Print Assumptions C34_constants_2023.
Example C34_strain_values_case : (exists c u, e3_eps_c1 38 = Ok c /\ e3_eps_cu1 38 = Ok u) /\ Rabs 30 <= 50 < Rabs 70 /\ written "nc" " NC ".
Proof.
  split; [unfold e3_eps_c1, e3_eps_cu1; destruct (Rltb_spec 38 20); [lra|]; eexists; eexists; split; reflexivity|].
  split; [rewrite !Rabs_pos_eq; lra|]. apply (written_lower "nc" " NC " eq_refl). reflexivity.
Qed.
