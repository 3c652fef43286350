(** Property C60, continued: the polygons of the curved laws. *)
From Coquelicot Require Import Coquelicot.
From Coq Require Import FunctionalExtensionality Lra Lia.
From Verif Require Import Base S_Marin M_Marin M_Laws S_Laws L_Laws L_LawsB L_LawsC M_Laws2 S_Laws2 L_Laws2 L_Laws3 L_Laws4 L_Laws5 M_Section M_Discr S_Discr L_Discr M_Fiber S_Fiber M_MarinInt S_MarinInt L_MarinInt4 S_Frame P_Frame S_Section S_Gross S_Exact M_Fields S_Fields L_Fields L_Fields2 L_Fields3 P_Exact P_Fields
  S_Mesh S_Curved L_Curved2.

(** A polygon through the tenths of a smooth curve. *)
Theorem C60_tenths : forall u s M f, u < 0 -> polygon_at_tenths u s f -> s 0 = 0 -> bends_at_most M u s ->
  (forall e, continuity_pt (in_compression u s) e) /\ forall hi, within (M * (u / 10) ^ 2 / 8) u hi f (in_compression u s).
Proof.
  intros u s M f U P S0 (ds & D & B).
  assert (E0 : forall e, u <= e <= 0 -> Rabs (f e - s e) <= M * (u / 10) ^ 2 / 8).
  { apply (C57_polygon_error u s ds M f U P); [intros e E; apply is_derive_Reals, D, E|exact B]. }
  split.
  - apply compression_continuous; [exact U|]. intros e E. apply derivable_continuous_pt. exists (ds e). apply D, E.
  - intros hi e (E1 & _). destruct (Rle_dec e 0) as [H|H].
    + rewrite compression_is by lra. apply E0. lra.
    + unfold in_compression. destruct (Rle_dec e u); [lra|]. destruct (Rle_dec e 0); [lra|]. rewrite S0, (proj1 P) by lra. rewrite Rminus_0_r, Rabs_R0.
      eapply Rle_trans; [apply Rabs_pos|apply (E0 0); lra].
Qed.
Print Assumptions C60_tenths.
(** A polygon through the tenths of a curve of bounded slope. *)
Theorem C60_tenths_steep : forall u s L f, u < 0 -> 0 <= L -> polygon_at_tenths u s f -> s 0 = 0 -> steep_at_most L u s ->
  (forall e, continuity_pt (in_compression u s) e) /\ forall hi, within (L * (- u) / 20) u hi f (in_compression u s).
Proof.
  intros u s L f U L0 P S0 B. split; [exact (compression_steep u s L U L0 B)|].
  intros hi e (E1 & _). destruct (Rle_dec e 0) as [H|H].
  - rewrite compression_is by lra. apply (steep_error u s L f U L0 P B). lra.
  - unfold in_compression. destruct (Rle_dec e u); [lra|]. destruct (Rle_dec e 0); [lra|]. rewrite S0, (proj1 P) by lra. rewrite Rminus_0_r, Rabs_R0.
    assert (0 <= L * - u) by (apply Rmult_le_pos; lra). lra.
Qed.
Print Assumptions C60_tenths_steep.

Lemma node_in u k : 0 < u -> (k <= 10)%nat -> - u <= - u * (INR k / 10) <= 0.
Proof. intros U K. assert (0 <= INR k <= 10). { split; [apply pos_INR|]. replace 10 with (INR 10) by (cbn; lra). apply le_INR. lia. } nra. Qed.
Lemma node_settled u k : 0 < u -> (k <= 10)%nat -> tol u < u / 10 -> settled (- u, 100) (- u * (INR k / 10)).
Proof.
  intros U K T. destruct (Nat.eq_dec k 10) as [-> | N]; [replace (- u * (INR 10 / 10)) with (- u) by (cbn; field); apply tol_settled; lra|].
  pose proof (node_in u k U K) as I. assert (INR k <= 9). { replace 9 with (INR 9) by (cbn; lra). apply le_INR. lia. }
  left. cbn [fst snd]. unfold far. split.
  - unfold tol in *. rewrite Rabs_Ropp. rewrite (Rabs_pos_eq (_ - - u)) by nra. nra.
  - unfold tol. rewrite (Rabs_right 100), Rabs_left1 by lra. lra.
Qed.
Lemma settled_far u e : 0 < u -> 0 < e -> settled (- u, 100) e -> far (- u) e.
Proof.
  intros U E [(A & _) | [-> | (-> & _)]]; cbn [fst snd] in *; [exact A| |lra].
  unfold far, tol. rewrite Rabs_Ropp, (Rabs_pos_eq u), (Rabs_pos_eq (100 - - u)) by lra. lra.
Qed.

(** Sargin's law, any plasticity number: within fc (k-1)^2 (eu/e1)^2 / (400 m^3) of its curve, m the smaller of 1 and 1 + (k-2) eu/e1. *)
Theorem C60_sargin : forall fc e1 eu k, fc <> 0 -> e1 <> 0 -> eu <> 0 ->
  let rho := Rabs eu / Rabs e1 in 0 < 1 + (k - 2) * rho -> rho < k -> tol (Rabs eu) < Rabs eu / 10 ->
  let l := sargin_law (sargin_init fc e1 eu k) in Rabs fc <= - lw_stress l (- Rabs eu) * 1000000 ->
  exists f t, represented l (settled (- Rabs eu, 0)) f t /\
    polygon_fits l (Rabs eu) (sargin_curve (Rabs fc) (Rabs e1) k) (Rabs fc * (k - 1) ^ 2 * rho ^ 2 / (400 * Rmin 1 (1 + (k - 2) * rho) ^ 3)) f.
Proof.
  intros fc e1 eu k F H1 H2 rho D K T l B. unfold l in *. clear l.
  destruct (C57_sargin fc e1 eu k F H1 H2 D K T B) as (f & t & P & R0 & _).
  assert (W : sargin_wf (sargin_init fc e1 eu k)) by (apply sargin_init_wf; assumption).
  assert (U : 0 < Rabs eu) by (now apply Rabs_pos_lt). assert (E0 : 0 < Rabs e1) by (now apply Rabs_pos_lt). assert (F0 : 0 < Rabs fc) by (now apply Rabs_pos_lt).
  set (u := Rabs eu) in *. set (p := Rabs e1) in *. set (q := Rabs fc) in *.
  assert (Hv : forall e, settled (- u, 100) e -> - u <= e <= 0 -> lw_stress (sargin_law (sargin_init fc e1 eu k)) e = sargin_curve q p k e).
  { intros e S0 E. cbn [sargin_law lw_stress]. rewrite (sargin_ok_compr _ e W); [|exact S0|exact E]. cbn [or_zero sargin_init sa_fc sa_ec1 sa_k]. fold p q.
    unfold sargin_curve. cbv zeta. replace (e / - p) with (- e / p) by (field; lra). reflexivity. }
  assert (P2 : polygon_at_tenths (- u) (sargin_curve q p k) f).
  { eapply polygon_ext; [|exact P]. intros j J. apply Hv; [now apply node_settled|now apply node_in]. }
  assert (S0 : sargin_curve q p k 0 = 0) by (unfold sargin_curve; cbv zeta; unfold Rdiv; rewrite Ropp_0, Rmult_0_l; field; lra).
  pose proof (sargin_bends_at_most q p k u (Rlt_le _ _ F0) E0 D) as BA.
  destruct (C60_tenths (- u) (sargin_curve q p k) _ f ltac:(lra) P2 S0 BA) as (CT & WI).
  exists f, t. split; [exact R0|]. split; [exact CT|]. split.
  - intros e E S1. destruct (Rle_dec e 0) as [H|H]; [rewrite compression_is by lra; apply Hv; [exact S1|lra]|].
    unfold in_compression. destruct (Rle_dec e (- u)); [lra|]. destruct (Rle_dec e 0); [lra|]. rewrite S0. cbn [sargin_law lw_stress].
    destruct (sargin_stress (sargin_init fc e1 eu k) e) as [v|] eqn:EV; [|reflexivity]. cbn [or_zero].
    apply (sargin_outside (sargin_init fc e1 eu k) e v W); [|right; lra|exact EV]. cbn [sargin_init sa_ecu1]. fold u. apply settled_far; [exact U|lra|exact S1].
  - intros hi. specialize (WI hi). fold rho in WI. set (m := Rmin 1 (1 + (k - 2) * rho)) in *.
    assert (0 < m) by (unfold m, Rmin; destruct (Rle_dec 1 _); lra).
    replace (q * (k - 1) ^ 2 * rho ^ 2 / (400 * m ^ 3)) with (2 * q * (k - 1) ^ 2 / (p ^ 2 * m ^ 3) * (- u / 10) ^ 2 / 8); [exact WI|].
    unfold rho. fold u p. field. split; lra.
Qed.
Print Assumptions C60_sargin.

(** The parabola-rectangle with an exponent n >= 1 other than 2: within n fc (eu/e2) / 20 of its curve. *)
Theorem C60_parabola : forall fc p u n, fc <> 0 -> p <> 0 -> Rabs p <= Rabs u -> 1 <= n -> n <> 2 -> tol (Rabs u) < Rabs u / 10 ->
  let l := pr_law_n (pr_init fc p u n) in exists f t, represented l (settled (- Rabs u, 0)) f t /\
    polygon_fits l (Rabs u) (parabola_curve (Rabs fc) (Rabs p) n) (n * Rabs fc * (Rabs u / Rabs p) / 20) f.
Proof.
  intros fc p u n F P0 PU N N2 T l. unfold l. clear l.
  destruct (C57_parabolarectangle_general fc p u n F P0 PU ltac:(lra) N2 T) as (f & t & P & R0 & _).
  assert (W : pr_wf (pr_init fc p u n)) by (apply pr_init_wf; [assumption|assumption|lra]).
  assert (Pp : 0 < Rabs p) by (now apply Rabs_pos_lt). assert (F0 : 0 < Rabs fc) by (now apply Rabs_pos_lt).
  set (b := Rabs u) in *. set (a := Rabs p) in *. set (q := Rabs fc) in *. assert (U : 0 < b) by lra.
  assert (Hv : forall e, settled (- b, 100) e -> - b <= e <= 0 -> lw_stress (pr_law_n (pr_init fc p u n)) e = parabola_curve q a n e).
  { intros e S0 E. cbn [pr_law_n lw_stress]. rewrite (pr_stress_raw _ e W). unfold pr_ult. cbn [pr_init pr_eu]. fold b. rewrite settled_prep by exact S0.
    unfold pr_raw. cbn [pr_init pr_fc pr_e0 pr_eu pr_n]. fold a b q. destruct (Rltb_spec 0 e); [lra|]. unfold parabola_curve.
    assert (Z : forall x, 1 - x / - a = 1 + x / a) by (intros x; field; lra). rewrite Z.
    destruct (Rleb_spec (- a) e) as [A|A].
    - destruct (Rle_dec e (- a)) as [A2|A2].
      + replace e with (- a) by lra. replace (1 + - a / a) with 0 by (field; lra). rewrite pypow_0 by lra. ring.
      + rewrite pypow_pos; [reflexivity|]. apply Rmult_lt_reg_r with a; [exact Pp|]. replace ((1 + e / a) * a) with (a + e) by (field; lra). lra.
    - destruct (Rleb_spec (- b) e); [|lra]. destruct (Rle_dec e (- a)); [reflexivity|lra]. }
  assert (P2 : polygon_at_tenths (- b) (parabola_curve q a n) f).
  { eapply polygon_ext; [|exact P]. intros j J. apply Hv; [now apply node_settled|now apply node_in]. }
  assert (S0 : parabola_curve q a n 0 = 0).
  { unfold parabola_curve. destruct (Rle_dec 0 (- a)); [lra|]. replace (1 + 0 / a) with 1 by (field; lra). unfold Rpower. rewrite ln_1, Rmult_0_r, exp_0. ring. }
  destruct (C60_tenths_steep (- b) (parabola_curve q a n) (n * q / a) f ltac:(lra)) as (CT & WI); [|exact P2|exact S0|apply parabola_steep; lra|].
  { apply Rmult_le_pos; [apply Rmult_le_pos; lra|apply Rlt_le, Rinv_0_lt_compat; lra]. }
  exists f, t. split; [exact R0|]. split; [exact CT|]. split.
  - intros e E S1. destruct (Rle_dec e 0) as [H|H]; [rewrite compression_is by lra; apply Hv; [exact S1|lra]|].
    unfold in_compression. destruct (Rle_dec e (- b)); [lra|]. destruct (Rle_dec e 0); [lra|]. rewrite S0. cbn [pr_law_n lw_stress].
    apply pr_tension; [exact W|lra|]. cbn [pr_init pr_eu]. fold b. apply settled_far; [exact U|lra|exact S1].
  - intros hi. specialize (WI hi). replace (n * q * (b / a) / 20) with (n * q / a * - - b / 20) by (field; lra). exact WI.
Qed.
Print Assumptions C60_parabola.

(** Popovics' law: within n max(1/(n-1), 1/4) fc (ecu/ec) / 20 of its curve; n is the
    ratio of the elastic modulus to its difference from the secant modulus at the peak. *)
Theorem C60_popovics : forall fc ec ecu Ec l, popovics_init fc ec ecu Ec = Ok l -> fc <> 0 -> ecu <> 0 ->
  let E := match Ec with None => 5000 * sqrt (Rabs fc) | Some m => m end in
  Rabs fc / Rabs ec < E -> tol (Rabs ecu) < Rabs ecu / 10 ->
  Rabs fc <= Rabs (popovics_stress l (- Rabs ecu)) * 1000000 ->
  let n := E / (E - Rabs fc / Rabs ec) in
  exists f t, represented (popovics_law l) (settled (- Rabs ecu, 0)) f t /\
    polygon_fits (popovics_law l) (Rabs ecu) (popovics_curve (Rabs fc) (Rabs ec) n) (n * Rmax (/ (n - 1)) (/ 4) * Rabs fc * (Rabs ecu / Rabs ec) / 20) f.
Proof.
  intros fc ec ecu Ec l H H1 H2 E H3 T B n.
  destruct (C57_popovics fc ec ecu Ec l H H1 H2 H3 T B) as (f & t & P & R0 & _).
  destruct (popovics_init_wf _ _ _ _ _ H H1 H2 H3) as (W & QF & QE & QU).
  assert (NC : ec <> 0). { intros ->. unfold popovics_init in H. destruct (Rleb_spec (match Ec with None => 5000 * sqrt (Rabs fc) | Some e => e end) 0); [discriminate|]. destruct (Reqb_spec 0 0); [discriminate|lra]. }
  assert (Pp : 0 < Rabs ec) by (now apply Rabs_pos_lt). assert (F0 : 0 < Rabs fc) by (now apply Rabs_pos_lt). assert (U : 0 < Rabs ecu) by (now apply Rabs_pos_lt).
  assert (QN : po_n l = n).
  { unfold popovics_init in H. destruct (Rleb_spec (match Ec with None => 5000 * sqrt (Rabs fc) | Some e => e end) 0); [discriminate|]. destruct (Reqb_spec ec 0); [discriminate|].
    destruct (Reqb_spec (match Ec with None => 5000 * sqrt (Rabs fc) | Some e => e end - - Rabs fc / - Rabs ec) 0); [discriminate|]. injection H as <-. cbn [po_n]. unfold n. fold E.
    f_equal. f_equal. field. lra. }
  assert (N1 : 1 < n) by (rewrite <- QN; apply W).
  set (b := Rabs ecu) in *. set (a := Rabs ec) in *. set (q := Rabs fc) in *.
  assert (Hv : forall e, settled (- b, 100) e -> - b <= e <= 0 -> lw_stress (popovics_law l) e = popovics_curve q a n e).
  { intros e S0 X. cbn [popovics_law lw_stress]. rewrite popovics_stress_raw. unfold popovics_ult. rewrite QU, settled_prep by exact S0.
    unfold popovics_cut, popovics_raw. rewrite QU, QF, QE, QN. destruct (Rltb_spec e (- b)); [lra|]. destruct (Rltb_spec 0 e); [lra|]. cbn [orb].
    rewrite popovics_is_hill by lra. replace (e / - a) with (- e / a) by (field; lra). unfold Rdiv. ring. }
  assert (P2 : polygon_at_tenths (- b) (popovics_curve q a n) f).
  { eapply polygon_ext; [|exact P]. intros j J. apply Hv; [now apply node_settled|now apply node_in]. }
  assert (S0 : popovics_curve q a n 0 = 0) by (unfold popovics_curve; cbv zeta; destruct (Rle_dec 0 0); [reflexivity|lra]).
  assert (L0 : 0 <= n * Rmax (/ (n - 1)) (/ 4) * q / a).
  { apply Rmult_le_pos; [|apply Rlt_le, Rinv_0_lt_compat, Pp]. apply Rmult_le_pos; [|lra]. apply Rmult_le_pos; [lra|]. eapply Rle_trans; [|apply Rmax_r]. lra. }
  destruct (C60_tenths_steep (- b) (popovics_curve q a n) _ f ltac:(lra) L0 P2 S0 (popovics_steep q a n ltac:(lra) Pp N1 (- b))) as (CT & WI).
  exists f, t. split; [exact R0|]. split; [exact CT|]. split.
  - intros e X S1. destruct (Rle_dec e 0) as [HE|HE]; [rewrite compression_is by lra; apply Hv; [exact S1|lra]|].
    unfold in_compression. destruct (Rle_dec e (- b)); [lra|]. destruct (Rle_dec e 0); [lra|]. rewrite S0. cbn [popovics_law lw_stress].
    apply popovics_tension; [exact W|lra|]. rewrite QU. apply settled_far; [exact U|lra|exact S1].
  - intros hi. specialize (WI hi). set (M := Rmax (/ (n - 1)) (/ 4)) in *. replace (n * M * q * (b / a) / 20) with (n * M * q / a * - - b / 20) by (field; lra). exact WI.
Qed.
Print Assumptions C60_popovics.
