From Coquelicot Require Import Coquelicot.
From Verif Require Import Base M_Laws S_Laws L_Laws L_LawsB L_LawsC M_Laws2 S_Laws2 M_Fiber S_Fiber M_MarinInt S_MarinInt L_MarinInt L_MarinInt2 L_MarinInt4 S_Frame M_Fields S_Fields S_Discr.

(** * Only the laws of the bars are evaluated on arrays *)
Definition barred (g : compound) (k : nat) : bool := existsb (fun b => (br_law b =? k)%nat) (cg_bars g).
Definition tamed (laws : nat -> law) (g : compound) (k : nat) : law :=
  if barred g k then laws k else
  {| lw_stress := fun _ => 0; lw_tangent := fun _ => 0; lw_stress_arr := fun a => (map (fun _ => 0) a, a); lw_tangent_arr := fun a => (map (fun _ => 0) a, a);
     lw_marin := lw_marin (laws k); lw_marin_tangent := lw_marin_tangent (laws k); lw_ult := lw_ult (laws k) |}.
Lemma tamed_marin laws g k : lw_marin (tamed laws g k) = lw_marin (laws k) /\ lw_marin_tangent (tamed laws g k) = lw_marin_tangent (laws k).
Proof. unfold tamed. destruct (barred g k); split; reflexivity. Qed.
Lemma tamed_bar laws g b : In b (cg_bars g) -> tamed laws g (br_law b) = laws (br_law b).
Proof.
  intros I. unfold tamed, barred. replace (existsb _ _) with true; [reflexivity|]. symmetry. apply existsb_exists. exists b. split; [exact I|apply Nat.eqb_refl].
Qed.
Lemma tamed_batched laws g : (forall b, In b (cg_bars g) -> batched (laws (br_law b))) -> forall k, batched (tamed laws g k).
Proof.
  intros H k. unfold tamed, barred. destruct (existsb _ _) eqn:E; [|split; intros eps; reflexivity].
  apply existsb_exists in E as (b & I & Q). apply Nat.eqb_eq in Q as <-. exact (H b I).
Qed.
Lemma surfaces_tamed laws laws' what e1 ss : (forall s, In s ss -> lw_marin (laws (sf_law s)) = lw_marin (laws' (sf_law s)) /\
  lw_marin_tangent (laws (sf_law s)) = lw_marin_tangent (laws' (sf_law s))) ->
  forall e0, surfaces_entries laws what e0 e1 ss = surfaces_entries laws' what e0 e1 ss.
Proof.
  induction ss as [|s ss IH]; intros H e0; [reflexivity|]. cbn [surfaces_entries].
  assert (E : surface_entries (laws (sf_law s)) what e0 e1 s = surface_entries (laws' (sf_law s)) what e0 e1 s).
  { unfold surface_entries. destruct (H s (or_introl eq_refl)) as [-> ->]. reflexivity. }
  rewrite E. clear E. destruct (surface_entries (laws' (sf_law s)) what e0 e1 s) as [x|x]; cbn [bind]; [|reflexivity]. rewrite IH; [reflexivity|]. intros; apply H; right; assumption.
Qed.
Lemma bars_tamed laws laws' what e0 e1 gs : (forall x, In x gs -> laws (gr_law x) = laws' (gr_law x)) ->
  bars_entries laws what e0 e1 gs = bars_entries laws' what e0 e1 gs.
Proof.
  induction gs as [|x gs IH]; intros H; [reflexivity|]. cbn [bars_entries].
  assert (E : bar_values laws what e0 e1 x = bar_values laws' what e0 e1 x).
  { unfold bar_values. rewrite (H x (or_introl eq_refl)). reflexivity. }
  rewrite E. rewrite IH by (intros; apply H; right; assumption). reflexivity.
Qed.
Lemma prepare_tamed laws g s what : m_prepare (tamed laws g) g s what None = m_prepare laws g s what None.
Proof.
  unfold m_prepare. cbv zeta.
  rewrite (surfaces_tamed (tamed laws g) laws) by (intros x _; apply tamed_marin).
  destruct (surfaces_entries laws _ _ _ _) as [x|x]; cbn [bind]; [|reflexivity].
  rewrite (bars_tamed (tamed laws g) laws); [reflexivity|].
  intros y I. unfold bar_groups in I. apply in_map_iff in I as ([k fs] & <- & I). cbn [gr_law fst].
  destruct (group_bars_in _ _ _ I) as (b & Hb & <-). apply in_map_iff in Hb as (b0 & <- & Hb). cbn [rotate_bar br_law]. apply tamed_bar. exact Hb.
Qed.
Lemma forces_tamed laws g s : marin_forces (tamed laws g) g s None = marin_forces laws g s None.
Proof. unfold marin_forces. rewrite prepare_tamed. reflexivity. Qed.
Lemma stiffness_tamed laws g s : marin_stiffness (tamed laws g) g s None = marin_stiffness laws g s None.
Proof. unfold marin_stiffness. rewrite prepare_tamed. reflexivity. Qed.
Lemma fibres_tamed laws g : bar_fibres (tamed laws g) g = bar_fibres laws g.
Proof. unfold bar_fibres. apply map_ext_in. intros b I. rewrite tamed_bar by exact I. reflexivity. Qed.
Lemma area_tamed fs laws g p : area_forces fs (tamed laws g) g p = area_forces fs laws g p.
Proof. unfold area_forces. rewrite fibres_tamed. reflexivity. Qed.

(** * Own stress from the Marin form under uniform strain *)
Lemma own_from l ok f t : represented l ok f t -> (forall e, describes ok (lw_stress l) e 0 (snd (lw_marin l (e, 0)))) -> own_curve l ok f.
Proof.
  intros H D e S0. destruct (H e 0 ltac:(lra) (fun _ => S0)) as [[_ F] _]. specialize (D e). unfold describes in *.
  destruct (fst (snd (lw_marin l (e, 0)))) as [rs|].
  - destruct F as [F _]. exfalso. lra.
  - destruct F as (c & Ec & F). destruct D as (c' & Ec' & D). rewrite Ec in Ec'. injection Ec' as <-.
    specialize (F 0 I). specialize (D 0). replace (e + 0 * 0) with e in F, D by ring. rewrite <- F. symmetry. apply D. exact S0.
Qed.
(** * Slopes of the analytic curves *)
Lemma ep_slope_of E fy Eh u : 0 < E -> 0 < fy -> fy / E <= u -> slope_of (ep_curve E fy Eh u) (ep_slope E fy Eh u).
Proof.
  intros HE Hf Hu. assert (Hsy : 0 < fy / E) by now apply Rdiv_lt_0_compat. set (sy := fy / E) in *.
  exists [- u; - sy; sy; u]. intros e He.
  assert (N1 : e <> - u) by (intros X; apply He; rewrite X; cbn; auto).
  assert (N2 : e <> - sy) by (intros X; apply He; rewrite X; cbn; auto).
  assert (N3 : e <> sy) by (intros X; apply He; rewrite X; cbn; auto).
  assert (N4 : e <> u) by (intros X; apply He; rewrite X; cbn; auto).
  assert (C : e < - u \/ - u < e < - sy \/ - sy < e < sy \/ sy < e < u \/ u < e) by lra.
  unfold ep_slope; fold sy. destruct C as [C|[C|[C|[C|C]]]].
  - replace (if Rlt_dec u (Rabs e) then _ else _) with 0 by (rdec; try reflexivity; rewrite Rabs_left in * by lra; lra).
    apply (is_derive_local _ (fun _ => 0) e 0 (e - 1) (- u)); [lra| |apply @is_derive_const].
    intros t Ht. unfold ep_curve; fold sy. rdec; try reflexivity; rewrite Rabs_left in * by lra; lra.
  - replace (if Rlt_dec u (Rabs e) then _ else _) with Eh by (rewrite Rabs_left by lra; rdec; lra).
    apply (is_derive_local _ (fun t => Eh * t + (- fy + Eh * sy)) e Eh (- u) (- sy)); [lra| |apply affine_deriv].
    intros t Ht. unfold ep_curve; fold sy. rewrite Rabs_left by lra. rdec; try lra.
  - replace (if Rlt_dec u (Rabs e) then _ else _) with E by (destruct (rabs_cases e) as [[? ->]|[? ->]]; rdec; lra).
    apply (is_derive_local _ (fun t => E * t + 0) e E (- sy) sy); [lra| |apply affine_deriv].
    intros t Ht. unfold ep_curve; fold sy. destruct (rabs_cases t) as [[? ->]|[? ->]]; rdec; lra.
  - replace (if Rlt_dec u (Rabs e) then _ else _) with Eh by (rewrite Rabs_right by lra; rdec; lra).
    apply (is_derive_local _ (fun t => Eh * t + (fy - Eh * sy)) e Eh sy u); [lra| |apply affine_deriv].
    intros t Ht. unfold ep_curve; fold sy. rewrite Rabs_right by lra. rdec; lra.
  - replace (if Rlt_dec u (Rabs e) then _ else _) with 0 by (rdec; try reflexivity; rewrite Rabs_right in * by lra; lra).
    apply (is_derive_local _ (fun _ => 0) e 0 u (e + 1)); [lra| |apply @is_derive_const].
    intros t Ht. unfold ep_curve; fold sy. rdec; try reflexivity; rewrite Rabs_right in * by lra; lra.
Qed.
Lemma pr_slope_of fc p u : 0 < p <= u -> slope_of (pr_curve fc p u) (pr_slope fc p u).
Proof.
  intros P. exists [- u; - p; 0]. intros e He.
  assert (N1 : e <> - u) by (intros X; apply He; rewrite X; cbn; auto).
  assert (N2 : e <> - p) by (intros X; apply He; rewrite X; cbn; auto).
  assert (N3 : e <> 0) by (intros X; apply He; rewrite X; cbn; auto).
  assert (C : e < - u \/ - u < e < - p \/ - p < e < 0 \/ 0 < e) by lra.
  unfold pr_slope. destruct C as [C|[C|[C|C]]].
  - rdec; try lra. apply (is_derive_local _ (fun _ => 0) e 0 (e - 1) (- u)); [lra| |apply @is_derive_const].
    intros t Ht. unfold pr_curve. rdec; lra.
  - rdec; try lra. apply (is_derive_local _ (fun _ => - fc) e 0 (- u) (- p)); [lra| |apply @is_derive_const].
    intros t Ht. unfold pr_curve. rdec; lra.
  - rdec; try lra. apply (is_derive_local _ (fun t => - fc * (1 - (1 + t / p) ^ 2)) e _ (- p) 0); [lra| |].
    + intros t Ht. unfold pr_curve. rdec; lra.
    + auto_derive; [exact I|]. field. lra.
  - rdec; try lra. apply (is_derive_local _ (fun _ => 0) e 0 0 (e + 1)); [lra| |apply @is_derive_const].
    intros t Ht. unfold pr_curve. rdec; lra.
Qed.

(** * Chords of a smooth curve *)
Lemma chord_below (h dh : R -> R) a b x : a < x < b -> (forall t, a <= t <= b -> is_derive h t (dh t)) ->
  (forall s t, a <= s -> s <= t -> t <= b -> dh s <= dh t) -> (h x - h a) * (b - x) <= (h b - h x) * (x - a).
Proof.
  intros H D M.
  assert (M1 : exists c, a <= c <= x /\ h x - h a = dh c * (x - a)).
  { destruct (MVT_gen h a x dh) as (c & Hc & E).
    - intros t Ht. rewrite Rmin_left, Rmax_right in Ht by lra. apply D. lra.
    - intros t Ht. rewrite Rmin_left, Rmax_right in Ht by lra. apply continuity_pt_filterlim. apply (ex_derive_continuous h). eexists. apply D. lra.
    - rewrite Rmin_left, Rmax_right in Hc by lra. exists c. split; [exact Hc|exact E]. }
  assert (M2 : exists c, x <= c <= b /\ h b - h x = dh c * (b - x)).
  { destruct (MVT_gen h x b dh) as (c & Hc & E).
    - intros t Ht. rewrite Rmin_left, Rmax_right in Ht by lra. apply D. lra.
    - intros t Ht. rewrite Rmin_left, Rmax_right in Ht by lra. apply continuity_pt_filterlim. apply (ex_derive_continuous h). eexists. apply D. lra.
    - rewrite Rmin_left, Rmax_right in Hc by lra. exists c. split; [exact Hc|exact E]. }
  destruct M1 as (c & Hc & ->). destruct M2 as (d & Hd & ->).
  assert (L := M c d ltac:(lra) ltac:(lra) ltac:(lra)).
  assert (0 <= (dh d - dh c) * ((b - x) * (x - a))) by (apply Rmult_le_pos; [lra|apply Rmult_le_pos; lra]). nra.
Qed.
Lemma chord_error (s ds : R -> R) M a b w : a < b -> 0 <= w <= 1 -> (forall t, a <= t <= b -> is_derive s t (ds t)) ->
  (forall x y, a <= x -> x <= y -> y <= b -> Rabs (ds y - ds x) <= M * (y - x)) ->
  let x := a + w * (b - a) in Rabs ((1 - w) * s a + w * s b - s x) <= M * (b - a) ^ 2 / 8.
Proof.
  intros AB W D L x.
  assert (M0 : 0 <= M).
  { assert (Z := L a b ltac:(lra) ltac:(lra) ltac:(lra)). assert (Z2 := Rabs_pos (ds b - ds a)). apply Rmult_le_reg_r with (b - a); lra. }
  assert (W4 : w * (1 - w) <= / 4) by (assert (Z := pow2_ge_0 (w - / 2)); cbn [pow] in Z; lra).
  destruct (Req_dec w 0) as [-> | W0].
  { unfold x. replace (_ - s _) with 0; [rewrite Rabs_R0; apply Rmult_le_pos; [apply Rmult_le_pos; [exact M0|apply pow2_ge_0]|lra]|].
    replace (a + 0 * (b - a)) with a by ring. ring. }
  destruct (Req_dec w 1) as [-> | W1].
  { unfold x. replace (_ - s _) with 0; [rewrite Rabs_R0; apply Rmult_le_pos; [apply Rmult_le_pos; [exact M0|apply pow2_ge_0]|lra]|].
    replace (a + 1 * (b - a)) with b by ring. ring. }
  assert (Hx : a < x < b) by (unfold x; split; nra).
  assert (U := chord_below (fun t => s t + M / 2 * t ^ 2) (fun t => ds t + M * t) a b x Hx).
  assert (V := chord_below (fun t => - s t + M / 2 * t ^ 2) (fun t => - ds t + M * t) a b x Hx).
  cbv beta in U, V.
  assert (U' := U ltac:(intros t Ht; apply (is_derive_plus (V := R_NormedModule) s); [apply D; exact Ht|auto_derive; [exact I|field]])
     ltac:(intros p q P1 P2 P3; specialize (L p q P1 P2 P3); apply Rabs_le_between in L; nra)).
  assert (V' := V ltac:(intros t Ht; apply (is_derive_plus (V := R_NormedModule) (fun t => - s t)); [apply (is_derive_opp (V := R_NormedModule) s); apply D; exact Ht|auto_derive; [exact I|field]])
     ltac:(intros p q P1 P2 P3; specialize (L p q P1 P2 P3); apply Rabs_le_between in L; nra)).
  clear U V. revert U' V'.
  replace (b - x) with ((1 - w) * (b - a)) by (unfold x; ring). replace (x - a) with (w * (b - a)) by (unfold x; ring).
  replace (x ^ 2) with ((a + w * (b - a)) ^ 2) by reflexivity. intros U' V'.
  assert (B : 0 <= b - a) by lra.
  assert (U2 : s x - ((1 - w) * s a + w * s b) <= M / 2 * (w * (1 - w) * (b - a) ^ 2)).
  { apply Rmult_le_reg_r with (b - a); [lra|]. nra. }
  assert (V2 : - s x + ((1 - w) * s a + w * s b) <= M / 2 * (w * (1 - w) * (b - a) ^ 2)).
  { apply Rmult_le_reg_r with (b - a); [lra|]. nra. }
  assert (Q : M / 2 * (w * (1 - w) * (b - a) ^ 2) <= M * (b - a) ^ 2 / 8).
  { assert (0 <= M * (b - a) ^ 2) by (apply Rmult_le_pos; [exact M0|apply pow2_ge_0]). nra. }
  apply Rabs_le. split; lra.
Qed.
