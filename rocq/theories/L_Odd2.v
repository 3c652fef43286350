(** Lemmas for C65: both integrators answer opposite profiles with opposite forces and the same stiffness. *)
From Coquelicot Require Import Coquelicot.
From Coq Require Import FunctionalExtensionality Lra Lia Classical_Prop.
From Verif Require Import Base M_Marin S_Marin L_Marin M_Laws S_Laws M_Laws2 S_Laws2 M_Fiber S_Fiber L_Fiber P_Fiber M_MarinInt S_MarinInt L_MarinInt L_MarinInt2 L_MarinInt3 L_MarinInt4 P_MarinInt M_Section S_Section L_Section M_Gross S_Gross S_Exact L_Exact P_Exact M_Domain S_History L_History S_Frame P_Frame S_Turn L_Turn L_Turn2 L_Turn3 S_Move L_Odd S_Odd.

Lemma rint_none (f : R -> R) a b : ~ ex_RInt f a b -> RInt f a b = 0.
Proof.
  intros N. transitivity (real (Lub_Rbar (fun _ => True))).
  - unfold RInt, iota, lim. cbn. unfold R_complete_lim. f_equal. apply Lub_Rbar_eqset. intros x. split; [trivial|]. intros _ v V. exfalso. apply N. exists v. exact V.
  - rewrite (is_lub_Rbar_unique (fun _ => True) p_infty); [reflexivity|]. split; [intros x _; exact Logic.I|].
    intros [r| |] B; cbn; [|trivial|].
    + specialize (B (r + 1) Logic.I). cbn in B. lra.
    + exact (B 0 Logic.I).
Qed.
Lemma rint_opp (f : R -> R) a b : RInt (fun x => - f x) a b = - RInt f a b.
Proof.
  destruct (classic (ex_RInt f a b)) as [E|N].
  - exact (RInt_opp (V := R_CompleteNormedModule) f a b E).
  - rewrite (rint_none f a b N). rewrite rint_none; [toR; ring|]. intros E. apply N.
    apply (ex_RInt_opp (V := R_NormedModule)) in E. revert E. apply ex_RInt_ext. intros x _. exact (Ropp_involutive (f x)).
Qed.
Lemma region_opp phi ring : region_integral (fun y z => - phi y z) ring = - region_integral phi ring.
Proof.
  unfold region_integral. rewrite <- lsum_map_opp. apply lsum_map_ext. intros e _. rewrite <- rint_opp. apply RInt_ext. intros t _. rewrite rint_opp. toR. ring.
Qed.
Lemma surface_opp phi s : surface_integral (fun y z => - phi y z) s = - surface_integral phi s.
Proof.
  unfold surface_integral. rewrite region_opp. rewrite (lsum_map_ext _ (fun r => - region_integral phi (cw_ring r))) by (intros; apply region_opp). rewrite lsum_map_opp. ring.
Qed.
Lemma strain_opp e ky kz y z : plane_strain (- e) (- ky) (- kz) y z = - plane_strain e ky kz y z.
Proof. unfold plane_strain. ring. Qed.
Lemma over_opp fs wt e ky kz ss : (forall s, In s ss -> odd_curve (fs (sf_law s))) -> over_surfaces fs wt (- e) (- ky) (- kz) ss = - over_surfaces fs wt e ky kz ss.
Proof.
  intros O. unfold over_surfaces. rewrite <- lsum_map_opp. apply lsum_map_ext. intros s I. rewrite <- surface_opp. f_equal.
  apply functional_extensionality. intros y. apply functional_extensionality. intros z. rewrite strain_opp, (O s I). ring.
Qed.
Lemma over_even ts wt e ky kz ss : (forall s, In s ss -> even_curve (ts (sf_law s))) -> over_surfaces ts wt (- e) (- ky) (- kz) ss = over_surfaces ts wt e ky kz ss.
Proof.
  intros O. unfold over_surfaces. apply lsum_map_ext. intros s I. f_equal.
  apply functional_extensionality. intros y. apply functional_extensionality. intros z. rewrite strain_opp, (O s I). ring.
Qed.
Section Bars.
Variables (laws : nat -> law) (g : compound).
Hypothesis T : forall k, two_sided (laws k).
Lemma bars_sigma f e ky kz : In f (bar_fibres laws g) -> m_sigma f (plane_strain (- e) (- ky) (- kz) (m_y f) (m_z f)) = - m_sigma f (plane_strain e ky kz (m_y f) (m_z f)).
Proof. intros I. unfold bar_fibres in I. apply in_map_iff in I as (b & <- & _). cbn [mfibre_at m_sigma m_y m_z]. rewrite strain_opp. apply T. Qed.
Lemma bars_opp e ky kz : axial (bar_fibres laws g) (- e) (- ky) (- kz) = - axial (bar_fibres laws g) e ky kz /\
  moment_y (bar_fibres laws g) (- e) (- ky) (- kz) = - moment_y (bar_fibres laws g) e ky kz /\ moment_z (bar_fibres laws g) (- e) (- ky) (- kz) = - moment_z (bar_fibres laws g) e ky kz.
Proof.
  unfold axial, moment_y, moment_z. split; [|split; [|f_equal]]; rewrite <- lsum_map_opp; apply lsum_map_ext; intros f I; rewrite (bars_sigma f e ky kz I); ring.
Qed.
Lemma bars_stiff e ky kz i j : stiff (bar_fibres laws g) (- e) (- ky) (- kz) i j = stiff (bar_fibres laws g) e ky kz i j.
Proof.
  unfold stiff. apply lsum_map_ext. intros f I. do 3 f_equal. unfold fibre_tangent. unfold bar_fibres in I. apply in_map_iff in I as (b & <- & _). cbn [mfibre_at m_tangent m_y m_z]. rewrite strain_opp. apply T.
Qed.
End Bars.

(** * Exact integrator *)
Section MarinOdd.
Variables (laws : nat -> law) (fs ts : nat -> R -> R) (g : compound).
Hypothesis B : forall k, batched (laws k).
Hypothesis T : forall k, two_sided (laws k).
Hypothesis DR : drawn g.
Hypothesis U : forall s, In s (cg_surf g) -> two_sided_uniform (laws (sf_law s)).
Lemma marin_opp_bent : follows laws fs g -> (forall s, In s (cg_surf g) -> odd_curve (fs (sf_law s))) -> forall e ky kz, 0 < sqrt (kz ^ 2 + ky ^ 2) ->
  rmap fst (marin_forces laws g (- e, - ky, - kz) None) = rmap opposite (rmap fst (marin_forces laws g (e, ky, kz) None)).
Proof.
  intros FO O e ky kz P. destruct DR as (CL & EQ).
  assert (SQ : sqrt ((- kz) ^ 2 + (- ky) ^ 2) = sqrt (kz ^ 2 + ky ^ 2)) by (f_equal; ring).
  destruct (C21_forces_area laws fs g e ky kz B) as (d & E1); [|exact EQ|].
  { intros s I. destruct (CL s I) as (C1 & C2). split; [exact C1|]. split; [exact C2|]. exact (FO s e _ I P). }
  destruct (C21_forces_area laws fs g (- e) (- ky) (- kz) B) as (d' & E2); [|exact EQ|].
  { rewrite SQ. intros s I. destruct (CL s I) as (C1 & C2). split; [exact C1|]. split; [exact C2|]. exact (FO s (- e) _ I P). }
  rewrite E1, E2. cbn [rmap fst]. f_equal. unfold area_forces, opposite. cbn [fst snd]. destruct (bars_opp laws g T e ky kz) as (A1 & A2 & A3).
  rewrite !over_opp, A1, A2, A3 by exact O. apply pair3; ring.
Qed.
Lemma marin_even_bent : follows_tangent laws ts g -> (forall s, In s (cg_surf g) -> even_curve (ts (sf_law s))) -> forall e ky kz, 0 < sqrt (kz ^ 2 + ky ^ 2) ->
  exists K K' d d', marin_stiffness laws g (e, ky, kz) None = Ok (K, d) /\ marin_stiffness laws g (- e, - ky, - kz) None = Ok (K', d') /\ eq3 K' K.
Proof.
  intros FO O e ky kz P. destruct DR as (CL & EQ).
  assert (SQ : sqrt ((- kz) ^ 2 + (- ky) ^ 2) = sqrt (kz ^ 2 + ky ^ 2)) by (f_equal; ring).
  destruct (C21_stiffness_area laws ts g e ky kz B) as (K & d & E1 & H1); [|exact EQ|].
  { intros s I. destruct (CL s I) as (C1 & C2). split; [exact C1|]. split; [exact C2|]. exact (FO s e _ I P). }
  destruct (C21_stiffness_area laws ts g (- e) (- ky) (- kz) B) as (K' & d' & E2 & H2); [|exact EQ|].
  { rewrite SQ. intros s I. destruct (CL s I) as (C1 & C2). split; [exact C1|]. split; [exact C2|]. exact (FO s (- e) _ I P). }
  exists K, K', d, d'. split; [exact E1|]. split; [exact E2|]. intros i j Hi Hj. rewrite H1, H2 by assumption. rewrite over_even, bars_stiff by assumption. reflexivity.
Qed.
(** Uniform strain. *)
Definition neg_entry (x : s_entry) : s_entry := (map Ropp (fst x), snd x).
Lemma entries_opp ss : (forall s, In s ss -> two_sided_uniform (laws (sf_law s))) -> forall e,
  surfaces_entries laws IStress (- e) 0 ss = rmap (fun x => (- fst x, map neg_entry (snd x))) (surfaces_entries laws IStress e 0 ss).
Proof.
  induction ss as [|s ss IH]; intros U' e; [reflexivity|]. cbn [surfaces_entries]. unfold surface_entries. cbn [bind].
  destruct (proj1 (U' s (or_introl eq_refl) e)) as (e' & c & E1 & E2). rewrite E1, E2. cbn [bind fst snd].
  rewrite (IH (fun s' I => U' s' (or_intror I))). destruct (surfaces_entries laws IStress e' 0 ss) as [[e2 es]|x]; cbn [bind rmap fst snd]; [|reflexivity].
  rewrite map_app, map_map. reflexivity.
Qed.
Lemma entries_even ss : (forall s, In s ss -> two_sided_uniform (laws (sf_law s))) -> forall e,
  surfaces_entries laws IModulus (- e) 0 ss = rmap (fun x => (- fst x, snd x)) (surfaces_entries laws IModulus e 0 ss).
Proof.
  induction ss as [|s ss IH]; intros U' e; [reflexivity|]. cbn [surfaces_entries]. unfold surface_entries. cbn [bind].
  destruct (proj2 (U' s (or_introl eq_refl) e)) as (e' & c & E1 & E2). rewrite E1, E2. cbn [bind fst snd].
  rewrite (IH (fun s' I => U' s' (or_intror I))). destruct (surfaces_entries laws IModulus e' 0 ss) as [[e2 es]|x]; cbn [bind rmap fst snd]; reflexivity.
Qed.
Definition neg_bar (x : R * R * R) : R * R * R := (fst x, - snd x).
Lemma bentry_opp what (h : R -> R) e x : (what = IStress -> forall u, h (- u) = - h u) -> (what = IModulus -> forall u, h (- u) = h u) -> what <> IOther ->
  bentry h (- e) 0 x = match what with IStress => neg_bar (bentry h e 0 x) | _ => bentry h e 0 x end.
Proof.
  intros H1 H2 H3. unfold bentry, neg_bar, z_strain. cbn [fst snd]. replace (- e + 0 * fb_z x) with (- (e + 0 * fb_z x)) by ring.
  destruct what; [rewrite H1 by reflexivity|rewrite H2 by reflexivity|congruence]; f_equal; ring.
Qed.
Lemma bars_entries_opp e gs : bars_entries laws IStress (- e) 0 gs = rmap (map neg_bar) (bars_entries laws IStress e 0 gs).
Proof.
  rewrite !bars_entries_ok by (try exact B; discriminate). cbn [rmap]. f_equal. induction gs as [|x gs IH]; [reflexivity|]. cbn [flat_map]. rewrite map_app, IH, map_map. f_equal.
  apply map_ext. intros f. exact (bentry_opp IStress _ e f (fun _ u => proj1 (T _ u)) ltac:(discriminate) ltac:(discriminate)).
Qed.
Lemma bars_entries_even e gs : bars_entries laws IModulus (- e) 0 gs = bars_entries laws IModulus e 0 gs.
Proof.
  rewrite !bars_entries_ok by (try exact B; discriminate). f_equal. induction gs as [|x gs IH]; [reflexivity|]. cbn [flat_map]. rewrite IH. f_equal.
  apply map_ext. intros f. exact (bentry_opp IModulus _ e f ltac:(discriminate) (fun _ u => proj2 (T _ u)) ltac:(discriminate)).
Qed.
Lemma coeff_opp x m off : coeff_sum (neg_entry x) m off = - coeff_sum x m off.
Proof.
  unfold coeff_sum, neg_entry. cbn [fst snd]. rewrite map_length, <- lsum_map_opp. apply lsum_map_ext. intros k _.
  replace (nth k (map Ropp (fst x)) 0) with (- nth k (fst x) 0); [ring|]. rewrite <- (map_nth Ropp (fst x) 0 k), Ropp_0. reflexivity.
Qed.
Lemma stress_opp a es bs : m_integrate_stress a (map neg_entry es) (map neg_bar bs) = opposite (m_integrate_stress a es bs).
Proof.
  unfold m_integrate_stress. rewrite !map_map.
  assert (C : forall m off, lsum (map (fun x => coeff_sum (neg_entry x) m off) es) = - lsum (map (fun x => coeff_sum x m off) es)).
  { intros m off. rewrite <- lsum_map_opp. apply lsum_map_ext. intros x _. apply coeff_opp. }
  rewrite !C. unfold neg_bar. cbn [fst snd].
  assert (L : forall k : R * R * R -> R, lsum (map (fun x => - snd x * k x) bs) = - lsum (map (fun x => snd x * k x) bs)).
  { intros k. rewrite <- lsum_map_opp. apply lsum_map_ext. intros; ring. }
  rewrite (L (fun x => snd (fst x))), (L (fun x => fst (fst x))). rewrite lsum_map_opp. unfold opposite. cbn [fst snd]. change (map (fun b : R * R * R => snd b) bs) with (map snd bs). apply pair3; ring.
Qed.
Lemma turned_uniform a s : In s (map (rotate_surface a) (cg_surf g)) -> two_sided_uniform (laws (sf_law s)).
Proof. intros I. apply in_map_iff in I as (s0 & <- & I). exact (U s0 I). Qed.
Lemma marin_opp_flat e : rmap fst (marin_forces laws g (- e, 0, 0) None) = rmap opposite (rmap fst (marin_forces laws g (e, 0, 0) None)).
Proof.
  unfold marin_forces, m_prepare, p_e0, p_ky, p_kz. cbn [fst snd]. replace (0 ^ 2 + 0 ^ 2) with 0 by ring. rewrite sqrt_0.
  rewrite entries_opp by (intros s; apply turned_uniform).
  destruct (surfaces_entries laws IStress e 0 _) as [[e' es]|x]; cbn [bind rmap fst snd]; [|reflexivity].
  rewrite bars_entries_opp. destruct (bars_entries laws IStress e' 0 _) as [bs|x]; cbn [bind rmap fst snd]; [|reflexivity].
  destruct (homogeneous _); cbn [bind rmap fst snd]; [|reflexivity]. f_equal. apply stress_opp.
Qed.
Lemma marin_even_flat e : rmap fst (marin_stiffness laws g (- e, 0, 0) None) = rmap fst (marin_stiffness laws g (e, 0, 0) None).
Proof.
  unfold marin_stiffness, m_prepare, p_e0, p_ky, p_kz. cbn [fst snd]. replace (0 ^ 2 + 0 ^ 2) with 0 by ring. rewrite sqrt_0.
  rewrite entries_even by (intros s; apply turned_uniform).
  destruct (surfaces_entries laws IModulus e 0 _) as [[e' es]|x]; cbn [bind rmap fst snd]; [|reflexivity].
  rewrite bars_entries_even. reflexivity.
Qed.
Lemma bent_or_flat ky kz : 0 < sqrt (kz ^ 2 + ky ^ 2) \/ (ky = 0 /\ kz = 0).
Proof.
  destruct (Req_dec ky 0) as [-> |N]; [destruct (Req_dec kz 0) as [-> |N]|]; [right; auto| |]; left; apply sqrt_lt_R0.
  - pose proof (pow2_gt_0 kz N). lra.
  - pose proof (pow2_gt_0 ky N). pose proof (pow2_ge_0 kz). lra.
Qed.
Lemma marin_opposite : follows laws fs g -> (forall s, In s (cg_surf g) -> odd_curve (fs (sf_law s))) -> forall p,
  rmap fst (marin_forces laws g (opposite p) None) = rmap opposite (rmap fst (marin_forces laws g p None)).
Proof.
  intros FO O [[e ky] kz]. unfold opposite at 1. cbn [fst snd]. destruct (bent_or_flat ky kz) as [P|(-> & ->)]; [exact (marin_opp_bent FO O e ky kz P)|].
  rewrite Ropp_0. apply marin_opp_flat.
Qed.
Lemma marin_same : follows_tangent laws ts g -> (forall s, In s (cg_surf g) -> even_curve (ts (sf_law s))) -> forall p,
  match rmap fst (marin_stiffness laws g p None), rmap fst (marin_stiffness laws g (opposite p) None) with Ok K, Ok K' => eq3 K' K | Err e, Err e' => e = e' | _, _ => False end.
Proof.
  intros FO O [[e ky] kz]. unfold opposite. cbn [fst snd]. destruct (bent_or_flat ky kz) as [P|(-> & ->)].
  - destruct (marin_even_bent FO O e ky kz P) as (K & K' & d & d' & -> & -> & H). exact H.
  - rewrite Ropp_0, marin_even_flat. destruct (rmap fst (marin_stiffness laws g (e, 0, 0) None)); [intros i j _ _; reflexivity|reflexivity].
Qed.
End MarinOdd.

(** * Fibre integrator *)
Section FiberOdd.
Variables (laws : nat -> law) (mesher : surface -> R -> list mtri).
Hypothesis B : forall k, batched (laws k).
Hypothesis T : forall k, two_sided (laws k).
Lemma fibre_strain_opp p f : fibre_strain (opposite p) f = - fibre_strain p f.
Proof. unfold fibre_strain, opposite, p_e0, p_ky, p_kz. cbn [fst snd]. ring. Qed.
Lemma fiber_opposite g p d m : rmap fst (fiber_forces laws mesher g (opposite p) (Some d) m) = rmap opposite (rmap fst (fiber_forces laws mesher g p (Some d) m)).
Proof.
  unfold fiber_forces, prepare_input. cbn [bind]. rewrite !prepare_groups_ok by (try exact B; discriminate). cbn [bind]. destruct d as [|x d]; [reflexivity|]. cbn [bind rmap fst snd]. f_equal.
  set (D := x :: d).
  assert (E : flat_map (fun g0 => map (entry (pick IStress (laws (gr_law g0))) (opposite p)) (gr_fibres g0)) D = map neg_bar (flat_map (fun g0 => map (entry (pick IStress (laws (gr_law g0))) p) (gr_fibres g0)) D)).
  { induction D as [|y D IH]; [reflexivity|]. cbn [flat_map]. rewrite map_app, IH, map_map. f_equal. apply map_ext. intros f. unfold entry, neg_bar. cbn [fst snd]. rewrite fibre_strain_opp. cbn [pick].
    rewrite (proj1 (T (gr_law y) (fibre_strain p f))). f_equal. ring. }
  rewrite E. set (v := flat_map _ D). unfold f_integrate_stress. rewrite !map_map. unfold neg_bar. cbn [fst snd]. unfold opposite. cbn [fst snd]. rewrite <- !lsum_map_opp.
  apply pair3; apply lsum_map_ext; intros; ring.
Qed.
Lemma fiber_same g p d m : match fiber_stiffness laws mesher g p (Some d) m, fiber_stiffness laws mesher g (opposite p) (Some d) m with
  | Ok (K, _), Ok (K', _) => eq3 K' K | Err e, Err e' => e = e' | _, _ => False end.
Proof.
  unfold fiber_stiffness, prepare_input. cbn [bind]. rewrite !prepare_groups_ok by (try exact B; discriminate). cbn [bind]. destruct d as [|x d]; [reflexivity|]. cbn [bind fst snd].
  set (D := x :: d).
  assert (E : flat_map (fun g0 => map (entry (pick IModulus (laws (gr_law g0))) (opposite p)) (gr_fibres g0)) D = flat_map (fun g0 => map (entry (pick IModulus (laws (gr_law g0))) p) (gr_fibres g0)) D).
  { induction D as [|y D IH]; [reflexivity|]. cbn [flat_map]. rewrite IH. f_equal. apply map_ext. intros f. unfold entry. rewrite fibre_strain_opp. cbn [pick].
    rewrite (proj2 (T (gr_law y) (fibre_strain p f))). reflexivity. }
  rewrite E. intros i j _ _. reflexivity.
Qed.
End FiberOdd.
