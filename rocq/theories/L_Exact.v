(** Forces of the exact integrator about a turned axis (C54). *)
From Coq Require Import FunctionalExtensionality Lra.
From Coquelicot Require Import Coquelicot.
From Verif Require Import Base M_Marin S_Marin L_Marin M_Laws S_Laws L_Laws M_Laws2 S_Laws2 L_LawsC M_Fiber S_Fiber L_Fiber M_MarinInt S_MarinInt L_MarinInt L_MarinInt2 L_MarinInt3
  M_Section S_Section L_Section L_Section2 L_Section3 S_Strength L_Domain2 L_Strength S_Exact.

(** * A half turn of the axes *)
Definition half (p : R * R) : R * R := (- fst p, - snd p).
Lemma inner_affine (f k1 k2 b : R) : RInt (fun y => f * (k1 + k2 * y)) 0 b = f * (k1 * b + k2 * b ^ 2 / 2).
Proof.
  apply is_RInt_unique. replace (f * (k1 * b + k2 * b ^ 2 / 2)) with (minus (f * (k1 * b + k2 * b ^ 2 / 2)) (f * (k1 * 0 + k2 * 0 ^ 2 / 2))) by (cbn; unfold minus, plus, opp; cbn; field).
  apply (is_RInt_derive (V := R_CompleteNormedModule) (fun y => f * (k1 * y + k2 * y ^ 2 / 2))).
  - intros x _. auto_derive; [exact I|]. field.
  - intros x _. apply (ex_derive_continuous (K := R_AbsRing) (V := R_NormedModule)). auto_derive. exact I.
Qed.
Lemma inner_half (f k1 k2 b : R) : RInt (fun y => f * (k1 + k2 * (- y))) 0 (- b) = - RInt (fun y => f * (k1 + k2 * y)) 0 b.
Proof.
  replace (fun y => f * (k1 + k2 * - y)) with (fun y => f * (k1 + (- k2) * y)) by (extensionality x; ring). rewrite !inner_affine. match goal with |- ?a = ?b => change (@eq R a b) end. field.
Qed.
Lemma edges_map (f : R * R -> R * R) l : edges (map f l) = map (fun e => (f (fst e), f (snd e))) (edges l).
Proof. induction l as [|a [|b l] IH]; [reflexivity|reflexivity|]. cbn [map edges] in *. f_equal. exact IH. Qed.
Lemma region_half (F : R -> R) (k1 k2 k3 : R) ring :
  region_integral (fun y z => F (- z) * (k1 + k2 * (- y) + k3 * (- z))) (map half ring) = region_integral (fun y z => F z * (k1 + k2 * y + k3 * z)) ring.
Proof.
  unfold region_integral. rewrite edges_map, map_map. apply lsum_map_ext. intros (p & q) _. cbn [fst snd]. apply RInt_ext. intros t _.
  assert (S1 : snd (seg (half p) (half q) t) = - snd (seg p q t)) by (unfold seg, half; cbn [fst snd]; ring).
  assert (S2 : fst (seg (half p) (half q) t) = - fst (seg p q t)) by (unfold seg, half; cbn [fst snd]; ring).
  rewrite S1, S2, Ropp_involutive. set (z := snd (seg p q t)). set (b := fst (seg p q t)).
  transitivity (RInt (fun y => F z * ((k1 + k3 * z) + k2 * (- y))) 0 (- b) * (snd (half q) - snd (half p))).
  - f_equal. apply RInt_ext. intros y _. match goal with |- ?a = ?b => change (@eq R a b) end. ring.
  - rewrite inner_half. unfold half. cbn [snd]. rewrite <- Ropp_mult_distr_l.
    replace (RInt (fun y => F z * (k1 + k3 * z + k2 * y)) 0 b) with (RInt (fun y => F z * (k1 + k2 * y + k3 * z)) 0 b); [match goal with |- ?a = ?b => change (@eq R a b) end; ring|].
    apply RInt_ext. intros y _. match goal with |- ?a = ?b => change (@eq R a b) end. ring.
Qed.
Lemma shoelace_half r : shoelace (map half r) = shoelace r.
Proof. unfold shoelace. rewrite edges_map, map_map. apply lsum_map_ext. intros (p & q) _. unfold half, cross. cbn [fst snd]. field. Qed.
Definition halved (s : surface) : surface := {| sf_ext := map half (sf_ext s); sf_ints := map (map half) (sf_ints s); sf_law := sf_law s |}.
Lemma surface_half (F : R -> R) (k1 k2 k3 : R) s :
  surface_integral (fun y z => F (- z) * (k1 + k2 * (- y) + k3 * (- z))) (halved s) = surface_integral (fun y z => F z * (k1 + k2 * y + k3 * z)) s.
Proof.
  unfold surface_integral, halved. cbn [sf_ext sf_ints]. rewrite map_map. f_equal; [|apply lsum_map_ext; intros q _].
  - unfold ccw_ring. rewrite shoelace_half. destruct (Rlt_dec _ _); rewrite <- ?map_rev; apply region_half.
  - unfold cw_ring. rewrite shoelace_half. destruct (Rlt_dec _ _); rewrite <- ?map_rev; apply region_half.
Qed.

(** * The integrator about a turned axis *)
Lemma marin_angle c : (- atan2 0 c = 0 /\ 0 <= c) \/ (- atan2 0 c = - PI /\ c < 0).
Proof.
  unfold atan2. destruct (Rltb_spec 0 c) as [P|P].
  - left. unfold Rdiv. rewrite Rmult_0_l, atan_0. lra.
  - destruct (Rltb_spec c 0) as [Q|Q].
    + right. destruct (Rleb_spec 0 0); [|exfalso; lra]. unfold Rdiv. rewrite Rmult_0_l, atan_0. lra.
    + left. destruct (Rltb_spec 0 0); [exfalso; lra|]. lra.
Qed.
Lemma turned_0 s : turned 0 s = s.
Proof.
  assert (E : turn 0 = fun p => p) by (extensionality p; destruct p; unfold turn; cbn [fst snd]; rewrite cos_0, sin_0; f_equal; ring).
  unfold turned. rewrite E. destruct s as [x y k]. cbn [sf_ext sf_ints sf_law]. f_equal; [apply map_id|]. rewrite <- (map_id y) at 2. apply map_ext. intros; apply map_id.
Qed.
Lemma turned_half s : turned (- PI) s = halved s.
Proof.
  assert (E : turn (- PI) = half) by (extensionality p; destruct p; unfold turn, half; cbn [fst snd]; rewrite cos_neg, sin_neg, cos_PI, sin_PI; f_equal; ring).
  unfold turned. rewrite E. reflexivity.
Qed.
Lemma cs2 t : sin t * sin t + cos t * cos t = 1.
Proof. pose proof (sin2_cos2 t) as H. unfold Rsqr in H. lra. Qed.
(** Surface part: the same integrals in the integrator's axes and in the axes of the specification. *)
Lemma surfaces_same fs theta e c ss wt wt2 k1 k2 k3 :
  (forall y z, wt y z = k1 + k2 * y + k3 * z) -> (forall y z, wt2 (back_y (- theta) y z) (back_z (- theta) y z) = wt y z) ->
  surfaces_turned fs wt (- atan2 0 c) e c 0 (map (rotate_surface (- theta)) ss) = surfaces_turned fs wt2 (- theta) e (cos theta * c) (sin theta * c) ss.
Proof.
  intros W W2. unfold surfaces_turned. rewrite map_map. apply lsum_map_ext. intros s _. rewrite rotate_surface_turned. cbn [turned sf_law]. fold (turned (- theta) s).
  transitivity (surface_integral (fun y z => (fun z => fs (sf_law s) (e + c * z)) z * (k1 + k2 * y + k3 * z)) (turned (- theta) s)).
  - destruct (marin_angle c) as [(-> & _)|(-> & _)].
    + rewrite turned_0. apply (f_equal (fun f => surface_integral f (turned (- theta) s))). extensionality y. extensionality z. cbv beta. rewrite W. unfold plane_strain, back_y, back_z. rewrite cos_0, sin_0.
      f_equal; [apply f_equal|]; ring.
    + rewrite turned_half, <- surface_half. apply (f_equal (fun f => surface_integral f (halved (turned (- theta) s)))). extensionality y. extensionality z. cbv beta. rewrite W. unfold plane_strain, back_y, back_z. rewrite cos_neg, sin_neg, cos_PI, sin_PI.
      f_equal; [apply f_equal|]; ring.
  - apply (f_equal (fun f => surface_integral f (turned (- theta) s))). extensionality y. extensionality z. cbv beta. rewrite W2, W. f_equal. apply f_equal. unfold plane_strain, back_y, back_z. rewrite cos_neg, sin_neg.
    transitivity (e + c * (z * (sin theta * sin theta + cos theta * cos theta))); [rewrite cs2; ring|ring].
Qed.
Lemma bars_same laws theta e c bs wt wt2 :
  (forall y z, wt2 y z = wt (back_y theta y z) (back_z theta y z)) ->
  barpart laws IStress e c 0 (map (rotate_bar (- theta)) bs) wt = barpart laws IStress e (cos theta * c) (sin theta * c) bs wt2.
Proof.
  intros W. unfold barpart. rewrite map_map. apply lsum_map_ext. intros b _. cbn [rotate_bar br_law br_y br_z br_area]. unfold rot. cbn [fst snd]. rewrite cos_neg, sin_neg. rewrite W.
  f_equal; [f_equal; apply f_equal|]; unfold plane_strain, back_y, back_z; [ring|apply f_equal2; ring].
Qed.
Lemma count_rotate a k bs : count_law k (map (rotate_bar a) bs) = count_law k bs.
Proof. unfold count_law. induction bs as [|b bs IH]; [reflexivity|]. cbn [map filter rotate_bar br_law]. destruct (br_law b =? k)%nat; cbn [length]; rewrite IH; reflexivity. Qed.
Lemma exact_core laws fs g theta e c : (forall k, batched (laws k)) -> drawn g ->
  (forall s, In s (cg_surf g) -> field_of (lw_marin (laws (sf_law s)) (e, Rabs c)) (fs (sf_law s)) e (Rabs c)) ->
  exists F, marin_forces laws (rotate_geo (- theta) g) (e, c, 0) None = Ok (F, map unscalar (bar_groups (map (rotate_bar (- theta)) (cg_bars g)))) /\
    back theta F = exact_forces fs laws g theta e c.
Proof.
  intros B (DR & DB) FI. set (gr := rotate_geo (- theta) g). set (r := sqrt (0 ^ 2 + c ^ 2)).
  assert (ER : r = Rabs c) by (unfold r; replace (0 ^ 2 + c ^ 2) with (Rsqr c) by (unfold Rsqr; ring); apply sqrt_Rsqr_abs).
  assert (G : forall s, In s (cg_surf gr) -> field_of (lw_marin (laws (sf_law s)) (e, r)) (fs (sf_law s)) e r /\ closed (sf_ext s) /\ (forall q, In q (sf_ints s) -> closed q)).
  { intros s HS. apply in_map_iff in HS. destruct HS as (s0 & <- & HS). cbn [rotate_surface sf_law sf_ext sf_ints]. rewrite ER. split; [apply FI; exact HS|]. destruct (DR s0 HS) as (C1 & C2).
    split; [apply closed_map; exact C1|]. intros q HQ. apply in_map_iff in HQ. destruct HQ as (q0 & <- & HQ). apply closed_map, C2, HQ. }
  assert (Q : forall b b', In b (cg_bars gr) -> In b' (cg_bars gr) -> count_law (br_law b) (cg_bars gr) = count_law (br_law b') (cg_bars gr)).
  { intros b b' H1 H2. apply in_map_iff in H1, H2. destruct H1 as (x & <- & H1), H2 as (y & <- & H2). cbn [gr rotate_geo cg_bars rotate_bar br_law]. rewrite !count_rotate. apply DB; assumption. }
  pose proof (forces_core laws fs gr e c 0 B G Q) as FC. cbv zeta in FC. eexists. split; [rewrite FC; f_equal; f_equal; pose proof (forces_data _ _ _ _ _ FC) as FD; exact FD|].
  clear FC. set (a := - atan2 0 c).
  assert (LIN : forall u v, surfaces_turned fs (fun y z => u * z + v * - y) a e c 0 (cg_surf gr) = u * surfaces_turned fs (arm 1) a e c 0 (cg_surf gr) + v * surfaces_turned fs (arm 2) a e c 0 (cg_surf gr)).
  { intros u v.
    pose proof (surfaces_turned_quad laws IStress fs gr e c 0 ltac:(discriminate) G (fun y z => u * z + v * - y) 0 (- v * cos a + u * - sin a) (u * cos a - v * sin a) 0 0 0) as E0.
    pose proof (surfaces_turned_quad laws IStress fs gr e c 0 ltac:(discriminate) G (arm 1) 0 (- sin a) (cos a) 0 0 0) as E1.
    pose proof (surfaces_turned_quad laws IStress fs gr e c 0 ltac:(discriminate) G (arm 2) 0 (- cos a) (- sin a) 0 0 0) as E2.
    fold a in E0, E1, E2. rewrite E0, E1, E2; [cbv zeta; ring|intros y z; unfold arm, back_y, back_z, quadratic; ring..]. }
  assert (LB : forall u v, barpart laws IStress e c 0 (cg_bars gr) (fun y z => u * z + v * - y) = u * barpart laws IStress e c 0 (cg_bars gr) (arm 1) + v * barpart laws IStress e c 0 (cg_bars gr) (arm 2)).
  { intros u v. unfold barpart. rewrite <- !lsum_map_scal, <- lsum_map_plus. apply lsum_map_ext. intros b _. unfold arm. ring. }
  assert (BP : forall wt, barpart laws IStress e (cos theta * c) (sin theta * c) (cg_bars g) wt = lsum (map (fun b => lw_stress (laws (br_law b)) (plane_strain e (cos theta * c) (sin theta * c) (br_y b) (br_z b)) * br_area b * wt (br_y b) (br_z b)) (cg_bars g))) by reflexivity.
  unfold back, exact_forces. cbv zeta. f_equal; [f_equal|].
  - f_equal.
    + unfold gr. cbn [rotate_geo cg_surf]. apply (surfaces_same fs theta e c (cg_surf g) (arm 0) (fun _ _ => 1) 1 0 0); intros; unfold arm; ring.
    + unfold gr. cbn [rotate_geo cg_bars]. rewrite (bars_same laws theta e c (cg_bars g) (arm 0) (fun _ _ => 1)) by reflexivity. rewrite BP. unfold axial, bar_fibres. rewrite map_map. apply lsum_map_ext. intros b _. cbn [mfibre_at m_sigma m_a m_y m_z]. ring.
  - transitivity (surfaces_turned fs (fun y z => cos theta * z + - sin theta * - y) a e c 0 (cg_surf gr) + barpart laws IStress e c 0 (cg_bars gr) (fun y z => cos theta * z + - sin theta * - y)).
    { rewrite LIN, LB. fold a. ring. }
    f_equal.
    + unfold gr. cbn [rotate_geo cg_surf]. apply (surfaces_same fs theta e c (cg_surf g) _ (fun _ z => z) 0 (sin theta) (cos theta)); intros; [ring|]. unfold back_z. rewrite cos_neg, sin_neg. ring.
    + unfold gr. cbn [rotate_geo cg_bars]. rewrite (bars_same laws theta e c (cg_bars g) _ (fun _ z => z)).
      * rewrite BP. unfold moment_y, bar_fibres. rewrite map_map. apply lsum_map_ext. intros b _. cbn [mfibre_at m_sigma m_a m_y m_z]. ring.
      * intros y z. unfold back_y, back_z. transitivity (z * (sin theta * sin theta + cos theta * cos theta)); [rewrite cs2; ring|ring].
  - transitivity (surfaces_turned fs (fun y z => sin theta * z + cos theta * - y) a e c 0 (cg_surf gr) + barpart laws IStress e c 0 (cg_bars gr) (fun y z => sin theta * z + cos theta * - y)).
    { rewrite LIN, LB. fold a. ring. }
    f_equal.
    + unfold gr. cbn [rotate_geo cg_surf]. apply (surfaces_same fs theta e c (cg_surf g) _ (fun y _ => - y) 0 (- cos theta) (sin theta)); intros; [ring|]. unfold back_y. rewrite cos_neg, sin_neg. ring.
    + unfold gr. cbn [rotate_geo cg_bars]. rewrite (bars_same laws theta e c (cg_bars g) _ (fun y _ => - y)).
      * rewrite BP. unfold moment_z, bar_fibres. rewrite map_map, <- lsum_map_opp. apply lsum_map_ext. intros b _. cbn [mfibre_at m_sigma m_a m_y m_z]. ring.
      * intros y z. unfold back_y, back_z. transitivity (- y * (sin theta * sin theta + cos theta * cos theta)); [rewrite cs2; ring|ring].
Qed.
