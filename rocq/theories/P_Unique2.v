(** C64, continued: uniqueness. *)
From Coquelicot Require Import Coquelicot.
From Coq Require Import FunctionalExtensionality Lra Lia.
From Verif Require Import Base M_Marin S_Marin L_Marin M_Laws S_Laws L_Laws M_Laws2 S_Laws2 L_LawsC M_Fiber S_Fiber L_Fiber P_Fiber M_MarinInt L_MarinInt3 L_MarinInt4 P_MarinInt M_Section S_Section L_Section4 M_Gross S_Gross L_Gross L_Cracked3 L_Newton P_Newton S_MarinInt S_Exact L_Exact P_Exact
  S_Frame P_Frame S_Mesh L_Mesh L_Mesh2 L_Mesh4 S_Curved S_Unique L_Refine L_Unique P_Unique L_Unique2.

(** Two different strain profiles are apart: the weighted integral of the square of their difference is positive. *)
Theorem C64_apart : forall w g p q, drawn g -> (forall s, In s (cg_surf g) -> exists ts, triangulates ts s) ->
  (forall k, in_use g k -> 0 <= w k) -> (forall b, In b (cg_bars g) -> 0 <= br_area b) -> anchored w g -> p <> q ->
  0 < weighted w (apart p q) g.
Proof.
  intros w g p q DR TR WP AP AN NE. destruct (gap p q) as [[a b] c] eqn:G.
  assert (D : forall y z, apart p q y z = plane_strain a b c y z ^ 2).
  { intros y z. unfold gap in G. injection G as <- <- <-. unfold apart, plane_strain. ring. }
  assert (NZ : ~ (a = 0 /\ b = 0 /\ c = 0)).
  { intros (-> & -> & ->). apply NE. unfold gap in G. injection G as X Y Z. destruct p as [[p0 p1] p2], q as [[q0 q1] q2]. cbn [fst snd] in *. f_equal; [f_equal|]; lra. }
  rewrite (weighted_ext w _ _ g D). unfold weighted.
  set (fs := fun s => w (sf_law s) * surface_integral (fun y z => plane_strain a b c y z ^ 2) s).
  set (fb := fun b0 => w (br_law b0) * (br_area b0 * plane_strain a b c (br_y b0) (br_z b0) ^ 2)).
  assert (PS : forall s, In s (cg_surf g) -> 0 <= fs s).
  { intros s I. destruct (TR s I) as (ts & T). apply Rmult_le_pos; [apply WP; left; exists s; tauto|]. exact (square_pos ts s a b c T (proj1 DR s I)). }
  assert (PB : forall x, In x (cg_bars g) -> 0 <= fb x).
  { intros x I. apply Rmult_le_pos; [apply WP; right; exists x; tauto|]. apply Rmult_le_pos; [apply AP, I|apply pow2_ge_0]. }
  pose proof (lsum_ge0 fs _ PS) as S0. pose proof (lsum_ge0 fb _ PB) as B0.
  destruct (Rlt_dec 0 (lsum (map fs (cg_surf g)) + lsum (map fb (cg_bars g)))) as [P|N]; [exact P|]. exfalso. apply NZ.
  destruct AN as [(s & I & W & A)|(b1 & b2 & b3 & I1 & I2 & I3 & NC & PP)].
  - destruct (TR s I) as (ts & T). apply (square_definite ts s a b c T (proj1 DR s I) A).
    pose proof (lsum_ge fs _ s PS I) as L. pose proof (PS s I) as L0. assert (Z : fs s = 0) by lra. unfold fs in Z. apply Rmult_integral in Z as [Z|Z]; [exfalso; lra|exact Z].
  - assert (ZB : forall x, In x (cg_bars g) -> x = b1 \/ x = b2 \/ x = b3 -> plane_strain a b c (br_y x) (br_z x) = 0).
    { intros x I HX. destruct (PP x HX) as (A1 & A2). pose proof (lsum_ge fb _ x PB I) as L. pose proof (PB x I) as L0. assert (Z : fb x = 0) by lra. unfold fb in Z.
      apply Rmult_integral in Z as [Z|Z]; [exfalso; lra|]. apply Rmult_integral in Z as [Z|Z]; [exfalso; lra|].
      destruct (Req_dec (plane_strain a b c (br_y x) (br_z x)) 0) as [|NN]; [assumption|exfalso; exact (pow_nonzero _ 2 NN Z)]. }
    pose proof (ZB b1 I1 ltac:(tauto)) as H1. pose proof (ZB b2 I2 ltac:(tauto)) as H2. pose proof (ZB b3 I3 ltac:(tauto)) as H3.
    set (d := (br_y b2 - br_y b1) * (br_z b3 - br_z b1) - (br_y b3 - br_y b1) * (br_z b2 - br_z b1)).
    assert (DN : d <> 0) by (unfold d; lra).
    assert (KY : b = 0).
    { apply (Rmult_eq_reg_l d); [|exact DN]. unfold d.
      transitivity ((br_y b2 - br_y b1) * (plane_strain a b c (br_y b3) (br_z b3) - plane_strain a b c (br_y b1) (br_z b1)) - (br_y b3 - br_y b1) * (plane_strain a b c (br_y b2) (br_z b2) - plane_strain a b c (br_y b1) (br_z b1))); [unfold plane_strain; ring|rewrite H1, H2, H3; ring]. }
    assert (KZ : c = 0).
    { apply (Rmult_eq_reg_l d); [|exact DN]. unfold d.
      transitivity ((br_z b2 - br_z b1) * (plane_strain a b c (br_y b3) (br_z b3) - plane_strain a b c (br_y b1) (br_z b1)) - (br_z b3 - br_z b1) * (plane_strain a b c (br_y b2) (br_z b2) - plane_strain a b c (br_y b1) (br_z b1))); [unfold plane_strain; ring|rewrite H1, H2, H3; ring]. }
    rewrite KY, KZ in *. unfold plane_strain in H1. lra.
Qed.
Print Assumptions C64_apart.

(** Exact integrator: one strain profile at most has given forces. *)
Theorem C64_marin_unique : forall laws fs mesh g p q (m L lo hi : nat -> R) Y Z F d d',
  (forall k, batched (laws k)) -> drawn g -> (forall b, In b (cg_bars g) -> 0 <= br_area b) ->
  (forall s, In s (cg_surf g) -> rises (m (sf_law s)) (L (sf_law s)) (lo (sf_law s)) (hi (sf_law s)) (fs (sf_law s))) ->
  (forall b, In b (cg_bars g) -> rises (m (br_law b)) (L (br_law b)) (lo (br_law b)) (hi (br_law b)) (lw_stress (laws (br_law b)))) ->
  (forall r, r = p \/ r = q -> kept_in mesh g r lo hi Y Z /\ bars_kept g r lo hi /\
     forall s, In s (cg_surf g) -> field_of (lw_marin (laws (sf_law s)) (fst (fst r), sqrt (snd r ^ 2 + snd (fst r) ^ 2))) (fs (sf_law s)) (fst (fst r)) (sqrt (snd r ^ 2 + snd (fst r) ^ 2))) ->
  (forall k, in_use g k -> 0 <= m k) -> anchored m g ->
  marin_forces laws g p None = Ok (F, d) -> marin_forces laws g q None = Ok (F, d') -> p = q.
Proof.
  intros laws fs mesh g p q m L lo hi Y Z F d d' B DR A RS RB H MP AN E1 E2.
  destruct (C64_marin_work laws fs mesh g p q m L lo hi Y Z B DR A RS RB H) as (F1 & F2 & d1 & d2 & X1 & X2 & W & _).
  rewrite E1 in X1. rewrite E2 in X2. injection X1 as <- _. injection X2 as <- _.
  assert (Z0 : work p q F F = 0) by (unfold work; ring). rewrite Z0 in W.
  destruct (H p ltac:(auto)) as (KP & _).
  assert (DEC : p = q \/ p <> q).
  { destruct p as [[a b] c], q as [[a' b'] c']. destruct (Req_dec a a') as [-> |N]; [|right; congruence]. destruct (Req_dec b b') as [-> |N]; [|right; congruence]. destruct (Req_dec c c') as [-> |N]; [now left|right; congruence]. }
  destruct DEC as [E|N]; [exact E|exfalso].
  pose proof (C64_apart m g p q DR (fun s I => ex_intro _ (mesh s) (proj1 (KP s I))) MP A AN N) as P. lra.
Qed.
Print Assumptions C64_marin_unique.

(** Fibre integrator: the same for curves that always rise. *)
Lemma fibre_origin laws mesh g f : In f (section_fibres laws mesh g) ->
  (exists s a b c, In s (cg_surf g) /\ In (a, b, c) (mesh s) /\ f = tri_fibre (laws (sf_law s)) (a, b, c)) \/ (exists b, In b (cg_bars g) /\ f = mfibre_at (laws (br_law b)) (br_y b) (br_z b) (br_area b)).
Proof.
  unfold section_fibres. intros I. apply in_app_or in I as [I|I].
  - apply in_flat_map in I as (s & I & J). apply in_map_iff in J as ([[a b] c] & <- & J). left. exists s, a, b, c. tauto.
  - apply in_map_iff in I as (b & <- & I). right. exists b. tauto.
Qed.
Lemma climbs_work lo hi f x y a : climbs lo hi f -> 0 <= a -> lo <= x <= hi -> lo <= y <= hi ->
  0 <= (f y - f x) * a * (y - x) /\ (0 < a -> (f y - f x) * a * (y - x) = 0 -> y = x).
Proof.
  intros H A X Y. destruct (Rtotal_order x y) as [O|[O|O]].
  - pose proof (H x y ltac:(lra) O ltac:(lra)). split; [apply Rmult_le_pos; [apply Rmult_le_pos; lra|lra]|].
    intros AP Z. apply Rmult_integral in Z as [Z|Z]; [apply Rmult_integral in Z as [Z|Z]|]; lra.
  - subst. split; [right; ring|reflexivity].
  - pose proof (H y x ltac:(lra) O ltac:(lra)). split.
    + replace ((f y - f x) * a * (y - x)) with ((f x - f y) * a * (x - y)) by ring. apply Rmult_le_pos; [apply Rmult_le_pos; lra|lra].
    + intros AP Z. apply Rmult_integral in Z as [Z|Z]; [apply Rmult_integral in Z as [Z|Z]|]; lra.
Qed.
Theorem C64_fiber_unique : forall laws mesher g p q ms (lo hi : nat -> R) F d d',
  let mesh := fun s => mesher s (surface_area s * ms) in
  (forall k, batched (laws k)) -> 0 < ms <= 1 -> (forall b, In b (cg_bars g) -> 0 <= br_area b) ->
  (forall k, in_use g k -> climbs (lo k) (hi k) (lw_stress (laws k))) ->
  centroids_kept mesh g p lo hi -> centroids_kept mesh g q lo hi -> bars_kept g p lo hi -> bars_kept g q lo hi ->
  (exists f1 f2 f3, In f1 (section_fibres laws mesh g) /\ In f2 (section_fibres laws mesh g) /\ In f3 (section_fibres laws mesh g) /\
     (m_y f2 - m_y f1) * (m_z f3 - m_z f1) <> (m_y f3 - m_y f1) * (m_z f2 - m_z f1) /\ 0 < m_a f1 /\ 0 < m_a f2 /\ 0 < m_a f3) ->
  fiber_forces laws mesher g p None (Some ms) = Ok (F, d) -> fiber_forces laws mesher g q None (Some ms) = Ok (F, d') -> p = q.
Proof.
  intros laws mesher g p q ms lo hi F d d' mesh B MS A CI CP CQ BP BQ (f1 & f2 & f3 & I1 & I2 & I3 & NC & A1 & A2 & A3) E1 E2.
  assert (NE : cg_surf g <> [] \/ cg_bars g <> []).
  { unfold section_fibres in I1. destruct (cg_surf g) as [|s l]; [|left; discriminate]. destruct (cg_bars g); [destruct I1|right; discriminate]. }
  assert (W : lsum (map (works p q) (section_fibres laws mesh g)) = 0).
  { destruct p as [[e ky] kz], q as [[e' ky'] kz'].
    destruct (C19_forces laws mesher g e ky kz ms B MS NE) as (d1 & X1 & _). destruct (C19_forces laws mesher g e' ky' kz' ms B MS NE) as (d2 & X2 & _).
    fold mesh in X1, X2. rewrite E1 in X1. rewrite E2 in X2. injection X1 as X1 _. injection X2 as X2 _.
    rewrite <- fibre_work. unfold resultants. cbn [fst snd]. rewrite <- X1, <- X2. unfold work. ring. }
  assert (K : forall f, In f (section_fibres laws mesh g) -> 0 <= works p q f /\ (0 < m_a f -> works p q f = 0 ->
    plane_strain (fst (fst q)) (snd (fst q)) (snd q) (m_y f) (m_z f) = plane_strain (fst (fst p)) (snd (fst p)) (snd p) (m_y f) (m_z f))).
  { intros f I. apply fibre_origin in I as [(s & a & b & c & I & J & ->)|(b & I & ->)]; unfold works; cbn [tri_fibre mfibre_at m_sigma m_a m_y m_z].
    - apply (climbs_work (lo (sf_law s)) (hi (sf_law s))); [apply CI; left; exists s; tauto|apply Rabs_pos|exact (CP s a b c I J)|exact (CQ s a b c I J)].
    - apply (climbs_work (lo (br_law b)) (hi (br_law b))); [apply CI; right; exists b; tauto|exact (A b I)|exact (BP b I)|exact (BQ b I)]. }
  assert (Q : forall f, In f (section_fibres laws mesh g) -> 0 < m_a f -> plane_strain (fst (fst q)) (snd (fst q)) (snd q) (m_y f) (m_z f) = plane_strain (fst (fst p)) (snd (fst p)) (snd p) (m_y f) (m_z f)).
  { intros f I P. destruct (K f I) as (K0 & K1). apply K1; [exact P|]. pose proof (lsum_ge (works p q) _ f (fun x J => proj1 (K x J)) I). lra. }
  pose proof (Q f1 I1 A1) as H1. pose proof (Q f2 I2 A2) as H2. pose proof (Q f3 I3 A3) as H3.
  destruct p as [[e ky] kz], q as [[e' ky'] kz']. cbn [fst snd] in *. unfold plane_strain in *.
  set (D := (m_y f2 - m_y f1) * (m_z f3 - m_z f1) - (m_y f3 - m_y f1) * (m_z f2 - m_z f1)).
  assert (DN : D <> 0) by (unfold D; lra).
  assert (KY : ky' - ky = 0).
  { apply (Rmult_eq_reg_l D); [|exact DN]. rewrite Rmult_0_r. unfold D.
    transitivity ((m_y f2 - m_y f1) * (((e' + ky' * m_z f3 - kz' * m_y f3) - (e + ky * m_z f3 - kz * m_y f3)) - ((e' + ky' * m_z f1 - kz' * m_y f1) - (e + ky * m_z f1 - kz * m_y f1)))
      - (m_y f3 - m_y f1) * (((e' + ky' * m_z f2 - kz' * m_y f2) - (e + ky * m_z f2 - kz * m_y f2)) - ((e' + ky' * m_z f1 - kz' * m_y f1) - (e + ky * m_z f1 - kz * m_y f1)))); [ring|]. rewrite H1, H2, H3. ring. }
  assert (KZ : kz' - kz = 0).
  { apply (Rmult_eq_reg_l D); [|exact DN]. rewrite Rmult_0_r. unfold D.
    transitivity ((m_z f2 - m_z f1) * (((e' + ky' * m_z f3 - kz' * m_y f3) - (e + ky * m_z f3 - kz * m_y f3)) - ((e' + ky' * m_z f1 - kz' * m_y f1) - (e + ky * m_z f1 - kz * m_y f1)))
      - (m_z f3 - m_z f1) * (((e' + ky' * m_z f2 - kz' * m_y f2) - (e + ky * m_z f2 - kz * m_y f2)) - ((e' + ky' * m_z f1 - kz' * m_y f1) - (e + ky * m_z f1 - kz * m_y f1)))); [ring|]. rewrite H1, H2, H3. ring. }
  assert (ky' = ky) by lra. assert (kz' = kz) by lra. subst ky' kz'. assert (e' = e) by lra. now subst.
Qed.
Print Assumptions C64_fiber_unique.

(** Fixed curvature, exact integrator: the axial force follows the axial strain, with bounded slope. *)
Theorem C64_axial : forall laws fs mesh g e e' ky kz (m L lo hi : nat -> R) Y Z,
  (forall k, batched (laws k)) -> drawn g -> (forall b, In b (cg_bars g) -> 0 <= br_area b) ->
  (forall s, In s (cg_surf g) -> rises (m (sf_law s)) (L (sf_law s)) (lo (sf_law s)) (hi (sf_law s)) (fs (sf_law s))) ->
  (forall b, In b (cg_bars g) -> rises (m (br_law b)) (L (br_law b)) (lo (br_law b)) (hi (br_law b)) (lw_stress (laws (br_law b)))) ->
  (forall x, x = e \/ x = e' -> kept_in mesh g (x, ky, kz) lo hi Y Z /\ bars_kept g (x, ky, kz) lo hi /\
     forall s, In s (cg_surf g) -> field_of (lw_marin (laws (sf_law s)) (x, sqrt (kz ^ 2 + ky ^ 2))) (fs (sf_law s)) x (sqrt (kz ^ 2 + ky ^ 2))) ->
  e < e' ->
  exists F G d d', marin_forces laws g (e, ky, kz) None = Ok (F, d) /\ marin_forces laws g (e', ky, kz) None = Ok (G, d') /\
    weighted m (fun _ _ => 1) g * (e' - e) <= fst (fst G) - fst (fst F) <= weighted L (fun _ _ => 1) g * (e' - e).
Proof.
  intros laws fs mesh g e e' ky kz m L lo hi Y Z B DR A RS RB H O.
  destruct (C64_marin_work laws fs mesh g (e, ky, kz) (e', ky, kz) m L lo hi Y Z B DR A RS RB) as (F & G & d & d' & X1 & X2 & W).
  { intros r [-> | ->]; cbn [fst snd]; apply H; auto. }
  exists F, G, d, d'. split; [exact X1|]. split; [exact X2|].
  assert (S : forall w, weighted w (apart (e, ky, kz) (e', ky, kz)) g = weighted w (fun _ _ => 1) g * (e' - e) ^ 2).
  { intros w. rewrite (weighted_ext w (apart (e, ky, kz) (e', ky, kz)) (fun y z => (e' - e) ^ 2 + 0 * y + 0 * z + 0 * y ^ 2 + 0 * y * z + 0 * z ^ 2) g) by (intros; unfold apart, plane_strain; cbn [fst snd]; ring).
    rewrite (weighted_poly w _ ((e' - e) ^ 2) 0 0 0 0 0 g (proj1 DR)) by reflexivity.
    rewrite (weighted_poly w (fun _ _ => 1) 1 0 0 0 0 0 g (proj1 DR)) by (intros; ring). ring. }
  rewrite !S in W. replace (work (e, ky, kz) (e', ky, kz) F G) with ((fst (fst G) - fst (fst F)) * (e' - e)) in W by (unfold work; cbn [fst snd]; ring).
  destruct W as (W1 & W2). split; apply (Rmult_le_reg_r (e' - e)); try lra.
Qed.
Print Assumptions C64_axial.
