From Coquelicot Require Import Coquelicot.
From Verif Require Import Base M_Marin S_Marin L_Marin M_Laws M_Laws2 M_Fiber S_Fiber.

Lemma lsum_flat {A B} (h : B -> R) (f : A -> list B) l :
  lsum (map h (flat_map f l)) = lsum (map (fun x => lsum (map h (f x))) l).
Proof.
  induction l; cbn [flat_map map]; [reflexivity|]. rewrite map_app, lsum_app, lsum_cons, IHl. reflexivity.
Qed.

Lemma lsum_map_opp {A} (f : A -> R) l : lsum (map (fun x => - f x) l) = - lsum (map f l).
Proof. induction l; cbn [map]; rewrite ?lsum_nil, ?lsum_cons; [ring|rewrite IHl; ring]. Qed.

(** One prepared entry. *)
Definition entry (f : R -> R) (s : profile) (x : fibre) : R * R * R := (fb_y x, fb_z x, f (fibre_strain s x) * fb_a x).
Definition pick (what : integrand) (l : law) : R -> R := match what with IModulus => lw_tangent l | _ => lw_stress l end.

Lemma combine_entry f s fs :
  map (fun vf : R * fibre => (fb_y (snd vf), fb_z (snd vf), fst vf * fb_a (snd vf)))
    (combine (map f (map (fibre_strain s) fs)) fs) = map (entry f s) fs.
Proof. induction fs; cbn; [reflexivity|]. rewrite IHfs. reflexivity. Qed.

Lemma group_values_ok laws what s g : (forall k, batched (laws k)) -> what <> IOther ->
  group_values laws what s g = Ok (map (pick what (laws (gr_law g))) (map (fibre_strain s) (gr_fibres g))).
Proof.
  intros B H. unfold group_values. destruct (B (gr_law g)) as [B1 B2].
  destruct what; try congruence; cbn [pick]; destruct (gr_scalar g); rewrite ?B1, ?B2; reflexivity.
Qed.

Lemma prepare_groups_ok laws what s gs : (forall k, batched (laws k)) -> what <> IOther ->
  prepare_groups laws what s gs = Ok (flat_map (fun g => map (entry (pick what (laws (gr_law g))) s) (gr_fibres g)) gs).
Proof.
  intros B H. induction gs as [|g gs IH]; cbn [prepare_groups flat_map]; [reflexivity|].
  rewrite group_values_ok, IH by assumption. cbn [bind]. rewrite combine_entry. reflexivity.
Qed.

Lemma add_bar_sum (phi : nat -> fibre -> R) d k f :
  lsum (map (fun kv => lsum (map (phi (fst kv)) (snd kv))) (add_bar d k f)) =
  lsum (map (fun kv => lsum (map (phi (fst kv)) (snd kv))) d) + phi k f.
Proof.
  induction d as [|[k' fs] d IH]; cbn [add_bar].
  - cbn. lra.
  - destruct (Nat.eqb_spec k' k).
    + subst. cbn [map fst snd]. rewrite !lsum_cons, map_app, lsum_app. cbn. lra.
    + cbn [map fst snd]. rewrite !lsum_cons, IH. lra.
Qed.

Lemma group_bars_sum (phi : nat -> fibre -> R) bs :
  lsum (map (fun kv => lsum (map (phi (fst kv)) (snd kv))) (group_bars bs)) =
  lsum (map (fun b => phi (br_law b) (fibre_of_bar b)) bs).
Proof.
  unfold group_bars.
  assert (G : forall d, lsum (map (fun kv => lsum (map (phi (fst kv)) (snd kv)))
     (fold_left (fun d b => add_bar d (br_law b) (fibre_of_bar b)) bs d)) =
     lsum (map (fun kv => lsum (map (phi (fst kv)) (snd kv))) d) + lsum (map (fun b => phi (br_law b) (fibre_of_bar b)) bs)).
  { induction bs as [|b bs IH]; intros d; cbn [fold_left map].
    - cbn. lra.
    - rewrite IH, add_bar_sum, lsum_cons. lra. }
  rewrite G. cbn. lra.
Qed.

Lemma fibre_strain_plane s f : fibre_strain s f = plane_strain (p_e0 s) (p_ky s) (p_kz s) (fb_y f) (fb_z f).
Proof. unfold fibre_strain, plane_strain. ring. Qed.

(** Sum over the groups = sum over the material fibres. *)
Lemma groups_sum laws mesher g ms gs what s (h : R * R * R -> R) :
  triangulate mesher g ms = Ok gs ->
  lsum (map h (flat_map (fun g => map (entry (pick what (laws (gr_law g))) s) (gr_fibres g)) gs)) =
  lsum (map (fun f => h (m_y f, m_z f,
     (match what with IModulus => m_tangent f | _ => m_sigma f end)
       (plane_strain (p_e0 s) (p_ky s) (p_kz s) (m_y f) (m_z f)) * m_a f))
    (section_fibres laws (fun x => mesher x (surface_area x * ms)) g)).
Proof.
  unfold triangulate. destruct (_ || _)%bool; [discriminate|]. intros E. inversion E; subst; clear E.
  unfold section_fibres. rewrite flat_map_app, !map_app, !lsum_app. f_equal.
  - rewrite !lsum_flat, !map_map. apply lsum_map_ext. intros x _. cbn [gr_fibres gr_law].
    rewrite !map_map. apply lsum_map_ext. intros [[p q] r] _.
    cbn [fibre_of_triangle tri_fibre mfibre_at m_y m_z m_a m_sigma m_tangent].
    unfold entry. rewrite fibre_strain_plane. cbn [fb_y fb_z fb_a].
    assert (A : Rabs (fst p * snd q - snd p * fst q + (fst q * snd r - snd q * fst r) + (fst r * snd p - snd r * fst p)) * (1 / 2)
                = Rabs (shoelace [p; q; r; p])).
    { unfold shoelace. cbn [edges map fst snd]. rewrite !lsum_cons, lsum_nil. unfold cross. cbn [fst snd].
      rewrite <- (Rabs_pos_eq (1/2)) at 1 by lra. rewrite <- Rabs_mult. f_equal. lra. }
    destruct what; cbn [pick]; apply f_equal, f_equal, f_equal; exact A.
  - unfold bar_groups. rewrite lsum_flat, !map_map. cbn [gr_fibres gr_law].
    rewrite <- (lsum_map_ext (fun kv => lsum (map (fun f => h (entry (pick what (laws (fst kv))) s f)) (snd kv)))).
    2:{ intros kv _. rewrite map_map. reflexivity. }
    rewrite (group_bars_sum (fun k f => h (entry (pick what (laws k)) s f))).
    apply lsum_map_ext. intros b _. unfold entry. rewrite fibre_strain_plane. destruct what; reflexivity.
Qed.

Definition nonempty (g : compound) : Prop := cg_surf g <> [] \/ cg_bars g <> [].

Lemma add_bar_nonempty d k f : add_bar d k f <> [].
Proof. destruct d as [|[k' fs] d]; cbn; [discriminate|]. destruct (_ =? _)%nat; discriminate. Qed.
Lemma fold_add_nonempty bs : forall d, d <> [] -> fold_left (fun d b => add_bar d (br_law b) (fibre_of_bar b)) bs d <> [].
Proof. induction bs; cbn; intros; [assumption|]. apply IHbs, add_bar_nonempty. Qed.

Lemma triangulate_nonempty mesher g ms gs : triangulate mesher g ms = Ok gs -> nonempty g -> gs <> [].
Proof.
  unfold triangulate. destruct (_ || _)%bool; [discriminate|]. intros E. inversion E; subst; clear E.
  intros [H|H] N; apply app_eq_nil in N; destruct N as [N1 N2].
  - apply map_eq_nil in N1. contradiction.
  - unfold bar_groups in N2. apply map_eq_nil in N2. unfold group_bars in N2.
    destruct (cg_bars g) as [|b bs]; [congruence|]. cbn in N2.
    apply (fold_add_nonempty bs) in N2; [assumption|]. discriminate.
Qed.

Lemma triangulate_ok mesher g ms : 0 < ms <= 1 -> exists gs, triangulate mesher g ms = Ok gs.
Proof. intros H. unfold triangulate. rsplit; eauto. Qed.
Lemma triangulate_bad mesher g ms : ~ (0 < ms <= 1) -> triangulate mesher g ms = Err ValueError.
Proof. intros H. unfold triangulate. rsplit; try reflexivity. Qed.

Lemma prepare_input_fresh laws mesher g s what ms v gs : (forall k, batched (laws k)) -> what <> IOther ->
  triangulate mesher g ms = Ok gs -> nonempty g ->
  v = flat_map (fun g => map (entry (pick what (laws (gr_law g))) s) (gr_fibres g)) gs ->
  prepare_input laws mesher g s what None (Some ms) = Ok (v, gs) /\
  prepare_input laws mesher g s what (Some gs) (Some ms) = Ok (v, gs).
Proof.
  intros B W T N V. unfold prepare_input. rewrite T. cbn [bind]. rewrite prepare_groups_ok by assumption. cbn [bind].
  pose proof (triangulate_nonempty _ _ _ _ T N). destruct gs; [congruence|]. subst v. split; reflexivity.
Qed.

Lemma forces_ok laws mesher g s ms gs : (forall k, batched (laws k)) -> nonempty g ->
  triangulate mesher g ms = Ok gs ->
  let F := section_fibres laws (fun x => mesher x (surface_area x * ms)) g in
  let res := Ok ((axial F (p_e0 s) (p_ky s) (p_kz s), moment_y F (p_e0 s) (p_ky s) (p_kz s),
                  moment_z F (p_e0 s) (p_ky s) (p_kz s)), gs) in
  fiber_forces laws mesher g s None (Some ms) = res /\ fiber_forces laws mesher g s (Some gs) (Some ms) = res.
Proof.
  intros B N T F res.
  destruct (prepare_input_fresh laws mesher g s IStress ms _ gs B ltac:(discriminate) T N eq_refl) as [P1 P2].
  unfold fiber_forces. rewrite P1, P2. cbn [bind fst snd].
  assert (E : f_integrate_stress (flat_map (fun g0 => map (entry (pick IStress (laws (gr_law g0))) s) (gr_fibres g0)) gs) =
     (axial F (p_e0 s) (p_ky s) (p_kz s), moment_y F (p_e0 s) (p_ky s) (p_kz s), moment_z F (p_e0 s) (p_ky s) (p_kz s))).
  { unfold f_integrate_stress, axial, moment_y, moment_z.
    rewrite !(groups_sum laws mesher g ms gs IStress s _ T). fold F. cbn [fst snd]. f_equal.
    rewrite <- lsum_map_opp.
    apply lsum_map_ext. intros; ring. }
  rewrite E. split; reflexivity.
Qed.

Lemma stiffness_ok laws mesher g s ms gs : (forall k, batched (laws k)) -> nonempty g ->
  triangulate mesher g ms = Ok gs ->
  exists K, fiber_stiffness laws mesher g s None (Some ms) = Ok (K, gs) /\
    fiber_stiffness laws mesher g s (Some gs) (Some ms) = Ok (K, gs) /\
    forall i j, (i < 3)%nat -> (j < 3)%nat ->
    K i j = stiff (section_fibres laws (fun x => mesher x (surface_area x * ms)) g) (p_e0 s) (p_ky s) (p_kz s) i j.
Proof.
  intros B N T.
  destruct (prepare_input_fresh laws mesher g s IModulus ms _ gs B ltac:(discriminate) T N eq_refl) as [P1 P2].
  unfold fiber_stiffness. rewrite P1, P2. cbn [bind fst snd]. eexists. split; [reflexivity|]. split; [reflexivity|].
  intros i j Hi Hj. unfold stiff, fibre_tangent, f_integrate_modulus.
  destruct i as [|[|[|i]]]; destruct j as [|[|[|j]]]; try lia;
  rewrite (groups_sum laws mesher g ms gs IModulus s _ T); cbn [fst snd lever];
  apply lsum_map_ext; intros; ring.
Qed.

Lemma stiff_sym F e0 ky kz i j : stiff F e0 ky kz i j = stiff F e0 ky kz j i.
Proof. unfold stiff. apply lsum_map_ext. intros; ring. Qed.

Lemma lsum_nonneg {A} (h : A -> R) l : (forall x, In x l -> 0 <= h x) -> 0 <= lsum (map h l).
Proof.
  induction l; intros H; cbn [map].
  - rewrite lsum_nil; lra.
  - rewrite lsum_cons. apply Rplus_le_le_0_compat; [apply H; now left|apply IHl; intros; apply H; now right].
Qed.

Lemma quad_stiff F e0 ky kz a b c :
  quad (stiff F e0 ky kz) a b c =
  lsum (map (fun f => fibre_tangent e0 ky kz f * m_a f * (a + b * m_z f - c * m_y f) ^ 2) F).
Proof.
  unfold quad, mat_vec, stiff.
  induction F as [|f F IH]; cbn [map].
  - rewrite !lsum_nil. ring.
  - rewrite !lsum_cons, <- IH. unfold lever. ring.
Qed.

Lemma quad_ext K K' a b c : (forall i j, (i < 3)%nat -> (j < 3)%nat -> K i j = K' i j) -> quad K a b c = quad K' a b c.
Proof. intros H. unfold quad, mat_vec. rewrite !H by lia. reflexivity. Qed.

(** Work form: the resultants contracted with (a,b,c). *)
Definition force (i : nat) (F : list mfibre) (e0 ky kz : R) : R :=
  match i with 0%nat => axial F e0 ky kz | 1%nat => moment_y F e0 ky kz | _ => moment_z F e0 ky kz end.
Lemma force_lever i F e0 ky kz :
  force i F e0 ky kz = lsum (map (fun f => m_sigma f (plane_strain e0 ky kz (m_y f) (m_z f)) * m_a f * lever f i) F).
Proof.
  destruct i as [|[|i]]; cbn [force]; unfold axial, moment_y, moment_z.
  - apply lsum_map_ext; intros; unfold lever; ring.
  - apply lsum_map_ext; intros; unfold lever; ring.
  - rewrite <- lsum_map_opp.
    apply lsum_map_ext; intros; unfold lever; ring.
Qed.

Lemma is_derive_lsum {A} (h : A -> R -> R) (d : A -> R) x l :
  (forall a, In a l -> is_derive (h a) x (d a)) ->
  is_derive (fun t => lsum (map (fun a => h a t) l)) x (lsum (map d l)).
Proof.
  induction l as [|a l IH]; intros H; cbn [map].
  - rewrite lsum_nil. apply (is_derive_ext (fun _ => 0)). { intros; reflexivity. }
    apply (is_derive_const (V:=R_NormedModule)).
  - rewrite lsum_cons.
    apply (is_derive_ext (fun t => h a t + lsum (map (fun a => h a t) l))). { intros; cbn [map]; now rewrite lsum_cons. }
    apply (is_derive_plus (V:=R_NormedModule)); [apply H; now left|apply IH; intros; apply H; now right].
Qed.

(** Derivative along any direction (a,b,c) of the strain profile. *)
Lemma force_derive i F e0 ky kz a b c :
  (forall f, In f F -> is_derive (m_sigma f) (plane_strain e0 ky kz (m_y f) (m_z f)) (fibre_tangent e0 ky kz f)) ->
  is_derive (fun t => force i F (e0 + t * a) (ky + t * b) (kz + t * c)) 0
    (lsum (map (fun f => fibre_tangent e0 ky kz f * m_a f * lever f i * (a + b * m_z f - c * m_y f)) F)).
Proof.
  intros D.
  apply (is_derive_ext (fun t => lsum (map (fun f =>
    m_sigma f (plane_strain (e0 + t * a) (ky + t * b) (kz + t * c) (m_y f) (m_z f)) * m_a f * lever f i) F))).
  { intros t. now rewrite force_lever. }
  apply (is_derive_lsum (fun f t => m_sigma f (plane_strain (e0 + t * a) (ky + t * b) (kz + t * c) (m_y f) (m_z f)) * m_a f * lever f i)).
  intros f Hf. specialize (D f Hf).
  apply (is_derive_ext (fun t => (m_a f * lever f i) *
     m_sigma f (plane_strain e0 ky kz (m_y f) (m_z f) + t * (a + b * m_z f - c * m_y f)))).
  { intros t. unfold plane_strain.
    replace (e0 + ky * m_z f - kz * m_y f + t * (a + b * m_z f - c * m_y f)) with
      (e0 + t * a + (ky + t * b) * m_z f - (kz + t * c) * m_y f) by ring.
    match goal with |- ?a = ?b => change (@eq R a b) end. ring. }
  replace (fibre_tangent e0 ky kz f * m_a f * lever f i * (a + b * m_z f - c * m_y f)) with
    ((m_a f * lever f i) * ((a + b * m_z f - c * m_y f) * fibre_tangent e0 ky kz f)) by ring.
  apply (is_derive_scal _ 0 (m_a f * lever f i)).
  set (w := a + b * m_z f - c * m_y f). set (x := plane_strain e0 ky kz (m_y f) (m_z f)).
  apply (is_derive_comp (m_sigma f) (fun t => x + t * w)).
  - replace (x + 0 * w) with x by ring. exact D.
  - auto_derive; [exact I|ring].
Qed.

Lemma force_elastic E i F e0 ky kz :
  (forall f, In f F -> forall e, m_sigma f e = E f * e) -> (forall f, In f F -> forall e, m_tangent f e = E f) ->
  (i < 3)%nat ->
  force i F e0 ky kz = mat_vec (stiff F e0 ky kz) e0 ky kz i.
Proof.
  intros HS HT Hi. rewrite force_lever. unfold mat_vec, stiff, fibre_tangent.
  induction F as [|f F IH]; cbn [map].
  - rewrite !lsum_nil; ring.
  - rewrite !lsum_cons, IH by (intros; (apply HS || apply HT); now right).
    rewrite HS, !HT by now left. cbn [lever]. unfold plane_strain. ring.
Qed.

(** * Centroid rule on triangles *)
Lemma tm00 p q : triangle_moment 0 0 p q = cross p q / 2.
Proof. rewrite triangle_moment_edge. unfold marin_edge, coeff, cross. cbn. field. Qed.
Lemma tm10 p q : triangle_moment 1 0 p q = cross p q * (fst p + fst q) / 6.
Proof. rewrite triangle_moment_edge. unfold marin_edge, coeff, cross. cbn. field. Qed.
Lemma tm01 p q : triangle_moment 0 1 p q = cross p q * (snd p + snd q) / 6.
Proof. rewrite triangle_moment_edge. unfold marin_edge, coeff, cross. cbn. field. Qed.
Lemma tm20 p q : triangle_moment 2 0 p q = cross p q * (fst p ^ 2 + fst p * fst q + fst q ^ 2) / 12.
Proof. rewrite triangle_moment_edge. unfold marin_edge, coeff, cross. cbn. field. Qed.
Lemma tm02 p q : triangle_moment 0 2 p q = cross p q * (snd p ^ 2 + snd p * snd q + snd q ^ 2) / 12.
Proof. rewrite triangle_moment_edge. unfold marin_edge, coeff, cross. cbn. field. Qed.
Lemma tm11 p q : triangle_moment 1 1 p q =
  cross p q * (2 * fst p * snd p + fst p * snd q + fst q * snd p + 2 * fst q * snd q) / 24.
Proof. rewrite triangle_moment_edge. unfold marin_edge, coeff, cross. cbn. field. Qed.

Definition tri_cy (t : (R*R)*(R*R)*(R*R)) : R := let '(p, q, r) := t in (fst p + fst q + fst r) / 3.
Definition tri_cz (t : (R*R)*(R*R)*(R*R)) : R := let '(p, q, r) := t in (snd p + snd q + snd r) / 3.
Definition spread_zz (t : (R*R)*(R*R)*(R*R)) : R :=
  let '(p, q, r) := t in ((snd p - snd q) ^ 2 + (snd q - snd r) ^ 2 + (snd r - snd p) ^ 2) / 36.
Definition spread_yy (t : (R*R)*(R*R)*(R*R)) : R :=
  let '(p, q, r) := t in ((fst p - fst q) ^ 2 + (fst q - fst r) ^ 2 + (fst r - fst p) ^ 2) / 36.
Definition spread_yz (t : (R*R)*(R*R)*(R*R)) : R :=
  let '(p, q, r) := t in ((fst p - fst q) * (snd p - snd q) + (fst q - fst r) * (snd q - snd r) + (fst r - fst p) * (snd r - snd p)) / 36.

Lemma tri_moments t : let A := fan_moment 0 0 (tri_ring t) in
  fan_moment 1 0 (tri_ring t) = A * tri_cy t /\ fan_moment 0 1 (tri_ring t) = A * tri_cz t /\
  fan_moment 0 2 (tri_ring t) = A * (tri_cz t ^ 2 + spread_zz t) /\
  fan_moment 2 0 (tri_ring t) = A * (tri_cy t ^ 2 + spread_yy t) /\
  fan_moment 1 1 (tri_ring t) = A * (tri_cy t * tri_cz t + spread_yz t).
Proof.
  destruct t as [[p q] r]. cbv zeta. unfold fan_moment, tri_ring. cbn [edges map fst snd].
  rewrite !lsum_cons, !lsum_nil, !tm00, !tm10, !tm01, !tm02, !tm20, !tm11.
  unfold cross, tri_cy, tri_cz, spread_zz, spread_yy, spread_yz. repeat split; field.
Qed.

Lemma sq_le h a : Rabs a <= h -> a ^ 2 <= h ^ 2.
Proof. intros H. rewrite <- (pow2_abs a). apply pow_incr. split; [apply Rabs_pos|exact H]. Qed.
Lemma prod_le h a b : Rabs a <= h -> Rabs b <= h -> - h ^ 2 <= a * b <= h ^ 2.
Proof.
  intros Ha Hb. apply Rabs_le_between. rewrite Rabs_mult. replace (h ^ 2) with (h * h) by ring.
  apply Rmult_le_compat; auto using Rabs_pos.
Qed.
Lemma spread_bounds h t : tri_size h t ->
  0 <= spread_zz t <= h ^ 2 / 12 /\ 0 <= spread_yy t <= h ^ 2 / 12 /\ - (h ^ 2 / 12) <= spread_yz t <= h ^ 2 / 12.
Proof.
  destruct t as [[p q] r]. unfold tri_size, spread_zz, spread_yy, spread_yz. intros (A & B & C & D & E & F).
  pose proof (sq_le _ _ A); pose proof (sq_le _ _ B); pose proof (sq_le _ _ C); pose proof (sq_le _ _ D);
  pose proof (sq_le _ _ E); pose proof (sq_le _ _ F).
  pose proof (prod_le _ _ _ D A); pose proof (prod_le _ _ _ E B); pose proof (prod_le _ _ _ F C).
  pose proof (pow2_ge_0 (snd p - snd q)); pose proof (pow2_ge_0 (snd q - snd r)); pose proof (pow2_ge_0 (snd r - snd p)).
  pose proof (pow2_ge_0 (fst p - fst q)); pose proof (pow2_ge_0 (fst q - fst r)); pose proof (pow2_ge_0 (fst r - fst p)).
  lra.
Qed.

Definition fm (ts : list ((R*R)*(R*R)*(R*R))) (m n : nat) : R := lsum (map (fun t => fan_moment m n (tri_ring t)) ts).

(** Sums of the fibre areas and levers against the exact moments. *)
Lemma mesh_sums (h : R) ts : (forall t, In t ts -> ccw t) -> (forall t, In t ts -> tri_size h t) ->
  lsum (map (fun t => Rabs (shoelace (tri_ring t))) ts) = fm ts 0 0 /\
  lsum (map (fun t => Rabs (shoelace (tri_ring t)) * tri_cy t) ts) = fm ts 1 0 /\
  lsum (map (fun t => Rabs (shoelace (tri_ring t)) * tri_cz t) ts) = fm ts 0 1 /\
  0 <= fm ts 0 2 - lsum (map (fun t => Rabs (shoelace (tri_ring t)) * tri_cz t ^ 2) ts) <= h ^ 2 / 12 * fm ts 0 0 /\
  0 <= fm ts 2 0 - lsum (map (fun t => Rabs (shoelace (tri_ring t)) * tri_cy t ^ 2) ts) <= h ^ 2 / 12 * fm ts 0 0 /\
  - (h ^ 2 / 12 * fm ts 0 0) <= fm ts 1 1 - lsum (map (fun t => Rabs (shoelace (tri_ring t)) * (tri_cy t * tri_cz t)) ts)
     <= h ^ 2 / 12 * fm ts 0 0 /\ 0 <= fm ts 0 0.
Proof.
  intros HC HS. unfold fm. induction ts as [|t ts IH]; cbn [map].
  - rewrite !lsum_nil. lra.
  - rewrite !lsum_cons.
    destruct IH as (I1 & I2 & I3 & I4 & I5 & I6 & I7); [intros; apply HC; now right|intros; apply HS; now right|].
    pose proof (HC t (or_introl eq_refl)) as C. unfold ccw in C.
    pose proof (spread_bounds h t (HS t (or_introl eq_refl))) as (Z & Y & YZ).
    pose proof (tri_moments t) as (M1 & M2 & M3 & M4 & M5).
    rewrite M1, M2, M3, M4, M5. rewrite fan_area in *.
    rewrite (Rabs_pos_eq _ C). set (A := shoelace (tri_ring t)) in *.
    pose proof (Rmult_le_compat_l _ _ _ C (proj1 Z)). pose proof (Rmult_le_compat_l _ _ _ C (proj2 Z)).
    pose proof (Rmult_le_compat_l _ _ _ C (proj1 Y)). pose proof (Rmult_le_compat_l _ _ _ C (proj2 Y)).
    pose proof (Rmult_le_compat_l _ _ _ C (proj1 YZ)). pose proof (Rmult_le_compat_l _ _ _ C (proj2 YZ)).
    rewrite I1, I2, I3. repeat split; lra.
Qed.

(** Elastic surface: resultants of the fibres of a tiling against the exact ones. *)
Lemma elastic_fibres (E h : R) l ts e0 ky kz :
  (forall e, lw_stress l e = E * e) -> 0 <= E ->
  (forall t, In t ts -> ccw t) -> (forall t, In t ts -> tri_size h t) ->
  let F := map (tri_fibre l) ts in
  axial F e0 ky kz = E * (e0 * fm ts 0 0 + ky * fm ts 0 1 - kz * fm ts 1 0) /\
  Rabs (moment_y F e0 ky kz - E * (e0 * fm ts 0 1 + ky * fm ts 0 2 - kz * fm ts 1 1))
    <= E * fm ts 0 0 * h ^ 2 / 12 * (Rabs ky + Rabs kz) /\
  Rabs (moment_z F e0 ky kz - - (E * (e0 * fm ts 1 0 + ky * fm ts 1 1 - kz * fm ts 2 0)))
    <= E * fm ts 0 0 * h ^ 2 / 12 * (Rabs ky + Rabs kz).
Proof.
  intros HL HE HC HS F.
  destruct (mesh_sums h ts HC HS) as (I1 & I2 & I3 & I4 & I5 & I6 & I7).
  set (S0 := lsum (map (fun t => Rabs (shoelace (tri_ring t))) ts)) in *.
  set (Sy := lsum (map (fun t => Rabs (shoelace (tri_ring t)) * tri_cy t) ts)) in *.
  set (Sz := lsum (map (fun t => Rabs (shoelace (tri_ring t)) * tri_cz t) ts)) in *.
  set (Szz := lsum (map (fun t => Rabs (shoelace (tri_ring t)) * tri_cz t ^ 2) ts)) in *.
  set (Syy := lsum (map (fun t => Rabs (shoelace (tri_ring t)) * tri_cy t ^ 2) ts)) in *.
  set (Syz := lsum (map (fun t => Rabs (shoelace (tri_ring t)) * (tri_cy t * tri_cz t)) ts)) in *.
  assert (N : axial F e0 ky kz = E * (e0 * S0 + ky * Sz - kz * Sy) /\
     moment_y F e0 ky kz = E * (e0 * Sz + ky * Szz - kz * Syz) /\
     moment_z F e0 ky kz = - (E * (e0 * Sy + ky * Syz - kz * Syy))).
  { unfold axial, moment_y, moment_z, F, S0, Sy, Sz, Szz, Syz, Syy. clear - HL.
    induction ts as [|t ts IH]; cbn [map]; rewrite ?lsum_nil, ?lsum_cons; [repeat split; ring|].
    destruct IH as (J1 & J2 & J3). rewrite J1, J2. apply Ropp_eq_compat in J3. rewrite !Ropp_involutive in J3. rewrite J3.
    destruct t as [[p q] r]. cbn [tri_fibre mfibre_at m_y m_z m_a m_sigma tri_cy tri_cz tri_ring].
    rewrite HL. unfold plane_strain. repeat split; ring. }
  destruct N as (N1 & N2 & N3). rewrite N1, N2, N3, I1, I2, I3. split; [reflexivity|].
  assert (Q : 0 <= E * fm ts 0 0) by (apply Rmult_le_pos; assumption).
  assert (B : forall k1 k2 d1 d2, Rabs d1 <= h ^ 2 / 12 * fm ts 0 0 -> Rabs d2 <= h ^ 2 / 12 * fm ts 0 0 ->
    Rabs (E * (k1 * d1 + k2 * d2)) <= E * fm ts 0 0 * h ^ 2 / 12 * (Rabs k1 + Rabs k2)).
  { intros k1 k2 d1 d2 D1 D2. rewrite Rabs_mult, (Rabs_pos_eq E) by assumption.
    replace (E * fm ts 0 0 * h ^ 2 / 12 * (Rabs k1 + Rabs k2)) with
      (E * (Rabs k1 * (h ^ 2 / 12 * fm ts 0 0) + Rabs k2 * (h ^ 2 / 12 * fm ts 0 0))) by field.
    apply Rmult_le_compat_l; [assumption|].
    eapply Rle_trans; [apply Rabs_triang|]. rewrite !Rabs_mult.
    apply Rplus_le_compat; apply Rmult_le_compat_l; auto using Rabs_pos. }
  split.
  - replace (E * (e0 * fm ts 0 1 + ky * Szz - kz * Syz) - E * (e0 * fm ts 0 1 + ky * fm ts 0 2 - kz * fm ts 1 1))
      with (E * (ky * (Szz - fm ts 0 2) + kz * (fm ts 1 1 - Syz))) by ring.
    apply B; apply Rabs_le_between; lra.
  - replace (- (E * (e0 * fm ts 1 0 + ky * Syz - kz * Syy)) - - (E * (e0 * fm ts 1 0 + ky * fm ts 1 1 - kz * fm ts 2 0)))
      with (E * (ky * (fm ts 1 1 - Syz) + kz * (Syy - fm ts 2 0))) by ring.
    apply B; apply Rabs_le_between; lra.
Qed.

(** * The planar graph handed to the mesher *)
Lemma last_indep {A} (l : list A) d d' : l <> [] -> last l d = last l d'.
Proof. induction l as [|a l IH]; intros H; [congruence|]. destruct l; [reflexivity|]. apply IH. discriminate. Qed.
Lemma nth_map_seq {A} (f : nat -> A) k i d : (i < k)%nat -> nth i (map f (seq 0 k)) d = f i.
Proof.
  intros H. rewrite (nth_indep _ d (f 0%nat)) by now rewrite map_length, seq_length.
  rewrite map_nth, seq_nth by assumption. reflexivity.
Qed.
Lemma edges_length l : length (edges l) = (length l - 1)%nat.
Proof.
  induction l as [|p l IH]; [reflexivity|]. destruct l as [|q l]; [reflexivity|].
  cbn [edges length] in *. rewrite IH. lia.
Qed.
Lemma edges_nth l d i : (S i < length l)%nat -> nth i (edges l) (d, d) = (nth i l d, nth (S i) l d).
Proof.
  revert i. induction l as [|p l IH]; intros i H; [cbn in H; lia|].
  destruct l as [|q l]; [cbn in H; lia|].
  destruct i as [|i]; [reflexivity|]. cbn [edges nth]. rewrite IH by (cbn [length] in *; lia). reflexivity.
Qed.
Lemma ring_segments_edges r d pre post : closed r -> (2 <= length r)%nat ->
  map (fun ij => (nth (fst ij) (pre ++ removelast r ++ post) d, nth (snd ij) (pre ++ removelast r ++ post) d))
      (ring_segments (length pre) (length (removelast r))) = edges r.
Proof.
  intros C L.
  assert (NE : r <> []) by (destruct r; [cbn in L; lia|discriminate]).
  pose proof (app_removelast_last d NE) as RL.
  set (v := removelast r) in *.
  assert (Lv : length r = S (length v)) by (rewrite RL, app_length; cbn; lia).
  assert (LD : last r d = nth 0 v d).
  { destruct r as [|p r]; [congruence|]. unfold closed in C. destruct r as [|q r]; [cbn in L; lia|].
    rewrite (last_indep (p :: q :: r) d p), C by discriminate. reflexivity. }
  apply (nth_ext _ _ (d, d) (d, d)).
  - unfold ring_segments. rewrite !map_length, seq_length, edges_length. lia.
  - intros i Hi. unfold ring_segments in *. rewrite !map_length, seq_length in Hi.
    rewrite edges_nth by lia.
    rewrite map_map.
    rewrite nth_map_seq by lia. cbn [fst snd].
    assert (G : forall k, (k < length v)%nat -> nth (length pre + k) (pre ++ v ++ post) d = nth k v d).
    { intros k Hk. rewrite app_nth2 by lia. replace (length pre + k - length pre)%nat with k by lia. now apply app_nth1. }
    assert (Hi' : (i < length v)%nat) by lia.
    rewrite G by lia. rewrite RL. rewrite (app_nth1 v) by lia. f_equal.
    destruct (Nat.eq_dec (S i) (length v)) as [Q|Q].
    + rewrite Q, Nat.mod_same by lia. rewrite G by lia. rewrite app_nth2 by lia.
      replace (length v - length v)%nat with 0%nat by lia. cbn [nth]. now rewrite LD.
    + rewrite Nat.mod_small by lia. rewrite G by lia. now rewrite app_nth1 by lia.
Qed.
Lemma prep_rings_edges rings d : forall pre,
  (forall r, In r rings -> closed r /\ (2 <= length r)%nat) ->
  let '(vs, ss) := prep_rings rings (length pre) in
  map (fun ij => (nth (fst ij) (pre ++ vs) d, nth (snd ij) (pre ++ vs) d)) ss = flat_map edges rings.
Proof.
  induction rings as [|r rs IH]; intros pre H; cbn [prep_rings flat_map]; [reflexivity|].
  specialize (IH (pre ++ removelast r)). rewrite app_length in IH.
  destruct (prep_rings rs (length pre + length (removelast r))) as [vs ss].
  cbv beta iota in *. rewrite map_app. f_equal.
  - apply ring_segments_edges; apply H; now left.
  - rewrite <- IH by (intros; apply H; now right). rewrite <- app_assoc. reflexivity.
Qed.

(** * Hole markers of convex rings *)
Definition wfun (al be ga : R) (a b : R * R) : R := cross a b * (al / 2 + be * (fst a + fst b) / 6 + ga * (snd a + snd b) / 6).
Lemma shoe_wfun al be ga l :
  lsum (map (fun e => wfun al be ga (fst e) (snd e)) (edges l)) = al * shoe l + be * shoe_y l + ga * shoe_z l.
Proof.
  induction l as [|p l IH]; [cbn; lra|]. destruct l as [|q l]; [cbn; lra|].
  cbn [edges map shoe shoe_y shoe_z fst snd] in *. rewrite lsum_cons, IH. unfold wfun, cross. lra.
Qed.
Lemma wfun_fan al be ga p0 a b :
  wfun al be ga a b = side p0 a b / 2 * (al + be * (fst p0 + fst a + fst b) / 3 + ga * (snd p0 + snd a + snd b) / 3)
     + (wfun al be ga p0 b - wfun al be ga p0 a).
Proof. unfold wfun, side, cross. field. Qed.
Lemma edges_in (r : list (R * R)) a b : In (a, b) (edges r) -> In a r /\ In b r.
Proof.
  intros I. induction r as [|p r IH]; [contradiction|]. destruct r as [|q r]; [contradiction|].
  cbn [edges] in I. destruct I as [E|I]; [inversion E; subst; split; [now left|right; now left]|].
  destruct (IH I). split; now right.
Qed.
Lemma fan_sum al be ga p0 r : closed r -> al * shoe r + be * shoe_y r + ga * shoe_z r =
  lsum (map (fun e => side p0 (fst e) (snd e) / 2 *
     (al + be * (fst p0 + fst (fst e) + fst (snd e)) / 3 + ga * (snd p0 + snd (fst e) + snd (snd e)) / 3)) (edges r)).
Proof.
  intros C. rewrite <- shoe_wfun.
  rewrite (lsum_map_ext _ (fun e => side p0 (fst e) (snd e) / 2 *
     (al + be * (fst p0 + fst (fst e) + fst (snd e)) / 3 + ga * (snd p0 + snd (fst e) + snd (snd e)) / 3)
     + (wfun al be ga p0 (snd e) - wfun al be ga p0 (fst e)))).
  2:{ intros e _. apply wfun_fan. }
  rewrite lsum_map_plus. rewrite (telescope (wfun al be ga p0) r p0).
  replace (match r with [] => 0 | p :: _ => wfun al be ga p0 (last r p0) - wfun al be ga p0 p end) with 0.
  2:{ destruct r as [|p r]; [reflexivity|]. rewrite (last_indep _ p0 p) by discriminate. rewrite C. ring. }
  lra.
Qed.
Lemma lsum_pos (l : list R) : (forall a, In a l -> 0 <= a) -> (exists a, In a l /\ 0 < a) -> 0 < lsum l.
Proof.
  induction l as [|b l IH]; intros N (a & I & P); [contradiction|]. rewrite lsum_cons.
  assert (Hb : 0 <= b) by (apply N; now left).
  assert (Hl : 0 <= lsum l).
  { clear - N. assert (N' : forall a, In a l -> 0 <= a) by (intros; apply N; now right). clear N.
    induction l as [|c l IH]; [cbn; lra|]. rewrite lsum_cons. assert (0 <= c) by (apply N'; now left).
    assert (0 <= lsum l) by (apply IH; intros; apply N'; now right). lra. }
  destruct I as [-> | I]; [lra|]. assert (0 < lsum l); [apply IH|lra].
  - intros; apply N; now right.
  - exists a. split; assumption.
Qed.
Lemma lsum_nonzero (l : list R) : lsum l <> 0 -> exists a, In a l /\ a <> 0.
Proof.
  induction l as [|b l IH]; [intros H; exfalso; apply H; reflexivity|]. rewrite lsum_cons. intros H.
  destruct (Req_dec b 0) as [Z | Z]; [|exists b; split; [now left|exact Z]].
  destruct IH as (a & I & N); [lra|]. exists a. split; [now right|exact N].
Qed.
(** Three points on a line through two distinct points span no area. *)
Lemma collinear3 p q a b c : p <> q -> side p q a = 0 -> side p q b = 0 -> side p q c = 0 -> side a b c = 0.
Proof.
  intros N A B C0. destruct p as [p1 p2], q as [q1 q2], a as [a1 a2], b as [b1 b2], c as [c1 c2].
  unfold side in *. cbn [fst snd] in *.
  assert (E1 : (q1 - p1) * ((b1 - a1) * (c2 - a2) - (b2 - a2) * (c1 - a1)) =
     (b1 - a1) * (((q1 - p1) * (c2 - p2) - (q2 - p2) * (c1 - p1)) - ((q1 - p1) * (a2 - p2) - (q2 - p2) * (a1 - p1)))
     - (c1 - a1) * (((q1 - p1) * (b2 - p2) - (q2 - p2) * (b1 - p1)) - ((q1 - p1) * (a2 - p2) - (q2 - p2) * (a1 - p1)))) by ring.
  assert (E2 : (q2 - p2) * ((b1 - a1) * (c2 - a2) - (b2 - a2) * (c1 - a1)) =
     (b2 - a2) * (((q1 - p1) * (c2 - p2) - (q2 - p2) * (c1 - p1)) - ((q1 - p1) * (a2 - p2) - (q2 - p2) * (a1 - p1)))
     - (c2 - a2) * (((q1 - p1) * (b2 - p2) - (q2 - p2) * (b1 - p1)) - ((q1 - p1) * (a2 - p2) - (q2 - p2) * (a1 - p1)))) by ring.
  rewrite A, B, C0 in E1, E2. replace (0 - 0) with 0 in E1, E2 by ring. rewrite !Rmult_0_r in E1, E2.
  replace (0 - 0) with 0 in E1, E2 by ring.
  destruct (Rmult_integral _ _ E1) as [X | X]; [|exact X]. destruct (Rmult_integral _ _ E2) as [Y | Y]; [|exact Y].
  exfalso. apply N. f_equal; lra.
Qed.
(** The ring may run either way round: [g] is 1 or -1. *)
Lemma hole_marker_convex g r p q : g = 1 \/ g = -1 ->
  closed r -> 0 < g * shoe r -> (forall a b v, In (a, b) (edges r) -> In v r -> 0 <= g * side a b v) ->
  In (p, q) (edges r) -> p <> q -> 0 < g * side p q (hole_marker r).
Proof.
  intros G C A H I N. assert (GG : g * g = 1) by (destruct G as [-> | ->]; lra).
  destruct r as [|p0 r]; [contradiction|]. set (R0 := p0 :: r) in *.
  set (al := (snd q - snd p) * fst p - (fst q - fst p) * snd p). set (be := - (snd q - snd p)). set (ga := fst q - fst p).
  assert (E : forall v, side p q v = al + be * fst v + ga * snd v) by (intros v; unfold side, al, be, ga; ring).
  assert (F : 0 < al * shoe R0 + be * shoe_y R0 + ga * shoe_z R0).
  { rewrite (fan_sum al be ga p0 R0 C).
    assert (T : forall a b, In (a, b) (edges R0) ->
      side p0 a b / 2 * (al + be * (fst p0 + fst a + fst b) / 3 + ga * (snd p0 + snd a + snd b) / 3) =
      (g * side a b p0) * (g * side p q p0 + g * side p q a + g * side p q b) / 6).
    { intros a b _. rewrite !E. replace (side p0 a b) with (side a b p0) by (unfold side; ring).
      transitivity ((g * g) * side a b p0 * (3 * al + be * (fst p0 + fst a + fst b) + ga * (snd p0 + snd a + snd b)) / 6); [rewrite GG; field|field]. }
    assert (P0 : In p0 R0) by (now left).
    apply lsum_pos.
    - intros x J. apply in_map_iff in J. destruct J as ([a b] & <- & J). cbn [fst snd]. rewrite T by exact J.
      destruct (edges_in _ _ _ J) as [Va Vb].
      pose proof (H a b p0 J P0). pose proof (H p q p0 I P0). pose proof (H p q a I Va). pose proof (H p q b I Vb).
      unfold Rdiv. apply Rmult_le_pos; [apply Rmult_le_pos; lra|lra].
    - assert (S0 : shoe R0 <> 0) by (intros Z; rewrite Z in A; lra).
      pose proof (fan_sum 1 0 0 p0 R0 C) as Q. rewrite !Rmult_0_l, !Rplus_0_r, Rmult_1_l in Q. rewrite Q in S0.
      apply lsum_nonzero in S0. destruct S0 as (x & J & NZ). apply in_map_iff in J. destruct J as ([a b] & <- & J). cbn [fst snd] in NZ.
      eexists. split; [apply in_map_iff; exists (a, b); split; [reflexivity|exact J]|]. cbn [fst snd]. rewrite T by exact J.
      destruct (edges_in _ _ _ J) as [Va Vb].
      pose proof (H a b p0 J P0) as H1. pose proof (H p q p0 I P0) as H2. pose proof (H p q a I Va) as H3. pose proof (H p q b I Vb) as H4.
      assert (L : side p0 a b <> 0) by (intros Z; apply NZ; rewrite Z; lra).
      assert (H1' : 0 < g * side a b p0).
      { destruct H1 as [H1 | H1]; [exact H1|]. exfalso. apply L. replace (side p0 a b) with (g * (g * side a b p0)).
        - rewrite <- H1. ring.
        - rewrite <- Rmult_assoc, GG. unfold side. ring. }
      assert (H5 : 0 < g * side p q p0 + g * side p q a + g * side p q b).
      { destruct (Rlt_or_le 0 (g * side p q p0 + g * side p q a + g * side p q b)) as [?|Z]; [assumption|]. exfalso. apply L.
        assert (D : forall v, g * side p q v = 0 -> side p q v = 0).
        { intros v V. replace (side p q v) with (g * (g * side p q v)) by (rewrite <- Rmult_assoc, GG; ring). rewrite V. ring. }
        apply (collinear3 p q); [exact N|apply D; lra|apply D; lra|apply D; lra]. }
      unfold Rdiv. apply Rmult_lt_0_compat; [apply Rmult_lt_0_compat; lra|lra]. }
  assert (S0 : shoe R0 <> 0) by (intros Z; rewrite Z in A; lra).
  rewrite E. unfold hole_marker. cbn [fst snd].
  replace (g * (al + be * (shoe_y R0 / shoe R0) + ga * (shoe_z R0 / shoe R0)))
    with ((al * shoe R0 + be * shoe_y R0 + ga * shoe_z R0) / (g * shoe R0)).
  - apply Rdiv_lt_0_compat; assumption.
  - assert (G0 : g <> 0) by (destruct G as [-> | ->]; lra).
    transitivity ((g * g) * ((al * shoe R0 + be * shoe_y R0 + ga * shoe_z R0) / (g * shoe R0))); [rewrite GG; ring|].
    field. split; assumption.
Qed.
