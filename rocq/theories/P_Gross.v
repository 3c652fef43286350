(** Gross section properties (C30). *)
From Verif Require Import Base M_Marin S_Marin L_Marin M_Laws M_Laws2 S_Laws M_Fiber S_Fiber L_Fiber M_MarinInt S_MarinInt M_Section M_Gross S_Gross L_MarinInt2 L_Gross L_Gross2 P_Fiber P_MarinInt.
From Coq Require Import Lra Lia.

(** Every number returned is the integral it names: with Marin exactly, with
    fibres for the areas lumped at the centroids of the triangles.  (mesh size
    [ms], any mesh generator that moves with the polygon and fills it.) *)
Theorem C30_integrals : forall mk laws dens eig p ms g I,
  rings_closed g -> (forall k, in_use g k -> 0 < stiffness0 laws k) -> integrates mk ms g I ->
  I (stiffness0 laws) (fun _ _ => 1) g <> 0 ->
  exists r, gross_properties mk laws dens eig (OnePolygon p) ms g = Ok r /\
    classical (fun phi => I (fun _ => 1) phi g) (fun phi => I (stiffness0 laws) phi g) r /\
    gp_perimeter r = p /\
    gp_area r = lsum (map (surface_integral (fun _ _ => 1)) (cg_surf g)) /\
    gp_area_reinforcement r = lsum (map br_area (cg_bars g)).
Proof.
  intros mk laws dens eig p ms g I RC HE HI HN.
  destruct (gross_method mk laws dens eig p ms g I RC HE HI HN) as (r & G & C & P & A & B & _).
  exists r. split; [exact G|]. split; [exact C|]. split; [exact P|]. split; [rewrite A; now apply area_spec|exact B].
Qed.
Print Assumptions C30_integrals.

(** Steiner: centroidal second moments from those about the origin. *)
Theorem C30_steiner : forall mk laws dens eig p ms g I r,
  rings_closed g -> (forall k, in_use g k -> 0 < stiffness0 laws k) -> integrates mk ms g I ->
  I (stiffness0 laws) (fun _ _ => 1) g <> 0 ->
  gross_properties mk laws dens eig (OnePolygon p) ms g = Ok r ->
  let area := I (fun _ => 1) (fun _ _ => 1) g in
  gp_e_iyy_c r = gp_e_iyy r - gp_ea r * gp_cz r ^ 2 /\
  gp_e_izz_c r = gp_e_izz r - gp_ea r * gp_cy r ^ 2 /\
  gp_e_iyz_c r = gp_e_iyz r - gp_ea r * (gp_cy r * gp_cz r) /\
  gp_iyy_c r = gp_iyy r - 2 * gp_cz r * gp_sy r + gp_cz r ^ 2 * area /\
  gp_izz_c r = gp_izz r - 2 * gp_cy r * gp_sz r + gp_cy r ^ 2 * area /\
  gp_iyz_c r = gp_iyz r - gp_cy r * gp_sy r - gp_cz r * gp_sz r + gp_cy r * gp_cz r * area.
Proof.
  intros mk laws dens eig p ms g I r RC HE HI HN G.
  destruct (gross_method mk laws dens eig p ms g I RC HE HI HN) as (r' & G' & C & _). rewrite G in G'. injection G' as <-.
  exact (steiner_of _ _ r (integrates_ql mk ms g I (fun _ => 1) RC HI) (integrates_ql mk ms g I (stiffness0 laws) RC HI) C).
Qed.
Print Assumptions C30_steiner.

(** One section made of the parts of two others: everything about the origin adds up. *)
Theorem C30_additive : forall mk laws dens eig p1 p2 p ms g h I r1 r2 r,
  rings_closed (both g h) -> (forall k, in_use (both g h) k -> 0 < stiffness0 laws k) -> integrates mk ms (both g h) I ->
  I (stiffness0 laws) (fun _ _ => 1) g <> 0 -> I (stiffness0 laws) (fun _ _ => 1) h <> 0 ->
  I (stiffness0 laws) (fun _ _ => 1) (both g h) <> 0 ->
  gross_properties mk laws dens eig (OnePolygon p1) ms g = Ok r1 ->
  gross_properties mk laws dens eig (OnePolygon p2) ms h = Ok r2 ->
  gross_properties mk laws dens eig (OnePolygon p) ms (both g h) = Ok r ->
  gp_area r = gp_area r1 + gp_area r2 /\ gp_area_reinforcement r = gp_area_reinforcement r1 + gp_area_reinforcement r2 /\
  gp_mass r = gp_mass r1 + gp_mass r2 /\ gp_ea r = gp_ea r1 + gp_ea r2 /\
  gp_sy r = gp_sy r1 + gp_sy r2 /\ gp_sz r = gp_sz r1 + gp_sz r2 /\
  gp_iyy r = gp_iyy r1 + gp_iyy r2 /\ gp_izz r = gp_izz r1 + gp_izz r2 /\ gp_iyz r = gp_iyz r1 + gp_iyz r2 /\
  gp_e_sy r = gp_e_sy r1 + gp_e_sy r2 /\ gp_e_sz r = gp_e_sz r1 + gp_e_sz r2 /\
  gp_e_iyy r = gp_e_iyy r1 + gp_e_iyy r2 /\ gp_e_izz r = gp_e_izz r1 + gp_e_izz r2 /\ gp_e_iyz r = gp_e_iyz r1 + gp_e_iyz r2 /\
  gp_cy r * gp_ea r = gp_cy r1 * gp_ea r1 + gp_cy r2 * gp_ea r2 /\ gp_cz r * gp_ea r = gp_cz r1 * gp_ea r1 + gp_cz r2 * gp_ea r2.
Proof.
  intros mk laws dens eig p1 p2 p ms g h I r1 r2 r RC HE HI N1 N2 N G1 G2 G.
  destruct (integrates_both mk ms g h I HI) as (I1 & I2 & AD).
  assert (RC1 : rings_closed g) by (intros s J; apply RC; cbn [both cg_surf]; apply in_app_iff; now left).
  assert (RC2 : rings_closed h) by (intros s J; apply RC; cbn [both cg_surf]; apply in_app_iff; now right).
  assert (HE1 : forall k, in_use g k -> 0 < stiffness0 laws k).
  { intros k [(s & J & Q)|(b & J & Q)]; apply HE; [left; exists s|right; exists b]; cbn [both cg_surf cg_bars]; rewrite in_app_iff; auto. }
  assert (HE2 : forall k, in_use h k -> 0 < stiffness0 laws k).
  { intros k [(s & J & Q)|(b & J & Q)]; apply HE; [left; exists s|right; exists b]; cbn [both cg_surf cg_bars]; rewrite in_app_iff; auto. }
  destruct (gross_method mk laws dens eig p ms (both g h) I RC HE HI N) as (x & X & C & _ & A & B & _ & _ & M). rewrite G in X. injection X as <-.
  destruct (gross_method mk laws dens eig p1 ms g I RC1 HE1 I1 N1) as (x & X & C1 & _ & A1 & B1 & _ & _ & M1). rewrite G1 in X. injection X as <-.
  destruct (gross_method mk laws dens eig p2 ms h I RC2 HE2 I2 N2) as (x & X & C2 & _ & A2 & B2 & _ & _ & M2). rewrite G2 in X. injection X as <-.
  unfold classical in C, C1, C2. rewrite !AD in C.
  decompose [and] C. decompose [and] C1. decompose [and] C2.
  split; [rewrite A, A1, A2; cbn [both cg_surf]; rewrite map_app, lsum_app; reflexivity|].
  split; [rewrite B, B1, B2; cbn [both cg_bars]; rewrite map_app, lsum_app; reflexivity|].
  split; [rewrite M, M1, M2; cbn [both cg_surf cg_bars]; rewrite !map_app, !lsum_app; ring|].
  repeat split; congruence.
Qed.
Print Assumptions C30_additive.

(** Moving the section moves the centroid and changes nothing about it. *)
Theorem C30_translation : forall mk laws dens eig p ms g I u v r r',
  rings_closed g -> (forall k, in_use g k -> 0 < stiffness0 laws k) -> integrates mk ms g I ->
  I (stiffness0 laws) (fun _ _ => 1) g <> 0 ->
  gross_properties mk laws dens eig (OnePolygon p) ms g = Ok r ->
  gross_properties mk laws dens eig (OnePolygon p) ms (translate_geo u v g) = Ok r' ->
  gp_cy r' = gp_cy r + u /\ gp_cz r' = gp_cz r + v /\ gp_area r' = gp_area r /\ gp_ea r' = gp_ea r /\ gp_mass r' = gp_mass r /\
  gp_area_reinforcement r' = gp_area_reinforcement r /\
  gp_iyy_c r' = gp_iyy_c r /\ gp_izz_c r' = gp_izz_c r /\ gp_iyz_c r' = gp_iyz_c r /\
  gp_e_iyy_c r' = gp_e_iyy_c r /\ gp_e_izz_c r' = gp_e_izz_c r /\ gp_e_iyz_c r' = gp_e_iyz_c r /\
  gp_i11 r' = gp_i11 r /\ gp_i22 r' = gp_i22 r /\ gp_theta r' = gp_theta r /\
  gp_e_i11 r' = gp_e_i11 r /\ gp_e_i22 r' = gp_e_i22 r /\ gp_e_theta r' = gp_e_theta r.
Proof.
  intros mk laws dens eig p ms g I u v r r' RC HE HI HN G G'.
  destruct (integrates_moved mk ms g I u v RC HI) as (HI' & SH).
  pose proof (rings_move u v g RC) as RC'.
  assert (HE' : forall k, in_use (translate_geo u v g) k -> 0 < stiffness0 laws k) by (intros k J; apply HE, (in_use_moved u v g k), J).
  assert (ONE : forall E, I E (fun _ _ => 1) (translate_geo u v g) = I E (fun _ _ => 1) g) by (intros E; rewrite (SH E (fun _ _ => 1) 1 0 0 0 0 0) by (intros; ring); reflexivity).
  assert (HN' : I (stiffness0 laws) (fun _ _ => 1) (translate_geo u v g) <> 0) by (rewrite ONE; exact HN).
  destruct (gross_method mk laws dens eig p ms g I RC HE HI HN) as (x & X & C & _ & A & B & P & Q & M). rewrite G in X. injection X as <-.
  destruct (gross_method mk laws dens eig p ms _ I RC' HE' HI' HN') as (x & X & C' & _ & A' & B' & P' & Q' & M'). rewrite G' in X. injection X as <-.
  pose proof (integrates_ql mk ms g I (stiffness0 laws) RC HI) as QW.
  destruct C as (c1 & c2 & c3 & c4 & c5 & c6 & c7 & c8 & c9 & c10 & c11 & c12 & c13 & c14 & c15 & c16 & c17 & c18 & c19).
  destruct C' as (d1 & d2 & d3 & d4 & d5 & d6 & d7 & d8 & d9 & d10 & d11 & d12 & d13 & d14 & d15 & d16 & d17 & d18 & d19).
  rewrite ONE in d1, d12, d13.
  rewrite (SH _ (fun y _ => y) 0 1 0 0 0 0) in d12 by (intros; ring). rewrite (SH _ (fun _ z => z) 0 0 1 0 0 0) in d13 by (intros; ring).
  rewrite (QW (fun y _ => y + u) u 1 0 0 0 0) in d12 by (intros; ring). rewrite (QW (fun _ z => z + v) v 0 1 0 0 0) in d13 by (intros; ring).
  set (W1 := I (stiffness0 laws) (fun _ _ => 1) g) in *.
  assert (CY : gp_cy r' = gp_cy r + u) by (apply Rmult_eq_reg_r with W1; [|exact HN]; lra).
  assert (CZ : gp_cz r' = gp_cz r + v) by (apply Rmult_eq_reg_r with W1; [|exact HN]; lra).
  assert (EXT : forall E a b c phi psi, (forall y z, phi y z = a * y ^ 2 + b * (y * z) + c * z ^ 2) ->
    (forall y z, psi y z = phi (y - gp_cy r') (z - gp_cz r')) ->
    I E psi (translate_geo u v g) = I E (fun y z => phi (y - gp_cy r) (z - gp_cz r)) g).
  { intros E a b c phi psi H H2. 
    rewrite (SH E psi (a * gp_cy r' ^ 2 + b * (gp_cy r' * gp_cz r') + c * gp_cz r' ^ 2) (- 2 * a * gp_cy r' - b * gp_cz r') (- 2 * c * gp_cz r' - b * gp_cy r') a b c)
      by (intros; rewrite H2, H; ring).
    pose proof (integrates_ql mk ms g I E RC HI) as QE.
    rewrite (QE (fun y z => psi (y + u) (z + v)) (a * gp_cy r ^ 2 + b * (gp_cy r * gp_cz r) + c * gp_cz r ^ 2) (- 2 * a * gp_cy r - b * gp_cz r) (- 2 * c * gp_cz r - b * gp_cy r) a b c)
      by (intros; rewrite H2, H, CY, CZ; ring).
    symmetry. apply QE. intros. rewrite H. ring. }
  assert (Y1 : gp_iyy_c r' = gp_iyy_c r) by (rewrite d14, c14; apply (EXT _ 0 0 1 (fun _ z => z ^ 2)); intros; ring).
  assert (Y2 : gp_izz_c r' = gp_izz_c r) by (rewrite d15, c15; apply (EXT _ 1 0 0 (fun y _ => y ^ 2)); intros; ring).
  assert (Y3 : gp_iyz_c r' = gp_iyz_c r) by (rewrite d16, c16; apply (EXT _ 0 1 0 (fun y z => y * z)); intros; ring).
  assert (Y4 : gp_e_iyy_c r' = gp_e_iyy_c r) by (rewrite d17, c17; apply (EXT _ 0 0 1 (fun _ z => z ^ 2)); intros; ring).
  assert (Y5 : gp_e_izz_c r' = gp_e_izz_c r) by (rewrite d18, c18; apply (EXT _ 1 0 0 (fun y _ => y ^ 2)); intros; ring).
  assert (Y6 : gp_e_iyz_c r' = gp_e_iyz_c r) by (rewrite d19, c19; apply (EXT _ 0 1 0 (fun y z => y * z)); intros; ring).
  rewrite Y1, Y2, Y3, <- P in P'. rewrite Y4, Y5, Y6, <- Q in Q'. injection P' as P1 P2 P3. injection Q' as Q1 Q2 Q3.
  assert (AM : gp_area r' = gp_area r).
  { rewrite A, A'. cbn [translate_geo cg_surf]. rewrite map_map. apply lsum_map_ext. intros s J. apply area_moved. exact (RC s J). }
  assert (BM : gp_area_reinforcement r' = gp_area_reinforcement r) by (rewrite B, B'; cbn [translate_geo cg_bars]; rewrite map_map; reflexivity).
  assert (MM : gp_mass r' = gp_mass r).
  { rewrite M, M'. cbn [translate_geo cg_surf cg_bars]. rewrite !map_map, !lsum_app. f_equal. apply lsum_map_ext. intros s J.
    rewrite (area_moved u v s (RC s J)). reflexivity. }
  repeat split; try assumption; congruence.
Qed.
Print Assumptions C30_translation.

(** The principal values have the trace and determinant of the centroidal
    tensor, are the extreme second moments over all directions, and the angle
    gives the first component of a principal direction, for every eigenvalue
    solver that meets its specification. *)
Theorem C30_principal : forall mk laws dens eig p ms g I r,
  eigen_ok eig ->
  rings_closed g -> (forall k, in_use g k -> 0 < stiffness0 laws k) -> integrates mk ms g I ->
  I (stiffness0 laws) (fun _ _ => 1) g <> 0 ->
  gross_properties mk laws dens eig (OnePolygon p) ms g = Ok r ->
  let good a b c i11 i22 th :=
    i11 + i22 = a + b /\ i11 * i22 = a * b - c ^ 2 /\ (forall t, i22 <= inertia_about a b c t <= i11) /\
    0 <= th <= PI /\ exists s, s ^ 2 = sin th ^ 2 /\ eigenvector a b c i11 (cos th, s) in
  good (gp_iyy_c r) (gp_izz_c r) (gp_iyz_c r) (gp_i11 r) (gp_i22 r) (gp_theta r) /\
  good (gp_e_iyy_c r) (gp_e_izz_c r) (gp_e_iyz_c r) (gp_e_i11 r) (gp_e_i22 r) (gp_e_theta r).
Proof.
  intros mk laws dens eig p ms g I r EO RC HE HI HN G good.
  destruct (gross_method mk laws dens eig p ms g I RC HE HI HN) as (x & X & _ & _ & _ & _ & P & Q & _). rewrite G in X. injection X as <-.
  pose proof (principal_spec eig (gp_iyy_c r) (gp_izz_c r) (gp_iyz_c r) EO) as H1. rewrite <- P in H1.
  pose proof (principal_spec eig (gp_e_iyy_c r) (gp_e_izz_c r) (gp_e_iyz_c r) EO) as H2. rewrite <- Q in H2.
  destruct H1 as (a1 & a2 & a3 & a4 & a5). destruct H2 as (b1 & b2 & b3 & b4 & b5).
  split; (split; [assumption|]; split; [assumption|]; split; [intros t; now apply extremal|]; split; assumption).
Qed.
Print Assumptions C30_principal.

(** A section without stiffness in one part is refused. *)
Theorem C30_zero_stiffness_rejected : forall laws dens eig un ms g k,
  rings_closed g -> in_use g k -> stiffness0 laws k <= 0 ->
  exists e, gross_properties marin_integ laws dens eig un ms g = Err e.
Proof.
  intros laws dens eig un ms g k RC U Z. destruct un as [p|]; [|eexists; reflexivity].
  unfold gross_properties. cbn [bind]. rewrite (area_dummy g ms RC). cbn [bind].
  assert (X : exists e, elasticise laws g = Err e).
  { apply used_in in U. unfold elasticise. fold (used g).
    assert (Y : exists e, mapM (fun j => elastic_init (lw_tangent (laws j) 0) None) (used g) = Err e).
    { revert U. generalize (used g). induction l as [|j l IH]; intros J; [destruct J|]. cbn [mapM]. destruct J as [-> | J].
      - unfold elastic_init. unfold stiffness0 in Z. rewrite (proj2 (Rleb_true _ _) Z). eexists. reflexivity.
      - destruct (elastic_init (lw_tangent (laws j) 0) None) as [b|e]; [|eexists; reflexivity]. cbn [bind]. destruct (IH J) as (e & ->). eexists. reflexivity. }
    destruct Y as (e & ->). exists e. reflexivity. }
  destruct X as (e & ->). exists e. reflexivity.
Qed.
Print Assumptions C30_zero_stiffness_rejected.

(** Code fact: a section of separate polygons has no gross properties at all; the
    zero perimeter announced by the warning is never used. *)
Theorem C30_separate_polygons_refuted : forall mk laws dens eig ms g,
  gross_properties mk laws dens eig ManyPolygons ms g = Err AttributeError.
Proof. reflexivity. Qed.
Print Assumptions C30_separate_polygons_refuted.

(** Code fact: the sign of the principal direction is lost, so the angle can
    point along a direction that is not principal. *)
Theorem C30_theta_sign_refuted : exists eig, eigen_ok eig /\
  let '(i11, _, th) := principal eig 2 2 (-1) in
  i11 = 3 /\ ~ eigenvector 2 2 (-1) i11 (cos th, sin th).
Proof.
  exists (eig2 (-1)). split; [apply eig2_ok; ring|]. unfold principal, eig2.
  destruct (Reqb_spec (-1) 0) as [Q|_]; [lra|]. cbv zeta. replace (((2 - 2) / 2) ^ 2 + (-1) ^ 2) with (1 * 1) by field. rewrite sqrt_square by lra.
  destruct (Rltb_spec ((2 + 2) / 2 + 1) ((2 + 2) / 2 - 1)) as [Q|_]; [lra|].
  split; [field|]. intros (H & _). cbn [fst snd] in H.
  set (x := 1 * fst (unit2 (-1 * -1) (-1 * ((2 + 2) / 2 + 1 - 2))) + 0 * snd (unit2 (-1 * -1) (-1 * ((2 + 2) / 2 + 1 - 2)))) in *.
  assert (X : x = / sqrt 2).
  { unfold x, unit2. cbn [fst snd]. replace ((-1 * -1) ^ 2 + (-1 * ((2 + 2) / 2 + 1 - 2)) ^ 2) with 2 by field. field. assert (0 < sqrt 2) by (apply sqrt_lt_R0; lra). lra. }
  assert (SP : 1 < sqrt 2) by (rewrite <- sqrt_1; apply sqrt_lt_1; lra).
  assert (XB : 0 < x < 1). { rewrite X. split; [apply Rinv_0_lt_compat; lra|]. rewrite <- Rinv_1. apply Rinv_lt_contravar; lra. }
  rewrite cos_acos in H by lra. assert (0 <= sin (acos x)) by (apply sin_ge_0; apply acos_bound). nra.
Qed.
Print Assumptions C30_theta_sign_refuted.

(** * Non-vacuity *)
(** Mesh generator: triangles from the first vertex. *)
Definition fan_mesher (s : surface) (_ : R) : list ((R * R) * (R * R) * (R * R)) :=
  match sf_ext s with [] => [] | p :: q => map (fun e => (p, fst e, snd e)) (edges q) end.
Lemma fan_mesher_rigid s : rigid fan_mesher s.
Proof.
  intros a u v k. unfold fan_mesher. cbn [sf_ext]. destruct (sf_ext s) as [|p q]; [reflexivity|]. cbn [map].
  rewrite edges_map, !map_map. apply map_ext. intros [x y]. reflexivity.
Qed.
Lemma ex_closed : rings_closed ex_geo.
Proof. intros s [<- | []]. split; [reflexivity|]. intros r []. Qed.
Lemma ex_stiff k : 0 < stiffness0 ex_laws k.
Proof. unfold stiffness0. cbn. unfold elastic_tangent. cbn. pose proof (pos_INR k). lra. Qed.
Lemma ex_area_one : surface_integral (fun _ _ => 1) ex_surface = 1.
Proof.
  rewrite (surf_poly (fun _ _ => 1) 1 0 0 0 0 0 ex_surface) by (first [exact (ex_closed ex_surface (or_introl eq_refl)) | intros; ring]).
  rewrite <- (surf_area ex_surface (ex_closed ex_surface (or_introl eq_refl))).
  unfold surface_area, ex_surface. cbn [sf_ext sf_ints map]. rewrite shoe_shoelace, lsum_nil. unfold shoelace. cbn. unfold cross. cbn [fst snd]. rewrite Rabs_right by lra. lra.
Qed.
Example C30_marin_applies : integrates marin_integ (1/100) ex_geo weighted /\ weighted (stiffness0 ex_laws) (fun _ _ => 1) ex_geo = 43.
Proof.
  split; [left; split; reflexivity|]. unfold weighted, ex_geo. cbn [cg_surf cg_bars map sf_law br_law br_area]. rewrite !lsum_cons, !lsum_nil, ex_area_one.
  unfold stiffness0. cbn. unfold elastic_tangent. cbn. ring.
Qed.
Example C30_fiber_applies : integrates (fun l => fiber_integ l fan_mesher) (1/100) ex_geo
  (fun E phi g => lumped E (fun s => fan_mesher s (surface_area s * (1/100))) phi g).
Proof.
  right. exists fan_mesher. split; [reflexivity|]. split; [lra|]. split; [|reflexivity].
  intros s [<- | []]. split; [apply fan_mesher_rigid|]. unfold fills. rewrite ex_area_one.
  unfold fan_mesher, ex_surface. cbn [sf_ext edges map fst snd combine tl]. rewrite !lsum_cons, !lsum_nil. unfold shoelace. cbn. unfold cross. cbn [fst snd].
  rewrite !Rabs_right by lra. lra.
Qed.
Example C30_eig_exists : eigen_ok (eig2 1).
Proof. apply eig2_ok. ring. Qed.
