(** C50: elastic cracked section properties. *)
From Coquelicot Require Import Coquelicot.
From Verif Require Import Base M_Marin S_Marin L_Marin M_Laws S_Laws L_Laws L_LawsC M_Laws2 S_Laws2 L_Laws2 M_Fiber S_Fiber L_Fiber P_Fiber M_MarinInt S_MarinInt L_MarinInt L_MarinInt2 L_MarinInt3 L_MarinInt4 M_Section S_Section L_Section L_Section2 M_Gross S_Gross L_Gross L_Gross2 M_Geo M_Cracked S_Cracked L_Cracked L_Cracked2 L_Cracked3 L_Cracked4 L_Cracked5 L_Cracked6 L_Cracked7 L_Cracked8.
From Coq Require Import Lra Lia Permutation.

(** A section without concrete has no cracked properties. *)
Theorem C50_not_reinforced : forall mk laws eig un cutter centroid ms theta g,
  cp_rc g = RcNone -> (forall s, In s (cp_surf g) -> sg_concrete s = false) ->
  cracked_properties mk laws eig un cutter centroid ms theta g = Ok None.
Proof.
  intros mk laws eig un cutter centroid ms theta g R0 H. unfold cracked_properties, reinforced_concrete. rewrite R0. cbn [bind fst].
  replace (existsb sg_concrete (cp_surf g)) with false; [reflexivity|]. symmetry. apply not_true_iff_false. intros X.
  apply existsb_exists in X. destruct X as (s & I & E). rewrite (H s I) in E. discriminate.
Qed.
Print Assumptions C50_not_reinforced.

(** The material that stands for concrete: elastic with the initial stiffness in
    compression, nothing in tension (strains below a thousandth of a permille
    count as zero). *)
Theorem C50_concrete_law : forall l, exists cl, cracked_law true l = Ok cl /\ batched cl /\ lw_tangent cl 0 = lw_tangent l 0 /\
  forall e, -99 <= e -> e <= - / 10 ^ 5 \/ 0 <= e -> lw_stress cl e = no_tension (lw_tangent l 0) e.
Proof.
  intros l. exists (ncl (lw_tangent l 0)). split; [apply ncl_init|]. split; [apply ncl_batched|]. split; [apply ncl_tangent|].
  intros e L H. set (E := lw_tangent l 0). cbn [ncl ud_law lw_stress]. unfold ud_stress. cbn [ud_x ud_y].
  set (lim := ud_ult _).
  assert (AT0 : interp [-100; 0] [-100 * E; 0] 0 = 0).
  { unfold interp. destruct (Rltb_spec 0 (-100)); [lra|]. cbn [interp_go]. rsplit; try lra; try (field; lra). }
  assert (F2 : far (fst lim) e).
  { unfold far, tol, lim, ud_ult. cbn [fst snd ud_un]. rewrite (Rabs_left (-100)) by lra. rewrite (Rabs_pos_eq (e - -100)) by lra. lra. }
  destruct (near_or_far (snd lim) e) as [N|F].
  - rewrite (prep_max lim e N). cbn [lim ud_ult snd ud_up]. rewrite AT0. unfold near, tol, lim, ud_ult in N. cbn [snd ud_up] in N.
    rewrite Rabs_R0, Rminus_0_r in N. unfold no_tension. destruct (Rle_dec e 0); [|reflexivity]. destruct H as [H|H]; [|replace e with 0 by lra; ring].
    rewrite Rabs_left1 in N by lra. cbn [pow] in H. lra.
  - rewrite (prep_far lim e F F2). unfold interp, no_tension. destruct (Rltb_spec e (-100)); [lra|]. cbn [interp_go].
    destruct (Rltb_spec e 0) as [M|M]; destruct (Rle_dec e 0) as [K|K]; try (exfalso; lra).
    + destruct (Reqb_spec e (-100)); [lra|]. field.
    + replace e with 0 by lra. destruct (Reqb_spec 0 0); lra.
    + destruct (Reqb_spec e 0); lra.
Qed.
Print Assumptions C50_concrete_law.

(** Concrete sections, Marin integration: there is a neutral axis, at height c in
    axes turned by theta, about which the first moment of the compression zone
    and the bars vanishes (within the force tolerance), and every returned property
    is the classical one of that cracked section in the user's axes. *)
Theorem C50_cracked_section : forall laws eig un cutter centroid ms theta g rc,
  reinforced_concrete g = Ok (true, rc) -> (forall s, In s (cp_surf g) -> sg_concrete s = true) ->
  let g0 := forget g in let E := stiffness0 laws in
  rings_closed g0 -> moderate g0 -> (forall k, in_use g0 k -> 0 < E k) ->
  (forall s, In s (cp_surf g) -> solid (plain (outline theta s))) ->
  (forall s c, In s (cp_surf g) -> cuts_at cutter centroid (outline theta s) c) ->
  (exists p, In p (cp_pnt g) /\ pg_diam p <> 0) ->
  weighted E (fun _ _ => 1) g0 <= 10 ^ 24 ->
  Rabs (first_moment E theta g0 0) <= 1000 \/ (forall m j, first_moment E theta g0 (100 * (IZR m / 2 ^ j)) <> 0) ->
  exists c cr, Rabs (first_moment E theta g0 c) <= 1000 /\ bars_at cr = bars_at g0 /\
    (forall phi ca cb cc cd ce cf, (forall y z, phi y z = ca + cb * y + cc * z + cd * y ^ 2 + ce * y * z + cf * z ^ 2) ->
       weighted (fun _ => 1) phi cr = cracked_integral (fun _ => 1) theta c g0 phi) /\
    let result := cracked_properties marin_integ laws eig un cutter centroid ms theta g in
    (un cr = ManyPolygons -> result = Err AttributeError) /\
    (forall p, un cr = OnePolygon p -> exists r, result = Ok (Some (r, cr)) /\
      classical (cracked_integral (fun _ => 1) theta c g0) (cracked_integral E theta c g0) r /\
      gp_ea r * (height theta (gp_cy r) (gp_cz r) - c) = first_moment E theta g0 c /\
      gp_perimeter r = p /\ gp_area r = lsum (map (area_above theta c) (cp_surf g)) /\
      gp_area_reinforcement r = lsum (map pg_area (cp_pnt g)) /\
      gp_mass r = lsum (map (fun s => kg (sg_density s) * area_above theta c s) (cp_surf g)) +
                  lsum (map (fun b => kg (pg_density b) * pg_area b) (cp_pnt g))).
Proof.
  intros laws eig un cutter centroid ms theta g rc RCT CC g0 E RC MO EP SO CU ONE EB NZ.
  destruct (equilibrium_here laws theta g RC MO EP SO ONE EB NZ) as (e & X & Y).
  exists (- e / curv), (cracked theta g0 cutter centroid (- e / curv)).
  assert (HC : forall s, In s (cg_surf g0) -> cuts_at cutter centroid (poly_of (turned (- theta) s)) (- e / curv)).
  { intros s I. destruct (g0_surf g s I) as (s1 & I1 & ->). exact (CU s1 (- e / curv) I1). }
  split; [exact Y|]. split; [apply bars_back|]. split.
  { intros phi ca cb cc cd ce cf H. exact (weighted_cracked E theta g0 cutter centroid (- e / curv) HC (fun _ => 1) phi ca cb cc cd ce cf H). }
  intros result. split.
  - apply (run laws eig un cutter centroid ms theta g CC EP CU ONE e rc 0 RCT X).
  - intros p U. destruct (run laws eig un cutter centroid ms theta g CC EP CU ONE e rc p RCT X) as [_ H].
    destruct (H U) as (r & H1 & H2 & H3 & H4 & H5 & H6 & H7). exists r. repeat (split; [assumption|]). assumption.
Qed.
Print Assumptions C50_cracked_section.

(** The mesh size the user gave to a fibre section plays no role: triangles of one
    hundredth of the area are all that is ever asked of the mesh generator, so
    that two sections whose meshes agree at that size get the same result,
    whatever their own mesh sizes. *)
Theorem C50_mesh_size_ignored_refuted : forall laws eig un cutter centroid ms ms' theta g mesher mesher',
  (forall s, mesher s (surface_area s * (1/100)) = mesher' s (surface_area s * (1/100))) ->
  cracked_properties (fun l => fiber_integ l mesher) laws eig un cutter centroid ms theta g =
  cracked_properties (fun l => fiber_integ l mesher') laws eig un cutter centroid ms' theta g.
Proof.
  intros laws eig un cutter centroid ms ms' theta g mesher mesher' H.
  assert (F : forall l h p d m, m = None \/ m = Some (1/100) -> fiber_forces l mesher h p d m = fiber_forces l mesher' h p d m).
  { intros l h p d m M. unfold fiber_forces, prepare_input. f_equal. f_equal. destruct d as [d|]; [reflexivity|].
    assert (T1 : triangulate mesher h (1/100) = triangulate mesher' h (1/100)).
    { unfold triangulate. destruct (Rleb (1/100) 0 || Rltb 1 (1/100))%bool; [reflexivity|]. f_equal. f_equal. apply map_ext. intros s. now rewrite H. }
    destruct M as [->| ->]; exact T1. }
  assert (FC : forall l h n c e s, fixed_curvature (fiber_integ l mesher) h n c e s = fixed_curvature (fiber_integ l mesher') h n c e s).
  { intros l h n c e s.
    assert (AX : axial_fun (fiber_integ l mesher) h = axial_fun (fiber_integ l mesher') h).
    { apply FunctionalExtensionality.functional_extensionality. intros s'. apply FunctionalExtensionality.functional_extensionality. intros p.
      unfold axial_fun. cbn [fiber_integ ig_forces]. rewrite F by now left. reflexivity. }
    unfold fixed_curvature. rewrite AX. unfold abind. 
    assert (FK : forces_k (fiber_integ l mesher) h (e, c, 0) None s = forces_k (fiber_integ l mesher') h (e, c, 0) None s).
    { unfold forces_k. cbn [fiber_integ ig_forces]. rewrite F by now left. reflexivity. }
    rewrite FK. reflexivity. }
  assert (AM : forall l h, area_moments (fun l => fiber_integ l mesher) l (1/100) h = area_moments (fun l => fiber_integ l mesher') l (1/100) h).
  { intros l h. unfold area_moments. cbn [fiber_integ ig_forces]. rewrite F by now right.
    destruct (fiber_forces l mesher' h (0, 1, 0) None (Some (1/100))) as [[[[a b] c] d]|x]; [|reflexivity]. cbn [bind]. rewrite F by now right. reflexivity. }
  assert (GP : forall l d u h, gross_properties (fun l => fiber_integ l mesher) l d eig u (1/100) h = gross_properties (fun l => fiber_integ l mesher') l d eig u (1/100) h).
  { intros l d u h. unfold gross_properties. destruct u as [p|]; [|reflexivity]. cbn [bind]. rewrite AM.
    destruct (area_moments (fun l => fiber_integ l mesher') unit_laws (1/100) (dummy h)) as [[[[[a1 a2] a3] a4] a5]|x]; [|reflexivity]. cbn [bind].
    destruct (elasticise l h) as [eg|x]; [|reflexivity]. cbn [bind]. rewrite AM.
    destruct (area_moments (fun l => fiber_integ l mesher') (snd eg) (1/100) (fst eg)) as [[[[[b1 b2] b3] b4] b5]|x]; [|reflexivity]. cbn [bind]. cbv zeta. rewrite AM.
    set (tg := translate_geo _ _ h). destruct (area_moments (fun l => fiber_integ l mesher') unit_laws (1/100) (dummy tg)) as [[[[[c1 c2] c3] c4] c5]|x]; [|reflexivity]. cbn [bind].
    destruct (elasticise l tg) as [etg|x]; [|reflexivity]. cbn [bind]. rewrite AM. reflexivity. }
  unfold cracked_properties. destruct (reinforced_concrete g) as [rc|x]; [|reflexivity]. cbn [bind]. destruct (fst rc); [|reflexivity]. cbn [negb].
  destruct (temporary laws theta g) as [[[tg tl] td]|x]; [|reflexivity]. cbn [bind]. rewrite FC.
  destruct (fst (fixed_curvature (fiber_integ tl mesher') tg 0 cracked_curvature 0 st_init)) as [st|x]; [|reflexivity]. cbn [bind]. cbv zeta. rewrite GP. reflexivity.
Qed.
Print Assumptions C50_mesh_size_ignored_refuted.

(** Surfaces that are not concrete carry tension while the neutral axis is sought,
    but are cut at the axis afterwards: in a section of a steel plate below
    a concrete plate (equally stiff, no bars) the axis balances concrete above and
    steel below, yet the steel is missing from the returned properties and
    the centroid is not on the axis. *)
Theorem C50_composite_refuted : forall eig ms p, exists r,
  cracked_properties marin_integ plates_laws eig (fun _ => OnePolygon p) level_cutter middle ms 0 plates = Ok (Some (r, pt_cracked)) /\
  (forall s c, In s (cp_surf plates) -> cuts_at level_cutter middle (outline 0 s) c) /\
  surface_integral (fun _ z => z) (plain (sg_poly steel_plate)) + part_above 0 (fun _ z => z) (plain (sg_poly concrete_plate)) = 0 /\
  gp_ea r = surface_integral (fun _ _ => 1) (plain (sg_poly concrete_plate)) /\
  height 0 (gp_cy r) (gp_cz r) = 1/2.
Proof.
  intros eig ms p. destruct (plates_run eig ms p) as (r & Q & EA & CZ). exists r. split; [exact Q|].
  unfold plain. cbn [steel_plate concrete_plate sg_poly rect_poly pl_ext pl_ints]. split; [|split; [|split]].
  - intros s c [<-|[<-|[]]]; unfold outline; cbn [steel_plate concrete_plate sg_poly rect_poly pl_ext pl_ints map]; rewrite turn_zero_ring; apply rect_cuts; lra.
  - rewrite (surface_field (fun z => z)), (sfield_rect (fun z => z) 0 1 (-1) 0 0 (0 ^ 2 / 2 - (-1) ^ 2 / 2)) by (lra || apply int_id).
    unfold part_above. rewrite (surf_ext _ (fun _ z => ramp 0 z)) by (intros y z; unfold ramp, Rmax; destruct (Rlt_dec 0 z), (Rle_dec 0 (z - 0)); lra).
    rewrite (surface_field (ramp 0)), (sfield_rect (ramp 0) 0 1 0 1 0 (1 ^ 2 / 2)) by (lra || (apply int_ramp0; lra)). field.
  - rewrite EA, (surface_field (fun _ => 1)), (sfield_rect (fun _ => 1) 0 1 0 1 0 (scal (1 - 0) 1)) by (lra || apply (is_RInt_const (V := R_NormedModule))).
    change (scal (1 - 0) 1) with ((1 - 0) * 1). ring.
  - unfold height. rewrite CZ, cos_0, sin_0. lra.
Qed.
Print Assumptions C50_composite_refuted.

(** The hypotheses of [C50_cracked_section] hold for a beam of 300 by 600 mm with a
    bar of 40 mm. *)
Example C50_applies : reinforced_concrete beam = Ok (true, {| cp_surf := cp_surf beam; cp_pnt := cp_pnt beam; cp_rc := RcKnown true |}) /\
  (forall s, In s (cp_surf beam) -> sg_concrete s = true) /\
  rings_closed (forget beam) /\ moderate (forget beam) /\ (forall k, in_use (forget beam) k -> 0 < stiffness0 beam_laws k) /\
  (forall s, In s (cp_surf beam) -> solid (plain (outline 0 s))) /\
  (forall s c, In s (cp_surf beam) -> cuts_at level_cutter middle (outline 0 s) c) /\
  (exists p, In p (cp_pnt beam) /\ pg_diam p <> 0) /\
  weighted (stiffness0 beam_laws) (fun _ _ => 1) (forget beam) <= 10 ^ 24 /\
  Rabs (first_moment (stiffness0 beam_laws) 0 (forget beam) 0) <= 1000.
Proof.
  split; [reflexivity|]. split; [intros s [<-|[]]; reflexivity|]. split; [intros s [<-|[]]; split; [reflexivity|contradiction]|].
  split; [split|].
  - intros s v [<-|[]] [J|(r & [] & _)]. cbn in J. repeat (destruct J as [<-|J]; [cbn [fst snd pow]; lra|]). contradiction.
  - intros b [<-|[]]. cbn [br_y br_z pg_at fst snd]. destruct depth_bounds as ([A B] & _). cbn [pow]. nra.
  - split; [|split; [|split; [|split; [|split]]]].
    + intros k _. unfold stiffness0, beam_laws. cbn. destruct k; lra.
    + intros s [<-|[]]. unfold outline. cbn [sg_poly rect_poly pl_ext pl_ints map]. rewrite turn_zero_ring. apply (rect_solid (-150) 150 (-450) 150); lra.
    + intros s c [<-|[]]. unfold outline. cbn [sg_poly rect_poly pl_ext pl_ints map]. rewrite turn_zero_ring. apply rect_cuts; lra.
    + eexists. split; [now left|]. cbn. lra.
    + apply beam_stiff.
    + rewrite beam_moment, Rabs_R0. lra.
Qed.
