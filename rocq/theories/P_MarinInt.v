(** C21: the Marin integrator. *)
From Coquelicot Require Import Coquelicot.
From Verif Require Import Base M_Marin S_Marin L_Marin M_Laws S_Laws L_Laws L_LawsC M_Laws2 S_Laws2 M_Fiber S_Fiber L_Fiber P_Fiber
  M_MarinInt S_MarinInt L_MarinInt L_MarinInt2 L_MarinInt3 L_MarinInt4.

(** Forces.  For every geometry with closed rings, every profile and every law
    whose Marin output is the field fs (see C21_law_fields for the laws), the
    integrator returns the area integrals of the stress field over the surfaces,
    expressed in the user's axes, plus the forces of the bars.  The integrals are
    iterated integrals in axes turned by an angle a aligned with the curvature. *)
Theorem C21_forces : forall laws fs g e0 ky kz, let r := sqrt (kz ^ 2 + ky ^ 2) in
  (forall k, batched (laws k)) ->
  (forall s, In s (cg_surf g) ->
     closed (sf_ext s) /\ (forall q, In q (sf_ints s) -> closed q) /\
     field_of (lw_marin (laws (sf_law s)) (e0, r)) (fs (sf_law s)) e0 r) ->
  (forall b b', In b (cg_bars g) -> In b' (cg_bars g) ->
     count_law (br_law b) (cg_bars g) = count_law (br_law b') (cg_bars g)) ->
  exists a N My Mz data,
    r * cos a = ky /\ r * sin a = - kz /\
    marin_forces laws g (e0, ky, kz) None = Ok ((N, My, Mz), data) /\
    N = surfaces_turned fs (fun _ _ => 1) a e0 ky kz (cg_surf g) + axial (bar_fibres laws g) e0 ky kz /\
    My = surfaces_turned fs (fun _ z => z) a e0 ky kz (cg_surf g) + moment_y (bar_fibres laws g) e0 ky kz /\
    Mz = surfaces_turned fs (fun y _ => - y) a e0 ky kz (cg_surf g) + moment_z (bar_fibres laws g) e0 ky kz.
Proof.
  intros laws fs g e0 ky kz r B G Q. exists (- atan2 kz ky). do 4 eexists.
  destruct (atan2_spec ky kz) as [A1 A2]. rewrite cos_neg, sin_neg. split; [exact A1|]. split; [unfold r; lra|].
  split; [apply (forces_core laws fs g e0 ky kz B); [|exact Q]|].
  - intros s I. destruct (G s I) as (C1 & C2 & F). auto.
  - unfold axial, moment_y, moment_z, bar_fibres. rewrite !map_map. cbn [mfibre_at m_sigma m_a m_y m_z].
    split; [|split]; f_equal; unfold barpart, arm, pick.
    + apply lsum_map_ext. intros. ring.
    + rewrite <- lsum_map_opp. apply lsum_map_ext. intros. ring.
Qed.
Print Assumptions C21_forces.

(** Stiffness: integrals of tangent modulus times (1, z, -y) outer (1, z, -y). *)
Theorem C21_stiffness : forall laws fs g e0 ky kz, let r := sqrt (kz ^ 2 + ky ^ 2) in
  (forall k, batched (laws k)) ->
  (forall s, In s (cg_surf g) ->
     closed (sf_ext s) /\ (forall q, In q (sf_ints s) -> closed q) /\
     field_of (lw_marin_tangent (laws (sf_law s)) (e0, r)) (fs (sf_law s)) e0 r) ->
  (forall b b', In b (cg_bars g) -> In b' (cg_bars g) ->
     count_law (br_law b) (cg_bars g) = count_law (br_law b') (cg_bars g)) ->
  exists a K data,
    r * cos a = ky /\ r * sin a = - kz /\
    marin_stiffness laws g (e0, ky, kz) None = Ok (K, data) /\
    (forall i j, (i < 3)%nat -> (j < 3)%nat -> K i j =
       surfaces_turned fs (fun y z => arm i y z * arm j y z) a e0 ky kz (cg_surf g)
       + stiff (bar_fibres laws g) e0 ky kz i j) /\
    (forall i j, (i < 3)%nat -> (j < 3)%nat -> K i j = K j i).
Proof.
  intros laws fs g e0 ky kz r B G Q.
  destruct (stiffness_core laws fs g e0 ky kz B) as (K & E & HK); [|exact Q|].
  { intros s I. destruct (G s I) as (C1 & C2 & F). auto. }
  exists (- atan2 kz ky), K. eexists.
  destruct (atan2_spec ky kz) as [A1 A2]. rewrite cos_neg, sin_neg. split; [exact A1|]. split; [unfold r; lra|].
  split; [exact E|].
  assert (HK' : forall i j, (i < 3)%nat -> (j < 3)%nat -> K i j =
       surfaces_turned fs (fun y z => arm i y z * arm j y z) (- atan2 kz ky) e0 ky kz (cg_surf g)
       + stiff (bar_fibres laws g) e0 ky kz i j).
  { intros i j Hi Hj. rewrite HK by assumption. f_equal. unfold barpart, stiff, bar_fibres, fibre_tangent. rewrite map_map.
    apply lsum_map_ext. intros b _. cbn [mfibre_at m_tangent m_a m_y m_z pick].
    unfold lever, arm. destruct i as [|[|i]], j as [|[|j]]; cbn [mfibre_at m_y m_z]; ring. }
  split; [exact HK'|]. intros i j Hi Hj. rewrite !HK' by assumption. f_equal; [|unfold stiff; apply lsum_map_ext; intros; ring].
  unfold surfaces_turned. apply lsum_map_ext. intros s _. unfold surface_integral. f_equal.
  - apply region_ext. intros. ring.
  - apply lsum_map_ext. intros. apply region_ext. intros. ring.
Qed.
Print Assumptions C21_stiffness.

(** The hypothesis of the two theorems holds for the elastic, the elastic-plastic
    and the parabola-rectangle law, with the curves written out in the
    specification, at every profile (uniform strain: not in the snapping zone). *)
Theorem C21_law_fields :
  (forall E u l e0 r, elastic_init E u = Ok l ->
     field_of (elastic_marin l (e0, r)) (fun e => E * e) e0 r /\
     field_of (elastic_marin_tangent l (e0, r)) (fun _ => E) e0 r) /\
  (forall E fy Eh u l e0 r, ep_init E fy Eh (Some u) = Ok l -> 0 < fy -> fy / E <= u ->
     0 <= r -> (r = 0 -> settled (- u, u) e0) ->
     field_of (ep_marin l (e0, r)) (ep_curve E fy Eh u) e0 r /\
     field_of (ep_marin_tangent l (e0, r)) (ep_slope E fy Eh u) e0 r) /\
  (forall fc p u e0 r, 0 <= fc -> 0 < p <= u -> 0 <= r -> (r = 0 -> settled (- u, 100) e0) ->
     field_of (pr_marin2 (pr_init fc p u 2) (e0, r)) (pr_curve fc p u) e0 r /\
     field_of (pr_marin_tangent2 (pr_init fc p u 2) (e0, r)) (pr_slope fc p u) e0 r).
Proof.
  split; [|split; [exact ep_field|exact pr_field]].
  intros E u l e0 r H.
  assert (X : el_E l = E).
  { unfold elastic_init in H. destruct (Rleb E 0); [discriminate|].
    destruct u as [x|]; [destruct (set_ultimate x); [|discriminate]|]; cbn in H; inversion H; reflexivity. }
  rewrite <- X. apply elastic_field.
Qed.
Print Assumptions C21_law_fields.

(** Elastic sections, in the user's own axes: E times the exact area moments. *)
Theorem C21_elastic_exact : forall laws E g e0 ky kz,
  (forall k, batched (laws k)) ->
  (forall s, In s (cg_surf g) -> closed (sf_ext s) /\ (forall q, In q (sf_ints s) -> closed q) /\
     exists l, laws (sf_law s) = elastic_law l /\ el_E l = E (sf_law s)) ->
  (forall b b', In b (cg_bars g) -> In b' (cg_bars g) ->
     count_law (br_law b) (cg_bars g) = count_law (br_law b') (cg_bars g)) ->
  let total wt := lsum (map (fun s => surface_integral (fun y z => E (sf_law s) * plane_strain e0 ky kz y z * wt y z) s) (cg_surf g)) in
  exists data, marin_forces laws g (e0, ky, kz) None = Ok
   ((total (fun _ _ => 1) + axial (bar_fibres laws g) e0 ky kz,
     total (fun _ z => z) + moment_y (bar_fibres laws g) e0 ky kz,
     total (fun y _ => - y) + moment_z (bar_fibres laws g) e0 ky kz), data).
Proof.
  intros laws E g e0 ky kz B G Q total.
  destruct (C21_forces laws (fun k e => E k * e) g e0 ky kz B) as (a & N & My & Mz & d & _ & _ & EF & -> & -> & ->); [|exact Q|].
  { intros s I. destruct (G s I) as (C1 & C2 & l & -> & <-). split; [exact C1|]. split; [exact C2|]. apply elastic_field. }
  exists d. rewrite EF. 
  assert (T : forall wt p q w, (forall y z, wt y z = p + q * y + w * z) ->
     surfaces_turned (fun k e => E k * e) wt a e0 ky kz (cg_surf g) = total wt).
  { intros wt p q w HW. unfold surfaces_turned, total. apply lsum_map_ext. intros s I. destruct (G s I) as (C1 & C2 & _).
    assert (QQ : forall y z, E (sf_law s) * plane_strain e0 ky kz y z * wt y z =
      quadratic (E (sf_law s) * (e0 * p)) (E (sf_law s) * (e0 * q - kz * p)) (E (sf_law s) * (e0 * w + ky * p))
        (E (sf_law s) * (- kz * q)) (E (sf_law s) * (ky * q - kz * w)) (E (sf_law s) * (ky * w)) y z).
    { intros. rewrite HW. unfold quadratic, plane_strain. ring. }
    transitivity (surface_integral (quadratic (E (sf_law s) * (e0 * p)) (E (sf_law s) * (e0 * q - kz * p)) (E (sf_law s) * (e0 * w + ky * p))
        (E (sf_law s) * (- kz * q)) (E (sf_law s) * (ky * q - kz * w)) (E (sf_law s) * (ky * w))) s).
    - rewrite <- (surface_quadratic_turned a) by assumption. unfold surface_integral. f_equal.
      + apply region_ext. intros. apply QQ.
      + apply lsum_map_ext. intros. apply region_ext. intros. apply QQ.
    - unfold surface_integral. f_equal; [|apply lsum_map_ext; intros]; apply region_ext; intros; symmetry; apply QQ. }
  rewrite (T (fun _ _ => 1) 1 0 0), (T (fun _ z => z) 0 0 1), (T (fun y _ => - y) 0 (-1) 0) by (intros; ring).
  reflexivity.
Qed.
Print Assumptions C21_elastic_exact.

(** Quadratic fields: the surface integral of the specification is the sum of
    the exact area moments of its oriented rings. *)
Theorem C21_spec_is_area_moments : forall ca cb cc cd ce cf ring, closed ring ->
  region_integral (fun y z => ca + cb * y + cc * z + cd * y ^ 2 + ce * y * z + cf * z ^ 2) ring =
  ca * fan_moment 0 0 ring + cb * fan_moment 1 0 ring + cc * fan_moment 0 1 ring
  + cd * fan_moment 2 0 ring + ce * fan_moment 1 1 ring + cf * fan_moment 0 2 ring.
Proof. exact region_quadratic. Qed.
Print Assumptions C21_spec_is_area_moments.

(** The data returned by any call can be given back to a later call with any
    other profile and does not change its result. *)
Theorem C21_data_reuse : forall laws g p p' F d,
  (forall k, batched (laws k)) -> marin_forces laws g p None = Ok (F, d) ->
  marin_forces laws g p' (Some d) = marin_forces laws g p' None /\
  marin_stiffness laws g p' (Some d) = marin_stiffness laws g p' None.
Proof.
  intros laws g p p' F d B E. apply forces_data in E. subst d. split; [now apply forces_reuse|now apply stiffness_reuse].
Qed.
Print Assumptions C21_data_reuse.

(** ** Example: a square with two bars of the same law *)
Definition ex_geo2 : compound :=
  {| cg_surf := cg_surf ex_geo; cg_bars := [ {| br_y := 1/4; br_z := 1/4; br_area := 1/100; br_law := 1%nat |};
                                             {| br_y := 3/4; br_z := 1/4; br_area := 1/100; br_law := 1%nat |} ] |}.
Example C21_example : forall e0 ky kz, exists a N My Mz data,
  sqrt (kz ^ 2 + ky ^ 2) * cos a = ky /\ sqrt (kz ^ 2 + ky ^ 2) * sin a = - kz /\
  marin_forces ex_laws ex_geo2 (e0, ky, kz) None = Ok ((N, My, Mz), data) /\
  N = surfaces_turned (fun k e => (INR k + 1) * e) (fun _ _ => 1) a e0 ky kz (cg_surf ex_geo2) + axial (bar_fibres ex_laws ex_geo2) e0 ky kz.
Proof.
  intros e0 ky kz.
  destruct (C21_forces ex_laws (fun k e => (INR k + 1) * e) ex_geo2 e0 ky kz) as (a & N & My & Mz & d & A1 & A2 & E & HN & _).
  - intros k. apply elastic_batched.
  - intros s [<-|[]]. split; [reflexivity|]. split; [intros q []|]. apply elastic_field.
  - intros b b' [<-|[<-|[]]] [<-|[<-|[]]]; reflexivity.
  - exists a, N, My, Mz, d. auto.
Qed.

(** Bars of two materials in different numbers: the integrator does not return
    the resultants but raises ValueError (three bars of law 1, one of law 2). *)
Theorem C21_unequal_bar_groups_refuted : forall laws e0 ky kz, (forall k, batched (laws k)) ->
  marin_forces laws {| cg_surf := []; cg_bars := [
     {| br_y := 1/4; br_z := 1/4; br_area := 1/100; br_law := 1%nat |};
     {| br_y := 3/4; br_z := 1/4; br_area := 1/100; br_law := 1%nat |};
     {| br_y := 3/4; br_z := 3/4; br_area := 1/100; br_law := 2%nat |}] |} (e0, ky, kz) None = Err ValueError.
Proof.
  intros laws e0 ky kz B. unfold marin_forces, m_prepare. cbn [cg_surf map surfaces_entries bind fst snd cg_bars].
  rewrite bars_entries_ok by (assumption || discriminate). reflexivity.
Qed.
Print Assumptions C21_unequal_bar_groups_refuted.

(** Uniform strain within the tolerance of the first surface's limit: the law
    replaces the strain in place and every geometry processed afterwards sees the
    replaced strain, so the order in which the surfaces are listed changes the
    forces.  Concrete limit -35/10000, strain -35/10000 - 1/1000000. *)
Theorem C21_surface_order_refuted : exists laws s1 s2 e0 F F' d d',
  (forall k, batched (laws k)) /\
  marin_forces laws {| cg_surf := [s1; s2]; cg_bars := [] |} (e0, 0, 0) None = Ok (F, d) /\
  marin_forces laws {| cg_surf := [s2; s1]; cg_bars := [] |} (e0, 0, 0) None = Ok (F', d') /\
  fst (fst F) <> fst (fst F').
Proof.
  exists (fun k => match k with 0%nat => pr_law (pr_init 30 (2/1000) (35/10000) 2) | _ => ex_el 1000000 end).
  exists ex_surface, {| sf_ext := sf_ext ex_surface; sf_ints := []; sf_law := 1 |}, (- (35/10000) - / 1000000).
  assert (A0 : atan2 0 0 = 0).
  { unfold atan2. destruct (Rltb_spec 0 0); [lra|reflexivity]. }
  assert (R0 : rotate_surface (- 0) ex_surface = ex_surface).
  { unfold rotate_surface, ex_surface, rot. cbn [sf_ext sf_ints sf_law map fst snd]. rewrite Ropp_0, cos_0, sin_0.
    assert (Z : forall y z, (1 * y - 0 * z, 0 * y + 1 * z) = (y, z)) by (intros; f_equal; ring). rewrite !Z. reflexivity. }
  assert (O : oriented ex_surface = [sf_ext ex_surface]).
  { unfold oriented, orient_ext, ex_surface. cbn [sf_ext sf_ints map]. destruct (Rltb_spec (shoe [(0, 0); (1, 0); (1, 1); (0, 1); (0, 0)]) 0) as [L|]; [|reflexivity].
    cbn in L. lra. }
  assert (PA : prep (- (35/10000), 100) (- (35/10000) - / 1000000) = - (35/10000)).
  { apply prep_min; cbn [fst snd]; unfold near, far, tol; rnum. }
  assert (S1 : forall e, surface_entries (ex_el 1000000) IStress e 0 {| sf_ext := sf_ext ex_surface; sf_ints := []; sf_law := 1 |} =
     Ok (e, [([1000000 * e; 1000000 * 0], sf_ext ex_surface)])).
  { intros e. unfold surface_entries. cbn [bind ex_el elastic_law lw_marin elastic_marin fst snd el_E].
    change (oriented {| sf_ext := sf_ext ex_surface; sf_ints := []; sf_law := 1 |}) with (oriented ex_surface). rewrite O. reflexivity. }
  assert (S0 : surface_entries (pr_law (pr_init 30 (2/1000) (35/10000) 2)) IStress (- (35/10000) - / 1000000) 0 ex_surface =
     Ok (- (35/10000), [([- 30], sf_ext ex_surface)])).
  { unfold surface_entries. cbn [bind pr_law lw_marin]. unfold pr_marin2, pr_init, pr_ult. cbn [pr_fc pr_e0 pr_eu].
    rewrite !Rabs_pos_eq by lra. destruct (Reqb_spec 0 0); [|lra]. rewrite PA.
    destruct (Rltb_spec 0 (- (35/10000))); [lra|]. destruct (Rltb_spec (- (2/1000)) (- (35/10000))); [lra|].
    destruct (Rleb_spec (- (35/10000)) (- (35/10000))); [|lra]. cbn [fst snd]. rewrite O. reflexivity. }
  assert (SQ : sqrt (0 ^ 2 + 0 ^ 2) = 0) by (replace (0 ^ 2 + 0 ^ 2) with 0 by ring; apply sqrt_0).
  assert (M0 : moment_of (sf_ext ex_surface) 0 0 = 1).
  { unfold moment_of. rewrite ring_moment_fan, fan_area. unfold shoelace, cross, ex_surface. cbn. lra. }
  do 4 eexists. split.
  { intros [|k]; [|apply elastic_batched]. split; intros; cbn [pr_law lw_stress_arr lw_tangent_arr fst].
    - apply pr_stress_arr_map; [apply pr_init_wf; [lra|rnum|lra]|]. unfold separated, far, tol. cbn. rnum.
    - apply pr_tangent_arr_map. }
  unfold marin_forces, m_prepare, p_e0, p_ky, p_kz. cbn [cg_surf cg_bars map fst snd]. rewrite A0, SQ, R0.
  change (rotate_surface (- 0) {| sf_ext := sf_ext ex_surface; sf_ints := []; sf_law := 1 |}) with
    {| sf_ext := sf_ext (rotate_surface (- 0) ex_surface); sf_ints := []; sf_law := 1 |}. rewrite R0.
  cbn [surfaces_entries]. change (sf_law ex_surface) with 0%nat. cbn [sf_law]. 
  rewrite !S1, S0. cbn [bind fst snd bars_entries bar_groups group_bars fold_left map homogeneous app].
  rewrite !S1, S0. cbn [bind fst snd bars_entries bar_groups group_bars fold_left map homogeneous app].
  split; [reflexivity|]. split; [reflexivity|]. unfold m_integrate_stress. cbn [fst snd map].
  unfold coeff_sum. cbn [fst snd length seq map nth Nat.add]. rewrite !M0.
  unfold lsum. cbn [fold_left]. lra.
Qed.
Print Assumptions C21_surface_order_refuted.
