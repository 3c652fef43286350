(** Property C54, continued: the reported forces are area integrals of the stresses, in the user's axes,
    under the reported strain profile. *)
From Coquelicot Require Import Coquelicot.
From Coq Require Import FunctionalExtensionality Lra Lia.
From Verif Require Import Base M_Marin S_Marin L_Marin M_Laws S_Laws L_Laws M_Laws2 S_Laws2 L_LawsC M_Fiber S_Fiber L_Fiber M_MarinInt S_MarinInt L_MarinInt L_MarinInt2 L_MarinInt3 L_MarinInt4
  M_Section S_Section L_Section L_Section2 L_Section3 M_Domain S_Domain S_History L_History L_Section4 L_Section5 L_Section6 L_Domain2 S_Strength L_Strength P_Section P_Strength
  P_Fiber P_MarinInt M_Gross M_Geo M_Cracked S_Cracked L_Cracked L_Cracked7 P_Domain S_MarinInt S_Exact L_Exact L_Exact2 L_Exact3 P_Exact P_Exact2 L_Frame L_Frame2 L_Frame3 L_Frame4 L_Frame5 S_Frame P_Frame.

Lemma exact_area laws fs g theta e c :
  (forall s, In s (cg_surf g) -> closed (sf_ext s) /\ (forall q, In q (sf_ints s) -> closed q)) ->
  (forall s, In s (cg_surf g) -> c <> 0 -> tame (fs (sf_law s))) ->
  exact_forces fs laws g theta e c = area_forces fs laws g (e, cos theta * c, sin theta * c).
Proof.
  intros CL T. unfold exact_forces, area_forces. cbv zeta.
  assert (X : forall (wt : R -> R -> R) ca cb cc cd ce cf, (forall y z, wt y z = quadratic ca cb cc cd ce cf y z) ->
     surfaces_turned fs wt (- theta) e (cos theta * c) (sin theta * c) (cg_surf g) = over_surfaces fs wt e (cos theta * c) (sin theta * c) (cg_surf g)).
  { intros wt ca cb cc cd ce cf W. unfold surfaces_turned, over_surfaces. apply lsum_map_ext. intros s HS. destruct (CL s HS) as (C1 & C2).
    replace wt with (quadratic ca cb cc cd ce cf) by (extensionality y; extensionality z; symmetry; apply W).
    apply (surface_frames (fs (sf_law s)) e c (- theta)); try assumption; [apply T; exact HS|rewrite cos_neg; ring|rewrite sin_neg; ring]. }
  rewrite (X (fun _ _ => 1) 1 0 0 0 0 0), (X (fun _ z => z) 0 0 1 0 0 0), (X (fun y _ => - y) 0 (-1) 0 0 0 0); try (intros; unfold quadratic; ring). reflexivity.
Qed.
Lemma follows_tame laws fs g : follows laws fs g -> forall s, In s (cg_surf g) -> tame (fs (sf_law s)).
Proof. intros F s HS. apply (field_tame IStress (laws (sf_law s)) (fs (sf_law s)) 0 1); [discriminate|apply F; [exact HS|lra]|lra|lra]. Qed.

(** The forces reported with a bending strength are the area integrals under the reported profile. *)
Theorem C54_strength_area : forall laws fs t ms g ops s theta n r s' yn yp b,
  (forall k, batched (laws k)) -> drawn g -> follows laws fs g ->
  history (marin_integ laws) t ms g ops s ->
  bending_strength (marin_integ laws) t ms g theta n s = (Ok r, s') ->
  balanced (tr_rc t) false (items_of t (rotate_geo (- theta) g)) = Ok (yn, yp, b) -> p_ky b < 0 ->
  forces_of r = area_forces fs laws g (profile_of r).
Proof.
  intros laws fs t ms g ops s theta n r s' yn yp b B DR FO HI E EB NB.
  destruct (C54_strength_forces laws fs t ms g ops s theta n r s' yn yp b B DR FO HI E EB NB) as (c & NC & EP & EF).
  rewrite EF, EP. apply exact_area; [exact (proj1 DR)|]. intros x HX _. exact (follows_tame laws fs g FO x HX).
Qed.
Print Assumptions C54_strength_area.

Lemma F2_impl {A B} (P Q : A -> B -> Prop) l m : (forall x y, P x y -> Q x y) -> Forall2 P l m -> Forall2 Q l m.
Proof. intros H F. induction F; constructor; auto. Qed.
(** The moments of every point of a moment-curvature curve are the area integrals under the reported profile. *)
Theorem C54_curve_area : forall laws fs t ms g ops s theta n chi_first npre npost chis l s',
  (forall k, batched (laws k)) -> drawn g -> follows laws fs g ->
  history (marin_integ laws) t ms g ops s -> (forall c, In c chis -> c <> 0) ->
  moment_curvature (marin_integ laws) t ms g theta n chi_first npre npost (Some chis) s = (Ok l, s') ->
  Forall2 (fun c x => pt_profile x = (fst (fst (pt_profile x)), cos theta * c, sin theta * c) /\
     exists N, area_forces fs laws g (pt_profile x) = (N, fst (pt_moments x), snd (pt_moments x))) chis l.
Proof.
  intros laws fs t ms g ops s theta n chi_first npre npost chis l s' B DR FO HI NZ E.
  pose proof (C54_curve_points laws fs t ms g ops s theta n chi_first npre npost chis l s' B DR FO HI NZ E) as F.
  refine (F2_impl _ _ _ _ _ F). intros c x (e & EP & EM). split; [rewrite EP; reflexivity|]. rewrite EM, EP.
  rewrite <- exact_area; [|exact (proj1 DR)|intros y HY _; exact (follows_tame laws fs g FO y HY)].
  exists (fst (fst (exact_forces fs laws g theta e c))). cbn [fst snd]. destruct (exact_forces fs laws g theta e c) as [[N My] Mz]. reflexivity.
Qed.
Print Assumptions C54_curve_area.

Lemma profiles_area laws fs g (ps : list (R * R * R)) (Fs : list (R * R * R)) : drawn g ->
  (forall e0 ky kz x, In (e0, ky, kz) ps -> In x (cg_surf g) ->
     field_of (lw_marin (laws (sf_law x)) (e0, sqrt (kz ^ 2 + ky ^ 2))) (fs (sf_law x)) e0 (sqrt (kz ^ 2 + ky ^ 2))) ->
  Forall2 (fun p F => exists a c, 0 <= c /\ p = (fst (fst p), cos a * c, sin a * c) /\ F = exact_forces fs laws g a (fst (fst p)) c) ps Fs ->
  Fs = map (area_forces fs laws g) ps.
Proof.
  intros DR FI F. induction F as [|p F ps Fs (a & c & C0 & EP & EF) F2 IH]; [reflexivity|]. cbn [map]. f_equal; [|apply IH; intros; eapply FI; [right|]; eassumption].
  rewrite EF, EP at 1. cbn [fst snd]. rewrite EP. cbn [fst snd]. apply exact_area; [exact (proj1 DR)|]. intros x HX NC.
  assert (SQ : sqrt ((sin a * c) ^ 2 + (cos a * c) ^ 2) = c).
  { pose proof (sin2_cos2 a) as T. unfold Rsqr in T. replace ((sin a * c) ^ 2 + (cos a * c) ^ 2) with ((sin a * sin a + cos a * cos a) * (c * c)) by ring. rewrite T, Rmult_1_l. apply sqrt_square. exact C0. }
  pose proof (FI (fst (fst p)) (cos a * c) (sin a * c) x (or_introl EP) HX) as FP. rewrite SQ in FP.
  exact (field_tame IStress (laws (sf_law x)) _ _ c ltac:(discriminate) FP NC C0).
Qed.

(** Interaction domains: the forces are the area integrals under the strain profiles of the domain, one by one. *)
Theorem C54_nm_area : forall laws fs t ms g ops s theta f complete d s',
  (forall k, batched (laws k)) -> drawn g ->
  history (marin_integ laws) t ms g ops s ->
  nm_domain (marin_integ laws) t ms g theta f complete s = (Ok d, s') ->
  (forall e0 ky kz x, In (e0, ky, kz) (dm_strains d) -> In x (cg_surf g) ->
     field_of (lw_marin (laws (sf_law x)) (e0, sqrt (kz ^ 2 + ky ^ 2))) (fs (sf_law x)) e0 (sqrt (kz ^ 2 + ky ^ 2))) ->
  dm_forces d = map (area_forces fs laws g) (dm_strains d).
Proof.
  intros laws fs t ms g ops s theta f complete d s' B DR HI E FI. apply (profiles_area laws fs g _ _ DR FI).
  exact (C54_nm_forces laws fs t ms g ops s theta f complete d s' B DR HI E FI).
Qed.
Print Assumptions C54_nm_area.
Theorem C54_nmm_area : forall laws fs t ms g ops s num_theta f d s',
  (forall k, batched (laws k)) -> drawn g ->
  history (marin_integ laws) t ms g ops s ->
  nmm_domain (marin_integ laws) t g num_theta f s = (Ok d, s') ->
  (forall e0 ky kz x, In (e0, ky, kz) (dm_strains d) -> In x (cg_surf g) ->
     field_of (lw_marin (laws (sf_law x)) (e0, sqrt (kz ^ 2 + ky ^ 2))) (fs (sf_law x)) e0 (sqrt (kz ^ 2 + ky ^ 2))) ->
  dm_forces d = map (area_forces fs laws g) (dm_strains d).
Proof.
  intros laws fs t ms g ops s num_theta f d s' B DR HI E FI. apply (profiles_area laws fs g _ _ DR FI).
  exact (C54_nmm_forces laws fs t ms g ops s num_theta f d s' B DR HI E FI).
Qed.
Print Assumptions C54_nmm_area.

(** The hypotheses are met: a plate of a linear material. *)
Example C54_area_example : exists r s',
  bending_strength (marin_integ (stiff_laws 1000)) (sym_traits (1/1000)) (1/10) plate 0 ((2 - 2 / 10 ^ 10) / 3) st_init = (Ok r, s') /\
  forces_of r = area_forces hooke (stiff_laws 1000) plate (profile_of r).
Proof.
  destruct C54_example as (r & s' & c & E & _). exists r, s'. split; [exact E|].
  apply (C54_strength_area (stiff_laws 1000) hooke (sym_traits (1/1000)) (1/10) plate [] st_init 0 ((2 - 2 / 10 ^ 10) / 3) r s' 1 (-1) (0, - (1/1000), 0)).
  - apply stiff_batched.
  - exact plate_drawn.
  - exact plate_follows.
  - constructor.
  - exact E.
  - rewrite rotate_geo_0. exact (plate_balanced (1/1000) ltac:(cbn [pow]; lra)).
  - cbn. lra.
Qed.
Example C54_monotone_turned theta e c :
  (forall v, In v (rect (- / 2) (/ 2) (-1) 1) -> -1 <= plane_strain e (cos theta * c) (sin theta * c) (fst v) (snd v) <= 1) ->
  -2000 <= exact_axial hooke (stiff_laws 1000) plate theta e c <= 2000.
Proof. intros V. apply (proj2 (proj2 (C54_monotone_example theta e c)) V). apply rect_solid_turned; lra. Qed.
