(** Property C60, continued: analyses, and the polygons of the curved laws. *)
From Coquelicot Require Import Coquelicot.
From Coq Require Import FunctionalExtensionality Lra Lia.
From Verif Require Import Base M_Marin S_Marin L_Marin M_Laws S_Laws L_Laws M_Laws2 S_Laws2 L_LawsC M_Fiber S_Fiber L_Fiber M_MarinInt S_MarinInt L_MarinInt L_MarinInt2 L_MarinInt3 L_MarinInt4
  M_Section S_Section L_Section L_Section2 L_Section3 M_Domain S_Domain S_History L_History L_Section4 L_Section5 L_Section6 L_Domain2 S_Strength L_Strength P_Section P_Strength
  P_Fiber P_MarinInt M_Gross M_Geo M_Cracked S_Cracked L_Cracked L_Cracked7 P_Domain S_Exact L_Exact L_Exact2 L_Exact3 P_Exact P_Exact2 L_Frame L_Frame2 L_Frame3 L_Frame4 L_Frame5 S_Frame P_Frame P_Frame2
  S_Mesh L_Mesh L_Mesh2 L_Mesh3 L_Mesh4 P_Mesh S_MarinInt S_Curved L_Curved P_Curved.

Lemma field_eint laws fs g s e r : drawn g -> In s (cg_surf g) -> 0 <= r -> field_of (lw_marin (laws (sf_law s)) (e, r)) (fs (sf_law s)) e r ->
  (forall off, eint (fun z => fs (sf_law s) (e + r * z) * z ^ off)) /\ (r <> 0 -> tame (fs (sf_law s))).
Proof.
  intros DR I R0 FO. destruct (proj1 DR s I) as (C1 & C2). split.
  - destruct (surface_entries_ok (laws (sf_law s)) IStress e r s (fs (sf_law s)) ltac:(discriminate) FO C1 C2) as (EI & _). exact EI.
  - intros N. exact (field_tame IStress (laws (sf_law s)) (fs (sf_law s)) e r ltac:(discriminate) FO N R0).
Qed.

(** The forces of the bending strength, against the curves of the materials themselves. *)
Theorem C60_strength : forall laws fs hs mesh t ms g ops s theta n r s' yn yp b (d lo hi : nat -> R) Y Z,
  (forall k, batched (laws k)) -> drawn g -> follows laws fs g ->
  (forall s, In s (cg_surf g) -> (forall e, continuity_pt (hs (sf_law s)) e) /\ within (d (sf_law s)) (lo (sf_law s)) (hi (sf_law s)) (fs (sf_law s)) (hs (sf_law s))) ->
  history (marin_integ laws) t ms g ops s ->
  bending_strength (marin_integ laws) t ms g theta n s = (Ok r, s') ->
  balanced (tr_rc t) false (items_of t (rotate_geo (- theta) g)) = Ok (yn, yp, b) -> p_ky b < 0 ->
  kept_in mesh g (profile_of r) lo hi Y Z ->
  forces_near (over_area d g) Y Z (forces_of r) (area_forces hs laws g (profile_of r)).
Proof.
  intros laws fs hs mesh t ms g ops s theta n r s' yn yp b d lo hi Y Z B DR FO HC HI E EB NB KM.
  rewrite (C54_strength_area laws fs t ms g ops s theta n r s' yn yp b B DR FO HI E EB NB).
  destruct (C54_strength_forces laws fs t ms g ops s theta n r s' yn yp b B DR FO HI E EB NB) as (c & NC & EP & _).
  rewrite EP in *. apply (area_near laws fs hs mesh g _ _ _ d lo hi Y Z (proj1 DR)); [|intros x I; apply (HC x I)|exact KM|intros x I; apply (HC x I)].
  assert (RC : sqrt ((sin theta * c) ^ 2 + (cos theta * c) ^ 2) = - c).
  { replace ((sin theta * c) ^ 2 + (cos theta * c) ^ 2) with ((- c) * (- c)).
    - apply sqrt_square. lra.
    - pose proof (sin2_cos2 theta) as H. unfold Rsqr in H. transitivity (c * c * (sin theta * sin theta + cos theta * cos theta)); [rewrite H; ring|ring]. }
  intros x I. rewrite RC. apply (field_eint laws fs g x _ (- c) DR I); [lra|]. apply FO; [exact I|lra].
Qed.
Print Assumptions C60_strength.

Lemma map_near laws fs hs mesh g (d lo hi : nat -> R) Y Z (ps : list (R * R * R)) : drawn g ->
  (forall e0 ky kz x, In (e0, ky, kz) ps -> In x (cg_surf g) ->
     field_of (lw_marin (laws (sf_law x)) (e0, sqrt (kz ^ 2 + ky ^ 2))) (fs (sf_law x)) e0 (sqrt (kz ^ 2 + ky ^ 2))) ->
  (forall s, In s (cg_surf g) -> (forall e, continuity_pt (hs (sf_law s)) e) /\ within (d (sf_law s)) (lo (sf_law s)) (hi (sf_law s)) (fs (sf_law s)) (hs (sf_law s))) ->
  Forall2 (fun p F => kept_in mesh g p lo hi Y Z -> forces_near (over_area d g) Y Z F (area_forces hs laws g p)) ps (map (area_forces fs laws g) ps).
Proof.
  intros DR FI HC. induction ps as [|[[e0 ky] kz] ps IH]; constructor.
  - intros KM. apply (area_near laws fs hs mesh g e0 ky kz d lo hi Y Z (proj1 DR)); [|intros x I; apply (HC x I)|exact KM|intros x I; apply (HC x I)].
    intros x I. apply (field_eint laws fs g x e0 _ DR I); [apply sqrt_pos|]. apply FI; [now left|exact I].
  - apply IH. intros e ky' kz' x I1 I2. apply FI; [now right|exact I2].
Qed.
(** Every point of the interaction domains. *)
Theorem C60_nm : forall laws fs hs mesh t ms g ops s theta f complete dm s' (d lo hi : nat -> R) Y Z,
  (forall k, batched (laws k)) -> drawn g ->
  (forall s, In s (cg_surf g) -> (forall e, continuity_pt (hs (sf_law s)) e) /\ within (d (sf_law s)) (lo (sf_law s)) (hi (sf_law s)) (fs (sf_law s)) (hs (sf_law s))) ->
  history (marin_integ laws) t ms g ops s ->
  nm_domain (marin_integ laws) t ms g theta f complete s = (Ok dm, s') ->
  (forall e0 ky kz x, In (e0, ky, kz) (dm_strains dm) -> In x (cg_surf g) ->
     field_of (lw_marin (laws (sf_law x)) (e0, sqrt (kz ^ 2 + ky ^ 2))) (fs (sf_law x)) e0 (sqrt (kz ^ 2 + ky ^ 2))) ->
  Forall2 (fun p F => kept_in mesh g p lo hi Y Z -> forces_near (over_area d g) Y Z F (area_forces hs laws g p)) (dm_strains dm) (dm_forces dm).
Proof.
  intros laws fs hs mesh t ms g ops s theta f complete dm s' d lo hi Y Z B DR HC HI E FI.
  rewrite (C54_nm_area laws fs t ms g ops s theta f complete dm s' B DR HI E FI). now apply map_near.
Qed.
Print Assumptions C60_nm.
Theorem C60_nmm : forall laws fs hs mesh t ms g ops s num_theta f dm s' (d lo hi : nat -> R) Y Z,
  (forall k, batched (laws k)) -> drawn g ->
  (forall s, In s (cg_surf g) -> (forall e, continuity_pt (hs (sf_law s)) e) /\ within (d (sf_law s)) (lo (sf_law s)) (hi (sf_law s)) (fs (sf_law s)) (hs (sf_law s))) ->
  history (marin_integ laws) t ms g ops s ->
  nmm_domain (marin_integ laws) t g num_theta f s = (Ok dm, s') ->
  (forall e0 ky kz x, In (e0, ky, kz) (dm_strains dm) -> In x (cg_surf g) ->
     field_of (lw_marin (laws (sf_law x)) (e0, sqrt (kz ^ 2 + ky ^ 2))) (fs (sf_law x)) e0 (sqrt (kz ^ 2 + ky ^ 2))) ->
  Forall2 (fun p F => kept_in mesh g p lo hi Y Z -> forces_near (over_area d g) Y Z F (area_forces hs laws g p)) (dm_strains dm) (dm_forces dm).
Proof.
  intros laws fs hs mesh t ms g ops s num_theta f dm s' d lo hi Y Z B DR HC HI E FI.
  rewrite (C54_nmm_area laws fs t ms g ops s num_theta f dm s' B DR HI E FI). now apply map_near.
Qed.
Print Assumptions C60_nmm.
(** Every point of a moment-curvature curve. *)
Theorem C60_curve : forall laws fs hs mesh t ms g ops s theta n chi_first npre npost chis l s' (d lo hi : nat -> R) Y Z,
  (forall k, batched (laws k)) -> drawn g -> follows laws fs g ->
  (forall s, In s (cg_surf g) -> (forall e, continuity_pt (hs (sf_law s)) e) /\ within (d (sf_law s)) (lo (sf_law s)) (hi (sf_law s)) (fs (sf_law s)) (hs (sf_law s))) ->
  history (marin_integ laws) t ms g ops s -> (forall c, In c chis -> c <> 0) ->
  moment_curvature (marin_integ laws) t ms g theta n chi_first npre npost (Some chis) s = (Ok l, s') ->
  Forall2 (fun c x => kept_in mesh g (pt_profile x) lo hi Y Z ->
    Rabs (fst (pt_moments x) - snd (fst (area_forces hs laws g (pt_profile x)))) <= over_area d g * Z /\
    Rabs (snd (pt_moments x) - snd (area_forces hs laws g (pt_profile x))) <= over_area d g * Y) chis l.
Proof.
  intros laws fs hs mesh t ms g ops s theta n chi_first npre npost chis l s' d lo hi Y Z B DR FO HC HI NZ E.
  pose proof (C54_curve_area laws fs t ms g ops s theta n chi_first npre npost chis l s' B DR FO HI NZ E) as F.
  assert (G : Forall2 (fun c x => c <> 0 /\ pt_profile x = (fst (fst (pt_profile x)), cos theta * c, sin theta * c) /\
     exists N, area_forces fs laws g (pt_profile x) = (N, fst (pt_moments x), snd (pt_moments x))) chis l).
  { clear - F NZ. revert NZ. induction F as [|c x cs xs H F IH]; intros NZ; constructor; [split; [apply NZ; now left|exact H]|apply IH; intros c' I; apply NZ; now right]. }
  refine (F2_impl _ _ _ _ _ G). intros c x (C0 & EP & N & EA) KM. rewrite EP in KM.
  assert (RC : sqrt ((sin theta * c) ^ 2 + (cos theta * c) ^ 2) = Rabs c).
  { rewrite <- sqrt_Rsqr_abs. f_equal. unfold Rsqr. pose proof (sin2_cos2 theta) as H. unfold Rsqr in H. transitivity (c * c * (sin theta * sin theta + cos theta * cos theta)); [ring|rewrite H; ring]. }
  assert (NR : forces_near (over_area d g) Y Z (area_forces fs laws g (pt_profile x)) (area_forces hs laws g (pt_profile x))).
  { rewrite EP. apply (area_near laws fs hs mesh g _ _ _ d lo hi Y Z (proj1 DR)); [|intros y I; apply (HC y I)|exact KM|intros y I; apply (HC y I)].
    intros y I. rewrite RC. apply (field_eint laws fs g y _ (Rabs c) DR I); [apply Rabs_pos|]. apply FO; [exact I|now apply Rabs_pos_lt]. }
  rewrite EA in NR. unfold forces_near in NR. cbn [fst snd] in NR. split; apply NR.
Qed.
Print Assumptions C60_curve.
