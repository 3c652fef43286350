(** Property C55: the fibre integrator agrees with the exact integrator up to the mesh size. *)
From Coquelicot Require Import Coquelicot.
From Coq Require Import FunctionalExtensionality Lra Lia Permutation.
From Verif Require Import Base M_Marin S_Marin L_Marin M_Laws S_Laws L_Laws M_Laws2 S_Laws2 L_LawsC M_Fiber S_Fiber L_Fiber M_MarinInt L_MarinInt L_MarinInt2 L_MarinInt3 L_MarinInt4
  L_Frame L_Frame2 L_Frame3 L_Frame4 M_Section S_Section L_Section4 P_Fiber P_MarinInt M_Gross M_Geo M_Cracked S_Cracked L_Cracked L_Cracked7 S_MarinInt S_Exact L_Exact P_Exact S_Frame P_Frame S_Mesh L_Mesh L_Mesh2 L_Mesh3.

(** Angle of the curvature. *)
Lemma aligned ky kz : let r := sqrt (kz ^ 2 + ky ^ 2) in exists a, r * cos a = ky /\ r * sin a = - kz.
Proof.
  intros r. exists (- atan2 kz ky). rewrite cos_neg, sin_neg. pose proof (atan2_spec ky kz) as H. cbv zeta in H. fold r in H. intuition lra.
Qed.
Lemma tri_fibre_area l t : ccw t -> m_a (tri_fibre l t) = fan_moment 0 0 (tri_ring t).
Proof. intros C. destruct t as [[p q] r]. cbn [tri_fibre mfibre_at m_a]. unfold ccw in C. cbn [tri_ring] in *. rewrite fan_area in *. now apply Rabs_pos_eq. Qed.
(** Resultants of the fibres with an affine lever arm. *)
Definition fsum (ca cb cc : R) (F : list mfibre) (e0 ky kz : R) : R :=
  lsum (map (fun f => m_sigma f (plane_strain e0 ky kz (m_y f) (m_z f)) * m_a f * (ca + cb * m_y f + cc * m_z f)) F).
Lemma fsum_axial F e0 ky kz : axial F e0 ky kz = fsum 1 0 0 F e0 ky kz.
Proof. unfold axial, fsum. apply lsum_map_ext. intros. ring. Qed.
Lemma fsum_my F e0 ky kz : moment_y F e0 ky kz = fsum 0 0 1 F e0 ky kz.
Proof. unfold moment_y, fsum. apply lsum_map_ext. intros. ring. Qed.
Lemma fsum_mz F e0 ky kz : moment_z F e0 ky kz = fsum 0 (-1) 0 F e0 ky kz.
Proof. unfold moment_z, fsum. rewrite <- L_Fiber.lsum_map_opp. apply lsum_map_ext. intros. ring. Qed.

Section Agreement.
Variables (laws : nat -> law) (fs : nat -> R -> R) (mesh : surface -> list tri) (g : compound) (e0 ky kz : R) (L lo hi : nat -> R) (h W : R).
Let r := sqrt (kz ^ 2 + ky ^ 2).
Hypothesis G : forall s, In s (cg_surf g) -> closed (sf_ext s) /\ (forall q, In q (sf_ints s) -> closed q) /\
  (forall off, eint (fun z => fs (sf_law s) (e0 + r * z) * z ^ off)) /\ (r <> 0 -> tame (fs (sf_law s))).
Variables ca cb cc : R.
Hypothesis MT : forall s, In s (cg_surf g) -> triangulates (mesh s) s.
Hypothesis MS : forall s t, In s (cg_surf g) -> In t (mesh s) -> tri_size h t.
Hypothesis MW : forall s t v, In s (cg_surf g) -> In t (mesh s) -> corner t v -> Rabs (ca + cb * fst v + cc * snd v) <= W.
Hypothesis MC : forall s t v, In s (cg_surf g) -> In t (mesh s) -> corner t v -> lo (sf_law s) <= plane_strain e0 ky kz (fst v) (snd v) <= hi (sf_law s).
Hypothesis LL : forall s, In s (cg_surf g) -> let k := sf_law s in 0 <= L k /\
  (forall e, lo k <= e <= hi k -> lw_stress (laws k) e = fs k e) /\
  (forall e e', lo k <= e <= hi k -> lo k <= e' <= hi k -> Rabs (fs k e - fs k e') <= L k * Rabs (e - e')).
Lemma agreement :
  Rabs (fsum ca cb cc (section_fibres laws mesh g) e0 ky kz
    - (over_surfaces fs (fun y z => ca + cb * y + cc * z) e0 ky kz (cg_surf g) + fsum ca cb cc (bar_fibres laws g) e0 ky kz))
  <= (Rabs ky + Rabs kz) * h * lsum (map (fun s => L (sf_law s) * surface_integral (fun _ _ => 1) s) (cg_surf g)) * W.
Proof.
  unfold fsum at 1. unfold section_fibres. rewrite map_app, lsum_app, L_Fiber.lsum_flat. fold (bar_fibres laws g). fold (fsum ca cb cc (bar_fibres laws g) e0 ky kz).
  match goal with |- Rabs (?u + ?b - (?v + ?b)) <= _ => replace (u + b - (v + b)) with (u - v) by ring end.
  unfold over_surfaces. replace ((Rabs ky + Rabs kz) * h * lsum (map (fun s => L (sf_law s) * surface_integral (fun _ _ => 1) s) (cg_surf g)) * W) with
    (lsum (map (fun s => ((Rabs ky + Rabs kz) * h * W) * (L (sf_law s) * surface_integral (fun _ _ => 1) s)) (cg_surf g))) by (rewrite lsum_map_scal; ring).
  apply lsum_abs. intros s I. destruct (aligned ky kz) as (a & KA & KB). fold r in KA, KB. destruct (G s I) as (C1 & C2 & EI & TM). destruct (LL s I) as (L0 & EQ & LP).
  pose proof (surface_mesh (fs (sf_law s)) e0 r a ky kz EI TM KA KB ca cb cc (L (sf_law s)) h W (lo (sf_law s)) (hi (sf_law s)) (mesh s) s (MT s I) (conj C1 C2)
    (fun t T => MS s t I T) (fun t v T V => MW s t v I T V) (fun t v T V => MC s t v I T V) LP L0) as M.
  rewrite Rabs_minus_sym. rewrite map_map. 
  match type of M with Rabs (?u - ?v) <= ?k => match goal with |- Rabs (?u' - ?v') <= ?k' => replace v' with v; [replace k' with k by ring; exact M|] end end.
  apply lsum_map_ext. intros t T. rewrite tri_fibre_area by (apply (proj1 (MT s I)), T).
  assert (CE : in_tri t (tri_cy t, tri_cz t)) by apply centre_in_tri.
  assert (ST : lo (sf_law s) <= plane_strain e0 ky kz (tri_cy t) (tri_cz t) <= hi (sf_law s)).
  { apply (in_strain e0 ky kz (lo (sf_law s)) (hi (sf_law s)) (mesh s) (fun t v T V => MC s t v I T V) t (tri_cy t, tri_cz t) T CE). }
  destruct t as [[p q] v]. cbn [tri_fibre mfibre_at m_y m_z m_sigma]. cbn [tri_cy tri_cz] in *. rewrite (EQ _ ST). reflexivity.
Qed.
End Agreement.

(** The fibre integrator and the exact integrator, applied to the same section and
    the same strain plane, give forces that differ by no more than the strain gradient
    times the mesh size times the stiffness of the stress-strain curve times the area. *)
Theorem C55_mesh_agreement : forall laws fs mesher g e0 ky kz ms (L lo hi : nat -> R) h Y Z, let r := sqrt (kz ^ 2 + ky ^ 2) in
  (forall k, batched (laws k)) -> 0 < ms <= 1 -> cg_surf g <> [] \/ cg_bars g <> [] ->
  (forall s, In s (cg_surf g) ->
     closed (sf_ext s) /\ (forall q, In q (sf_ints s) -> closed q) /\
     field_of (lw_marin (laws (sf_law s)) (e0, r)) (fs (sf_law s)) e0 r) ->
  (forall b b', In b (cg_bars g) -> In b' (cg_bars g) ->
     count_law (br_law b) (cg_bars g) = count_law (br_law b') (cg_bars g)) ->
  (forall s, In s (cg_surf g) -> triangulates (mesher s (surface_area s * ms)) s) ->
  (forall s t, In s (cg_surf g) -> In t (mesher s (surface_area s * ms)) -> tri_size h t /\
     forall v, corner t v -> Rabs (fst v) <= Y /\ Rabs (snd v) <= Z /\
       lo (sf_law s) <= plane_strain e0 ky kz (fst v) (snd v) <= hi (sf_law s)) ->
  (forall s, In s (cg_surf g) -> let k := sf_law s in 0 <= L k /\
     (forall e, lo k <= e <= hi k -> lw_stress (laws k) e = fs k e) /\
     (forall e e', lo k <= e <= hi k -> lo k <= e' <= hi k -> Rabs (fs k e - fs k e') <= L k * Rabs (e - e'))) ->
  exists N My Mz N' My' Mz' d d',
    fiber_forces laws mesher g (e0, ky, kz) None (Some ms) = Ok ((N, My, Mz), d) /\
    marin_forces laws g (e0, ky, kz) None = Ok ((N', My', Mz'), d') /\
    let err := (Rabs ky + Rabs kz) * h * lsum (map (fun s => L (sf_law s) * surface_integral (fun _ _ => 1) s) (cg_surf g)) in
    Rabs (N - N') <= err /\ Rabs (My - My') <= err * Z /\ Rabs (Mz - Mz') <= err * Y.
Proof.
  intros laws fs mesher g e0 ky kz ms L lo hi h Y Z r B MS NE G BC MT MC LL.
  destruct (C19_forces laws mesher g e0 ky kz ms B MS NE) as (d & FF & _).
  destruct (C21_forces_area laws fs g e0 ky kz B G BC) as (d' & MF).
  set (mesh := fun x => mesher x (surface_area x * ms)) in *.
  pose proof (agreement laws fs mesh g e0 ky kz L lo hi h) as A. fold r in A.
  assert (G' : forall s, In s (cg_surf g) -> closed (sf_ext s) /\ (forall q, In q (sf_ints s) -> closed q) /\
    (forall off, eint (fun z => fs (sf_law s) (e0 + r * z) * z ^ off)) /\ (r <> 0 -> tame (fs (sf_law s)))).
  { intros s I. destruct (G s I) as (C1 & C2 & FO). split; [exact C1|]. split; [exact C2|]. split.
    - destruct (surface_entries_ok (laws (sf_law s)) IStress e0 r s (fs (sf_law s)) ltac:(discriminate) FO C1 C2) as (EI & _). exact EI.
    - intros N. apply (field_tame IStress (laws (sf_law s)) (fs (sf_law s)) e0 r ltac:(discriminate) FO N). apply sqrt_pos. }
  eexists _, _, _, _, _, _, d, d'. split; [exact FF|]. split; [exact MF|]. cbv zeta.
  set (err := (Rabs ky + Rabs kz) * h * lsum (map (fun s => L (sf_law s) * surface_integral (fun _ _ => 1) s) (cg_surf g))) in *.
  assert (CA : forall W ca cb cc, (forall s t v, In s (cg_surf g) -> In t (mesh s) -> corner t v -> Rabs (ca + cb * fst v + cc * snd v) <= W) ->
    Rabs (fsum ca cb cc (section_fibres laws mesh g) e0 ky kz - (over_surfaces fs (fun y z => ca + cb * y + cc * z) e0 ky kz (cg_surf g) + fsum ca cb cc (bar_fibres laws g) e0 ky kz)) <= err * W).
  { intros W ca cb cc HW. apply (A W G' ca cb cc MT); [intros s t I T; apply (MC s t I T)|exact HW|intros s t v I T V; apply (proj2 (MC s t I T) v V)|exact LL]. }
  repeat apply conj.
  - replace err with (err * 1) by ring. rewrite !fsum_axial. replace (fun _ _ : R => 1) with (fun y z : R => 1 + 0 * y + 0 * z). 2:{ apply functional_extensionality. intros y. apply functional_extensionality. intros z. ring. }
    apply CA. intros s t v _ _ _. replace (1 + 0 * fst v + 0 * snd v) with 1 by ring. rewrite Rabs_R1. lra.
  - rewrite !fsum_my. replace (fun _ z : R => z) with (fun y z : R => 0 + 0 * y + 1 * z). 2:{ apply functional_extensionality. intros y. apply functional_extensionality. intros z. ring. }
    apply CA. intros s t v I T V. replace (0 + 0 * fst v + 1 * snd v) with (snd v) by ring. apply (proj2 (MC s t I T) v V).
  - rewrite !fsum_mz. replace (fun y _ : R => - y) with (fun y z : R => 0 + -1 * y + 0 * z). 2:{ apply functional_extensionality. intros y. apply functional_extensionality. intros z. ring. }
    apply CA. intros s t v I T V. replace (0 + -1 * fst v + 0 * snd v) with (- fst v) by ring. rewrite Rabs_Ropp. apply (proj2 (MC s t I T) v V).
Qed.
Print Assumptions C55_mesh_agreement.
