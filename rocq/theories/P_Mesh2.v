(** Property C55, continued: two meshes, refinement, concrete curves, triangulated sections. *)
From Coquelicot Require Import Coquelicot.
From Coq Require Import FunctionalExtensionality Lra Lia Permutation.
From Verif Require Import Base M_Marin S_Marin L_Marin M_Laws S_Laws L_Laws M_Laws2 S_Laws2 L_LawsC M_Fiber S_Fiber L_Fiber M_MarinInt L_MarinInt L_MarinInt2 L_MarinInt3 L_MarinInt4
  L_Frame L_Frame2 L_Frame3 L_Frame4 L_Frame5 M_Section S_Section L_Section4 P_Fiber P_MarinInt M_Gross M_Geo M_Cracked S_Cracked L_Cracked L_Cracked7 S_MarinInt S_Exact L_Exact P_Exact S_Frame P_Frame S_Mesh L_Mesh L_Mesh2 L_Mesh3 L_Mesh4 P_Mesh.

(** Two triangulations of the same section, by whatever mesher, give the same forces up
    to the sum of the mesh sizes, for every law whose curve has no jump in the range of
    strains. *)
Theorem C55_two_meshes : forall laws mesher mesher' g e0 ky kz ms ms' (L lo hi : nat -> R) h h' Y Z,
  (forall k, batched (laws k)) -> 0 < ms <= 1 -> 0 < ms' <= 1 -> cg_surf g <> [] \/ cg_bars g <> [] ->
  (forall s, In s (cg_surf g) -> closed (sf_ext s) /\ (forall q, In q (sf_ints s) -> closed q)) ->
  (forall s, In s (cg_surf g) -> triangulates (mesher s (surface_area s * ms)) s /\ triangulates (mesher' s (surface_area s * ms')) s) ->
  (forall s t, In s (cg_surf g) -> In t (mesher s (surface_area s * ms)) -> tri_size h t) ->
  (forall s t, In s (cg_surf g) -> In t (mesher' s (surface_area s * ms')) -> tri_size h' t) ->
  (forall s t v, In s (cg_surf g) -> In t (mesher s (surface_area s * ms) ++ mesher' s (surface_area s * ms')) -> corner t v ->
     Rabs (fst v) <= Y /\ Rabs (snd v) <= Z /\ lo (sf_law s) <= plane_strain e0 ky kz (fst v) (snd v) <= hi (sf_law s)) ->
  (forall s, In s (cg_surf g) -> let k := sf_law s in 0 <= L k /\
     (forall e e', lo k <= e <= hi k -> lo k <= e' <= hi k -> Rabs (lw_stress (laws k) e - lw_stress (laws k) e') <= L k * Rabs (e - e'))) ->
  exists N My Mz N' My' Mz' d d',
    fiber_forces laws mesher g (e0, ky, kz) None (Some ms) = Ok ((N, My, Mz), d) /\
    fiber_forces laws mesher' g (e0, ky, kz) None (Some ms') = Ok ((N', My', Mz'), d') /\
    let err := (Rabs ky + Rabs kz) * (h + h') * lsum (map (fun s => L (sf_law s) * surface_integral (fun _ _ => 1) s) (cg_surf g)) in
    Rabs (N - N') <= err /\ Rabs (My - My') <= err * Z /\ Rabs (Mz - Mz') <= err * Y.
Proof.
  intros laws mesher mesher' g e0 ky kz ms ms' L lo hi h h' Y Z B MS MS' NE G MT SZ SZ' MC LL.
  destruct (C19_forces laws mesher g e0 ky kz ms B MS NE) as (d & FF & _).
  destruct (C19_forces laws mesher' g e0 ky kz ms' B MS' NE) as (d' & FF' & _).
  set (mesh := fun x => mesher x (surface_area x * ms)) in *. set (mesh' := fun x => mesher' x (surface_area x * ms')) in *.
  set (fs := fun k e => lw_stress (laws k) (clamp (lo k) (hi k) e)).
  assert (CT : forall s, In s (cg_surf g) -> forall x, continuous (fs (sf_law s)) x).
  { intros s I x. destruct (LL s I) as (L0 & LP). apply (clamped_continuous (lw_stress (laws (sf_law s))) (L (sf_law s)) (lo (sf_law s)) (hi (sf_law s)) L0 LP x). }
  assert (G' : forall s, In s (cg_surf g) -> closed (sf_ext s) /\ (forall q, In q (sf_ints s) -> closed q) /\
    (forall off, eint (fun z => fs (sf_law s) (e0 + sqrt (kz ^ 2 + ky ^ 2) * z) * z ^ off)) /\ (sqrt (kz ^ 2 + ky ^ 2) <> 0 -> tame (fs (sf_law s)))).
  { intros s I. destruct (G s I) as (C1 & C2). split; [exact C1|]. split; [exact C2|]. split; [apply continuous_eint, CT, I|intros _; apply tame_continuous, CT, I]. }
  assert (LL' : forall s, In s (cg_surf g) -> let k := sf_law s in 0 <= L k /\
    (forall e, lo k <= e <= hi k -> lw_stress (laws k) e = fs k e) /\
    (forall e e', lo k <= e <= hi k -> lo k <= e' <= hi k -> Rabs (fs k e - fs k e') <= L k * Rabs (e - e'))).
  { intros s I k. destruct (LL s I) as (L0 & LP). split; [exact L0|]. unfold fs. split.
    - intros e E. now rewrite clamp_in.
    - intros e e' E E'. rewrite !clamp_in by assumption. now apply LP. }
  eexists _, _, _, _, _, _, d, d'. split; [exact FF|]. split; [exact FF'|]. cbv zeta.
  set (A := lsum (map (fun s => L (sf_law s) * surface_integral (fun _ _ => 1) s) (cg_surf g))).
  assert (TR : forall W ca cb cc, (forall s t v, In s (cg_surf g) -> In t (mesh s ++ mesh' s) -> corner t v -> Rabs (ca + cb * fst v + cc * snd v) <= W) ->
    Rabs (fsum ca cb cc (section_fibres laws mesh g) e0 ky kz - fsum ca cb cc (section_fibres laws mesh' g) e0 ky kz) <= (Rabs ky + Rabs kz) * (h + h') * A * W).
  { intros W ca cb cc HW.
    pose proof (agreement laws fs mesh g e0 ky kz L lo hi h W G' ca cb cc (fun s I => proj1 (MT s I)) SZ
      (fun s t v I T V => HW s t v I (in_or_app _ _ _ (or_introl T)) V) (fun s t v I T V => proj2 (proj2 (MC s t v I (in_or_app _ _ _ (or_introl T)) V))) LL') as A1.
    pose proof (agreement laws fs mesh' g e0 ky kz L lo hi h' W G' ca cb cc (fun s I => proj2 (MT s I)) SZ'
      (fun s t v I T V => HW s t v I (in_or_app _ _ _ (or_intror T)) V) (fun s t v I T V => proj2 (proj2 (MC s t v I (in_or_app _ _ _ (or_intror T)) V))) LL') as A2.
    fold A in A1, A2. set (X := over_surfaces fs (fun y z => ca + cb * y + cc * z) e0 ky kz (cg_surf g) + fsum ca cb cc (bar_fibres laws g) e0 ky kz) in *.
    set (U := fsum ca cb cc (section_fibres laws mesh g) e0 ky kz) in *. set (V := fsum ca cb cc (section_fibres laws mesh' g) e0 ky kz) in *.
    replace (U - V) with ((U - X) - (V - X)) by ring. eapply Rle_trans; [apply Rabs_triang|]. rewrite Rabs_Ropp. lra. }
  repeat apply conj.
  - replace ((Rabs ky + Rabs kz) * (h + h') * A) with ((Rabs ky + Rabs kz) * (h + h') * A * 1) by ring. rewrite !fsum_axial.
    apply TR. intros s t v _ _ _. replace (1 + 0 * fst v + 0 * snd v) with 1 by ring. rewrite Rabs_R1. lra.
  - rewrite !fsum_my. apply TR. intros s t v I T V. replace (0 + 0 * fst v + 1 * snd v) with (snd v) by ring. apply (MC s t v I T V).
  - rewrite !fsum_mz. apply TR. intros s t v I T V. replace (0 + -1 * fst v + 0 * snd v) with (- fst v) by ring. rewrite Rabs_Ropp. apply (MC s t v I T V).
Qed.
Print Assumptions C55_two_meshes.

(** Refining the mesh makes the fibre results converge to the exact ones. *)
Theorem C55_refinement : forall laws fs g e0 ky kz (L lo hi : nat -> R) Y Z eps, let r := sqrt (kz ^ 2 + ky ^ 2) in 0 < eps ->
  (forall k, batched (laws k)) -> cg_surf g <> [] \/ cg_bars g <> [] ->
  (forall s, In s (cg_surf g) ->
     closed (sf_ext s) /\ (forall q, In q (sf_ints s) -> closed q) /\
     field_of (lw_marin (laws (sf_law s)) (e0, r)) (fs (sf_law s)) e0 r) ->
  (forall b b', In b (cg_bars g) -> In b' (cg_bars g) ->
     count_law (br_law b) (cg_bars g) = count_law (br_law b') (cg_bars g)) ->
  (forall s, In s (cg_surf g) -> let k := sf_law s in 0 <= L k /\
     (forall e, lo k <= e <= hi k -> lw_stress (laws k) e = fs k e) /\
     (forall e e', lo k <= e <= hi k -> lo k <= e' <= hi k -> Rabs (fs k e - fs k e') <= L k * Rabs (e - e'))) ->
  exists h0 N My Mz d, 0 < h0 /\ marin_forces laws g (e0, ky, kz) None = Ok ((N, My, Mz), d) /\
    forall mesher ms h, h <= h0 -> 0 < ms <= 1 ->
      (forall s, In s (cg_surf g) -> triangulates (mesher s (surface_area s * ms)) s) ->
      (forall s t, In s (cg_surf g) -> In t (mesher s (surface_area s * ms)) -> tri_size h t /\
         forall v, corner t v -> Rabs (fst v) <= Y /\ Rabs (snd v) <= Z /\
           lo (sf_law s) <= plane_strain e0 ky kz (fst v) (snd v) <= hi (sf_law s)) ->
      exists N' My' Mz' d', fiber_forces laws mesher g (e0, ky, kz) None (Some ms) = Ok ((N', My', Mz'), d') /\
        Rabs (N' - N) <= eps /\ Rabs (My' - My) <= eps /\ Rabs (Mz' - Mz) <= eps.
Proof.
  intros laws fs g e0 ky kz L lo hi Y Z eps r EP B NE G BC LL.
  destruct (C21_forces_area laws fs g e0 ky kz B G BC) as (d & MF).
  destruct (area_forces fs laws g (e0, ky, kz)) as [[N My] Mz].
  set (A := lsum (map (fun s => L (sf_law s) * surface_integral (fun _ _ => 1) s) (cg_surf g))).
  set (M := (Rabs ky + Rabs kz) * Rabs A * (1 + Rabs Y + Rabs Z) + 1).
  assert (M0 : 0 <= (Rabs ky + Rabs kz) * Rabs A * (1 + Rabs Y + Rabs Z)).
  { pose proof (Rabs_pos ky); pose proof (Rabs_pos kz); pose proof (Rabs_pos A); pose proof (Rabs_pos Y); pose proof (Rabs_pos Z). apply Rmult_le_pos; [apply Rmult_le_pos|]; lra. }
  assert (MP : 0 < M) by (unfold M; lra).
  exists (eps / M), N, My, Mz, d. split; [apply Rdiv_lt_0_compat; lra|]. split; [exact MF|].
  intros mesher ms h H MS MT MC.
  destruct (C55_mesh_agreement laws fs mesher g e0 ky kz ms L lo hi h Y Z B MS NE G BC MT MC LL) as (N' & My' & Mz' & N1 & My1 & Mz1 & d' & d1 & FF & MF' & E1 & E2 & E3).
  rewrite MF in MF'. assert (N1 = N /\ My1 = My /\ Mz1 = Mz) as (-> & -> & ->) by (repeat split; congruence).
  exists N', My', Mz', d'. split; [exact FF|]. fold A in E1, E2, E3.
  assert (BD : forall K, 0 <= Rabs K -> Rabs K <= 1 + Rabs Y + Rabs Z -> forall x, Rabs x <= (Rabs ky + Rabs kz) * h * A * K -> Rabs x <= eps).
  { intros K _ KB x X. eapply Rle_trans; [exact X|]. destruct (Rle_dec h 0) as [HN|HP].
    - assert (HA : Rabs x <= Rabs ((Rabs ky + Rabs kz) * h * A * K)) by (eapply Rle_trans; [exact X|apply Rle_abs]).
      destruct (cg_surf g) as [|s0 ss] eqn:ES.
      { unfold A. cbn. replace ((Rabs ky + Rabs kz) * h * lsum [] * K) with 0 by (unfold lsum; cbn; ring). lra. }
      destruct (Req_dec h 0) as [H0|H0]. { rewrite H0. replace ((Rabs ky + Rabs kz) * 0 * A * K) with 0 by ring. lra. }
      (* no triangle has a negative size, so all areas vanish *)
      assert (A = 0).
      { unfold A. transitivity (lsum (map (fun _ : surface => 0) (s0 :: ss))); [|rewrite lsum_all0; [reflexivity|]; intros w IW; apply in_map_iff in IW; destruct IW as (? & <- & _); reflexivity].
        apply lsum_map_ext. intros s I. assert (TS := MT s I).
        destruct (mesher s (surface_area s * ms)) as [|t ts] eqn:EM.
        - replace (surface_integral (fun _ _ => 1) s) with 0; [ring|]. symmetry.
          transitivity (surface_integral (fun y z => 1 + 0 * y + 0 * z) s); [f_equal; apply functional_extensionality; intros y; apply functional_extensionality; intros z; ring|].
          rewrite (surface_triangles _ [] s (field2_affine 1 0 0) TS). reflexivity.
        - exfalso. destruct (MC s t I ltac:(rewrite EM; now left)) as (TZ & _). destruct t as [[p q] v]. cbn [tri_size] in TZ. destruct TZ as (TZ & _). pose proof (Rabs_pos (snd p - snd q)). lra. }
      rewrite H1. replace ((Rabs ky + Rabs kz) * h * 0 * K) with 0 by ring. lra.
    - apply Rle_trans with (h * M).
      + unfold M. replace ((Rabs ky + Rabs kz) * h * A * K) with (h * ((Rabs ky + Rabs kz) * (A * K))) by ring. apply Rmult_le_compat_l; [lra|].
        apply Rle_trans with ((Rabs ky + Rabs kz) * Rabs A * (1 + Rabs Y + Rabs Z)); [|lra]. rewrite Rmult_assoc. apply Rmult_le_compat_l; [pose proof (Rabs_pos ky); pose proof (Rabs_pos kz); lra|].
        eapply Rle_trans; [apply Rle_abs|]. rewrite Rabs_mult. apply Rmult_le_compat_l; [apply Rabs_pos|exact KB].
      + apply (Rmult_le_compat_r M) in H; [|lra]. replace (eps / M * M) with eps in H by (field; lra). exact H. }
  pose proof (Rabs_pos Y). pose proof (Rabs_pos Z). split; [|split].
  - apply (BD 1); [apply Rabs_pos|rewrite Rabs_R1; lra|]. rewrite Rmult_1_r. exact E1.
  - apply (BD Z); [apply Rabs_pos|lra|]. exact E2.
  - apply (BD Y); [apply Rabs_pos|lra|]. exact E3.
Qed.
Print Assumptions C55_refinement.

(** For sections whose surfaces can be triangulated, more axial strain means more axial force, whatever the direction of bending. *)
Theorem C55_monotone : forall laws fs g theta c (mesh : surface -> list tri),
  (forall k, nondecreasing (lw_stress (laws k))) -> (forall k, nondecreasing (fs k)) -> (forall k e, continuity_pt (fs k) e) ->
  (forall b, In b (cg_bars g) -> 0 <= br_area b) -> (forall s, In s (cg_surf g) -> triangulates (mesh s) s) ->
  nondecreasing (fun e => exact_axial fs laws g theta e c).
Proof. intros laws fs g theta c mesh H1 H2 H3 H4 H5. apply C54_monotone; try assumption. intros s I. now apply triangulated_solid with (mesh s), H5. Qed.
Print Assumptions C55_monotone.
Theorem C55_extremes : forall laws fs g theta e c lo hi (mesh : surface -> list tri), lo <= hi ->
  (forall k, nondecreasing (lw_stress (laws k))) -> (forall k, nondecreasing (fs k)) -> (forall k e, continuity_pt (fs k) e) ->
  (forall b, In b (cg_bars g) -> 0 <= br_area b) -> (forall s, In s (cg_surf g) -> triangulates (mesh s) s) -> drawn g ->
  (forall s v, In s (cg_surf g) -> In v (sf_ext s) \/ (exists q, In q (sf_ints s) /\ In v q) -> lo <= plane_strain e (cos theta * c) (sin theta * c) (fst v) (snd v) <= hi) ->
  (forall b, In b (cg_bars g) -> lo <= plane_strain e (cos theta * c) (sin theta * c) (br_y b) (br_z b) <= hi) ->
  exact_axial fs laws g 0 lo 0 <= exact_axial fs laws g theta e c <= exact_axial fs laws g 0 hi 0.
Proof. intros laws fs g theta e c lo hi mesh. intros. apply C54_extremes; try assumption. intros s I. apply triangulated_solid with (mesh s); auto. Qed.
Print Assumptions C55_extremes.
