(** Property C60: results with curved material laws are as accurate as the polygon that stands for the law. *)
From Coquelicot Require Import Coquelicot.
From Coq Require Import FunctionalExtensionality Lra Lia.
From Verif Require Import Base M_Marin S_Marin L_Marin M_Laws S_Laws L_Laws M_Laws2 S_Laws2 L_LawsC M_Fiber S_Fiber L_Fiber M_MarinInt S_MarinInt L_MarinInt L_MarinInt2 L_MarinInt3 L_MarinInt4
  M_Section S_Section L_Section L_Section2 L_Section3 M_Domain S_Domain S_History L_History L_Section4 L_Section5 L_Section6 L_Domain2 S_Strength L_Strength P_Section P_Strength
  P_Fiber P_MarinInt M_Gross M_Geo M_Cracked S_Cracked L_Cracked L_Cracked7 P_Domain S_Exact L_Exact L_Exact2 L_Exact3 P_Exact P_Exact2 L_Frame L_Frame2 L_Frame3 L_Frame4 L_Frame5 S_Frame P_Frame P_Frame2
  S_Mesh L_Mesh L_Mesh2 L_Mesh3 L_Mesh4 P_Mesh S_MarinInt S_Curved L_Curved.

Section Near.
Variables (laws : nat -> law) (fs hs : nat -> R -> R) (mesh : surface -> list tri) (g : compound) (e0 ky kz : R) (d lo hi : nat -> R) (Y Z : R).
Let r := sqrt (kz ^ 2 + ky ^ 2).
Hypothesis CL : forall s, In s (cg_surf g) -> closed (sf_ext s) /\ (forall q, In q (sf_ints s) -> closed q).
Hypothesis EF : forall s, In s (cg_surf g) -> (forall off, eint (fun z => fs (sf_law s) (e0 + r * z) * z ^ off)) /\ (r <> 0 -> tame (fs (sf_law s))).
Hypothesis EH : forall s, In s (cg_surf g) -> forall e, continuity_pt (hs (sf_law s)) e.
Hypothesis KM : kept_in mesh g (e0, ky, kz) lo hi Y Z.
Hypothesis NE : forall s, In s (cg_surf g) -> within (d (sf_law s)) (lo (sf_law s)) (hi (sf_law s)) (fs (sf_law s)) (hs (sf_law s)).
Lemma over_near ca cb cc W : (forall s t v, In s (cg_surf g) -> In t (mesh s) -> corner t v -> Rabs (ca + cb * fst v + cc * snd v) <= W) ->
  Rabs (over_surfaces fs (fun y z => ca + cb * y + cc * z) e0 ky kz (cg_surf g) - over_surfaces hs (fun y z => ca + cb * y + cc * z) e0 ky kz (cg_surf g)) <= over_area d g * W.
Proof.
  intros HW. unfold over_surfaces, over_area. rewrite Rmult_comm, <- lsum_map_scal. apply lsum_abs. intros s I.
  destruct (aligned ky kz) as (a & KA & KB). fold r in KA, KB. destruct (CL s I) as (C1 & C2). destruct (EF s I) as (EI & TM). destruct (KM s I) as (TR & KC). cbn [fst snd] in KC.
  assert (CH : forall x, continuous (hs (sf_law s)) x) by (intros x; apply continuity_pt_filterlim, EH, I).
  pose proof (surface_close (fs (sf_law s)) (hs (sf_law s)) e0 r a ky kz EI (continuous_eint _ e0 r CH) TM (fun _ => tame_continuous _ CH) KA KB ca cb cc
    (d (sf_law s)) W (lo (sf_law s)) (hi (sf_law s)) (mesh s) s TR (conj C1 C2) (fun t v T V => HW s t v I T V) (fun t v T V => proj2 (proj2 (KC t v T V))) (NE s I)) as M.
  match goal with |- _ <= ?k' => match type of M with _ <= ?k => replace k' with k by ring end end. exact M.
Qed.
Lemma area_near : forces_near (over_area d g) Y Z (area_forces fs laws g (e0, ky, kz)) (area_forces hs laws g (e0, ky, kz)).
Proof.
  unfold forces_near, area_forces. cbn [fst snd]. 
  assert (E1 : (fun _ _ : R => 1) = (fun y z : R => 1 + 0 * y + 0 * z)) by (apply functional_extensionality; intros y; apply functional_extensionality; intros z; ring).
  assert (E2 : (fun _ z : R => z) = (fun y z : R => 0 + 0 * y + 1 * z)) by (apply functional_extensionality; intros y; apply functional_extensionality; intros z; ring).
  assert (E3 : (fun y _ : R => - y) = (fun y z : R => 0 + -1 * y + 0 * z)) by (apply functional_extensionality; intros y; apply functional_extensionality; intros z; ring).
  rewrite E1, E2, E3. repeat apply conj; match goal with |- Rabs (?u + ?b - (?v + ?b)) <= _ => replace (u + b - (v + b)) with (u - v) by ring end.
  - replace (over_area d g) with (over_area d g * 1) by ring. apply over_near. intros s t v _ _ _. replace (1 + 0 * fst v + 0 * snd v) with 1 by ring. rewrite Rabs_R1. lra.
  - apply over_near. intros s t v I T V. replace (0 + 0 * fst v + 1 * snd v) with (snd v) by ring. apply (proj2 (KM s I) t v T V).
  - apply over_near. intros s t v I T V. replace (0 + -1 * fst v + 0 * snd v) with (- fst v) by ring. rewrite Rabs_Ropp. apply (proj2 (KM s I) t v T V).
Qed.
End Near.

(** The exact integrator works with the curves fs that its laws hand over; the forces it
    returns differ from the integrals over the curves hs of the materials themselves by
    no more than the difference of the curves times the area. *)
Theorem C60_forces : forall laws fs hs mesh g e0 ky kz (d lo hi : nat -> R) Y Z, let r := sqrt (kz ^ 2 + ky ^ 2) in
  (forall k, batched (laws k)) -> drawn g ->
  (forall s, In s (cg_surf g) -> field_of (lw_marin (laws (sf_law s)) (e0, r)) (fs (sf_law s)) e0 r) ->
  (forall s, In s (cg_surf g) -> (forall e, continuity_pt (hs (sf_law s)) e) /\ within (d (sf_law s)) (lo (sf_law s)) (hi (sf_law s)) (fs (sf_law s)) (hs (sf_law s))) ->
  kept_in mesh g (e0, ky, kz) lo hi Y Z ->
  exists F data, marin_forces laws g (e0, ky, kz) None = Ok (F, data) /\
    forces_near (over_area d g) Y Z F (area_forces hs laws g (e0, ky, kz)).
Proof.
  intros laws fs hs mesh g e0 ky kz d lo hi Y Z r B DR FI HC KM. destruct DR as (CL & BC).
  assert (G : forall s, In s (cg_surf g) -> closed (sf_ext s) /\ (forall q, In q (sf_ints s) -> closed q) /\ field_of (lw_marin (laws (sf_law s)) (e0, r)) (fs (sf_law s)) e0 r).
  { intros s I. destruct (CL s I). auto. }
  destruct (C21_forces_area laws fs g e0 ky kz B G BC) as (data & MF).
  exists (area_forces fs laws g (e0, ky, kz)), data. split; [exact MF|].
  apply (area_near laws fs hs mesh g e0 ky kz d lo hi Y Z CL).
  - intros s I. fold r. destruct (G s I) as (C1 & C2 & FO). split.
    + destruct (surface_entries_ok (laws (sf_law s)) IStress e0 r s (fs (sf_law s)) ltac:(discriminate) FO C1 C2) as (EI & _). exact EI.
    + intros N. apply (field_tame IStress (laws (sf_law s)) (fs (sf_law s)) e0 r ltac:(discriminate) FO N). apply sqrt_pos.
  - intros s I. apply (HC s I).
  - exact KM.
  - intros s I. apply (HC s I).
Qed.
Print Assumptions C60_forces.

(** Both integrators, when the fibres follow the law itself and the exact integrator its polygon. *)
Theorem C60_integrators : forall laws fs mesher g e0 ky kz ms (L d lo hi : nat -> R) h Y Z, let r := sqrt (kz ^ 2 + ky ^ 2) in
  let mesh := fun s => mesher s (surface_area s * ms) in
  (forall k, batched (laws k)) -> 0 < ms <= 1 -> cg_surf g <> [] \/ cg_bars g <> [] -> drawn g ->
  (forall s, In s (cg_surf g) -> field_of (lw_marin (laws (sf_law s)) (e0, r)) (fs (sf_law s)) e0 r) ->
  (forall s, In s (cg_surf g) -> let k := sf_law s in 0 <= L k /\ within (d k) (lo k) (hi k) (fs k) (lw_stress (laws k)) /\
     (forall e e', lo k <= e <= hi k -> lo k <= e' <= hi k -> Rabs (lw_stress (laws k) e - lw_stress (laws k) e') <= L k * Rabs (e - e'))) ->
  kept_in mesh g (e0, ky, kz) lo hi Y Z -> (forall s t, In s (cg_surf g) -> In t (mesh s) -> tri_size h t) ->
  exists F F' d1 d2,
    fiber_forces laws mesher g (e0, ky, kz) None (Some ms) = Ok (F, d1) /\
    marin_forces laws g (e0, ky, kz) None = Ok (F', d2) /\
    forces_near ((Rabs ky + Rabs kz) * h * over_area L g + over_area d g) Y Z F F'.
Proof.
  intros laws fs mesher g e0 ky kz ms L d lo hi h Y Z r mesh B MS NE DR FI LL KM SZ.
  set (hs := fun k e => lw_stress (laws k) (clamp (lo k) (hi k) e)).
  assert (CT : forall s, In s (cg_surf g) -> forall x, continuous (hs (sf_law s)) x).
  { intros s I x. destruct (LL s I) as (L0 & _ & LP). apply (clamped_continuous (lw_stress (laws (sf_law s))) (L (sf_law s)) (lo (sf_law s)) (hi (sf_law s)) L0 LP x). }
  destruct (C60_forces laws fs hs mesh g e0 ky kz d lo hi Y Z B DR FI) as (F' & d2 & MF & NR).
  { intros s I. split; [intros e; apply continuity_pt_filterlim, CT, I|]. intros e E. unfold hs. rewrite clamp_in by exact E. apply (LL s I), E. }
  { exact KM. }
  destruct (C19_forces laws mesher g e0 ky kz ms B MS NE) as (d1 & FF & _). fold mesh in FF.
  eexists _, F', d1, d2. split; [exact FF|]. split; [exact MF|].
  assert (G' : forall s, In s (cg_surf g) -> closed (sf_ext s) /\ (forall q, In q (sf_ints s) -> closed q) /\
    (forall off, eint (fun z => hs (sf_law s) (e0 + r * z) * z ^ off)) /\ (r <> 0 -> tame (hs (sf_law s)))).
  { intros s I. destruct (proj1 DR s I) as (C1 & C2). split; [exact C1|]. split; [exact C2|]. split; [apply continuous_eint, CT, I|intros _; apply tame_continuous, CT, I]. }
  assert (LL' : forall s, In s (cg_surf g) -> let k := sf_law s in 0 <= L k /\
    (forall e, lo k <= e <= hi k -> lw_stress (laws k) e = hs k e) /\
    (forall e e', lo k <= e <= hi k -> lo k <= e' <= hi k -> Rabs (hs k e - hs k e') <= L k * Rabs (e - e'))).
  { intros s I k. destruct (LL s I) as (L0 & _ & LP). split; [exact L0|]. unfold hs. split.
    - intros e E. now rewrite clamp_in.
    - intros e e' E E'. rewrite !clamp_in by assumption. now apply LP. }
  assert (TR : forall W ca cb cc, (forall s t v, In s (cg_surf g) -> In t (mesh s) -> corner t v -> Rabs (ca + cb * fst v + cc * snd v) <= W) ->
    Rabs (fsum ca cb cc (section_fibres laws mesh g) e0 ky kz - (over_surfaces hs (fun y z => ca + cb * y + cc * z) e0 ky kz (cg_surf g) + fsum ca cb cc (bar_fibres laws g) e0 ky kz))
      <= (Rabs ky + Rabs kz) * h * over_area L g * W).
  { intros W ca cb cc HW. apply (agreement laws hs mesh g e0 ky kz L lo hi h W G' ca cb cc (fun s I => proj1 (KM s I)) SZ HW (fun s t v I T V => proj2 (proj2 (proj2 (KM s I) t v T V))) LL'). }
  unfold forces_near in NR |- *. destruct F' as [[N' My'] Mz']. unfold area_forces in NR. cbn [fst snd] in NR |- *. destruct NR as (N1 & N2 & N3).
  assert (E1 : (fun _ _ : R => 1) = (fun y z : R => 1 + 0 * y + 0 * z)) by (apply functional_extensionality; intros y; apply functional_extensionality; intros z; ring).
  assert (E2 : (fun _ z : R => z) = (fun y z : R => 0 + 0 * y + 1 * z)) by (apply functional_extensionality; intros y; apply functional_extensionality; intros z; ring).
  assert (E3 : (fun y _ : R => - y) = (fun y z : R => 0 + -1 * y + 0 * z)) by (apply functional_extensionality; intros y; apply functional_extensionality; intros z; ring).
  rewrite E1, fsum_axial in N1. rewrite E2, fsum_my in N2. rewrite E3, fsum_mz in N3. rewrite fsum_axial, fsum_my, fsum_mz.
  assert (TA : forall u v w a b, Rabs (u - v) <= a -> Rabs (w - v) <= b -> Rabs (u - w) <= a + b).
  { intros u v w a b HA HB. rewrite Rabs_minus_sym in HB. replace (u - w) with ((u - v) + (v - w)) by ring. eapply Rle_trans; [apply Rabs_triang|]. lra. }
  set (KK := (Rabs ky + Rabs kz) * h * over_area L g) in *. rewrite !(Rmult_plus_distr_r KK). repeat apply conj.
  - eapply TA; [|exact N1]. replace KK with (KK * 1) by ring.
    apply TR. intros s t v _ _ _. replace (1 + 0 * fst v + 0 * snd v) with 1 by ring. rewrite Rabs_R1. lra.
  - eapply TA; [|exact N2]. apply TR. intros s t v I T V. replace (0 + 0 * fst v + 1 * snd v) with (snd v) by ring. apply (proj2 (KM s I) t v T V).
  - eapply TA; [|exact N3]. apply TR. intros s t v I T V. replace (0 + -1 * fst v + 0 * snd v) with (- fst v) by ring. rewrite Rabs_Ropp. apply (proj2 (KM s I) t v T V).
Qed.
Print Assumptions C60_integrators.
