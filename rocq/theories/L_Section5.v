(** Section-level lemmas for fibre sections (C22, C23, C25, C28). *)
From Coq Require Import FunctionalExtensionality.
From Verif Require Import Base M_Marin S_Marin L_Marin M_Laws S_Laws L_Laws M_Laws2 L_LawsC M_Fiber S_Fiber L_Fiber M_MarinInt S_MarinInt L_MarinInt3
  M_Section S_Section L_Section L_Section2 L_Section3 M_Domain S_History L_History L_Section4.

Lemma same_mesh_eqd d e : same_mesh d e <-> eqd d e.
Proof.
  unfold same_mesh, eqd. revert e. induction d as [|x d IH]; intros [|y e]; cbn [map]; split; intros H; try reflexivity; try discriminate; inversion H.
  - unfold unscalar at 1 3. rewrite H1, H2. f_equal. apply IH. assumption.
  - f_equal. apply IH. assumption.
Qed.
Lemma group_axial_same laws d e p : same_mesh d e -> group_axial laws d p = group_axial laws e p.
Proof.
  unfold same_mesh, group_axial. revert e. induction d as [|x d IH]; intros [|y e] H; cbn [map] in *; try reflexivity; try discriminate.
  rewrite !lsum_cons. inversion H. rewrite H1, H2. f_equal. apply IH. assumption.
Qed.
Lemma nonempty_data mesher g ms d : nonempty g -> triangulate mesher g ms = Ok d -> d <> [].
Proof.
  intros N T E. subst d. revert T. unfold triangulate. destruct (Rleb ms 0 || Rltb 1 ms)%bool; [discriminate|]. intros H. inversion H as [X].
  apply app_eq_nil in X. destruct X as (X1 & X2). destruct N as [N|N].
  - apply map_eq_nil in X1. contradiction.
  - destruct (cg_bars g) as [|b bs] eqn:E; [contradiction|]. clear N. unfold bar_groups, group_bars in X2. apply map_eq_nil in X2.
    revert X2. clear. cbn [fold_left add_bar].
    assert (G : forall cs acc, acc <> [] -> fold_left (fun d b => add_bar d (br_law b) (fibre_of_bar b)) cs acc <> []).
    { clear. induction cs as [|c cs IH]; intros acc A; [exact A|]. cbn [fold_left]. apply IH. destruct acc as [|(k & fs) acc]; [contradiction|].
      cbn [add_bar]. destruct (k =? br_law c)%nat; discriminate. }
    apply G. discriminate.
Qed.
Lemma group_axial_section laws mesher g ms d p : (forall k, batched (laws k)) -> nonempty g -> triangulate mesher g ms = Ok d ->
  group_axial laws d p = axial (section_fibres laws (fun x => mesher x (surface_area x * ms)) g) (p_e0 p) (p_ky p) (p_kz p).
Proof.
  intros B N T. pose proof (nonempty_data _ _ _ _ N T) as NE.
  destruct (forces_ok laws mesher g p ms d B N T) as (_ & E).
  pose proof (fiber_axial laws mesher g {| st_data := Some d; st_lim := None |} d p B eq_refl NE) as A.
  unfold axial_fun in A. cbn [st_data fiber_integ ig_forces] in A.
  assert (MI : fiber_forces laws mesher g p (Some d) None = fiber_forces laws mesher g p (Some d) (Some ms)) by reflexivity.
  rewrite MI, E in A. cbn in A. now inversion A.
Qed.
(** The first integration of an analysis on a calculator that works (or will work) with mesh size ms. *)
Lemma first_forces laws mesher g ms m s p : (forall k, batched (laws k)) -> nonempty g -> 0 < ms <= 1 ->
  uses_mesh mesher g ms (mesh_of m) s ->
  let N q := axial (section_fibres laws (fun x => mesher x (surface_area x * ms)) g) (p_e0 q) (p_ky q) (p_kz q) in
  exists F s', forces_k (fiber_integ laws mesher) g p m s = (Ok F, s') /\ fst (fst F) = N p /\
    (forall q, axial_fun (fiber_integ laws mesher) g s' q = Ok (N q)) /\ uses_mesh mesher g ms ms s' /\ st_data s' <> None /\ st_lim s' = st_lim s.
Proof.
  intros B NE M U N. destruct (triangulate_ok mesher g ms M) as (e & T). pose proof (nonempty_data _ _ _ _ NE T) as NN.
  assert (AX : forall l d, same_mesh d e -> forall q, axial_fun (fiber_integ laws mesher) g {| st_data := Some d; st_lim := l |} q = Ok (N q)).
  { intros l d SM q. rewrite (fiber_axial laws mesher g {| st_data := Some d; st_lim := l |} d q B eq_refl).
    - rewrite (group_axial_same _ _ _ _ SM), (group_axial_section _ _ _ _ _ _ B NE T). reflexivity.
    - intros ->. unfold same_mesh in SM. cbn in SM. symmetry in SM. apply map_eq_nil in SM. contradiction. }
  assert (US : forall l d, same_mesh d e -> uses_mesh mesher g ms ms {| st_data := Some d; st_lim := l |}).
  { intros l d SM. exists e. split; assumption. }
  destruct s as [[d|] l]; unfold uses_mesh in U; cbn [st_data] in U.
  - destruct U as (e' & T' & SM). rewrite T in T'. inversion T'; subst e'.
    assert (DN : d <> []) by (intros ->; unfold same_mesh in SM; cbn in SM; symmetry in SM; apply map_eq_nil in SM; contradiction).
    destruct (forces_k_data laws mesher g p m d l B DN) as (F & E & EF). exists F. eexists. split; [exact E|].
    split; [rewrite EF, (group_axial_same _ _ _ _ SM), (group_axial_section _ _ _ _ _ _ B NE T); reflexivity|].
    split; [apply AX; exact SM|]. split; [apply US; exact SM|]. split; [discriminate|reflexivity].
  - rewrite <- U in T. destruct (forces_k_fresh laws mesher g p m e l B T NN) as (F & E & EF). rewrite U in T. exists F. eexists. split; [exact E|].
    split; [rewrite EF, (group_axial_section _ _ _ _ _ _ B NE T); reflexivity|].
    split; [apply AX; reflexivity|]. split; [apply US; reflexivity|]. split; [discriminate|reflexivity].
Qed.
(** Fixed curvature, reduced to the response of the fibres. *)
Lemma fixed_curvature_fiber laws mesher g ms n c e s : (forall k, batched (laws k)) -> nonempty g -> 0 < ms <= 1 ->
  uses_mesh mesher g ms (1/100) s ->
  let N x := axial (section_fibres laws (fun x => mesher x (surface_area x * ms)) g) x c 0 in
  fst (fixed_curvature (fiber_integ laws mesher) g n c e s) =
   rmap (fun x => (x, c, 0)) (solve_curvature (fun x => Ok (N x)) n e (N e)).
Proof.
  intros B NE M U N. destruct (first_forces laws mesher g ms None s (e, c, 0) B NE M U) as (F & s' & E & EF & AX & _).
  unfold fixed_curvature, abind. rewrite E. cbn [fst snd]. rewrite EF. unfold p_e0, p_ky, p_kz. cbn [fst snd].
  rewrite (solve_curvature_total _ N); [reflexivity|]. intros x. rewrite AX. reflexivity.
Qed.
Lemma fixed_pivot_fiber laws mesher t g ms n y s yn yp b : (forall k, batched (laws k)) -> nonempty g -> 0 < ms <= 1 ->
  uses_mesh mesher g ms ms s -> balanced (tr_rc t) y (items_of t g) = Ok (yn, yp, b) ->
  let N e c := axial (section_fibres laws (fun x => mesher x (surface_area x * ms)) g) e c 0 in
  fst (fixed_pivot (fiber_integ laws mesher) t ms g n y s) =
   rmap (fun r => (fst r, snd r, 0)) (pivot_gen 100 (fun e c => Ok (N e c)) n yn yp (p_e0 b) (p_ky b) (N (p_e0 b) (p_ky b))).
Proof.
  intros B NE M U HB N. destruct (first_forces laws mesher g ms (Some ms) s b B NE M U) as (F & s' & E & EF & AX & _).
  unfold fixed_pivot. rewrite HB. unfold abind, alift. rewrite E. cbn [fst snd]. rewrite EF, pivot_gen_eq.
  assert (KZ : p_kz b = 0).
  { unfold balanced in HB. destruct (fold_left _ _ _) as [[[[? ?] ?] ?]|]; [|discriminate]. inversion HB. reflexivity. }
  rewrite KZ. generalize 100%nat. intros K.
  assert (EQ : (fun e c => axial_fun (fiber_integ laws mesher) g s' (e, c, 0)) = (fun e c => Ok (N e c))).
  { extensionality e. extensionality c. rewrite AX. reflexivity. }
  rewrite EQ. reflexivity.
Qed.
(** Fibre responses of monotone materials are monotone. *)
Lemma axial_mono fs e0 ky kz f0 hy hz :
  (forall f, In f fs -> 0 <= m_a f /\ nondecreasing (m_sigma f)) ->
  (forall f, In f fs -> plane_strain e0 ky kz (m_y f) (m_z f) <= plane_strain f0 hy hz (m_y f) (m_z f)) ->
  axial fs e0 ky kz <= axial fs f0 hy hz.
Proof.
  intros H L. unfold axial. apply lsum_le. intros f Hf. destruct (H f Hf) as (A & MO). apply Rmult_le_compat_r; [exact A|]. apply MO, L, Hf.
Qed.
Lemma section_good laws mesh g : (forall k, nondecreasing (lw_stress (laws k))) -> (forall b, In b (cg_bars g) -> 0 <= br_area b) ->
  forall f, In f (section_fibres laws mesh g) -> 0 <= m_a f /\ nondecreasing (m_sigma f).
Proof.
  intros MO HB f Hf. unfold section_fibres in Hf. apply in_app_or in Hf. destruct Hf as [Hf|Hf].
  - apply in_flat_map in Hf. destruct Hf as (x & _ & Hx). apply in_map_iff in Hx. destruct Hx as (((p & q) & r) & <- & _).
    cbn [tri_fibre mfibre_at m_a m_sigma]. split; [apply Rabs_pos|apply MO].
  - apply in_map_iff in Hf. destruct Hf as (b & <- & Hb). split; [exact (HB b Hb)|apply MO].
Qed.
Lemma section_mono laws mesh g c : (forall k, nondecreasing (lw_stress (laws k))) -> (forall b, In b (cg_bars g) -> 0 <= br_area b) ->
  nondecreasing (fun x => axial (section_fibres laws mesh g) x c 0).
Proof.
  intros MO HB x y XY. apply axial_mono; [apply section_good; assumption|]. intros f _. unfold plane_strain. lra.
Qed.
