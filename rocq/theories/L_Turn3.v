(** Lemmas for C56: both integrators give the forces and the stiffness of the turned section. *)
From Coq Require Import FunctionalExtensionality Lra Lia.
From Coquelicot Require Import Coquelicot.
From Verif Require Import Base M_Marin S_Marin L_Marin M_Laws M_Laws2 M_Fiber S_Fiber L_Fiber M_MarinInt L_MarinInt L_MarinInt2 L_MarinInt3 L_MarinInt4 L_Frame4 M_Section S_Section L_Section M_Domain S_History L_History
  P_Fiber P_MarinInt S_Frame P_Frame S_MarinInt S_Exact S_Turn L_Turn L_Turn2.

(** Values at points, their moments, and their turning. *)
Definition vm (i j : nat) (v : list (R * R * R)) : R := lsum (map (fun x => snd x * (fst (fst x) ^ i * snd (fst x) ^ j)) v).
Definition vturn (a : R) (x : R * R * R) : R * R * R := (fst (rot a (fst x)), snd (rot a (fst x)), snd x).
Definition moments_turn (a : R) (M M' : nat -> nat -> R) : Prop := let c := cos a in let s := sin a in
  M' 0%nat 0%nat = M 0%nat 0%nat /\ M' 1%nat 0%nat = c * M 1%nat 0%nat - s * M 0%nat 1%nat /\
  M' 0%nat 1%nat = s * M 1%nat 0%nat + c * M 0%nat 1%nat /\
  M' 2%nat 0%nat = c ^ 2 * M 2%nat 0%nat - 2 * c * s * M 1%nat 1%nat + s ^ 2 * M 0%nat 2%nat /\
  M' 1%nat 1%nat = c * s * M 2%nat 0%nat + (c ^ 2 - s ^ 2) * M 1%nat 1%nat - c * s * M 0%nat 2%nat /\
  M' 0%nat 2%nat = s ^ 2 * M 2%nat 0%nat + 2 * c * s * M 1%nat 1%nat + c ^ 2 * M 0%nat 2%nat.
Lemma vm_cons i j x v : vm i j (x :: v) = snd x * (fst (fst x) ^ i * snd (fst x) ^ j) + vm i j v.
Proof. unfold vm. cbn [map]. apply lsum_cons. Qed.
Lemma vm_turn a v : moments_turn a (fun i j => vm i j v) (fun i j => vm i j (map (vturn a) v)).
Proof.
  unfold moments_turn. cbv zeta. induction v as [|[[y z] w] v IH].
  - unfold vm. cbn [map]. change (lsum []) with 0. repeat split; ring.
  - cbn [map]. rewrite !vm_cons. destruct IH as (A & B & C & D & E & F). rewrite A, B, C, D, E, F. unfold vturn, rot. cbn [fst snd]. repeat split; ring.
Qed.
Definition matrix_of (M : nat -> nat -> R) (i j : nat) : R :=
  match i, j with
  | 0%nat, 0%nat => M 0%nat 0%nat
  | 0%nat, 1%nat | 1%nat, 0%nat => M 0%nat 1%nat
  | 0%nat, 2%nat | 2%nat, 0%nat => - M 1%nat 0%nat
  | 1%nat, 1%nat => M 0%nat 2%nat
  | 1%nat, 2%nat | 2%nat, 1%nat => - M 1%nat 1%nat
  | 2%nat, 2%nat => M 2%nat 0%nat
  | _, _ => 0
  end.
Ltac nine Hi Hj i j := destruct i as [|[|[|i]]]; [| | |exfalso; clear - Hi; lia]; (destruct j as [|[|[|j]]]; [| | |exfalso; clear - Hj; lia]).
Lemma turn_matrix_of a M M' : moments_turn a M M' -> eq3 (matrix_of M') (turn_matrix a (matrix_of M)).
Proof.
  intros (A & B & C & D & E & F) i j Hi Hj. nine Hi Hj i j; entries; cbn [matrix_of]; rewrite ?A, ?B, ?C, ?D, ?E, ?F; ring.
Qed.
Lemma fiber_stress_vm v : f_integrate_stress v = (vm 0 0 v, vm 0 1 v, - vm 1 0 v).
Proof.
  unfold f_integrate_stress, vm. apply pair3; try (apply lsum_map_ext; intros; cbn [pow]; ring).
  induction v as [|x v IH]; cbn [map]; rewrite ?lsum_cons; [change (lsum []) with 0; ring|]. rewrite IH. cbn [pow]. ring.
Qed.
Lemma lsum_opp {A} (f : A -> R) l : lsum (map (fun x => - f x) l) = - lsum (map f l).
Proof. induction l as [|x l IH]; cbn [map]; rewrite ?lsum_cons; [change (lsum []) with 0; ring|]. rewrite IH. ring. Qed.
Lemma fiber_modulus_vm v : eq3 (f_integrate_modulus v) (matrix_of (fun i j => vm i j v)).
Proof.
  intros i j Hi Hj. nine Hi Hj i j; cbn [f_integrate_modulus matrix_of]; unfold vm; rewrite <- ?lsum_opp; apply lsum_map_ext; intros; cbn [pow]; ring.
Qed.
Lemma eq3_trans A B C : eq3 A B -> eq3 B C -> eq3 A C.
Proof. intros H K i j Hi Hj. rewrite (H i j Hi Hj). now apply K. Qed.
Lemma eq3_sym A B : eq3 A B -> eq3 B A.
Proof. intros H i j Hi Hj. symmetry. now apply H. Qed.
Lemma turn_matrix_eq a A B : eq3 A B -> eq3 (turn_matrix a A) (turn_matrix a B).
Proof.
  intros H i j _ _. destruct (eq3_all _ _ H) as (E1 & E2 & E3 & E4 & E5 & E6 & E7 & E8 & E9). unfold turn_matrix. cbn [map]. rewrite !lsum_cons. change (lsum []) with 0.
  rewrite E1, E2, E3, E4, E5, E6, E7, E8, E9. reflexivity.
Qed.
Lemma spun3_moments a (M M' : nat -> nat -> R) : moments_turn a M M' ->
  (M' 0%nat 0%nat, M' 0%nat 1%nat, - M' 1%nat 0%nat) = spun3 a (M 0%nat 0%nat, M 0%nat 1%nat, - M 1%nat 0%nat).
Proof. intros (A & B & C & _). unfold spun3, spun. cbn [fst snd]. rewrite A, B, C. apply pair3; ring. Qed.

Lemma entry_turn a f p x : entry f (spun3 a p) (rotate_fibre a x) = vturn a (entry f p x).
Proof.
  unfold entry, vturn, fibre_strain, spun3, spun, rotate_fibre, p_e0, p_ky, p_kz. cbn [fst snd fb_y fb_z fb_a rot].
  f_equal. f_equal. f_equal. pose proof (sin2_cos2 a) as P. unfold Rsqr in P. destruct p as [[e ky] kz]. cbn [fst snd].
  transitivity (e + (sin a * sin a + cos a * cos a) * (ky * fb_z x - kz * fb_y x)); [ring|]. rewrite P. ring.
Qed.
Lemma flat_turn (h : nat -> R -> R) a p D :
  flat_map (fun g => map (entry (h (gr_law g)) (spun3 a p)) (gr_fibres g)) (map (rotate_group a) D) =
  map (vturn a) (flat_map (fun g => map (entry (h (gr_law g)) p) (gr_fibres g)) D).
Proof.
  induction D as [|d D IH]; [reflexivity|]. cbn [map flat_map]. rewrite map_app, IH. f_equal. cbn [rotate_group gr_fibres gr_law]. rewrite !map_map.
  apply map_ext. intros x. apply entry_turn.
Qed.

Section FiberTurn.
Variables (laws : nat -> law) (mesher : surface -> R -> list mtri).
Hypothesis B : forall k, batched (laws k).
Lemma fiber_input_turn what a g p D m : what <> IOther ->
  prepare_input laws mesher (rotate_geo a g) (spun3 a p) what (Some (map (rotate_group a) D)) m =
  rmap (fun x => (map (vturn a) (fst x), map (rotate_group a) (snd x))) (prepare_input laws mesher g p what (Some D) m).
Proof.
  intros W. unfold prepare_input. cbn [bind]. rewrite !prepare_groups_ok by assumption. cbn [bind].
  rewrite (flat_turn (fun k => pick what (laws k))). destruct D; reflexivity.
Qed.
Lemma fiber_turn_forces a g p D m :
  rmap fst (fiber_forces laws mesher (rotate_geo a g) (spun3 a p) (Some (map (rotate_group a) D)) m) =
  rmap (spun3 a) (rmap fst (fiber_forces laws mesher g p (Some D) m)).
Proof.
  unfold fiber_forces. rewrite fiber_input_turn by discriminate. destruct (prepare_input laws mesher g p IStress (Some D) m) as [[v d]|e]; cbn [bind rmap fst snd]; [|reflexivity].
  f_equal. rewrite !fiber_stress_vm. apply (spun3_moments a (fun i j => vm i j v) (fun i j => vm i j (map (vturn a) v))). apply vm_turn.
Qed.
Lemma fiber_turn_stiffness a g p D m :
  match fiber_stiffness laws mesher g p (Some D) m, fiber_stiffness laws mesher (rotate_geo a g) (spun3 a p) (Some (map (rotate_group a) D)) m with
  | Ok (K, _), Ok (K', _) => eq3 K' (turn_matrix a K) | Err e, Err e' => e = e' | _, _ => False end.
Proof.
  unfold fiber_stiffness. rewrite fiber_input_turn by discriminate. destruct (prepare_input laws mesher g p IModulus (Some D) m) as [[v d]|e]; cbn [bind rmap fst snd]; [|reflexivity].
  eapply eq3_trans; [apply fiber_modulus_vm|]. eapply eq3_trans; [apply turn_matrix_of, vm_turn|]. apply turn_matrix_eq, eq3_sym, fiber_modulus_vm.
Qed.
End FiberTurn.

(** The exact integrator aligns the section with the curvature, whatever its orientation. *)
Lemma rot_cs a b p : cos a = cos b -> sin a = sin b -> rot a p = rot b p.
Proof. intros C S. unfold rot. rewrite C, S. reflexivity. Qed.
Lemma aligned_angle a ky kz : let ky' := fst (spun a ky kz) in let kz' := snd (spun a ky kz) in sqrt (kz ^ 2 + ky ^ 2) <> 0 ->
  cos (- atan2 kz' ky') = cos (- atan2 kz ky - a) /\ sin (- atan2 kz' ky') = sin (- atan2 kz ky - a).
Proof.
  intros ky' kz' N. destruct (atan2_spec ky kz) as [C S], (atan2_spec ky' kz') as [C' S'].
  assert (L : sqrt (kz' ^ 2 + ky' ^ 2) = sqrt (kz ^ 2 + ky ^ 2)).
  { unfold kz', ky', spun. cbn [fst snd]. f_equal. pose proof (sin2_cos2 a) as P. unfold Rsqr in P.
    transitivity ((sin a * sin a + cos a * cos a) * (kz ^ 2 + ky ^ 2)); [ring|rewrite P; ring]. }
  rewrite L in C', S'. set (r := sqrt (kz ^ 2 + ky ^ 2)) in *. replace (- atan2 kz ky - a) with (- (atan2 kz ky + a)) by ring.
  rewrite !cos_neg, !sin_neg, cos_plus, sin_plus. split; apply (Rmult_eq_reg_l r); try assumption.
  - rewrite C'. transitivity (cos a * (r * cos (atan2 kz ky)) - sin a * (r * sin (atan2 kz ky))); [rewrite C, S; reflexivity|ring].
  - rewrite Ropp_mult_distr_r_reverse, S'. transitivity (- (sin a * (r * cos (atan2 kz ky)) + cos a * (r * sin (atan2 kz ky)))); [rewrite C, S; reflexivity|ring].
Qed.
Lemma prepare_aligned laws a g e0 ky kz what D : let p := (e0, ky, kz) in sqrt (kz ^ 2 + ky ^ 2) <> 0 ->
  m_prepare laws (rotate_geo a g) (spun3 a p) what (Some (map (rotate_group a) D)) =
  rmap (fun x => let '(_, es, bs, gs) := x in (- atan2 (p_kz (spun3 a p)) (p_ky (spun3 a p)), es, bs, gs)) (m_prepare laws g p what (Some D)).
Proof.
  intros p N. unfold m_prepare, p, spun3, p_e0, p_ky, p_kz. cbn [fst snd]. destruct (aligned_angle a ky kz N) as (CC & SS).
  set (ky' := fst (spun a ky kz)) in *. set (kz' := snd (spun a ky kz)) in *. set (b := - atan2 kz ky) in *. set (b' := - atan2 kz' ky') in *.
  assert (L : sqrt (kz' ^ 2 + ky' ^ 2) = sqrt (kz ^ 2 + ky ^ 2)).
  { unfold kz', ky', spun. cbn [fst snd]. f_equal. pose proof (sin2_cos2 a) as P. unfold Rsqr in P.
    transitivity ((sin a * sin a + cos a * cos a) * (kz ^ 2 + ky ^ 2)); [ring|rewrite P; ring]. }
  assert (RR : forall x, rot b' (rot a x) = rot b x).
  { intros x. rewrite (rot_cs b' (b - a) _ CC SS), L_Turn.rot_rot. f_equal. ring. }
  cbn zeta. rewrite L.
  assert (E1 : map (rotate_surface b') (cg_surf (rotate_geo a g)) = map (rotate_surface b) (cg_surf g)).
  { unfold rotate_geo. cbn [cg_surf]. rewrite map_map. apply map_ext. intros s. unfold rotate_surface. cbn [sf_ext sf_ints sf_law]. rewrite !map_map. f_equal.
    - apply map_ext, RR.
    - apply map_ext. intros q. rewrite map_map. apply map_ext, RR. }
  assert (E2 : map (rotate_group b') (map (rotate_group a) D) = map (rotate_group b) D).
  { rewrite map_map. apply map_ext. intros x. unfold rotate_group. cbn [gr_fibres gr_scalar gr_law]. rewrite map_map. f_equal.
    apply map_ext. intros f. unfold rotate_fibre. cbn [fb_y fb_z fb_a]. rewrite <- (surjective_pairing (rot a (fb_y f, fb_z f))), RR. reflexivity. }
  rewrite E1, E2. destruct (surfaces_entries laws what e0 (sqrt (kz ^ 2 + ky ^ 2)) (map (rotate_surface b) (cg_surf g))) as [x|e]; cbn [bind rmap]; [|reflexivity].
  match goal with |- context [bind ?x _] => destruct x end; cbn [bind rmap]; [|reflexivity].
  destruct (homogeneous _); reflexivity.
Qed.

Lemma marin_forces_aligned laws a g e0 ky kz D : sqrt (kz ^ 2 + ky ^ 2) <> 0 ->
  rmap fst (marin_forces laws (rotate_geo a g) (spun3 a (e0, ky, kz)) (Some (map (rotate_group a) D))) =
  rmap (spun3 a) (rmap fst (marin_forces laws g (e0, ky, kz) (Some D))).
Proof.
  intros N. unfold marin_forces. rewrite prepare_aligned by exact N.
  destruct (aligned_angle a ky kz N) as (CC & SS). unfold spun3 at 1 2. unfold p_ky, p_kz. cbn [fst snd].
  set (b' := - atan2 (snd (spun a ky kz)) (fst (spun a ky kz))) in *.
  destruct (m_prepare laws g (e0, ky, kz) IStress (Some D)) as [[[[b es] bs] gs]|e] eqn:E; cbn [bind rmap fst]; [|reflexivity].
  assert (b = - atan2 kz ky).
  { unfold m_prepare, p_ky, p_kz in E. cbn [fst snd] in E. destruct (surfaces_entries _ _ _ _ _); cbn [bind] in E; [|discriminate].
    match goal with E : context [bind ?x _] |- _ => destruct x end; cbn [bind] in E; [|discriminate]. destruct (homogeneous _); congruence. }
  subst b. set (b := - atan2 kz ky) in *. f_equal. unfold m_integrate_stress, spun3, spun. cbn [fst snd].
  rewrite !cos_neg, !sin_neg, CC, SS. replace (b - a) with (b + - a) by ring. rewrite cos_plus, sin_plus, cos_neg, sin_neg. apply pair3; ring.
Qed.
Lemma mmul_turn a b (K : mat3) b' : cos b' = cos (b - a) -> sin b' = sin (b - a) ->
  eq3 (mmul (mmul (mtr (m_T b')) K) (m_T b')) (turn_matrix a (mmul (mmul (mtr (m_T b)) K) (m_T b))).
Proof.
  intros CC SS. replace (b - a) with (b + - a) in * by ring. rewrite cos_plus, cos_neg, sin_neg in CC. rewrite sin_plus, cos_neg, sin_neg in SS.
  intros i j Hi Hj. nine Hi Hj i j; entries; unfold mmul, mtr, m_T; cbv beta iota; rewrite !cos_neg, !sin_neg, ?CC, ?SS; ring.
Qed.
Lemma marin_stiffness_aligned laws a g e0 ky kz D : sqrt (kz ^ 2 + ky ^ 2) <> 0 ->
  match marin_stiffness laws g (e0, ky, kz) (Some D), marin_stiffness laws (rotate_geo a g) (spun3 a (e0, ky, kz)) (Some (map (rotate_group a) D)) with
  | Ok (K, _), Ok (K', _) => eq3 K' (turn_matrix a K) | Err e, Err e' => e = e' | _, _ => False end.
Proof.
  intros N. unfold marin_stiffness. rewrite prepare_aligned by exact N.
  destruct (aligned_angle a ky kz N) as (CC & SS). unfold spun3 at 1 2. unfold p_ky, p_kz. cbn [fst snd].
  set (b' := - atan2 (snd (spun a ky kz)) (fst (spun a ky kz))) in *.
  destruct (m_prepare laws g (e0, ky, kz) IModulus (Some D)) as [[[[b es] bs] gs]|e] eqn:E; cbn [bind rmap fst]; [|reflexivity].
  assert (b = - atan2 kz ky).
  { unfold m_prepare, p_ky, p_kz in E. cbn [fst snd] in E. destruct (surfaces_entries _ _ _ _ _); cbn [bind] in E; [|discriminate].
    match goal with E : context [bind ?x _] |- _ => destruct x end; cbn [bind] in E; [|discriminate]. destruct (homogeneous _); congruence. }
  subst b. unfold m_integrate_modulus. apply mmul_turn; assumption.
Qed.
