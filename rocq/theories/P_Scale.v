(** C62: sections put together, sections drawn to another scale. *)
From Coq Require Import Permutation FunctionalExtensionality Lra Lia.
From Verif Require Import Base M_Marin S_Marin M_Laws M_Laws2 M_Fiber S_Fiber M_MarinInt S_MarinInt M_Section M_Domain S_History L_Section4 P_Section P_Exact P_Turn P_Move S_Turn L_Turn L_Turn2 L_Turn3 L_Turn4 L_Order3 S_Scale L_Scale.

(** * The exact integrator: forces and stiffness of both parts add up. *)
Theorem C62_marin_sum : forall laws fs g1 g2 p, (forall k, batched (laws k)) ->
  outlined g1 -> outlined g2 -> equal_groups g1 -> equal_groups g2 -> equal_groups (joined g1 g2) ->
  (described_at IStress laws fs g1 p -> described_at IStress laws fs g2 p ->
   exists F1 F2 d1 d2 d, marin_forces laws g1 p None = Ok (F1, d1) /\ marin_forces laws g2 p None = Ok (F2, d2) /\
     marin_forces laws (joined g1 g2) p None = Ok (plus3 F1 F2, d)) /\
  (described_at IModulus laws fs g1 p -> described_at IModulus laws fs g2 p ->
   exists K1 K2 K d1 d2 d, marin_stiffness laws g1 p None = Ok (K1, d1) /\ marin_stiffness laws g2 p None = Ok (K2, d2) /\
     marin_stiffness laws (joined g1 g2) p None = Ok (K, d) /\ forall i j, (i < 3)%nat -> (j < 3)%nat -> K i j = K1 i j + K2 i j).
Proof.
  intros laws fs g1 g2 [[e ky] kz] B O1 O2 Q1 Q2 Q.
  assert (O : outlined (joined g1 g2)) by (intros s I; cbn [joined cg_surf] in I; apply in_app_or in I as [I|I]; [exact (O1 s I)|exact (O2 s I)]).
  assert (DJ : forall w, described_at w laws fs g1 (e, ky, kz) -> described_at w laws fs g2 (e, ky, kz) -> described_at w laws fs (joined g1 g2) (e, ky, kz)).
  { intros w D1 D2 s I. cbn [joined cg_surf] in I. apply in_app_or in I as [I|I]; [exact (D1 s I)|exact (D2 s I)]. }
  split; intros D1 D2; specialize (DJ _ D1 D2).
  - destruct (marin_forces_of laws fs g1 e ky kz B O1 Q1 D1) as (d1 & E1). destruct (marin_forces_of laws fs g2 e ky kz B O2 Q2 D2) as (d2 & E2).
    destruct (marin_forces_of laws fs _ e ky kz B O Q DJ) as (d & E). rewrite !moments_joined in E. cbv zeta in E1, E2.
    do 5 eexists. split; [exact E1|]. split; [exact E2|]. rewrite E. do 2 f_equal. unfold plus3, spun3, S_Frame.spun. cbn [fst snd]. apply pair3; ring.
  - destruct (marin_stiffness_of laws fs g1 e ky kz B O1 Q1 D1) as (K1 & d1 & E1 & X1). destruct (marin_stiffness_of laws fs g2 e ky kz B O2 Q2 D2) as (K2 & d2 & E2 & X2).
    destruct (marin_stiffness_of laws fs _ e ky kz B O Q DJ) as (K & d & E & X). exists K1, K2, K, d1, d2, d. repeat (split; [assumption|]).
    intros i j Hi Hj. rewrite (X1 i j Hi Hj), (X2 i j Hi Hj), (X i j Hi Hj). unfold turned_matrix, mmul, matrix_of. rewrite !moments_joined. ring.
Qed.
Print Assumptions C62_marin_sum.
(** * The fibre integrator, for every mesh size. *)
Lemma joined_entries laws mesher what g1 g2 p m v1 v2 D1 D2 : (forall k, batched (laws k)) -> what <> IOther -> 0 < m <= 1 ->
  prepare_input laws mesher g1 p what None (Some m) = Ok (v1, D1) -> prepare_input laws mesher g2 p what None (Some m) = Ok (v2, D2) ->
  exists v D, prepare_input laws mesher (joined g1 g2) p what None (Some m) = Ok (v, D) /\ forall i j, vm i j v = vm i j v1 + vm i j v2.
Proof.
  intros B W M E1 E2.
  pose proof (fiber_entries laws mesher what g1 p m B W M) as P1. pose proof (fiber_entries laws mesher what g2 p m B W M) as P2.
  pose proof (fiber_entries laws mesher what (joined g1 g2) p m B W M) as P. rewrite E1 in P1. rewrite E2 in P2.
  destruct (prepare_input laws mesher (joined g1 g2) p what None (Some m)) as [[v D]|e] eqn:E.
  - exists v, D. split; [reflexivity|]. intros i j. rewrite <- (vm_perm _ _ _ _ P), <- (vm_perm _ _ _ _ P1), <- (vm_perm _ _ _ _ P2). apply entries_joined.
  - exfalso. destruct P as (_ & Z1 & Z2). cbn [joined cg_surf cg_bars] in Z1, Z2. apply app_eq_nil in Z1 as (Z1 & _). apply app_eq_nil in Z2 as (Z2 & _).
    destruct (fiber_empty laws mesher what g1 p (Some m) Z1 Z2) as (e' & Q). congruence.
Qed.
Theorem C62_fiber_sum : forall laws mesher g1 g2 p m, (forall k, batched (laws k)) -> 0 < m <= 1 ->
  (forall F1 F2 d1 d2, fiber_forces laws mesher g1 p None (Some m) = Ok (F1, d1) -> fiber_forces laws mesher g2 p None (Some m) = Ok (F2, d2) ->
   exists d, fiber_forces laws mesher (joined g1 g2) p None (Some m) = Ok (plus3 F1 F2, d)) /\
  (forall K1 K2 d1 d2, fiber_stiffness laws mesher g1 p None (Some m) = Ok (K1, d1) -> fiber_stiffness laws mesher g2 p None (Some m) = Ok (K2, d2) ->
   exists K d, fiber_stiffness laws mesher (joined g1 g2) p None (Some m) = Ok (K, d) /\ forall i j, (i < 3)%nat -> (j < 3)%nat -> K i j = K1 i j + K2 i j).
Proof.
  intros laws mesher g1 g2 p m B M. unfold fiber_forces, fiber_stiffness. split; intros X1 X2 d1 d2 E1 E2.
  - destruct (prepare_input laws mesher g1 p IStress None (Some m)) as [[v1 D1]|] eqn:Q1; cbn [bind fst snd] in E1; [|discriminate].
    destruct (prepare_input laws mesher g2 p IStress None (Some m)) as [[v2 D2]|] eqn:Q2; cbn [bind fst snd] in E2; [|discriminate]. injection E1 as <- <-. injection E2 as <- <-.
    destruct (joined_entries laws mesher IStress g1 g2 p m v1 v2 D1 D2 B ltac:(discriminate) M Q1 Q2) as (v & D & -> & V). cbn [bind fst snd]. eexists. do 2 f_equal.
    rewrite !stress_vm, !V. unfold plus3. cbn [fst snd]. apply pair3; ring.
  - destruct (prepare_input laws mesher g1 p IModulus None (Some m)) as [[v1 D1]|] eqn:Q1; cbn [bind fst snd] in E1; [|discriminate].
    destruct (prepare_input laws mesher g2 p IModulus None (Some m)) as [[v2 D2]|] eqn:Q2; cbn [bind fst snd] in E2; [|discriminate]. injection E1 as <- <-. injection E2 as <- <-.
    destruct (joined_entries laws mesher IModulus g1 g2 p m v1 v2 D1 D2 B ltac:(discriminate) M Q1 Q2) as (v & D & -> & V). cbn [bind fst snd]. do 2 eexists. split; [reflexivity|].
    intros i j Hi Hj. rewrite (modulus_vm v i j Hi Hj), (modulus_vm v1 i j Hi Hj), (modulus_vm v2 i j Hi Hj).
    destruct i as [|[|[|i]]], j as [|[|[|j]]]; try (exfalso; lia); cbn [matrix_of]; rewrite V; ring.
Qed.
Print Assumptions C62_fiber_sum.

(** * Another scale *)
Lemma outlined_larger l g : outlined g -> outlined (larger_section l g).
Proof.
  intros O s I. cbn [larger_section cg_surf] in I. apply in_map_iff in I as (s0 & <- & I). destruct (O s0 I) as (C1 & C2). cbn [larger_surface sf_ext sf_ints].
  split; [now apply L_MarinInt3.closed_map|]. intros q J. apply in_map_iff in J as (q0 & <- & J). apply L_MarinInt3.closed_map, C2, J.
Qed.
Lemma groups_larger l g : equal_groups g -> equal_groups (larger_section l g).
Proof.
  intros Q b b' I I'. cbn [larger_section cg_bars] in *. apply in_map_iff in I as (x & <- & I). apply in_map_iff in I' as (x' & <- & I'). cbn [larger_bar br_law].
  assert (C : forall k bs, count_law k (map (larger_bar l) bs) = count_law k bs).
  { intros k bs. unfold count_law. induction bs as [|y ys IH]; [reflexivity|]. cbn [map filter larger_bar br_law]. destruct (br_law y =? k)%nat; cbn [length]; rewrite IH; reflexivity. }
  rewrite !C. exact (Q x x' I I').
Qed.
Theorem C62_marin_scale : forall laws fs g p l, (forall k, batched (laws k)) -> 0 < l -> outlined g -> equal_groups g ->
  (described_at IStress laws fs g p -> described_at IStress laws fs g (flatter l p) ->
   exists F d d', marin_forces laws g p None = Ok (F, d) /\ marin_forces laws (larger_section l g) (flatter l p) None = Ok (larger_forces l F, d')) /\
  (described_at IModulus laws fs g p -> described_at IModulus laws fs g (flatter l p) ->
   exists K K' d d', marin_stiffness laws g p None = Ok (K, d) /\ marin_stiffness laws (larger_section l g) (flatter l p) None = Ok (K', d') /\ larger_matrix l K K').
Proof.
  intros laws fs g [[e ky] kz] l B L O Q. pose proof (outlined_larger l g O) as O'. pose proof (groups_larger l g Q) as Q'.
  assert (DS : forall w, described_at w laws fs g (flatter l (e, ky, kz)) -> described_at w laws fs (larger_section l g) (e, ky / l, kz / l)).
  { intros w D s I. cbn [larger_section cg_surf] in I. apply in_map_iff in I as (s0 & <- & I). exact (D s0 I). }
  assert (ML : forall w i j, w <> IOther -> described_at w laws fs g (e, ky, kz) ->
    all_moments laws w fs (tilt (ky / l) (kz / l)) e (bend (ky / l) (kz / l)) (larger_section l g) i j = l ^ (i + j + 2) * all_moments laws w fs (tilt ky kz) e (bend ky kz) g i j).
  { intros w i j W D. rewrite tilt_larger, bend_larger by exact L. now apply moments_larger. }
  split; intros D D'; specialize (DS _ D').
  - destruct (marin_forces_of laws fs g e ky kz B O Q D) as (d1 & E1). destruct (marin_forces_of laws fs _ e _ _ B O' Q' DS) as (d2 & E2).
    rewrite !(ML IStress _ _ ltac:(discriminate) D) in E2. rewrite tilt_larger in E2 by exact L.
    do 3 eexists. split; [exact E1|]. cbn [flatter]. rewrite E2. do 2 f_equal. unfold larger_forces, spun3, S_Frame.spun. cbn [fst snd Nat.add pow]. apply pair3; ring.
  - destruct (marin_stiffness_of laws fs g e ky kz B O Q D) as (K1 & d1 & E1 & X1). destruct (marin_stiffness_of laws fs _ e _ _ B O' Q' DS) as (K2 & d2 & E2 & X2).
    exists K1, K2, d1, d2. split; [exact E1|]. split; [exact E2|]. unfold larger_matrix. cbv zeta. intros i j Hi Hj. rewrite (X1 i j Hi Hj), (X2 i j Hi Hj).
    unfold turned_matrix, mmul, mtr, matrix_of. rewrite !(ML IModulus _ _ ltac:(discriminate) D). rewrite tilt_larger by exact L. unfold m_T.
    destruct i as [|[|[|i]]], j as [|[|[|j]]]; try (exfalso; lia); cbn [Nat.add pow]; ring.
Qed.
Print Assumptions C62_marin_scale.
Theorem C62_fiber_scale : forall laws mesher g p m l, (forall k, batched (laws k)) -> 0 < l -> 0 < m <= 1 -> mesher_scales mesher l g ->
  (forall F d, fiber_forces laws mesher g p None (Some m) = Ok (F, d) ->
   exists d', fiber_forces laws mesher (larger_section l g) (flatter l p) None (Some m) = Ok (larger_forces l F, d')) /\
  (forall K d, fiber_stiffness laws mesher g p None (Some m) = Ok (K, d) ->
   exists K' d', fiber_stiffness laws mesher (larger_section l g) (flatter l p) None (Some m) = Ok (K', d') /\ larger_matrix l K K').
Proof.
  intros laws mesher g p m l B L M MS.
  assert (EN : forall w v d, w <> IOther -> prepare_input laws mesher g p w None (Some m) = Ok (v, d) ->
    exists v' d', prepare_input laws mesher (larger_section l g) (flatter l p) w None (Some m) = Ok (v', d') /\ forall i j, vm i j v' = l ^ (i + j + 2) * vm i j v).
  { intros w v d W E. pose proof (fiber_entries laws mesher w g p m B W M) as P1. rewrite E in P1.
    pose proof (fiber_entries laws mesher w (larger_section l g) (flatter l p) m B W M) as P2.
    destruct (prepare_input laws mesher (larger_section l g) (flatter l p) w None (Some m)) as [[v' d']|e] eqn:E'.
    - exists v', d'. split; [reflexivity|]. intros i j. rewrite <- (vm_perm _ _ _ _ P2), <- (vm_perm _ _ _ _ P1), entries_larger by assumption. apply vm_larger.
    - exfalso. destruct P2 as (_ & Z1 & Z2). cbn [larger_section cg_surf cg_bars] in Z1, Z2. apply map_eq_nil in Z1, Z2.
      destruct (fiber_empty laws mesher w g p (Some m) Z1 Z2) as (e' & X). congruence. }
  unfold fiber_forces, fiber_stiffness. split; intros X d E.
  - destruct (prepare_input laws mesher g p IStress None (Some m)) as [[v D]|] eqn:Q; cbn [bind fst snd] in E; [|discriminate]. injection E as <- <-.
    destruct (EN IStress v D ltac:(discriminate) Q) as (v' & d' & -> & V). cbn [bind fst snd]. eexists. do 2 f_equal. rewrite !stress_vm, !V. unfold larger_forces. cbn [Nat.add pow]. apply pair3; ring.
  - destruct (prepare_input laws mesher g p IModulus None (Some m)) as [[v D]|] eqn:Q; cbn [bind fst snd] in E; [|discriminate]. injection E as <- <-.
    destruct (EN IModulus v D ltac:(discriminate) Q) as (v' & d' & -> & V). cbn [bind fst snd]. do 2 eexists. split; [reflexivity|]. unfold larger_matrix. cbv zeta.
    intros i j Hi Hj. rewrite (modulus_vm v i j Hi Hj), (modulus_vm v' i j Hi Hj).
    destruct i as [|[|[|i]]], j as [|[|[|j]]]; try (exfalso; lia); cbn [matrix_of]; rewrite V; cbn [Nat.add pow]; ring.
Qed.
Print Assumptions C62_fiber_scale.
(** * A plate: the hypotheses hold under every strain profile and at every scale *)
Definition fan (s : surface) (_ : R) : list mtri := match sf_ext s with p :: q :: r :: _ => [(p, q, r)] | _ => [] end.
Example C62_example : forall p l, outlined plate /\ equal_groups plate /\ equal_groups (joined plate plate_away) /\ outlined plate_away /\
  described_at IStress (stiff_laws 1000) hooke plate p /\ described_at IStress (stiff_laws 1000) hooke plate (flatter l p) /\
  mesher_scales fan l plate /\
  marin_forces (stiff_laws 1000) (larger_section 1000 plate) (flatter 1000 (1/1000, 1/1000, 0)) None <> Err ValueError.
Proof.
  intros p l.
  assert (D : forall q, described_at IStress (stiff_laws 1000) hooke plate q) by (intros [[e ky] kz] s I; apply hooke_field).
  assert (O : outlined plate) by (intros s [<-|[]]; split; [reflexivity|intros q []]).
  assert (Q : equal_groups plate) by (intros b b' []).
  split; [exact O|]. split; [exact Q|]. split; [intros b b' []|]. split; [intros s [<-|[]]; split; [reflexivity|intros q []]|]. split; [apply D|]. split; [apply D|]. split.
  - intros s m [<-|[]]. reflexivity.
  - destruct (C62_marin_scale (stiff_laws 1000) hooke plate (1/1000, 1/1000, 0) 1000 (stiff_batched 1000) ltac:(lra) O Q) as (H & _).
    destruct (H (D _) (D _)) as (F & d & d' & _ & E). rewrite E. discriminate.
Qed.
