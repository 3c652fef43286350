(** Lemmas for C58: forces and stiffness of moved sections. *)
From Coq Require Import Permutation Lra Lia.
From Coquelicot Require Import Coquelicot.
From Verif Require Import Base M_Marin S_Marin L_Marin M_Laws S_Laws M_Laws2 S_Laws2 M_Fiber S_Fiber L_Fiber M_MarinInt S_MarinInt L_MarinInt L_MarinInt2 L_MarinInt3 L_MarinInt4 M_Section S_Section L_Section M_Domain S_History L_History S_Frame S_MarinInt S_Exact S_Turn L_Turn L_Turn2 L_Turn3 L_Turn4 S_Move L_Move L_Move2.

Lemma unit_square sg : sg = 1 \/ sg = -1 -> sg * sg = 1.
Proof. intros [->| ->]; ring. Qed.
Lemma trig_square phi : sin phi * sin phi = 1 - cos phi * cos phi.
Proof. pose proof (sin2_cos2 phi) as P. unfold Rsqr in P. lra. Qed.
Lemma moved_angle sg ky kz : sg = 1 \/ sg = -1 -> let phi := - atan2 kz ky in let phi' := - atan2 (sg * kz) ky in let r := sqrt (kz ^ 2 + ky ^ 2) in
  cos phi' = cos phi /\ sin phi' = sg * sin phi /\ sqrt ((sg * kz) ^ 2 + ky ^ 2) = r /\ r * cos phi = ky /\ r * sin phi = - kz.
Proof.
  intros SG phi phi' r. pose proof (unit_square sg SG) as S2.
  assert (RR : sqrt ((sg * kz) ^ 2 + ky ^ 2) = r) by (unfold r; f_equal; ring [S2]).
  destruct (atan2_spec ky kz) as (A & B). destruct (atan2_spec ky (sg * kz)) as (A' & B'). rewrite RR in A', B'. fold r in A, B.
  unfold phi, phi'. rewrite !cos_neg, !sin_neg.
  destruct (Req_dec r 0) as [Z|N].
  - destruct (zero_length ky kz Z) as (Y & X).
    assert (A0 : atan2 0 0 = 0) by (unfold atan2; destruct (Rltb_spec 0 0); [lra|]; ring).
    assert (P1 : atan2 kz ky = 0) by (rewrite X, Y; exact A0).
    assert (P2 : atan2 (sg * kz) ky = 0) by (replace (sg * kz) with 0 by (rewrite X; ring); rewrite Y; exact A0).
    rewrite P1, P2, sin_0, cos_0, Z. repeat split; lra.
  - assert (C : cos (atan2 (sg * kz) ky) = cos (atan2 kz ky)) by (apply (Rmult_eq_reg_l r); [congruence|exact N]).
    assert (Sn : sin (atan2 (sg * kz) ky) = sg * sin (atan2 kz ky)) by (apply (Rmult_eq_reg_l r); [rewrite B'; transitivity (sg * (r * sin (atan2 kz ky))); [rewrite B; reflexivity|ring]|exact N]).
    rewrite C, Sn. repeat split; try assumption; try ring. transitivity (- (r * sin (atan2 kz ky))); [ring|rewrite B; reflexivity].
Qed.
Section Frames.
Variables (sg a b phi phi' : R).
Hypothesis SG : sg = 1 \/ sg = -1.
Hypothesis CC : cos phi' = cos phi.
Hypothesis SS : sin phi' = sg * sin phi.
Let al := fst (rot phi' (a, b)).
Let be := snd (rot phi' (a, b)).
Lemma profile_frames x : spun3 phi' (moved_profile sg a b x) = moved_profile sg al be (spun3 phi x).
Proof.
  destruct x as [[e ky] kz]. unfold spun3, spun, moved_profile, al, be, rot. cbn [fst snd]. rewrite CC, SS. pose proof (unit_square sg SG) as S2. pose proof (trig_square phi) as T.
  apply pair3; [|ring [S2]|ring [S2]]. ring [S2 T].
Qed.
Lemma force_frames x : spun3 (- phi') (moved_forces sg al be x) = moved_forces sg a b (spun3 (- phi) x).
Proof.
  destruct x as [[e ky] kz]. unfold spun3, spun, moved_forces, al, be, rot. cbn [fst snd]. rewrite !cos_neg, !sin_neg, CC, SS. pose proof (unit_square sg SG) as S2. pose proof (trig_square phi) as T.
  apply pair3; [ring|ring [S2 T]|ring [S2 T]].
Qed.
End Frames.
Lemma stress_frame phi es bs : let M i j := es_moment es i j + vm i j bs in m_integrate_stress phi es bs = spun3 (- phi) (M 0%nat 0%nat, M 0%nat 1%nat, - M 1%nat 0%nat).
Proof.
  cbv zeta. unfold m_integrate_stress, spun3, spun, es_moment, vm. cbn [fst snd].
  rewrite (lsum_map_ext (fun b => snd b) (fun x : R * R * R => snd x * (fst (fst x) ^ 0 * snd (fst x) ^ 0)) bs) by (intros; cbn [pow]; ring).
  rewrite (lsum_map_ext (fun b => snd b * snd (fst b)) (fun x : R * R * R => snd x * (fst (fst x) ^ 0 * snd (fst x) ^ 1)) bs) by (intros; cbn [pow]; ring).
  rewrite (lsum_map_ext (fun b => snd b * fst (fst b)) (fun x : R * R * R => snd x * (fst (fst x) ^ 1 * snd (fst x) ^ 0)) bs) by (intros; cbn [pow]; ring).
  apply pair3; ring.
Qed.
Lemma stiff_matrix es bs : eq3 (m_stiff_rot es bs) (matrix_of (fun i j => es_moment es i j + vm i j bs)).
Proof.
  pose proof (modulus_moments 0 es bs eq_refl) as H. intros i j Hi Hj. rewrite <- (H i j Hi Hj). unfold m_integrate_modulus.
  assert (T : forall i j, m_T 0 i j = match i, j with 0%nat, 0%nat | 1%nat, 1%nat | 2%nat, 2%nat => 1 | _, _ => 0 end).
  { intros u w. unfold m_T. rewrite Ropp_0, cos_0, sin_0. destruct u as [|[|[|u]]], w as [|[|[|w]]]; try reflexivity. ring. }
  unfold mmul, mtr. rewrite !T. nine Hi Hj i j; ring.
Qed.
Lemma times_ext K L x : eq3 K L -> times K x = times L x.
Proof. intros E. apply eq3_all in E. decompose [and] E. unfold times. apply pair3; congruence. Qed.
Lemma modulus_frame phi es bs x : times (m_integrate_modulus phi es bs) x = spun3 (- phi) (times (matrix_of (fun i j => es_moment es i j + vm i j bs)) (spun3 phi x)).
Proof.
  rewrite <- (times_ext _ _ (spun3 phi x) (stiff_matrix es bs)). unfold m_integrate_modulus. set (K := m_stiff_rot es bs).
  destruct x as [[e ky] kz]. unfold times, spun3, spun, mmul, mtr, m_T. cbn [fst snd]. rewrite !cos_neg, !sin_neg. apply pair3; ring.
Qed.
Lemma matrix_moved sg a b M M' x : sg * sg = 1 -> moments_move sg a b M M' -> times (matrix_of M') (moved_profile sg a b x) = moved_forces sg a b (times (matrix_of M) x).
Proof.
  intros S2 (A & B & C & D & E & F). destruct x as [[e ky] kz]. unfold times, moved_profile, moved_forces, matrix_of. cbn [fst snd]. rewrite A, B, C, D, E, F.
  apply pair3; ring [S2].
Qed.

Section Forces.
Variables (laws : nat -> law) (fs : nat -> R -> R) (sg a b : R) (g g' : compound).
Hypothesis SG : sg = 1 \/ sg = -1.
Hypothesis MV : moved sg a b g g'.
Lemma prepare_move what p D : what <> IOther -> good_laws laws what fs (cg_surf g) -> 
  match m_prepare laws g p what (Some D), m_prepare laws g' (moved_profile sg a b p) what (Some (map (place_group sg a b) D)) with
  | Ok (phi, es, bs, _), Ok (phi', es', bs', _) => cos phi' = cos phi /\ sin phi' = sg * sin phi /\
      let al := fst (rot phi' (a, b)) in let be := snd (rot phi' (a, b)) in
      moments_move sg al be (fun i j => es_moment es i j + vm i j bs) (fun i j => es_moment es' i j + vm i j bs')
  | Err e, Err e' => e = e' | _, _ => False end.
Proof.
  intros W G. destruct p as [[e ky] kz]. unfold m_prepare, moved_profile, p_e0, p_ky, p_kz. cbn [fst snd].
  destruct (moved_angle sg ky kz SG) as (CC & SS & RR & RC & RS). rewrite RR.
  set (phi := - atan2 kz ky) in *. set (phi' := - atan2 (sg * kz) ky) in *. set (r := sqrt (kz ^ 2 + ky ^ 2)) in *.
  destruct (geo_rot sg a b phi phi' SG CC SS g g' MV) as (F & _). cbn [rotate_geo cg_surf] in F.
  set (al := fst (rot phi' (a, b))) in *. set (be := snd (rot phi' (a, b))) in *.
  assert (E0 : e - ky * b + sg * kz * a = e - r * be).
  { transitivity (e - (r * cos phi) * b - sg * (r * sin phi) * a); [rewrite RC, RS; ring|]. unfold be, rot. cbn [fst snd]. rewrite CC, SS. ring. }
  rewrite E0.
  assert (G' : good_laws laws what fs (map (rotate_surface phi) (cg_surf g))).
  { intros s I. apply in_map_iff in I. destruct I as (s0 & <- & I). destruct (G s0 I) as (C & CI & X). split; [|split; [|exact X]].
    - cbn [rotate_surface sf_ext]. destruct (sf_ext s0) as [|q m]; [exact Logic.I|]. unfold closed in *. exact (eq_trans (last_map (rot phi) (q :: m) q) (f_equal (rot phi) C)).
    - cbn [rotate_surface sf_ints]. intros q Hq. apply in_map_iff in Hq. destruct Hq as (q0 & <- & Hq). specialize (CI q0 Hq).
      destruct q0 as [|q m]; [exact Logic.I|]. unfold closed in *. exact (eq_trans (last_map (rot phi) (q :: m) q) (f_equal (rot phi) CI)). }
  destruct (entries_move laws what fs sg al be W SG _ _ e r G' F (sqrt_pos _)) as (e1 & es & es' & E & E' & M). rewrite E, E'. cbn [bind fst snd].
  rewrite (group_rot sg a b phi phi' SG CC SS). fold al be. rewrite bars_move, homogeneous_move.
  destruct (bars_entries laws what e1 r (map (rotate_group phi) D)) as [bs|]; cbn [bind rmap]; [|reflexivity].
  destruct (homogeneous _); [|reflexivity]. split; [exact CC|]. split; [exact SS|]. apply moments_move_plus; [exact M|]. apply vm_move, unit_square, SG.
Qed.
Lemma marin_move_forces p D : good_laws laws IStress fs (cg_surf g) ->
  rmap fst (marin_forces laws g' (moved_profile sg a b p) (Some (map (place_group sg a b) D))) = rmap (moved_forces sg a b) (rmap fst (marin_forces laws g p (Some D))).
Proof.
  intros G. pose proof (prepare_move IStress p D ltac:(discriminate) G) as P. unfold marin_forces.
  destruct (m_prepare laws g p IStress (Some D)) as [[[[phi es] bs] gs]|e], (m_prepare laws g' (moved_profile sg a b p) IStress (Some (map (place_group sg a b) D))) as [[[[phi' es'] bs'] gs']|e'];
    try contradiction; cbn [bind rmap fst]; [|congruence].
  destruct P as (CC & SS & M). cbv zeta in M. f_equal. rewrite !stress_frame. rewrite <- (force_frames sg a b phi phi' SG CC SS). f_equal.
  destruct M as (A & B & C & _). unfold moved_forces. rewrite A, B, C. apply pair3; ring.
Qed.
Lemma marin_move_stiffness p D : good_laws laws IModulus fs (cg_surf g) ->
  match marin_stiffness laws g p (Some D), marin_stiffness laws g' (moved_profile sg a b p) (Some (map (place_group sg a b) D)) with
  | Ok (K, _), Ok (K', _) => moved_matrix sg a b K K' | Err e, Err e' => e = e' | _, _ => False end.
Proof.
  intros G. pose proof (prepare_move IModulus p D ltac:(discriminate) G) as P. unfold marin_stiffness.
  destruct (m_prepare laws g p IModulus (Some D)) as [[[[phi es] bs] gs]|e], (m_prepare laws g' (moved_profile sg a b p) IModulus (Some (map (place_group sg a b) D))) as [[[[phi' es'] bs'] gs']|e'];
    try contradiction; cbn [bind rmap fst]; [|congruence].
  destruct P as (CC & SS & M). cbv zeta in M. intros e ky kz.
  change (times (m_integrate_modulus phi' es' bs') (moved_profile sg a b (e, ky, kz)) = moved_forces sg a b (times (m_integrate_modulus phi es bs) (e, ky, kz))).
  rewrite !modulus_frame, (profile_frames sg a b phi phi' SG CC SS), (matrix_moved sg _ _ _ _ _ (unit_square sg SG) M). exact (force_frames sg a b phi phi' SG CC SS _).
Qed.
End Forces.
