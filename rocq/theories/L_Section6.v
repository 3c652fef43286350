(** Lemmas for C25, C26, C28. *)
From Coq Require Import FunctionalExtensionality.
From Verif Require Import Base M_Marin S_Marin L_Marin M_Laws S_Laws L_Laws M_Laws2 L_LawsC M_Fiber S_Fiber L_Fiber M_MarinInt S_MarinInt L_MarinInt3
  M_Section S_Section L_Section L_Section2 L_Section3 M_Domain S_History L_History L_Section4 L_Section5 P_Fiber.

(** Limits of a fibre section. *)
Lemma limit_load_fiber laws mesher t g ms s yn yp b : (forall k, batched (laws k)) -> nonempty g -> 0 < ms <= 1 ->
  uses_mesh mesher g ms ms s -> balanced (tr_rc t) false (items_of t g) = Ok (yn, yp, b) ->
  let N e := axial (section_fibres laws (fun x => mesher x (surface_area x * ms)) g) e 0 0 in
  exists s', limit_load (fiber_integ laws mesher) t ms g s = (Ok (N (strain_at b yn), N (strain_at b yp)), s').
Proof.
  intros B NE M U HB N. destruct (first_forces laws mesher g ms (Some ms) s (strain_at b yn, 0, 0) B NE M U) as (F & s' & E & EF & AX & US & SD & _).
  unfold limit_load. rewrite HB. unfold abind, alift. unfold strain_at in E. unfold forces_k in E. unfold p_e0, p_ky.
  destruct (ig_forces (fiber_integ laws mesher) g (fst (fst b) + snd (fst b) * yn, 0, 0) (st_data s) (Some ms)) as [[F1 d]|] eqn:E1; [|discriminate].
  inversion E; subst F1. clear E.
  specialize (AX (strain_at b yp, 0, 0)). unfold axial_fun in AX.
  assert (SAME : rmap (fun x => fst (fst (fst x))) (ig_forces (fiber_integ laws mesher) g (strain_at b yp, 0, 0) (Some d) None) =
                 rmap (fun x => fst (fst (fst x))) (ig_forces (fiber_integ laws mesher) g (strain_at b yp, 0, 0) (st_data s') None)).
  { subst s'. unfold keep_data. cbn [st_data]. destruct (st_data s) as [d0|] eqn:D0; [|reflexivity].
    cbn [ig_forces fiber_integ] in E1. unfold fiber_forces in E1. destruct (prepare_input laws mesher g _ IStress (Some d0) (Some ms)) as [[v e]|] eqn:PI; [|discriminate].
    cbn in E1. inversion E1; subst. apply input_data in PI. subst. reflexivity. }
  rewrite AX in SAME. unfold strain_at in SAME.
  destruct (ig_forces (fiber_integ laws mesher) g (fst (fst b) + snd (fst b) * yp, 0, 0) (Some d) None) as [[F2 d2]|]; [|discriminate].
  cbn [rmap fst snd] in SAME. injection SAME as SAME. eexists. rewrite EF, SAME. reflexivity.
Qed.
(** The mesh a calculator works with after a history. *)
Lemma history_mesh laws mesher t ms g ops s : (forall k, batched (laws k)) -> 0 < ms <= 1 ->
  (forall o, In o ops -> meshed o \/ ms = 1/100) -> history (fiber_integ laws mesher) t ms g ops s -> uses_mesh mesher g ms ms s.
Proof.
  intros B M HO H. destruct (triangulate_ok mesher g ms M) as (D & T).
  pose proof (fiber_coherent laws mesher g ms D B T) as CO.
  destruct (history_srel (fiber_integ laws mesher) t ms g D CO ops s) with (2 := H) as [(A & _)|(A & _)].
  - intros o Ho. destruct (HO o Ho) as [X | ->]; [now left|right]. apply fiber_coherent_none. exact CO.
  - unfold uses_mesh. rewrite A. reflexivity.
  - destruct A as (d & E & EQ). unfold uses_mesh. rewrite E. exists D. split; [exact T|]. now apply same_mesh_eqd.
Qed.

(** An injective 3x3 matrix has a non-zero determinant. *)
Lemma inj_det K : (forall a b c, (forall i, (i < 3)%nat -> mat_vec K a b c i = 0) -> a = 0 /\ b = 0 /\ c = 0) -> det3 K <> 0.
Proof.
  intros INJ Z. unfold det3 in Z.
  assert (I3 : forall a b c, K 0%nat 0%nat * a + K 0%nat 1%nat * b + K 0%nat 2%nat * c = 0 -> K 1%nat 0%nat * a + K 1%nat 1%nat * b + K 1%nat 2%nat * c = 0 ->
     K 2%nat 0%nat * a + K 2%nat 1%nat * b + K 2%nat 2%nat * c = 0 -> a = 0 /\ b = 0 /\ c = 0).
  { intros a b c H0 H1 H2. apply INJ. intros [|[|[|i]]] H; unfold mat_vec; [exact H0|exact H1|exact H2|lia]. }
  clear INJ. generalize dependent (K 0%nat 0%nat). generalize (K 0%nat 1%nat), (K 0%nat 2%nat), (K 1%nat 0%nat), (K 1%nat 1%nat), (K 1%nat 2%nat), (K 2%nat 0%nat), (K 2%nat 1%nat), (K 2%nat 2%nat).
  clear K. intros k01 k02 k10 k11 k12 k20 k21 k22 k00 Z I.
  destruct (I (k11 * k22 - k12 * k21) (k12 * k20 - k10 * k22) (k10 * k21 - k11 * k20)) as (A1 & A2 & A3); [lra|ring|ring|].
  destruct (I (k02 * k21 - k01 * k22) (k00 * k22 - k02 * k20) (k01 * k20 - k00 * k21)) as (B1 & B2 & B3); [ring|lra|ring|].
  destruct (I (k01 * k12 - k02 * k11) (k02 * k10 - k00 * k12) (k00 * k11 - k01 * k10)) as (C1 & C2 & C3); [ring|ring|lra|].
  destruct (I k01 (- k00) 0) as (D1 & D2 & _); [lra|lra|lra|].
  destruct (I k02 0 (- k00)) as (D3 & _); [lra|lra|lra|].
  destruct (I k11 (- k10) 0) as (D4 & D5 & _); [lra|lra|lra|].
  destruct (I k12 0 (- k10)) as (D6 & _); [lra|lra|lra|].
  destruct (I k21 (- k20) 0) as (D7 & D8 & _); [lra|lra|lra|].
  destruct (I k22 0 (- k20)) as (D9 & _); [lra|lra|lra|].
  destruct (I 1 0 0) as (D10 & _); lra.
Qed.
Lemma quad_det K : (forall a b c, quad K a b c = 0 -> a = 0 /\ b = 0 /\ c = 0) -> det3 K <> 0.
Proof.
  intros Q. apply inj_det. intros a b c H. apply Q. unfold quad. rewrite !H by lia. ring.
Qed.

(** Linear fibre sections: forces and tangent in terms of one stiffness matrix. *)
Lemma linear_fiber laws mesher g ms d (E : nat -> R) : (forall k, batched (laws k)) -> nonempty g -> 0 < ms <= 1 ->
  (forall k e, lw_stress (laws k) e = E k * e /\ lw_tangent (laws k) e = E k) -> triangulate mesher g ms = Ok d ->
  let F := section_fibres laws (fun x => mesher x (surface_area x * ms)) g in
  exists K, (forall p, mul3 K p = (axial F (p_e0 p) (p_ky p) (p_kz p), moment_y F (p_e0 p) (p_ky p) (p_kz p), moment_z F (p_e0 p) (p_ky p) (p_kz p))) /\
    (forall p, fiber_forces laws mesher g p (Some d) None = Ok (mul3 K p, d)) /\
    (forall p, fiber_stiffness laws mesher g p (Some d) None = Ok (K, d)) /\
    (forall p, fiber_stiffness laws mesher g p None (Some ms) = Ok (K, d)).
Proof.
  intros B NE M HL T F.
  assert (HF : forall f, In f F -> (forall e, m_sigma f e = m_tangent f 0 * e) /\ (forall e, m_tangent f e = m_tangent f 0)).
  { intros f I. unfold F, section_fibres in I. apply in_app_iff in I. destruct I as [I|I].
    - apply in_flat_map in I. destruct I as (s & _ & I). apply in_map_iff in I. destruct I as (t & <- & _).
      destruct t as [[p q] r]. cbn. split; intros e; rewrite ?(proj1 (HL (sf_law s) e)), ?(proj2 (HL (sf_law s) e)), (proj2 (HL (sf_law s) 0)); reflexivity.
    - apply in_map_iff in I. destruct I as (b & <- & _). cbn.
      split; intros e; rewrite ?(proj1 (HL (br_law b) e)), ?(proj2 (HL (br_law b) e)), (proj2 (HL (br_law b) 0)); reflexivity. }
  assert (SAME : forall a b c i j, stiff F a b c i j = stiff F 0 0 0 i j).
  { intros a b c i j. unfold stiff. apply lsum_map_ext. intros f I. unfold fibre_tangent. rewrite (proj2 (HF f I)).
    rewrite (proj2 (HF f I) (plane_strain 0 0 0 (m_y f) (m_z f))). reflexivity. }
  destruct (stiffness_ok laws mesher g (0, 0, 0) ms d B NE T) as (K & E1 & E2 & EK).
  assert (ALL : forall p, fiber_stiffness laws mesher g p None (Some ms) = Ok (K, d) /\ fiber_stiffness laws mesher g p (Some d) (Some ms) = Ok (K, d)).
  { intros p. destruct (stiffness_ok laws mesher g p ms d B NE T) as (K' & P1 & P2 & PK). rewrite P1, P2.
    assert (EQ : K' = K); [|subst; split; reflexivity].
    assert (OUT : forall q Q, fiber_stiffness laws mesher g q None (Some ms) = Ok (Q, d) -> forall i j, (3 <= i)%nat \/ (3 <= j)%nat -> Q i j = 0).
    { intros q Q H i j IJ. unfold fiber_stiffness in H. destruct (prepare_input laws mesher g q IModulus None (Some ms)) as [x|]; [|discriminate].
      cbn in H. inversion H. destruct i as [|[|[|i]]], j as [|[|[|j]]]; try lia; reflexivity. }
    extensionality i. extensionality j.
    destruct (le_lt_dec 3 i) as [I|I]; [rewrite (OUT _ _ P1 i j), (OUT _ _ E1 i j) by auto; reflexivity|].
    destruct (le_lt_dec 3 j) as [J|J]; [rewrite (OUT _ _ P1 i j), (OUT _ _ E1 i j) by auto; reflexivity|].
    rewrite PK, EK by assumption. fold F. rewrite SAME. symmetry. apply SAME. }
  assert (G : forall p i, (i < 3)%nat -> force i F (p_e0 p) (p_ky p) (p_kz p) = mat_vec K (p_e0 p) (p_ky p) (p_kz p) i).
  { intros p i Hi. rewrite (force_elastic (fun f => m_tangent f 0) i F) by (try assumption; intros; now apply HF).
    unfold mat_vec. rewrite !EK by lia. fold F. rewrite !(SAME (p_e0 p)). reflexivity. }
  exists K. assert (MU : forall p, mul3 K p = (axial F (p_e0 p) (p_ky p) (p_kz p), moment_y F (p_e0 p) (p_ky p) (p_kz p), moment_z F (p_e0 p) (p_ky p) (p_kz p))).
  { intros [[a b] c]. pose proof (G (a, b, c) 0%nat ltac:(lia)) as G0. pose proof (G (a, b, c) 1%nat ltac:(lia)) as G1. pose proof (G (a, b, c) 2%nat ltac:(lia)) as G2.
    cbn [force] in *. unfold mul3. rewrite G0, G1, G2. reflexivity. }
  split; [exact MU|]. split; [|split; intros p; apply ALL].
  intros p. rewrite MU. apply (forces_ok laws mesher g p ms d B NE T).
Qed.

Lemma strain_profile_linear laws mesher g ms msc (E : nat -> R) loads initial mx tol s :
  (forall k, batched (laws k)) -> nonempty g -> 0 < ms <= 1 ->
  (forall k e, lw_stress (laws k) e = E k * e /\ lw_tangent (laws k) e = E k) ->
  let F := section_fibres laws (fun x => mesher x (surface_area x * ms)) g in
  det3 (stiff F 0 0 0) <> 0 -> 0 < tol -> uses_mesh mesher g ms (1/100) s ->
  match strain_profile (fiber_integ laws mesher) msc g loads initial mx tol s with
  | (Ok p, _) => (axial F (p_e0 p) (p_ky p) (p_kz p), moment_y F (p_e0 p) (p_ky p) (p_kz p), moment_z F (p_e0 p) (p_ky p) (p_kz p)) = loads
  | (Err e, _) => e = StopIteration /\ (mx <= 2)%nat
  end.
Proof.
  intros B NE M HL F ND TP U. destruct (triangulate_ok mesher g ms M) as (d & T).
  destruct (linear_fiber laws mesher g ms d E B NE M HL T) as (K & MU & FF & KK & KN). fold F in MU.
  destruct (stiffness_ok laws mesher g (0, 0, 0) ms d B NE T) as (K' & E1 & _ & EK). rewrite KN in E1. inversion E1; subst K'.
  assert (DK : det3 K <> 0).
  { assert (Z : det3 K = det3 (stiff F 0 0 0)) by (unfold det3; rewrite !EK by lia; reflexivity). rewrite Z. exact ND. }
  pose proof (fiber_coherent laws mesher g ms d B T) as CO.
  assert (MAIN : forall dd l, eqd dd d -> match newton_loop (S mx) (fiber_integ laws mesher) msc g loads tol (if initial then Some K else None) 0 mx (0, 0, 0) {| st_data := Some dd; st_lim := l |} with
     | (Ok p, _) => mul3 K p = loads | (Err e, _) => e = StopIteration /\ (mx <= 2)%nat end).
  { intros dd l EQ. apply newton_linear; [exact DK|exact TP| | |].
    - intros p. pose proof (co_forces _ _ _ _ CO g p dd d (Some msc) None EQ) as C1. cbn [fiber_integ ig_forces] in C1. rewrite FF in C1.
      unfold integrate_profile, forces_k. cbn [st_data fiber_integ ig_forces].
      destruct (fiber_forces laws mesher g p (Some dd) (Some msc)) as [[Q e]|]; [|discriminate]. cbn [rmap fst] in C1. injection C1 as ->. split; reflexivity.
    - intros p. pose proof (co_modulus _ _ _ _ CO g p dd d None None EQ) as C1. cbn [fiber_integ ig_modulus] in C1. rewrite KK in C1.
      cbn [st_data fiber_integ ig_modulus]. destruct (fiber_stiffness laws mesher g p (Some dd) None) as [[Q e]|]; [|discriminate]. cbn in C1. inversion C1. exists e. reflexivity.
    - destruct initial; [now right|now left]. }
  assert (CONV : forall r s', match (r, s') with (Ok p, _) => mul3 K p = loads | (Err e, _) => e = StopIteration /\ (mx <= 2)%nat end ->
     match (r : result profile, s' : sstate) with
     | (Ok p, _) => (axial F (p_e0 p) (p_ky p) (p_kz p), moment_y F (p_e0 p) (p_ky p) (p_kz p), moment_z F (p_e0 p) (p_ky p) (p_kz p)) = loads
     | (Err e, _) => e = StopIteration /\ (mx <= 2)%nat end).
  { intros [p|e] s' H; [rewrite <- MU; exact H|exact H]. }
  unfold strain_profile. destruct s as [[dd|] l]; unfold uses_mesh in U; cbn [st_data] in *.
  - destruct U as (e & T' & SM). rewrite T in T'. inversion T'; subst e. apply same_mesh_eqd in SM.
    pose proof (co_modulus _ _ _ _ CO g (0, 0, 0) dd d None None SM) as C1. cbn [fiber_integ ig_modulus] in C1. rewrite KK in C1.
    cbn [fiber_integ ig_modulus]. destruct (fiber_stiffness laws mesher g (0, 0, 0) (Some dd) None) as [[Q e]|]; [|discriminate]. cbn in C1. inversion C1; subst Q.
    unfold keep_data. cbn [st_data st_lim]. specialize (MAIN dd l SM).
    destruct (newton_loop _ _ _ _ _ _ _ _ _ _ _) as [r s']. exact (CONV r s' MAIN).
  - subst ms. cbn [fiber_integ ig_modulus].
    assert (EQ : fiber_stiffness laws mesher g (0, 0, 0) None None = fiber_stiffness laws mesher g (0, 0, 0) None (Some (1/100))) by reflexivity.
    rewrite EQ, KN. unfold keep_data. cbn [st_data st_lim]. specialize (MAIN d l (eqd_refl d)).
    destruct (newton_loop _ _ _ _ _ _ _ _ _ _ _) as [r s']. exact (CONV r s' MAIN).
Qed.
(** Three non-collinear fibres make the stiffness matrix regular. *)
Lemma regular_section laws mesher g ms : (forall k, batched (laws k)) -> 0 < ms <= 1 -> nonempty g ->
  let F := section_fibres laws (fun x => mesher x (surface_area x * ms)) g in
  (forall f, In f F -> 0 <= m_a f /\ 0 <= m_tangent f 0) ->
  (exists f1 f2 f3, In f1 F /\ In f2 F /\ In f3 F /\
     (m_y f2 - m_y f1) * (m_z f3 - m_z f1) <> (m_y f3 - m_y f1) * (m_z f2 - m_z f1) /\
     (forall f, f = f1 \/ f = f2 \/ f = f3 -> 0 < m_a f /\ 0 < m_tangent f 0)) ->
  det3 (stiff F 0 0 0) <> 0.
Proof.
  intros B M NE F P Q.
  assert (T0 : forall f, fibre_tangent 0 0 0 f = m_tangent f 0) by (intros f; unfold fibre_tangent, plane_strain; f_equal; ring).
  destruct (triangulate_ok mesher g ms M) as (d & T). destruct (stiffness_ok laws mesher g (0, 0, 0) ms d B NE T) as (K & E1 & _ & EK).
  apply quad_det. intros a b c Z. apply (C20_definite laws mesher g 0 0 0 ms K d B M NE).
  - intros f I. rewrite T0. exact (P f I).
  - destruct Q as (f1 & f2 & f3 & I1 & I2 & I3 & NC & PP). exists f1, f2, f3. repeat split; try assumption; intros; try rewrite T0; now apply PP.
  - exact E1.
  - rewrite <- Z. unfold quad, mat_vec. rewrite !EK by lia. reflexivity.
Qed.

(** Once there are data the Newton iterations do not replace them. *)
Lemma newton_keeps fuel : forall ig ms g loads tol K0 num mx strain s, st_data s <> None ->
  st_data (snd (newton_loop fuel ig ms g loads tol K0 num mx strain s)) = st_data s.
Proof.
  induction fuel as [|k IH]; intros ig ms g loads tol K0 num mx strain s D; cbn [newton_loop].
  { destruct (mx <=? num)%nat; reflexivity. }
  unfold abind, integrate_profile, forces_k. destruct (ig_forces ig g strain (st_data s) (Some ms)) as [[F d]|]; [|reflexivity].
  assert (KD : st_data (keep_data d s) = st_data s) by (unfold keep_data; destruct (st_data s) eqn:Q; [cbn; try rewrite Q; reflexivity|contradiction]).
  assert (X : exists r, (match K0 with Some K => aret K | None => fun s => match ig_modulus ig g strain (st_data s) None with
                                | Ok (K, _) => (Ok K, s) | Err e => (Err e, s) end end) (keep_data d s) = (r, keep_data d s)).
  { destruct K0; [eexists; reflexivity|]. destruct (ig_modulus ig g strain (st_data (keep_data d s)) None) as [[K e]|]; eexists; reflexivity. }
  destruct X as (r & X). rewrite X. destruct r as [K|e]; [|exact KD]. unfold alift. destruct (solve3 K (sub3 loads F)) as [dd|]; [|exact KD].
  destruct (Rltb (norm3 dd) tol).
  - destruct (mx <=? S num)%nat; exact KD.
  - rewrite IH; [exact KD|]. rewrite KD. exact D.
Qed.
Lemma strain_profile_data ig ms g loads initial mx tol K d : ig_modulus ig g (0, 0, 0) None None = Ok (K, d) ->
  st_data (snd (strain_profile ig ms g loads initial mx tol st_init)) = Some d.
Proof. intros E. unfold strain_profile. cbn [st_init st_data]. rewrite E. rewrite newton_keeps; [reflexivity|discriminate]. Qed.
