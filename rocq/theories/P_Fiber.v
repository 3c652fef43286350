(** C19, C20, C44: the fibre integrator. *)
From Coq Require Import Permutation.
From Coquelicot Require Import Coquelicot.
From Verif Require Import Base M_Marin S_Marin L_Marin M_Laws S_Laws L_Laws M_Laws2 L_LawsC M_Fiber S_Fiber L_Fiber P_Laws.

(** * C19 *)
(** Forces are the resultants of the fibre forces, whatever the grouping of the
    bars by material, the number of surfaces and the mesh; re-using the returned
    integration data gives the same forces. *)
Theorem C19_forces : forall laws mesher g e0 ky kz ms,
  (forall k, batched (laws k)) -> 0 < ms <= 1 -> cg_surf g <> [] \/ cg_bars g <> [] ->
  let F := section_fibres laws (fun x => mesher x (surface_area x * ms)) g in
  exists data,
    fiber_forces laws mesher g (e0, ky, kz) None (Some ms)
      = Ok ((axial F e0 ky kz, moment_y F e0 ky kz, moment_z F e0 ky kz), data) /\
    fiber_forces laws mesher g (e0, ky, kz) (Some data) (Some ms)
      = Ok ((axial F e0 ky kz, moment_y F e0 ky kz, moment_z F e0 ky kz), data).
Proof.
  intros laws mesher g e0 ky kz ms B M N F. destruct (triangulate_ok mesher g ms M) as [gs T]. exists gs.
  exact (forces_ok laws mesher g (e0, ky, kz) ms gs B N T).
Qed.
Print Assumptions C19_forces.

(** Reusing the data of one strain profile for another one changes nothing. *)
Theorem C19_reuse_data : forall laws mesher g e0 ky kz e0' ky' kz' ms r r' data data',
  (forall k, batched (laws k)) ->
  fiber_forces laws mesher g (e0, ky, kz) None (Some ms) = Ok (r, data) ->
  fiber_forces laws mesher g (e0', ky', kz') None (Some ms) = Ok (r', data') ->
  fiber_forces laws mesher g (e0', ky', kz') (Some data) (Some ms) = Ok (r', data).
Proof.
  unfold fiber_forces, prepare_input. intros laws mesher g e0 ky kz e0' ky' kz' ms r r' data data' B H1 H2.
  destruct (triangulate mesher g ms) as [gs|]; [|discriminate]. cbn [bind] in *.
  destruct (prepare_groups laws IStress (e0, ky, kz) gs) as [v|]; [|discriminate]. cbn [bind] in *.
  destruct gs as [|g0 gs]; [discriminate|]. inversion H1; subst; clear H1.
  destruct (prepare_groups laws IStress (e0', ky', kz') (g0 :: gs)) as [v'|]; [|discriminate]. cbn [bind] in *.
  inversion H2; subst. reflexivity.
Qed.
Print Assumptions C19_reuse_data.

(** The mesh size of the caller is the one used; without one it is 1/100; sizes
    outside (0, 1] are refused. *)
Theorem C19_mesh_size : forall laws mesher g s ms,
  (~ (0 < ms <= 1) -> fiber_forces laws mesher g s None (Some ms) = Err ValueError
                      /\ fiber_stiffness laws mesher g s None (Some ms) = Err ValueError) /\
  fiber_forces laws mesher g s None None = fiber_forces laws mesher g s None (Some (1 / 100)).
Proof.
  intros. split; [intros H|reflexivity].
  unfold fiber_forces, fiber_stiffness, prepare_input. rewrite triangulate_bad by assumption. split; reflexivity.
Qed.
Print Assumptions C19_mesh_size.

(** Order of surfaces, bars and triangles is immaterial. *)
Lemma lsum_perm l l' : Permutation l l' -> lsum l = lsum l'.
Proof. induction 1; rewrite ?lsum_cons; lra. Qed.
Theorem C19_order_irrelevant : forall laws mesher g g' e0 ky kz ms r r' data data',
  (forall k, batched (laws k)) ->
  Permutation (cg_surf g) (cg_surf g') -> Permutation (cg_bars g) (cg_bars g') ->
  fiber_forces laws mesher g (e0, ky, kz) None (Some ms) = Ok (r, data) ->
  fiber_forces laws mesher g' (e0, ky, kz) None (Some ms) = Ok (r', data') -> r = r'.
Proof.
  intros laws mesher g g' e0 ky kz ms r r' data data' B PS PB H1 H2.
  assert (M : 0 < ms <= 1).
  { destruct (Rlt_dec 0 ms); destruct (Rle_dec ms 1); try lra;
    (rewrite (proj1 (proj1 (C19_mesh_size laws mesher g (e0, ky, kz) ms) ltac:(lra))) in H1; discriminate). }
  assert (N : forall h a b, fiber_forces laws mesher h (e0, ky, kz) None (Some ms) = Ok (a, b) -> nonempty h).
  { intros h a b H. unfold nonempty. destruct (cg_surf h) eqn:S1; [|left; discriminate].
    destruct (cg_bars h) eqn:S2; [|right; discriminate]. exfalso.
    unfold fiber_forces, prepare_input, triangulate in H.
    destruct (Rleb ms 0 || Rltb 1 ms)%bool; [discriminate|]. rewrite S1, S2 in H. discriminate. }
  destruct (C19_forces laws mesher g e0 ky kz ms B M (N _ _ _ H1)) as (d1 & E1 & _).
  destruct (C19_forces laws mesher g' e0 ky kz ms B M (N _ _ _ H2)) as (d2 & E2 & _).
  rewrite E1 in H1. rewrite E2 in H2. inversion H1; inversion H2; subst. clear - PS PB.
  assert (P : Permutation (section_fibres laws (fun x => mesher x (surface_area x * ms)) g)
                          (section_fibres laws (fun x => mesher x (surface_area x * ms)) g')).
  { unfold section_fibres. apply Permutation_app.
    - now apply Permutation_flat_map.
    - now apply Permutation_map. }
  unfold axial, moment_y, moment_z.
  rewrite !(lsum_perm _ _ (Permutation_map _ P)). reflexivity.
Qed.
Print Assumptions C19_order_irrelevant.

(** The three closed-form laws of the examples are evaluated elementwise. *)
Lemma elastic_batched l : batched (elastic_law l).
Proof. split; intros; cbn; apply C05_elastic_arrays. Qed.

(** Non-vacuity: a unit square split in two triangles, with three bars of two
    different steels (bars 1 and 3 share their law object). *)
Definition ex_el (E : R) : law := elastic_law {| el_E := E; el_u := None |}.
Definition ex_laws (k : nat) : law := ex_el (INR k + 1).
Definition ex_mesher (s : surface) (a : R) : list ((R * R) * (R * R) * (R * R)) :=
  [((0, 0), (1, 0), (1, 1)); ((0, 0), (1, 1), (0, 1))].
Definition ex_surface : surface := {| sf_ext := [(0, 0); (1, 0); (1, 1); (0, 1); (0, 0)]; sf_ints := []; sf_law := 0 |}.
Definition ex_geo : compound := {| cg_surf := [ex_surface];
  cg_bars := [ {| br_y := 1; br_z := 2; br_area := 3; br_law := 1 |};
               {| br_y := 4; br_z := 5; br_area := 6; br_law := 2 |};
               {| br_y := 7; br_z := 8; br_area := 9; br_law := 1 |} ] |}.
Example C19_example : exists data N My Mz,
  fiber_forces ex_laws ex_mesher ex_geo (1, 0, 0) None (Some (1/10)) = Ok ((N, My, Mz), data) /\
  length data = 3%nat /\ N = 1 + 2 * (3 + 9) + 3 * 6 /\ My = 1 / 2 + 2 * (3 * 2 + 9 * 8) + 3 * 6 * 5.
Proof.
  destruct (C19_forces ex_laws ex_mesher ex_geo 1 0 0 (1/10)) as (data & E & _).
  { intros k. apply elastic_batched. } { lra. } { left. discriminate. }
  exists data. do 3 eexists. split; [exact E|]. split.
  { unfold fiber_forces, prepare_input, triangulate in E.
    destruct (Rleb_spec (1/10) 0); [lra|]. destruct (Rltb_spec 1 (1/10)); [lra|]. cbn [orb bind] in E.
    match type of E with context [prepare_groups ?a ?b ?c ?d] => destruct (prepare_groups a b c d) end; [|discriminate].
    cbn in E. inversion E. reflexivity. }
  unfold axial, moment_y, section_fibres, ex_geo, ex_mesher, ex_laws, ex_el, elastic_law, shoelace, cross, plane_strain, elastic_stress.
  cbn. unfold cross; cbn. split; rnum.
Qed.

(** * C20 *)
Theorem C20_symmetric_and_semidefinite : forall laws mesher g e0 ky kz ms,
  (forall k, batched (laws k)) -> 0 < ms <= 1 -> cg_surf g <> [] \/ cg_bars g <> [] ->
  let F := section_fibres laws (fun x => mesher x (surface_area x * ms)) g in
  exists K data,
    fiber_stiffness laws mesher g (e0, ky, kz) None (Some ms) = Ok (K, data) /\
    fiber_stiffness laws mesher g (e0, ky, kz) (Some data) (Some ms) = Ok (K, data) /\
    (forall i j, (i < 3)%nat -> (j < 3)%nat -> K i j = K j i) /\
    (forall a b c, quad K a b c =
       lsum (map (fun f => fibre_tangent e0 ky kz f * m_a f * (plane_strain a b c (m_y f) (m_z f)) ^ 2) F)) /\
    ((forall f, In f F -> 0 <= m_a f /\ 0 <= fibre_tangent e0 ky kz f) -> forall a b c, 0 <= quad K a b c).
Proof.
  intros laws mesher g e0 ky kz ms B M N F. destruct (triangulate_ok mesher g ms M) as [gs T].
  destruct (stiffness_ok laws mesher g (e0, ky, kz) ms gs B N T) as (K & E1 & E2 & EK). fold F in EK.
  exists K, gs. split; [exact E1|]. split; [exact E2|].
  assert (Q : forall a b c, quad K a b c =
       lsum (map (fun f => fibre_tangent e0 ky kz f * m_a f * (plane_strain a b c (m_y f) (m_z f)) ^ 2) F)).
  { intros. rewrite (quad_ext K _ a b c EK), quad_stiff. reflexivity. }
  repeat split.
  - intros. rewrite !EK by assumption. apply stiff_sym.
  - exact Q.
  - intros P a b c. rewrite Q. apply lsum_nonneg. intros f Hf. destruct (P f Hf).
    apply Rmult_le_pos; [now apply Rmult_le_pos|apply pow2_ge_0].
Qed.
Print Assumptions C20_symmetric_and_semidefinite.

(** Strictly positive definite as soon as three fibres are not in a line and are stiff. *)
Theorem C20_definite : forall laws mesher g e0 ky kz ms K data,
  (forall k, batched (laws k)) -> 0 < ms <= 1 -> cg_surf g <> [] \/ cg_bars g <> [] ->
  let F := section_fibres laws (fun x => mesher x (surface_area x * ms)) g in
  (forall f, In f F -> 0 <= m_a f /\ 0 <= fibre_tangent e0 ky kz f) ->
  (exists f1 f2 f3, In f1 F /\ In f2 F /\ In f3 F /\
     (m_y f2 - m_y f1) * (m_z f3 - m_z f1) <> (m_y f3 - m_y f1) * (m_z f2 - m_z f1) /\
     (forall f, f = f1 \/ f = f2 \/ f = f3 -> 0 < m_a f /\ 0 < fibre_tangent e0 ky kz f)) ->
  fiber_stiffness laws mesher g (e0, ky, kz) None (Some ms) = Ok (K, data) ->
  forall a b c, quad K a b c = 0 -> a = 0 /\ b = 0 /\ c = 0.
Proof.
  intros laws mesher g e0 ky kz ms K data B M N F P (f1 & f2 & f3 & I1 & I2 & I3 & ND & PP) E a b c Z.
  destruct (C20_symmetric_and_semidefinite laws mesher g e0 ky kz ms B M N) as (K' & d' & E1 & _ & _ & Q & _).
  rewrite E in E1. inversion E1; subst K' d'. rewrite Q in Z. fold F in Z.
  assert (G : forall f, In f F -> 0 < m_a f /\ 0 < fibre_tangent e0 ky kz f -> plane_strain a b c (m_y f) (m_z f) = 0).
  { intros f I (A & T).
    assert (H0 : forall l, (forall f, In f l -> 0 <= m_a f /\ 0 <= fibre_tangent e0 ky kz f) ->
       lsum (map (fun f => fibre_tangent e0 ky kz f * m_a f * plane_strain a b c (m_y f) (m_z f) ^ 2) l) = 0 ->
       In f l -> fibre_tangent e0 ky kz f * m_a f * plane_strain a b c (m_y f) (m_z f) ^ 2 = 0).
    { induction l as [|x l IH]; intros HP HZ HI; [contradiction|]. cbn [map] in HZ. rewrite lsum_cons in HZ.
      assert (X : 0 <= fibre_tangent e0 ky kz x * m_a x * plane_strain a b c (m_y x) (m_z x) ^ 2).
      { destruct (HP x (or_introl eq_refl)). apply Rmult_le_pos; [now apply Rmult_le_pos|apply pow2_ge_0]. }
      assert (Y : 0 <= lsum (map (fun f => fibre_tangent e0 ky kz f * m_a f * plane_strain a b c (m_y f) (m_z f) ^ 2) l)).
      { apply lsum_nonneg. intros y Hy. destruct (HP y (or_intror Hy)).
        apply Rmult_le_pos; [now apply Rmult_le_pos|apply pow2_ge_0]. }
      destruct HI as [->|HI]; [lra|]. apply IH; [intros; apply HP; now right|lra|assumption]. }
    specialize (H0 F P Z I).
    assert (NZ : fibre_tangent e0 ky kz f * m_a f <> 0) by (apply Rgt_not_eq, Rmult_lt_0_compat; assumption).
    apply Rmult_integral in H0. destruct H0; [contradiction|].
    destruct (Req_dec (plane_strain a b c (m_y f) (m_z f)) 0) as [|NZ2]; [assumption|]. exfalso.
    exact (pow_nonzero _ 2 NZ2 H). }
  pose proof (G f1 I1 (PP f1 ltac:(auto))) as G1. pose proof (G f2 I2 (PP f2 ltac:(auto))) as G2.
  pose proof (G f3 I3 (PP f3 ltac:(auto))) as G3. unfold plane_strain in *.
  set (D := (m_y f2 - m_y f1) * (m_z f3 - m_z f1) - (m_y f3 - m_y f1) * (m_z f2 - m_z f1)).
  assert (HD : D <> 0) by (unfold D; lra).
  assert (Hc : c * D = 0).
  { unfold D. replace (c * ((m_y f2 - m_y f1) * (m_z f3 - m_z f1) - (m_y f3 - m_y f1) * (m_z f2 - m_z f1)))
      with ((c * (m_y f2 - m_y f1)) * (m_z f3 - m_z f1) - (c * (m_y f3 - m_y f1)) * (m_z f2 - m_z f1)) by ring.
    replace (c * (m_y f2 - m_y f1)) with (b * (m_z f2 - m_z f1)) by lra.
    replace (c * (m_y f3 - m_y f1)) with (b * (m_z f3 - m_z f1)) by lra. ring. }
  assert (Hb : b * D = 0).
  { unfold D. replace (b * ((m_y f2 - m_y f1) * (m_z f3 - m_z f1) - (m_y f3 - m_y f1) * (m_z f2 - m_z f1)))
      with ((m_y f2 - m_y f1) * (b * (m_z f3 - m_z f1)) - (m_y f3 - m_y f1) * (b * (m_z f2 - m_z f1))) by ring.
    replace (b * (m_z f2 - m_z f1)) with (c * (m_y f2 - m_y f1)) by lra.
    replace (b * (m_z f3 - m_z f1)) with (c * (m_y f3 - m_y f1)) by lra. ring. }
  apply Rmult_integral in Hc. destruct Hc as [Hc|]; [|contradiction].
  apply Rmult_integral in Hb. destruct Hb as [Hb|]; [|contradiction]. subst. lra.
Qed.
Print Assumptions C20_definite.

(** The matrix is the Jacobian: along every direction (a, b, c) of the strain
    profile, N, My and Mz change at the rate given by its rows. *)
Theorem C20_jacobian : forall laws mesher g e0 ky kz ms K data,
  (forall k, batched (laws k)) -> 0 < ms <= 1 -> cg_surf g <> [] \/ cg_bars g <> [] ->
  let F := section_fibres laws (fun x => mesher x (surface_area x * ms)) g in
  (forall f, In f F -> is_derive (m_sigma f) (plane_strain e0 ky kz (m_y f) (m_z f)) (fibre_tangent e0 ky kz f)) ->
  fiber_stiffness laws mesher g (e0, ky, kz) None (Some ms) = Ok (K, data) ->
  forall a b c,
    is_derive (fun t => axial F (e0 + t * a) (ky + t * b) (kz + t * c)) 0 (mat_vec K a b c 0) /\
    is_derive (fun t => moment_y F (e0 + t * a) (ky + t * b) (kz + t * c)) 0 (mat_vec K a b c 1) /\
    is_derive (fun t => moment_z F (e0 + t * a) (ky + t * b) (kz + t * c)) 0 (mat_vec K a b c 2).
Proof.
  intros laws mesher g e0 ky kz ms K data B M N F D E a b c.
  destruct (triangulate_ok mesher g ms M) as [gs T].
  destruct (stiffness_ok laws mesher g (e0, ky, kz) ms gs B N T) as (K' & E1 & E2 & EK). fold F in EK.
  rewrite E in E1. inversion E1; subst K' gs.
  assert (G : forall i, (i < 3)%nat -> mat_vec K a b c i =
     lsum (map (fun f => fibre_tangent e0 ky kz f * m_a f * lever f i * (a + b * m_z f - c * m_y f)) F)).
  { intros i Hi. unfold mat_vec. rewrite !EK by lia. unfold stiff. clear. cbn [p_e0 p_ky p_kz fst snd].
    induction F as [|f F' IH]; cbn [map]; rewrite ?lsum_nil, ?lsum_cons; [ring|]. rewrite <- IH. cbn [lever]. unfold p_e0, p_ky, p_kz; cbn [fst snd]. ring. }
  rewrite !G by lia.
  split; [|split]; [exact (force_derive 0 F e0 ky kz a b c D)|exact (force_derive 1 F e0 ky kz a b c D)|
    exact (force_derive 2 F e0 ky kz a b c D)].
Qed.
Print Assumptions C20_jacobian.

(** Linear elastic fibres: stiffness times profile is exactly the forces. *)
Theorem C20_elastic_secant : forall laws mesher g e0 ky kz ms (E : nat -> R),
  (forall k, batched (laws k)) -> 0 < ms <= 1 -> cg_surf g <> [] \/ cg_bars g <> [] ->
  (forall k e, lw_stress (laws k) e = E k * e /\ lw_tangent (laws k) e = E k) ->
  exists N My Mz K data,
    fiber_forces laws mesher g (e0, ky, kz) None (Some ms) = Ok ((N, My, Mz), data) /\
    fiber_stiffness laws mesher g (e0, ky, kz) None (Some ms) = Ok (K, data) /\
    N = mat_vec K e0 ky kz 0 /\ My = mat_vec K e0 ky kz 1 /\ Mz = mat_vec K e0 ky kz 2.
Proof.
  intros laws mesher g e0 ky kz ms E B M N HL.
  destruct (triangulate_ok mesher g ms M) as [gs T].
  destruct (stiffness_ok laws mesher g (e0, ky, kz) ms gs B N T) as (K & E1 & _ & EK).
  destruct (forces_ok laws mesher g (e0, ky, kz) ms gs B N T) as [E2 _].
  set (F := section_fibres laws (fun x => mesher x (surface_area x * ms)) g) in *.
  exists (axial F e0 ky kz), (moment_y F e0 ky kz), (moment_z F e0 ky kz), K, gs.
  split; [exact E2|]. split; [exact E1|].
  assert (HF : forall f, In f F -> (forall e, m_sigma f e = m_tangent f 0 * e) /\ (forall e, m_tangent f e = m_tangent f 0)).
  { intros f I. unfold F, section_fibres in I. apply in_app_iff in I. destruct I as [I|I].
    - apply in_flat_map in I. destruct I as (s & _ & I). apply in_map_iff in I. destruct I as (t & <- & _).
      destruct t as [[p q] r]. cbn. split; intros e; rewrite ?(proj1 (HL (sf_law s) e)), ?(proj2 (HL (sf_law s) e)), (proj2 (HL (sf_law s) 0)); reflexivity.
    - apply in_map_iff in I. destruct I as (b & <- & _). cbn.
      split; intros e; rewrite ?(proj1 (HL (br_law b) e)), ?(proj2 (HL (br_law b) e)), (proj2 (HL (br_law b) 0)); reflexivity. }
  assert (G : forall i, (i < 3)%nat -> force i F e0 ky kz = mat_vec K e0 ky kz i).
  { intros i Hi. rewrite (force_elastic (fun f => m_tangent f 0) i F) by
      (try assumption; intros; now apply HF).
    unfold mat_vec. rewrite !EK by lia. reflexivity. }
  split; [exact (G 0%nat ltac:(lia))|]. split; [exact (G 1%nat ltac:(lia))|exact (G 2%nat ltac:(lia))].
Qed.
Print Assumptions C20_elastic_secant.

Example C20_example : exists N My Mz K data,
  fiber_forces ex_laws ex_mesher ex_geo (1, 2, 3) None (Some (1/10)) = Ok ((N, My, Mz), data) /\
  fiber_stiffness ex_laws ex_mesher ex_geo (1, 2, 3) None (Some (1/10)) = Ok (K, data) /\
  N = mat_vec K 1 2 3 0 /\ My = mat_vec K 1 2 3 1 /\ Mz = mat_vec K 1 2 3 2.
Proof.
  apply (C20_elastic_secant _ _ _ _ _ _ _ (fun k => INR k + 1)).
  - intros k. apply elastic_batched.
  - lra.
  - left. discriminate.
  - intros k e. split; reflexivity.
Qed.

(** * Accuracy of the fibre mesh (part of C19/C20) *)
(** For an elastic surface and a mesh that tiles it, the axial force is exact
    and the moments are off by at most E A h^2 / 12 (|ky| + |kz|), h being the
    largest triangle side: fibre results converge to the exact integrals. *)
Theorem C19_elastic_mesh_accuracy : forall laws mesher s e0 ky kz ms E h rings,
  let g := {| cg_surf := [s]; cg_bars := [] |} in
  let ts := mesher s (surface_area s * ms) in
  let M := fun m n => lsum (map (fan_moment m n) rings) in
  (forall k, batched (laws k)) -> 0 < ms <= 1 -> 0 <= E -> (forall e, lw_stress (laws (sf_law s)) e = E * e) ->
  tiles ts rings -> (forall t, In t ts -> tri_size h t) ->
  exists N My Mz data, fiber_forces laws mesher g (e0, ky, kz) None (Some ms) = Ok ((N, My, Mz), data) /\
    N = E * (e0 * M 0%nat 0%nat + ky * M 0%nat 1%nat - kz * M 1%nat 0%nat) /\
    Rabs (My - E * (e0 * M 0%nat 1%nat + ky * M 0%nat 2%nat - kz * M 1%nat 1%nat)) <= E * M 0%nat 0%nat * h ^ 2 / 12 * (Rabs ky + Rabs kz) /\
    Rabs (Mz - - (E * (e0 * M 1%nat 0%nat + ky * M 1%nat 1%nat - kz * M 2%nat 0%nat))) <= E * M 0%nat 0%nat * h ^ 2 / 12 * (Rabs ky + Rabs kz).
Proof.
  intros laws mesher s e0 ky kz ms E h rings g ts M B HM HE HL (HC & HT) HS.
  assert (NE : cg_surf g <> [] \/ cg_bars g <> []) by (left; unfold g; cbn [cg_surf]; discriminate).
  destruct (C19_forces laws mesher g e0 ky kz ms B HM NE) as (d & EF & _).
  do 4 eexists. split; [exact EF|].
  assert (FE : section_fibres laws (fun x => mesher x (surface_area x * ms)) g = map (tri_fibre (laws (sf_law s))) ts).
  { unfold section_fibres. cbn. rewrite !app_nil_r. reflexivity. }
  rewrite FE. pose proof (elastic_fibres E h (laws (sf_law s)) ts e0 ky kz HL HE HC HS) as G. cbv zeta in G.
  unfold fm in G. rewrite !HT in G. exact G.
Qed.
Print Assumptions C19_elastic_mesh_accuracy.

Example C19_mesh_example : tiles (ex_mesher ex_surface 0) [sf_ext ex_surface] /\
  (forall t, In t (ex_mesher ex_surface 0) -> tri_size 1 t).
Proof.
  assert (CH : forall m n, lsum (map (fun t => fan_moment m n (tri_ring t)) (ex_mesher ex_surface 0)) =
     lsum (map (fan_moment m n) [sf_ext ex_surface])).
  { intros m n. cbn [map ex_mesher ex_surface sf_ext tri_ring]. rewrite !lsum_cons, !lsum_nil.
    pose proof (fan_chord m n (0,0) [(1,0)] (1,1) [(0,1)]) as FC. cbn [app] in FC. rewrite FC.
    pose proof (fan_shift m n (0,0) [] (1,1) [(0,1)]) as FS. cbn [app] in FS. rewrite FS. ring. }
  split; [split|].
  - intros t [<-|[<-|[]]]; unfold ccw; rewrite fan_area; unfold shoelace, tri_ring, cross; cbn; lra.
  - exact CH.
  - intros t [<-|[<-|[]]]; cbn; repeat split; rnum.
Qed.

(** * C44: the planar graph handed to the mesher *)
(** Every segment joins two consecutive vertices of one ring and all ring edges
    are present, in order, for any number of holes. *)
Theorem C44_segments_are_ring_edges : forall s d vs ss,
  (forall r, In r (sf_ext s :: sf_ints s) -> closed r /\ (2 <= length r)%nat) ->
  prepare_triangulation s = (vs, ss) ->
  map (fun ij => (nth (fst ij) vs d, nth (snd ij) vs d)) ss = flat_map edges (sf_ext s :: sf_ints s).
Proof.
  intros s d vs ss H E. pose proof (prep_rings_edges (sf_ext s :: sf_ints s) d [] H) as P.
  unfold prepare_triangulation in E. cbn [length] in P. rewrite E in P. exact P.
Qed.
Print Assumptions C44_segments_are_ring_edges.

(** For a convex hole, whichever way round it is drawn, the marker lies strictly
    on the inner side of every edge. *)
Theorem C44_marker_inside_convex_hole : forall s ring g p q, g = 1 \/ g = -1 ->
  In ring (sf_ints s) -> closed ring -> 0 < g * shoe ring ->
  (forall a b v, In (a, b) (edges ring) -> In v ring -> 0 <= g * side a b v) ->
  In (p, q) (edges ring) -> p <> q ->
  In (hole_marker ring) (hole_markers s) /\ 0 < g * side p q (hole_marker ring).
Proof.
  intros s ring g p q G I C A H J N. split; [now apply in_map|now apply hole_marker_convex].
Qed.
Print Assumptions C44_marker_inside_convex_hole.
(** A triangular hole drawn clockwise meets the hypotheses. *)
Example C44_convex_case : let ring := [(0,0); (0,3); (6,0); (0,0)] in
  closed ring /\ 0 < -1 * shoe ring /\
  (forall a b v, In (a, b) (edges ring) -> In v ring -> 0 <= -1 * side a b v) /\
  In ((0,3), (6,0)) (edges ring) /\ 0 < -1 * side (0,3) (6,0) (hole_marker ring).
Proof.
  cbv zeta. split; [reflexivity|]. split; [cbn; lra|]. split.
  - intros a b v I J. cbn in I, J. unfold side.
    repeat (destruct I as [[= <- <-] | I]; [repeat (destruct J as [<- | J]; [cbn; lra|]); contradiction|]). contradiction.
  - split; [right; left; reflexivity|]. unfold side, hole_marker. cbn.
    match goal with |- context [?a / ?b] => replace b with (-9) by lra end. lra.
Qed.

(** For a concave hole it may lie in the solid part: the mesher then removes
    material and keeps the hole.  U-shaped hole; the marker is in the open box
    (1,2) x (1,3), the notch between the legs, which is not part of the hole. *)
Definition ex_u : list (R * R) := [(0,0); (3,0); (3,3); (2,3); (2,1); (1,1); (1,3); (0,3); (0,0)].
Theorem C44_marker_inside_hole_refuted : closed ex_u /\ shoe ex_u = 7 /\ in_box 1 2 1 3 (hole_marker ex_u) /\
  shoe ex_u = shoe [(0,0); (3,0); (3,3); (0,3); (0,0)] - shoe [(1,1); (2,1); (2,3); (1,3); (1,1)].
Proof.
  unfold in_box, hole_marker, ex_u. cbn. split; [reflexivity|].
  split; [lra|]. split; [|lra]. 
  match goal with |- context [?a / ?b] => replace b with 7 by lra end. lra.
Qed.
Print Assumptions C44_marker_inside_hole_refuted.
