(** Newton iteration for linear sections with the exact integrator. *)
From Coq Require Import Lra Lia FunctionalExtensionality.
From Verif Require Import Base M_Marin S_Marin L_Marin M_Laws S_Laws L_Laws M_Laws2 S_Laws2 L_LawsC M_Fiber S_Fiber L_Fiber M_MarinInt S_MarinInt L_MarinInt L_MarinInt2 L_MarinInt3 L_MarinInt4
  M_Section S_Section L_Section L_Section2 M_Domain S_History L_History L_Section6 M_Gross S_Gross L_Gross L_Gross2 P_MarinInt S_MarinInt S_Exact.

(** Matrices that agree where a 3x3 system looks. *)
Definition agree (K K' : nat -> nat -> R) : Prop := forall i j, (i < 3)%nat -> (j < 3)%nat -> K i j = K' i j.
Lemma agree_det K K' : agree K K' -> det3 K = det3 K'.
Proof. intros A. unfold det3. rewrite !A by lia. reflexivity. Qed.
Lemma agree_solve K K' v : agree K K' -> solve3 K v = solve3 K' v.
Proof.
  intros A. unfold solve3. rewrite (agree_det _ _ A).
  assert (P : forall c, agree (put_col K c v) (put_col K' c v)) by (intros c i j I J; unfold put_col; destruct (j =? c)%nat; [reflexivity|now apply A]).
  rewrite !(agree_det _ _ (P _)). reflexivity.
Qed.
Lemma newton_linear' ig ms g loads tol (K0 : option (nat -> nat -> R)) K mx s : det3 K <> 0 -> 0 < tol ->
  (forall p, fst (integrate_profile ig ms g p s) = Ok (mul3 K p) /\ snd (integrate_profile ig ms g p s) = s) ->
  (forall p, exists K' e, ig_modulus ig g p (st_data s) None = Ok (K', e) /\ agree K' K) -> (K0 = None \/ exists K', K0 = Some K' /\ agree K' K) ->
  match newton_loop (S mx) ig ms g loads tol K0 0 mx (0, 0, 0) s with
  | (Ok p, _) => mul3 K p = loads
  | (Err e, _) => e = StopIteration /\ (mx <= 2)%nat
  end.
Proof.
  intros N TP RF RM HK.
  assert (ST : forall fuel num strain, newton_loop (S fuel) ig ms g loads tol K0 num mx strain s =
     match solve3 K (sub3 loads (mul3 K strain)) with
     | Ok d => let strain' := add3 strain d in
               if Rltb (norm3 d) tol then (if (mx <=? S num)%nat then afail StopIteration else aret strain') s
               else newton_loop fuel ig ms g loads tol K0 (S num) mx strain' s
     | Err e => (Err e, s) end).
  { intros fuel num strain. cbn [newton_loop]. unfold abind. destruct (RF strain) as (R1 & R2).
    destruct (integrate_profile ig ms g strain s) as [r s1]; cbn [fst snd] in R1, R2. subst r s1.
    destruct HK as [-> | (K' & -> & A)].
    - destruct (RM strain) as (K' & e & -> & A). unfold alift. rewrite (agree_solve _ _ _ A). destruct (solve3 K _); [cbv zeta; destruct (Rltb _ tol); reflexivity|reflexivity].
    - unfold aret at 1. unfold alift. rewrite (agree_solve _ _ _ A). destruct (solve3 K _); [cbv zeta; destruct (Rltb _ tol); reflexivity|reflexivity]. }
  assert (SV : forall v, exists d, solve3 K v = Ok d).
  { intros v. destruct (solve3 K v) eqn:E; [eexists; reflexivity|]. apply solve3_err in E. tauto. }
  rewrite ST. destruct (SV (sub3 loads (mul3 K (0, 0, 0)))) as (d & E). rewrite E.
  assert (M0 : mul3 K (0, 0, 0) = (0, 0, 0)) by (unfold mul3, mat_vec; f_equal; [f_equal|]; ring).
  assert (MD : mul3 K (add3 (0, 0, 0) d) = loads).
  { rewrite mul3_add, (solve3_ok _ _ _ E), M0. destruct loads as [[a b] c]. unfold add3, sub3. cbn. f_equal; [f_equal|]; ring. }
  cbv zeta. destruct (Rltb (norm3 d) tol).
  { destruct (Nat.leb_spec mx 1); unfold afail, aret; [split; [reflexivity|lia]|exact MD]. }
  destruct mx as [|mx].
  { cbn [newton_loop]. cbn [Nat.leb]. unfold afail. split; [reflexivity|lia]. }
  rewrite ST. rewrite MD. assert (Z : sub3 loads loads = (0, 0, 0)) by (destruct loads as [[a b] c]; unfold sub3; cbn; f_equal; [f_equal|]; ring).
  rewrite Z. destruct (SV (0, 0, 0)) as (d2 & E2). rewrite E2.
  assert (D2 : d2 = (0, 0, 0)) by (apply (solve3_unique K (0, 0, 0)); [exact N|exact (solve3_ok _ _ _ E2)|exact M0]).
  subst d2. cbv zeta. destruct (Rltb_spec (norm3 (0, 0, 0)) tol) as [L|L].
  2:{ exfalso. apply L. rewrite (proj2 (norm3_zero (0, 0, 0)) eq_refl). exact TP. }
  destruct (Nat.leb_spec (S mx) 2); unfold afail, aret; [split; [reflexivity|lia]|].
  rewrite mul3_add, M0, MD. destruct loads as [[a b] c]. unfold add3. cbn. f_equal; [f_equal|]; ring.
Qed.

Section Linear.
Variable laws : nat -> law.
Variable E : nat -> R.
Variable g : compound.
Hypothesis B : forall k, batched (laws k).
Hypothesis DR : drawn g.
Hypothesis EL : forall k, in_use g k -> exists l, laws k = elastic_law l /\ el_E l = E k.
Let K (i j : nat) : R := weighted E (fun y z => arm i y z * arm j y z) g.
Let data := map unscalar (bar_groups (cg_bars g)).

Lemma drawn_closed : rings_closed g.
Proof. exact (proj1 DR). Qed.
Lemma linear_forces p : marin_forces laws g p None = Ok (mul3 K p, data) /\
  mul3 K p = (weighted E (fun y z => plane_strain (p_e0 p) (p_ky p) (p_kz p) y z) g,
              weighted E (fun y z => plane_strain (p_e0 p) (p_ky p) (p_kz p) y z * z) g,
              weighted E (fun y z => plane_strain (p_e0 p) (p_ky p) (p_kz p) y z * - y) g).
Proof.
  destruct p as [[e0 ky] kz]. cbn [p_e0 p_ky p_kz fst snd].
  assert (M : mul3 K (e0, ky, kz) = (weighted E (fun y z => plane_strain e0 ky kz y z) g,
              weighted E (fun y z => plane_strain e0 ky kz y z * z) g, weighted E (fun y z => plane_strain e0 ky kz y z * - y) g)).
  { pose proof (weighted_ql E g drawn_closed) as Q. unfold mul3, mat_vec, K. cbn [arm].
    rewrite (Q (fun y z => plane_strain e0 ky kz y z) e0 (- kz) ky 0 0 0) by (intros; unfold plane_strain; ring).
    rewrite (Q (fun y z => plane_strain e0 ky kz y z * z) 0 0 e0 0 (- kz) ky) by (intros; unfold plane_strain; ring).
    rewrite (Q (fun y z => plane_strain e0 ky kz y z * - y) 0 (- e0) 0 kz (- ky) 0) by (intros; unfold plane_strain; ring).
    rewrite !(Q (fun y z => 1 * 1) 1 0 0 0 0 0) by (intros; ring).
    rewrite !(Q (fun y z => 1 * z) 0 0 1 0 0 0) by (intros; ring).
    rewrite !(Q (fun y z => z * 1) 0 0 1 0 0 0) by (intros; ring).
    rewrite !(Q (fun y z => 1 * - y) 0 (-1) 0 0 0 0) by (intros; ring).
    rewrite !(Q (fun y z => - y * 1) 0 (-1) 0 0 0 0) by (intros; ring).
    rewrite !(Q (fun y z => z * z) 0 0 0 0 0 1) by (intros; ring).
    rewrite !(Q (fun y z => z * - y) 0 0 0 0 (-1) 0) by (intros; ring).
    rewrite !(Q (fun y z => - y * z) 0 0 0 0 (-1) 0) by (intros; ring).
    rewrite !(Q (fun y z => - y * - y) 0 0 0 1 0 0) by (intros; ring).
    f_equal; [f_equal|]; ring. }
  split; [|exact M]. rewrite M.
  destruct (C21_elastic_exact laws E g e0 ky kz B) as (d & EF).
  - intros s I. destruct (proj1 DR s I) as (C1 & C2). split; [exact C1|]. split; [exact C2|]. apply EL. left. exists s. tauto.
  - exact (proj2 DR).
  - pose proof (forces_data _ _ _ _ _ EF) as D. rewrite EF, D. fold data. f_equal. f_equal.
    assert (SU : forall wt a b c, (forall y z, wt y z = a + b * y + c * z) ->
      lsum (map (fun s => surface_integral (fun y z => E (sf_law s) * plane_strain e0 ky kz y z * wt y z) s) (cg_surf g)) =
      lsum (map (fun s => E (sf_law s) * surface_integral (fun y z => plane_strain e0 ky kz y z * wt y z) s) (cg_surf g))).
    { intros wt a b c W. apply lsum_map_ext. intros s I. 
      rewrite (surf_poly (fun y z => E (sf_law s) * plane_strain e0 ky kz y z * wt y z) (E (sf_law s) * (e0 * a)) (E (sf_law s) * (e0 * b - kz * a)) (E (sf_law s) * (e0 * c + ky * a))
        (E (sf_law s) * (- kz * b)) (E (sf_law s) * (ky * b - kz * c)) (E (sf_law s) * (ky * c)) s (proj1 DR s I)) by (intros; rewrite W; unfold plane_strain; ring).
      rewrite (surf_poly (fun y z => plane_strain e0 ky kz y z * wt y z) ((e0 * a)) ((e0 * b - kz * a)) ((e0 * c + ky * a))
        ((- kz * b)) ((ky * b - kz * c)) ((ky * c)) s (proj1 DR s I)) by (intros; rewrite W; unfold plane_strain; ring). ring. }
    assert (BA : forall wt, lsum (map (fun f => m_sigma f (plane_strain e0 ky kz (m_y f) (m_z f)) * m_a f * wt (m_y f) (m_z f)) (bar_fibres laws g)) =
      lsum (map (fun b => E (br_law b) * (br_area b * (plane_strain e0 ky kz (br_y b) (br_z b) * wt (br_y b) (br_z b)))) (cg_bars g))).
    { intros wt. unfold bar_fibres. rewrite map_map. apply lsum_map_ext. intros b I. cbn [mfibre_at m_sigma m_y m_z m_a].
      destruct (EL (br_law b)) as (l & -> & <-); [right; exists b; tauto|]. cbn [elastic_law lw_stress]. unfold elastic_stress. ring. }
    unfold weighted, axial, moment_y, moment_z.
    f_equal; [f_equal|].
    + f_equal.
      * rewrite (SU (fun _ _ => 1) 1 0 0) by (intros; ring). apply lsum_map_ext. intros s I. f_equal. apply surf_ext. intros. ring.
      * transitivity (lsum (map (fun f => m_sigma f (plane_strain e0 ky kz (m_y f) (m_z f)) * m_a f * 1) (bar_fibres laws g))); [apply lsum_map_ext; intros; ring|].
        rewrite (BA (fun _ _ => 1)). apply lsum_map_ext. intros. ring.
    + f_equal.
      * apply (SU (fun _ z => z) 0 0 1). intros; ring.
      * exact (BA (fun _ z => z)).
    + f_equal.
      * apply (SU (fun y _ => - y) 0 (-1) 0). intros; ring.
      * rewrite <- (BA (fun y _ => - y)). rewrite <- lsum_map_opp. apply lsum_map_ext. intros. ring.
Qed.
Lemma arm_poly i : exists a b c, forall y z, arm i y z = a + b * y + c * z.
Proof. destruct i as [|[|i]]; cbn [arm]; [exists 1, 0, 0|exists 0, 0, 1|exists 0, (-1), 0]; intros; ring. Qed.
Lemma linear_stiffness p : exists K', marin_stiffness laws g p None = Ok (K', data) /\ agree K' K.
Proof.
  destruct p as [[e0 ky] kz].
  destruct (C21_stiffness laws (fun k _ => E k) g e0 ky kz B) as (a & K' & d & _ & _ & EF & EQ & _).
  - intros s I. destruct (proj1 DR s I) as (C1 & C2). split; [exact C1|]. split; [exact C2|].
    destruct (EL (sf_law s)) as (l & -> & <-); [left; exists s; tauto|]. apply (elastic_field l).
  - exact (proj2 DR).
  - pose proof (stiffness_data _ _ _ _ _ EF) as D. subst d. exists K'. split; [exact EF|]. intros i j I J. rewrite (EQ i j I J). unfold K, weighted. f_equal.
    + unfold surfaces_turned. apply lsum_map_ext. intros s HS. destruct (proj1 DR s HS) as (C1 & C2).
      destruct (arm_poly i) as (ai & bi & ci & Hi). destruct (arm_poly j) as (aj & bj & cj & Hj).
      set (ca := ai * aj). set (cb := ai * bj + bi * aj). set (cc := ai * cj + ci * aj). set (cd := bi * bj). set (ce := bi * cj + ci * bj). set (cf := ci * cj).
      assert (PQ : forall y z, arm i y z * arm j y z = quadratic ca cb cc cd ce cf y z).
      { intros. rewrite Hi, Hj. unfold quadratic, ca, cb, cc, cd, ce, cf. ring. }
      rewrite (surf_ext _ (quadratic ca cb cc cd ce cf) s PQ).
      transitivity (surface_integral (quadratic (E (sf_law s) * ca) (E (sf_law s) * cb) (E (sf_law s) * cc) (E (sf_law s) * cd) (E (sf_law s) * ce) (E (sf_law s) * cf)) s).
      * rewrite <- (surface_quadratic_turned a) by assumption. apply surf_ext. intros. rewrite PQ. unfold quadratic. ring.
      * rewrite (surf_poly (quadratic (E (sf_law s) * ca) (E (sf_law s) * cb) (E (sf_law s) * cc) (E (sf_law s) * cd) (E (sf_law s) * ce) (E (sf_law s) * cf)) _ _ _ _ _ _ s (conj C1 C2) (fun y z => eq_refl)).
        rewrite (surf_poly (quadratic ca cb cc cd ce cf) _ _ _ _ _ _ s (conj C1 C2) (fun y z => eq_refl)). ring.
    + unfold stiff, bar_fibres. rewrite map_map. apply lsum_map_ext. intros b HB. unfold fibre_tangent. cbn [mfibre_at m_tangent m_y m_z m_a].
      destruct (EL (br_law b)) as (l & -> & <-); [right; exists b; tauto|]. cbn [elastic_law lw_tangent]. unfold elastic_tangent, lever, arm. cbn [mfibre_at m_y m_z].
      destruct i as [|[|i]], j as [|[|j]]; ring.
Qed.
Lemma linear_profile ms loads initial mx tol :
  (forall a b c, weighted E (fun y z => plane_strain a b c y z) g = 0 -> weighted E (fun y z => plane_strain a b c y z * z) g = 0 ->
     weighted E (fun y z => plane_strain a b c y z * - y) g = 0 -> a = 0 /\ b = 0 /\ c = 0) ->
  0 < tol ->
  match strain_profile (marin_integ laws) ms g loads initial mx tol st_init with
  | (Ok p, _) => mul3 K p = loads
  | (Err e, _) => e = StopIteration /\ (mx <= 2)%nat
  end.
Proof.
  intros ND TP. unfold strain_profile. cbn [st_init st_data marin_integ ig_modulus].
  destruct (linear_stiffness (0, 0, 0)) as (K1 & E1 & A1). rewrite E1.
  apply newton_linear'.
  - apply inj_det. intros a b c Z. destruct (linear_forces (a, b, c)) as (_ & M). unfold mul3 in M. rewrite !Z in M by lia. injection M as M1 M2 M3. apply ND; symmetry; assumption.
  - exact TP.
  - intros p. unfold integrate_profile, forces_k. cbn [keep_data st_data marin_integ ig_forces]. unfold data. rewrite forces_reuse by exact B. rewrite (proj1 (linear_forces p)). split; reflexivity.
  - intros p. cbn [keep_data st_data marin_integ ig_modulus]. unfold data. rewrite stiffness_reuse by exact B. destruct (linear_stiffness p) as (K' & -> & A). exists K'. eexists. split; [reflexivity|exact A].
  - destruct initial; [right; exists K1; tauto|now left].
Qed.
End Linear.
