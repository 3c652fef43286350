(** Bending strength, moment-curvature curve and biaxial domain of fibre sections (C47-C49). *)
From Coq Require Import FunctionalExtensionality.
From Verif Require Import Base M_Marin S_Marin L_Marin M_Laws S_Laws L_Laws M_Laws2 L_LawsC M_Fiber S_Fiber L_Fiber M_MarinInt S_MarinInt L_MarinInt3
  M_Section S_Section L_Section L_Section2 L_Section3 M_Domain S_Domain S_History L_History L_Section4 L_Section5 L_Section6 L_Domain2 L_Calc.

(** The material fibres of integration data. *)
Definition group_fibres (laws : nat -> law) (d : list group) : list mfibre :=
  flat_map (fun gr => map (fun f => mfibre_at (laws (gr_law gr)) (fb_y f) (fb_z f) (fb_a f)) (gr_fibres gr)) d.
Lemma data_forces laws mesher h p d m : (forall k, batched (laws k)) -> d <> [] ->
  ig_forces (fiber_integ laws mesher) h p (Some d) m = Ok (resultants (group_fibres laws d) p, d).
Proof.
  intros B NE. cbn [ig_forces fiber_integ]. unfold fiber_forces, prepare_input. cbn [bind].
  rewrite prepare_groups_ok by (assumption || discriminate). cbn [bind]. destruct d as [|x d]; [contradiction|]. generalize (x :: d). clear. intros d.
  cbn [bind fst snd]. f_equal. f_equal. unfold resultants, f_integrate_stress, axial, moment_y, moment_z, group_fibres. rewrite !lsum_flat, <- lsum_map_opp.
  f_equal; [f_equal|]; apply lsum_map_ext; intros gr _; rewrite !map_map; cbn [fst snd mfibre_at m_y m_z m_a m_sigma]; try rewrite <- lsum_map_opp; rewrite ?map_map; apply lsum_map_ext; intros f _;
    cbn; unfold fibre_strain, plane_strain; replace (p_e0 p + p_ky p * fb_z f - p_kz p * fb_y f) with (p_e0 p - p_kz p * fb_y f + p_ky p * fb_z f) by ring; ring.
Qed.
Lemma data_section laws mesher g ms d : (forall k, batched (laws k)) -> nonempty g -> triangulate mesher g ms = Ok d ->
  forall p, resultants (group_fibres laws d) p = resultants (section_fibres laws (fun x => mesher x (surface_area x * ms)) g) p.
Proof.
  intros B N T p. pose proof (nonempty_data _ _ _ _ N T) as NE. destruct (forces_ok laws mesher g p ms d B N T) as (_ & E). cbv zeta in E.
  pose proof (data_forces laws mesher g p d (Some ms) B NE) as A. cbn [ig_forces fiber_integ] in A. rewrite E in A. unfold resultants at 2. congruence.
Qed.
(** Turning the fibres and the profile together. *)
Definition back (theta : R) (p : R * R * R) : R * R * R :=
  let '(e, a, b) := p in (e, cos theta * a - sin theta * b, sin theta * a + cos theta * b).
Lemma turned_resultants laws theta d p : resultants (group_fibres laws d) (back theta p) =
  back theta (resultants (group_fibres laws (map (rotate_group (- theta)) d)) p).
Proof.
  destruct p as ((e & c) & k). unfold resultants, back, p_e0, p_ky, p_kz. cbn [fst snd].
  assert (S2 : sin theta * sin theta + cos theta * cos theta = 1) by (pose proof (sin2_cos2 theta); unfold Rsqr in *; lra).
  assert (Q : group_fibres laws (map (rotate_group (- theta)) d) =
     map (fun f => {| m_y := cos theta * m_y f + sin theta * m_z f; m_z := cos theta * m_z f - sin theta * m_y f; m_a := m_a f; m_sigma := m_sigma f; m_tangent := m_tangent f |}) (group_fibres laws d)).
  { unfold group_fibres. induction d as [|gr d IH]; [reflexivity|]. cbn [map flat_map]. rewrite map_app, <- IH. f_equal. cbn [rotate_group gr_fibres gr_law].
    rewrite !map_map. apply map_ext. intros f. cbn [mfibre_at m_y m_z m_a m_sigma m_tangent rotate_fibre fb_y fb_z fb_a fst snd]. unfold rot. cbn [fst snd].
    rewrite cos_neg, sin_neg. unfold mfibre_at. f_equal; ring. }
  rewrite Q. generalize (group_fibres laws d). clear Q d. intros F.
  assert (ST : forall f, plane_strain e (cos theta * c - sin theta * k) (sin theta * c + cos theta * k) (m_y f) (m_z f) =
     plane_strain e c k (cos theta * m_y f + sin theta * m_z f) (cos theta * m_z f - sin theta * m_y f)).
  { intros f. unfold plane_strain. ring. }
  f_equal; [f_equal|].
  - unfold axial. rewrite map_map. apply lsum_map_ext. intros f _. cbn [m_y m_z m_a m_sigma]. rewrite ST. reflexivity.
  - unfold moment_y, moment_z. rewrite !map_map. cbn [m_y m_z m_a m_sigma].
    rewrite <- (lsum_map_opp (fun x => m_sigma x (plane_strain e c k (cos theta * m_y x + sin theta * m_z x) (cos theta * m_z x - sin theta * m_y x)) * m_a x * (cos theta * m_y x + sin theta * m_z x))).
    match goal with |- _ = ?a * ?x - ?b * ?y => replace (a * x - b * y) with (a * x + (- b) * y) by ring end. rewrite <- !lsum_map_scal, <- lsum_map_plus. apply lsum_map_ext. intros f _. rewrite ST.
    generalize (m_sigma f (plane_strain e c k (cos theta * m_y f + sin theta * m_z f) (cos theta * m_z f - sin theta * m_y f)) * m_a f). intros v. transitivity (v * (m_z f * (sin theta * sin theta + cos theta * cos theta))); [rewrite S2; ring|ring].
  - unfold moment_y, moment_z. rewrite !map_map. cbn [m_y m_z m_a m_sigma].
    rewrite <- !lsum_map_opp, <- !lsum_map_scal, <- lsum_map_plus. apply lsum_map_ext. intros f _. rewrite ST.
    generalize (m_sigma f (plane_strain e c k (cos theta * m_y f + sin theta * m_z f) (cos theta * m_z f - sin theta * m_y f)) * m_a f). intros v. transitivity (- v * (m_y f * (sin theta * sin theta + cos theta * cos theta))); [rewrite S2; ring|ring].
Qed.
(** The analyses on given integration data. *)
Lemma forces_n_data laws mesher h p d m s : (forall k, batched (laws k)) -> d <> [] -> st_data s = Some d ->
  forces_n (fiber_integ laws mesher) h p m s = (Ok (resultants (group_fibres laws d) p), s).
Proof. intros B NE SD. unfold forces_n. rewrite SD, data_forces by assumption. reflexivity. Qed.
Lemma forces_kd laws mesher h p d m s : (forall k, batched (laws k)) -> d <> [] -> st_data s = Some d ->
  forces_k (fiber_integ laws mesher) h p m s = (Ok (resultants (group_fibres laws d) p), s).
Proof. intros B NE SD. unfold forces_k. rewrite SD, data_forces by assumption. unfold keep_data. rewrite SD. destruct s. cbn in *. subst. reflexivity. Qed.
Lemma pivot_data laws mesher t ms h n y s d yn yp b : (forall k, batched (laws k)) -> d <> [] -> st_data s = Some d ->
  balanced (tr_rc t) y (items_of t h) = Ok (yn, yp, b) ->
  let N e c := axial (group_fibres laws d) e c 0 in
  fixed_pivot (fiber_integ laws mesher) t ms h n y s =
   (rmap (fun r => (fst r, snd r, 0)) (pivot_gen 100 (fun e c => Ok (N e c)) n yn yp (p_e0 b) (p_ky b) (N (p_e0 b) (p_ky b))), s).
Proof.
  intros B NE SD HB N. unfold fixed_pivot. rewrite HB. unfold abind, alift. rewrite (forces_kd laws mesher h b d _ s B NE SD). cbn [fst snd].
  rewrite pivot_gen_eq. unfold resultants. cbn [fst].
  assert (KZ : p_kz b = 0).
  { unfold balanced in HB. destruct (fold_left _ _ _) as [[[[? ?] ?] ?]|]; [|discriminate]. inversion HB. reflexivity. }
  rewrite KZ.
  assert (EQ : (fun e c => axial_fun (fiber_integ laws mesher) h s (e, c, 0)) = (fun e c => Ok (N e c))).
  { extensionality e. extensionality c. unfold axial_fun. rewrite SD, data_forces by assumption. reflexivity. }
  rewrite EQ. reflexivity.
Qed.
Lemma curvature_data laws mesher h n c e s d : (forall k, batched (laws k)) -> d <> [] -> st_data s = Some d ->
  let N x := axial (group_fibres laws d) x c 0 in
  fixed_curvature (fiber_integ laws mesher) h n c e s = (rmap (fun x => (x, c, 0)) (solve_curvature (fun x => Ok (N x)) n e (N e)), s).
Proof.
  intros B NE SD N. unfold fixed_curvature, abind. rewrite (forces_kd laws mesher h _ d _ s B NE SD). cbn [fst snd resultants p_e0 p_ky p_kz].
  rewrite (solve_curvature_total _ N); [reflexivity|]. intros x. unfold axial_fun. rewrite SD, data_forces by assumption. reflexivity.
Qed.
Lemma balanced_err_pivot ig t ms h n y s x : balanced (tr_rc t) y (items_of t h) = Err x -> fixed_pivot ig t ms h n y s = (Err x, s).
Proof. intros H. unfold fixed_pivot. rewrite H. reflexivity. Qed.
(** After the axial load check a calculator has its mesh. *)
Lemma checked laws mesher t ms g ops s n s1 : (forall k, batched (laws k)) -> 0 < ms <= 1 ->
  (forall o, In o ops -> meshed o \/ ms = 1/100) -> history (fiber_integ laws mesher) t ms g ops s ->
  check_axial (fiber_integ laws mesher) t ms g n s = (Ok tt, s1) ->
  exists d D, triangulate mesher g ms = Ok D /\ st_data s1 = Some d /\ eqd d D.
Proof.
  intros B M HO H E. destruct (triangulate_ok mesher g ms M) as (D & T).
  pose proof (fiber_coherent laws mesher g ms D B T) as CO.
  assert (SR := history_srel (fiber_integ laws mesher) t ms g D CO ops s (fun o Ho => match HO o Ho with or_introl X => or_introl X | or_intror X => or_intror (fiber_coherent_none laws mesher g D (eq_ind ms (fun x => coherent (fiber_integ laws mesher) g (Some x) D) CO _ X)) end) H).
  destruct (check_good (fiber_integ laws mesher) t ms g D CO n _ _ SR) as (_ & G). rewrite E in G. cbn [fst snd] in G.
  destruct (G tt eq_refl) as ((d & SD & EQ) & _). exists d, D. auto.
Qed.
(** Bisection never leaves its interval. *)
Lemma bisect_inside fuel : forall f n xa da xb db last c lo hi, lo <= xa <= hi -> lo <= xb <= hi ->
  (forall x, last = Some x -> lo <= x <= hi) -> bisect fuel f n xa da xb db last = Ok c -> lo <= c <= hi.
Proof.
  induction fuel as [|k IH]; intros f n xa da xb db last c lo hi A B L E; cbn [bisect] in E; [discriminate|].
  destruct (Rltb (1/100) (Rabs (da - db))).
  - destruct (f ((xa + xb) / 2)) as [nc|]; [|discriminate]. cbn [bind] in E. destruct (Rltb ((nc - n) * da) 0); eapply IH; try exact E; try lra; intros x X; injection X as <-; lra.
  - destruct last as [x|]; [|discriminate]. injection E as <-. now apply L.
Qed.
Lemma bisect_grid fuel (P : R -> Prop) : (forall x y, P x -> P y -> P ((x + y) / 2)) ->
  forall f n xa da xb db last c, P xa -> P xb -> (forall x, last = Some x -> P x) -> bisect fuel f n xa da xb db last = Ok c -> P c.
Proof.
  intros MID. induction fuel as [|k IH]; intros f n xa da xb db last c A B L E; cbn [bisect] in E; [discriminate|].
  destruct (Rltb (1/100) (Rabs (da - db))).
  - destruct (f ((xa + xb) / 2)) as [nc|]; [|discriminate]. cbn [bind] in E. destruct (Rltb ((nc - n) * da) 0); eapply IH; try exact E; auto; intros x X; injection X as <-; auto.
  - destruct last as [x|]; [|discriminate]. injection E as <-. now apply L.
Qed.
Lemma solve_pivot_between f n yn yp eps0 chi n0 e c : solve_pivot f n yn yp eps0 chi n0 = Ok (e, c) ->
  Rmin chi (- / 10 ^ 13) <= c <= Rmax chi (- / 10 ^ 13).
Proof.
  rewrite pivot_gen_eq. unfold pivot_gen. generalize 100%nat. intros M.
  pose proof (Rmin_l chi (- / 10 ^ 13)). pose proof (Rmin_r chi (- / 10 ^ 13)). pose proof (Rmax_l chi (- / 10 ^ 13)). pose proof (Rmax_r chi (- / 10 ^ 13)).
  destruct (Rleb _ _).
  - intros E. injection E as _ <-. lra.
  - destruct (f _ (- / 10 ^ 13)) as [nb|]; [|discriminate]. cbn [bind]. destruct (bisect _ _ _ _ _ _ _ _) as [x|] eqn:E; [|discriminate]. cbn [bind].
    intros X. injection X as _ <-. eapply bisect_inside; [| | |exact E]; [lra|lra|discriminate].
Qed.
(** What a successful bending strength analysis went through. *)
Lemma strength_inv ig t ms g theta n s r s' : bending_strength ig t ms g theta n s = (Ok r, s') ->
  exists s1 s2 s3 p F, check_axial ig t ms g n s = (Ok tt, s1) /\ rotate_data (- theta) s1 = (Ok tt, s2) /\
    fixed_pivot ig t ms (rotate_geo (- theta) g) n false s2 = (Ok p, s3) /\
    forces_n ig (rotate_geo (- theta) g) p None s3 = (Ok F, s3) /\
    (rs_eps r, rs_chiy r, rs_chiz r) = back theta p /\ (rs_n r, rs_my r, rs_mz r) = back theta F.
Proof.
  unfold bending_strength, abind. destruct (check_axial ig t ms g n s) as [[[]|] s1] eqn:C; [|discriminate].
  destruct (rotate_data (- theta) s1) as [[[]|] s2] eqn:RD; [|discriminate].
  destruct (fixed_pivot ig t ms (rotate_geo (- theta) g) n false s2) as [[p|] s3] eqn:P; [|discriminate].
  destruct (forces_n ig (rotate_geo (- theta) g) p None s3) as [[F|] s4] eqn:FN; [|discriminate].
  destruct F as ((N & My) & Mz). cbn [fst snd]. intros E. injection E as <- _. exists s1, s2, s3, p, (N, My, Mz).
  assert (s4 = s3). { unfold forces_n in FN. destruct (ig_forces _ _ _ _ _) as [[? ?]|]; [|discriminate]. now injection FN as _ <-. } subst s4.
  destruct p as ((e & c) & k). repeat split; assumption || reflexivity.
Qed.
(** A curvature between a steeper negative one and zero mixes the two. *)
Lemma mixture chi c : chi < 0 -> chi <= c <= 0 -> exists l, 0 <= l <= 1 /\ c = l * chi.
Proof.
  intros N B. exists (c / chi). assert (X : c = c / chi * chi) by (field; lra). split; [|exact X].
  split.
  - replace (c / chi) with ((- c) * / (- chi)) by (field; lra). apply Rmult_le_pos; [lra|]. left. apply Rinv_0_lt_compat. lra.
  - apply (Rmult_le_reg_r (- chi)); [lra|]. replace (c / chi * - chi) with (- c) by (field; lra). lra.
Qed.
(** The fixed-curvature search stays on the grid of halvings. *)
Lemma grid_within e y : grid 0 (1/1000) e -> grid e (1/1000) y -> grid 0 (1/1000) y.
Proof.
  intros G (m & j & ->). destruct G as (m' & j' & ->). exists (m * 2 ^ Z.of_nat j' + m' * 2 ^ Z.of_nat j)%Z, (j + j')%nat.
  rewrite plus_IZR, !mult_IZR, pow_add, <- !pow_IZR. field. split; apply pow_nonzero; lra.
Qed.
Lemma solve_curvature_grid (h : R -> R) n e e1 : solve_curvature (fun x => Ok (h x)) n e (h e) = Ok e1 -> grid 0 (1/1000) e -> grid 0 (1/1000) e1.
Proof.
  intros SC G. revert SC. rewrite solve_gen_eq. unfold solve_gen. generalize 500%nat at 1. intros K. generalize 100%nat. intros M.
  destruct (Rleb _ _); [intros X; injection X as <-; exact G|].
  destruct (prefind K _ _ _ _ _ _ _ _ _) as [b|] eqn:PF; [|discriminate]. cbn [bind]. intros BS. apply (grid_within e _ G).
  assert (PG : forall k it rst delta ds b0, (exists i, delta = 1/1000 / 2 ^ i) -> grid e (1/1000) (fst b0) \/ (it = O /\ rst = O) ->
     forall b, prefind k (fun x => Ok (h x)) n e (h e - n) it rst delta ds b0 = Ok b -> grid e (1/1000) (fst b)).
  { clear. induction k as [|k IH]; intros it rst delta ds b0 (i & ->) G0 b E; cbn [prefind] in E; [discriminate|].
    destruct (andb (it <? 20)%nat (rst <? 20)%nat) eqn:AB.
    - cbn [bind] in E. set (sg := if Rltb 0 _ then -1 else 1) in *.
      assert (GX : grid e (1/1000) (e + sg * (1/1000 / 2 ^ i) * 2 ^ it)).
      { exists ((if Rltb 0 (h e - n) then -1 else 1) * 2 ^ Z.of_nat it)%Z, i. rewrite mult_IZR, <- pow_IZR. subst sg. destruct (Rltb 0 _); field; apply pow_nonzero; lra. }
      destruct (Rltb (_ * _) 0); [injection E as <-; exact GX|].
      destruct (Rltb (Rabs _) (Rabs _)); [destruct (10 <? S ds)%nat|].
      + eapply IH; [| |exact E]; [exists (S i); cbn [pow]; field; apply pow_nonzero; lra|left; exact GX].
      + eapply IH; [| |exact E]; [exists i; reflexivity|left; exact GX].
      + eapply IH; [| |exact E]; [exists i; reflexivity|left; exact GX].
    - destruct (20 <=? it)%nat; [discriminate|]. injection E as <-. destruct G0 as [G0|(-> & ->)]; [exact G0|discriminate AB]. }
  apply PG in PF; [|exists O; cbn; field|right; split; reflexivity].
  refine (bisect_grid M (grid e (1/1000)) (grid_mid e (1/1000)) _ _ _ _ _ _ None _ (grid_start e (1/1000)) PF _ BS). discriminate.
Qed.
(** Moment-curvature points on given data. *)
Lemma points_data laws mesher h n d : (forall k, batched (laws k)) -> d <> [] -> forall cs e s pts s',
  st_data s = Some d -> curvature_points (fiber_integ laws mesher) h n cs e s = (Ok pts, s') ->
  s' = s /\ Forall2 (fun c x => let '(c', e', My, Mz) := x in c' = c /\ (My, Mz) = (moment_y (group_fibres laws d) e' c 0, moment_z (group_fibres laws d) e' c 0)) cs pts /\
  ((forall c x, In c cs -> grid 0 (1/1000) x -> axial (group_fibres laws d) x c 0 <> n) -> grid 0 (1/1000) e ->
   (forall c, In c cs -> nondecreasing (fun x => axial (group_fibres laws d) x c 0)) ->
   Forall (fun x => let '(c', e', _, _) := x in balances n (axial (group_fibres laws d) e' c' 0)) pts).
Proof.
  intros B NE. induction cs as [|c cs IH]; intros e s pts s' SD E; cbn [curvature_points] in E.
  - injection E as <- <-. split; [reflexivity|]. split; [constructor|]. intros. constructor.
  - unfold abind in E. rewrite (curvature_data laws mesher h n c e s d B NE SD) in E. cbv zeta in E.
    destruct (solve_curvature _ n e _) as [e1|] eqn:SC; cbn [rmap] in E; [|discriminate].
    rewrite (forces_n_data laws mesher h _ d _ s B NE SD) in E. cbn [fst snd] in E.
    change (p_e0 (e1, c, 0)) with e1 in E.
    destruct (curvature_points _ h n cs e1 s) as [[rest|] s2] eqn:CP; [|discriminate]. apply IH in CP; [|exact SD]. destruct CP as (-> & F2 & BAL).
    injection E as <- <-. split; [reflexivity|]. split; [constructor; [split; reflexivity|exact F2]|].
    intros NG G MO.
    assert (GE : grid 0 (1/1000) e1 /\ balances n (axial (group_fibres laws d) e1 c 0)).
    { split; [exact (solve_curvature_grid _ _ _ _ SC G)|].
      apply (solve_curvature_sound (fun x => Ok (axial (group_fibres laws d) x c 0)) (fun x => axial (group_fibres laws d) x c 0) n e e1); [intros x; reflexivity|apply MO; now left| |exact SC].
      intros x X. apply NG; [now left|exact (grid_within e _ G X)]. }
    destruct GE as (GE & BE). constructor; [exact BE|]. apply BAL; [intros; apply NG; [now right|assumption]|exact GE|intros; apply MO; now right].
Qed.
(** What a successful moment-curvature analysis went through. *)
Lemma moment_inv ig t ms g theta n c1 a b chi s l s' : moment_curvature ig t ms g theta n c1 a b chi s = (Ok l, s') ->
  let gr := rotate_geo (- theta) g in
  exists s1 s2 s3 cs pts s4, check_axial ig t ms g n s = (Ok tt, s1) /\ rotate_data (- theta) s1 = (Ok tt, s2) /\
    (match chi with
     | Some l => cs = l /\ s3 = s2
     | None => exists su sy su', fixed_pivot ig t ms gr n false s2 = (Ok su, su') /\ fixed_pivot ig t ms gr n true su' = (Ok sy, s3) /\
                 auto_curvatures (p_ky su) (p_ky sy) c1 a b = Ok cs
     end) /\
    curvature_points ig gr n cs 0 s3 = (Ok pts, s4) /\
    l = map (fun x => let '(c, e, My, Mz) := x in
         (e, cos theta * c - sin theta * 0, sin theta * c + cos theta * 0,
          cos theta * My - sin theta * Mz, sin theta * My + cos theta * Mz)) pts.
Proof.
  intros E gr. unfold moment_curvature, abind in E. destruct (check_axial ig t ms g n s) as [[[]|] s1] eqn:C; [|discriminate].
  destruct (rotate_data (- theta) s1) as [[[]|] s2] eqn:RD; [|discriminate].
  set (G := match chi with Some l0 => aret l0 | None => _ end) in E.
  destruct (G s2) as [[cs|] s3] eqn:CH; [|discriminate].
  change (rotate_geo (- theta) g) with gr in E.
  destruct (curvature_points ig gr n cs 0 s3) as [[pts|] s4] eqn:CP; [|discriminate]. cbn in E. injection E as <- _.
  exists s1, s2, s3, cs, pts, s4. split; [reflexivity|]. split; [exact RD|]. split; [|split; [exact CP|reflexivity]].
  subst G. destruct chi as [l0|].
  - unfold aret in CH. injection CH as <- <-. split; reflexivity.
  - change (rotate_geo (- theta) g) with gr in CH. destruct (fixed_pivot ig t ms gr n false s2) as [[su|] su'] eqn:PU; [|discriminate].
    destruct (fixed_pivot ig t ms gr n true su') as [[sy|] s3'] eqn:PY; [|discriminate]. unfold alift in CH. injection CH as CH <-.
    exists su, sy, su'. split; [first [exact PU|reflexivity]|]. split; [exact PY|exact CH].
Qed.
Lemma points_curvatures ig h n : forall cs e s pts s', curvature_points ig h n cs e s = (Ok pts, s') ->
  map (fun x => fst (fst (fst x))) pts = cs.
Proof.
  induction cs as [|c cs IH]; intros e s pts s' E; cbn [curvature_points] in E.
  - injection E as <- _. reflexivity.
  - unfold abind in E. destruct (fixed_curvature ig h n c e s) as [[p|] s1]; [|discriminate]. destruct (forces_n ig h p None s1) as [[F|] s2]; [|discriminate].
    destruct (curvature_points ig h n cs (p_e0 p) s2) as [[rest|] s3] eqn:CP; [|discriminate]. injection E as <- _. cbn [map fst]. f_equal. exact (IH _ _ _ _ CP).
Qed.
(** Evenly spaced values. *)
Lemma linspace_length a b n ep : length (linspace a b n ep) = n.
Proof. unfold linspace. now rewrite map_length, seq_length. Qed.
Lemma linspace_nth a b n ep i : (i < n)%nat ->
  nth i (linspace a b n ep) 0 = if ep then (if (n =? 1)%nat then a else a + INR i * ((b - a) / (INR n - 1))) else a + INR i * ((b - a) / INR n).
Proof.
  intros H. unfold linspace. cbv zeta. match goal with |- nth _ (map ?f _) _ = _ => set (h := f) end.
  rewrite (nth_indep _ 0 (h 0%nat)) by (rewrite map_length, seq_length; exact H). rewrite map_nth, seq_nth by exact H. subst h. cbn [Nat.add]. destruct ep; [|reflexivity]. cbn [andb].
  destruct (Nat.eqb_spec i (n - 1)) as [E|E]; cbn [andb]; [destruct (Nat.ltb_spec 1 n); destruct (Nat.eqb_spec n 1); try lia|].
  - subst i. rewrite minus_INR by lia. cbn [INR]. field. assert (1 < INR n) by (apply (lt_INR 1 n); lia). lra.
  - subst. cbn [Nat.sub INR]. ring.
  - destruct (Nat.eqb_spec n 1); [lia|reflexivity].
Qed.
Lemma same_side cy x : cy <> 0 -> 0 <= x * cy -> exists sg, (sg = 1 \/ sg = -1) /\ cy = sg * Rabs cy /\ x = sg * Rabs x /\ sg * sg = 1.
Proof.
  intros N H. destruct (Rle_lt_dec 0 cy) as [P|P].
  - exists 1. assert (0 <= x) by (destruct (Rle_lt_dec 0 x); [assumption|exfalso; assert (cy > 0) by lra; nra]). rewrite !Rabs_pos_eq by assumption. split; [now left|]. repeat split; lra.
  - exists (-1). assert (x <= 0) by (destruct (Rle_lt_dec x 0); [assumption|exfalso; nra]). rewrite !Rabs_left1 by lra. split; [now right|]. repeat split; lra.
Qed.
(** Rising positive values: linear interpolation between two levels. *)
Lemma ramp_le x y n i j : x <= y -> 0 < n -> (i <= j)%nat -> x + INR i * ((y - x) / n) <= x + INR j * ((y - x) / n).
Proof.
  intros L N IJ. apply Rplus_le_compat_l, Rmult_le_compat_r; [|now apply le_INR]. apply Rmult_le_pos; [lra|]. left. now apply Rinv_0_lt_compat.
Qed.
Lemma ramp_hi x y n i : x <= y -> 0 < n -> INR i <= n -> x + INR i * ((y - x) / n) <= y.
Proof.
  intros L N I. apply (Rplus_le_reg_r (- x)). replace (x + INR i * ((y - x) / n) + - x) with (INR i / n * (y - x)) by (field; lra).
  rewrite <- (Rmult_1_l (y + - x)). apply Rmult_le_compat; [|lra| |lra]; [apply Rmult_le_pos; [apply pos_INR|left; now apply Rinv_0_lt_compat]|].
  apply (Rmult_le_reg_r n); [exact N|]. replace (INR i / n * n) with (INR i) by (field; lra). lra.
Qed.
Lemma auto_spec cu cy c1 a b cs : auto_curvatures cu cy c1 a b = Ok cs -> (2 <= a)%nat -> (1 <= b)%nat -> cy <> 0 ->
  exists sg v, (sg = 1 \/ sg = -1) /\ cy = sg * Rabs cy /\ cu * cy >= 0 /\
    (forall i, (i < length cs)%nat -> nth i cs 0 = sg * v i) /\
    (forall i j, (i <= j < length cs)%nat -> 0 <= v i <= v j) /\ 
    length cs = (if Rleb (Rabs cu) (Rabs cy + / 10 ^ 8) then a else (a + b)%nat) /\
    v (a - 1)%nat = Rabs cy /\ v 0%nat = (if Rltb (Rabs c1) (Rabs cy) then Rabs c1 else Rabs cy / INR a) /\
    (Rleb (Rabs cu) (Rabs cy + / 10 ^ 8) = false -> sg * v (a + b - 1)%nat = cu).
Proof.
  unfold auto_curvatures. intros E A B CY. destruct (Rltb_spec (cu * cy) 0) as [|CU]; [discriminate|].
  set (cf := c1 * _) in E. destruct (same_side cy cu CY) as (sg & SG & HY & HU & S2); [lra|].
  assert (AP : 2 <= INR a) by (apply (le_INR 2); exact A). assert (BP : 1 <= INR b) by (apply (le_INR 1); exact B).
  assert (CP : 0 < Rabs cy) by now apply Rabs_pos_lt.
  assert (CF : cf = sg * Rabs c1 /\ Rabs cf = Rabs c1).
  { subst cf. destruct (Rltb_spec (c1 * cy) 0) as [NEG|POS].
    - destruct (same_side cy (- c1) CY) as (s2 & SG2 & HY2 & H2 & _); [lra|]. rewrite Rabs_Ropp in H2. assert (s2 = sg) by (apply (Rmult_eq_reg_r (Rabs cy)); lra). subst s2.
      split; [lra|]. rewrite Rabs_mult, (Rabs_left (-1)) by lra. lra.
    - destruct (same_side cy c1 CY) as (s2 & SG2 & HY2 & H2 & _); [lra|]. assert (s2 = sg) by (apply (Rmult_eq_reg_r (Rabs cy)); lra). subst s2.
      split; [lra|]. rewrite Rmult_1_r. reflexivity. }
  destruct CF as (CF & CFA).
  set (x := if Rltb (Rabs c1) (Rabs cy) then Rabs c1 else Rabs cy / INR a).
  assert (XB : 0 <= x <= Rabs cy).
  { subst x. destruct (Rltb_spec (Rabs c1) (Rabs cy)); [split; [apply Rabs_pos|lra]|]. split; [apply Rmult_le_pos; [lra|left; apply Rinv_0_lt_compat; lra]|].
    apply (Rmult_le_reg_r (INR a)); [lra|]. replace (Rabs cy / INR a * INR a) with (Rabs cy) by (field; lra). nra. }
  assert (E2 : (if Rleb (Rabs cu) (Rabs cy + / 10 ^ 8) then Ok (linspace (sg * x) cy a true)
     else if (a =? 0)%nat then Err ValueError else Ok (linspace (sg * x) cy (a - 1) false ++ linspace cy cu (b + 1) true)) = Ok cs).
  { rewrite <- E. subst x. destruct (Rleb_spec (Rabs cy) (Rabs cf)) as [L|L]; destruct (Rltb_spec (Rabs c1) (Rabs cy)) as [L2|L2]; try (exfalso; lra).
    - destruct (Nat.eqb_spec a 0); [lia|]. cbn [bind]. replace (sg * (Rabs cy / INR a)) with (cy / INR a) by (rewrite HY at 1; field; lra). reflexivity.
    - cbn [bind]. rewrite CF. reflexivity. }
  clear E. destruct (Rleb_spec (Rabs cu) (Rabs cy + / 10 ^ 8)) as [L|L].
  - apply Ok_inj in E2. subst cs. exists sg, (fun i => x + INR i * ((Rabs cy - x) / (INR a - 1))).
    rewrite linspace_length. split; [exact SG|]. split; [exact HY|]. split; [lra|]. split; [|split; [|split; [reflexivity|split; [|split; [|discriminate]]]]].
    + intros i I. rewrite linspace_nth by exact I. destruct (Nat.eqb_spec a 1); [lia|]. rewrite HY at 1. field. lra.
    + intros i j IJ. split; [|apply ramp_le; [lra|lra|lia]]. apply Rle_trans with (x + INR 0 * ((Rabs cy - x) / (INR a - 1))); [cbn [INR]; lra|apply ramp_le; [lra|lra|lia]].
    + rewrite minus_INR by lia. cbn [INR]. field. lra.
    + cbn [INR]. lra.
  - destruct (Nat.eqb_spec a 0); [lia|]. apply Ok_inj in E2. subst cs.
    assert (UP : Rabs cy <= Rabs cu) by (assert (0 < / 10 ^ 8) by (apply Rinv_0_lt_compat; lra); lra).
    exists sg, (fun i => if (i <? a - 1)%nat then x + INR i * ((Rabs cy - x) / INR (a - 1)) else Rabs cy + INR (i - (a - 1)) * ((Rabs cu - Rabs cy) / INR b)).
    assert (A1 : 0 < INR (a - 1)) by (apply lt_0_INR; lia).
    rewrite app_length, !linspace_length. split; [exact SG|]. split; [exact HY|]. split; [lra|]. split; [|split; [|split; [lia|split; [|split]]]].
    + intros i I. destruct (Nat.ltb_spec i (a - 1)) as [J|J].
      * rewrite app_nth1 by (rewrite linspace_length; exact J). rewrite linspace_nth by exact J. rewrite HY at 1. field. lra.
      * rewrite app_nth2, linspace_length by (rewrite linspace_length; exact J). rewrite linspace_nth by lia. destruct (Nat.eqb_spec (b + 1) 1); [lia|].
        rewrite plus_INR. change (INR 1) with 1. rewrite HY at 1 2. rewrite HU at 1. field. lra.
    + intros i j IJ. destruct (Nat.ltb_spec i (a - 1)) as [I|I]; destruct (Nat.ltb_spec j (a - 1)) as [J|J]; try (exfalso; lia).
      * split; [|apply ramp_le; [lra|lra|lia]]. apply Rle_trans with (x + INR 0 * ((Rabs cy - x) / INR (a - 1))); [cbn [INR]; lra|apply ramp_le; [lra|lra|lia]].
      * split.
        { apply Rle_trans with (x + INR 0 * ((Rabs cy - x) / INR (a - 1))); [cbn [INR]; lra|apply ramp_le; [lra|lra|lia]]. }
        apply Rle_trans with (Rabs cy); [apply ramp_hi; [lra|lra|apply le_INR; lia]|].
        apply Rle_trans with (Rabs cy + INR 0 * ((Rabs cu - Rabs cy) / INR b)); [cbn [INR]; lra|apply ramp_le; [lra|lra|lia]].
      * split; [|apply ramp_le; [lra|lra|lia]].
        apply Rle_trans with (Rabs cy + INR 0 * ((Rabs cu - Rabs cy) / INR b)); [cbn [INR]; lra|apply ramp_le; [lra|lra|lia]].
    + destruct (Nat.ltb_spec (a - 1) (a - 1)); [lia|]. replace (a - 1 - (a - 1))%nat with 0%nat by lia. cbn [INR]. lra.
    + destruct (Nat.ltb_spec 0 (a - 1)); [|lia]. cbn [INR]. lra.
    + intros _. destruct (Nat.ltb_spec (a + b - 1) (a - 1)); [lia|]. replace (a + b - 1 - (a - 1))%nat with b by lia.
      transitivity (sg * Rabs cu); [field; lra|symmetry; exact HU].
Qed.
Lemma axial_back laws mesher g ms D theta e c : (forall k, batched (laws k)) -> nonempty g -> triangulate mesher g ms = Ok D ->
  axial (group_fibres laws (map (rotate_group (- theta)) D)) e c 0 =
  axial (section_fibres laws (fun x => mesher x (surface_area x * ms)) g) e (cos theta * c) (sin theta * c).
Proof.
  intros B NE T. pose proof (turned_resultants laws theta D (e, c, 0)) as Q. rewrite (data_section _ _ _ _ _ B NE T) in Q.
  unfold resultants, back, p_e0, p_ky, p_kz in Q. cbn [fst snd] in Q. apply (f_equal (fun x => fst (fst x))) in Q. cbn [fst] in Q.
  rewrite <- Q. f_equal; ring.
Qed.
Lemma moments_back laws mesher g ms D theta e c : (forall k, batched (laws k)) -> nonempty g -> triangulate mesher g ms = Ok D ->
  let Fr := group_fibres laws (map (rotate_group (- theta)) D) in
  let F := section_fibres laws (fun x => mesher x (surface_area x * ms)) g in
  (cos theta * moment_y Fr e c 0 - sin theta * moment_z Fr e c 0, sin theta * moment_y Fr e c 0 + cos theta * moment_z Fr e c 0) =
  (moment_y F e (cos theta * c) (sin theta * c), moment_z F e (cos theta * c) (sin theta * c)).
Proof.
  intros B NE T. cbv zeta. pose proof (turned_resultants laws theta D (e, c, 0)) as Q. rewrite (data_section _ _ _ _ _ B NE T) in Q.
  unfold resultants, back, p_e0, p_ky, p_kz in Q. cbn [fst snd] in Q.
  replace (cos theta * c - sin theta * 0) with (cos theta * c) in Q by ring. replace (sin theta * c + cos theta * 0) with (sin theta * c) in Q by ring.
  injection Q as _ Q1 Q2. rewrite <- Q1, <- Q2. reflexivity.
Qed.
(** Biaxial strengths along a history. *)
Lemma strengths_points laws mesher t ms g n : (forall k, batched (laws k)) -> 0 < ms <= 1 -> forall ths ops s l s',
  (forall o, In o ops -> meshed o) -> history (fiber_integ laws mesher) t ms g ops s ->
  strengths (fiber_integ laws mesher) t ms g n ths s = (Ok l, s') ->
  Forall2 (fun th r => fst (bending_strength (fiber_integ laws mesher) t ms g th n st_init) = Ok r /\
                       exists ops' s1 s2, (forall o, In o ops' -> meshed o) /\ history (fiber_integ laws mesher) t ms g ops' s1 /\
                         bending_strength (fiber_integ laws mesher) t ms g th n s1 = (Ok r, s2)) ths l.
Proof.
  intros B M. induction ths as [|th ths IH]; intros ops s l s' HO H E; cbn [strengths] in E.
  - injection E as <- _. constructor.
  - unfold abind in E. destruct (bending_strength (fiber_integ laws mesher) t ms g th n s) as [[r|] s1] eqn:BS; [|discriminate].
    destruct (strengths (fiber_integ laws mesher) t ms g n ths s1) as [[q|] s2] eqn:ST; [|discriminate]. injection E as <- _.
    assert (RU : run (fiber_integ laws mesher) t ms g (OStrength th n) s = (Ok (AStrength r), s1)) by (cbn [run]; unfold amap; rewrite BS; reflexivity).
    constructor.
    + split; [|exists ops, s, s1; auto].
      destruct (triangulate_ok mesher g ms M) as (D & T). pose proof (fiber_coherent laws mesher g ms D B T) as CO.
      pose proof (history_free (fiber_integ laws mesher) t ms g D CO ops s (OStrength th n)) as HF.
      rewrite RU in HF. cbn [fst run] in HF. unfold amap in HF. cbn [fst] in HF.
      destruct (fst (bending_strength (fiber_integ laws mesher) t ms g th n st_init)) as [r0|]; cbn [rmap] in HF.
      * assert (X : Ok (AStrength r) = Ok (AStrength r0)) by (apply HF; [intros o [<- | Ho]; left; [exact I|now apply HO]|exact H]). injection X as ->. reflexivity.
      * assert (X : Ok (AStrength r) = Err e) by (apply HF; [intros o [<- | Ho]; left; [exact I|now apply HO]|exact H]). discriminate.
    + eapply (IH (ops ++ [OStrength th n]) s1); [|eapply h_next; [exact H|exact RU]|exact ST].
      intros o Ho. apply in_app_or in Ho. destruct Ho as [Ho|[<- | []]]; [now apply HO|exact I].
Qed.
Lemma strength_period ig t ms g n a b : cos a = cos b -> sin a = sin b -> bending_strength ig t ms g a n = bending_strength ig t ms g b n.
Proof.
  intros C S'. assert (RT : forall p, rot (- a) p = rot (- b) p) by (intros p; unfold rot; rewrite !cos_neg, !sin_neg, C, S'; reflexivity).
  assert (RT2 : forall p, rot a p = rot b p) by (intros p; unfold rot; rewrite C, S'; reflexivity).
  assert (RG : rotate_geo (- a) g = rotate_geo (- b) g).
  { unfold rotate_geo. f_equal; apply map_ext; intros x.
    - unfold rotate_surface. f_equal; [apply map_ext; exact RT|apply map_ext; intros y; apply map_ext; exact RT].
    - unfold rotate_bar. rewrite RT. reflexivity. }
  assert (RR : forall x y, (forall p, rot x p = rot y p) -> rotate_data x = rotate_data y).
  { intros x y H. unfold rotate_data. extensionality s. f_equal. f_equal. unfold option_map. destruct (st_data s); [|reflexivity]. f_equal. apply map_ext. intros gr.
    unfold rotate_group. f_equal. apply map_ext. intros f. unfold rotate_fibre. rewrite H. reflexivity. }
  unfold bending_strength. rewrite RG, (RR _ _ RT), (RR _ _ RT2), C, S'. reflexivity.
Qed.
(** Curvature after curvature is solved. *)
Lemma points_solved laws mesher h n d : (forall k, batched (laws k)) -> d <> [] -> forall cs e s,
  st_data s = Some d -> grid 0 (1/1000) e -> -262 <= e <= 262 ->
  (forall c, In c cs -> let N x := axial (group_fibres laws d) x c 0 in
     nondecreasing N /\ (exists L, lipschitz L N /\ L <= 10 ^ 24) /\ (forall x, grid 0 (1/1000) x -> N x <> n) /\ N (-262) < n - 1/100 /\ n + 1/100 < N 262) ->
  exists pts, curvature_points (fiber_integ laws mesher) h n cs e s = (Ok pts, s).
Proof.
  intros B NE. induction cs as [|c cs IH]; intros e s SD G EB HC; cbn [curvature_points].
  - eexists. reflexivity.
  - destruct (HC c (or_introl eq_refl)) as (MO & (L & LP & LB) & NG & LO & HI). cbv beta zeta in *.
    assert (GG : forall x, grid e (1/1000) x -> axial (group_fibres laws d) x c 0 <> n).
    { intros y Y. apply NG. exact (grid_within e _ G Y). }
    destruct (solve_curvature_finds (fun x => Ok (axial (group_fibres laws d) x c 0)) (fun x => axial (group_fibres laws d) x c 0) n e L) as (e1 & SC);
      [intros x; reflexivity|exact MO|exact LP|exact LB|exact GG| |].
    { assert (P19 : 1/1000 * 2 ^ 19 = 524288/1000) by (cbn [pow]; lra). rewrite P19. split.
      - apply Rle_lt_trans with (axial (group_fibres laws d) (-262) c 0); [apply MO; lra|lra].
      - apply Rlt_le_trans with (axial (group_fibres laws d) 262 c 0); [lra|apply MO; lra]. }
    pose proof (curvature_data laws mesher h n c e s d B NE SD) as CD. cbv beta zeta in CD. rewrite SC in CD. cbn [rmap] in CD.
    assert (G1 : grid 0 (1/1000) e1 /\ balances n (axial (group_fibres laws d) e1 c 0)).
    { split; [|apply (solve_curvature_sound (fun x => Ok (axial (group_fibres laws d) x c 0)) (fun x => axial (group_fibres laws d) x c 0) n e e1); [intros x; reflexivity|exact MO|exact GG|exact SC]].
      exact (solve_curvature_grid _ _ _ _ SC G). }
    destruct G1 as (G1 & B1). unfold balances in B1. assert (B1' : n - 1/100 <= axial (group_fibres laws d) e1 c 0 <= n + 1/100) by (revert B1; unfold Rabs; destruct (Rcase_abs _); intros; lra). clear B1.
    destruct (IH e1 s SD G1) as (pts & P).
    { split.
      - destruct (Rle_lt_dec (-262) e1) as [|X]; [assumption|]. exfalso. pose proof (MO e1 (-262) ltac:(lra)). cbv beta in *. lra.
      - destruct (Rle_lt_dec e1 262) as [|X]; [assumption|]. exfalso. pose proof (MO 262 e1 ltac:(lra)). cbv beta in *. lra. }
    { intros c' HC'. apply HC. now right. }
    unfold abind. rewrite CD, (forces_n_data laws mesher h _ d _ s B NE SD). change (p_e0 (e1, c, 0)) with e1. rewrite P. eexists. reflexivity.
Qed.
