From Coquelicot Require Import Coquelicot.
From Verif Require Import Base M_Marin S_Marin L_Marin M_Laws S_Laws L_Laws M_Laws2 S_Laws2 M_Fiber S_Fiber L_Fiber M_MarinInt S_MarinInt L_MarinInt L_MarinInt2.

(** * Sums over the bars *)
Lemma bars_turned laws what a r e0 ky kz (bs : list bar) (h : R -> R -> R) :
  a = - atan2 kz ky -> r = sqrt (kz ^ 2 + ky ^ 2) ->
  lsum (map (fun b => pick what (laws (br_law b)) (e0 + r * br_z b) * br_area b
                      * h (back_y a (br_y b) (br_z b)) (back_z a (br_y b) (br_z b))) (map (rotate_bar a) bs)) =
  lsum (map (fun b => pick what (laws (br_law b)) (plane_strain e0 ky kz (br_y b) (br_z b)) * br_area b
                      * h (br_y b) (br_z b)) bs).
Proof.
  intros -> ->. rewrite map_map. apply lsum_map_ext. intros b _. unfold rotate_bar.
  destruct (rot_back (- atan2 kz ky) (br_y b, br_z b)) as [H1 H2]. cbn [fst snd] in H1, H2.
  pose proof (rotated_strain e0 ky kz (fst (rot (- atan2 kz ky) (br_y b, br_z b))) (snd (rot (- atan2 kz ky) (br_y b, br_z b)))) as RS.
  cbv zeta in RS. cbn [br_y br_z br_area br_law]. rewrite H1, H2 in *. rewrite RS. reflexivity.
Qed.

Definition barpart laws what e0 ky kz bs (h : R -> R -> R) : R :=
  lsum (map (fun b => pick what (laws (br_law b)) (plane_strain e0 ky kz (br_y b) (br_z b)) * br_area b
                      * h (br_y b) (br_z b)) bs).

Section Core.
Variables (laws : nat -> law) (what : integrand) (fs : nat -> R -> R) (g : compound) (e0 ky kz : R).
Let a := - atan2 kz ky.
Let r := sqrt (kz ^ 2 + ky ^ 2).
Hypothesis B : forall k, batched (laws k).
Hypothesis W : what <> IOther.
Hypothesis G : forall s, In s (cg_surf g) -> field_of (ask what (laws (sf_law s)) (e0, r)) (fs (sf_law s)) e0 r /\
    closed (sf_ext s) /\ (forall q, In q (sf_ints s) -> closed q).
Hypothesis Q : forall b b', In b (cg_bars g) -> In b' (cg_bars g) ->
  count_law (br_law b) (cg_bars g) = count_law (br_law b') (cg_bars g).

Lemma closed_map (f : R * R -> R * R) l : closed l -> closed (map f l).
Proof.
  assert (LM : forall l d, last (map f l) (f d) = f (last l d)).
  { clear. induction l as [|x [|y l0] IH]; intros d; try reflexivity. exact (IH d). }
  destruct l as [|p l]; [trivial|]. unfold closed. intros H.
  change (last (map f (p :: l)) (f p) = f p). rewrite LM, H. reflexivity.
Qed.
Lemma good_turned : good_surfaces laws what fs e0 r (map (rotate_surface a) (cg_surf g)).
Proof.
  intros s I. apply in_map_iff in I. destruct I as (s' & <- & I). destruct (G s' I) as (F & C1 & C2).
  cbn [rotate_surface sf_law sf_ext sf_ints]. split; [exact F|]. split; [now apply closed_map|].
  intros q J. apply in_map_iff in J. destruct J as (q' & <- & J). apply closed_map. auto.
Qed.
Lemma prep_ok : exists es bs gs, m_prepare laws g (e0, ky, kz) what None = Ok (a, es, bs, gs) /\
  gs = bar_groups (map (rotate_bar a) (cg_bars g)) /\
  (forall m off, lsum (map (fun e => coeff_sum e m off) es) = jsum m off fs e0 r (map (rotate_surface a) (cg_surf g))) /\
  (forall h, lsum (map h bs) =
    lsum (map (fun b => h (br_y b, br_z b, pick what (laws (br_law b)) (e0 + r * br_z b) * br_area b)) (map (rotate_bar a) (cg_bars g)))).
Proof.
  destruct (surfaces_entries_ok laws what fs e0 r _ W good_turned) as (es & E & J).
  exists es. eexists. exists (bar_groups (map (rotate_bar a) (cg_bars g))).
  unfold m_prepare, p_e0, p_ky, p_kz. cbn [fst snd]. fold a r. rewrite E. cbn [bind fst snd].
  rewrite (bars_entries_ok laws what e0 r _ B W). cbn [bind].
  rewrite (homogeneous_rotate a (cg_bars g) Q). split; [reflexivity|]. split; [reflexivity|]. split; [exact J|].
  intros h. apply bars_sum.
Qed.
Lemma turned_list ss : map (rotate_surface a) ss = map (turned a) ss.
Proof. apply map_ext. intros. apply rotate_surface_turned. Qed.
Lemma surfaces_turned_quad wt ca cb cc cd ce cf :
  (forall y z, wt (back_y a y z) (back_z a y z) = quadratic ca cb cc cd ce cf y z) ->
  surfaces_turned fs wt a e0 ky kz (cg_surf g) =
  let J m n := jsum m n fs e0 r (map (rotate_surface a) (cg_surf g)) in
  ca * J 0%nat 0%nat + cb * J 1%nat 0%nat + cc * J 0%nat 1%nat + cd * J 2%nat 0%nat + ce * J 1%nat 1%nat + cf * J 0%nat 2%nat.
Proof.
  intros HW. cbv zeta. unfold surfaces_turned.
  rewrite <- (surfaces_integral laws what fs e0 r _ ca cb cc cd ce cf
    (fun s y' z' => fs (sf_law s) (plane_strain e0 ky kz (back_y a y' z') (back_z a y' z')) * wt (back_y a y' z') (back_z a y' z')) W good_turned).
  - rewrite map_map. apply lsum_map_ext. intros s _. reflexivity.
  - intros s y z. rewrite HW. pose proof (rotated_strain e0 ky kz y z) as RS. cbv zeta in RS. fold a r in RS. rewrite RS. reflexivity.
Qed.
Lemma bars_h h : forall H : R * R * R -> R,
  (forall y z v, H (y, z, v) = v * h (back_y a y z) (back_z a y z)) ->
  lsum (map (fun b => H (br_y b, br_z b, pick what (laws (br_law b)) (e0 + r * br_z b) * br_area b)) (map (rotate_bar a) (cg_bars g)))
  = barpart laws what e0 ky kz (cg_bars g) h.
Proof.
  intros H HH. unfold barpart. rewrite <- (bars_turned laws what a r e0 ky kz _ h eq_refl eq_refl).
  apply lsum_map_ext. intros b _. rewrite HH. reflexivity.
Qed.
End Core.

Ltac arm_tac := intros; cbv [arm back_y back_z quadratic fst snd]; ring.

Lemma forces_core laws fs g e0 ky kz : let a := - atan2 kz ky in let r := sqrt (kz ^ 2 + ky ^ 2) in
  (forall k, batched (laws k)) ->
  (forall s, In s (cg_surf g) -> field_of (lw_marin (laws (sf_law s)) (e0, r)) (fs (sf_law s)) e0 r /\
    closed (sf_ext s) /\ (forall q, In q (sf_ints s) -> closed q)) ->
  (forall b b', In b (cg_bars g) -> In b' (cg_bars g) ->
    count_law (br_law b) (cg_bars g) = count_law (br_law b') (cg_bars g)) ->
  marin_forces laws g (e0, ky, kz) None = Ok
    ((surfaces_turned fs (arm 0) a e0 ky kz (cg_surf g) + barpart laws IStress e0 ky kz (cg_bars g) (arm 0),
      surfaces_turned fs (arm 1) a e0 ky kz (cg_surf g) + barpart laws IStress e0 ky kz (cg_bars g) (arm 1),
      surfaces_turned fs (arm 2) a e0 ky kz (cg_surf g) + barpart laws IStress e0 ky kz (cg_bars g) (arm 2)),
     map (rotate_group (- a)) (bar_groups (map (rotate_bar a) (cg_bars g)))).
Proof.
  intros a r B G Q. assert (W : IStress <> IOther) by discriminate.
  destruct (prep_ok laws IStress fs g e0 ky kz B W G Q) as (es & bs & gs & E & -> & J & H).
  fold a r in E, J, H |- *. unfold marin_forces. rewrite E. cbn [bind]. f_equal. f_equal. unfold m_integrate_stress. fold a. rewrite !J, !H.
  pose proof (surfaces_turned_quad laws IStress fs g e0 ky kz W G (arm 0) 1 0 0 0 0 0 ltac:(arm_tac)) as S0.
  pose proof (surfaces_turned_quad laws IStress fs g e0 ky kz W G (arm 1) 0 (- sin a) (cos a) 0 0 0 ltac:(fold a; arm_tac)) as S1.
  pose proof (surfaces_turned_quad laws IStress fs g e0 ky kz W G (arm 2) 0 (- cos a) (- sin a) 0 0 0 ltac:(fold a; arm_tac)) as S2.
  fold a r in S0, S1, S2. cbv zeta in S0, S1, S2. rewrite S0, S1, S2, cos_neg, sin_neg.
  pose proof (bars_h laws IStress g e0 ky kz (arm 0) (fun b => snd b) ltac:(arm_tac)) as B0. fold a r in B0.
  pose proof (bars_h laws IStress g e0 ky kz (fun y z => cos a * z + sin a * y) (fun b => snd b * snd (fst b))) as BZ. fold a r in BZ.
  pose proof (bars_h laws IStress g e0 ky kz (fun y z => cos a * y - sin a * z) (fun b => snd b * fst (fst b))) as BY. fold a r in BY.
  rewrite B0, BZ, BY.
  - assert (LC : forall x y : R, x * barpart laws IStress e0 ky kz (cg_bars g) (fun y z => cos a * z + sin a * y)
       + y * barpart laws IStress e0 ky kz (cg_bars g) (fun y z => cos a * y - sin a * z) =
       barpart laws IStress e0 ky kz (cg_bars g) (fun y' z' => x * (cos a * z' + sin a * y') + y * (cos a * y' - sin a * z'))).
    { intros. unfold barpart. rewrite <- !lsum_map_scal, <- lsum_map_plus. apply lsum_map_ext. intros. ring. }
    assert (T : sin a * sin a = 1 - cos a * cos a) by (pose proof (sin2_cos2 a) as T; unfold Rsqr in T; lra).
    pose proof (LC (cos a) (- sin a)) as L1. pose proof (LC (- sin a) (- cos a)) as L2.
    assert (X1 : barpart laws IStress e0 ky kz (cg_bars g) (fun y' z' => cos a * (cos a * z' + sin a * y') + - sin a * (cos a * y' - sin a * z')) =
       barpart laws IStress e0 ky kz (cg_bars g) (arm 1)).
    { unfold barpart. apply lsum_map_ext. intros. f_equal. unfold arm.
      transitivity (cos a * cos a * br_z x + (sin a * sin a) * br_z x); [ring|rewrite T; ring]. }
    assert (X2 : barpart laws IStress e0 ky kz (cg_bars g) (fun y' z' => - sin a * (cos a * z' + sin a * y') + - cos a * (cos a * y' - sin a * z')) =
       barpart laws IStress e0 ky kz (cg_bars g) (arm 2)).
    { unfold barpart. apply lsum_map_ext. intros. f_equal. unfold arm.
      transitivity (- (cos a * cos a * br_y x) - (sin a * sin a) * br_y x); [ring|rewrite T; ring]. }
    rewrite X1 in L1. rewrite X2 in L2. rewrite <- L1, <- L2. f_equal; [f_equal|]; ring.
  - intros y z v. fold a. cbn [fst snd]. unfold back_y, back_z. f_equal.
    assert (T : sin a * sin a = 1 - cos a * cos a) by (pose proof (sin2_cos2 a) as T; unfold Rsqr in T; lra).
    transitivity (cos a * cos a * y + (sin a * sin a) * y); [rewrite T; ring|ring].
  - intros y z v. fold a. cbn [fst snd]. unfold back_y, back_z. f_equal.
    assert (T : sin a * sin a = 1 - cos a * cos a) by (pose proof (sin2_cos2 a) as T; unfold Rsqr in T; lra).
    transitivity (cos a * cos a * z + (sin a * sin a) * z); [rewrite T; ring|ring].
Qed.

Definition bq laws what e0 r (bs : list bar) (m n : nat) : R :=
  lsum (map (fun b => pick what (laws (br_law b)) (e0 + r * br_z b) * br_area b * (br_y b ^ m * br_z b ^ n)) bs).
Lemma barpart_quad laws what e0 ky kz bs wt ca cb cc cd ce cf : let a := - atan2 kz ky in let r := sqrt (kz ^ 2 + ky ^ 2) in
  (forall y z, wt (back_y a y z) (back_z a y z) = quadratic ca cb cc cd ce cf y z) ->
  barpart laws what e0 ky kz bs wt =
  let J := bq laws what e0 r (map (rotate_bar a) bs) in
  ca * J 0%nat 0%nat + cb * J 1%nat 0%nat + cc * J 0%nat 1%nat + cd * J 2%nat 0%nat + ce * J 1%nat 1%nat + cf * J 0%nat 2%nat.
Proof.
  intros a r HW. cbv zeta. unfold barpart. rewrite <- (bars_turned laws what a r e0 ky kz bs wt eq_refl eq_refl).
  unfold bq. rewrite <- !lsum_map_scal, <- !lsum_map_plus. apply lsum_map_ext. intros b _. rewrite HW. unfold quadratic. ring.
Qed.

Lemma stiffness_core laws fs g e0 ky kz : let a := - atan2 kz ky in let r := sqrt (kz ^ 2 + ky ^ 2) in
  (forall k, batched (laws k)) ->
  (forall s, In s (cg_surf g) -> field_of (lw_marin_tangent (laws (sf_law s)) (e0, r)) (fs (sf_law s)) e0 r /\
    closed (sf_ext s) /\ (forall q, In q (sf_ints s) -> closed q)) ->
  (forall b b', In b (cg_bars g) -> In b' (cg_bars g) ->
    count_law (br_law b) (cg_bars g) = count_law (br_law b') (cg_bars g)) ->
  exists K, marin_stiffness laws g (e0, ky, kz) None = Ok (K, map (rotate_group (- a)) (bar_groups (map (rotate_bar a) (cg_bars g)))) /\
   forall i j, (i < 3)%nat -> (j < 3)%nat ->
     K i j = surfaces_turned fs (fun y z => arm i y z * arm j y z) a e0 ky kz (cg_surf g)
             + barpart laws IModulus e0 ky kz (cg_bars g) (fun y z => arm i y z * arm j y z).
Proof.
  intros a r B G Q. assert (W : IModulus <> IOther) by discriminate.
  destruct (prep_ok laws IModulus fs g e0 ky kz B W G Q) as (es & bs & gs & E & -> & J & H).
  fold a r in E, J, H |- *. unfold marin_stiffness. rewrite E. cbn [bind]. eexists. split; [reflexivity|].
  assert (H' : forall m n (h : R * R * R -> R), (forall b, h b = snd b * (fst (fst b) ^ m * snd (fst b) ^ n)) ->
     lsum (map h bs) = bq laws IModulus e0 r (map (rotate_bar a) (cg_bars g)) m n).
  { intros m n h Hh. rewrite H. unfold bq. apply lsum_map_ext. intros b _. rewrite Hh. reflexivity. }
  assert (X : forall wt ca cb cc cd ce cf,
    (forall y z, wt (back_y a y z) (back_z a y z) = quadratic ca cb cc cd ce cf y z) ->
    surfaces_turned fs wt a e0 ky kz (cg_surf g) + barpart laws IModulus e0 ky kz (cg_bars g) wt =
    let J m n := jsum m n fs e0 r (map (rotate_surface a) (cg_surf g)) + bq laws IModulus e0 r (map (rotate_bar a) (cg_bars g)) m n in
    ca * J 0%nat 0%nat + cb * J 1%nat 0%nat + cc * J 0%nat 1%nat + cd * J 2%nat 0%nat + ce * J 1%nat 1%nat + cf * J 0%nat 2%nat).
  { intros wt ca cb cc cd ce cf HW. 
    pose proof (surfaces_turned_quad laws IModulus fs g e0 ky kz W G wt ca cb cc cd ce cf HW) as S0.
    pose proof (barpart_quad laws IModulus e0 ky kz (cg_bars g) wt ca cb cc cd ce cf HW) as S1.
    fold a r in S0, S1. cbv zeta in *. rewrite S0, S1. ring. }
  cbv zeta in X.
  assert (MS : forall i j, m_stiff_rot es bs i j =
    let J m n := jsum m n fs e0 r (map (rotate_surface a) (cg_surf g)) + bq laws IModulus e0 r (map (rotate_bar a) (cg_bars g)) m n in
    match i, j with
    | 0%nat, 0%nat => J 0%nat 0%nat | 0%nat, 1%nat | 1%nat, 0%nat => J 0%nat 1%nat
    | 0%nat, 2%nat | 2%nat, 0%nat => - J 1%nat 0%nat | 1%nat, 1%nat => J 0%nat 2%nat
    | 1%nat, 2%nat | 2%nat, 1%nat => - J 1%nat 1%nat | 2%nat, 2%nat => J 2%nat 0%nat | _, _ => 0 end).
  { intros i j. cbv zeta. unfold m_stiff_rot. rewrite !J.
    rewrite (H' 0%nat 0%nat (fun b => snd b)) by (intros; ring).
    rewrite (H' 0%nat 1%nat (fun b => snd b * snd (fst b))) by (intros; ring).
    rewrite (H' 1%nat 0%nat (fun b => snd b * fst (fst b))) by (intros; ring).
    rewrite (H' 0%nat 2%nat (fun b => snd b * snd (fst b) * snd (fst b))) by (intros; ring).
    rewrite (H' 1%nat 1%nat (fun b => snd b * fst (fst b) * snd (fst b))) by (intros; ring).
    rewrite (H' 2%nat 0%nat (fun b => snd b * fst (fst b) * fst (fst b))) by (intros; ring).
    destruct i as [|[|[|i]]], j as [|[|[|j]]]; try reflexivity; ring. }
  clear J H H' E.
  intros i j Hi Hj. unfold m_integrate_modulus, mmul, mtr. rewrite !MS. cbv zeta. clear MS.
  assert (Ha : exists c s, c = cos a /\ s = sin a) by (do 2 eexists; split; reflexivity). destruct Ha as (c & s & Hc & Hs).
  destruct i as [|[|[|i]]]; [| | |lia]; (destruct j as [|[|[|j]]]; [| | |lia]); cbn [m_T]; rewrite ?cos_neg, ?sin_neg; rewrite <- ?Hc, <- ?Hs; assert (X' := X); unfold back_y, back_z in X'; rewrite <- Hc, <- Hs in X'.
  - rewrite (X' _ 1 0 0 0 0 0) by arm_tac. ring.
  - rewrite (X' _ 0 (- s) c 0 0 0) by arm_tac. ring.
  - rewrite (X' _ 0 (- c) (- s) 0 0 0) by arm_tac. ring.
  - rewrite (X' _ 0 (- s) c 0 0 0) by arm_tac. ring.
  - rewrite (X' _ 0 0 0 (s * s) (- 2 * s * c) (c * c)) by arm_tac. ring.
  - rewrite (X' _ 0 0 0 (s * c) (s * s - c * c) (- s * c)) by arm_tac. ring.
  - rewrite (X' _ 0 (- c) (- s) 0 0 0) by arm_tac. ring.
  - rewrite (X' _ 0 0 0 (s * c) (s * s - c * c) (- s * c)) by arm_tac. ring.
  - rewrite (X' _ 0 0 0 (c * c) (2 * s * c) (s * s)) by arm_tac. ring.
Qed.

(** * Integration data *)
Lemma map_add_bar (h : fibre -> fibre) d k f :
  map (fun kf => (fst kf, map h (snd kf))) (add_bar d k f) = add_bar (map (fun kf => (fst kf, map h (snd kf))) d) k (h f).
Proof.
  induction d as [|[k' l] d IH]; cbn; [reflexivity|]. destruct (k' =? k)%nat; cbn; [now rewrite map_app|now rewrite IH].
Qed.
Lemma group_bars_rotate a bs : group_bars (map (rotate_bar a) bs) =
  map (fun kf => (fst kf, map (rotate_fibre a) (snd kf))) (group_bars bs).
Proof.
  assert (GE : forall bs d, fold_left (fun d b => add_bar d (br_law b) (fibre_of_bar b)) (map (rotate_bar a) bs)
      (map (fun kf => (fst kf, map (rotate_fibre a) (snd kf))) d) =
    map (fun kf => (fst kf, map (rotate_fibre a) (snd kf))) (fold_left (fun d b => add_bar d (br_law b) (fibre_of_bar b)) bs d)).
  { clear. induction bs as [|b bs IH]; intros d; [reflexivity|].
    cbn [map fold_left]. rewrite <- IH. f_equal. rewrite map_add_bar. reflexivity. }
  exact (GE bs []).
Qed.
Definition unscalar (g : group) : group := {| gr_fibres := gr_fibres g; gr_scalar := false; gr_law := gr_law g |}.
Lemma unscalar_groups a bs : map unscalar (bar_groups (map (rotate_bar a) bs)) = map (rotate_group a) (bar_groups bs).
Proof.
  unfold bar_groups. rewrite group_bars_rotate, !map_map. apply map_ext. intros [k l]. reflexivity.
Qed.
Lemma rotate_fibre_back a f : rotate_fibre (- a) (rotate_fibre a f) = f.
Proof.
  destruct f as [y z ar]. unfold rotate_fibre. cbn [fb_y fb_z fb_a]. rewrite <- surjective_pairing, rot_rot. reflexivity.
Qed.
Lemma rotate_group_back a g : rotate_group (- a) (rotate_group a g) = unscalar g.
Proof.
  unfold rotate_group, unscalar. cbn [gr_fibres gr_law]. rewrite map_map.
  rewrite (map_ext _ (fun x => x)) by (intros; apply rotate_fibre_back). now rewrite map_id.
Qed.
Lemma rotate_unscalar a g : rotate_group a (unscalar g) = rotate_group a g.
Proof. reflexivity. Qed.
Lemma returned_data a bs : map (rotate_group (- a)) (bar_groups (map (rotate_bar a) bs)) = map unscalar (bar_groups bs).
Proof.
  rewrite (map_ext _ _ (fun g => eq_sym (rotate_unscalar (- a) g))), <- (map_map unscalar (rotate_group (- a))), unscalar_groups, map_map.
  apply map_ext. intros. apply rotate_group_back.
Qed.
Lemma reused_data a bs : map (rotate_group a) (map unscalar (bar_groups bs)) = map unscalar (bar_groups (map (rotate_bar a) bs)).
Proof. rewrite unscalar_groups, map_map. apply map_ext. intros. reflexivity. Qed.
Lemma bars_entries_unscalar laws what e0 e1 gs : (forall k, batched (laws k)) -> what <> IOther ->
  bars_entries laws what e0 e1 (map unscalar gs) = bars_entries laws what e0 e1 gs.
Proof.
  intros B W. rewrite !bars_entries_ok by assumption. f_equal. induction gs as [|g gs IH]; cbn; [reflexivity|now rewrite IH].
Qed.
Lemma homogeneous_unscalar gs : homogeneous (map unscalar gs) = homogeneous gs.
Proof.
  destruct gs as [|g gs]; [reflexivity|]. cbn [map homogeneous unscalar gr_fibres].
  induction gs as [|h gs IH]; [reflexivity|]. cbn [map forallb unscalar gr_fibres]. now rewrite IH.
Qed.
Lemma prep_reuse laws g p what : (forall k, batched (laws k)) -> what <> IOther ->
  m_prepare laws g p what (Some (map unscalar (bar_groups (cg_bars g)))) =
  rmap (fun x => let '(a, es, bs, gs) := x in (a, es, bs, map unscalar gs)) (m_prepare laws g p what None).
Proof.
  intros B W. unfold m_prepare. destruct (surfaces_entries _ _ _ _ _) as [x|e]; [|reflexivity]. cbn [bind].
  rewrite reused_data, bars_entries_unscalar, homogeneous_unscalar by assumption.
  destruct (bars_entries _ _ _ _ _); [|reflexivity]. cbn [bind]. destruct (homogeneous _); reflexivity.
Qed.
Lemma forces_reuse laws g p : (forall k, batched (laws k)) ->
  marin_forces laws g p (Some (map unscalar (bar_groups (cg_bars g)))) = marin_forces laws g p None.
Proof.
  intros B. unfold marin_forces. rewrite prep_reuse by (assumption || discriminate).
  destruct (m_prepare _ _ _ _ _) as [[[[a es] bs] gs]|e]; [|reflexivity]. cbn. rewrite map_map. reflexivity.
Qed.
Lemma stiffness_reuse laws g p : (forall k, batched (laws k)) ->
  marin_stiffness laws g p (Some (map unscalar (bar_groups (cg_bars g)))) = marin_stiffness laws g p None.
Proof.
  intros B. unfold marin_stiffness. rewrite prep_reuse by (assumption || discriminate).
  destruct (m_prepare _ _ _ _ _) as [[[[a es] bs] gs]|e]; [|reflexivity]. cbn. rewrite map_map. reflexivity.
Qed.
Lemma forces_data laws g p F d : marin_forces laws g p None = Ok (F, d) -> d = map unscalar (bar_groups (cg_bars g)).
Proof.
  unfold marin_forces, m_prepare. destruct (surfaces_entries _ _ _ _ _) as [x|e]; [|discriminate]. cbn [bind].
  destruct (bars_entries _ _ _ _ _); [|discriminate]. cbn [bind]. destruct (homogeneous _); [|discriminate]. cbn [bind].
  intros [= _ <-]. apply returned_data.
Qed.
Lemma stiffness_data laws g p F d : marin_stiffness laws g p None = Ok (F, d) -> d = map unscalar (bar_groups (cg_bars g)).
Proof.
  unfold marin_stiffness, m_prepare. destruct (surfaces_entries _ _ _ _ _) as [x|e]; [|discriminate]. cbn [bind].
  destruct (bars_entries _ _ _ _ _); [|discriminate]. cbn [bind]. destruct (homogeneous _); [|discriminate]. cbn [bind].
  intros [= _ <-]. apply returned_data.
Qed.
