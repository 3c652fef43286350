From Verif Require Import Base M_Marin S_Marin L_Marin M_Laws M_Laws2 S_Laws M_Fiber S_Fiber L_Fiber M_MarinInt S_MarinInt L_MarinInt L_MarinInt2 L_MarinInt3 L_MarinInt4 M_Section M_Gross S_Gross P_Fiber P_MarinInt.
From Coq Require Import Lra Lia.

(** * Area moments of surfaces *)
Definition SM (i j : nat) (s : surface) : R :=
  fan_moment i j (ccw_ring (sf_ext s)) + lsum (map (fun r => fan_moment i j (cw_ring r)) (sf_ints s)).
Lemma ccw_closed r : closed r -> closed (ccw_ring r).
Proof. intros C. unfold ccw_ring. destruct (Rlt_dec _ _); [|exact C]. now apply closed_rev. Qed.
Lemma cw_closed r : closed r -> closed (cw_ring r).
Proof. intros C. unfold cw_ring. destruct (Rlt_dec _ _); [|exact C]. now apply closed_rev. Qed.
Definition okay (s : surface) : Prop := closed (sf_ext s) /\ (forall r, In r (sf_ints s) -> closed r).
Lemma surf_poly phi ca cb cc cd ce cf s : okay s ->
  (forall y z, phi y z = ca + cb * y + cc * z + cd * y ^ 2 + ce * y * z + cf * z ^ 2) ->
  surface_integral phi s = ca * SM 0 0 s + cb * SM 1 0 s + cc * SM 0 1 s + cd * SM 2 0 s + ce * SM 1 1 s + cf * SM 0 2 s.
Proof.
  intros [CE CI] HP.
  assert (HR : forall r, closed r -> region_integral phi r = ca * fan_moment 0 0 r + cb * fan_moment 1 0 r + cc * fan_moment 0 1 r
    + cd * fan_moment 2 0 r + ce * fan_moment 1 1 r + cf * fan_moment 0 2 r).
  { intros r Hr. rewrite <- (C21_spec_is_area_moments ca cb cc cd ce cf r Hr). apply region_ext. intros. apply HP. }
  unfold surface_integral, SM. rewrite HR by (now apply ccw_closed).
  assert (RI : lsum (map (fun r => region_integral phi (cw_ring r)) (sf_ints s)) =
     lsum (map (fun r => ca * fan_moment 0 0 (cw_ring r) + cb * fan_moment 1 0 (cw_ring r) + cc * fan_moment 0 1 (cw_ring r)
    + cd * fan_moment 2 0 (cw_ring r) + ce * fan_moment 1 1 (cw_ring r) + cf * fan_moment 0 2 (cw_ring r)) (sf_ints s))).
  { apply lsum_map_ext. intros r I. apply HR, cw_closed, CI, I. }
  rewrite RI. clear RI HR. generalize (sf_ints s). intros l.
  assert (L : forall l : list (list (R * R)), lsum (map (fun r => ca * fan_moment 0 0 (cw_ring r) + cb * fan_moment 1 0 (cw_ring r) + cc * fan_moment 0 1 (cw_ring r)
    + cd * fan_moment 2 0 (cw_ring r) + ce * fan_moment 1 1 (cw_ring r) + cf * fan_moment 0 2 (cw_ring r)) l) =
    ca * lsum (map (fun r => fan_moment 0 0 (cw_ring r)) l) + cb * lsum (map (fun r => fan_moment 1 0 (cw_ring r)) l) + cc * lsum (map (fun r => fan_moment 0 1 (cw_ring r)) l)
    + cd * lsum (map (fun r => fan_moment 2 0 (cw_ring r)) l) + ce * lsum (map (fun r => fan_moment 1 1 (cw_ring r)) l) + cf * lsum (map (fun r => fan_moment 0 2 (cw_ring r)) l)).
  { clear. induction l as [|r l IH]; cbn [map]; rewrite ?lsum_nil, ?lsum_cons; [ring|]. rewrite IH. ring. }
  rewrite L. ring.
Qed.
Lemma surf_area s : okay s -> surface_area s = SM 0 0 s.
Proof.
  intros [CE CI]. unfold surface_area, SM. rewrite shoe_shoelace, fan_area.
  assert (E : Rabs (shoelace (sf_ext s)) = shoelace (ccw_ring (sf_ext s))).
  { unfold ccw_ring. destruct (Rlt_dec _ _) as [H|H].
    - rewrite Rabs_left by exact H. rewrite <- !fan_area, fan_rev. reflexivity.
    - apply Rabs_pos_eq. lra. }
  rewrite E. unfold Rminus. f_equal. rewrite <- lsum_map_opp. apply lsum_map_ext. intros r _. rewrite shoe_shoelace, fan_area.
  unfold cw_ring. destruct (Rlt_dec _ _) as [H|H].
  - rewrite Rabs_pos_eq by lra. rewrite <- !fan_area, fan_rev. reflexivity.
  - rewrite Rabs_left1 by lra. ring.
Qed.
Lemma move_shift u v p : move u v p = shift u v p.
Proof. reflexivity. Qed.
Lemma fan_move m n u v r : closed r -> fan_moment m n (map (move u v) r) =
  rsum (fun i => rsum (fun j => C m i * u ^ (m - i) * (C n j * v ^ (n - j)) * fan_moment i j r) (n + 1)) (m + 1).
Proof. exact (fan_shift_closed m n u v r). Qed.
Lemma C_vals : C 0 0 = 1 /\ C 1 0 = 1 /\ C 1 1 = 1 /\ C 2 0 = 1 /\ C 2 1 = 2 /\ C 2 2 = 1.
Proof. unfold C. cbn. repeat split; field. Qed.
Lemma shoelace_move u v r : closed r -> shoelace (map (move u v) r) = shoelace r.
Proof. intros Hc. rewrite <- !fan_area, (fan_move 0 0 u v r Hc). cbn [rsum Nat.add Nat.sub pow]. destruct C_vals as (-> & _). ring. Qed.
Lemma ccw_move u v r : closed r -> ccw_ring (map (move u v) r) = map (move u v) (ccw_ring r).
Proof. intros Hc. unfold ccw_ring. rewrite (shoelace_move u v r Hc). destruct (Rlt_dec _ _); [|reflexivity]. now rewrite map_rev. Qed.
Lemma cw_move u v r : closed r -> cw_ring (map (move u v) r) = map (move u v) (cw_ring r).
Proof. intros Hc. unfold cw_ring. rewrite (shoelace_move u v r Hc). destruct (Rlt_dec _ _); [|reflexivity]. now rewrite map_rev. Qed.
Lemma okay_move u v s : okay s -> okay (translate_surface u v s).
Proof.
  intros [CE CI]. split; cbn [translate_surface sf_ext sf_ints]; [now apply L_Marin.closed_map|].
  intros r I. apply in_map_iff in I. destruct I as (q & <- & I). apply L_Marin.closed_map, CI, I.
Qed.
Lemma SM_move u v s : okay s -> let t := translate_surface u v s in
  SM 0 0 t = SM 0 0 s /\ SM 1 0 t = SM 1 0 s + u * SM 0 0 s /\ SM 0 1 t = SM 0 1 s + v * SM 0 0 s /\
  SM 2 0 t = SM 2 0 s + 2 * u * SM 1 0 s + u ^ 2 * SM 0 0 s /\
  SM 1 1 t = SM 1 1 s + u * SM 0 1 s + v * SM 1 0 s + u * v * SM 0 0 s /\
  SM 0 2 t = SM 0 2 s + 2 * v * SM 0 1 s + v ^ 2 * SM 0 0 s.
Proof.
  intros [CE CI] t. unfold t, SM. cbn [translate_surface sf_ext sf_ints]. rewrite ccw_move by exact CE.
  pose proof (ccw_closed _ CE) as CC. set (r := ccw_ring (sf_ext s)) in *. clearbody r.
  assert (MI : forall m n, lsum (map (fun r0 => fan_moment m n (cw_ring r0)) (map (map (move u v)) (sf_ints s))) =
    lsum (map (fun r0 => fan_moment m n (map (move u v) (cw_ring r0))) (sf_ints s))).
  { intros m n. rewrite map_map. apply lsum_map_ext. intros q I. rewrite cw_move by (apply CI, I). reflexivity. }
  rewrite !MI. clear MI.
  assert (ML : forall m n, lsum (map (fun r0 => fan_moment m n (map (move u v) (cw_ring r0))) (sf_ints s)) =
    rsum (fun i => rsum (fun j => C m i * u ^ (m - i) * (C n j * v ^ (n - j)) * lsum (map (fun r0 => fan_moment i j (cw_ring r0)) (sf_ints s))) (n + 1)) (m + 1)).
  { intros m n. revert CI. generalize (sf_ints s). induction l as [|q l IH]; intros CI.
    - cbn [map]. rewrite lsum_nil. symmetry. apply rsum_0. intros. apply rsum_0. intros. rewrite ?lsum_nil. ring.
    - cbn [map]. rewrite lsum_cons, (IH (fun r0 I => CI r0 (or_intror I))), fan_move by (apply cw_closed, CI; now left).
      rewrite <- rsum_plus. apply rsum_ext. intros i _. rewrite <- rsum_plus. apply rsum_ext. intros j _. rewrite lsum_cons. ring. }
  rewrite !ML. rewrite !(fan_move _ _ u v r CC). cbn [rsum Nat.add Nat.sub pow]. destruct C_vals as (-> & -> & -> & -> & -> & ->).
  repeat split; ring.
Qed.

(** * Weighted integrals *)
Definition wsm (E : nat -> R) (i j : nat) (g : compound) : R :=
  lsum (map (fun s => E (sf_law s) * SM i j s) (cg_surf g))
  + lsum (map (fun b => E (br_law b) * (br_area b * (br_y b ^ i * br_z b ^ j))) (cg_bars g)).
Lemma weighted_poly E phi ca cb cc cd ce cf g : rings_closed g ->
  (forall y z, phi y z = ca + cb * y + cc * z + cd * y ^ 2 + ce * y * z + cf * z ^ 2) ->
  weighted E phi g = ca * wsm E 0 0 g + cb * wsm E 1 0 g + cc * wsm E 0 1 g + cd * wsm E 2 0 g + ce * wsm E 1 1 g + cf * wsm E 0 2 g.
Proof.
  intros RC HP. unfold weighted, wsm.
  assert (LS : lsum (map (fun s => E (sf_law s) * surface_integral phi s) (cg_surf g)) =
    ca * lsum (map (fun s => E (sf_law s) * SM 0 0 s) (cg_surf g)) + cb * lsum (map (fun s => E (sf_law s) * SM 1 0 s) (cg_surf g)) +
    cc * lsum (map (fun s => E (sf_law s) * SM 0 1 s) (cg_surf g)) + cd * lsum (map (fun s => E (sf_law s) * SM 2 0 s) (cg_surf g)) +
    ce * lsum (map (fun s => E (sf_law s) * SM 1 1 s) (cg_surf g)) + cf * lsum (map (fun s => E (sf_law s) * SM 0 2 s) (cg_surf g))).
  { unfold rings_closed in RC. revert RC. generalize (cg_surf g). induction l as [|s l IH]; intros RC; cbn [map]; rewrite ?lsum_nil, ?lsum_cons; [ring|].
    rewrite (IH (fun s0 I => RC s0 (or_intror I))), (surf_poly phi ca cb cc cd ce cf s (RC s (or_introl eq_refl)) HP). ring. }
  rewrite LS. clear LS. generalize (cg_bars g). intros bs.
  assert (LB : lsum (map (fun b => E (br_law b) * (br_area b * phi (br_y b) (br_z b))) bs) =
    ca * lsum (map (fun b => E (br_law b) * (br_area b * (br_y b ^ 0 * br_z b ^ 0))) bs) + cb * lsum (map (fun b => E (br_law b) * (br_area b * (br_y b ^ 1 * br_z b ^ 0))) bs) +
    cc * lsum (map (fun b => E (br_law b) * (br_area b * (br_y b ^ 0 * br_z b ^ 1))) bs) + cd * lsum (map (fun b => E (br_law b) * (br_area b * (br_y b ^ 2 * br_z b ^ 0))) bs) +
    ce * lsum (map (fun b => E (br_law b) * (br_area b * (br_y b ^ 1 * br_z b ^ 1))) bs) + cf * lsum (map (fun b => E (br_law b) * (br_area b * (br_y b ^ 0 * br_z b ^ 2))) bs)).
  { clear - HP. induction bs as [|b bs IH]; cbn [map]; rewrite ?lsum_nil, ?lsum_cons; [ring|]. rewrite IH, HP. ring. }
  rewrite LB. ring.
Qed.
Lemma rings_move u v g : rings_closed g -> rings_closed (translate_geo u v g).
Proof. intros RC s I. apply in_map_iff in I. destruct I as (s0 & <- & I). apply okay_move. exact (RC s0 I). Qed.
Lemma wsm_move E u v g : rings_closed g -> let t := translate_geo u v g in
  wsm E 0 0 t = wsm E 0 0 g /\ wsm E 1 0 t = wsm E 1 0 g + u * wsm E 0 0 g /\ wsm E 0 1 t = wsm E 0 1 g + v * wsm E 0 0 g /\
  wsm E 2 0 t = wsm E 2 0 g + 2 * u * wsm E 1 0 g + u ^ 2 * wsm E 0 0 g /\
  wsm E 1 1 t = wsm E 1 1 g + u * wsm E 0 1 g + v * wsm E 1 0 g + u * v * wsm E 0 0 g /\
  wsm E 0 2 t = wsm E 0 2 g + 2 * v * wsm E 0 1 g + v ^ 2 * wsm E 0 0 g.
Proof.
  intros RC t. unfold t, wsm, rings_closed in *. cbn [translate_geo cg_surf cg_bars]. rewrite !map_map. cbn [translate_surface translate_bar sf_law br_law br_area br_y br_z].
  revert RC. destruct g as [ss bs]. cbn [cg_surf cg_bars]. intros RC.
  assert (B : forall i j f, (forall b, (br_y b + u) ^ i * (br_z b + v) ^ j = f b) ->
    lsum (map (fun b => E (br_law b) * (br_area b * ((br_y b + u) ^ i * (br_z b + v) ^ j))) bs) = lsum (map (fun b => E (br_law b) * (br_area b * f b)) bs)).
  { intros i j f H. apply lsum_map_ext. intros b _. rewrite H. reflexivity. }
  induction ss as [|s ss IH].
  - cbn [map]. rewrite !lsum_nil. clear. induction bs as [|b bs IH]; cbn [map]; rewrite ?lsum_nil, ?lsum_cons; [repeat split; ring|].
    destruct IH as (I1 & I2 & I3 & I4 & I5 & I6). rewrite Rplus_0_l in *.
    split; [|split; [|split; [|split; [|split]]]]; cbn [pow] in *; lra.
  - cbn [map]. rewrite !lsum_cons. destruct (SM_move u v s (RC s (or_introl eq_refl))) as (S1 & S2 & S3 & S4 & S5 & S6).
    change ({| sf_ext := map (move u v) (sf_ext s); sf_ints := map (map (move u v)) (sf_ints s); sf_law := sf_law s |}) with (translate_surface u v s).
    rewrite S1, S2, S3, S4, S5, S6. destruct (IH (fun s0 I => RC s0 (or_intror I))) as (I1 & I2 & I3 & I4 & I5 & I6). clear IH B S1 S2 S3 S4 S5 S6.
    split; [|split; [|split; [|split; [|split]]]]; lra.
Qed.

(** * The integrator on elastic parts *)
Lemma surf_ext phi psi s : (forall y z, phi y z = psi y z) -> surface_integral phi s = surface_integral psi s.
Proof.
  intros H. unfold surface_integral. rewrite (region_ext phi psi _ H). f_equal. apply lsum_map_ext. intros r _. now apply region_ext.
Qed.
Lemma surf_lin E phi ca cb cc cd ce cf s : okay s ->
  (forall y z, phi y z = ca + cb * y + cc * z + cd * y ^ 2 + ce * y * z + cf * z ^ 2) ->
  surface_integral (fun y z => E * phi y z) s = E * surface_integral phi s.
Proof.
  intros O H. rewrite (surf_poly phi ca cb cc cd ce cf s O H).
  rewrite (surf_poly (fun y z => E * phi y z) (E * ca) (E * cb) (E * cc) (E * cd) (E * ce) (E * cf) s O) by (intros; rewrite H; ring). ring.
Qed.
Lemma isclose_refl rel abs a : 0 <= rel -> math_isclose rel abs a a = true.
Proof.
  intros H. unfold math_isclose. apply Rleb_true. replace (a - a) with 0 by ring. rewrite Rabs_R0.
  apply Rle_trans with (2 := Rmax_l _ _). apply Rmult_le_pos; [exact H|]. apply Rle_trans with (2 := Rmax_l _ _). apply Rabs_pos.
Qed.
Lemma area_exact (els : nat -> elastic) g ms : rings_closed g ->
  (forall b b', In b (cg_bars g) -> In b' (cg_bars g) -> count_law (br_law b) (cg_bars g) = count_law (br_law b') (cg_bars g)) ->
  let E k := el_E (els k) in
  area_moments marin_integ (fun k => elastic_law (els k)) ms g =
  Ok (weighted E (fun _ z => z) g, weighted E (fun y _ => y) g, weighted E (fun _ z => z ^ 2) g, weighted E (fun y _ => y ^ 2) g, weighted E (fun y z => y * z) g).
Proof.
  intros RC HC E. set (L := fun k => elastic_law (els k)).
  assert (LB : forall k, batched (L k)) by (intros; apply elastic_batched).
  assert (HS : forall s, In s (cg_surf g) -> closed (sf_ext s) /\ (forall q, In q (sf_ints s) -> closed q) /\
     exists l, L (sf_law s) = elastic_law l /\ el_E l = E (sf_law s)).
  { intros s I. destruct (RC s I) as [A B]. split; [exact A|]. split; [exact B|]. exists (els (sf_law s)). split; reflexivity. }
  destruct (C21_elastic_exact L E g 0 1 0 LB HS HC) as [d1 F1].
  destruct (C21_elastic_exact L E g 0 0 (-1) LB HS HC) as [d2 F2].
  cbv zeta in F1, F2.
  assert (T : forall e0 ky kz wt phi ca cb cc cd ce cf,
    (forall y z, phi y z = ca + cb * y + cc * z + cd * y ^ 2 + ce * y * z + cf * z ^ 2) ->
    (forall y z, plane_strain e0 ky kz y z * wt y z = phi y z) ->
    lsum (map (fun s => surface_integral (fun y z => E (sf_law s) * plane_strain e0 ky kz y z * wt y z) s) (cg_surf g))
    = lsum (map (fun s => E (sf_law s) * surface_integral phi s) (cg_surf g))).
  { intros e0 ky kz wt phi ca cb cc cd ce cf HP HW. apply lsum_map_ext. intros s I.
    rewrite <- (surf_lin (E (sf_law s)) phi ca cb cc cd ce cf s (RC s I) HP). apply surf_ext. intros y z. rewrite <- HW. ring. }
  rewrite (T 0 1 0 (fun _ _ => 1) (fun _ z => z) 0 0 1 0 0 0) in F1 by (intros; unfold plane_strain; ring).
  rewrite (T 0 1 0 (fun _ z => z) (fun _ z => z ^ 2) 0 0 0 0 0 1) in F1 by (intros; unfold plane_strain; ring).
  rewrite (T 0 1 0 (fun y _ => - y) (fun y z => - (y * z)) 0 0 0 0 (-1) 0) in F1 by (intros; unfold plane_strain; ring).
  rewrite (T 0 0 (-1) (fun _ _ => 1) (fun y _ => y) 0 1 0 0 0 0) in F2 by (intros; unfold plane_strain; ring).
  rewrite (T 0 0 (-1) (fun _ z => z) (fun y z => y * z) 0 0 0 0 1 0) in F2 by (intros; unfold plane_strain; ring).
  rewrite (T 0 0 (-1) (fun y _ => - y) (fun y _ => - y ^ 2) 0 0 0 (-1) 0 0) in F2 by (intros; unfold plane_strain; ring).
  clear T.
  assert (HA : forall e0 ky kz, axial (bar_fibres L g) e0 ky kz = lsum (map (fun b => E (br_law b) * (br_area b * plane_strain e0 ky kz (br_y b) (br_z b))) (cg_bars g))).
  { intros. unfold axial, bar_fibres. rewrite map_map. apply lsum_map_ext. intros b _. cbn. unfold elastic_stress, E. ring. }
  assert (HY : forall e0 ky kz, moment_y (bar_fibres L g) e0 ky kz = lsum (map (fun b => E (br_law b) * (br_area b * (plane_strain e0 ky kz (br_y b) (br_z b) * br_z b))) (cg_bars g))).
  { intros. unfold moment_y, bar_fibres. rewrite map_map. apply lsum_map_ext. intros b _. cbn. unfold elastic_stress, E. ring. }
  assert (HZ : forall e0 ky kz, moment_z (bar_fibres L g) e0 ky kz = lsum (map (fun b => E (br_law b) * (br_area b * (plane_strain e0 ky kz (br_y b) (br_z b) * - br_y b))) (cg_bars g))).
  { intros. unfold moment_z, bar_fibres. rewrite map_map, <- lsum_map_opp. apply lsum_map_ext. intros b _. cbn. unfold elastic_stress, E. ring. }
  rewrite HA, HY, HZ in F1, F2.
  unfold area_moments. cbn [marin_integ ig_forces]. fold L. rewrite F1. cbn [bind].
  destruct (C21_data_reuse L g _ (0, 0, -1) _ d1 LB F1) as [DR _]. rewrite DR, F2. cbn [bind].
  assert (W : forall phi psi, (forall y z, psi y z = phi y z) -> 
    lsum (map (fun s => E (sf_law s) * surface_integral phi s) (cg_surf g)) + lsum (map (fun b => E (br_law b) * (br_area b * psi (br_y b) (br_z b))) (cg_bars g)) = weighted E phi g).
  { intros phi psi H. unfold weighted. f_equal. apply lsum_map_ext. intros b _. rewrite H. reflexivity. }
  assert (NEG : forall phi ca cb cc cd ce cf, (forall y z, phi y z = ca + cb * y + cc * z + cd * y ^ 2 + ce * y * z + cf * z ^ 2) ->
    weighted E (fun y z => - phi y z) g * -1 = weighted E phi g).
  { intros phi ca cb cc cd ce cf H. rewrite (weighted_poly E phi ca cb cc cd ce cf g RC H).
    rewrite (weighted_poly E (fun y z => - phi y z) (- ca) (- cb) (- cc) (- cd) (- ce) (- cf) g RC) by (intros; rewrite H; ring). ring. }
  rewrite (W (fun _ z => z) (plane_strain 0 1 0)) by (intros; unfold plane_strain; ring).
  rewrite (W (fun _ z => z ^ 2) (fun y z => plane_strain 0 1 0 y z * z)) by (intros; unfold plane_strain; ring).
  rewrite (W (fun y z => - (y * z)) (fun y z => plane_strain 0 1 0 y z * - y)) by (intros; unfold plane_strain; ring).
  rewrite (W (fun y _ => y) (plane_strain 0 0 (-1))) by (intros; unfold plane_strain; ring).
  rewrite (W (fun y z => y * z) (fun y z => plane_strain 0 0 (-1) y z * z)) by (intros; unfold plane_strain; ring).
  rewrite (W (fun y _ => - y ^ 2) (fun y z => plane_strain 0 0 (-1) y z * - y)) by (intros; unfold plane_strain; ring).
  rewrite (NEG (fun y z => y * z) 0 0 0 0 1 0) by (intros; ring).
  rewrite (NEG (fun y _ => y ^ 2) 0 0 0 1 0 0) by (intros; ring).
  rewrite isclose_refl; [reflexivity|]. apply Rlt_le, Rinv_0_lt_compat, pow_lt. lra.
Qed.

(** * The two auxiliary geometries *)
Lemma dummy_closed g : rings_closed g -> rings_closed (dummy g).
Proof. intros RC s I. apply in_map_iff in I. destruct I as (s0 & <- & I). exact (RC s0 I). Qed.
Lemma dummy_count g b b' : In b (cg_bars (dummy g)) -> In b' (cg_bars (dummy g)) -> count_law (br_law b) (cg_bars (dummy g)) = count_law (br_law b') (cg_bars (dummy g)).
Proof.
  intros I I'. apply in_map_iff in I. apply in_map_iff in I'. destruct I as (? & <- & _), I' as (? & <- & _). reflexivity.
Qed.
Lemma dummy_weighted E phi g : E 0%nat = 1 -> weighted E phi (dummy g) = weighted (fun _ => 1) phi g.
Proof.
  intros H. unfold weighted, dummy. cbn [cg_surf cg_bars]. rewrite !map_map. cbn [sf_law br_law br_area br_y br_z]. rewrite H. reflexivity.
Qed.
Lemma area_dummy g ms : rings_closed g ->
  let W phi := weighted (fun _ => 1) phi g in
  area_moments marin_integ unit_laws ms (dummy g) = Ok (W (fun _ z => z), W (fun y _ => y), W (fun _ z => z ^ 2), W (fun y _ => y ^ 2), W (fun y z => y * z)).
Proof.
  intros RC W. unfold unit_laws. rewrite (area_exact (fun _ => {| el_E := 1; el_u := None |}) (dummy g) ms (dummy_closed g RC) (dummy_count g)).
  unfold W. rewrite !dummy_weighted by reflexivity. reflexivity.
Qed.
Lemma number_surf_closed k g l : (forall s, In s l -> okay s) -> rings_closed {| cg_surf := number_surfaces k l; cg_bars := g |}.
Proof.
  revert k. induction l as [|s l IH]; intros k H t I; cbn [number_surfaces cg_surf] in I; [destruct I|].
  destruct I as [<- | I]; [exact (H s (or_introl eq_refl))|]. exact (IH (S k) (fun s0 I0 => H s0 (or_intror I0)) t I).
Qed.
Lemma number_bars_range k l b : In b (number_bars k l) -> (k <= br_law b)%nat.
Proof.
  revert k. induction l as [|c l IH]; intros k I; cbn [number_bars] in I; [destruct I|].
  destruct I as [<- | I]; [reflexivity|]. specialize (IH (S k) I). lia.
Qed.
Lemma count_zero j l : (forall b, In b l -> br_law b <> j) -> count_law j l = 0%nat.
Proof.
  intros H. unfold count_law. induction l as [|b l IH]; [reflexivity|]. cbn [filter].
  destruct (Nat.eqb_spec (br_law b) j) as [E|E]; [exfalso; exact (H b (or_introl eq_refl) E)|]. apply IH. intros c I. exact (H c (or_intror I)).
Qed.
Lemma number_bars_count k l b : In b (number_bars k l) -> count_law (br_law b) (number_bars k l) = 1%nat.
Proof.
  revert k. induction l as [|c l IH]; intros k I; cbn [number_bars] in *; [destruct I|].
  destruct I as [<- | I].
  - unfold count_law. cbn [filter br_law]. rewrite Nat.eqb_refl. cbn [length]. f_equal. apply count_zero. intros d J. apply number_bars_range in J. lia.
  - pose proof (number_bars_range _ _ _ I) as G. unfold count_law. cbn [filter br_law]. destruct (Nat.eqb_spec k (br_law b)); [lia|]. exact (IH (S k) I).
Qed.
Lemma mapM_ok {A B} (f : A -> result B) l r : mapM f l = Ok r -> Forall2 (fun a b => f a = Ok b) l r.
Proof.
  revert r. induction l as [|a l IH]; intros r H; cbn [mapM] in H; [injection H as <-; constructor|].
  destruct (f a) as [b|e] eqn:F; [|discriminate]. cbn [bind] in H. destruct (mapM f l) as [q|e]; [|discriminate]. cbn [bind] in H. injection H as <-.
  constructor; [exact F|]. apply IH. reflexivity.
Qed.
Lemma elastic_all_ok (E : nat -> R) l : (forall k, In k l -> 0 < E k) ->
  mapM (fun k => elastic_init (E k) None) l = Ok (map (fun k => {| el_E := E k; el_u := None |}) l).
Proof.
  intros H. induction l as [|k l IH]; [reflexivity|]. cbn [mapM map]. unfold elastic_init at 1.
  destruct (Rleb_spec (E k) 0) as [Q|Q]; [specialize (H k (or_introl eq_refl)); lra|]. cbn [bind]. rewrite IH by (intros j I; exact (H j (or_intror I))). reflexivity.
Qed.
Lemma number_surf_weighted E F phi l k : (forall i s, nth_error l i = Some s -> E (k + i)%nat = F (sf_law s)) ->
  lsum (map (fun s => E (sf_law s) * surface_integral phi s) (number_surfaces k l)) = lsum (map (fun s => F (sf_law s) * surface_integral phi s) l).
Proof.
  revert k. induction l as [|s l IH]; intros k H; [reflexivity|]. cbn [number_surfaces map]. rewrite !lsum_cons. f_equal.
  - cbn [sf_law]. rewrite <- (H 0%nat s eq_refl), Nat.add_0_r. reflexivity.
  - apply IH. intros i t J. rewrite <- (H (S i) t J). f_equal. lia.
Qed.
Lemma number_bars_weighted E F (phi : R -> R -> R) l k : (forall i s, nth_error l i = Some s -> E (k + i)%nat = F (br_law s)) ->
  lsum (map (fun b => E (br_law b) * (br_area b * phi (br_y b) (br_z b))) (number_bars k l)) = lsum (map (fun b => F (br_law b) * (br_area b * phi (br_y b) (br_z b))) l).
Proof.
  revert k. induction l as [|s l IH]; intros k H; [reflexivity|]. cbn [number_bars map]. rewrite !lsum_cons. f_equal.
  - cbn [br_law br_area br_y br_z]. rewrite <- (H 0%nat s eq_refl), Nat.add_0_r. reflexivity.
  - apply IH. intros i t J. rewrite <- (H (S i) t J). f_equal. lia.
Qed.
Definition used (g : compound) : list nat := map sf_law (cg_surf g) ++ map br_law (cg_bars g).
Notation E0 := stiffness0.
Lemma area_elastic laws g ms : rings_closed g -> (forall k, In k (used g) -> 0 < E0 laws k) ->
  let W phi := weighted (E0 laws) phi g in
  exists eg, elasticise laws g = Ok eg /\
  area_moments marin_integ (snd eg) ms (fst eg) = Ok (W (fun _ z => z), W (fun y _ => y), W (fun _ z => z ^ 2), W (fun y _ => y ^ 2), W (fun y z => y * z)).
Proof.
  intros RC HE W. unfold elasticise. fold (used g). change (fun k => elastic_init (lw_tangent (laws k) 0) None) with (fun k => elastic_init (E0 laws k) None). rewrite (elastic_all_ok (E0 laws) (used g) HE). cbn [bind].
  eexists. split; [reflexivity|]. cbn [fst snd].
  set (ls := map (fun k => {| el_E := E0 laws k; el_u := None |}) (used g)).
  rewrite (area_exact (fun i => nth i ls {| el_E := 1; el_u := None |})).
  - assert (HW : forall phi, weighted (fun k => el_E (nth k ls {| el_E := 1; el_u := None |})) phi
       {| cg_surf := number_surfaces 0 (cg_surf g); cg_bars := number_bars (length (cg_surf g)) (cg_bars g) |} = W phi).
    { intros phi. unfold W, weighted. cbn [cg_surf cg_bars]. f_equal.
      - apply (number_surf_weighted (fun k => el_E (nth k ls {| el_E := 1; el_u := None |})) (E0 laws)). intros i s J. cbn [Nat.add]. unfold ls, used.
        assert (N : nth_error (map (fun k => {| el_E := E0 laws k; el_u := None |}) (map sf_law (cg_surf g) ++ map br_law (cg_bars g))) i = Some {| el_E := E0 laws (sf_law s); el_u := None |}).
        { rewrite map_app, nth_error_app1; [|rewrite !map_length; apply nth_error_Some; congruence]. rewrite map_map. now apply map_nth_error with (f := fun x => {| el_E := E0 laws (sf_law x); el_u := None |}). }
        rewrite (nth_error_nth _ _ _ N). reflexivity.
      - apply (number_bars_weighted (fun k => el_E (nth k ls {| el_E := 1; el_u := None |})) (E0 laws)). intros i s J. unfold ls, used.
        assert (N : nth_error (map (fun k => {| el_E := E0 laws k; el_u := None |}) (map sf_law (cg_surf g) ++ map br_law (cg_bars g))) (length (cg_surf g) + i) = Some {| el_E := E0 laws (br_law s); el_u := None |}).
        { rewrite map_app, nth_error_app2; [|rewrite !map_length; lia]. rewrite !map_length.
          replace (length (cg_surf g) + i - length (cg_surf g))%nat with i by lia.
          rewrite map_map. now apply map_nth_error with (f := fun x => {| el_E := E0 laws (br_law x); el_u := None |}). }
        rewrite (nth_error_nth _ _ _ N). reflexivity. }
    rewrite !HW. reflexivity.
  - apply number_surf_closed. intros s I. exact (RC s I).
  - intros b b' I I'. cbn [cg_bars] in *. rewrite !number_bars_count by assumption. reflexivity.
Qed.
Lemma ea_weighted laws g : rings_closed g ->
  lsum (map (fun s => surface_area s * lw_tangent (laws (sf_law s)) 0) (cg_surf g) ++ map (fun b => br_area b * lw_tangent (laws (br_law b)) 0) (cg_bars g))
  = weighted (E0 laws) (fun _ _ => 1) g.
Proof.
  intros RC. rewrite lsum_app. unfold weighted. f_equal.
  - apply lsum_map_ext. intros s I. rewrite (surf_area s (RC s I)), (surf_poly (fun _ _ => 1) 1 0 0 0 0 0 s (RC s I)) by (intros; ring). unfold stiffness0. ring.
  - apply lsum_map_ext. intros b _. unfold stiffness0. ring.
Qed.
Lemma used_move u v g : used (translate_geo u v g) = used g.
Proof. unfold used, translate_geo. cbn [cg_surf cg_bars]. rewrite !map_map. reflexivity. Qed.

Lemma used_in g k : In k (used g) <-> in_use g k.
Proof.
  unfold used, in_use. rewrite in_app_iff, !in_map_iff. split; (intros [(x & A & B) | (x & A & B)]; [left|right]; exists x; auto).
Qed.

(** * Assembly *)
Lemma gross_from mk laws dens eig p ms g eg etg cy cz (A W : (R -> R -> R) -> R) :
  let tg := translate_geo (- cy) (- cz) g in
  lsum (map (fun s => surface_area s * lw_tangent (laws (sf_law s)) 0) (cg_surf g) ++ map (fun b => br_area b * lw_tangent (laws (br_law b)) 0) (cg_bars g)) = W (fun _ _ => 1) ->
  W (fun _ _ => 1) <> 0 -> cy = W (fun y _ => y) / W (fun _ _ => 1) -> cz = W (fun _ z => z) / W (fun _ _ => 1) ->
  area_moments mk unit_laws ms (dummy g) = Ok (A (fun _ z => z), A (fun y _ => y), A (fun _ z => z ^ 2), A (fun y _ => y ^ 2), A (fun y z => y * z)) ->
  elasticise laws g = Ok eg ->
  area_moments mk (snd eg) ms (fst eg) = Ok (W (fun _ z => z), W (fun y _ => y), W (fun _ z => z ^ 2), W (fun y _ => y ^ 2), W (fun y z => y * z)) ->
  (exists a b, area_moments mk unit_laws ms (dummy tg) = Ok (a, b, A (fun _ z => (z - cz) ^ 2), A (fun y _ => (y - cy) ^ 2), A (fun y z => (y - cy) * (z - cz)))) ->
  elasticise laws tg = Ok etg ->
  (exists a b, area_moments mk (snd etg) ms (fst etg) = Ok (a, b, W (fun _ z => (z - cz) ^ 2), W (fun y _ => (y - cy) ^ 2), W (fun y z => (y - cy) * (z - cz)))) ->
  exists r, gross_properties mk laws dens eig (OnePolygon p) ms g = Ok r /\ classical A W r /\
    gp_perimeter r = p /\ gp_area r = lsum (map surface_area (cg_surf g)) /\ gp_area_reinforcement r = lsum (map br_area (cg_bars g)) /\
    (gp_i11 r, gp_i22 r, gp_theta r) = principal eig (gp_iyy_c r) (gp_izz_c r) (gp_iyz_c r) /\
    (gp_e_i11 r, gp_e_i22 r, gp_e_theta r) = principal eig (gp_e_iyy_c r) (gp_e_izz_c r) (gp_e_iyz_c r) /\
    gp_mass r = lsum (map (fun s => match dens (sf_law s) with Some d => surface_area s * d * / 10 ^ 9 | None => 0 end) (cg_surf g)
                    ++ map (fun b => match dens (br_law b) with Some d => br_area b * d * / 10 ^ 9 | None => 0 end) (cg_bars g)).
Proof.
  intros tg HEA HN HCY HCZ H1 H2 H3 (a & b & H4) H5 (c & d & H6).
  unfold gross_properties. cbn [bind]. rewrite H1. cbn [bind]. rewrite H2. cbn [bind]. rewrite H3. cbn [bind]. rewrite HEA.
  rewrite <- HCY, <- HCZ. fold tg. rewrite H4. cbn [bind]. rewrite H5. cbn [bind]. rewrite H6. cbn [bind].
  destruct (principal eig (A (fun _ z => (z - cz) ^ 2)) _ _) as [[i11 i22] th] eqn:P1.
  destruct (principal eig (W (fun _ z => (z - cz) ^ 2)) _ _) as [[j11 j22] jh] eqn:P2.
  eexists. split; [reflexivity|]. unfold classical.
  cbn [gp_perimeter gp_area gp_area_reinforcement gp_ea gp_mass gp_sy gp_sz gp_iyy gp_izz gp_iyz gp_e_sy gp_e_sz gp_e_iyy gp_e_izz gp_e_iyz gp_cy gp_cz
     gp_iyy_c gp_izz_c gp_iyz_c gp_e_iyy_c gp_e_izz_c gp_e_iyz_c gp_i11 gp_i22 gp_theta gp_e_i11 gp_e_i22 gp_e_theta].
  rewrite P1, P2. split; [|repeat split; reflexivity].
  assert (Q1 : cy * W (fun _ _ => 1) = W (fun y _ => y)) by (rewrite HCY; field; exact HN).
  assert (Q2 : cz * W (fun _ _ => 1) = W (fun _ z => z)) by (rewrite HCZ; field; exact HN).
  repeat split; assumption.
Qed.
Lemma weighted_moved E u v phi ca cb cc cd ce cf g : rings_closed g ->
  (forall y z, phi y z = ca + cb * y + cc * z + cd * y ^ 2 + ce * y * z + cf * z ^ 2) ->
  weighted E phi (translate_geo u v g) = weighted E (fun y z => phi (y + u) (z + v)) g.
Proof.
  intros RC H. rewrite (weighted_poly E phi ca cb cc cd ce cf _ (rings_move u v g RC) H).
  rewrite (weighted_poly E (fun y z => phi (y + u) (z + v)) (ca + cb * u + cc * v + cd * u ^ 2 + ce * u * v + cf * v ^ 2) (cb + 2 * cd * u + ce * v) (cc + ce * u + 2 * cf * v) cd ce cf g RC)
    by (intros; rewrite H; ring).
  destruct (wsm_move E u v g RC) as (-> & -> & -> & -> & -> & ->). ring.
Qed.
Lemma weighted_ext E phi psi g : (forall y z, phi y z = psi y z) -> weighted E phi g = weighted E psi g.
Proof.
  intros H. unfold weighted. f_equal; apply lsum_map_ext; intros x _; [rewrite (surf_ext phi psi x H)|rewrite H]; reflexivity.
Qed.
Lemma gross_marin laws dens eig p ms g : rings_closed g -> (forall k, in_use g k -> 0 < E0 laws k) ->
  weighted (E0 laws) (fun _ _ => 1) g <> 0 ->
  let A phi := weighted (fun _ => 1) phi g in let W phi := weighted (E0 laws) phi g in
  exists r, gross_properties marin_integ laws dens eig (OnePolygon p) ms g = Ok r /\ classical A W r /\
    gp_perimeter r = p /\ gp_area r = lsum (map surface_area (cg_surf g)) /\ gp_area_reinforcement r = lsum (map br_area (cg_bars g)) /\
    (gp_i11 r, gp_i22 r, gp_theta r) = principal eig (gp_iyy_c r) (gp_izz_c r) (gp_iyz_c r) /\
    (gp_e_i11 r, gp_e_i22 r, gp_e_theta r) = principal eig (gp_e_iyy_c r) (gp_e_izz_c r) (gp_e_iyz_c r) /\
    gp_mass r = lsum (map (fun s => match dens (sf_law s) with Some d => surface_area s * d * / 10 ^ 9 | None => 0 end) (cg_surf g)
                    ++ map (fun b => match dens (br_law b) with Some d => br_area b * d * / 10 ^ 9 | None => 0 end) (cg_bars g)).
Proof.
  intros RC HE HN A W.
  assert (HE' : forall k, In k (used g) -> 0 < E0 laws k) by (intros k I; apply HE, used_in, I).
  set (cy := W (fun y _ => y) / W (fun _ _ => 1)). set (cz := W (fun _ z => z) / W (fun _ _ => 1)).
  pose proof (rings_move (- cy) (- cz) g RC) as RT. set (tg := translate_geo (- cy) (- cz) g) in *.
  destruct (area_elastic laws g ms RC HE') as (eg & G1 & G2).
  assert (HT : forall k, In k (used tg) -> 0 < E0 laws k) by (unfold tg; rewrite used_move; exact HE').
  destruct (area_elastic laws tg ms RT HT) as (etg & T1 & T2).
  cbv beta zeta in G2, T2.
  assert (SH : forall E,
    weighted E (fun _ z => z ^ 2) tg = weighted E (fun _ z => (z - cz) ^ 2) g /\
    weighted E (fun y _ => y ^ 2) tg = weighted E (fun y _ => (y - cy) ^ 2) g /\
    weighted E (fun y z => y * z) tg = weighted E (fun y z => (y - cy) * (z - cz)) g).
  { intros E. unfold tg.
    rewrite (weighted_moved E (- cy) (- cz) (fun _ z => z ^ 2) 0 0 0 0 0 1 g RC) by (intros; ring).
    rewrite (weighted_moved E (- cy) (- cz) (fun y _ => y ^ 2) 0 0 0 1 0 0 g RC) by (intros; ring).
    rewrite (weighted_moved E (- cy) (- cz) (fun y z => y * z) 0 0 0 0 1 0 g RC) by (intros; ring).
    split; [|split]; apply weighted_ext; intros; ring. }
  apply (gross_from marin_integ laws dens eig p ms g eg etg cy cz A W); try reflexivity.
  - apply ea_weighted, RC.
  - exact HN.
  - exact (area_dummy g ms RC).
  - exact G1.
  - exact G2.
  - fold tg. pose proof (area_dummy tg ms RT) as D. cbv beta zeta in D. destruct (SH (fun _ => 1)) as (S1 & S2 & S3). rewrite S1, S2, S3 in D. eexists. eexists. exact D.
  - exact T1.
  - destruct (SH (E0 laws)) as (S1 & S2 & S3). rewrite S1, S2, S3 in T2. eexists. eexists. exact T2.
Qed.
