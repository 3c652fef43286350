(** C32: reinforcement layouts; C46 for circles. *)
From Verif Require Import Base M_Marin S_Marin L_Marin M_Laws M_Laws2 M_Fiber M_MarinInt M_Geo S_Geo L_Geo M_Bars S_Bars L_Bars L_MarinInt2 L_Gross.
From Coq Require Import String ZArith Lra Lia.
Open Scope R_scope.
Open Scope list_scope.

(** * Lines *)
(** Number and spacing: exactly n bars, s apart, on the segment, centred; the
    flags leave out just the end bars. *)
Theorem C32_line_number_and_spacing : forall a b n s first last, a <> b -> (0 < n)%nat -> 0 < s ->
  ((INR n - 1) * s <= distance a b ->
   exists l, line_spots a b (Z.of_nat n) s first last = Ok (map At (trim first last l)) /\ List.length l = n /\
     (forall p, In p l -> on_segment a b p) /\ steps a b s l /\ centred a b l) /\
  (distance a b < (INR n - 1) * s -> line_spots a b (Z.of_nat n) s first last = Err ValueError).
Proof.
  intros a b n s first last NE HN HS. unfold line_spots.
  assert (E1 : (0 <? Z.of_nat n)%Z = true) by (apply Z.ltb_lt; lia). assert (E2 : Rltb 0 s = true) by now apply Rltb_true. rewrite E1, E2. cbn [andb].
  assert (EZ : IZR (Z.of_nat n - 1) = INR n - 1) by (rewrite minus_IZR, <- INR_IZR_INZ; reflexivity). rewrite EZ. rewrite !norm_distance.
  split; intros H.
  - destruct (Rltb_spec (distance a b) ((INR n - 1) * s)); [lra|]. exists (row a b ((distance a b - (INR n - 1) * s) / 2) s n).
    split; [|apply row_spec; [exact NE|lra|lra|lra|exact HN]].
    f_equal. rewrite <- (line_emit a b _ s n first last NE _ eq_refl). rewrite !norm_distance. apply map_ext. intros i.
    cbn [andb]. destruct (Reqb (distance a b) 0); cbn [negb]; [reflexivity|]. f_equal. cbn [fst snd]. f_equal; unfold Rdiv; ring.
  - destruct (Rltb_spec (distance a b) ((INR n - 1) * s)); [reflexivity|lra].
Qed.
Print Assumptions C32_line_number_and_spacing.
(** Number only: the first bar on one end, the last on the other, even spacing. *)
Theorem C32_line_number : forall a b n s first last, a <> b -> (2 <= n)%nat -> s <= 0 ->
  exists l, line_spots a b (Z.of_nat n) s first last = Ok (map At (trim first last l)) /\ List.length l = n /\
    (forall p, In p l -> on_segment a b p) /\ steps a b (distance a b / (INR n - 1)) l /\ centred a b l /\ nth 0 l (0, 0) = a.
Proof.
  intros a b n s first last NE HN HS. unfold line_spots.
  assert (E1 : (0 <? Z.of_nat n)%Z = true) by (apply Z.ltb_lt; lia). assert (E2 : Rltb 0 s = false) by (apply Rltb_false; lra). rewrite E1, E2. cbn [andb].
  assert (EZ : IZR (Z.of_nat n - 1) = INR n - 1) by (rewrite minus_IZR, <- INR_IZR_INZ; reflexivity). rewrite EZ.
  assert (E3 : (Z.of_nat n =? 1)%Z = false) by (apply Z.eqb_neq; lia). rewrite E3. cbn [negb].
  assert (GT : 0 < INR n - 1) by (assert (INR 2 <= INR n) by (apply le_INR; lia); cbn in H; lra). pose proof (distance_pos a b NE) as DP.
  exists (row a b 0 (distance a b / (INR n - 1)) n). split.
  - f_equal. rewrite <- (line_emit a b _ _ n first last NE _ eq_refl). rewrite !norm_distance. apply map_ext. intros i.
    cbn [andb]. destruct (Reqb (distance a b) 0); cbn [negb]; [reflexivity|]. f_equal. cbn [fst snd]. f_equal; ring.
  - destruct (row_spec a b 0 (distance a b / (INR n - 1)) n NE) as (A & B & C & D); [lra|apply Rlt_le, Rdiv_lt_0_compat; lra|field; lra|lia|].
    split; [exact A|]. split; [exact B|]. split; [exact C|]. split; [exact D|]. destruct n as [|n]; [lia|]. cbn. destruct a. cbn. f_equal; ring.
Qed.
Print Assumptions C32_line_number.
(** Spacing only: as many bars as fit, no more. *)
Theorem C32_line_spacing : forall a b n s first last, a <> b -> (n <= 0)%Z -> 0 < s ->
  exists l, line_spots a b n s first last = Ok (map At (trim first last l)) /\
    (INR (List.length l) - 1) * s <= distance a b < INR (List.length l) * s /\
    (forall p, In p l -> on_segment a b p) /\ steps a b s l /\ centred a b l.
Proof.
  intros a b n s first last NE HN HS. unfold line_spots.
  assert (E1 : (0 <? n)%Z = false) by (apply Z.ltb_ge; lia). assert (E2 : Rltb 0 s = true) by now apply Rltb_true. rewrite E1, E2. cbn [andb].
  pose proof (distance_pos a b NE) as DP. rewrite !norm_distance.
  assert (F0 : (0 <= floorZ (distance a b / s))%Z) by (apply floor_nonneg; apply Rlt_le, Rdiv_lt_0_compat; lra).
  pose proof (floor_spec (distance a b / s)) as FS. set (k := floorZ (distance a b / s)) in *.
  assert (B1 : IZR k * s <= distance a b < (IZR k + 1) * s).
  { replace (distance a b) with (distance a b / s * s) by (field; lra). split; [apply Rmult_le_compat_r; lra|apply Rmult_lt_compat_r; lra]. }
  replace (k + 1 - 1)%Z with k by lia. replace (k + 1)%Z with (Z.of_nat (Z.to_nat (k + 1))) by lia. set (m := Z.to_nat (k + 1)).
  assert (IM : INR m = IZR k + 1) by (unfold m; rewrite INR_IZR_INZ, Z2Nat.id by lia; apply plus_IZR).
  exists (row a b ((distance a b - IZR k * s) / 2) s m).
  destruct (row_spec a b ((distance a b - IZR k * s) / 2) s m NE) as (A & B & D & E); [lra|lra|rewrite IM; field|unfold m; lia|].
  split; [|rewrite A, IM; replace (IZR k + 1 - 1) with (IZR k) by ring; split; [exact B1|split; [exact B|split; [exact D|exact E]]]].
  f_equal. rewrite <- (line_emit a b _ s m first last NE _ eq_refl). rewrite !norm_distance. apply map_ext. intros i.
  cbn [andb]. destruct (Reqb (distance a b) 0); cbn [negb]; [reflexivity|]. f_equal. cbn [fst snd]. f_equal; unfold Rdiv; ring.
Qed.
Print Assumptions C32_line_spacing.
Theorem C32_line_needs_number_or_spacing : forall a b n s first last, (n <= 0)%Z -> s <= 0 -> line_spots a b n s first last = Err ValueError.
Proof.
  intros a b n s first last HN HS. unfold line_spots.
  rewrite (proj2 (Z.ltb_ge 0 n) HN), (proj2 (Rltb_false 0 s)) by lra. reflexivity.
Qed.
Print Assumptions C32_line_needs_number_or_spacing.
(** Code facts: one bar asked for by number alone, or a segment of length zero,
    gives a geometry with nan coordinates instead of a bar or an error. *)
Theorem C32_line_single_bar_refuted : forall g a b d m s label c, s <= 0 ->
  line_spots a b 1 s true true = Ok [NotANumber] /\ add_reinforcement_line g a b d m 1 s true true label c = Ok NanBars.
Proof.
  intros g a b d m s label c HS. assert (X : line_spots a b 1 s true true = Ok [NotANumber]).
  { unfold line_spots. rewrite (proj2 (Rltb_false 0 s)) by lra. reflexivity. }
  split; [exact X|]. unfold add_reinforcement_line. rewrite X. reflexivity.
Qed.
Print Assumptions C32_line_single_bar_refuted.
Theorem C32_line_zero_length_refuted : forall a s, 0 < s -> line_spots a a 0 s true true = Ok [NotANumber].
Proof.
  intros a s HS. unfold line_spots. rewrite norm_distance, distance_self. rewrite (proj2 (Rltb_true 0 s) HS). cbn [Z.ltb Z.compare andb].
  replace (0 / s) with (IZR 0) by (unfold Rdiv; ring). replace (floorZ (IZR 0)) with 0%Z.
  - cbn. destruct (Reqb 0 0) eqn:E; [reflexivity|]. apply Reqb_false in E. now contradiction E.
  - pose proof (floor_spec (IZR 0)) as [F1 F2]. apply le_IZR in F1. assert (IZR 0 < IZR (floorZ (IZR 0) + 1)) by (rewrite plus_IZR; exact F2). apply lt_IZR in H. lia.
Qed.
Print Assumptions C32_line_zero_length_refuted.
(** The resulting geometry: surfaces untouched, old bars first, then the new ones
    with the diameter, material and label asked for, each with a fresh name. *)
Theorem C32_geometry_after : forall g l d m label c g' c', add_bars g l d m label c = (g', c') ->
  part_surfaces g' = part_surfaces g /\ c' = (c + List.length l)%nat /\
  exists new, part_points g' = part_points g ++ new /\ map pg_at new = l /\ map pg_name new = map Auto (seq c (List.length l)) /\
    forall b, In b new -> pg_diam b = d /\ pg_mat b = m /\ pg_group b = label /\ pg_area b = PI * (d / 2) ^ 2.
Proof.
  intros g l d m label c g' c' H. destruct (add_bars_spec l g d m label c g' c' H) as (A & B & D). split; [exact A|]. split; [exact B|].
  eexists. split; [exact D|]. assert (CL : forall (l1 : list nat) (l2 : list (R * R)), List.length l1 = List.length l2 -> map snd (combine l1 l2) = l2 /\ map fst (combine l1 l2) = l1).
  { induction l1 as [|x l1 IH]; intros [|y l2] Q; try discriminate; [split; reflexivity|]. cbn. destruct (IH l2) as [-> ->]; [now injection Q|]. split; reflexivity. }
  destruct (CL (seq c (List.length l)) l) as [C1 C2]; [apply seq_length|].
  split; [rewrite map_map; exact C1|]. split; [rewrite map_map; cbn [pg_name]; rewrite <- C2 at 2; rewrite map_map; reflexivity|].
  intros b I. apply in_map_iff in I. destruct I as (x & <- & _). cbn. repeat split. unfold pg_area. cbn. field.
Qed.
Print Assumptions C32_geometry_after.
Theorem C32_line_geometry : forall g a b d m n s first last label c l, line_spots a b n s first last = Ok (map At l) ->
  add_reinforcement_line g a b d m n s first last label c = Ok (Bars (fst (add_bars g l d m label c)) (snd (add_bars g l d m label c))).
Proof. intros. unfold add_reinforcement_line. rewrite H. cbn [bind]. rewrite all_real_At. destruct (add_bars g l d m label c). reflexivity. Qed.
Print Assumptions C32_line_geometry.

(** * Circles *)
(** An arc is treated as the whole circle when it is that long up to 1e-4. *)
Definition full (radius arc : R) : Prop := Rabs (radius * arc - 2 * PI * radius) <= / 10 ^ 4.
Lemma whole_spec radius arc : math_isclose (radius * arc - 2 * PI * radius) 0 (/ 10 ^ 9) (/ 10 ^ 4) = true <-> full radius arc.
Proof.
  unfold math_isclose, full. rewrite Rminus_0_r, Rabs_R0. rewrite (Rmax_left (Rabs _) 0) by apply Rabs_pos.
  set (x := Rabs (radius * arc - 2 * PI * radius)). assert (0 <= x) by apply Rabs_pos. rewrite Rleb_true.
  assert (I9 : / 10 ^ 9 < 1) by (rewrite <- Rinv_1; apply Rinv_lt_contravar; cbn [pow]; lra).
  assert (I4 : 0 < / 10 ^ 4) by (apply Rinv_0_lt_compat, pow_lt; lra).
  unfold Rmax. destruct (Rle_dec (/ 10 ^ 9 * x) (/ 10 ^ 4)); [reflexivity|]. split; intros Q; [|lra]. assert (/ 10 ^ 9 * x < x \/ x = 0) by (destruct (Req_dec x 0); [now right|left; nra]). lra.
Qed.
Definition full_dec radius arc : {full radius arc} + {~ full radius arc} := Rle_dec _ _.
Lemma whole_dec radius arc : math_isclose (radius * arc - 2 * PI * radius) 0 (/ 10 ^ 9) (/ 10 ^ 4) = if full_dec radius arc then true else false.
Proof.
  destruct (full_dec radius arc) as [H|H]; [now apply whole_spec|].
  destruct (math_isclose _ _ _ _) eqn:E; [|reflexivity]. apply whole_spec in E. contradiction.
Qed.

(** Number only: n bars; round the whole circle n equal steps, on an arc n - 1
    equal steps from one end to the other.  No two bars coincide. *)
Theorem C32_circle_number : forall o r n s first last start stop, 0 < r -> (2 <= n)%nat -> s <= 0 -> 0 < stop - start <= 2 * PI ->
  exists d, circle_spots o r (Z.of_nat n) s first last start stop = Ok (trim first last (map (on_circle o r) (angles start d n))) /\
    (full r (stop - start) -> d = (stop - start) / INR n) /\ (~ full r (stop - start) -> d = (stop - start) / (INR n - 1)) /\
    NoDup (map (on_circle o r) (angles start d n)) /\ (forall a, In a (angles start d n) -> start <= a <= stop).
Proof.
  intros o r n s first last start stop HR HN HS HA. unfold circle_spots. cbv zeta.
  destruct (Rleb_spec (stop - start) 0); [lra|]. destruct (Rltb_spec (2 * PI) (stop - start)); [lra|]. cbn [orb].
  assert (E1 : (0 <? Z.of_nat n)%Z = true) by (apply Z.ltb_lt; lia). assert (E2 : Rltb 0 s = false) by (apply Rltb_false; lra). rewrite E1, E2. cbn [andb].
  assert (E3 : (Z.of_nat n =? 1)%Z = false) by (apply Z.eqb_neq; lia). rewrite E3. rewrite whole_dec.
  assert (N2 : 2 <= INR n) by (replace 2 with (INR 2) by reflexivity; apply le_INR; lia).
  assert (IN : forall d a, 0 <= d -> (INR n - 1) * d <= stop - start -> In a (angles start d n) -> start <= a <= stop).
  { intros d a Hd Hb I. apply in_map_iff in I. destruct I as (i & <- & I). apply in_seq in I. pose proof (pos_INR i).
    assert (INR i <= INR n - 1) by (replace (INR n - 1) with (INR (n - 1)) by (rewrite minus_INR by lia; reflexivity); apply le_INR; lia). nra. }
  destruct (full_dec r (stop - start)) as [F|F].
  - exists ((stop - start) / INR n). cbn [bind]. replace (Z.of_nat n + 1)%Z with (Z.of_nat (S n)) by lia. rewrite linspace_nat by lia. cbn [bind].
    rewrite angles_last. replace (Z.of_nat (S n) - 1)%Z with (Z.of_nat n) by lia. rewrite angles_pick.
    replace ((stop - 0 - (start + 0)) / (INR (S n) - 1)) with ((stop - start) / INR n) by (rewrite S_INR; f_equal; [ring|f_equal; ring]).
    rewrite Rplus_0_r. split; [reflexivity|]. split; [reflexivity|]. split; [contradiction|].
    assert (D1 : 0 < (stop - start) / INR n) by (apply Rdiv_lt_0_compat; lra).
    assert (D2 : INR n * ((stop - start) / INR n) = stop - start) by (field; lra).
    split; [apply circle_nodup; [lra|exact D1|lra]|]. intros a; apply IN; lra.
  - exists ((stop - start) / (INR n - 1)). cbn [bind]. rewrite Z.add_0_r, linspace_nat by lia. cbn [bind]. rewrite angles_pick.
    replace (stop - 0 - (start + 0)) with (stop - start) by ring. rewrite Rplus_0_r. split; [reflexivity|]. split; [contradiction|]. split; [reflexivity|].
    assert (D1 : 0 < (stop - start) / (INR n - 1)) by (apply Rdiv_lt_0_compat; lra).
    assert (D2 : (INR n - 1) * ((stop - start) / (INR n - 1)) = stop - start) by (field; lra).
    assert (NF : stop - start <> 2 * PI).
    { intros Q. apply F. unfold full. rewrite Q. replace (r * (2 * PI) - 2 * PI * r) with 0 by ring. rewrite Rabs_R0. apply Rlt_le, Rinv_0_lt_compat, pow_lt. lra. }
    split; [apply circle_nodup; [lra|exact D1|rewrite D2; lra]|]. intros a; apply IN; lra.
Qed.
Print Assumptions C32_circle_number.
(** Number and spacing: n bars s apart along the arc, none coincident; refused if
    they (and, on a full circle, the gap behind the last) do not fit. *)
Theorem C32_circle_number_and_spacing : forall o r n s first last start stop, 0 < r -> (0 < n)%nat -> 0 < s -> 0 < stop - start <= 2 * PI ->
  let gaps := if full_dec r (stop - start) then INR n else INR n - 1 in
  (gaps * s <= r * (stop - start) ->
   exists a, circle_spots o r (Z.of_nat n) s first last start stop = Ok (trim first last (map (on_circle o r) (angles a (s / r) n))) /\
     r * (a - start) = (r * (stop - start) - gaps * s) / 2 /\
     NoDup (map (on_circle o r) (angles a (s / r) n)) /\ (forall x, In x (angles a (s / r) n) -> start <= x <= stop)) /\
  (r * (stop - start) < gaps * s -> circle_spots o r (Z.of_nat n) s first last start stop = Err ValueError).
Proof.
  intros o r n s first last start stop HR HN HS HA gaps. unfold circle_spots. cbv zeta.
  destruct (Rleb_spec (stop - start) 0); [lra|]. destruct (Rltb_spec (2 * PI) (stop - start)); [lra|]. cbn [orb].
  assert (E1 : (0 <? Z.of_nat n)%Z = true) by (apply Z.ltb_lt; lia). assert (E2 : Rltb 0 s = true) by now apply Rltb_true. rewrite E1, E2. cbn [andb].
  rewrite whole_dec. destruct (Reqb r 0) eqn:E3; [apply Reqb_true in E3; lra|].
  assert (N1 : 1 <= INR n) by (replace 1 with (INR 1) by reflexivity; apply le_INR; lia).
  assert (SR : 0 < s / r) by (apply Rdiv_lt_0_compat; lra). assert (SR2 : s / r * r = s) by (field; lra).
  assert (IN : forall a x, start <= a -> a + (INR n - 1) * (s / r) <= stop -> In x (angles a (s / r) n) -> start <= x <= stop).
  { intros a x Hd Hb I. apply in_map_iff in I. destruct I as (i & <- & I). apply in_seq in I. pose proof (pos_INR i).
    assert (INR i <= INR n - 1) by (replace (INR n - 1) with (INR (n - 1)) by (rewrite minus_INR by lia; reflexivity); apply le_INR; lia). nra. }
  destruct (full_dec r (stop - start)) as [F|F]; unfold gaps.
  - replace (Z.of_nat n + 1 - 1)%Z with (Z.of_nat n) by lia. rewrite <- INR_IZR_INZ. split; intros HG.
    + destruct (Rltb_spec (r * (stop - start)) (INR n * s)); [lra|]. cbn [bind]. replace (Z.of_nat n + 1)%Z with (Z.of_nat (S n)) by lia. rewrite linspace_nat by lia. cbn [bind].
      rewrite angles_last. replace (Z.of_nat (S n) - 1)%Z with (Z.of_nat n) by lia. rewrite angles_pick. set (dl := (r * (stop - start) - INR n * s) / 2 / r).
      assert (DL : r * dl = (r * (stop - start) - INR n * s) / 2) by (unfold dl; field; lra).
      assert (DL2 : stop - start = 2 * dl + INR n * (s / r)) by (unfold dl; field; lra).
      replace ((stop - dl - (start + dl)) / (INR (S n) - 1)) with (s / r).
      2: { rewrite S_INR. replace (stop - dl - (start + dl)) with (INR n * (s / r)) by lra. field. split; lra. }
      assert (0 <= dl) by (apply Rmult_le_reg_l with r; lra).
      exists (start + dl). split; [reflexivity|]. split; [lra|]. split; [apply circle_nodup; [lra|exact SR|lra]|]. intros x; apply IN; lra.
    + destruct (Rltb_spec (r * (stop - start)) (INR n * s)); [reflexivity|lra].
  - rewrite Z.add_0_r. rewrite minus_IZR, <- INR_IZR_INZ. split; intros HG.
    + destruct (Rltb_spec (r * (stop - start)) ((INR n - 1) * s)); [lra|]. cbn [bind]. set (dl := (r * (stop - start) - (INR n - 1) * s) / 2 / r).
      assert (DL : r * dl = (r * (stop - start) - (INR n - 1) * s) / 2) by (unfold dl; field; lra).
      assert (DL2 : stop - start = 2 * dl + (INR n - 1) * (s / r)) by (unfold dl; field; lra).
      assert (D0 : 0 <= dl) by (apply Rmult_le_reg_l with r; lra).
      assert (LS : linspace (start + dl) (stop - dl) (Z.of_nat n) = Ok (angles (start + dl) (s / r) n)).
      { destruct (Nat.eq_dec n 1) as [-> | N]; [apply linspace_one|]. rewrite linspace_nat by lia. do 2 f_equal. replace (stop - dl - (start + dl)) with ((INR n - 1) * (s / r)) by lra.
        assert (2 <= INR n) by (replace 2 with (INR 2) by reflexivity; apply le_INR; lia). field. split; lra. }
      rewrite LS. cbn [bind]. rewrite angles_pick. exists (start + dl). split; [reflexivity|]. split; [lra|].
      assert (NF : stop - start <> 2 * PI).
      { intros Q. apply F. unfold full. rewrite Q. replace (r * (2 * PI) - 2 * PI * r) with 0 by ring. rewrite Rabs_R0. apply Rlt_le, Rinv_0_lt_compat, pow_lt. lra. }
      split; [apply circle_nodup; [lra|exact SR|lra]|]. intros x; apply IN; lra.
    + destruct (Rltb_spec (r * (stop - start)) ((INR n - 1) * s)); [reflexivity|lra].
Qed.
Print Assumptions C32_circle_number_and_spacing.
(** Spacing only: the maximal number, s apart, centred on the arc; on a proper
    arc none coincide... *)
Theorem C32_circle_spacing : forall o r n s first last start stop, 0 < r -> (n <= 0)%Z -> 0 < s -> 0 < stop - start <= 2 * PI ->
  exists a k, circle_spots o r n s first last start stop = Ok (trim first last (map (on_circle o r) (angles a (s / r) k))) /\
    (INR k - 1) * s <= r * (stop - start) < INR k * s /\ r * (a - start) = (r * (stop - start) - (INR k - 1) * s) / 2 /\
    (forall x, In x (angles a (s / r) k) -> start <= x <= stop) /\
    (stop - start < 2 * PI \/ (INR k - 1) * s <> r * (stop - start) -> NoDup (map (on_circle o r) (angles a (s / r) k))).
Proof.
  intros o r n s first last start stop HR HN HS HA. unfold circle_spots. cbv zeta.
  destruct (Rleb_spec (stop - start) 0); [lra|]. destruct (Rltb_spec (2 * PI) (stop - start)); [lra|]. cbn [orb].
  rewrite (proj2 (Z.ltb_ge 0 n) HN), (proj2 (Rltb_true 0 s) HS). cbn [andb]. destruct (Reqb r 0) eqn:E3; [apply Reqb_true in E3; lra|]. cbn [bind].
  set (L := r * (stop - start)). assert (LP : 0 < L) by (unfold L; nra).
  assert (F0 : (0 <= floorZ (L / s))%Z) by (apply floor_nonneg; apply Rlt_le, Rdiv_lt_0_compat; lra).
  pose proof (floor_spec (L / s)) as FS. set (q := floorZ (L / s)) in *.
  assert (B1 : IZR q * s <= L < (IZR q + 1) * s).
  { replace L with (L / s * s) by (field; lra). split; [apply Rmult_le_compat_r; lra|apply Rmult_lt_compat_r; lra]. }
  replace (q + 1 - 1)%Z with q by lia. replace (q + 1)%Z with (Z.of_nat (Z.to_nat (q + 1))) by lia. set (k := Z.to_nat (q + 1)).
  assert (IK : INR k = IZR q + 1) by (unfold k; rewrite INR_IZR_INZ, Z2Nat.id by lia; apply plus_IZR).
  assert (SR : 0 < s / r) by (apply Rdiv_lt_0_compat; lra).
  set (dl := (L - IZR q * s) / 2 / r).
  assert (DL : r * dl = (L - IZR q * s) / 2) by (unfold dl; field; lra).
  assert (DL2 : stop - start = 2 * dl + (INR k - 1) * (s / r)) by (rewrite IK; unfold dl, L; field; lra).
  assert (D0 : 0 <= dl) by (apply Rmult_le_reg_l with r; lra).
  assert (LS : linspace (start + dl) (stop - dl) (Z.of_nat k) = Ok (angles (start + dl) (s / r) k)).
  { destruct (Nat.eq_dec k 1) as [-> | N]; [apply linspace_one|]. rewrite linspace_nat by (unfold k in *; lia). do 2 f_equal. replace (stop - dl - (start + dl)) with ((INR k - 1) * (s / r)) by lra.
    assert (2 <= INR k) by (replace 2 with (INR 2) by reflexivity; apply le_INR; unfold k in *; lia). field. split; lra. }
  rewrite LS. cbn [bind]. rewrite angles_pick. exists (start + dl), k. split; [reflexivity|]. rewrite IK. replace (IZR q + 1 - 1) with (IZR q) by ring. split; [exact B1|]. split; [replace (start + dl - start) with dl by ring; exact DL|]. split.
  - intros x I. apply in_map_iff in I. destruct I as (i & <- & I). apply in_seq in I. pose proof (pos_INR i).
    assert (INR i <= INR k - 1) by (replace (INR k - 1) with (INR (k - 1)) by (rewrite minus_INR by lia; reflexivity); apply le_INR; lia). nra.
  - intros H. apply circle_nodup; [lra|exact SR|]. destruct H as [H|H]; [lra|]. assert (dl <> 0) by (intros Q; apply H; rewrite Q in DL; lra). lra.
Qed.
Print Assumptions C32_circle_spacing.
(** ... code fact: round the whole circle, a spacing that divides the
    circumference puts the last bar on top of the first. *)
Theorem C32_circle_double_bar_refuted : forall o r k start, 0 < r -> (0 < k)%nat ->
  exists l, circle_spots o r 0 (2 * PI * r / INR k) true true start (start + 2 * PI) = Ok l /\
    List.length l = S k /\ nth 0 l (0, 0) = nth k l (0, 0).
Proof.
  intros o r k start HR HK. assert (KP : 0 < INR k) by (apply lt_0_INR; lia). pose proof PI_RGT_0 as PP. pose proof (Rmult_lt_0_compat _ _ PP HR) as PR.
  assert (HS : 0 < 2 * PI * r / INR k) by (apply Rdiv_lt_0_compat; lra).
  destruct (C32_circle_spacing o r 0 (2 * PI * r / INR k) true true start (start + 2 * PI) HR) as (a & n & E & B & A & _ & _); [lia|exact HS|lra|].
  replace (start + 2 * PI - start) with (2 * PI) in * by ring.
  assert (NK : n = S k).
  { assert (U : (INR n - 1) * (2 * PI * r / INR k) <= 2 * PI * r) by lra. assert (V : 2 * PI * r < INR n * (2 * PI * r / INR k)) by lra.
    assert (W : 2 * PI * r = INR k * (2 * PI * r / INR k)) by (field; lra). rewrite W in U at 2. rewrite W in V at 1.
    assert (INR n - 1 <= INR k) by nra. assert (INR k < INR n) by nra. apply INR_lt in H0. assert (INR n <= INR (S k)) by (rewrite S_INR; lra). apply INR_le in H1. lia. }
  subst n. eexists. split; [exact E|]. unfold trim. split; [unfold angles; now rewrite !map_length, seq_length|].
  assert (AS : a = start).
  { rewrite S_INR in A. replace (r * (2 * PI) - (INR k + 1 - 1) * (2 * PI * r / INR k)) with 0 in A by (field; lra). nra. }
  unfold angles. rewrite map_map. rewrite !(nth_indep _ (0, 0) (on_circle o r (a + INR 0 * (2 * PI * r / INR k / r)))) by (rewrite map_length, seq_length; lia).
  rewrite !(map_nth (fun x => on_circle o r (a + INR x * (2 * PI * r / INR k / r)))), !seq_nth by lia. cbn [Nat.add INR].
  replace (a + INR k * (2 * PI * r / INR k / r)) with (a + 2 * PI) by (field; lra). unfold on_circle. rewrite Rmult_0_l, Rplus_0_r.
  rewrite (cos_plus a), (sin_plus a), cos_2PI, sin_2PI. f_equal; ring.
Qed.
Print Assumptions C32_circle_double_bar_refuted.
Theorem C32_circle_rejects : forall o r n s first last start stop,
  stop - start <= 0 \/ 2 * PI < stop - start \/ ((n <= 0)%Z /\ s <= 0) -> circle_spots o r n s first last start stop = Err ValueError.
Proof.
  intros o r n s first last start stop H. unfold circle_spots. cbv zeta.
  destruct (Rleb_spec (stop - start) 0); [reflexivity|]. destruct (Rltb_spec (2 * PI) (stop - start)); [reflexivity|]. cbn [orb].
  destruct H as [H|[H|[H1 H2]]]; [lra|lra|]. rewrite (proj2 (Z.ltb_ge 0 n) H1), (proj2 (Rltb_false 0 s)) by lra. reflexivity.
Qed.
Print Assumptions C32_circle_rejects.
(** Code fact: a single bar asked for by number alone is a division by zero. *)
Theorem C32_circle_single_bar_refuted : forall o r s first last start stop, s <= 0 -> 0 < stop - start <= 2 * PI ->
  circle_spots o r 1 s first last start stop = Err ZeroDivisionError.
Proof.
  intros o r s first last start stop HS HA. unfold circle_spots. cbv zeta.
  destruct (Rleb_spec (stop - start) 0); [lra|]. destruct (Rltb_spec (2 * PI) (stop - start)); [lra|]. cbn [orb].
  rewrite (proj2 (Rltb_false 0 s)) by lra. reflexivity.
Qed.
Print Assumptions C32_circle_single_bar_refuted.

(** * C46: circles *)
Theorem C46_circle : forall D m np cf o name group c, 0 < D -> (o = None \/ exists y z, o = Some [y; z]) ->
  let '(oy, oz) := match o with Some [y; z] => (y, z) | _ => (0, 0) end in
  exists s c' k, circle D m np cf o name group c = Ok (s, c') /\ (0 < k)%nat /\ well_made s /\ sound_rings (sg_poly s) /\
    (forall v, In v (pl_ext (sg_poly s)) -> distance (oy, oz) v = D / 2) /\
    List.length (pl_ext (sg_poly s)) = S (4 * k) /\ sg_mat s = m /\ sg_group s = group /\
    sg_area s = INR (4 * k) / 2 * (D / 2) ^ 2 * sin (2 * PI / INR (4 * k)) /\
    PI * (D / 2) ^ 2 * (1 - (2 * PI / INR (4 * k)) ^ 2 / 6) <= sg_area s < PI * (D / 2) ^ 2 /\
    (2 <= np -> (Z.abs (4 * Z.of_nat k - np) <= 2)%Z)%Z.
Proof.
  intros D m np cf o name group c HD HO. unfold circle. destruct (Rleb_spec D 0); [lra|].
  assert (X : exists oy oz, match o with None => Ok (0, 0) | Some [a; b] => Ok (a, b) | Some _ => Err ValueError end = Ok (oy, oz) /\ match o with Some [y; z] => (y, z) | _ => (0, 0) end = (oy, oz)).
  { destruct HO as [-> | (y & z & ->)]; eexists; eexists; split; reflexivity. }
  destruct X as (oy & oz & -> & ->). cbn [bind fst snd]. set (k := Z.to_nat (Z.max 1 (round_quarter np))). unfold new_surf.
  assert (EN : exists nm c', new_name name c = (nm, c')) by (destruct (new_name name c); eexists; eexists; reflexivity). destruct EN as (nm & c' & ->).
  assert (KP : (0 < k)%nat) by (unfold k; lia). assert (NP : 0 < INR (4 * k)) by (apply lt_0_INR; lia).
  eexists. exists c', k. split; [reflexivity|]. split; [exact KP|]. cbn [sg_poly sg_mat sg_group sg_concrete pl_ext].
  split; [unfold well_made; cbn; intros ->; reflexivity|]. split; [split; [apply circle_ring_closed; lia|intros r []]|].
  split; [intros v I; apply (circle_ring_on (oy, oz)) in I; rewrite I; apply Rabs_pos_eq; lra|].
  split; [unfold circle_ring; rewrite map_length, app_length, seq_length; cbn [List.length]; lia|]. split; [reflexivity|]. split; [reflexivity|].
  assert (EA : sg_area {| sg_poly := {| pl_ext := circle_ring (oy, oz) (D / 2) (4 * k); pl_ints := [] |}; sg_mat := m; sg_concrete := if mt_is_concrete m then true else cf; sg_name := nm; sg_group := group |}
     = INR (4 * k) / 2 * (D / 2) ^ 2 * sin (2 * PI / INR (4 * k))).
  { unfold sg_area, poly_area. cbn [sg_poly pl_ext pl_ints map]. rewrite lsum_nil, Rminus_0_r, shoe_shoelace. apply circle_ring_area; lia. }
  rewrite EA. split; [reflexivity|]. set (t := 2 * PI / INR (4 * k)).
  assert (N4 : 4 <= INR (4 * k)) by (replace 4 with (INR 4) by (cbn; lra); apply le_INR; lia). pose proof PI_RGT_0 as PP.
  assert (T1 : 0 < t) by (unfold t; apply Rdiv_lt_0_compat; lra).
  assert (T2 : t <= PI). { unfold t. apply Rmult_le_reg_r with (INR (4 * k)); [exact NP|]. unfold Rdiv. rewrite Rmult_assoc, Rinv_l by lra. nra. }
  assert (ET : INR (4 * k) / 2 * t = PI) by (unfold t; field; lra). assert (R2 : 0 < (D / 2) ^ 2) by (apply pow_lt; lra). split; [split|].
  - replace (PI * (D / 2) ^ 2 * (1 - t ^ 2 / 6)) with (INR (4 * k) / 2 * (D / 2) ^ 2 * (t - t ^ 3 / 6)) by (transitivity (INR (4 * k) / 2 * t * (D / 2) ^ 2 * (1 - t ^ 2 / 6)); [field|rewrite ET; reflexivity]).
    apply Rmult_le_compat_l; [apply Rmult_le_pos; [lra|left; exact R2]|]. apply sin_cubic. split; [left; exact T1|exact T2].
  - rewrite <- ET at 1. replace (INR (4 * k) / 2 * t * (D / 2) ^ 2) with (INR (4 * k) / 2 * (D / 2) ^ 2 * t) by ring.
    apply Rmult_lt_compat_l; [apply Rmult_lt_0_compat; [lra|exact R2]|]. apply sin_lt_x. exact T1.
  - intros HN. unfold k. pose proof (round_quarter_near np). assert (1 <= round_quarter np \/ (np = 2)%Z)%Z.
    { destruct (Z.eq_dec np 2); [now right|left]. lia. } destruct H0 as [H0| ->]; [lia|]. vm_compute. discriminate.
Qed.
Print Assumptions C46_circle.
Theorem C46_circle_rejects : forall D m np cf o name group c,
  D <= 0 \/ (exists l, o = Some l /\ List.length l <> 2%nat) -> circle D m np cf o name group c = Err ValueError.
Proof.
  intros D m np cf o name group c H. unfold circle. destruct (Rleb_spec D 0); [reflexivity|].
  destruct H as [H|(l & -> & H)]; [lra|]. destruct l as [|a [|b [|]]]; try reflexivity. now contradiction H.
Qed.
Print Assumptions C46_circle_rejects.

(** * Non-vacuity *)
Example C32_line_example : line_spots (0, 0) (4, 0) 3 0 true false = Ok [At (0, 0); At (2, 0)].
Proof.
  destruct (C32_line_number (0, 0) (4, 0) 3 0 true false) as (l & E & _); [intros Q; injection Q; lra|lia|lra|].
  unfold line_spots in *. change (0 <? 3)%Z with true. rewrite (proj2 (Rltb_false 0 0)) by lra. cbn [andb].
  assert (N : norm2 (0, 0) (4, 0) = 4). { unfold norm2. cbn [fst snd]. replace ((4 - 0) ^ 2 + (0 - 0) ^ 2) with (4 ^ 2) by ring. apply sqrt_pow2. lra. }
  rewrite N. destruct (Reqb 4 0) eqn:Q; [apply Reqb_true in Q; lra|]. 
  assert (X : forall a b c d : R, a = 0 -> b = 0 -> c = 2 -> d = 0 -> Ok [At (a, b); At (c, d)] = Ok [At (0, 0); At (2, 0)]) by (intros; subst; reflexivity). cbn -[IZR INR]. apply X; change (IZR (3 - 1)) with 2; change (INR 0) with 0; change (INR 1) with 1; field.
Qed.
Example C32_circle_hypotheses : 0 < 100 /\ (2 <= 8)%nat /\ 0 < 2 * PI - 0 <= 2 * PI /\ full 100 (2 * PI - 0) /\ ~ full 100 (PI - 0).
Proof.
  pose proof PI2_3_2. unfold PI2 in H. split; [lra|]. split; [lia|]. split; [lra|]. unfold full. split.
  - replace (100 * (2 * PI - 0) - 2 * PI * 100) with 0 by ring. rewrite Rabs_R0. apply Rlt_le, Rinv_0_lt_compat, pow_lt. lra.
  - intros Q. assert (/ 10 ^ 4 < 1) by (rewrite <- Rinv_1; apply Rinv_lt_contravar; cbn [pow]; lra). rewrite <- Rabs_Ropp in Q. rewrite Rabs_pos_eq in Q by lra. lra.
Qed.
