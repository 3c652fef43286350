(** The calls for sections with parallel flanges. *)
From Coq Require Import Lra Lia.
From Verif Require Import Base L_Calc L_Catalog2 S_Marin M_Marin L_Marin M_MarinInt L_MarinInt2 M_Geo L_Geo M_Profile S_Profile L_Profile M_Catalog S_Catalog M_Outline S_Outline L_Outline L_Outline2 L_Outline3 L_Outline4 L_Outline5 L_Outline6 L_Outline7 L_Outline8 L_Outline9.
Open Scope R_scope.
Open Scope list_scope.

Definition iy_error (r d : R) : R := (PI / 16 - k2) * r ^ 4 + 2 * d * (1 / 3 - k1) * r ^ 3 + d ^ 2 * (PI / 4 - k0) * r ^ 2.
Lemma iy_error_bound r d : 0 < r -> 0 <= d -> 0 <= iy_error r d <= 13 / 10000 * (r ^ 2 * (d + r) ^ 2).
Proof.
  intros R0 D0. unfold iy_error. pose proof k0_near as K0. pose proof k1_near as K1. pose proof k2_near as K2.
  pose proof (pow_lt r 4 R0) as R4. pose proof (pow_lt r 3 R0) as R3. pose proof (pow_lt r 2 R0) as R2. pose proof (pow2_ge_0 d) as D2.
  pose proof (Rmult_le_pos d (r ^ 3) D0 ltac:(lra)) as DR. pose proof (Rmult_le_pos (d ^ 2) (r ^ 2) D2 ltac:(lra)) as DD.
  assert (B : forall c k x, 0 <= x -> 0 <= c - k <= 13 / 10000 -> 0 <= (c - k) * x <= 13 / 10000 * x) by (intros c k x P Q; split; [apply Rmult_le_pos; lra|apply Rmult_le_compat_r; lra]).
  pose proof (B (PI / 16) k2 (r ^ 4) ltac:(lra) ltac:(lra)). pose proof (B (1 / 3) k1 (d * r ^ 3) DR ltac:(lra)). pose proof (B (PI / 4) k0 (d ^ 2 * r ^ 2) DD ltac:(lra)).
  replace (r ^ 2 * (d + r) ^ 2) with (r ^ 4 + 2 * (d * r ^ 3) + d ^ 2 * r ^ 2) by ring. lra.
Qed.
Lemma iz_error_bound r e b : 0 < r -> r <= e -> e <= b / 2 -> Rabs (4 * iy_error r (- e)) <= 2 / 1000 * (r ^ 2 * b ^ 2).
Proof.
  intros R0 E0 B0. unfold iy_error. pose proof k0_near as K0. pose proof k1_near as K1. pose proof k2_near as K2.
  pose proof (pow_lt r 4 R0) as R4. pose proof (pow_lt r 3 R0) as R3. pose proof (pow_lt r 2 R0) as R2. pose proof (pow_lt e 2 ltac:(lra)) as D2.
  pose proof (Rmult_lt_0_compat e (r ^ 3) ltac:(lra) ltac:(lra)) as DR. pose proof (Rmult_lt_0_compat (e ^ 2) (r ^ 2) D2 ltac:(lra)) as DD.
  assert (B : forall c k m x, 0 <= x -> 0 <= c - k <= m -> 0 <= (c - k) * x <= m * x) by (intros c k m x P Q; split; [apply Rmult_le_pos; lra|apply Rmult_le_compat_r; lra]).
  pose proof (B (PI / 16) k2 (7 / 10000) (r ^ 4) ltac:(lra) ltac:(lra)). pose proof (B (1 / 3) k1 (9 / 10000) (e * r ^ 3) ltac:(lra) ltac:(lra)). pose proof (B (PI / 4) k0 (13 / 10000) (e ^ 2 * r ^ 2) ltac:(lra) ltac:(lra)).
  assert (Q1 : r ^ 4 <= e ^ 2 * r ^ 2) by (replace (r ^ 4) with (r ^ 2 * r ^ 2) by ring; apply Rmult_le_compat_r; [lra|apply pow_incr; lra]).
  assert (Q2 : e * r ^ 3 <= e ^ 2 * r ^ 2) by (replace (e * r ^ 3) with ((e * r) * r ^ 2) by ring; apply Rmult_le_compat_r; [lra|]; replace (e ^ 2) with (e * e) by ring; apply Rmult_le_compat_l; lra).
  assert (Q3 : e ^ 2 * r ^ 2 <= (b / 2) ^ 2 * r ^ 2) by (apply Rmult_le_compat_r; [lra|apply pow_incr; lra]).
  replace ((b / 2) ^ 2 * r ^ 2) with (r ^ 2 * b ^ 2 / 4) in Q3 by field.
  replace ((PI / 16 - k2) * r ^ 4 + 2 * - e * (1 / 3 - k1) * r ^ 3 + (- e) ^ 2 * (PI / 4 - k0) * r ^ 2) with ((PI / 16 - k2) * r ^ 4 - 2 * ((1 / 3 - k1) * (e * r ^ 3)) + (PI / 4 - k0) * (e ^ 2 * r ^ 2)) by ring.
  apply Rabs_le. lra.
Qed.
Lemma outline_of p x0 x1 y0 y1 : closed p -> (forall m n, second m n -> 0 < fan_moment m n p) -> boxed [p] x0 x1 y0 y1 -> x0 < x1 -> y0 < y1 -> outline p.
Proof.
  intros C P (A & (p1 & v1 & [<-|[]] & J1 & E1) & (p2 & v2 & [<-|[]] & J2 & E2) & (p3 & v3 & [<-|[]] & J3 & E3) & (p4 & v4 & [<-|[]] & J4 & E4)) X Y.
  split; [exact C|]. split; [apply P; now left|]. split; [apply P; right; now right|]. split; [apply P; right; now left|].
  split; [exists v1, v2|exists v3, v4]; (split; [assumption|]; split; [assumption|lra]).
Qed.
Lemma I_call S h b tw tf r : exact_union (unary_union S) -> fits (ShI h b tw tf r) ->
  exists p, create_I S h b tw tf r = Ok p /\ closed p /\ mirror_y p /\ mirror_z p /\ (forall m n, second m n -> 0 < fan_moment m n p) /\ 0 < h /\ 0 < b /\
    boxed [p] (- (b / 2)) (b / 2) (- (h / 2)) (h / 2) /\
    0 <= fan_moment 0 0 p - flanged_area 4 h b tw tf r <= 4 * (13 / 10000 * r ^ 2) /\
    0 <= fan_moment 0 2 p - flanged_iy 4 h b tw tf r <= 4 * (13 / 10000 * (r ^ 2 * (h / 2) ^ 2)) /\
    Rabs (fan_moment 2 0 p - i_iz h b tw tf r) <= 2 / 1000 * (r ^ 2 * b ^ 2).
Proof.
  intros X (P1 & P2 & P3 & P4 & P5). rewrite create_I_parts by exact P3.
  set (B := b / 2). set (H := h / 2). set (Xw := tw / 2). set (Y := H - tf).
  assert (HX : 0 < Xw) by (unfold Xw; lra). assert (HB : Xw + r <= B) by (unfold Xw, B; lra). assert (HY : r <= Y) by (unfold Y, H; lra). assert (HH : Y < H) by (unfold Y; lra).
  destruct (i_united B H Xw Y r HX P3 HB HY HH S X) as (p & E & C & F & BX). exists p. split; [exact E|]. split; [exact C|].
  split; [intros m n O; rewrite F; now apply i_mirror_y|]. split; [intros m n O; rewrite F; now apply i_mirror_z|].
  split; [intros m n K; rewrite F; destruct K as [K|[K|K]]; injection K as -> ->; [apply i_area_pos|apply i_20_pos|apply i_02_pos]; assumption|].
  split; [lra|]. split; [lra|]. split; [exact BX|]. rewrite !F.
  rewrite (i_area_value B H Xw Y r HX P3 HB HY HH), (i_02_value B H Xw Y r HX P3 HB HY HH), (i_20_value B H Xw Y r HX P3 HB HY HH).
  pose proof k0_near as K0. pose proof (pow_lt r 2 P3) as R2. split; [|split].
  - replace (4 * B * (H - Y) + 4 * Xw * Y + 4 * (r ^ 2 * (1 - k0)) - flanged_area 4 h b tw tf r) with (4 * ((PI / 4 - k0) * r ^ 2)) by (unfold flanged_area, Y, H, B, Xw; field).
    assert (0 <= (PI / 4 - k0) * r ^ 2 <= 13 / 10000 * r ^ 2) by (split; [apply Rmult_le_pos; lra|apply Rmult_le_compat_r; lra]). lra.
  - replace (_ - flanged_iy 4 h b tw tf r) with (4 * iy_error r (Y - r)) by (unfold flanged_iy, fillet_2, quarter_2, iy_error, Y, H, B, Xw; field).
    pose proof (iy_error_bound r (Y - r) P3 ltac:(lra)) as BE. replace (Y - r + r) with Y in BE by ring.
    assert (Y ^ 2 <= H ^ 2) by (apply pow_incr; lra). assert (r ^ 2 * Y ^ 2 <= r ^ 2 * H ^ 2) by (apply Rmult_le_compat_l; lra). lra.
  - replace (_ - i_iz h b tw tf r) with (4 * iy_error r (- (Xw + r))) by (unfold i_iz, fillet_2, quarter_2, iy_error, Y, H, B, Xw; field).
    apply iz_error_bound; [exact P3|lra|exact HB].
Qed.

(** * Channel with parallel flanges *)
Section Parallel_U.
Variables B H X Y r : R.
Hypothesis (HX : 0 < X) (Hr : 0 < r) (HB : X + r <= B) (HY : r <= Y) (HH : Y < H).
Let low : ring := [(0, - H); (B, - H); (B, - Y); (0, - Y); (0, - H)].
Let high : ring := [(0, Y); (B, Y); (B, H); (0, H); (0, Y)].
Let web : ring := [(0, - Y); (X, - Y); (X, Y); (0, Y); (0, - Y)].
Definition u_parts : list ring := (map (map fy) [fillet_ring X (- Y) r] ++ [fillet_ring X (- Y) r]) ++ [high; low; web].
Let right_side := i_right B H X Y r.
Let left_side : list (R * R) := [(0, - H); (0, H)].
Lemma u_tower : tower left_side right_side.
Proof.
  split; [apply climbs_pair; cbn [snd]; lra|]. split; [apply right_climbs; assumption|]. split.
  - pose proof (right_ends B H X Y r) as [E1 E2]. do 4 eexists. split; [reflexivity|]. split; [reflexivity|]. split; [exact E1|]. split; [exact E2|]. unfold fy; cbn [fst snd]. lra.
  - exists (X / 2). split; intros v I; [destruct I as [<-|[<-|[]]]; cbn [fst]; lra|]. apply (right_in B H X Y r Hr HB HY HH) in I. lra.
Qed.
Let tw := tower_ring left_side right_side.
Lemma u_tower_ends : ends tw (0, - H) (0, - H).
Proof. apply (ends_app _ _ _ _ _ _ (ends_single (0, - H)) (ends_app _ _ _ _ _ _ (right_ends B H X Y r) (ends_pair (0, H) (0, - H)))). Qed.
Lemma tm_axis_y m n y1 y2 : triangle_moment m n (0, y1) (0, y2) = 0.
Proof. rewrite (tm_col m n y1 0 y2 0), (triangle_moment_swap m n (0, 0) (0, y1)), !tm_origin. ring. Qed.
Lemma u_tower_fan m n : fan_moment m n tw = (1 + (-1) ^ n) * (triangle_moment m n (0, - H) (B, - H) + fan_moment m n (i_half B H X Y r)) + triangle_moment m n (X, - Y + r) (fy (X, - Y + r)).
Proof.
  unfold tw, tower_ring, left_side, right_side. cbn [rev app]. change ((0, - H) :: i_right B H X Y r ++ [(0, H); (0, - H)]) with ([(0, - H)] ++ (i_right B H X Y r ++ [(0, H); (0, - H)])).
  rewrite (fan_ends m n _ _ _ _ _ _ (ends_single (0, - H)) (ends_app _ _ _ _ _ _ (right_ends B H X Y r) (ends_pair (0, H) (0, - H)))).
  rewrite (fan_ends m n _ _ _ _ _ _ (right_ends B H X Y r) (ends_pair (0, H) (0, - H))), fan_single, fan_pair, tm_axis_y, right_fan.
  assert (E : triangle_moment m n (fy (B, - H)) (0, H) = (-1) ^ n * triangle_moment m n (0, - H) (B, - H)).
  { replace (0, H) with (fy (0, - H)) by (unfold fy; cbn [fst snd]; f_equal; ring). rewrite tm_fy, (triangle_moment_swap m n (0, - H) (B, - H)). ring. }
  rewrite E. ring.
Qed.
Lemma u_low_fan m n : fan_moment m n low = triangle_moment m n (0, - H) (B, - H) + triangle_moment m n (B, - H) (B, - Y) + triangle_moment m n (B, - Y) (X + r, - Y)
  + triangle_moment m n (X + r, - Y) (X, - Y) + triangle_moment m n (X, - Y) (0, - Y).
Proof.
  unfold low. rewrite !fan_cons2, !fan_single, tm_axis_y, (tm_row m n B (X + r) 0 (- Y)), (tm_row m n (X + r) X 0 (- Y)). ring.
Qed.
Lemma u_high_fan m n : fan_moment m n high = (-1) ^ n * fan_moment m n low.
Proof.
  unfold high, low. rewrite !fan_cons2, !fan_single, !tm_axis_y.
  replace (0, Y) with (fy (0, - Y)) by (unfold fy; cbn [fst snd]; f_equal; ring). replace (B, Y) with (fy (B, - Y)) by (unfold fy; cbn [fst snd]; f_equal; ring).
  replace (B, H) with (fy (B, - H)) by (unfold fy; cbn [fst snd]; f_equal; ring). replace (0, H) with (fy (0, - H)) by (unfold fy; cbn [fst snd]; f_equal; ring).
  rewrite !tm_fy, (triangle_moment_swap m n (B, - Y) (0, - Y)), (triangle_moment_swap m n (B, - H) (B, - Y)), (triangle_moment_swap m n (0, - H) (B, - H)). ring.
Qed.
Lemma u_web_fan m n : fan_moment m n web = (1 + (-1) ^ n) * triangle_moment m n (0, - Y) (X, - Y) + ((1 + (-1) ^ n) * triangle_moment m n (X, - Y) (X, - Y + r) + triangle_moment m n (X, - Y + r) (fy (X, - Y + r))).
Proof.
  unfold web. rewrite !fan_cons2, !fan_single, tm_axis_y.
  replace (X, Y) with (fy (X, - Y)) by (unfold fy; cbn [fst snd]; f_equal; ring). replace (0, Y) with (fy (0, - Y)) by (unfold fy; cbn [fst snd]; f_equal; ring).
  rewrite (tm_fy m n (X, - Y) (0, - Y)), (triangle_moment_swap m n (0, - Y) (X, - Y)).
  assert (E : triangle_moment m n (X, - Y) (fy (X, - Y)) = (1 + (-1) ^ n) * triangle_moment m n (X, - Y) (X, - Y + r) + triangle_moment m n (X, - Y + r) (fy (X, - Y + r))).
  { unfold fy; cbn [fst snd]. rewrite (tm_col m n (- Y) (- Y + r) (- - Y) X), (tm_col m n (- Y + r) (- (- Y + r)) (- - Y) X).
    change (X, - (- Y + r)) with (fy (X, - Y + r)). change (X, - - Y) with (fy (X, - Y)). rewrite (tm_fy m n (X, - Y + r) (X, - Y)), (triangle_moment_swap m n (X, - Y) (X, - Y + r)). ring. }
  rewrite E. ring.
Qed.
Lemma u_parts_fan m n : lsum (map (region_moment m n) u_parts) = (1 + (-1) ^ n) * (fan_moment m n (fillet_ring X (- Y) r) + fan_moment m n low) + fan_moment m n web.
Proof.
  unfold u_parts. cbn [map app]. rewrite !lsum_cons, lsum_nil. pose proof (fillet_area_pos X Y r Hr) as FA.
  rewrite (region_neg m n (map fy (fillet_ring X (- Y) r))) by (rewrite fan_fy; cbn [pow]; lra).
  rewrite (region_pos m n (fillet_ring X (- Y) r)) by exact FA.
  rewrite (region_pos m n high) by (unfold high; rewrite rect_area; apply Rmult_lt_0_compat; lra).
  rewrite (region_pos m n low) by (unfold low; rewrite rect_area; apply Rmult_lt_0_compat; lra).
  rewrite (region_pos m n web) by (unfold web; rewrite rect_area; apply Rmult_lt_0_compat; lra).
  rewrite !fan_fy, u_high_fan. ring.
Qed.
Lemma u_parts_tower m n : lsum (map (region_moment m n) u_parts) = fan_moment m n tw.
Proof.
  rewrite u_parts_fan, u_tower_fan, half_fan, u_low_fan, u_web_fan, fillet_path.
  rewrite (triangle_moment_swap m n (X, - Y) (X, - Y + r)), (triangle_moment_swap m n (X + r, - Y) (X, - Y)), (triangle_moment_swap m n (0, - Y) (X, - Y)). ring.
Qed.
Lemma u_tower_boxed : boxed [tw] 0 B (- H) H.
Proof.
  pose proof (ends_in _ _ _ (right_ends B H X Y r)) as [I0 I1].
  split.
  - intros p v [<-|[]] [<-|I]; [cbn [fst snd]; lra|]. apply in_app_or in I. destruct I as [I|[<-|[<-|[]]]]; [|cbn [fst snd]; lra|cbn [fst snd]; lra].
    apply (right_in B H X Y r Hr HB HY HH) in I. lra.
  - split; [|split; [|split]].
    + exists tw, (0, - H). split; [now left|]. split; [now left|reflexivity].
    + exists tw, (B, - H). split; [now left|]. split; [right; apply in_or_app; now left|reflexivity].
    + exists tw, (0, - H). split; [now left|]. split; [now left|reflexivity].
    + exists tw, (0, H). split; [now left|]. split; [right; apply in_or_app; right; now left|reflexivity].
Qed.
Lemma u_parts_boxed : boxed u_parts 0 B (- H) H.
Proof.
  split.
  - intros p v Ip Iv. unfold u_parts in Ip. cbn [map app] in Ip. destruct Ip as [<-|[<-|[<-|[<-|[<-|[]]]]]].
    + apply in_map_iff in Iv. destruct Iv as (w & <- & Iv). apply fillet_in in Iv; [|exact Hr]. unfold fy; cbn [fst snd]. lra.
    + apply fillet_in in Iv; [|exact Hr]. lra.
    + destruct Iv as [<-|[<-|[<-|[<-|[<-|[]]]]]]; cbn [fst snd]; lra.
    + destruct Iv as [<-|[<-|[<-|[<-|[<-|[]]]]]]; cbn [fst snd]; lra.
    + destruct Iv as [<-|[<-|[<-|[<-|[<-|[]]]]]]; cbn [fst snd]; lra.
  - assert (LF : In low u_parts) by (unfold u_parts; apply in_or_app; right; right; now left). assert (HF : In high u_parts) by (unfold u_parts; apply in_or_app; right; now left).
    split; [|split; [|split]].
    + exists low, (0, - H). split; [exact LF|]. split; [now left|reflexivity].
    + exists low, (B, - H). split; [exact LF|]. split; [right; now left|reflexivity].
    + exists low, (0, - H). split; [exact LF|]. split; [now left|reflexivity].
    + exists high, (B, H). split; [exact HF|]. split; [right; right; now left|reflexivity].
Qed.
(** The same moments as those of a chain of the other kind. *)
Let W := map (shift 0 H) (i_half B H X Y r ++ [(X, 0)]).
Lemma pu_chain : ends W (B, 0) (X, H) /\ stair W.
Proof.
  pose proof (ends_app _ _ _ _ _ _ (half_ends B H X Y r) (ends_single (X, 0))) as E. split.
  - pose proof (ends_map (shift 0 H) _ _ _ E) as E'. unfold shift in E' at 2 3. cbn [fst snd] in E'. replace (- H + H) with 0 in E' by ring. replace (0 + H) with H in E' by ring. rewrite !Rplus_0_r in E'. exact E'.
  - apply stair_shift. apply (stair_app _ _ _ _ _ _ (half_ends B H X Y r) (ends_single (X, 0))); [|intros e []|cbn [fst]; lra|cbn [snd]; lra].
    apply (stair_app _ _ _ _ _ _ (ends_pair (B, - H) (B, - Y)) (arc_r_ends X (- Y) r)); [intros e [<-|[]]; cbn [fst snd]; lra| |cbn [fst]; lra|cbn [snd]; lra].
    intros e I. pose proof (arc_climbs X (- Y) r Hr e I) as CY.
    split; [|exact CY]. unfold arc_r in I.
    assert (G : forall k a, (16 <= a)%nat -> (a + k <= 32)%nat -> forall e, In e (edges (map (vert (X + r, - Y + r) r) (seq a (S k)))) -> fst (snd e) <= fst (fst e)).
    { induction k as [|k IH]; intros a A1 A2 e' J; [destruct J|].
      cbn [seq map] in J. destruct J as [<-|J]; [|apply (IH (S a)); [lia|lia|exact J]]. unfold vert; cbn [fst snd].
      assert (cos (ang (S a)) <= cos (ang a)).
      { apply Rlt_le, cos_decreasing_1; rewrite <- ?ang_0, <- ?ang_32; try apply ang_lt; try lia; [apply Rlt_le, ang_lt; lia|destruct (Nat.eq_dec a 32) as [-> |]; [lra|apply Rlt_le, ang_lt; lia]|apply Rlt_le, ang_lt; lia|].
        destruct (Nat.eq_dec (S a) 32) as [-> |]; [lra|apply Rlt_le, ang_lt; lia]. }
      assert (r * cos (ang (S a)) <= r * cos (ang a)) by (apply Rmult_le_compat_l; lra). lra. }
    apply (G 16%nat 16%nat); [lia|lia|exact I].
Qed.
Let Q := (0, H) :: (0, 0) :: W.
Let full := Q ++ tl (rev (map (fun v : R * R => (fst v, 2 * H - snd v)) Q)).
Lemma pu_q : map (shift 0 (- H)) Q = (0, 0) :: (0, - H) :: i_half B H X Y r ++ [(X, 0)].
Proof.
  unfold Q, W. cbn [map]. rewrite map_map. f_equal; [unfold shift; cbn [fst snd]; f_equal; ring|]. f_equal; [unfold shift; cbn [fst snd]; f_equal; ring|].
  rewrite <- map_id. apply map_ext. intros [x y]. unfold shift; cbn [fst snd]. f_equal; ring.
Qed.
Lemma pu_fan m n : fan_moment m n tw = fan_moment m n (map (shift 0 (- H)) full).
Proof.
  destruct pu_chain as [EW SW]. unfold full. rewrite (u_fan W B H X) by assumption. fold Q. rewrite pu_q, u_tower_fan.
  change ((0, 0) :: (0, - H) :: i_half B H X Y r ++ [(X, 0)]) with ([(0, 0); (0, - H)] ++ (i_half B H X Y r ++ [(X, 0)])).
  rewrite (fan_ends m n _ _ _ _ _ _ (ends_pair (0, 0) (0, - H)) (ends_app _ _ _ _ _ _ (half_ends B H X Y r) (ends_single (X, 0)))), fan_pair, tm_origin.
  rewrite (fan_ends m n _ _ _ _ _ _ (half_ends B H X Y r) (ends_single (X, 0))), fan_single.
  assert (E : triangle_moment m n (X, - Y + r) (fy (X, - Y + r)) = (1 + (-1) ^ n) * triangle_moment m n (X, - Y + r) (X, 0)).
  { unfold fy; cbn [fst snd]. rewrite (tm_col m n (- Y + r) 0 (- (- Y + r)) X). change (X, - (- Y + r)) with (fy (X, - Y + r)).
    replace (X, 0) with (fy (X, 0)) at 2 by (unfold fy; cbn [fst snd]; f_equal; ring). rewrite (tm_fy m n (X, 0) (X, - Y + r)), (triangle_moment_swap m n (X, - Y + r) (X, 0)). ring. }
  rewrite E. ring.
Qed.
Lemma odd_sign n : Nat.Odd n -> (-1) ^ n = -1.
Proof. intros [k O]. rewrite O, pow_add, pow_mult. replace ((-1) ^ 2) with 1 by ring. rewrite pow1. ring. Qed.
Lemma shift_02 u p : closed p -> fan_moment 0 2 (map (shift u 0) p) = fan_moment 0 2 p.
Proof. intros C. rewrite (fan_shift_closed _ _ _ _ _ C). cbn [Nat.add rsum Nat.sub pow]. unfold Binomial.C. cbn [fact Nat.mul Nat.add Nat.sub INR]. field. Qed.
Lemma pu_result p : closed p -> (forall m n, fan_moment m n p = fan_moment m n tw) -> boxed [p] 0 B (- H) H ->
  let c := map (translated (- fst (centroid p)) (- snd (centroid p))) p in
  closed c /\ fan_moment 0 0 c = fan_moment 0 0 p /\ fan_moment 1 0 c = 0 /\ fan_moment 0 2 c = fan_moment 0 2 p /\ mirror_z c /\ (forall m n, second m n -> 0 < fan_moment m n c) /\
  exists x0, boxed [c] x0 (x0 + B) (- H) H.
Proof.
  intros C F BX. destruct pu_chain as [EW SW]. assert (H0 : 0 < H) by lra. assert (XB : X <= B) by lra.
  pose proof (closed_ends _ _ (u_full_ends W B H X EW)) as CF. cbv zeta in CF. fold Q in CF. fold full in CF.
  assert (UF : forall m n u, fan_moment m n (map (shift u (- H)) full) = (1 + (-1) ^ n) * fan_moment m n (map (shift u (- H)) Q)) by (intros; apply (u_fan W B H X); assumption).
  assert (UP : forall m n u, second m n -> 0 < fan_moment m n (map (shift u (- H)) Q)) by (intros; apply (u_pos W B H X); assumption).
  assert (A0 : 0 < fan_moment 0 0 p) by (rewrite F, pu_fan, UF; pose proof (UP 0%nat 0%nat 0 (or_introl eq_refl)); cbn [pow]; lra).
  assert (CY : snd (centroid p) = 0).
  { unfold centroid; cbn [snd]. rewrite !moment_fan, (F 0%nat 1%nat), pu_fan, UF. cbn [pow]. unfold Rdiv. ring. }
  destruct (to_centroid p C ltac:(lra)) as (E & C' & F1 & F2 & F0).
  assert (G : forall m n, fan_moment m n (map (translated (- fst (centroid p)) (- snd (centroid p))) p) = fan_moment m n (map (shift (- fst (centroid p)) (- H)) full)).
  { intros m n. rewrite E, CY. set (u := - fst (centroid p)). rewrite (fan_shift_closed m n u (- 0) p C).
    transitivity (fan_moment m n (map (shift u (- 0)) (map (shift 0 (- H)) full))).
    - rewrite (fan_shift_closed m n u (- 0) _ (closed_shift 0 (- H) _ CF)). apply rsum_ext. intros i _. apply rsum_ext. intros j _. now rewrite F, pu_fan.
    - rewrite map_map. f_equal. apply map_ext. intros v. unfold shift; cbn [fst snd]. f_equal; ring. }
  split; [exact C'|]. split; [exact F0|]. split; [exact F1|]. split; [rewrite E, CY, Ropp_0; now apply shift_02|].
  split; [intros m n O; rewrite G, UF, (odd_sign n O); ring|]. split.
  - intros m n K. rewrite G, UF. assert (S1 : (-1) ^ n = 1) by (destruct K as [K|[K|K]]; injection K as -> ->; cbn [pow]; ring). rewrite S1. pose proof (UP m n (- fst (centroid p)) K). lra.
  - exists (- fst (centroid p)). rewrite E, CY. pose proof (boxed_shift (- fst (centroid p)) (- 0) p _ _ _ _ BX) as BX'. rewrite Ropp_0, !Rplus_0_r, Rplus_0_l in BX'. rewrite Ropp_0, (Rplus_comm _ B). exact BX'.
Qed.
Lemma pu_values : fan_moment 0 0 tw = 2 * (B * (H - Y)) + 2 * (X * Y) + 2 * (r ^ 2 * (1 - k0)) /\
  fan_moment 0 2 tw = 2 * B * (H ^ 3 - Y ^ 3) / 3 + 2 * X * Y ^ 3 / 3 + 2 * (r * (Y ^ 3 - (Y - r) ^ 3) / 3 - (k2 * r ^ 4 + 2 * (Y - r) * (k1 * r ^ 3) + (Y - r) ^ 2 * (k0 * r ^ 2))).
Proof.
  split; rewrite <- u_parts_tower, u_parts_fan; [rewrite fillet_00|rewrite fillet_02]; unfold low, web; [rewrite !rect_area|rewrite !rect_moment_02]; cbn [pow]; field.
Qed.
Lemma pu_united S : exact_union (unary_union S) -> exists p, united S u_parts = Ok p /\ closed p /\ (forall m n, fan_moment m n p = fan_moment m n tw) /\ boxed [p] 0 B (- H) H.
Proof.
  intros E. apply (united_ok S u_parts _ _ _ _ _ _ E u_tower); [apply u_parts_tower| |apply u_parts_boxed|apply u_tower_boxed|lra|lra].
  fold tw. rewrite (proj1 pu_values). pose proof k0_near. pose proof pi_bounds.
  pose proof (Rmult_lt_0_compat B (H - Y) ltac:(lra) ltac:(lra)). pose proof (Rmult_lt_0_compat X Y ltac:(lra) ltac:(lra)).
  pose proof (Rmult_lt_0_compat (r ^ 2) (1 - k0) (pow_lt r 2 Hr) ltac:(lra)). lra.
Qed.
End Parallel_U.

Lemma create_U_parts S h b tw tf r : 0 < r -> create_parallel_U S h b tw tf r =
  (do geometry <- united S (u_parts b (h / 2) tw (h / 2 - tf) r); Ok (map (translated (- fst (centroid geometry)) (- snd (centroid geometry))) geometry)).
Proof.
  intros Hr. unfold create_parallel_U. cbv zeta. f_equal. f_equal. unfold u_parts.
  assert (EY : - h / 2 + tf = - (h / 2 - tf)) by field. rewrite EY.
  change [(tw, - (h / 2 - tf)); (tw + r, - (h / 2 - tf)); (tw + r, - (h / 2 - tf) + r); (tw, - (h / 2 - tf) + r)] with (square tw (- (h / 2 - tf)) r).
  rewrite (diff_right _ _ _ Hr).
  change (polygon_of (arc_r tw (- (h / 2 - tf)) r ++ [(tw, - (h / 2 - tf))])) with (fillet_ring tw (- (h / 2 - tf)) r).
  rewrite (flip_fillets tw (- (h / 2 - tf)) r _ _ Hr (or_intror eq_refl)) by field.
  f_equal. f_equal. f_equal. unfold translated, polygon_of. cbn [map app fst snd].
  replace (0 + 0) with 0 by ring. replace (b + 0) with b by ring. replace (h / 2 - tf + (- h + tf)) with (- (h / 2)) by field. replace (h / 2 + (- h + tf)) with (- (h / 2 - tf)) by field. reflexivity.
Qed.
Lemma parallel_U_call S h b tw tf r : exact_union (unary_union S) -> fits (ShParallelU h b tw tf r) ->
  exists p, create_parallel_U S h b tw tf r = Ok p /\ closed p /\ fan_moment 1 0 p = 0 /\ mirror_z p /\ (forall m n, second m n -> 0 < fan_moment m n p) /\ 0 < h /\ 0 < b /\
    (exists x0, boxed [p] x0 (x0 + b) (- (h / 2)) (h / 2)) /\
    0 <= fan_moment 0 0 p - flanged_area 2 h b tw tf r <= 2 * (13 / 10000 * r ^ 2) /\
    0 <= fan_moment 0 2 p - flanged_iy 2 h b tw tf r <= 2 * (13 / 10000 * (r ^ 2 * (h / 2) ^ 2)).
Proof.
  intros X (P1 & P2 & P3 & P4 & P5). rewrite create_U_parts by exact P3.
  set (H := h / 2). set (Y := H - tf).
  assert (HY : r <= Y) by (unfold Y, H; lra). assert (HH : Y < H) by (unfold Y; lra).
  destruct (pu_united b H tw Y r P1 P3 P5 HY HH S X) as (q & E & C & F & BX). rewrite E. cbn [bind].
  destruct (pu_result b H tw Y r P1 P3 P5 HY HH q C F BX) as (C' & F0 & F1 & F2 & MZ & PO & BX').
  eexists. split; [reflexivity|]. split; [exact C'|]. split; [exact F1|]. split; [exact MZ|]. split; [exact PO|]. split; [lra|]. split; [lra|]. split; [exact BX'|].
  rewrite F0, F2, !F. destruct (pu_values b H tw Y r P1 P3 P5 HY HH) as [-> ->]. pose proof k0_near as K0. pose proof (pow_lt r 2 P3) as R2. split.
  - replace (_ - flanged_area 2 h b tw tf r) with (2 * ((PI / 4 - k0) * r ^ 2)) by (unfold flanged_area, Y, H; field).
    assert (0 <= (PI / 4 - k0) * r ^ 2 <= 13 / 10000 * r ^ 2) by (split; [apply Rmult_le_pos; lra|apply Rmult_le_compat_r; lra]). lra.
  - replace (_ - flanged_iy 2 h b tw tf r) with (2 * iy_error r (Y - r)) by (unfold flanged_iy, fillet_2, quarter_2, iy_error, Y, H; field).
    pose proof (iy_error_bound r (Y - r) P3 ltac:(lra)) as BE. replace (Y - r + r) with Y in BE by ring.
    assert (Y ^ 2 <= H ^ 2) by (apply pow_incr; lra). assert (r ^ 2 * Y ^ 2 <= r ^ 2 * H ^ 2) by (apply Rmult_le_compat_l; lra). lra.
Qed.
