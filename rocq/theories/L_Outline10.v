(** The calls for channels and angles. *)
From Coq Require Import Lra Lia.
From Verif Require Import Base L_Calc L_Catalog2 S_Marin M_Marin L_Marin M_MarinInt L_MarinInt2 M_Geo L_Geo M_Profile S_Profile L_Profile M_Catalog S_Catalog M_Outline S_Outline L_Outline L_Outline2 L_Outline3 L_Outline4 L_Outline5 L_Outline6 L_Outline7 L_Outline8 L_Outline9.
Open Scope R_scope.
Open Scope list_scope.

Lemma taper_U_call S h b tw tf r1 r2 s u : exact_offset (offset_curve S) -> fits (ShTaperU h b tw tf r1 r2 s u) ->
  exists p, create_taper_U S h b tw tf r1 r2 s u = Ok p /\ closed p /\ 0 < h /\ fan_moment 1 0 p = 0 /\ mirror_z p /\ (forall m n, second m n -> 0 < fan_moment m n p) /\
    (exists x0, boxed [p] x0 (x0 + b) (- (h / 2)) (h / 2)) /\
    exists th1 th2, 0 <= th1 <= r1 ^ 2 /\ 0 <= th2 <= r2 ^ 2 /\ fan_moment 0 0 p = tw * h + 2 * (b - tw) * (tf + s * ((b - tw) / 2 - u)) + th1 - th2.
Proof.
  intros X (P1 & P2 & P3 & P4 & P5 & P6 & P7 & P8 & P9).
  assert (SB : 0 < s * u) by (apply Rmult_lt_0_compat; lra). assert (SC : 0 < s * (b - u - tw)) by (apply Rmult_lt_0_compat; lra).
  unfold create_taper_U. cbv zeta.
  set (A1 := (b, 0)). set (B1 := (b, tf - s * u)). set (C1 := (b - u, tf)). set (B2 := (tw, tf + s * (b - u - tw))). set (C2 := (tw, h / 2)).
  destruct (rounded S A1 B1 C1 r2 X) as (q1 & R1 & E1 & S1 & th2 & T2 & F2); unfold A1, B1, C1, turn; cbn [fst snd]; try lra.
  { replace (r2 * _) with (r2 * (u * (tf - s * u))) by ring. apply Rmult_lt_0_compat; [lra|]. apply Rmult_lt_0_compat; lra. }
  { replace (_ + _) with ((tf - s * u) * (s * u)) by ring. apply Rmult_le_pos; lra. }
  { far_snd. rewrite !Rabs_right by lra. lra. }
  { far_fst. rewrite Rabs_right by lra. rewrite Rabs_left1 by lra. lra. }
  destruct (rounded S C1 B2 C2 (- r1) X) as (q2 & R2 & E2 & S2 & th1 & T1 & F1); unfold C1, B2, C2, turn; cbn [fst snd]; try lra.
  { replace (- r1 * _) with (r1 * ((b - u - tw) * (h / 2 - (tf + s * (b - u - tw))))) by field. apply Rmult_lt_0_compat; [lra|]. apply Rmult_lt_0_compat; lra. }
  { replace (_ + _) with ((s * (b - u - tw)) * (h / 2 - (tf + s * (b - u - tw)))) by field. apply Rmult_le_pos; lra. }
  { far_fst. rewrite Rabs_Ropp, Rabs_right by lra. rewrite Rabs_left1 by lra. lra. }
  { far_snd. rewrite Rabs_Ropp, !Rabs_right by lra. lra. }
  set (W := q1 ++ tl q2).
  assert (EW : ends W A1 C2) by (apply (join_ends _ _ _ C1); assumption).
  assert (SW : stair W) by (apply (join_stair _ _ A1 C1 C2); assumption).
  assert (HX : 0 < tw) by lra. assert (HB : tw <= b) by lra. assert (HH : 0 < h / 2) by lra.
  assert (M1 : linemerge [(0, h / 2); (0, 0); A1] [round_corner S [A1; B1; C1] r2; round_corner S [C1; B2; C2] (- r1)] = Ok ((0, h / 2) :: (0, 0) :: W)).
  { assert (E0 : ends [(0, h / 2); (0, 0); A1] (0, h / 2) A1) by (split; reflexivity).
    cbn [linemerge]. rewrite (merge_next _ q1 _ (0, h / 2) A1 C1 E0 E1) by (exact R1 || (unfold A1, C1; intros F; injection F; lra)).
    cbn [bind]. rewrite (merge_next _ q2 _ (0, h / 2) C1 C2 (join_ends _ _ _ _ _ E0 E1) E2) by (exact R2 || (unfold C1, C2; intros F; injection F; lra)).
    cbn [bind]. f_equal. unfold W. destruct (ends_cons _ _ _ E1) as [k ->]. reflexivity. }
  unfold A1, B1, C1, B2, C2 in M1. rewrite M1. cbn [bind]. rewrite (mirror_u W b (h / 2) tw) by assumption. cbn [linemerge]. rewrite (merge_u W b (h / 2) tw) by assumption. cbn [bind].
  rewrite (u_polygon W b (h / 2) tw) by assumption. cbn [bind].
  destruct (u_result W b (h / 2) tw HX HB HH EW SW) as (p & OP & CP & AP & XP & MP & PP & BP).
  exists p. split; [now rewrite OP|]. split; [exact CP|]. split; [lra|]. split; [exact XP|]. split; [exact MP|]. split; [exact PP|]. split; [exact BP|].
  exists th1, th2. split; [replace (r1 ^ 2) with ((- r1) ^ 2) by ring; exact T1|]. split; [exact T2|].
  rewrite AP. unfold W. rewrite (join_fan 0 0 _ _ _ _ _ E1 E2), F1, F2.
  destruct (Rlt_dec 0 r2); [|lra]. destruct (Rlt_dec 0 (- r1)); [lra|]. unfold A1, B1, C1, B2, C2, cross; cbn [fst snd]. field.
Qed.

Lemma L_call S h b t1 t2 r1 r2 : exact_offset (offset_curve S) -> fits (ShL h b t1 t2 r1 r2) ->
  exists p, create_L S h b t1 t2 r1 r2 = Ok p /\ closed p /\ 0 < h /\ 0 < b /\ fan_moment 1 0 p = 0 /\ fan_moment 0 1 p = 0 /\ (forall m n, second m n -> 0 < fan_moment m n p) /\
    (exists x0 y0, boxed [p] x0 (x0 + b) y0 (y0 + h)) /\
    exists th1 th2, 0 <= th1 <= r1 ^ 2 /\ 0 <= th2 <= r2 ^ 2 /\ fan_moment 0 0 p = h * t2 + (b - t2) * t1 + th1 / 2 - th2.
Proof.
  intros X (P1 & P2 & P3 & P4 & P5 & P6 & P7).
  unfold create_L. cbv zeta.
  set (A1 := (b, 0)). set (B1 := (b, t1)). set (C1 := (b / 2, t1)). set (B2 := (t2, t1)). set (C2 := (t2, h / 2)). set (B3 := (t2, h)). set (C3 := (0, h)).
  destruct (rounded S A1 B1 C1 r2 X) as (q1 & R1 & E1 & S1 & th2 & T2 & F2); unfold A1, B1, C1, turn; cbn [fst snd]; try lra.
  { replace (r2 * _) with (r2 * (b / 2 * t1)) by field. apply Rmult_lt_0_compat; [lra|]. apply Rmult_lt_0_compat; lra. }
  { far_snd. rewrite !Rabs_right by lra. lra. }
  { far_fst. rewrite Rabs_right by lra. rewrite Rabs_left1 by lra. lra. }
  destruct (rounded S C1 B2 C2 (- r1) X) as (q2 & R2 & E2 & S2 & th1 & T1 & F1); unfold C1, B2, C2, turn; cbn [fst snd]; try lra.
  { replace (- r1 * _) with (r1 * ((b / 2 - t2) * (h / 2 - t1))) by field. apply Rmult_lt_0_compat; [lra|]. apply Rmult_lt_0_compat; lra. }
  { far_fst. rewrite Rabs_Ropp, Rabs_right by lra. rewrite Rabs_left1 by lra. lra. }
  { far_snd. rewrite Rabs_Ropp, !Rabs_right by lra. lra. }
  destruct (rounded S C2 B3 C3 r2 X) as (q3 & R3 & E3 & S3 & th3 & T3 & F3); unfold C2, B3, C3, turn; cbn [fst snd]; try lra.
  { replace (r2 * _) with (r2 * (t2 * (h / 2))) by field. apply Rmult_lt_0_compat; [lra|]. apply Rmult_lt_0_compat; lra. }
  { far_snd. rewrite !Rabs_right by lra. lra. }
  { far_fst. rewrite Rabs_right by lra. rewrite Rabs_left1 by lra. lra. }
  set (V := q1 ++ tl q2). set (W := V ++ tl q3).
  assert (EV : ends V A1 C2) by (apply (join_ends _ _ _ C1); assumption).
  assert (SV : stair V) by (apply (join_stair _ _ A1 C1 C2); assumption).
  assert (EW : ends W A1 C3) by (apply (join_ends _ _ _ C2); assumption).
  assert (SW : stair W) by (apply (join_stair _ _ A1 C2 C3); assumption).
  set (Q := (0, h) :: (0, 0) :: W).
  assert (E0 : ends [(0, h); (0, 0); A1] (0, h) A1) by (split; reflexivity).
  assert (M1 : linemerge [(0, h); (0, 0); A1] [round_corner S [A1; B1; C1] r2; round_corner S [C1; B2; C2] (- r1); round_corner S [C2; B3; C3] r2] = Ok Q).
  { cbn [linemerge]. rewrite (merge_next _ q1 _ (0, h) A1 C1 E0 E1) by (exact R1 || (unfold A1, C1; intros F; injection F; lra)).
    cbn [bind]. rewrite (merge_next _ q2 _ (0, h) C1 C2 (join_ends _ _ _ _ _ E0 E1) E2) by (exact R2 || (unfold C1, C2; intros F; injection F; lra)).
    cbn [bind]. rewrite (merge_next _ q3 _ (0, h) C2 C3 (join_ends _ _ _ _ _ (join_ends _ _ _ _ _ E0 E1) E2) E3) by (exact R3 || (unfold C2, C3; intros F; injection F; lra)).
    cbn [bind]. f_equal. unfold Q, W, V. destruct (ends_cons _ _ _ E1) as [k ->]. reflexivity. }
  unfold A1, B1, C1, B2, C2, B3, C3 in M1. rewrite M1. cbn [bind].
  assert (EQ : ends Q (0, h) (0, h)) by (apply (ends_app _ _ _ _ _ _ (ends_pair (0, h) (0, 0)) EW)).
  assert (PQ : polygonize Q = Ok Q) by (unfold polygonize, Q at 1; rewrite (ends_last _ _ _ (0, h) EQ), (point_eq_true _ _ eq_refl); reflexivity).
  rewrite PQ. cbn [bind]. pose proof (closed_ends _ _ EQ) as CQ.
  assert (PO : forall x y m n, second m n -> 0 < fan_moment m n (map (shift x y) Q)).
  { intros x y m n K.
    assert (EV' : ends (map (shift x y) V) (b + x, y) (t2 + x, h / 2 + y)) by (pose proof (ends_map (shift x y) _ _ _ EV) as E; unfold shift in E at 2 3; unfold A1, C2 in E; cbn [fst snd] in E; replace (0 + y) with y in E by ring; exact E).
    assert (EW' : ends (map (shift x y) W) (b + x, y) (x, h + y)) by (pose proof (ends_map (shift x y) _ _ _ EW) as E; unfold shift in E at 2 3; unfold A1, C3 in E; cbn [fst snd] in E; replace (0 + y) with y in E by ring; replace (0 + x) with x in E by ring; exact E).
    assert (FE : fan_moment m n (map (shift x y) Q) = below m n y (map (shift x y) W) (b + x, y) (x, h + y)).
    { unfold Q. cbn [map]. unfold shift at 1 2. cbn [fst snd]. replace (0 + y) with y by ring. replace (0 + x) with x by ring. rewrite fan_cons2.
      change ((x, y) :: map (shift x y) W) with ([(x, y)] ++ map (shift x y) W). rewrite (fan_ends m n _ _ _ _ _ _ (ends_single _) EW'), fan_single.
      unfold below. cbn [fst snd]. rewrite tm_same. ring. }
    rewrite FE. unfold W. destruct (join_split _ _ _ _ _ EV E3) as (k & K1 & K2 & K3). rewrite K1, map_app. cbn [map].
    pose proof (stair_shift x y _ SW) as FS. unfold W in FS. rewrite K1, map_app in FS. cbn [map] in FS.
    assert (SC : shift x y C2 = (t2 + x, h / 2 + y)) by reflexivity.
    apply below_strict; [exact K| | |exact FS|cbn [snd]; lra|rewrite SC; cbn [snd]; lra|rewrite SC; cbn [fst]; lra].
    - change [shift x y C2] with (map (shift x y) [C2]). rewrite <- map_app, <- K2, SC. exact EV'.
    - pose proof (ends_map (shift x y) _ _ _ E3) as E. rewrite K3 in E. replace (shift x y C3) with (x, h + y) in E by (unfold C3, shift; cbn [fst snd]; f_equal; ring). exact E. }
  assert (PO0 : 0 < fan_moment 0 0 Q) by (rewrite <- (shift_00 0 0 Q CQ); apply PO; now left).
  assert (BX : boxed [Q] 0 b 0 h).
  { split.
    - intros p v [<-|[]] [<-|[<-|I]]; [cbn [fst snd]; lra|cbn [fst snd]; lra|]. pose proof (stair_in _ _ _ v SW EW I) as G. unfold A1, C3 in G. cbn [fst snd] in G. lra.
    - split; [|split; [|split]]; exists Q; [exists (0, 0)|exists (b, 0)|exists (0, 0)|exists (0, h)]; (split; [now left|]); (split; [|reflexivity]).
      + right. now left.
      + right. right. apply (ends_in _ _ _ EW).
      + right. now left.
      + now left. }
  destruct (to_centroid Q CQ ltac:(lra)) as (E & C' & G1 & G2 & G0). rewrite orient_pos by lra.
  eexists. split; [reflexivity|]. split; [exact C'|]. split; [lra|]. split; [lra|]. split; [exact G1|]. split; [exact G2|]. split; [intros m n K; rewrite E; now apply PO|]. split.
  - exists (- fst (centroid Q)), (- snd (centroid Q)). rewrite E. pose proof (boxed_shift (- fst (centroid Q)) (- snd (centroid Q)) Q _ _ _ _ BX) as BX'.
    rewrite !Rplus_0_l in BX'. rewrite (Rplus_comm _ b), (Rplus_comm _ h). exact BX'.
  - exists th1, ((th2 + th3) / 2). split; [replace (r1 ^ 2) with ((- r1) ^ 2) by ring; exact T1|]. split; [lra|]. rewrite G0.
    unfold Q. change ((0, h) :: (0, 0) :: W) with ([(0, h); (0, 0)] ++ W). rewrite (fan_ends 0 0 _ _ _ _ _ _ (ends_pair _ _) EW), fan_pair. unfold W.
    rewrite (join_fan 0 0 _ _ _ _ _ EV E3). unfold V. rewrite (join_fan 0 0 _ _ _ _ _ E1 E2), F1, F2, F3, !tm_00.
    destruct (Rlt_dec 0 r2); [|lra]. destruct (Rlt_dec 0 (- r1)); [lra|]. unfold A1, B1, C1, B2, C2, B3, C3, cross; cbn [fst snd]. field.
Qed.
