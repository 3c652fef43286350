(** The calls for tapered flanges and for angles. *)
From Coq Require Import Lra Lia.
From Verif Require Import Base L_Calc L_Catalog2 S_Marin M_Marin L_Marin M_MarinInt L_MarinInt2 M_Geo L_Geo M_Profile S_Profile L_Profile M_Catalog S_Catalog M_Outline S_Outline L_Outline L_Outline2 L_Outline3 L_Outline4 L_Outline5 L_Outline6 L_Outline7 L_Outline8.
Open Scope R_scope.
Open Scope list_scope.

Ltac far_fst := match goal with |- _ <= dist ?A ?B => apply Rle_trans with (2 := dist_fst A B); cbn [fst snd] end.
Ltac far_snd := match goal with |- _ <= dist ?A ?B => apply Rle_trans with (2 := dist_snd A B); cbn [fst snd] end.

Lemma taper_I_call S h b tw tf r1 r2 s : exact_offset (offset_curve S) -> fits (ShTaperI h b tw tf r1 r2 s) ->
  exists W p, create_taper_I S h b tw tf r1 r2 s = Ok p /\ ends W (b / 2, - (h / 2)) (tw / 2, 0) /\ stair W /\ closed p /\ 0 < h /\
    (forall m n, fan_moment m n p = (1 + (-1) ^ m) * (1 + (-1) ^ n) * fan_moment m n ((0, - (h / 2)) :: W)) /\ boxed [p] (- (b / 2)) (b / 2) (- (h / 2)) (h / 2) /\
    exists th1 th2, 0 <= th1 <= r1 ^ 2 /\ 0 <= th2 <= r2 ^ 2 /\ 4 * fan_moment 0 0 ((0, - (h / 2)) :: W) = tw * h + 2 * (b - tw) * (tf - s * tw / 4) + 2 * th1 - 2 * th2.
Proof.
  intros X (P1 & P2 & P3 & P4 & P5 & P6 & P7 & P8 & P9).
  assert (SB : 0 < s * (b / 4)) by (apply Rmult_lt_0_compat; lra). assert (SC : 0 < s * (b / 4 - tw / 2)) by (apply Rmult_lt_0_compat; lra).
  unfold create_taper_I. cbv zeta. replace (- h / 2) with (- (h / 2)) by field. replace (- b / 2) with (- (b / 2)) by field.
  set (A1 := (b / 2, - (h / 2))). set (B1 := (b / 2, - (h / 2) + tf - b / 4 * s)). set (C1 := (b / 4, - (h / 2) + tf)).
  set (B2 := (tw / 2, - (h / 2) + tf + (b / 4 - tw / 2) * s)). set (C2 := (tw / 2, 0)).
  destruct (rounded S A1 B1 C1 r2 X) as (q1 & R1 & E1 & S1 & th2 & T2 & F2); unfold A1, B1, C1, turn; cbn [fst snd]; try lra.
  { replace (r2 * _) with (r2 * ((b / 4) * (tf - s * (b / 4)))) by field. apply Rmult_lt_0_compat; [lra|]. apply Rmult_lt_0_compat; lra. }
  { replace (_ + _) with ((tf - s * (b / 4)) * (s * (b / 4))) by field. apply Rmult_le_pos; lra. }
  { far_snd. rewrite !Rabs_right by lra. lra. }
  { far_fst. rewrite Rabs_right by lra. rewrite Rabs_left1 by lra. lra. }
  destruct (rounded S C1 B2 C2 (- r1) X) as (q2 & R2 & E2 & S2 & th1 & T1 & F1); unfold C1, B2, C2, turn; cbn [fst snd]; try lra.
  { replace (- r1 * _) with (r1 * ((b / 4 - tw / 2) * (h / 2 - (tf + s * (b / 4 - tw / 2))))) by field. apply Rmult_lt_0_compat; [lra|]. apply Rmult_lt_0_compat; lra. }
  { replace (_ + _) with ((s * (b / 4 - tw / 2)) * (h / 2 - (tf + s * (b / 4 - tw / 2)))) by field. apply Rmult_le_pos; lra. }
  { far_fst. rewrite Rabs_Ropp, Rabs_right by lra. rewrite Rabs_left1 by lra. lra. }
  { far_snd. rewrite Rabs_Ropp, !Rabs_right by lra. lra. }
  set (W := q1 ++ tl q2).
  assert (EW : ends W A1 C2) by (apply (join_ends _ _ _ C1); assumption).
  assert (SW : stair W) by (apply (join_stair _ _ A1 C1 C2); assumption).
  assert (HX : 0 < tw / 2) by lra. assert (HB : tw / 2 <= b / 2) by lra. assert (HH : 0 < h / 2) by lra.
  assert (M1 : linemerge [(0, - (h / 2)); A1] [round_corner S [A1; B1; C1] r2; round_corner S [C1; B2; C2] (- r1)] = Ok ((0, - (h / 2)) :: W)).
  { cbn [linemerge]. rewrite (merge_next [(0, - (h / 2)); A1] q1 _ (0, - (h / 2)) A1 C1 (ends_pair _ _) E1) by (exact R1 || (unfold A1, C1; intros F; injection F; lra)).
    cbn [bind]. rewrite (merge_next _ q2 _ (0, - (h / 2)) C1 C2 (join_ends _ _ _ _ _ (ends_pair _ _) E1) E2) by (exact R2 || (unfold C1, C2; intros F; injection F; lra)).
    cbn [bind]. f_equal. unfold W. destruct (ends_cons _ _ _ E1) as [k ->]. reflexivity. }
  unfold A1, B1, C1, B2, C2 in M1. rewrite M1. cbn [bind]. rewrite (mirror_x W (b / 2) (h / 2) (tw / 2)) by assumption. cbn [linemerge]. rewrite (merge_x W (b / 2) (h / 2) (tw / 2)) by assumption. cbn [bind].
  rewrite (mirror_x2 W (b / 2) (h / 2) (tw / 2)) by assumption. rewrite (merge_y W (b / 2) (h / 2) (tw / 2)) by assumption. cbn [bind].
  rewrite (full_polygon W (b / 2) (h / 2) (tw / 2)) by assumption. cbn [bind].
  destruct (full_oriented W (b / 2) (h / 2) (tw / 2) HX HB HH EW SW) as (p & OP & CP & FP & BP).
  exists W, p. split; [now rewrite OP|]. split; [exact EW|]. split; [exact SW|]. split; [exact CP|]. split; [lra|]. split; [exact FP|]. split; [exact BP|].
  exists th1, th2. split; [replace (r1 ^ 2) with ((- r1) ^ 2) by ring; exact T1|]. split; [exact T2|].
  change ((0, - (h / 2)) :: W) with ([(0, - (h / 2))] ++ W). rewrite (fan_ends 0 0 _ _ _ _ _ _ (ends_single _) EW), fan_single. unfold W. rewrite (join_fan 0 0 _ _ _ _ _ E1 E2), F1, F2, tm_00.
  destruct (Rlt_dec 0 r2); [|lra]. destruct (Rlt_dec 0 (- r1)); [lra|]. unfold A1, B1, C1, B2, C2, cross; cbn [fst snd]. field.
Qed.

(** * Moving a ring to its centroid *)
Lemma closed_shift u v p : closed p -> closed (map (shift u v) p).
Proof.
  intros C. destruct p as [|a p]; [exact I|]. unfold closed in *. cbn [map]. change (shift u v a :: map (shift u v) p) with (map (shift u v) (a :: p)).
  destruct (exists_last (l := a :: p)) as (k & z & E); [discriminate|]. rewrite E in *. rewrite last_last in C. subst z. rewrite map_app. cbn [map]. apply last_last.
Qed.
Lemma shift_00 u v p : closed p -> fan_moment 0 0 (map (shift u v) p) = fan_moment 0 0 p.
Proof. intros C. rewrite (fan_shift_closed _ _ _ _ _ C). cbn [Nat.add rsum Nat.sub pow]. unfold Binomial.C. cbn [fact Nat.mul Nat.add Nat.sub INR]. field. Qed.
Lemma shift_10 u v p : closed p -> fan_moment 1 0 (map (shift u v) p) = fan_moment 1 0 p + u * fan_moment 0 0 p.
Proof. intros C. rewrite (fan_shift_closed _ _ _ _ _ C). cbn [Nat.add rsum Nat.sub pow]. unfold Binomial.C. cbn [fact Nat.mul Nat.add Nat.sub INR]. field. Qed.
Lemma shift_01 u v p : closed p -> fan_moment 0 1 (map (shift u v) p) = fan_moment 0 1 p + v * fan_moment 0 0 p.
Proof. intros C. rewrite (fan_shift_closed _ _ _ _ _ C). cbn [Nat.add rsum Nat.sub pow]. unfold Binomial.C. cbn [fact Nat.mul Nat.add Nat.sub INR]. field. Qed.
Lemma boxed_shift u v p x0 x1 y0 y1 : boxed [p] x0 x1 y0 y1 -> boxed [map (shift u v) p] (x0 + u) (x1 + u) (y0 + v) (y1 + v).
Proof.
  intros (A & (p1 & v1 & [<-|[]] & J1 & E1) & (p2 & v2 & [<-|[]] & J2 & E2) & (p3 & v3 & [<-|[]] & J3 & E3) & (p4 & v4 & [<-|[]] & J4 & E4)).
  split.
  - intros q w [<-|[]] I. apply in_map_iff in I. destruct I as (w' & <- & I). destruct (A p w' (or_introl eq_refl) I). unfold shift; cbn [fst snd]. lra.
  - split; [|split; [|split]]; eexists; [exists (shift u v v1)|exists (shift u v v2)|exists (shift u v v3)|exists (shift u v v4)];
      (split; [now left|]; split; [now apply in_map|unfold shift; cbn [fst snd]; lra]).
Qed.
Lemma to_centroid p : closed p -> fan_moment 0 0 p <> 0 -> let c := map (translated (- fst (centroid p)) (- snd (centroid p))) p in
  c = map (shift (- fst (centroid p)) (- snd (centroid p))) p /\ closed c /\ fan_moment 1 0 c = 0 /\ fan_moment 0 1 c = 0 /\ fan_moment 0 0 c = fan_moment 0 0 p.
Proof.
  intros C N c. assert (E : c = map (shift (- fst (centroid p)) (- snd (centroid p))) p) by reflexivity. split; [exact E|]. rewrite E.
  split; [now apply closed_shift|]. rewrite shift_10, shift_01, shift_00 by exact C. unfold centroid; cbn [fst snd]. rewrite !moment_fan. split; [field; exact N|]. split; [field; exact N|reflexivity].
Qed.
Lemma orient_pos p : 0 < fan_moment 0 0 p -> orient_ext p = p.
Proof. intros P. unfold orient_ext. rewrite shoe_shoelace, <- fan_area. destruct (Rltb_spec (fan_moment 0 0 p) 0); [lra|reflexivity]. Qed.

(** * U section with tapered flanges *)
Section Taper_U.
Variables (W : list (R * R)) (b H X : R).
Hypothesis (HX : 0 < X) (HB : X <= b) (HH : 0 < H) (EW : ends W (b, 0) (X, H)) (SW : stair W).
Let Q := (0, H) :: (0, 0) :: W.
Let g (v : R * R) : R * R := (fst v, 2 * H - snd v).
Lemma u_ends : ends Q (0, H) (X, H).
Proof. apply (ends_app _ _ _ _ _ _ (ends_pair (0, H) (0, 0)) EW). Qed.
Lemma u_in v : In v Q -> 0 <= fst v <= b /\ 0 <= snd v <= H.
Proof. intros [<-|[<-|I]]; [cbn [fst snd]; lra|cbn [fst snd]; lra|]. pose proof (stair_in _ _ _ v SW EW I) as G. cbn [fst snd] in G. lra. Qed.
Lemma mirror_u : map (fun v => translated 0 H (scaled Q 1 (-1) v)) Q = map g Q.
Proof.
  assert (E0 : fold_min snd Q = 0) by (apply fold_min_is; [intros v I; apply u_in in I; lra|exists (0, 0); split; [right; now left|reflexivity]]).
  assert (E1 : fold_max snd Q = H) by (apply fold_max_is; [intros v I; apply u_in in I; lra|exists (0, H); split; [now left|reflexivity]]).
  apply map_ext. intros v. unfold translated, scaled, g; cbn [fst snd]. rewrite E0, E1. f_equal; field.
Qed.
Lemma g_ends : ends (map g Q) (0, H) (X, H).
Proof. pose proof (ends_map g _ _ _ u_ends) as E. unfold g in E at 2 3. cbn [fst snd] in E. replace (2 * H - H) with H in E by ring. exact E. Qed.
Let full := Q ++ tl (rev (map g Q)).
Lemma merge_u : merge2 Q (map g Q) = Ok full.
Proof. rewrite (merge_forms _ _ _ _ _ _ u_ends g_ends). rewrite (point_eq_false (X, H) (0, H)) by (intros F; injection F; lra). now rewrite (point_eq_true (X, H) _ eq_refl). Qed.
Lemma u_full_ends : ends full (0, H) (0, H).
Proof. apply (join_ends _ _ _ (X, H)); [exact u_ends|apply ends_rev, g_ends]. Qed.
Lemma u_polygon : polygonize full = Ok full.
Proof. destruct (ends_cons _ _ _ u_full_ends) as [k EK]. unfold polygonize. rewrite EK at 1. rewrite (ends_last _ _ _ (0, H) u_full_ends). now rewrite (point_eq_true _ _ eq_refl). Qed.
Lemma tl_map {A B} (f : A -> B) l : map f (tl l) = tl (map f l).
Proof. now destruct l. Qed.
Lemma u_shift u : map (shift u (- H)) full = map (shift u (- H)) Q ++ tl (rev (map fy (map (shift u (- H)) Q))).
Proof.
  unfold full. rewrite map_app, tl_map, map_rev, !map_map. f_equal. f_equal. f_equal. apply map_ext. intros v. unfold shift, g, fy; cbn [fst snd]. f_equal. ring.
Qed.
Lemma u_shift_ends u : ends (map (shift u (- H)) Q) (u, 0) (X + u, 0).
Proof. pose proof (ends_map (shift u (- H)) _ _ _ u_ends) as E. unfold shift in E at 2 3. cbn [fst snd] in E. replace (H + - H) with 0 in E by ring. replace (0 + u) with u in E by ring. exact E. Qed.
Lemma u_fan m n u : fan_moment m n (map (shift u (- H)) full) = (1 + (-1) ^ n) * fan_moment m n (map (shift u (- H)) Q).
Proof.
  rewrite u_shift. pose proof (ends_map fy _ _ _ (u_shift_ends u)) as E. unfold fy in E at 2 3. cbn [fst snd] in E. rewrite Ropp_0 in E.
  rewrite (join_fan m n _ _ _ _ _ (u_shift_ends u) (ends_rev _ _ _ E)), fan_rev, fan_fy. ring.
Qed.
Lemma u_below m n u : fan_moment m n (map (shift u (- H)) Q) = below m n (- H) (map (shift u (- H)) W ++ [(u, 0)]) (b + u, - H) (u, 0).
Proof.
  assert (E : ends (map (shift u (- H)) W) (b + u, - H) (X + u, 0)).
  { pose proof (ends_map (shift u (- H)) _ _ _ EW) as E. unfold shift in E at 2 3. cbn [fst snd] in E. replace (H + - H) with 0 in E by ring. replace (0 + - H) with (- H) in E by ring. exact E. }
  unfold Q. cbn [map]. unfold shift at 1 2. cbn [fst snd]. replace (H + - H) with 0 by ring. replace (0 + - H) with (- H) by ring. replace (0 + u) with u by ring.
  rewrite fan_cons2. change ((u, - H) :: map (shift u (- H)) W) with ([(u, - H)] ++ map (shift u (- H)) W). rewrite (fan_ends m n _ _ _ _ _ _ (ends_single _) E), fan_single.
  unfold below. cbn [fst snd]. rewrite (fan_ends m n _ _ _ _ _ _ E (ends_single _)), fan_single, tm_same, tm_axis. ring.
Qed.
Lemma u_pos m n u : second m n -> 0 < fan_moment m n (map (shift u (- H)) Q).
Proof.
  intros K. rewrite u_below. destruct (ends_snoc _ _ _ EW) as [k EK].
  assert (E : ends (map (shift u (- H)) W) (b + u, - H) (X + u, 0)).
  { pose proof (ends_map (shift u (- H)) _ _ _ EW) as E. unfold shift in E at 2 3. cbn [fst snd] in E. replace (H + - H) with 0 in E by ring. replace (0 + - H) with (- H) in E by ring. exact E. }
  pose proof (stair_shift u (- H) _ SW) as F. destruct (ends_snoc _ _ _ E) as [k' EK']. rewrite EK' in *. rewrite <- app_assoc. cbn [app].
  apply below_strict; [exact K|exact E|apply ends_pair| |cbn [snd]; lra|cbn [snd]; lra|cbn [fst]; lra].
  apply stair_join; [exact F|]. intros e [<-|[]]. cbn [fst snd]. lra.
Qed.
Lemma u_area : fan_moment 0 0 full = 2 * fan_moment 0 0 W + X * H.
Proof.
  rewrite <- (shift_00 0 (- H) full (closed_ends _ _ u_full_ends)), u_fan.
  assert (C : closed (Q ++ [(0, H)])) by (apply (closed_ends _ (0, H)); apply (ends_app _ _ _ _ _ _ u_ends (ends_single _))).
  pose proof (shift_00 0 (- H) _ C) as E. rewrite map_app in E. cbn [map] in E. unfold shift at 2 in E. cbn [fst snd] in E. replace (H + - H) with 0 in E by ring. replace (0 + 0) with 0 in E by ring.
  rewrite (fan_ends 0 0 _ _ _ _ _ _ (u_shift_ends 0) (ends_single _)), fan_single, tm_axis in E.
  rewrite (fan_ends 0 0 _ _ _ _ _ _ u_ends (ends_single _)), fan_single in E. unfold Q in E at 2. change ((0, H) :: (0, 0) :: W) with ([(0, H); (0, 0)] ++ W) in E.
  rewrite (fan_ends 0 0 _ _ _ _ _ _ (ends_pair _ _) EW), fan_pair, !tm_00 in E. unfold cross in E; cbn [fst snd] in E. cbn [pow]. lra.
Qed.
Lemma u_boxed : boxed [full] 0 b 0 (2 * H).
Proof.
  assert (IQ : forall v, In v Q -> In v full) by (intros v I; apply in_or_app; now left).
  split.
  - intros p v [<-|[]] I. unfold full in I. apply in_join in I. destruct I as [I|I]; [apply u_in in I; lra|].
    apply in_rev in I. apply in_map_iff in I. destruct I as (w & <- & I). apply u_in in I. unfold g; cbn [fst snd]. lra.
  - split; [|split; [|split]].
    + exists full, (0, H). split; [now left|]. split; [apply IQ; now left|reflexivity].
    + exists full, (b, 0). split; [now left|]. split; [apply IQ; right; right; apply (ends_in _ _ _ EW)|reflexivity].
    + exists full, (0, 0). split; [now left|]. split; [apply IQ; right; now left|reflexivity].
    + exists full, (g (0, 0)). split; [now left|]. split; [|unfold g; cbn [snd]; ring].
      apply in_or_app. right. destruct (ends_snoc _ _ _ g_ends) as [k EK]. assert (J : In (g (0, 0)) (map g Q)) by (apply in_map; right; now left). rewrite EK in *. rewrite rev_app_distr. cbn [rev app tl].
      apply in_app_or in J. destruct J as [J|[J|[]]]; [now apply -> in_rev|]. unfold g in J. cbn [fst snd] in J. injection J. lra.
Qed.
Lemma u_result : exists p, orient_ext (map (translated (- fst (centroid full)) (- snd (centroid full))) full) = p /\ closed p /\
  fan_moment 0 0 p = 2 * fan_moment 0 0 W + X * H /\ fan_moment 1 0 p = 0 /\ mirror_z p /\ (forall m n, second m n -> 0 < fan_moment m n p) /\ exists x0, boxed [p] x0 (x0 + b) (- H) H.
Proof.
  pose proof (closed_ends _ _ u_full_ends) as C.
  assert (A0 : 0 < fan_moment 0 0 full) by (rewrite <- (shift_00 0 (- H) full C), u_fan; pose proof (u_pos 0 0 0 (or_introl eq_refl)); cbn [pow]; lra).
  assert (CY : snd (centroid full) = H).
  { unfold centroid; cbn [snd]. rewrite !moment_fan. pose proof (shift_01 0 (- H) full C) as E. rewrite u_fan in E. cbn [pow] in E.
    apply (Rmult_eq_reg_r (fan_moment 0 0 full)); [|lra]. replace (fan_moment 0 1 full / fan_moment 0 0 full * fan_moment 0 0 full) with (fan_moment 0 1 full) by (field; lra). lra. }
  destruct (to_centroid full C ltac:(lra)) as (E & C' & F1 & F2 & F0). rewrite orient_pos by lra. eexists. split; [reflexivity|]. split; [exact C'|]. split; [rewrite F0; apply u_area|]. split; [exact F1|].
  rewrite E, CY in *. set (u := - fst (centroid full)) in *. split; [|split].
  - intros m n [k O]. rewrite u_fan. assert (S1 : (-1) ^ n = -1) by (rewrite O, pow_add, pow_mult; replace ((-1) ^ 2) with 1 by ring; rewrite pow1; ring). rewrite S1. ring.
  - intros m n K. rewrite u_fan. assert (S1 : (-1) ^ n = 1) by (destruct K as [K|[K|K]]; injection K as -> ->; cbn [pow]; ring). rewrite S1. pose proof (u_pos m n u K). lra.
  - exists u. pose proof (boxed_shift u (- H) full _ _ _ _ u_boxed) as BX. replace (u + b) with (b + u) by ring. replace H with (2 * H + - H) at 3 by ring. replace (- H) with (0 + - H) at 2 by ring. replace u with (0 + u) at 2 by ring. exact BX.
Qed.
End Taper_U.
