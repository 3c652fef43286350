(** Joining rounded corners; the outline of an I section with tapered flanges. *)
From Coq Require Import Lra Lia.
From Verif Require Import Base L_Calc L_Catalog2 S_Marin M_Marin L_Marin M_MarinInt L_MarinInt2 M_Geo L_Geo M_Profile S_Profile M_Catalog S_Catalog M_Outline S_Outline L_Outline L_Outline2 L_Outline3 L_Outline4 L_Outline5 L_Outline6 L_Outline7.
Open Scope R_scope.
Open Scope list_scope.

Lemma dist_fst A B : Rabs (fst B - fst A) <= dist A B.
Proof. unfold dist. rewrite <- sqrt_Rsqr_abs. apply sqrt_le_1_alt. unfold Rsqr. pose proof (pow2_ge_0 (snd B - snd A)). lra. Qed.
Lemma dist_snd A B : Rabs (snd B - snd A) <= dist A B.
Proof. unfold dist. rewrite <- sqrt_Rsqr_abs. apply sqrt_le_1_alt. unfold Rsqr. pose proof (pow2_ge_0 (fst B - fst A)). lra. Qed.
Lemma point_eq_true v w : v = w -> point_eq v w = true.
Proof. intros ->. unfold point_eq. destruct (Reqb_spec (fst w) (fst w)); [|lra]. destruct (Reqb_spec (snd w) (snd w)); [reflexivity|lra]. Qed.
Lemma point_eq_false v w : v <> w -> point_eq v w = false.
Proof. intros N. unfold point_eq. destruct (Reqb_spec (fst v) (fst w)) as [E1|]; [|reflexivity]. destruct (Reqb_spec (snd v) (snd w)) as [E2|]; [|reflexivity]. exfalso. apply N. destruct v, w; cbn [fst snd] in *; congruence. Qed.
Lemma ends_last l a b d : ends l a b -> last l d = b.
Proof. intros E. destruct (ends_snoc _ _ _ E) as [k ->]. apply last_last. Qed.
Lemma ends_unique l a b c d : ends l a b -> ends l c d -> a = c /\ b = d.
Proof. intros [E1 E2] [E3 E4]. rewrite E3 in E1. rewrite E4 in E2. split; congruence. Qed.
Lemma merge_forms a b a0 a1 b0 b1 : ends a a0 a1 -> ends b b0 b1 ->
  merge2 a b = if point_eq a1 b0 then Ok (a ++ tl b) else if point_eq a1 b1 then Ok (a ++ tl (rev b)) else if point_eq a0 b0 then Ok (rev a ++ tl b)
    else if point_eq a0 b1 then Ok (b ++ tl a) else Err AttributeError.
Proof.
  intros E1 E2. destruct (ends_cons _ _ _ E1) as [k1 K1]. destruct (ends_cons _ _ _ E2) as [k2 K2].
  unfold merge2. rewrite K1, K2. rewrite <- K1, <- K2. rewrite (ends_last a a0 a1 a0 E1), (ends_last b b0 b1 b0 E2). reflexivity.
Qed.
Lemma merge_next a q b a0 a1 c : ends a a0 a1 -> ends q a1 c -> a1 <> c -> b = q \/ b = rev q -> merge2 a b = Ok (a ++ tl q).
Proof.
  intros E1 E2 N [-> | ->].
  - rewrite (merge_forms _ _ _ _ _ _ E1 E2), (point_eq_true a1 a1 eq_refl). reflexivity.
  - rewrite (merge_forms _ _ _ _ _ _ E1 (ends_rev _ _ _ E2)), (point_eq_false _ _ N), (point_eq_true a1 a1 eq_refl), rev_involutive. reflexivity.
Qed.
Lemma join_ends l1 l2 a v b : ends l1 a v -> ends l2 v b -> ends (l1 ++ tl l2) a b.
Proof.
  intros E1 E2. destruct (ends_cons _ _ _ E2) as [k ->]. cbn [tl]. destruct k as [|c k].
  - rewrite app_nil_r. assert (b = v) by (destruct E2 as [_ E2]; now injection E2). now subst b.
  - apply (ends_app _ _ _ v c b E1). now apply (ends_tail v).
Qed.
Lemma join_fan m n l1 l2 a v b : ends l1 a v -> ends l2 v b -> fan_moment m n (l1 ++ tl l2) = fan_moment m n l1 + fan_moment m n l2.
Proof.
  intros E1 E2. destruct (ends_cons _ _ _ E2) as [k ->]. cbn [tl]. destruct k as [|c k]; [rewrite app_nil_r, fan_single; ring|].
  rewrite (fan_ends m n _ _ _ _ _ _ E1 (ends_tail _ _ _ _ E2)), fan_cons2. ring.
Qed.
Lemma join_stair l1 l2 a v b : ends l1 a v -> ends l2 v b -> stair l1 -> stair l2 -> stair (l1 ++ tl l2).
Proof.
  intros E1 E2 S1 S2. destruct (ends_cons _ _ _ E2) as [k ->]. cbn [tl]. destruct k as [|c k]; [now rewrite app_nil_r|].
  destruct (stair_cons _ _ _ S2) as (X & Y & S3). apply (stair_app _ _ a v c b E1 (ends_tail _ _ _ _ E2) S1 S3 X Y).
Qed.
Lemma join_split l1 l2 a v b : ends l1 a v -> ends l2 v b -> exists k, l1 ++ tl l2 = k ++ v :: tl l2 /\ l1 = k ++ [v] /\ l2 = v :: tl l2.
Proof. intros E1 E2. destruct (ends_snoc _ _ _ E1) as [k ->]. destruct (ends_cons _ _ _ E2) as [k2 ->]. exists k. cbn [tl]. rewrite <- app_assoc. auto. Qed.
Lemma in_join l1 l2 (v : R * R) : In v (l1 ++ tl l2) -> In v l1 \/ In v l2.
Proof. intros I. apply in_app_or in I. destruct I as [I|I]; [now left|right]. destruct l2; [destruct I|now right]. Qed.

Lemma rounded S A B C r : exact_offset (offset_curve S) -> 0 < r * turn A B C -> 0 <= (fst B - fst A) * (fst C - fst B) + (snd B - snd A) * (snd C - snd B) ->
  Rabs r <= dist A B -> Rabs r <= dist B C -> fst B <= fst A -> fst C <= fst B -> snd A <= snd B -> snd B <= snd C ->
  exists q, (round_corner S [A; B; C] r = q \/ round_corner S [A; B; C] r = rev q) /\ ends q A C /\ stair q /\
  exists th, 0 <= th <= r ^ 2 /\ fan_moment 0 0 q = (cross A B + cross B C) / 2 - (if Rlt_dec 0 r then th else - th) / 2.
Proof.
  intros X T D D1 D2 X1 X2 Y1 Y2.
  assert (N : turn A B C <> 0) by (intros Z; rewrite Z in T; lra).
  assert (SG : 0 < r <-> 0 < turn A B C).
  { split; intros P.
    - destruct (Rlt_dec 0 (turn A B C)) as [|Q]; [assumption|]. pose proof (Rmult_le_pos r (- turn A B C) ltac:(lra) ltac:(lra)). lra.
    - destruct (Rlt_dec 0 r) as [|Q]; [assumption|]. pose proof (Rmult_le_pos (- r) (turn A B C) ltac:(lra) ltac:(lra)). lra. }
  assert (G : forall p, cuts_corner (Rabs r) A B C p -> ends p A C /\ stair p /\ exists th, 0 <= th <= r ^ 2 /\ fan_moment 0 0 p = (cross A B + cross B C) / 2 - (if Rlt_dec 0 r then th else - th) / 2).
  { intros p CC. destruct (cut _ _ _ _ _ N CC) as (E & ST & th & TH & FE). split; [exact E|]. split.
    - intros e I. destruct (ST e I) as (s & t & S0 & T0 & EX & EY). pose proof (Rmult_le_pos s (fst A - fst B) S0 ltac:(lra)). pose proof (Rmult_le_pos t (fst B - fst C) T0 ltac:(lra)).
      pose proof (Rmult_le_pos s (snd B - snd A) S0 ltac:(lra)). pose proof (Rmult_le_pos t (snd C - snd B) T0 ltac:(lra)). lra.
    - exists th. rewrite pow2_abs in TH. split; [exact TH|]. rewrite FE. destruct (Rlt_dec 0 (turn A B C)), (Rlt_dec 0 r); tauto || reflexivity. }
  unfold round_corner. destruct (X A B C r T D D1 D2) as [CC|CC].
  - eexists. split; [left; reflexivity|]. now apply G.
  - eexists. split; [right; symmetry; apply rev_involutive|]. now apply G.
Qed.

(** * I section with tapered flanges *)
Section Taper_I.
Variables (W : list (R * R)) (B H X v0 : R).
Hypothesis (HX : 0 < X) (HB : X <= B) (HH : 0 < H) (EW : ends W (B, - H) (X, 0)) (SW : stair W).
Let Q := (0, - H) :: W.
Lemma q_ends : ends Q (0, - H) (X, 0).
Proof. apply (ends_app _ _ _ _ _ _ (ends_single (0, - H)) EW). Qed.
Lemma q_in v : In v Q -> 0 <= fst v <= B /\ - H <= snd v <= 0.
Proof. intros [<-|I]; [cbn [fst snd]; lra|]. pose proof (stair_in _ _ _ v SW EW I) as G. cbn [fst snd] in G. lra. Qed.
Lemma tm_axis m n x1 x2 : triangle_moment m n (x1, 0) (x2, 0) = 0.
Proof. rewrite (tm_row m n x1 0 x2 0), (triangle_moment_swap m n (0, 0) (x1, 0)), !tm_origin. ring. Qed.
Lemma q_below m n : fan_moment m n Q = below m n (- H) (W ++ [(0, 0)]) (B, - H) (0, 0).
Proof.
  unfold Q. change ((0, - H) :: W) with ([(0, - H)] ++ W). rewrite (fan_ends m n _ _ _ _ _ _ (ends_single _) EW), fan_single.
  unfold below. cbn [fst snd]. rewrite (fan_ends m n _ _ _ _ _ _ EW (ends_single _)), fan_single, tm_same, tm_axis, tm_origin. ring.
Qed.
Lemma q_pos m n : second m n -> 0 < fan_moment m n Q.
Proof.
  intros K. rewrite q_below. destruct (ends_snoc _ _ _ EW) as [k EK]. rewrite EK, <- app_assoc. cbn [app].
  apply below_strict; [exact K|rewrite <- EK; exact EW|apply ends_pair| |cbn [snd]; lra|cbn [snd]; lra|cbn [fst]; lra].
  apply stair_join; [rewrite <- EK; exact SW|]. intros e [<-|[]]. cbn [fst snd]. lra.
Qed.
Lemma mirror_x : map (fun v => translated (- B) 0 (scaled Q (-1) 1 v)) Q = map fx Q.
Proof.
  assert (E0 : fold_min fst Q = 0) by (apply fold_min_is; [intros v I; apply q_in in I; lra|exists (0, - H); split; [now left|reflexivity]]).
  assert (E1 : fold_max fst Q = B) by (apply fold_max_is; [intros v I; apply q_in in I; lra|exists (B, - H); split; [right; apply (ends_in _ _ _ EW)|reflexivity]]).
  apply map_ext. intros v. unfold translated, scaled, fx; cbn [fst snd]. rewrite E0, E1. f_equal; field.
Qed.
Let half := rev Q ++ tl (map fx Q).
Lemma fx_start : fx (0, - H) = (0, - H).
Proof. unfold fx; cbn [fst snd]. f_equal. ring. Qed.
Lemma fx_q_ends : ends (map fx Q) (0, - H) (- X, 0).
Proof. pose proof (ends_map fx _ _ _ q_ends) as E. rewrite fx_start in E. exact E. Qed.
Lemma merge_x : merge2 Q (map fx Q) = Ok half.
Proof.
  rewrite (merge_forms _ _ _ _ _ _ q_ends fx_q_ends).
  rewrite (point_eq_false (X, 0)) by (intros F; injection F; lra). rewrite (point_eq_false (X, 0)) by (intros F; injection F; lra). now rewrite (point_eq_true (0, - H) _ eq_refl).
Qed.
Lemma half_ends' : ends half (X, 0) (- X, 0).
Proof. apply (join_ends _ _ _ (0, - H)); [apply ends_rev, q_ends|exact fx_q_ends]. Qed.
Lemma half_in' v : In v half -> - B <= fst v <= B /\ - H <= snd v <= 0.
Proof.
  intros I. apply in_join in I. destruct I as [I|I]; [apply in_rev in I; apply q_in in I; lra|].
  apply in_map_iff in I. destruct I as (w & <- & I). apply q_in in I. unfold fx; cbn [fst snd]. lra.
Qed.
Lemma half_fan' m n : fan_moment m n half = - (1 + (-1) ^ m) * fan_moment m n Q.
Proof. unfold half. rewrite (join_fan m n _ _ _ _ _ (ends_rev _ _ _ q_ends) fx_q_ends), fan_rev, fan_fx. ring. Qed.
Lemma half_has v : In v Q -> In v half.
Proof. intros I. apply in_or_app. left. now apply -> in_rev. Qed.
Lemma half_has_fx v : In v Q -> In (fx v) half.
Proof.
  intros [<-|I]; [rewrite fx_start; apply half_has; now left|]. apply in_or_app. right. unfold Q. cbn [map tl]. now apply in_map.
Qed.
Lemma mirror_x2 : map (fun v => translated 0 H (scaled half 1 (-1) v)) half = map fy half.
Proof.
  assert (E0 : fold_min snd half = - H) by (apply fold_min_is; [intros v I; apply half_in' in I; lra|exists (0, - H); split; [apply half_has; now left|reflexivity]]).
  assert (E1 : fold_max snd half = 0) by (apply fold_max_is; [intros v I; apply half_in' in I; lra|exists (X, 0); split; [apply (ends_in _ _ _ half_ends')|reflexivity]]).
  apply map_ext. intros v. unfold translated, scaled, fy; cbn [fst snd]. rewrite E0, E1. f_equal; field.
Qed.
Let full := half ++ tl (rev (map fy half)).
Lemma fy_half_ends : ends (map fy half) (X, 0) (- X, 0).
Proof. pose proof (ends_map fy _ _ _ half_ends') as E. unfold fy in E at 2 3. cbn [fst snd] in E. rewrite Ropp_0 in E. exact E. Qed.
Lemma merge_y : merge2 half (map fy half) = Ok full.
Proof.
  rewrite (merge_forms _ _ _ _ _ _ half_ends' fy_half_ends). rewrite (point_eq_false (- X, 0) (X, 0)) by (intros F; injection F; lra). now rewrite (point_eq_true (- X, 0) _ eq_refl).
Qed.
Lemma full_ends : ends full (X, 0) (X, 0).
Proof. apply (join_ends _ _ _ (- X, 0)); [exact half_ends'|apply ends_rev, fy_half_ends]. Qed.
Lemma full_fan m n : fan_moment m n full = - (1 + (-1) ^ m) * (1 + (-1) ^ n) * fan_moment m n Q.
Proof. unfold full. rewrite (join_fan m n _ _ _ _ _ half_ends' (ends_rev _ _ _ fy_half_ends)), fan_rev, fan_fy, half_fan'. ring. Qed.
Lemma full_polygon : polygonize full = Ok full.
Proof.
  destruct (ends_cons _ _ _ full_ends) as [k EK]. unfold polygonize. rewrite EK at 1. rewrite (ends_last _ _ _ (X, 0) full_ends). now rewrite (point_eq_true _ _ eq_refl).
Qed.
Lemma full_boxed : boxed [full] (- B) B (- H) H.
Proof.
  assert (IH : forall v, In v half -> In v full) by (intros v I; apply in_or_app; now left).
  assert (IF : forall v, In v half -> In (fy v) full).
  { intros v I. destruct (ends_snoc _ _ _ (ends_map fy _ _ _ half_ends')) as [k EK]. pose proof (in_map fy _ _ I) as J. rewrite EK in J. apply in_app_or in J. destruct J as [J|[J|[]]].
    - apply in_or_app. right. rewrite EK, rev_app_distr. cbn [rev app tl]. now apply -> in_rev.
    - rewrite <- J. unfold fy; cbn [fst snd]. rewrite Ropp_0. apply IH, (ends_in _ _ _ half_ends'). }
  assert (IB : In (B, - H) Q) by (right; apply (ends_in _ _ _ EW)).
  split.
  - intros p v [<-|[]] I. unfold full in I. apply in_join in I. destruct I as [I|I]; [apply half_in' in I; lra|].
    apply in_rev in I. apply in_map_iff in I. destruct I as (w & <- & I). apply half_in' in I. unfold fy; cbn [fst snd]. lra.
  - split; [|split; [|split]].
    + exists full, (fx (B, - H)). split; [now left|]. split; [apply IH; now apply half_has_fx|reflexivity].
    + exists full, (B, - H). split; [now left|]. split; [apply IH; now apply half_has|reflexivity].
    + exists full, (B, - H). split; [now left|]. split; [apply IH; now apply half_has|reflexivity].
    + exists full, (fy (B, - H)). split; [now left|]. split; [apply IF; now apply half_has|unfold fy; cbn [snd]; ring].
Qed.
Lemma full_oriented : exists p, orient_ext full = p /\ closed p /\ (forall m n, fan_moment m n p = (1 + (-1) ^ m) * (1 + (-1) ^ n) * fan_moment m n Q) /\ boxed [p] (- B) B (- H) H.
Proof.
  destruct (orient_spec full (closed_ends _ _ full_ends)) as (C1 & C2 & C3). eexists. split; [reflexivity|]. split; [exact C1|]. split; [|apply C3, full_boxed].
  intros m n. rewrite C2, region_neg; [rewrite full_fan; ring|]. rewrite full_fan. cbn [pow]. pose proof (q_pos 0 0 (or_introl eq_refl)). lra.
Qed.
End Taper_I.
