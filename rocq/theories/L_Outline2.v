(** Fillets: quarters of the polygon that stands for a circle. *)
From Coq Require Import Lra Lia.
From Verif Require Import Base S_Marin M_Marin L_Marin M_Geo L_Geo M_Profile S_Profile M_Catalog S_Catalog M_Outline S_Outline L_Outline.
Open Scope R_scope.
Open Scope list_scope.

Definition ang (i : nat) : R := INR i * (PI / 32).
Definition vert (c : R * R) (r : R) (i : nat) : R * R := (fst c + r * cos (ang i), snd c - r * sin (ang i)).
Definition dlt : R := PI / 32.
Lemma ang_S i : ang (S i) = ang i + dlt.
Proof. unfold ang, dlt. rewrite S_INR. ring. Qed.
Lemma ang_16 : ang 16 = PI / 2.
Proof. unfold ang. cbn [INR]. field. Qed.
Lemma ang_32 : ang 32 = PI.
Proof. unfold ang. cbn [INR]. field. Qed.
Lemma ang_lt i j : (i < j)%nat -> ang i < ang j.
Proof. intros H. apply lt_INR in H. unfold ang. apply Rmult_lt_compat_r; [pose proof PI_RGT_0; lra|exact H]. Qed.
Lemma ang_48 : ang 48 = 3 * (PI / 2).
Proof. unfold ang. cbn [INR]. field. Qed.
Lemma ang_64 : ang 64 = 2 * PI.
Proof. unfold ang. cbn [INR]. field. Qed.
Lemma ang_0 : ang 0 = 0.
Proof. unfold ang. cbn [INR]. ring. Qed.

(** * Which vertices are in a quarter *)
Lemma signs_1 i : (i <= 16)%nat -> 0 <= cos (ang i) /\ 0 <= sin (ang i).
Proof.
  intros H. assert (0 <= ang i) by (rewrite <- ang_0; destruct i; [lra|apply Rlt_le, ang_lt; lia]).
  assert (ang i <= PI / 2) by (rewrite <- ang_16; destruct (Nat.eq_dec i 16) as [->|]; [lra|apply Rlt_le, ang_lt; lia]).
  pose proof PI_RGT_0. split; [apply cos_ge_0; lra|apply sin_ge_0; lra].
Qed.
Lemma signs_2 i : (16 <= i <= 32)%nat -> cos (ang i) <= 0 /\ 0 <= sin (ang i).
Proof.
  intros H. assert (PI / 2 <= ang i) by (rewrite <- ang_16; destruct (Nat.eq_dec i 16) as [->|]; [lra|apply Rlt_le, ang_lt; lia]).
  assert (ang i <= PI) by (rewrite <- ang_32; destruct (Nat.eq_dec i 32) as [->|]; [lra|apply Rlt_le, ang_lt; lia]).
  pose proof PI_RGT_0. split; [apply cos_le_0; lra|apply sin_ge_0; lra].
Qed.
Lemma cos_neg i : (16 < i <= 32)%nat -> cos (ang i) < 0.
Proof.
  intros H. assert (PI / 2 < ang i) by (rewrite <- ang_16; apply ang_lt; lia).
  assert (ang i <= PI) by (rewrite <- ang_32; destruct (Nat.eq_dec i 32) as [->|]; [lra|apply Rlt_le, ang_lt; lia]).
  pose proof PI_RGT_0. apply cos_lt_0; lra.
Qed.
Lemma cos_pos i : (i < 16)%nat -> 0 < cos (ang i).
Proof.
  intros H. assert (0 <= ang i) by (rewrite <- ang_0; destruct i; [lra|apply Rlt_le, ang_lt; lia]).
  assert (ang i < PI / 2) by (rewrite <- ang_16; apply ang_lt; lia). pose proof PI_RGT_0. apply cos_gt_0; lra.
Qed.
Lemma sin_neg i : (32 < i < 64)%nat -> sin (ang i) < 0.
Proof.
  intros H. assert (PI < ang i) by (rewrite <- ang_32; apply ang_lt; lia). assert (ang i < 2 * PI) by (rewrite <- ang_64; apply ang_lt; lia).
  apply sin_lt_0; lra.
Qed.
Lemma filter_map {A B} (f : B -> bool) (g : A -> B) l : filter f (map g l) = map g (filter (fun x => f (g x)) l).
Proof. induction l as [|x l IH]; [reflexivity|]. cbn. destruct (f (g x)); cbn; now rewrite IH. Qed.
Lemma filter_all (f : nat -> bool) a n : (forall i, (a <= i < a + n)%nat -> f i = true) -> filter f (seq a n) = seq a n.
Proof.
  revert a. induction n as [|n IH]; intros a H; [reflexivity|]. cbn [seq filter]. rewrite H by lia. f_equal. apply IH. intros i Hi. apply H. lia.
Qed.
Lemma filter_none (f : nat -> bool) a n : (forall i, (a <= i < a + n)%nat -> f i = false) -> filter f (seq a n) = [].
Proof.
  revert a. induction n as [|n IH]; intros a H; [reflexivity|]. cbn [seq filter]. rewrite H by lia. apply IH. intros i Hi. apply H. lia.
Qed.
Lemma fold_min_is f l m : (forall v, In v l -> m <= f v) -> (exists v, In v l /\ f v = m) -> fold_min f l = m.
Proof.
  intros H (v & I & E). assert (N : l <> []) by (intros ->; destruct I). destruct (fold_min_in f l N) as (w & J & F).
  pose proof (fold_min_le f l v I). specialize (H w J). lra.
Qed.
Lemma fold_max_is f l m : (forall v, In v l -> f v <= m) -> (exists v, In v l /\ f v = m) -> fold_max f l = m.
Proof.
  intros H (v & I & E). assert (N : l <> []) by (intros ->; destruct I). destruct (fold_max_in f l N) as (w & J & F).
  pose proof (fold_max_ge f l v I). specialize (H w J). lra.
Qed.
Definition square (x y r : R) : list (R * R) := [(x, y); (x + r, y); (x + r, y + r); (x, y + r)].
Ltac four := intros ? [<-|[<-|[<-|[<-|[]]]]]; cbn [fst snd]; lra.
Lemma square_box x y r : 0 < r -> fold_min fst (square x y r) = x /\ fold_max fst (square x y r) = x + r /\ fold_min snd (square x y r) = y /\ fold_max snd (square x y r) = y + r.
Proof.
  intros Hr. split; [|split; [|split]]; unfold square.
  - apply fold_min_is; [four|exists (x, y); split; [now left|reflexivity]].
  - apply fold_max_is; [four|exists (x + r, y); split; [right; now left|reflexivity]].
  - apply fold_min_is; [four|exists (x, y); split; [now left|reflexivity]].
  - apply fold_max_is; [four|exists (x + r, y + r); split; [right; right; now left|reflexivity]].
Qed.
Lemma buffer_vert c r : buffer c r = map (vert c r) (seq 0 64).
Proof. reflexivity. Qed.
Lemma cos_bounds i : -1 <= cos (ang i) <= 1.
Proof. apply COS_bound. Qed.
Lemma sin_bounds i : -1 <= sin (ang i) <= 1.
Proof. apply SIN_bound. Qed.
Ltac tests := rewrite ?Bool.andb_true_iff, ?Bool.andb_false_iff.
Definition arc_r (x y r : R) : list (R * R) := map (vert (x + r, y + r) r) (seq 16 17).
Definition arc_l (x y r : R) : list (R * R) := map (vert (x - r, y + r) r) (seq 0 17).
Lemma rl_true a b : a <= b -> Rleb a b = true.
Proof. intros. destruct (Rleb_spec a b); [reflexivity|contradiction]. Qed.
Lemma rl_false a b : b < a -> Rleb a b = false.
Proof. intros. destruct (Rleb_spec a b); [lra|reflexivity]. Qed.
Lemma rt_true a b : a < b -> Rltb a b = true.
Proof. intros. destruct (Rltb_spec a b); [reflexivity|contradiction]. Qed.
Lemma rt_false a b : b <= a -> Rltb a b = false.
Proof. intros. destruct (Rltb_spec a b); [lra|reflexivity]. Qed.
Lemma scale_le r k : 0 < r -> k <= 0 -> r * k <= 0.
Proof. intros. pose proof (Rmult_le_pos r (- k) ltac:(lra) ltac:(lra)). lra. Qed.
Lemma scale_ge r k : 0 < r -> 0 <= k -> 0 <= r * k.
Proof. intros. apply Rmult_le_pos; lra. Qed.
Lemma scale_one r k : 0 < r -> -1 <= k <= 1 -> - r <= r * k <= r.
Proof. intros. split; [pose proof (Rmult_le_pos r (k + 1) ltac:(lra) ltac:(lra))|pose proof (Rmult_le_pos r (1 - k) ltac:(lra) ltac:(lra))]; lra. Qed.
Lemma diff_right x y r : 0 < r -> difference (square x y r) (x + r, y + r) r = polygon_of (arc_r x y r ++ [(x, y)]).
Proof.
  intros Hr. unfold difference. destruct (square_box x y r Hr) as (-> & -> & -> & ->). f_equal. f_equal.
  - rewrite buffer_vert, filter_map. unfold arc_r. f_equal.
    change (seq 0 64) with (seq 0 16 ++ seq 16 17 ++ seq 33 31). rewrite !filter_app.
    rewrite filter_none, filter_all, filter_none; [now rewrite app_nil_r| | |].
    + intros i Hi. pose proof (sin_neg i ltac:(lia)) as S1. unfold vert; cbn [fst snd].
      rewrite (rl_false (y + r - r * sin (ang i)) (y + r)) by (pose proof (Rmult_lt_0_compat r (- sin (ang i)) Hr ltac:(lra)); lra).
      apply Bool.andb_false_r.
    + intros i Hi. destruct (signs_2 i ltac:(lia)) as [C1 S1]. pose proof (scale_one r _ Hr (cos_bounds i)). pose proof (scale_one r _ Hr (sin_bounds i)).
      pose proof (scale_le r _ Hr C1). pose proof (scale_ge r _ Hr S1). unfold vert; cbn [fst snd].
      rewrite !rl_true by lra. reflexivity.
    + intros i Hi. pose proof (cos_pos i ltac:(lia)) as C1. unfold vert; cbn [fst snd].
      rewrite (rl_false (x + r + r * cos (ang i)) (x + r)) by (pose proof (Rmult_lt_0_compat r _ Hr C1); lra).
      rewrite Bool.andb_false_r. reflexivity.
  - unfold square. cbn [filter fst snd].
    assert (0 < r ^ 2) by (apply pow_lt; lra).
    rewrite rt_true by (replace ((x - (x + r)) ^ 2 + (y - (y + r)) ^ 2) with (2 * r ^ 2) by ring; lra).
    rewrite !rt_false; [reflexivity| | |].
    + replace ((x - (x + r)) ^ 2 + (y + r - (y + r)) ^ 2) with (r ^ 2) by ring. lra.
    + replace ((x + r - (x + r)) ^ 2 + (y + r - (y + r)) ^ 2) with 0 by ring. lra.
    + replace ((x + r - (x + r)) ^ 2 + (y - (y + r)) ^ 2) with (r ^ 2) by ring. lra.
Qed.
Definition square_l (x y r : R) : list (R * R) := [(x - r, y); (x, y); (x, y + r); (x - r, y + r)].
Lemma square_l_box x y r : 0 < r -> fold_min fst (square_l x y r) = x - r /\ fold_max fst (square_l x y r) = x /\ fold_min snd (square_l x y r) = y /\ fold_max snd (square_l x y r) = y + r.
Proof.
  intros Hr. split; [|split; [|split]]; unfold square_l.
  - apply fold_min_is; [four|exists (x - r, y); split; [now left|reflexivity]].
  - apply fold_max_is; [four|exists (x, y); split; [right; now left|reflexivity]].
  - apply fold_min_is; [four|exists (x, y); split; [right; now left|reflexivity]].
  - apply fold_max_is; [four|exists (x, y + r); split; [right; right; now left|reflexivity]].
Qed.
Lemma diff_left x y r : 0 < r -> difference (square_l x y r) (x - r, y + r) r = polygon_of (arc_l x y r ++ [(x, y)]).
Proof.
  intros Hr. unfold difference. destruct (square_l_box x y r Hr) as (-> & -> & -> & ->). f_equal. f_equal.
  - rewrite buffer_vert, filter_map. unfold arc_l. f_equal.
    change (seq 0 64) with (seq 0 17 ++ seq 17 16 ++ seq 33 31). rewrite !filter_app.
    rewrite filter_all, filter_none, filter_none; [now rewrite app_nil_r| | |].
    + intros i Hi. pose proof (sin_neg i ltac:(lia)) as S1. unfold vert; cbn [fst snd].
      rewrite (rl_false (y + r - r * sin (ang i)) (y + r)) by (pose proof (Rmult_lt_0_compat r (- sin (ang i)) Hr ltac:(lra)); lra).
      apply Bool.andb_false_r.
    + intros i Hi. pose proof (cos_neg i ltac:(lia)) as C1. unfold vert; cbn [fst snd].
      rewrite (rl_false (x - r) (x - r + r * cos (ang i))) by (pose proof (Rmult_lt_0_compat r (- cos (ang i)) Hr ltac:(lra)); lra). reflexivity.
    + intros i Hi. destruct (signs_1 i ltac:(lia)) as [C1 S1]. pose proof (scale_one r _ Hr (cos_bounds i)). pose proof (scale_one r _ Hr (sin_bounds i)).
      pose proof (scale_ge r _ Hr C1). pose proof (scale_ge r _ Hr S1). unfold vert; cbn [fst snd].
      rewrite !rl_true by lra. reflexivity.
  - unfold square_l. cbn [filter fst snd].
    assert (0 < r ^ 2) by (apply pow_lt; lra).
    rewrite (rt_true (r ^ 2) ((x - (x - r)) ^ 2 + (y - (y + r)) ^ 2)) by (replace ((x - (x - r)) ^ 2 + (y - (y + r)) ^ 2) with (2 * r ^ 2) by ring; lra).
    rewrite !rt_false; [reflexivity| | |].
    + replace ((x - r - (x - r)) ^ 2 + (y + r - (y + r)) ^ 2) with 0 by ring. lra.
    + replace ((x - (x - r)) ^ 2 + (y + r - (y + r)) ^ 2) with (r ^ 2) by ring. lra.
    + replace ((x - r - (x - r)) ^ 2 + (y - (y + r)) ^ 2) with (r ^ 2) by ring. lra.
Qed.

(** * Ends, mirror images *)
Lemma seq_ends a n : hd_error (seq a (S n)) = Some a /\ hd_error (rev (seq a (S n))) = Some (a + n)%nat.
Proof. split; [reflexivity|]. rewrite seq_S, rev_app_distr. reflexivity. Qed.
Lemma arc_r_ends x y r : ends (arc_r x y r) (x + r, y) (x, y + r).
Proof.
  destruct (seq_ends 16 16) as [E1 E2]. unfold arc_r. split.
  - destruct (seq 16 17) eqn:E; [discriminate|]. injection E1 as ->. cbn [map hd_error]. f_equal. unfold vert; cbn [fst snd]. rewrite ang_16, cos_PI2, sin_PI2. f_equal; ring.
  - rewrite <- map_rev. destruct (rev (seq 16 17)) eqn:E; [discriminate|]. injection E2 as ->. cbn [map hd_error]. f_equal. unfold vert; cbn [fst snd].
    change (16 + 16)%nat with 32%nat. rewrite ang_32, cos_PI, sin_PI. f_equal; ring.
Qed.
Lemma rev_seq_map {A} (f : nat -> A) k : map f (rev (seq 0 (S k))) = map (fun i => f (k - i)%nat) (seq 0 (S k)).
Proof.
  induction k as [|k IH]; [reflexivity|].
  assert (E : seq 0 (S (S k)) = 0%nat :: map S (seq 0 (S k))) by (rewrite seq_shift; reflexivity).
  rewrite (seq_S (S k)) at 1. rewrite rev_app_distr. rewrite E. cbn [rev app]. cbn [map]. rewrite IH, map_map. reflexivity.
Qed.
Lemma arc_mirror x y r : arc_l (- x) y r = map fx (rev (arc_r x y r)).
Proof.
  unfold arc_r, arc_l. change (seq 16 17) with (map (fun i => (16 + i)%nat) (seq 0 17)). rewrite map_map, <- map_rev, map_map, rev_seq_map. apply map_ext_in. intros i Hi.
  apply in_seq in Hi. unfold vert, fx; cbn [fst snd]. replace (ang (16 + (16 - i))) with (PI - ang i).
  - rewrite cos_minus, sin_minus, cos_PI, sin_PI. f_equal; ring.
  - rewrite <- ang_32. unfold ang. rewrite plus_INR, (minus_INR 16 i) by lia. cbn [INR]. ring.
Qed.

(** * Moments *)
Lemma fan_telescope m n (v : nat -> R * R) K (G : nat -> R) :
  (forall i, triangle_moment m n (v i) (v (S i)) = K + (G (S i) - G i)) ->
  forall k a, fan_moment m n (map v (seq a (S k))) = INR k * K + (G (a + k)%nat - G a).
Proof.
  intros H. induction k as [|k IH]; intros a.
  - cbn [seq map]. rewrite fan_single, Nat.add_0_r. cbn [INR]. ring.
  - change (seq a (S (S k))) with (a :: S a :: seq (S (S a)) k). cbn [map]. rewrite fan_cons2, H.
    change (v (S a) :: map v (seq (S (S a)) k)) with (map v (seq (S a) (S k))). rewrite IH, S_INR. replace (S a + k)%nat with (a + S k)%nat by lia. ring.
Qed.
Lemma vert_cross r i : cross (vert (0, 0) r i) (vert (0, 0) r (S i)) = - (r ^ 2 * sin dlt).
Proof.
  unfold cross, vert; cbn [fst snd]. rewrite ang_S. replace (sin dlt) with (sin (ang i + dlt - ang i)) by (f_equal; ring).
  rewrite (sin_minus (ang i + dlt) (ang i)). ring.
Qed.
Lemma half_cos i : sin dlt * (cos (ang i) + cos (ang (S i))) = 2 * cos (dlt / 2) ^ 2 * (sin (ang (S i)) - sin (ang i)).
Proof.
  rewrite ang_S. set (h := dlt / 2). replace dlt with (h + h) by (unfold h; field). replace (ang i + (h + h)) with ((ang i + h) + h) by ring.
  replace (cos (ang i)) with (cos ((ang i + h) - h)) by (f_equal; ring). replace (sin (ang i)) with (sin ((ang i + h) - h)) by (f_equal; ring).
  rewrite (sin_plus h h), (cos_plus (ang i + h) h), (sin_plus (ang i + h) h), (cos_minus (ang i + h) h), (sin_minus (ang i + h) h). ring.
Qed.
Lemma half_sin i : sin dlt * (sin (ang i) + sin (ang (S i))) = 2 * cos (dlt / 2) ^ 2 * (cos (ang i) - cos (ang (S i))).
Proof.
  rewrite ang_S. set (h := dlt / 2). replace dlt with (h + h) by (unfold h; field). replace (ang i + (h + h)) with ((ang i + h) + h) by ring.
  replace (cos (ang i)) with (cos ((ang i + h) - h)) by (f_equal; ring). replace (sin (ang i)) with (sin ((ang i + h) - h)) by (f_equal; ring).
  rewrite (sin_plus h h), (cos_plus (ang i + h) h), (sin_plus (ang i + h) h), (cos_minus (ang i + h) h), (sin_minus (ang i + h) h). ring.
Qed.
Definition arc0 (r : R) : list (R * R) := map (vert (0, 0) r) (seq 16 17).
Lemma arc0_00 r : fan_moment 0 0 (arc0 r) = - (8 * r ^ 2 * sin dlt).
Proof.
  unfold arc0. rewrite (fan_telescope 0 0 (vert (0, 0) r) (- (r ^ 2 * sin dlt) / 2) (fun _ => 0)).
  - cbn [INR]. field.
  - intros i. rewrite tm_00, vert_cross. ring.
Qed.
Lemma arc0_10 r : fan_moment 1 0 (arc0 r) = r ^ 3 / 3 * cos (dlt / 2) ^ 2.
Proof.
  unfold arc0. rewrite (fan_telescope 1 0 (vert (0, 0) r) 0 (fun i => - (r ^ 3 / 3 * cos (dlt / 2) ^ 2 * sin (ang i)))).
  - change (16 + 16)%nat with 32%nat. rewrite ang_16, ang_32, sin_PI, sin_PI2. ring.
  - intros i. rewrite tm_10, vert_cross. unfold vert; cbn [fst snd].
    transitivity (- r ^ 3 / 6 * (sin dlt * (cos (ang i) + cos (ang (S i))))); [field|]. rewrite half_cos. field.
Qed.
Lemma arc0_01 r : fan_moment 0 1 (arc0 r) = r ^ 3 / 3 * cos (dlt / 2) ^ 2.
Proof.
  unfold arc0. rewrite (fan_telescope 0 1 (vert (0, 0) r) 0 (fun i => - (r ^ 3 / 3 * cos (dlt / 2) ^ 2 * cos (ang i)))).
  - change (16 + 16)%nat with 32%nat. rewrite ang_16, ang_32, cos_PI, cos_PI2. ring.
  - intros i. rewrite tm_01, vert_cross. unfold vert; cbn [fst snd].
    transitivity (r ^ 3 / 6 * (sin dlt * (sin (ang i) + sin (ang (S i))))); [field|]. rewrite half_sin. field.
Qed.
Lemma square_sum_alg cu su ch sh : su * su = 1 - cu * cu -> sh * sh = 1 - ch * ch ->
  2 * sh * ch * ((cu * ch + su * sh) ^ 2 + (cu * ch + su * sh) * (cu * ch - su * sh) + (cu * ch - su * sh) ^ 2) =
  2 * sh * ch * (1 + (ch * ch - sh * sh) / 2) +
  (2 * (ch * ch - sh * sh) + 1) / 4 * (2 * (su * ch + cu * sh) * (cu * ch - su * sh) - 2 * (su * ch - cu * sh) * (cu * ch + su * sh)).
Proof.
  intros E1 E2.
  transitivity (2 * sh * ch * (3 * (cu * cu) * (ch * ch) + (su * su) * (sh * sh))); [ring|].
  transitivity (2 * sh * ch * (1 + (ch * ch - sh * sh) / 2 + (2 * (ch * ch - sh * sh) + 1) / 2 * (cu * cu - su * su))); [|field].
  f_equal. rewrite E1, E2. field.
Qed.
Lemma sin2a_alg cu su ch sh : su * su = 1 - cu * cu -> sh * sh = 1 - ch * ch ->
  2 * sh * ch * ((su * ch - cu * sh) ^ 2 + (su * ch - cu * sh) * (su * ch + cu * sh) + (su * ch + cu * sh) ^ 2) =
  2 * sh * ch * (1 + (ch * ch - sh * sh) / 2) -
  (2 * (ch * ch - sh * sh) + 1) / 4 * (2 * (su * ch + cu * sh) * (cu * ch - su * sh) - 2 * (su * ch - cu * sh) * (cu * ch + su * sh)).
Proof.
  intros E1 E2.
  transitivity (2 * sh * ch * (3 * (su * su) * (ch * ch) + (cu * cu) * (sh * sh))); [ring|].
  transitivity (2 * sh * ch * (1 + (ch * ch - sh * sh) / 2 - (2 * (ch * ch - sh * sh) + 1) / 2 * (cu * cu - su * su))); [|field].
  f_equal. rewrite E1, E2. field.
Qed.
Lemma square_sum i : sin dlt * (cos (ang i) ^ 2 + cos (ang i) * cos (ang (S i)) + cos (ang (S i)) ^ 2) =
  sin dlt * (1 + cos dlt / 2) + (2 * cos dlt + 1) / 4 * (sin (2 * ang (S i)) - sin (2 * ang i)).
Proof.
  rewrite ang_S, !sin_2a. set (h := dlt / 2). replace dlt with (h + h) by (unfold h; field). replace (ang i + (h + h)) with ((ang i + h) + h) by ring.
  set (u := ang i + h). replace (ang i) with (u - h) by (unfold u; ring).
  rewrite (sin_plus u h), (cos_plus u h), (sin_minus u h), (cos_minus u h), (sin_plus h h), (cos_plus h h).
  pose proof (sin2_cos2 u) as P1. pose proof (sin2_cos2 h) as P2. unfold Rsqr in *.
  pose proof (square_sum_alg (cos u) (sin u) (cos h) (sin h) ltac:(lra) ltac:(lra)) as A.
  replace (sin h * cos h + cos h * sin h) with (2 * sin h * cos h) by ring. exact A.
Qed.
Lemma square_sum_sin i : sin dlt * (sin (ang i) ^ 2 + sin (ang i) * sin (ang (S i)) + sin (ang (S i)) ^ 2) =
  sin dlt * (1 + cos dlt / 2) - (2 * cos dlt + 1) / 4 * (sin (2 * ang (S i)) - sin (2 * ang i)).
Proof.
  rewrite ang_S, !sin_2a. set (h := dlt / 2). replace dlt with (h + h) by (unfold h; field). replace (ang i + (h + h)) with ((ang i + h) + h) by ring.
  set (u := ang i + h). replace (ang i) with (u - h) by (unfold u; ring).
  rewrite (sin_plus u h), (cos_plus u h), (sin_minus u h), (cos_minus u h), (sin_plus h h), (cos_plus h h).
  pose proof (sin2_cos2 u) as P1. pose proof (sin2_cos2 h) as P2. unfold Rsqr in *.
  pose proof (sin2a_alg (cos u) (sin u) (cos h) (sin h) ltac:(lra) ltac:(lra)) as A.
  replace (sin h * cos h + cos h * sin h) with (2 * sin h * cos h) by ring. exact A.
Qed.
Lemma sin_2_ends : sin (2 * ang 32) - sin (2 * ang 16) = 0.
Proof. rewrite ang_16, ang_32. replace (2 * (PI / 2)) with PI by field. rewrite sin_2PI, sin_PI. ring. Qed.
Lemma arc0_20 r : fan_moment 2 0 (arc0 r) = - (2 / 3 * r ^ 4 * sin dlt * (2 + cos dlt)).
Proof.
  unfold arc0. rewrite (fan_telescope 2 0 (vert (0, 0) r) (- r ^ 4 / 12 * (sin dlt * (1 + cos dlt / 2))) (fun i => - r ^ 4 / 12 * ((2 * cos dlt + 1) / 4 * sin (2 * ang i)))).
  - change (16 + 16)%nat with 32%nat. pose proof sin_2_ends as E.
    replace (- r ^ 4 / 12 * ((2 * cos dlt + 1) / 4 * sin (2 * ang 32)) - - r ^ 4 / 12 * ((2 * cos dlt + 1) / 4 * sin (2 * ang 16)))
      with (- r ^ 4 / 12 * ((2 * cos dlt + 1) / 4) * (sin (2 * ang 32) - sin (2 * ang 16))) by ring. rewrite E. cbn [INR]. field.
  - intros i. rewrite tm_20, vert_cross. unfold vert; cbn [fst snd].
    transitivity (- r ^ 4 / 12 * (sin dlt * (cos (ang i) ^ 2 + cos (ang i) * cos (ang (S i)) + cos (ang (S i)) ^ 2))); [field|]. rewrite square_sum. ring.
Qed.
Lemma arc0_02 r : fan_moment 0 2 (arc0 r) = - (2 / 3 * r ^ 4 * sin dlt * (2 + cos dlt)).
Proof.
  unfold arc0. rewrite (fan_telescope 0 2 (vert (0, 0) r) (- r ^ 4 / 12 * (sin dlt * (1 + cos dlt / 2))) (fun i => r ^ 4 / 12 * ((2 * cos dlt + 1) / 4 * sin (2 * ang i)))).
  - change (16 + 16)%nat with 32%nat. pose proof sin_2_ends as E.
    replace (r ^ 4 / 12 * ((2 * cos dlt + 1) / 4 * sin (2 * ang 32)) - r ^ 4 / 12 * ((2 * cos dlt + 1) / 4 * sin (2 * ang 16)))
      with (r ^ 4 / 12 * ((2 * cos dlt + 1) / 4) * (sin (2 * ang 32) - sin (2 * ang 16))) by ring. rewrite E. cbn [INR]. field.
  - intros i. rewrite tm_02, vert_cross. unfold vert; cbn [fst snd].
    transitivity (- r ^ 4 / 12 * (sin dlt * (sin (ang i) ^ 2 + sin (ang i) * sin (ang (S i)) + sin (ang (S i)) ^ 2))); [field|]. rewrite square_sum_sin. field.
Qed.

(** The quarter of a circle's polygon at its place; the fillet is the square without it. *)
Definition quarter (x y r : R) : ring := (x + r, y + r) :: arc_r x y r ++ [(x + r, y + r)].
Lemma arc_shift x y r : arc_r x y r = map (shift (x + r) (y + r)) (arc0 r).
Proof. unfold arc_r, arc0. rewrite map_map. apply map_ext. intros i. unfold vert, shift; cbn [fst snd]. f_equal; ring. Qed.
Lemma tm_origin m n p : triangle_moment m n (0, 0) p = 0.
Proof.
  rewrite triangle_moment_edge. unfold marin_edge. cbn [fst snd]. replace (0 * snd p - fst p * 0) with 0 by ring. unfold Rdiv. ring.
Qed.
Lemma arc0_ends r : ends (arc0 r) (0, - r) (- r, 0).
Proof.
  destruct (seq_ends 16 16) as [E1 E2]. unfold arc0. split.
  - destruct (seq 16 17) eqn:E; [discriminate|]. injection E1 as ->. cbn [map hd_error]. f_equal. unfold vert; cbn [fst snd]. rewrite ang_16, cos_PI2, sin_PI2. f_equal; ring.
  - rewrite <- map_rev. destruct (rev (seq 16 17)) eqn:E; [discriminate|]. injection E2 as ->. cbn [map hd_error]. f_equal. unfold vert; cbn [fst snd].
    change (16 + 16)%nat with 32%nat. rewrite ang_32, cos_PI, sin_PI. f_equal; ring.
Qed.
Lemma fan_quarter0 m n r : fan_moment m n ((0, 0) :: arc0 r ++ [(0, 0)]) = fan_moment m n (arc0 r).
Proof.
  change ((0, 0) :: arc0 r ++ [(0, 0)]) with ([(0, 0)] ++ (arc0 r ++ [(0, 0)])).
  rewrite (fan_ends m n [(0, 0)] (arc0 r ++ [(0, 0)]) (0, 0) (0, 0) (0, - r) (0, 0) (ends_single _) (ends_app _ _ _ _ _ _ (arc0_ends r) (ends_single _))).
  rewrite (fan_ends m n _ _ _ _ _ _ (arc0_ends r) (ends_single (0, 0))), !fan_single, tm_origin, (triangle_moment_swap m n (0, 0)), tm_origin. ring.
Qed.
Lemma quarter_shift x y r : quarter x y r = map (shift (x + r) (y + r)) ((0, 0) :: arc0 r ++ [(0, 0)]).
Proof. unfold quarter. cbn [map]. rewrite map_app, <- arc_shift. cbn [map]. unfold shift; cbn [fst snd]. rewrite !Rplus_0_l. reflexivity. Qed.
Lemma closed_ends l a : ends l a a -> closed l.
Proof.
  intros H. destruct (ends_cons _ _ _ H) as [k E]. destruct (ends_snoc _ _ _ H) as [j F]. unfold closed. rewrite E. rewrite <- E, F, last_last. reflexivity.
Qed.
Lemma quarter0_closed r : closed ((0, 0) :: arc0 r ++ [(0, 0)]).
Proof.
  apply (closed_ends _ (0, 0)). split; [reflexivity|].
  change ((0, 0) :: arc0 r ++ [(0, 0)]) with (((0, 0) :: arc0 r) ++ [(0, 0)]). now rewrite rev_app_distr.
Qed.
Lemma fan_quarter x y r m n : fan_moment m n (quarter x y r) =
  rsum (fun i => rsum (fun j => Binomial.C m i * (x + r) ^ (m - i) * (Binomial.C n j * (y + r) ^ (n - j)) * fan_moment i j (arc0 r)) (n + 1)) (m + 1).
Proof.
  rewrite quarter_shift, (fan_shift_closed m n (x + r) (y + r) _ (quarter0_closed r)). apply rsum_ext. intros i _. apply rsum_ext. intros j _. now rewrite fan_quarter0.
Qed.
Definition fillet_ring (x y r : R) : ring := polygon_of (arc_r x y r ++ [(x, y)]).
Lemma fillet_path m n x y r : fan_moment m n (fillet_ring x y r) =
  fan_moment m n (arc_r x y r) + triangle_moment m n (x, y + r) (x, y) + triangle_moment m n (x, y) (x + r, y).
Proof.
  unfold fillet_ring. rewrite (fan_polygon m n _ (x + r, y) (x, y)) by (apply (ends_app _ _ _ (x, y + r) (x, y)); [apply arc_r_ends|apply ends_single]).
  rewrite (fan_ends m n _ _ _ _ _ _ (arc_r_ends x y r) (ends_single (x, y))), fan_single. ring.
Qed.
Lemma quarter_path m n x y r : fan_moment m n (quarter x y r) =
  triangle_moment m n (x + r, y + r) (x + r, y) + fan_moment m n (arc_r x y r) + triangle_moment m n (x, y + r) (x + r, y + r).
Proof.
  unfold quarter. change ((x + r, y + r) :: arc_r x y r ++ [(x + r, y + r)]) with ([(x + r, y + r)] ++ (arc_r x y r ++ [(x + r, y + r)])).
  rewrite (fan_ends m n _ _ _ _ _ _ (ends_single _) (ends_app _ _ _ _ _ _ (arc_r_ends x y r) (ends_single (x + r, y + r)))).
  rewrite (fan_ends m n _ _ _ _ _ _ (arc_r_ends x y r) (ends_single (x + r, y + r))), !fan_single. ring.
Qed.
Lemma fillet_square m n x y r : fan_moment m n (fillet_ring x y r) = fan_moment m n (polygon_of (square x y r)) + fan_moment m n (quarter x y r).
Proof.
  rewrite fillet_path, quarter_path. unfold square, polygon_of. cbn [app]. rewrite !fan_cons2, fan_single.
  rewrite (triangle_moment_swap m n (x + r, y + r) (x + r, y)), (triangle_moment_swap m n (x + r, y + r) (x, y + r)). ring.
Qed.
