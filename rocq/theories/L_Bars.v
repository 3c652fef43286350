(** Lemmas on bar layouts. *)
From Verif Require Import Base M_Marin S_Marin L_Marin M_Laws M_Laws2 M_Fiber M_MarinInt M_Geo S_Geo L_Geo M_Bars S_Bars L_MarinInt2.
From Coq Require Import String ZArith Lra Lia.
Open Scope R_scope.
Open Scope list_scope.

Lemma filter_trim {A} (f : nat -> A) n first last : map f (filter (placed (Z.of_nat n) first last) (range (Z.of_nat n))) = trim first last (map f (seq 0 n)).
Proof.
  unfold range. rewrite Nat2Z.id.
  assert (MID : forall a k, (0 < a)%nat -> (a + k < n)%nat -> filter (placed (Z.of_nat n) first last) (seq a k) = seq a k).
  { intros a k. revert a. induction k as [|k IH]; intros a Ha Hk; [reflexivity|]. cbn [seq filter].
    assert (P : placed (Z.of_nat n) first last a = true).
    { unfold placed. destruct (Z.eqb_spec (Z.of_nat a) 0); [lia|]. destruct (Z.eqb_spec (Z.of_nat a) (Z.of_nat n - 1)); [lia|]. reflexivity. }
    rewrite P. f_equal. apply IH; lia. }
  destruct n as [|[|k]]; [destruct first, last; reflexivity|destruct first, last; reflexivity|].
  assert (SQ : seq 0 (S (S k)) = O :: seq 1 k ++ [S k]) by (change (seq 0 (S (S k))) with (O :: seq 1 (S k)); f_equal; rewrite (seq_S k 1); reflexivity).
  rewrite SQ. cbn [filter]. rewrite filter_app, MID by lia. cbn [filter].
  assert (P0 : placed (Z.of_nat (S (S k))) first last 0 = first).
  { unfold placed. change (Z.of_nat 0) with 0%Z. destruct (Z.eqb_spec 0 (Z.of_nat (S (S k)) - 1)); [lia|]. cbn [Z.eqb]. destruct first; reflexivity. }
  assert (P1 : placed (Z.of_nat (S (S k))) first last (S k) = last).
  { unfold placed. destruct (Z.eqb_spec (Z.of_nat (S k)) 0); [lia|]. destruct (Z.eqb_spec (Z.of_nat (S k)) (Z.of_nat (S (S k)) - 1)); [|lia]. destruct last; reflexivity. }
  rewrite P0, P1. unfold trim. cbn [map]. rewrite map_app. cbn [map].
  destruct first, last; cbn [map tl]; rewrite ?map_app; cbn [map]; rewrite ?app_nil_r; try reflexivity.
  - rewrite app_comm_cons, removelast_last. reflexivity.
  - rewrite removelast_last. reflexivity.
Qed.

Lemma norm_distance p q : norm2 p q = distance p q.
Proof. unfold norm2, distance, dist2. f_equal. ring. Qed.
Lemma distance_pos p q : p <> q -> 0 < distance p q.
Proof.
  intros H. apply sqrt_lt_R0. unfold dist2. pose proof (pow2_ge_0 (fst p - fst q)). pose proof (pow2_ge_0 (snd p - snd q)).
  destruct (Req_dec (fst p - fst q) 0) as [A|A]; destruct (Req_dec (snd p - snd q) 0) as [B|B].
  - exfalso. apply H. destruct p, q. cbn in *. f_equal; lra.
  - assert (0 < (snd p - snd q) ^ 2) by (cbn [pow]; nra). lra.
  - assert (0 < (fst p - fst q) ^ 2) by (cbn [pow]; nra). lra.
  - assert (0 < (snd p - snd q) ^ 2) by (cbn [pow]; nra). lra.
Qed.
Lemma distance_self p : distance p p = 0.
Proof. unfold distance, dist2. replace (_ + _) with 0 by ring. apply sqrt_0. Qed.

(** The untrimmed row: n bars from the margin m in steps s. *)
Definition row (a b : R * R) (m s : R) (n : nat) : list (R * R) :=
  map (fun i => (fst a + (fst b - fst a) / distance a b * (m + s * INR i), snd a + (snd b - snd a) / distance a b * (m + s * INR i))) (seq 0 n).
Lemma edges_seq_map (f : nat -> R * R) n p q : In (p, q) (edges (map f (seq 0 n))) -> exists i, (S i < n)%nat /\ p = f i /\ q = f (S i).
Proof.
  assert (X : forall k a, In (p, q) (edges (map f (seq a k))) -> exists i, (S i < a + k)%nat /\ p = f i /\ q = f (S i)).
  { induction k as [|k IH]; intros a H; [destruct H|]. destruct k as [|k]; [destruct H|]. cbn [seq map] in H.
    change (In (p, q) ((f a, f (S a)) :: edges (map f (seq (S a) (S k))))) in H. destruct H as [H|H].
    - injection H as <- <-. exists a. split; [lia|split; reflexivity].
    - destruct (IH _ H) as (i & L & P). exists i. split; [lia|exact P]. }
  intros H. destruct (X n 0%nat H) as (i & L & P). exists i. split; [lia|exact P].
Qed.
Lemma last_map_seq (f : nat -> R * R) n d : (0 < n)%nat -> last (map f (seq 0 n)) d = f (n - 1)%nat.
Proof.
  intros H. destruct n as [|n]; [lia|]. rewrite seq_S, map_app. cbn [map]. rewrite last_last. f_equal. lia.
Qed.
Lemma row_spec a b m s n : a <> b -> 0 <= m -> 0 <= s -> m + s * (INR n - 1) + m = distance a b -> (0 < n)%nat ->
  let l := row a b m s n in List.length l = n /\ (forall p, In p l -> on_segment a b p) /\ steps a b s l /\ centred a b l.
Proof.
  intros NE HM HS HD HN l. pose proof (distance_pos a b NE) as DP. unfold l, row. split; [now rewrite map_length, seq_length|]. split; [|split].
  - intros p I. apply in_map_iff in I. destruct I as (i & <- & I). apply in_seq in I.
    assert (LI : INR i <= INR n - 1) by (replace (INR n - 1) with (INR (n - 1)) by (rewrite minus_INR by lia; reflexivity); apply le_INR; lia).
    pose proof (pos_INR i).
    exists ((m + s * INR i) / distance a b). split; [split|].
    + apply Rmult_le_pos; [nra|left; now apply Rinv_0_lt_compat].
    + apply Rmult_le_reg_r with (distance a b); [exact DP|]. unfold Rdiv. rewrite Rmult_assoc, Rinv_l by lra. nra.
    + cbn [fst snd]. split; field; lra.
  - intros p q I. apply edges_seq_map in I. destruct I as (i & _ & -> & ->). cbn [fst snd]. rewrite S_INR. split; field; lra.
  - destruct n as [|n]; [lia|]. set (f := fun i : nat => _).
    enough (X : let q := last (map f (seq 0 (S n))) (f 0%nat) in fst (f 0%nat) + fst q = fst a + fst b /\ snd (f 0%nat) + snd q = snd a + snd b) by exact X.
    rewrite last_map_seq by lia. replace (S n - 1)%nat with n by lia. unfold f. cbn [fst snd]. rewrite S_INR in HD. cbn [INR].
    split.
    + transitivity (2 * fst a + (fst b - fst a) / distance a b * (m + s * (INR n + 1 - 1) + m)); [ring|]. rewrite HD. field. lra.
    + transitivity (2 * snd a + (snd b - snd a) / distance a b * (m + s * (INR n + 1 - 1) + m)); [ring|]. rewrite HD. field. lra.
Qed.
(** floor *)
Lemma floor_spec x : IZR (floorZ x) <= x < IZR (floorZ x) + 1.
Proof. unfold floorZ. pose proof (base_Int_part x). lra. Qed.
Lemma floor_nonneg x : 0 <= x -> (0 <= floorZ x)%Z.
Proof. intros H. pose proof (floor_spec x). assert (IZR 0 < IZR (floorZ x + 1)) by (rewrite plus_IZR; lra). apply lt_IZR in H1. lia. Qed.

Lemma map_trim {A B} (f : A -> B) u v l : map f (trim u v l) = trim u v (map f l).
Proof.
  assert (T : forall l : list A, map f (tl l) = tl (map f l)) by (intros [|]; reflexivity).
  assert (RL : forall l : list A, map f (removelast l) = removelast (map f l)).
  { induction l0 as [|x l0 IH]; [reflexivity|]. cbn [removelast map]. destruct l0; [reflexivity|]. cbn [map] in *. rewrite IH. reflexivity. }
  unfold trim. destruct u, v; rewrite ?RL, ?T; reflexivity.
Qed.
(** what line_spots emits *)
Lemma line_emit a b m s k first last : a <> b ->
  forall p1, p1 = (fst a + (fst b - fst a) / distance a b * m, snd a + (snd b - snd a) / distance a b * m) ->
  map (fun i => if (true && negb (Reqb (norm2 a b) 0))%bool
     then At (fst p1 + (fst b - fst a) / norm2 a b * s * INR i, snd p1 + (snd b - snd a) / norm2 a b * s * INR i) else NotANumber)
   (filter (placed (Z.of_nat k) first last) (range (Z.of_nat k))) = map At (trim first last (row a b m s k)).
Proof.
  intros NE p1 ->. rewrite norm_distance. pose proof (distance_pos a b NE). cbn [andb].
  destruct (Reqb (distance a b) 0) eqn:E; [apply Reqb_true in E; lra|]. cbn [negb fst snd].
  rewrite filter_trim, map_trim. unfold row. rewrite map_map. f_equal. apply map_ext. intros i. f_equal. f_equal; ring.
Qed.
Lemma all_real_At l : all_real (map At l) = Some l.
Proof. induction l as [|p l IH]; [reflexivity|]. cbn [map all_real]. now rewrite IH. Qed.

(** Adding bars *)
Lemma add_bars_spec l : forall g d m label c g' c', add_bars g l d m label c = (g', c') ->
  part_surfaces g' = part_surfaces g /\ c' = (c + List.length l)%nat /\
  part_points g' = part_points g ++ map (fun ip => {| pg_at := snd ip; pg_diam := d; pg_mat := m; pg_name := Auto (fst ip); pg_group := label |}) (combine (seq c (List.length l)) l).
Proof.
  induction l as [|p l IH]; intros g d m label c g' c' H.
  - injection H as <- <-. cbn. rewrite app_nil_r. repeat split. lia.
  - cbn [add_bars] in H. unfold new_pnt, new_name in H. apply IH in H. destruct H as (A & B & D).
    unfold add_part in A, D. cbn [part_surfaces part_points] in A, D. rewrite compound_of_spec in A, D. cbn [cp_surf cp_pnt flat_map part_surfaces part_points] in A, D.
    rewrite !app_nil_r in A. split; [exact A|]. split; [rewrite B; cbn [List.length]; lia|]. rewrite D. cbn [List.length seq combine map app]. rewrite <- app_assoc. reflexivity.
Qed.

(** Circles *)
Lemma cos_one_only t : 0 < t < 2 * PI -> cos t <> 1.
Proof.
  intros H Q. assert (S2 : 0 < sin (t / 2)) by (apply sin_gt_0; lra).
  replace t with (2 * (t / 2)) in Q by field. rewrite cos_2a_sin in Q. nra.
Qed.
Lemma circle_inj o r a b : r <> 0 -> 0 < b - a < 2 * PI -> on_circle o r a <> on_circle o r b.
Proof.
  intros HR H Q. unfold on_circle in Q. injection Q as Q1 Q2.
  assert (C1 : cos a = cos b) by (apply Rmult_eq_reg_l with r; [lra|exact HR]).
  assert (S1 : sin a = sin b) by (apply Rmult_eq_reg_l with r; [lra|exact HR]).
  apply (cos_one_only (b - a) H). rewrite cos_minus, C1, S1. pose proof (sin2_cos2 b) as N. unfold Rsqr in N. lra.
Qed.
Lemma circle_nodup o r a d n : r <> 0 -> 0 < d -> (INR n - 1) * d < 2 * PI -> NoDup (map (on_circle o r) (angles a d n)).
Proof.
  intros HR HD HN. unfold angles. rewrite map_map. apply NoDup_nth with (d := (0, 0)). rewrite map_length, seq_length.
  assert (X : forall i j, (i < j)%nat -> (j < n)%nat -> nth i (map (fun x => on_circle o r (a + INR x * d)) (seq 0 n)) (0, 0) <> nth j (map (fun x => on_circle o r (a + INR x * d)) (seq 0 n)) (0, 0)).
  { intros i j L1 L2. rewrite !(nth_indep _ (0, 0) (on_circle o r (a + INR 0 * d))) by (rewrite map_length, seq_length; lia).
    rewrite !(map_nth (fun x => on_circle o r (a + INR x * d))), !seq_nth by lia. cbn [Nat.add]. apply circle_inj; [exact HR|].
    assert (I1 : INR i < INR j) by (apply lt_INR; lia). assert (I2 : INR j <= INR n - 1) by (replace (INR n - 1) with (INR (n - 1)) by (rewrite minus_INR by lia; reflexivity); apply le_INR; lia).
    pose proof (pos_INR i). nra. }
  intros i j Hi Hj Q. destruct (Nat.lt_trichotomy i j) as [L|[L|L]]; [exfalso; exact (X i j L Hj Q)|exact L|exfalso; exact (X j i L Hi (eq_sym Q))].
Qed.
Lemma linspace_nat a b n : (2 <= n)%nat -> linspace a b (Z.of_nat n) = Ok (angles a ((b - a) / (INR n - 1)) n).
Proof.
  intros H. unfold linspace, angles, range. destruct (Z.ltb_spec (Z.of_nat n) 0); [lia|]. destruct (Z.eqb_spec (Z.of_nat n) 1); [lia|].
  rewrite Nat2Z.id, minus_IZR, <- INR_IZR_INZ. reflexivity.
Qed.
Lemma linspace_one a b d : linspace a b (Z.of_nat 1) = Ok (angles a d 1).
Proof. unfold linspace, angles, range. cbn. replace (a + 0 * d) with a by ring. reflexivity. Qed.
Lemma angles_last a d n : removelast (angles a d (S n)) = angles a d n.
Proof. unfold angles. rewrite seq_S, map_app. cbn [map]. apply removelast_last. Qed.
Lemma angles_pick o r a d n first last :
  map (fun i => let x := nth i (angles a d n) 0 in (fst o + r * cos x, snd o + r * sin x)) (filter (placed (Z.of_nat n) first last) (range (Z.of_nat n)))
  = trim first last (map (on_circle o r) (angles a d n)).
Proof.
  rewrite filter_trim. f_equal. unfold angles. rewrite map_map. apply map_ext_in. intros i I. apply in_seq in I. cbv zeta. unfold on_circle.
  rewrite (nth_indep _ 0 (a + INR 0 * d)) by (rewrite map_length, seq_length; lia). rewrite (map_nth (fun x => a + INR x * d)), seq_nth by lia. reflexivity.
Qed.

(** Circular polygons *)
Lemma edges_seq f : forall k a, edges (map f (seq a (S k))) = map (fun i => (f i, f (S i))) (seq a k).
Proof.
  induction k as [|k IH]; intros a; [reflexivity|].
  change (edges (f a :: map f (seq (S a) (S k))) = (f a, f (S a)) :: map (fun i => (f i, f (S i))) (seq (S a) k)).
  rewrite <- IH. reflexivity.
Qed.
Lemma lsum_const {A} (x : R) (l : list A) : lsum (map (fun _ => x) l) = INR (List.length l) * x.
Proof. induction l as [|a l IH]; [cbn [map List.length INR]; rewrite lsum_nil; ring|]. cbn [map List.length]. rewrite lsum_cons, IH, S_INR. ring. Qed.
Definition unit_ring (k : nat) : list (R * R) := map (fun i => (cos (2 * PI * INR i / INR k), sin (2 * PI * INR i / INR k))) (seq 0 (S k)).
Lemma circle_ring_affine o r k : (0 < k)%nat -> circle_ring o r k = map (M_Geo.affine r 0 0 (- r) (fst o) (snd o)) (unit_ring k).
Proof.
  intros HK. assert (KP : 0 < INR k) by (apply lt_0_INR; lia). unfold circle_ring, unit_ring. rewrite seq_S, !map_app, map_map. cbn [map Nat.add]. f_equal.
  - apply map_ext. intros i. unfold M_Geo.affine. cbn [fst snd]. f_equal; ring.
  - unfold M_Geo.affine. cbn [fst snd INR]. replace (2 * PI * 0 / INR k) with 0 by (unfold Rdiv; ring). replace (2 * PI * INR k / INR k) with (2 * PI) by (field; lra).
    rewrite cos_0, sin_0, cos_2PI, sin_2PI. f_equal. f_equal; ring.
Qed.
Lemma unit_ring_closed k : (0 < k)%nat -> closed (unit_ring k).
Proof.
  intros HK. assert (KP : 0 < INR k) by (apply lt_0_INR; lia). unfold unit_ring, closed.
  set (f := fun i : nat => _). change (map f (seq 0 (S k))) with (f O :: map f (seq 1 k)). cbv iota. 
  change (f O :: map f (seq 1 k)) with (map f (seq 0 (S k))). rewrite last_map_seq by lia. unfold f. replace (S k - 1)%nat with k by lia. cbn [INR].
  replace (2 * PI * 0 / INR k) with 0 by (unfold Rdiv; ring). replace (2 * PI * INR k / INR k) with (2 * PI) by (field; lra). now rewrite cos_0, sin_0, cos_2PI, sin_2PI.
Qed.
Lemma circle_ring_closed o r k : (0 < k)%nat -> closed (circle_ring o r k).
Proof. intros H. rewrite circle_ring_affine by exact H. apply closed_map, unit_ring_closed, H. Qed.
Lemma circle_ring_on o r k v : In v (circle_ring o r k) -> distance o v = Rabs r.
Proof.
  intros I. apply in_map_iff in I. destruct I as (i & <- & _). unfold distance, dist2. cbn [fst snd]. set (t := 2 * PI * INR i / INR k).
  replace (_ + _) with (r ^ 2 * (cos t ^ 2 + sin t ^ 2)) by ring. rewrite cs1, Rmult_1_r. replace (r ^ 2) with (Rsqr r) by (unfold Rsqr; ring). apply sqrt_Rsqr_abs.
Qed.
Lemma unit_ring_area k : (0 < k)%nat -> shoelace (unit_ring k) = INR k / 2 * sin (2 * PI / INR k).
Proof.
  intros HK. assert (KP : 0 < INR k) by (apply lt_0_INR; lia). unfold shoelace, unit_ring. rewrite edges_seq, map_map.
  rewrite (lsum_map_ext _ (fun _ => sin (2 * PI / INR k) / 2)).
  - rewrite lsum_const, seq_length. field.
  - intros i _. cbn [fst snd]. unfold cross. cbn [fst snd]. rewrite S_INR.
    replace (2 * PI / INR k) with (2 * PI * (INR i + 1) / INR k - 2 * PI * INR i / INR k) by (field; lra). rewrite sin_minus. lra.
Qed.
Lemma circle_ring_area o r k : (2 <= k)%nat -> Rabs (shoelace (circle_ring o r k)) = INR k / 2 * r ^ 2 * sin (2 * PI / INR k).
Proof.
  intros HK. assert (KP : 2 <= INR k) by (replace 2 with (INR 2) by reflexivity; apply le_INR; lia). pose proof PI_RGT_0.
  rewrite circle_ring_affine by lia. rewrite shoelace_affine by (apply unit_ring_closed; lia). rewrite unit_ring_area by lia.
  assert (SP : 0 <= sin (2 * PI / INR k)).
  { apply sin_ge_0; [apply Rlt_le, Rdiv_lt_0_compat; lra|]. apply Rmult_le_reg_r with (INR k); [lra|]. unfold Rdiv. rewrite Rmult_assoc, Rinv_l by lra. nra. }
  replace ((r * - r - 0 * 0) * (INR k / 2 * sin (2 * PI / INR k))) with (- (INR k / 2 * r ^ 2 * sin (2 * PI / INR k))) by ring.
  rewrite Rabs_Ropp. apply Rabs_pos_eq. pose proof (pow2_ge_0 r). apply Rmult_le_pos; [|exact SP]. apply Rmult_le_pos; lra.
Qed.
Lemma sin_cubic t : 0 <= t <= PI -> t - t ^ 3 / 6 <= sin t.
Proof.
  intros [H1 H2]. destruct (sin_bound t 0 H1 H2) as [B _]. unfold sin_approx, sin_term in B. cbn in B. cbn [pow]. lra.
Qed.
Lemma round_quarter_near n : (Z.abs (4 * round_quarter n - n) <= 2)%Z.
Proof.
  unfold round_quarter. pose proof (Z.div_mod n 4) as E. pose proof (Z.mod_pos_bound n 4) as B.
  set (q := (n / 4)%Z) in *. set (m := (n mod 4)%Z) in *. assert (C : (m = 0 \/ m = 1 \/ m = 2 \/ m = 3)%Z) by lia.
  destruct C as [-> | [-> | [-> | ->]]]; try lia. destruct (Z.even q); lia.
Qed.
