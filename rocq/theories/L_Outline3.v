(** The parts of an I section and the polygon they fill. *)
From Coq Require Import Lra Lia.
From Verif Require Import Base S_Marin M_Marin L_Marin M_MarinInt M_Geo L_Geo M_Profile S_Profile M_Catalog S_Catalog M_Outline S_Outline L_Outline L_Outline2.
Open Scope R_scope.
Open Scope list_scope.

(** * Values of fillets *)
Definition k0 : R := 8 * sin dlt.
Definition k1 : R := cos (dlt / 2) ^ 2 / 3.
Definition k2 : R := 2 / 3 * sin dlt * (2 + cos dlt).
Ltac value := rewrite fillet_square, fan_quarter; unfold square, polygon_of; cbn [app]; rewrite !fan_cons2, fan_single;
  rewrite ?tm_00, ?tm_10, ?tm_01, ?tm_20, ?tm_02; unfold cross; cbn [fst snd Nat.add rsum Nat.sub pow];
  rewrite ?arc0_00, ?arc0_10, ?arc0_01, ?arc0_20, ?arc0_02; unfold Binomial.C, k0, k1, k2; cbn [fact Nat.mul Nat.add Nat.sub INR].
Lemma fillet_00 x y r : fan_moment 0 0 (fillet_ring x y r) = r ^ 2 * (1 - k0).
Proof. value. field. Qed.
Lemma fillet_01 x y r : fan_moment 0 1 (fillet_ring x y r) = r ^ 2 * (y + r / 2) + (k1 * r ^ 3 - k0 * r ^ 2 * (y + r)).
Proof. value. field. Qed.
Lemma fillet_10 x y r : fan_moment 1 0 (fillet_ring x y r) = r ^ 2 * (x + r / 2) + (k1 * r ^ 3 - k0 * r ^ 2 * (x + r)).
Proof. value. field. Qed.
Lemma fillet_02 x y r : fan_moment 0 2 (fillet_ring x y r) = r * ((y + r) ^ 3 - y ^ 3) / 3 - (k2 * r ^ 4 - 2 * (y + r) * (k1 * r ^ 3) + (y + r) ^ 2 * (k0 * r ^ 2)).
Proof. value. field. Qed.
Lemma fillet_20 x y r : fan_moment 2 0 (fillet_ring x y r) = r * ((x + r) ^ 3 - x ^ 3) / 3 - (k2 * r ^ 4 - 2 * (x + r) * (k1 * r ^ 3) + (x + r) ^ 2 * (k0 * r ^ 2)).
Proof. value. field. Qed.

(** * Climbing chains *)
Lemma climbs_app l1 l2 a b c d : ends l1 a b -> ends l2 c d -> climbs l1 -> climbs l2 -> snd b <= snd c -> climbs (l1 ++ l2).
Proof.
  intros E1 E2 H1 H2 L e I. rewrite (edges_ends _ _ _ _ _ _ E1 E2) in I. apply in_app_or in I. destruct I as [I|[<-|I]]; [now apply H1|exact L|now apply H2].
Qed.
Lemma climbs_single a : climbs [a].
Proof. intros e []. Qed.
Lemma climbs_pair a b : snd a <= snd b -> climbs [a; b].
Proof. intros H e [<-|[]]. exact H. Qed.
Lemma climbs_fx l : climbs l -> climbs (map fx l).
Proof. intros H e I. rewrite edges_map in I. apply in_map_iff in I. destruct I as (e' & <- & I). apply (H e' I). Qed.
Lemma climbs_fy l : climbs l -> climbs (map fy (rev l)).
Proof.
  intros H e I. rewrite edges_map in I. apply in_map_iff in I. destruct I as (e' & <- & I). rewrite edges_rev in I. apply in_rev in I.
  apply in_map_iff in I. destruct I as (e & <- & I). specialize (H e I). cbn [fst snd fy]. lra.
Qed.
Lemma climbs_seq (v : nat -> R * R) : forall k a, (forall i, (a <= i < a + k)%nat -> snd (v i) <= snd (v (S i))) -> climbs (map v (seq a (S k))).
Proof.
  induction k as [|k IH]; intros a H; [apply climbs_single|].
  change (seq a (S (S k))) with (a :: seq (S a) (S k)). cbn [map]. change (v a :: map v (seq (S a) (S k))) with ([v a] ++ map v (seq (S a) (S k))).
  assert (E : ends (map v (seq (S a) (S k))) (v (S a)) (v (S a + k)%nat)) by (split; [reflexivity|rewrite seq_S, map_app, rev_app_distr; reflexivity]).
  apply (climbs_app _ _ _ _ _ _ (ends_single _) E (climbs_single _)); [|apply H; lia]. apply IH. intros i Hi. apply H. lia.
Qed.
Lemma arc_climbs x y r : 0 < r -> climbs (arc_r x y r).
Proof.
  intros Hr. unfold arc_r. apply climbs_seq. intros i Hi. unfold vert; cbn [snd].
  assert (sin (ang (S i)) <= sin (ang i)).
  { assert (ang (S i) <= ang 32) by (destruct (Nat.eq_dec (S i) 32) as [->|]; [lra|apply Rlt_le, ang_lt; lia]). assert (ang i < ang (S i)) by (apply ang_lt; lia).
    assert (ang 16 <= ang i) by (destruct (Nat.eq_dec i 16) as [->|]; [lra|apply Rlt_le, ang_lt; lia]). rewrite ang_16, ang_32 in *. pose proof PI_RGT_0.
    apply Rlt_le, sin_decreasing_1; lra. }
  pose proof (Rmult_le_compat_l r _ _ (Rlt_le _ _ Hr) H). lra.
Qed.
Lemma arc_in x y r v : 0 < r -> In v (arc_r x y r) -> x <= fst v <= x + r /\ y <= snd v <= y + r.
Proof.
  intros Hr I. unfold arc_r in I. apply in_map_iff in I. destruct I as (i & <- & Hi). apply in_seq in Hi. destruct (signs_2 i ltac:(lia)) as [C1 S1].
  pose proof (scale_one r _ Hr (cos_bounds i)). pose proof (scale_one r _ Hr (sin_bounds i)). pose proof (scale_le r _ Hr C1). pose proof (scale_ge r _ Hr S1).
  unfold vert; cbn [fst snd]. lra.
Qed.

(** * Boxes *)
Definition boxed (l : list ring) (x0 x1 y0 y1 : R) : Prop :=
  (forall p v, In p l -> In v p -> x0 <= fst v <= x1 /\ y0 <= snd v <= y1) /\
  (exists p v, In p l /\ In v p /\ fst v = x0) /\ (exists p v, In p l /\ In v p /\ fst v = x1) /\
  (exists p v, In p l /\ In v p /\ snd v = y0) /\ (exists p v, In p l /\ In v p /\ snd v = y1).
Lemma boxed_within a b x0 x1 y0 y1 : boxed a x0 x1 y0 y1 -> boxed b x0 x1 y0 y1 -> within_box a b.
Proof.
  intros (A & _) (_ & (p1 & v1 & I1 & J1 & E1) & (p2 & v2 & I2 & J2 & E2) & (p3 & v3 & I3 & J3 & E3) & (p4 & v4 & I4 & J4 & E4)) p v Ip Iv.
  destruct (A p v Ip Iv) as [[? ?] [? ?]]. split; [|split; [|split]]; [exists p1, v1|exists p2, v2|exists p3, v3|exists p4, v4]; repeat split; try assumption; lra.
Qed.
Lemma boxed_same a b x0 x1 y0 y1 : boxed a x0 x1 y0 y1 -> boxed b x0 x1 y0 y1 -> same_box a b.
Proof. intros A B. split; [apply (boxed_within a b x0 x1 y0 y1 A B)|apply (boxed_within b a x0 x1 y0 y1 B A)]. Qed.
Lemma same_boxed a b x0 x1 y0 y1 : same_box a b -> boxed b x0 x1 y0 y1 -> boxed a x0 x1 y0 y1.
Proof.
  intros [W1 W2] (B & (p1 & v1 & I1 & J1 & E1) & (p2 & v2 & I2 & J2 & E2) & (p3 & v3 & I3 & J3 & E3) & (p4 & v4 & I4 & J4 & E4)).
  assert (In4 : forall p v, In p a -> In v p -> x0 <= fst v <= x1 /\ y0 <= snd v <= y1).
  { intros p v Ip Iv. destruct (W1 p v Ip Iv) as ((q1 & w1 & K1 & L1 & M1) & (q2 & w2 & K2 & L2 & M2) & (q3 & w3 & K3 & L3 & M3) & (q4 & w4 & K4 & L4 & M4)).
    pose proof (B q1 w1 K1 L1). pose proof (B q2 w2 K2 L2). pose proof (B q3 w3 K3 L3). pose proof (B q4 w4 K4 L4). lra. }
  split; [exact In4|]. split; [|split; [|split]].
  - destruct (W2 p1 v1 I1 J1) as ((q & w & K & L & M) & _). exists q, w. repeat split; try assumption. pose proof (In4 q w K L). lra.
  - destruct (W2 p2 v2 I2 J2) as (_ & (q & w & K & L & M) & _). exists q, w. repeat split; try assumption. pose proof (In4 q w K L). lra.
  - destruct (W2 p3 v3 I3 J3) as (_ & _ & (q & w & K & L & M) & _). exists q, w. repeat split; try assumption. pose proof (In4 q w K L). lra.
  - destruct (W2 p4 v4 I4 J4) as (_ & _ & _ & (q & w & K & L & M)). exists q, w. repeat split; try assumption. pose proof (In4 q w K L). lra.
Qed.
