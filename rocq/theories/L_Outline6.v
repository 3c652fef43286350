(** Chains that go up and to the left, and the region below them. *)
From Coq Require Import Lra Lia.
From Verif Require Import Base L_Catalog2 S_Marin M_Marin L_Marin M_MarinInt L_MarinInt2 M_Geo L_Geo M_Profile S_Profile M_Catalog S_Catalog M_Outline S_Outline L_Outline L_Outline2 L_Outline3 L_Outline4 L_Outline5.
Open Scope R_scope.
Open Scope list_scope.

Definition stair (l : list (R * R)) : Prop := forall e, In e (edges l) -> fst (snd e) <= fst (fst e) /\ snd (fst e) <= snd (snd e).
Lemma stair_cons a b l : stair (a :: b :: l) -> fst b <= fst a /\ snd a <= snd b /\ stair (b :: l).
Proof. intros F. destruct (F (a, b) (or_introl eq_refl)) as [A B]. split; [exact A|]. split; [exact B|]. intros e I. apply F. now right. Qed.
Lemma stair_app l1 l2 a b c d : ends l1 a b -> ends l2 c d -> stair l1 -> stair l2 -> fst c <= fst b -> snd b <= snd c -> stair (l1 ++ l2).
Proof. intros E1 E2 S1 S2 X Y e I. rewrite (edges_ends _ _ _ _ _ _ E1 E2) in I. apply in_app_or in I. destruct I as [I|[<-|I]]; [now apply S1|cbn [fst snd]; lra|now apply S2]. Qed.
Lemma stair_join l1 l2 v : stair (l1 ++ [v]) -> stair (v :: l2) -> stair (l1 ++ v :: l2).
Proof. intros S1 S2 e I. rewrite edges_app_mid in I. apply in_app_or in I. destruct I as [I|I]; [now apply S1|now apply S2]. Qed.
Lemma stair_shift x y l : stair l -> stair (map (shift x y) l).
Proof. intros F e I. rewrite edges_map in I. apply in_map_iff in I. destruct I as (e' & <- & I). apply F in I. unfold shift; cbn [fst snd]. lra. Qed.
Lemma stair_from : forall l a, stair (a :: l) -> forall v, In v (a :: l) -> fst v <= fst a /\ snd a <= snd v.
Proof.
  induction l as [|b l IH]; intros a F v I.
  - destruct I as [<-|[]]. lra.
  - destruct (stair_cons _ _ _ F) as (X & Y & F'). destruct I as [<-|I]; [lra|]. destruct (IH b F' v I). lra.
Qed.
Lemma stair_to : forall l a b, stair l -> ends l a b -> forall v, In v l -> fst b <= fst v /\ snd v <= snd b.
Proof.
  induction l as [|c l IH]; intros a b F E v I; [destruct I|].
  destruct l as [|d l].
  - destruct E as [_ E]. injection E as ->. destruct I as [<-|[]]. lra.
  - destruct (stair_cons _ _ _ F) as (X & Y & F').
    assert (E' : ends (d :: l) d b).
    { split; [reflexivity|]. destruct E as [_ E]. cbn [rev] in *. destruct (rev l ++ [d]) as [|z k] eqn:K; [apply app_eq_nil in K; destruct K; discriminate|]. exact E. }
    destruct I as [<-|I]; [destruct (IH d b F' E' d (or_introl eq_refl)); lra|now apply (IH d b)].
Qed.
Lemma stair_in l a b v : stair l -> ends l a b -> In v l -> fst b <= fst v <= fst a /\ snd a <= snd v <= snd b.
Proof. intros F E I. destruct (stair_to l a b F E v I). destruct (ends_cons _ _ _ E) as [k ->]. destruct (stair_from k a F v I). lra. Qed.

(** * The region between a chain and a height below it *)
Definition second (m n : nat) : Prop := (m, n) = (0, 0)%nat \/ (m, n) = (2, 0)%nat \/ (m, n) = (0, 2)%nat.
Definition trap (m n : nat) (y0 : R) (a b : R * R) : R :=
  triangle_moment m n (fst b, y0) (fst a, y0) + triangle_moment m n (fst a, y0) a + triangle_moment m n a b + triangle_moment m n b (fst b, y0).
Lemma cubes y0 a b : y0 <= a -> y0 <= b -> 0 <= a ^ 3 + a ^ 2 * b + a * b ^ 2 + b ^ 3 - 4 * y0 ^ 3.
Proof.
  intros A B. set (p := a - y0). set (q := b - y0). replace a with (y0 + p) by (unfold p; ring). replace b with (y0 + q) by (unfold q; ring).
  assert (P : 0 <= p) by (unfold p; lra). assert (Q : 0 <= q) by (unfold q; lra). clearbody p q.
  destruct (Req_dec (p + q) 0) as [Z|Z]; [assert (p = 0) by lra; assert (q = 0) by lra; subst p q; right; ring|].
  apply (Rmult_le_reg_l (6 * (p + q))); [lra|]. rewrite Rmult_0_r.
  replace (6 * (p + q) * ((y0 + p) ^ 3 + (y0 + p) ^ 2 * (y0 + q) + (y0 + p) * (y0 + q) ^ 2 + (y0 + q) ^ 3 - 4 * y0 ^ 3))
    with ((6 * (p + q) * y0 + 2 * (p ^ 2 + p * q + q ^ 2)) ^ 2 + 4 * (p ^ 4 / 2 + p ^ 2 * (p * q) + (p * q) * q ^ 2 + q ^ 4 / 2)) by field.
  pose proof (pow2_ge_0 (6 * (p + q) * y0 + 2 * (p ^ 2 + p * q + q ^ 2))). pose proof (pow_le p 4 P). pose proof (pow_le q 4 Q).
  pose proof (Rmult_le_pos _ _ (pow2_ge_0 p) (Rmult_le_pos p q P Q)). pose proof (Rmult_le_pos _ _ (Rmult_le_pos p q P Q) (pow2_ge_0 q)). lra.
Qed.
Lemma trap_pos m n y0 a b : second m n -> fst b <= fst a -> y0 <= snd a -> y0 <= snd b -> 0 <= trap m n y0 a b.
Proof.
  destruct a as [xa ya], b as [xb yb]. cbn [fst snd]. intros K X A B. unfold trap; cbn [fst snd]. destruct K as [K|[K|K]]; injection K as -> ->.
  - rewrite !tm_00. unfold cross; cbn [fst snd].
    replace (_ + _ + _ + _) with ((xa - xb) * (ya - y0 + (yb - y0)) / 2) by field. pose proof (Rmult_le_pos (xa - xb) (ya - y0 + (yb - y0)) ltac:(lra) ltac:(lra)). lra.
  - rewrite !tm_20. unfold cross; cbn [fst snd].
    replace (_ + _ + _ + _) with ((xa - xb) * ((ya - y0) * (2 * xa ^ 2 + (xa + xb) ^ 2) + (yb - y0) * (2 * xb ^ 2 + (xa + xb) ^ 2)) / 12) by field.
    pose proof (pow2_ge_0 xa). pose proof (pow2_ge_0 xb). pose proof (pow2_ge_0 (xa + xb)).
    pose proof (Rmult_le_pos (ya - y0) (2 * xa ^ 2 + (xa + xb) ^ 2) ltac:(lra) ltac:(lra)). pose proof (Rmult_le_pos (yb - y0) (2 * xb ^ 2 + (xa + xb) ^ 2) ltac:(lra) ltac:(lra)).
    pose proof (Rmult_le_pos (xa - xb) ((ya - y0) * (2 * xa ^ 2 + (xa + xb) ^ 2) + (yb - y0) * (2 * xb ^ 2 + (xa + xb) ^ 2)) ltac:(lra) ltac:(lra)). lra.
  - rewrite !tm_02. unfold cross; cbn [fst snd].
    replace (_ + _ + _ + _) with ((xa - xb) * (ya ^ 3 + ya ^ 2 * yb + ya * yb ^ 2 + yb ^ 3 - 4 * y0 ^ 3) / 12) by field.
    pose proof (Rmult_le_pos (xa - xb) _ ltac:(lra) (cubes y0 ya yb A B)). lra.
Qed.
(** The moment of the region between the chain and the height. *)
Definition below (m n : nat) (y0 : R) (l : list (R * R)) (a b : R * R) : R :=
  triangle_moment m n (fst b, y0) (fst a, y0) + triangle_moment m n (fst a, y0) a + fan_moment m n l + triangle_moment m n b (fst b, y0).
Lemma below_cons m n y0 a b c l : below m n y0 (a :: b :: l) a c = trap m n y0 a b + below m n y0 (b :: l) b c.
Proof.
  unfold below, trap. rewrite fan_cons2. destruct a as [xa ya], b as [xb yb], c as [xc yc]. cbn [fst snd].
  rewrite (tm_row m n xc xb xa y0), (triangle_moment_swap m n (xb, yb) (xb, y0)). ring.
Qed.
Lemma ends_tail a b l c : ends (a :: b :: l) a c -> ends (b :: l) b c.
Proof. intros [_ E]. split; [reflexivity|]. cbn [rev] in *. destruct (rev l ++ [b]) as [|z k] eqn:K; [apply app_eq_nil in K; destruct K; discriminate|]. exact E. Qed.
Lemma below_single m n y0 a : below m n y0 [a] a a = 0.
Proof. unfold below. rewrite fan_single, tm_same, (triangle_moment_swap m n a (fst a, y0)). ring. Qed.
Lemma below_pos m n y0 : second m n -> forall l a b, ends l a b -> stair l -> y0 <= snd a -> 0 <= below m n y0 l a b.
Proof.
  intros K. induction l as [|a' l IH]; intros a b E F Y; [destruct E; discriminate|].
  assert (a' = a) by (destruct E as [E _]; now injection E). subst a'. destruct l as [|c l].
  - assert (b = a) by (destruct E as [_ E]; now injection E). subst b. rewrite below_single. lra.
  - destruct (stair_cons _ _ _ F) as (X1 & Y1 & F'). rewrite below_cons. pose proof (trap_pos m n y0 a c K X1 Y ltac:(lra)). pose proof (IH c b (ends_tail _ _ _ _ E) F' ltac:(lra)). lra.
Qed.
(** A positive amount below a chain that gets over a height above [y0] with some width left. *)
Definition block (m n : nat) (x0 x1 y0 y1 : R) : R := fan_moment m n [(x0, y0); (x1, y0); (x1, y1); (x0, y1); (x0, y0)].
Lemma block_pos m n x0 x1 y0 y1 : second m n -> x0 < x1 -> y0 < y1 -> 0 < block m n x0 x1 y0 y1.
Proof.
  assert (C3 : forall u w, u < w -> u ^ 3 < w ^ 3).
  { intros u w L. assert (E : w ^ 3 - u ^ 3 = (w - u) * ((w + u / 2) ^ 2 + 3 / 4 * u ^ 2)) by field. assert (0 < (w - u) * ((w + u / 2) ^ 2 + 3 / 4 * u ^ 2)); [|lra].
    apply Rmult_lt_0_compat; [lra|]. pose proof (pow2_ge_0 u) as U. pose proof (pow2_ge_0 (w + u / 2)) as W. destruct (Req_dec u 0) as [-> |N].
    - replace (w + 0 / 2) with w by field. pose proof (pow_lt w 2 ltac:(lra)). lra.
    - assert (0 < u ^ 2) by (replace (u ^ 2) with (Rsqr u) by (unfold Rsqr; ring); now apply Rsqr_pos_lt). lra. }
  intros K X Y. unfold block. destruct K as [K|[K|K]]; injection K as -> ->.
  - rewrite rect_area. apply Rmult_lt_0_compat; lra.
  - rewrite rect_moment_20. specialize (C3 _ _ X). apply Rmult_lt_0_compat; lra.
  - rewrite rect_moment_02. specialize (C3 _ _ Y). pose proof (Rmult_lt_0_compat (x1 - x0) (y1 ^ 3 - y0 ^ 3) ltac:(lra) ltac:(lra)). lra.
Qed.
Lemma below_raise m n y0 y1 l a b : below m n y0 l a b = below m n y1 l a b + block m n (fst b) (fst a) y0 y1.
Proof.
  unfold below, block. rewrite !fan_cons2, fan_single. destruct a as [xa ya], b as [xb yb]. cbn [fst snd].
  rewrite (tm_col m n y0 y1 ya xa), (tm_col m n yb y1 y0 xb), (triangle_moment_swap m n (xb, y1) (xa, y1)). ring.
Qed.
Lemma below_app m n y0 l1 l2 v a b : below m n y0 (l1 ++ v :: l2) a b = below m n y0 (l1 ++ [v]) a v + below m n y0 (v :: l2) v b.
Proof.
  unfold below. rewrite fan_app_mid. destruct a as [xa ya], b as [xb yb], v as [xv yv]. cbn [fst snd].
  rewrite (tm_row m n xb xv xa y0), (triangle_moment_swap m n (xv, yv) (xv, y0)). ring.
Qed.
Lemma below_strict m n y0 l1 l2 v a b : second m n -> ends (l1 ++ [v]) a v -> ends (v :: l2) v b -> stair (l1 ++ v :: l2) -> y0 <= snd a -> y0 < snd v -> fst b < fst v ->
  0 < below m n y0 (l1 ++ v :: l2) a b.
Proof.
  intros K E1 E2 F A V X. rewrite below_app.
  assert (F1 : stair (l1 ++ [v])) by (intros e I; apply F; rewrite edges_app_mid; apply in_or_app; now left).
  assert (F2 : stair (v :: l2)) by (intros e I; apply F; rewrite edges_app_mid; apply in_or_app; now right).
  pose proof (below_pos m n y0 K _ _ _ E1 F1 A). rewrite (below_raise m n y0 (snd v) (v :: l2)). pose proof (below_pos m n (snd v) K _ _ _ E2 F2 ltac:(lra)).
  pose proof (block_pos m n (fst b) (fst v) y0 (snd v) K X V). lra.
Qed.
