(** Shared vocabulary of the model: exceptions as values, decidable
    comparisons on ideal reals, list helpers.  No code of /repo is modelled
    in this file; everything here is Python/numpy vocabulary. *)
From Coq Require Export Reals Lra Lia List ZArith Bool.
From Coq Require Export Psatz.
Export ListNotations.
Open Scope R_scope.

(** Python exception classes that the modelled code can raise. *)
Inductive exn :=
| ValueError | TypeError | KeyError | IndexError | AttributeError
| ZeroDivisionError | RuntimeError | StopIteration | UnboundLocalError
| NotImplementedError | ImportError | LinAlgError | OverflowError.

(** A computation either returns a value or raises. *)
Inductive result (A : Type) :=
| Ok (a : A)
| Err (e : exn).
Arguments Ok {A} a.
Arguments Err {A} e.

Definition bind {A B} (x : result A) (f : A -> result B) : result B :=
  match x with Ok a => f a | Err e => Err e end.

Definition rmap {A B} (f : A -> B) (x : result A) : result B :=
  match x with Ok a => Ok (f a) | Err e => Err e end.

Definition is_ok {A} (x : result A) : Prop := exists a, x = Ok a.

Notation "'do' x <- e ; f" := (bind e (fun x => f))
  (at level 200, x name, e at level 100, f at level 200).

(** Comparisons of ideal reals as booleans (Python [<], [<=], [==]). *)
Definition Rltb (x y : R) : bool := if Rlt_dec x y then true else false.
Definition Rleb (x y : R) : bool := if Rle_dec x y then true else false.
Definition Reqb (x y : R) : bool := if Req_EM_T x y then true else false.

Lemma Rltb_true x y : Rltb x y = true <-> x < y.
Proof. unfold Rltb; destruct (Rlt_dec x y); split; intros; try easy; lra. Qed.
Lemma Rltb_false x y : Rltb x y = false <-> y <= x.
Proof. unfold Rltb; destruct (Rlt_dec x y); split; intros; try easy; lra. Qed.
Lemma Rleb_true x y : Rleb x y = true <-> x <= y.
Proof. unfold Rleb; destruct (Rle_dec x y); split; intros; try easy; lra. Qed.
Lemma Rleb_false x y : Rleb x y = false <-> y < x.
Proof. unfold Rleb; destruct (Rle_dec x y); split; intros; try easy; lra. Qed.
Lemma Reqb_true x y : Reqb x y = true <-> x = y.
Proof. unfold Reqb; destruct (Req_EM_T x y); split; intros; try easy; lra. Qed.
Lemma Reqb_false x y : Reqb x y = false <-> x <> y.
Proof. unfold Reqb; destruct (Req_EM_T x y); split; intros; try easy; lra. Qed.

Lemma Rltb_spec x y : reflect (x < y) (Rltb x y).
Proof. apply iff_reflect; symmetry; apply Rltb_true. Qed.
Lemma Rleb_spec x y : reflect (x <= y) (Rleb x y).
Proof. apply iff_reflect; symmetry; apply Rleb_true. Qed.
Lemma Reqb_spec x y : reflect (x = y) (Reqb x y).
Proof. apply iff_reflect; symmetry; apply Reqb_true. Qed.

(** Split one comparison occurring in the goal. *)
Ltac rsplit1 :=
  match goal with
  | |- context [Rltb ?a ?b] => destruct (Rltb_spec a b)
  | |- context [Rleb ?a ?b] => destruct (Rleb_spec a b)
  | |- context [Reqb ?a ?b] => destruct (Reqb_spec a b)
  end.
Ltac rsplit := repeat (rsplit1; cbn [andb orb negb]; try lra).

(** Split one comparison occurring in a hypothesis. *)
Ltac rsplit_in1 H :=
  match type of H with
  | context [Rltb ?a ?b] => destruct (Rltb_spec a b)
  | context [Rleb ?a ?b] => destruct (Rleb_spec a b)
  | context [Reqb ?a ?b] => destruct (Reqb_spec a b)
  end.

(** Python [sum(f(i) for i in range(n))], accumulated from the left. *)
Fixpoint rsum (f : nat -> R) (n : nat) : R :=
  match n with O => 0 | S k => rsum f k + f k end.

(** Sum of a list, accumulated from the left (Python [sum]). *)
Definition lsum (l : list R) : R := fold_left Rplus l 0.

(** [math.comb]. *)
Fixpoint comb (n k : nat) : nat :=
  match k, n with
  | O, _ => 1
  | S _, O => 0
  | S k', S n' => comb n' k' + comb n' k
  end%nat.

(** Masked numpy assignment [a[mask] = f(a)[mask]]: only masked entries change. *)
Fixpoint masked {A} (mask : list bool) (new old : list A) : list A :=
  match mask, new, old with
  | b :: ms, n :: ns, o :: os => (if b then n else o) :: masked ms ns os
  | _, _, _ => old
  end.

(** [np.isclose(a, b, rtol=1e-05, atol)] on finite reals. *)
Definition isclose (atol a b : R) : bool :=
  Rleb (Rabs (a - b)) (atol + / 100000 * Rabs b).

Lemma lsum_fold (l : list R) (a : R) : fold_left Rplus l a = a + fold_right Rplus 0 l.
Proof. revert a; induction l as [|x l IH]; intros a; cbn; [lra|]. rewrite IH. lra. Qed.
Lemma lsum_right (l : list R) : lsum l = fold_right Rplus 0 l.
Proof. unfold lsum. rewrite lsum_fold. lra. Qed.
Lemma lsum_nil : lsum [] = 0. Proof. reflexivity. Qed.
Lemma lsum_cons x l : lsum (x :: l) = x + lsum l.
Proof. rewrite !lsum_right; reflexivity. Qed.
Lemma lsum_app l1 l2 : lsum (l1 ++ l2) = lsum l1 + lsum l2.
Proof. induction l1 as [|x l IH]; cbn [app]; rewrite ?lsum_nil, ?lsum_cons; [lra|]. rewrite IH; lra. Qed.
Lemma rsum_ext f g n : (forall i, (i < n)%nat -> f i = g i) -> rsum f n = rsum g n.
Proof. induction n; intros H; cbn; [reflexivity|]. rewrite IHn, H; auto. Qed.
Lemma rsum_plus f g n : rsum (fun i => f i + g i) n = rsum f n + rsum g n.
Proof. induction n; cbn; [lra|]. rewrite IHn. lra. Qed.
Lemma rsum_scal c f n : rsum (fun i => c * f i) n = c * rsum f n.
Proof. induction n; cbn; [lra|]. rewrite IHn. lra. Qed.
Lemma rsum_scal_r c f n : rsum (fun i => f i * c) n = rsum f n * c.
Proof. induction n; cbn; [lra|]. rewrite IHn. lra. Qed.
Lemma rsum_shift f n : rsum f (S n) = f O + rsum (fun i => f (S i)) n.
Proof. induction n; cbn in *; [lra|]. rewrite IHn. lra. Qed.
Lemma rsum_f_R0 f n : rsum f (S n) = sum_f_R0 f n.
Proof. induction n; [cbn; lra|]. change (rsum f (S (S n))) with (rsum f (S n) + f (S n)).
  rewrite IHn. reflexivity. Qed.
Lemma rsum_swap f n m :
  rsum (fun i => rsum (fun j => f i j) m) n = rsum (fun j => rsum (fun i => f i j) n) m.
Proof.
  induction n; cbn.
  - induction m; cbn; [lra|]. rewrite <- IHm; lra.
  - rewrite IHn, <- rsum_plus. reflexivity.
Qed.
Lemma rsum_0 f n : (forall i, (i < n)%nat -> f i = 0) -> rsum f n = 0.
Proof. induction n; intros H; cbn; [reflexivity|]. rewrite IHn, H; auto; lra. Qed.

Lemma comb_0 n : comb n 0 = 1%nat. Proof. destruct n; reflexivity. Qed.
Lemma comb_lt n k : (n < k)%nat -> comb n k = 0%nat.
Proof. revert k; induction n; intros [|k] H; cbn; try lia. rewrite !IHn; lia. Qed.
Lemma comb_nn n : comb n n = 1%nat.
Proof. induction n; [reflexivity|]. cbn [comb]. rewrite IHn, comb_lt; lia. Qed.
Lemma comb_fact n k : (k <= n)%nat -> (comb n k * (fact k * fact (n - k)) = fact n)%nat.
Proof.
  revert k; induction n as [|n IHn]; intros k H.
  - assert (k = 0)%nat by lia; subst; reflexivity.
  - destruct k as [|k]; [rewrite comb_0, Nat.sub_0_r; cbn [fact]; lia|].
    cbn [comb]. change (fact (S k)) with (S k * fact k)%nat.
    change (S n - S k)%nat with (n - k)%nat.
    destruct (Nat.eq_dec k n) as [->|Hne].
    + rewrite comb_nn, comb_lt, Nat.sub_diag by lia. cbn [fact]. lia.
    + assert (H1 := IHn k ltac:(lia)). assert (H2 := IHn (S k) ltac:(lia)).
      assert (E : (n - k = S (n - S k))%nat) by lia. rewrite E in *.
      set (f1 := fact k) in *. set (d := (n - S k)%nat) in *. 
      change (fact (S k)) with (S k * f1)%nat in H2.
      change (fact (S d)) with (S d * fact d)%nat in *.
      change (fact (S n)) with (S n * fact n)%nat.
      assert (En : (S n = S k + S d)%nat) by lia.
      rewrite En at 1. nia.
Qed.
Lemma comb_C n k : (k <= n)%nat -> INR (comb n k) = C n k.
Proof.
  intros H. unfold C. rewrite <- (comb_fact n k H), !mult_INR. field.
  split; apply INR_fact_neq_0.
Qed.
