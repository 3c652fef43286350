(** Independent vocabulary for the user-defined and wrapper laws. *)
From Verif Require Import Base S_Laws.

(** Strictly increasing list of abscissae. *)
Definition increasing (xs : list R) : Prop :=
  forall i j, (i < j < length xs)%nat -> nth i xs 0 < nth j xs 0.

(** The chord through points number i and i+1. *)
Definition chord (xs ys : list R) (i : nat) (e : R) : R :=
  nth i ys 0 + (nth (S i) ys 0 - nth i ys 0) / (nth (S i) xs 0 - nth i xs 0) * (e - nth i xs 0).

(** Weighted sum of functions. *)
Fixpoint wsum (ws : list R) (fs : list (R -> R)) (e : R) : R :=
  match ws, fs with
  | w :: ws', f :: fs' => w * f e + wsum ws' fs' e
  | _, _ => 0
  end.

(** Ranges with lower <= upper that overlap in at most an end point. *)
Definition tidy (rs : list (R * R)) : Prop :=
  (forall r, In r rs -> fst r <= snd r) /\
  (forall i j, (i < length rs)%nat -> (j < length rs)%nat -> i <> j ->
     snd (nth i rs (0,0)) <= fst (nth j rs (0,0)) \/ snd (nth j rs (0,0)) <= fst (nth i rs (0,0))).

(** [e] is an end of some range of some output. *)
Definition is_break (outs : list (option (list (R * R)) * list (list R))) (e : R) : Prop :=
  exists o rs r, In o outs /\ fst o = Some rs /\ In r rs /\ (e = fst r \/ e = snd r).

(** Odd completion of data given for non-negative strains (first strain 0). *)
Definition odd_completion (xs : list R) : list R := map Ropp (rev (tl xs)) ++ xs.

(** Documented behaviour beyond the last point (right) and before the first
    point (left): 0 nothing, 1 constant, 2 last tangent, 3 last secant. *)
Definition beyond_right (flag : nat) (xs ys : list R) (e : R) : R :=
  match flag with
  | 1%nat => last ys 0
  | 2%nat => chord xs ys (length xs - 2) e
  | 3%nat => last ys 0 / last xs 0 * e
  | _ => 0
  end.
Definition beyond_left (flag : nat) (xs ys : list R) (e : R) : R :=
  match flag with
  | 1%nat => nth 0 ys 0
  | 2%nat => chord xs ys 0 e
  | 3%nat => nth 0 ys 0 / nth 0 xs 0 * e
  | _ => 0
  end.

(** A caller who evaluates several functions one after the other on the same
    array object: each sees the array as the previous one left it. *)
Fixpoint in_turn (fs : list (list R -> list R * list R)) (a : list R) : list (list R) * list R :=
  match fs with
  | [] => ([], a)
  | f :: fs' => (fst (f a) :: fst (in_turn fs' (snd (f a))), snd (in_turn fs' (snd (f a))))
  end.
