(** Independent vocabulary for the code formulas. *)
From Coq Require Import String Ascii.
From Verif Require Import Base S_Marin.
Open Scope R_scope.
Open Scope list_scope.

(** The value at x of the broken line through the points of a table. *)
Definition on_table (l : list (R * R)) (x v : R) : Prop :=
  exists p q, In (p, q) (edges l) /\ fst p <= x <= fst q /\ (v - snd p) * (fst q - fst p) = (snd q - snd p) * (x - fst p).
Definition increases (dom : R -> Prop) (f : R -> R) : Prop := forall x y, dom x -> dom y -> x < y -> f x < f y.
Definition decreases (dom : R -> Prop) (f : R -> R) : Prop := forall x y, dom x -> dom y -> x < y -> f y < f x.
Definition never_falls (dom : R -> Prop) (f : R -> R) : Prop := forall x y, dom x -> dom y -> x <= y -> f x <= f y.
Definition never_rises (dom : R -> Prop) (f : R -> R) : Prop := forall x y, dom x -> dom y -> x <= y -> f y <= f x.
(** f tends to c at infinity. *)
Definition settles (f : R -> R) (c : R) : Prop := forall e, 0 < e -> exists t, forall x, t <= x -> Rabs (f x - c) < e.
(** No jump at x. *)
Definition no_jump (f : R -> R) (x : R) : Prop := forall e, 0 < e -> exists d, 0 < d /\ forall y, Rabs (y - x) < d -> Rabs (f y - f x) < e.
(** Same word up to the case of its letters. *)
Definition fold_case (c : ascii) : ascii :=
  let n := nat_of_ascii c in if andb (Nat.leb 97 n) (Nat.leb n 122) then ascii_of_nat (n - 32) else c.
Fixpoint same_word (s t : string) : bool :=
  match s, t with
  | EmptyString, EmptyString => true
  | String a s', String b t' => andb (Ascii.eqb (fold_case a) (fold_case b)) (same_word s' t')
  | _, _ => false
  end.
Definition blank (c : ascii) : Prop := In (nat_of_ascii c) [9; 10; 11; 12; 13; 28; 29; 30; 31; 32]%nat.
Fixpoint blanks (s : string) : Prop := match s with EmptyString => True | String c s' => blank c /\ blanks s' end.
(** s is the word w, in any case, between white space. *)
Definition written (w s : string) : Prop :=
  exists a u b, s = (a ++ u ++ b)%string /\ blanks a /\ blanks b /\ same_word w u = true.
