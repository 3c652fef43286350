(** Independent specification of bar layouts. *)
From Verif Require Import Base S_Marin M_Laws M_Laws2 M_Fiber M_Geo S_Geo.
From Coq Require Import String ZArith.
Open Scope R_scope.
Open Scope list_scope.

Definition distance (p q : R * R) : R := sqrt (dist2 p q).
(** P lies on the straight segment from a to b. *)
Definition on_segment (a b p : R * R) : Prop :=
  exists t, 0 <= t <= 1 /\ fst p = fst a + t * (fst b - fst a) /\ snd p = snd a + t * (snd b - snd a).
(** Consecutive points of l are s apart, going from a towards b. *)
Definition steps (a b : R * R) (s : R) (l : list (R * R)) : Prop :=
  forall p q, In (p, q) (edges l) ->
    distance a b * (fst q - fst p) = s * (fst b - fst a) /\ distance a b * (snd q - snd p) = s * (snd b - snd a).
(** The first and the last point of l are symmetric about the middle of the segment. *)
Definition centred (a b : R * R) (l : list (R * R)) : Prop :=
  match l with
  | [] => True
  | p :: _ => let q := last l p in fst p + fst q = fst a + fst b /\ snd p + snd q = snd a + snd b
  end.
(** Leaving out the end bars. *)
Definition trim {A} (first last : bool) (l : list A) : list A :=
  let l := if first then l else tl l in if last then l else removelast l.
(** Points of a circle at the angles of a list. *)
Definition on_circle (o : R * R) (r a : R) : R * R := (fst o + r * cos a, snd o + r * sin a).
(** An arithmetic progression of n angles from a in steps of d. *)
Definition angles (a d : R) (n : nat) : list R := map (fun i => a + INR i * d) (seq 0 n).
Definition no_two_equal {A} (l : list A) : Prop := NoDup l.
