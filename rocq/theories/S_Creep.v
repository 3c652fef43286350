(** Independent vocabulary for developments over time and relative humidity. *)
From Coq Require Import String.
From Verif Require Import Base S_Calc.
Open Scope R_scope.
Open Scope list_scope.

(** A development over time that starts at t0: zero until then, in [0, 1), rising
    after it, towards 1. *)
Definition develops (t0 : R) (f : R -> R) : Prop :=
  (forall t, 0 <= f t < 1) /\ (forall t, f t = 0 <-> t <= t0) /\ increases (fun t => t0 <= t) f /\ settles f 1.
(** Relative humidity r (a fraction of 1) given as a fraction or in percent. *)
Definition humidity (rh r : R) : Prop := 4 / 10 <= r <= 1 /\ (rh = r \/ rh = 100 * r).
Definition cements : list string := ["32.5 N"; "32.5 R"; "42.5 N"; "42.5 R"; "52.5 N"; "52.5 R"]%string.
(** fib Model Code 2010, classes of cement: alpha, alpha_bs, alpha_ds1, 1000 alpha_ds2. *)
Definition cement_row (c : string) (r : R * R * R * R) : Prop :=
  (c = "32.5 N"%string /\ r = (-1, 800, 3, 13)) \/ (In c ["32.5 R"; "42.5 N"]%string /\ r = (0, 700, 4, 12)) \/ (In c ["42.5 R"; "52.5 N"; "52.5 R"]%string /\ r = (1, 600, 6, 12)).
