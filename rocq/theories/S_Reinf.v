(** Independent specification of reinforcement design values. *)
From Verif Require Import Base M_Registry.

(** The factor in force: the caller's, or the code's default when none is given. *)
Definition factor (given : option R) (default : R) (f : R) : Prop :=
  match given with Some g => f = g | None => f = default end.
(** Design ultimate strain: EC2:2023 divides by gamma_s, the other codes multiply
    by gamma_eps. *)
Definition design_ultimate (c : mclass) (epsuk gs ge : R) : R :=
  match c with ClsEC2_2023 => epsuk / gs | _ => epsuk * ge end.
