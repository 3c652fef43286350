(** Independent specification for MC2010 shear and torsion. *)
From Coq Require Import ZArith.
From Verif Require Import Base M_ShearMC.
Open Scope R_scope.

(** Force in the tension chord, eq. (7.3-16). *)
Definition chord_force (z : R) (l : loads) : R := Rabs (Med l) / z + Rabs (Ved l) + Ned l * (1 / 2 + delta_e l / z).
(** k is the state of strain factor for chord strain e and a strut whose angle has
    cotangent c, eqs. (7.3-20), (7.3-21). *)
Definition strain_factor (e c k : R) : Prop :=
  let q := 12 / 10 + 55 * (e + (e + 2 / 1000) * (c * c)) in k <= 65 / 100 /\ k * q <= 1 /\ (k = 65 / 100 \/ k * q = 1).
(** The same loads with another shear force. *)
Definition with_shear_force (l : loads) (V : R) : loads := {| Med := Med l; Ved := V; Ned := Ned l; delta_e := delta_e l |}.
