(** Independent specification for EC2:2023 steel and serviceability. *)
From Coq Require Import String.
From Verif Require Import Base S_Marin S_Calc.
Open Scope R_scope.
Open Scope list_scope.

(** Elastic up to the yield stress, then the straight line to (eu, fu). *)
Definition bilinear (E fy fu eu : R) (s : R -> R) : Prop :=
  (forall e, e * E <= fy -> s e = e * E) /\ (forall e, fy <= e * E -> (s e - fy) * (eu * E - fy) = (fu - fy) * (e * E - fy)).
(** Table 5.6: prestressing steels, 0.1% proof stress and tensile strength. *)
Inductive steel := wires | strands | bars.
Definition letter (k : steel) : string := match k with wires => "W" | strands => "S" | bars => "B" end%string.
Definition steels (k : steel) : list (string * (R * R)) :=
  match k with
  | wires => [("Y1570", (1380, 1570)); ("Y1670", (1470, 1670)); ("Y1770", (1550, 1770)); ("Y1860", (1650, 1860))]
  | strands => [("Y1770", (1560, 1770)); ("Y1860", (1640, 1860)); ("Y1960", (1740, 1960)); ("Y2060", (1830, 2060))]
  | bars => [("Y1030", (835, 1030)); ("Y1050", (950, 1050)); ("Y1100", (900, 1100)); ("Y1230", (1080, 1230))]
  end%string.
(** Cracking moment of a b x h rectangle (m, MPa, kNm) of tensile strength fct. *)
Definition cracking_moment (fct b h : R) : R := 1000 * fct * (b * h ^ 2 / 6).
