(** Independent specification for EC2:2004 shear: the coefficient for the state of
    stress in the compression chord, by the ratio of axial stress to strength. *)
From Verif Require Import Base.
Open Scope R_scope.

Definition chord_coefficient (r : R) : R := if Rle_dec r 0 then 1 else if Rle_dec r (1 / 4) then 1 + r else if Rle_dec r (1 / 2) then 5 / 4 else 5 / 2 * (1 - r).
