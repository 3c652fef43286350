(** Independent specification: comparing and printing section properties (C66). *)
From Coq Require Import String Ascii.
From Verif Require Import Base M_Gross.

(** What holds of each of the 29 quantities of two sets of section properties. *)
Definition each (P : R -> R -> Prop) (a b : gross) : Prop :=
  P (gp_area a) (gp_area b) /\ P (gp_area_reinforcement a) (gp_area_reinforcement b) /\ P (gp_perimeter a) (gp_perimeter b) /\ P (gp_mass a) (gp_mass b) /\ P (gp_ea a) (gp_ea b) /\
  P (gp_cy a) (gp_cy b) /\ P (gp_cz a) (gp_cz b) /\
  P (gp_sy a) (gp_sy b) /\ P (gp_sz a) (gp_sz b) /\ P (gp_iyy a) (gp_iyy b) /\ P (gp_izz a) (gp_izz b) /\ P (gp_iyz a) (gp_iyz b) /\
  P (gp_iyy_c a) (gp_iyy_c b) /\ P (gp_izz_c a) (gp_izz_c b) /\ P (gp_iyz_c a) (gp_iyz_c b) /\ P (gp_i11 a) (gp_i11 b) /\ P (gp_i22 a) (gp_i22 b) /\ P (gp_theta a) (gp_theta b) /\
  P (gp_e_sy a) (gp_e_sy b) /\ P (gp_e_sz a) (gp_e_sz b) /\ P (gp_e_iyy a) (gp_e_iyy b) /\ P (gp_e_izz a) (gp_e_izz b) /\ P (gp_e_iyz a) (gp_e_iyz b) /\
  P (gp_e_iyy_c a) (gp_e_iyy_c b) /\ P (gp_e_izz_c a) (gp_e_izz_c b) /\ P (gp_e_iyz_c a) (gp_e_iyz_c b) /\ P (gp_e_i11 a) (gp_e_i11 b) /\ P (gp_e_i22 a) (gp_e_i22 b) /\ P (gp_e_theta a) (gp_e_theta b).
(** x agrees with the reference y. *)
Definition agrees (rtol atol x y : R) : Prop := Rabs (x - y) <= atol + rtol * Rabs y.
(** A text on one line. *)
Fixpoint one_line (s : string) : Prop :=
  match s with EmptyString => True | String c r => nat_of_ascii c <> 10%nat /\ one_line r end.
(** What a reader finds each quantity under (the label of Sz is the one the code prints,
    although Sz is a first moment). *)
Definition label_of : list ((gross -> R) * string) :=
  [(gp_perimeter, "Perimeter"%string); (gp_area, "Total area"%string); (gp_area_reinforcement, "Reinforcement area"%string); (gp_mass, "Mass per unit length"%string);
   (gp_ea, "Axial rigidity (E * A)"%string); (gp_cy, "Centroid y Coordinate"%string); (gp_cz, "Centroid z Coordinate"%string);
   (gp_sy, "First moment of area (Sy)"%string); (gp_e_sy, "E * Sy"%string); (gp_sz, "Second moment of area (Sz)"%string); (gp_e_sz, "E * Sz"%string);
   (gp_iyy, "Second moment (Iyy)"%string); (gp_e_iyy, "E * Iyy"%string); (gp_izz, "Second moment (Izz)"%string); (gp_e_izz, "E * Izz"%string);
   (gp_iyz, "Product moment (Iyz)"%string); (gp_e_iyz, "E * Iyz"%string);
   (gp_iyy_c, "Centroidal Second moment (Iyy_c)"%string); (gp_e_iyy_c, "E * Iyy_c"%string); (gp_izz_c, "Centroidal Second moment (Izz_c)"%string); (gp_e_izz_c, "E * Izz_c"%string);
   (gp_iyz_c, "Centroidal Product moment (Iyz_c)"%string); (gp_e_iyz_c, "E * Iyz_c"%string);
   (gp_i11, "Principal Second Moment (I11)"%string); (gp_e_i11, "E * I11"%string); (gp_i22, "Principal Second Moment (I22)"%string); (gp_e_i22, "E * I22"%string);
   (gp_theta, "Principal axis angle (theta)"%string); (gp_e_theta, "Principal axis angle (theta)"%string)].
(** A line break, and a line standing on its own within a text. *)
Definition line_break : string := String (ascii_of_nat 10) "".
Definition has_line (text line : string) : Prop := exists before after, text = (before ++ line_break ++ line ++ line_break ++ after)%string.
