(** Model of the class SectionProperties beyond its fields: core/_section_results.py:106-142. *)
From Coq Require Import String Ascii.
From Verif Require Import Base M_Gross.

(** core/_section_results.py:16-104: the fields in the order they are declared, each with its description. *)
Definition gp_fields (r : gross) : list (string * R) :=
  [("Total area"%string, gp_area r); ("Reinforcement area"%string, gp_area_reinforcement r); ("Axial rigidity (E * A)"%string, gp_ea r);
   ("Mass per unit length"%string, gp_mass r); ("Perimeter"%string, gp_perimeter r);
   ("First moment of area (Sy)"%string, gp_sy r); ("Second moment of area (Sz)"%string, gp_sz r); ("E * Sy"%string, gp_e_sy r); ("E * Sz"%string, gp_e_sz r);
   ("Centroid y Coordinate"%string, gp_cy r); ("Centroid z Coordinate"%string, gp_cz r);
   ("Second moment (Iyy)"%string, gp_iyy r); ("Second moment (Izz)"%string, gp_izz r); ("Product moment (Iyz)"%string, gp_iyz r);
   ("Centroidal Second moment (Iyy_c)"%string, gp_iyy_c r); ("Centroidal Second moment (Izz_c)"%string, gp_izz_c r); ("Centroidal Product moment (Iyz_c)"%string, gp_iyz_c r);
   ("Principal Second Moment (I11)"%string, gp_i11 r); ("Principal Second Moment (I22)"%string, gp_i22 r); ("Principal axis angle (theta)"%string, gp_theta r);
   ("E * Iyy"%string, gp_e_iyy r); ("E * Izz"%string, gp_e_izz r); ("E * Iyz"%string, gp_e_iyz r);
   ("E * Iyy_c"%string, gp_e_iyy_c r); ("E * Izz_c"%string, gp_e_izz_c r); ("E * Iyz_c"%string, gp_e_iyz_c r);
   ("E * I11"%string, gp_e_i11 r); ("E * I22"%string, gp_e_i22 r); ("Principal axis angle (theta)"%string, gp_e_theta r)].

(** core/_section_results.py:12-104: SectionProperties() without arguments, every field 0. *)
Definition gp_default : gross := Build_gross 0 0 0 0 0 0 0 0 0 0 0 0 0 0 0 0 0 0 0 0 0 0 0 0 0 0 0 0 0.

(** The newline character, core/_section_results.py:112, 118. *)
Definition nl : string := String (Ascii.ascii_of_nat 10) EmptyString.
(** core/_section_results.py:106-121 __format__; [fmt] stands for formatting one number
    with the given specification ([f'{value:{spec}}']). *)
Definition gp_format (fmt : R -> string) (r : gross) : string :=
  fold_left (fun out f => (out ++ (fst f ++ ": " ++ fmt (snd f) ++ nl))%string) (gp_fields r) ("Section Properties:" ++ nl)%string.

(** numpy's allclose on two finite arrays of one length, as called at core/_section_results.py:142. *)
Definition allclose (a b : list R) (rtol atol : R) : bool :=
  forallb (fun p => Rleb (Rabs (fst p - snd p)) (atol + rtol * Rabs (snd p))) (combine a b).
(** core/_section_results.py:129-142 isclose; [None] for [other] is an object of another
    class, [None] for the result is NotImplemented. *)
Definition gp_isclose (r : gross) (other : option gross) (rtol atol : R) : option bool :=
  match other with
  | None => None
  | Some q => Some (allclose (map snd (gp_fields r)) (map snd (gp_fields q)) rtol atol)
  end.
(** Python's truth value of the result: NotImplemented counts as true (core/_section_results.py:137-138). *)
Definition truthy (x : option bool) : bool := match x with None => true | Some b => b end.
