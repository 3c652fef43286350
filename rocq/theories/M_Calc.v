(** Primitives used by the code formulas (structuralcodes/codes): powers, tables,
    rounding, strings.  Floats are reals.  Where a formula divides or takes a power
    without a check of its own, the model is a total real function and says
    nothing about ZeroDivisionError, nan or complex results; theorems assume the
    arguments for which these do not occur.  Decimals are written as fractions. *)
From Coq Require Import String Ascii.
From Verif Require Import Base M_Registry M_Bars.
Open Scope R_scope.
Open Scope list_scope.

(** Used e.g. in codes/ec2_2004/_concrete_material_properties.py:39-51: x ** y and math.pow(x, y) for x >= 0 and a float exponent y > 0. *)
Definition pw (x y : R) : R := if Rltb 0 x then Rpower x y else 0.
(** Used e.g. in codes/ec2_2004/_section_7_3_crack_control.py:516-536: x / y where the caller can reach y = 0 after the checks of the function. *)
Definition pdiv (a b : R) : result R := if Reqb b 0 then Err ZeroDivisionError else Ok (a / b).
(** codes/ec2_2004/_concrete_creep_and_shrinkage.py:99, codes/mc2010/_concrete_material_properties.py:269, 315, 359: np.interp(x, xs, ys), constant outside the table. *)
Fixpoint interp_from (x : R) (p : R * R) (l : list (R * R)) : R :=
  match l with
  | [] => snd p
  | q :: l' => if Rleb x (fst q) then snd p + (snd q - snd p) / (fst q - fst p) * (x - fst p) else interp_from x q l'
  end.
(** codes/ec2_2004/_concrete_creep_and_shrinkage.py:99,
    codes/mc2010/_concrete_material_properties.py:269, 315, 359: np.interp. *)
Definition np_interp (x : R) (l : list (R * R)) : R :=
  match l with [] => 0 | p :: l' => if Rleb x (fst p) then snd p else interp_from x p l' end.
(** codes/ec2_2004/shear.py:108-109, 392-401: 1 / math.tan(x) as cos x / sin x. *)
Definition cot (x : R) : R := cos x / sin x.
(** codes/ec2_2004/shear.py:106, 392: math.radians. *)
Definition radians (x : R) : R := x * PI / 180.
(** codes/ec2_2004/shear.py:108-109: round(x, 2), nearest multiple of 1/100, ties to even. *)
Definition round2 (x : R) : R :=
  let f := floorZ (100 * x + 1 / 2) in
  (if andb (Reqb (100 * x + 1 / 2) (IZR f)) (Z.odd f) then IZR (f - 1) else IZR f) / 100.
(** codes/ec2_2004/_concrete_creep_and_shrinkage.py:174: str.upper on ASCII, one character. *)
Definition upper_char (c : ascii) : ascii :=
  let n := nat_of_ascii c in
  if andb (Nat.leb 97 n) (Nat.leb n 122) then ascii_of_nat (n - 32) else c.
(** codes/ec2_2004/_concrete_creep_and_shrinkage.py:174, 520,
    codes/ec2_2023/_section5_materials.py:256: str.upper. *)
Fixpoint str_upper (s : string) : string :=
  match s with EmptyString => EmptyString | String c s' => String (upper_char c) (str_upper s') end.
(** codes/ec2_2004/_concrete_creep_and_shrinkage.py:174: str.strip, ASCII white space (9-13, 28-32). *)
Definition space_char (c : ascii) : bool :=
  let n := nat_of_ascii c in orb (andb (Nat.leb 9 n) (Nat.leb n 13)) (andb (Nat.leb 28 n) (Nat.leb n 32)).
(** codes/ec2_2004/_concrete_creep_and_shrinkage.py:174: the left part of str.strip. *)
Fixpoint lstrip (s : string) : string :=
  match s with String c s' => if space_char c then lstrip s' else s | EmptyString => EmptyString end.
(** codes/ec2_2004/_concrete_creep_and_shrinkage.py:174: the right part of str.strip. *)
Fixpoint rstrip (s : string) : string :=
  match s with
  | EmptyString => EmptyString
  | String c s' => match rstrip s' with
                   | EmptyString => if space_char c then EmptyString else String c EmptyString
                   | t => String c t
                   end
  end.
(** codes/ec2_2004/_concrete_creep_and_shrinkage.py:174,
    codes/ec2_2023/_section5_materials.py:169: str.strip. *)
Definition str_strip (s : string) : string := rstrip (lstrip s).
(** codes/ec2_2023/_section5_materials.py:246-262, 570-586: [s in (a, b, ...)]. *)
Definition one_of (s : string) (l : list string) : bool := existsb (String.eqb s) l.
(** codes/mc2010/_concrete_material_properties.py:162: d[k]. *)
Definition dict_item {A} (d : list (string * A)) (k : string) : result A :=
  match dict_get d k with Some v => Ok v | None => Err KeyError end.
