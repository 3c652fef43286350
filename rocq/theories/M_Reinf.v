(** Model of the reinforcement materials
    (materials/reinforcement/_reinforcement*.py) and of the design-value
    functions they call. *)
From Coq Require Import String.
From Verif Require Import Base M_Laws M_Registry.

(** codes/ec2_2004/_reinforcement_material_properties.py:21-41,
    codes/mc2010/_reinforcement_material_properties.py:25-45,
    codes/ec2_2023/_section5_materials.py:875-896: the three fyd functions are
    identical. *)
Definition code_fyd (fyk gamma_s : R) : result R :=
  if Rltb fyk 0 then Err ValueError
  else if Rltb gamma_s 1 then Err ValueError
  else Ok (fyk / gamma_s).
(** codes/ec2_2004/_reinforcement_material_properties.py:44-69 and codes/mc2010/_reinforcement_material_properties.py:48-70: epsud. *)
Definition code_epsud (epsuk gamma_eps : R) : result R :=
  if Rltb epsuk 0 then Err ValueError
  else if Rltb 1 gamma_eps then Err ValueError
  else Ok (epsuk * gamma_eps).
(** eps_ud (codes/ec2_2023/_section5_materials.py:899-920). *)
Definition code_eps_ud_2023 (eps_uk gamma_s : R) : result R :=
  if Rltb eps_uk 0 then Err ValueError
  else if Rltb gamma_s 1 then Err ValueError
  else Ok (eps_uk / gamma_s).

(** Python's [x or default] (materials/reinforcement/_reinforcementEC2_2004.py:107-111, 122-126): None and 0 give the default. *)
Definition py_or (x : option R) (d : R) : R :=
  match x with None => d | Some v => if Reqb v 0 then d else v end.

(** materials/reinforcement/_reinforcement.py:18-46 __init__ (the object's attributes; gamma_eps exists
    for MC2010 and EC2:2004 only). *)
Record reinf := { rf_cls : mclass; rf_fyk : R; rf_Es : R; rf_ftk : R; rf_epsuk : R;
                  rf_gs : option R; rf_ge : option R }.
(** materials/reinforcement/_reinforcement.py:18-46: the attribute assignments. *)
Definition reinf_attrs (c : mclass) (fyk Es ftk epsuk : R) (gs ge : option R) : reinf :=
  {| rf_cls := c; rf_fyk := Rabs fyk; rf_Es := Rabs Es; rf_ftk := Rabs ftk; rf_epsuk := Rabs epsuk;
     rf_gs := gs; rf_ge := ge |}.
(** materials/reinforcement/_reinforcementEC2_2004.py:106-111, _reinforcementEC2_2023.py:109-114, _reinforcementMC2010.py:106-109. *)
Definition gamma_s (r : reinf) : R := py_or (rf_gs r) (115 / 100).
(** materials/reinforcement/_reinforcementEC2_2004.py:121-126, _reinforcementMC2010.py:119-122. *)
Definition gamma_eps (r : reinf) : R := py_or (rf_ge r) (9 / 10).
(** fyd: materials/reinforcement/_reinforcementEC2_2004.py:102-104, _reinforcementEC2_2023.py:97-99, _reinforcementMC2010.py:102-104. *)
Definition rf_fyd (r : reinf) : result R := code_fyd (rf_fyk r) (gamma_s r).
(** ftd: materials/reinforcement/_reinforcementEC2_2004.py:113-115,
    _reinforcementEC2_2023.py:101-103, _reinforcementMC2010.py:111-113. *)
Definition rf_ftd (r : reinf) : result R := code_fyd (rf_ftk r) (gamma_s r).
(** epsud: materials/reinforcement/_reinforcementEC2_2004.py:117-119, _reinforcementMC2010.py:115-117, _reinforcementEC2_2023.py:105-107. *)
Definition rf_epsud (r : reinf) : result R :=
  match rf_cls r with
  | ClsEC2_2023 => code_eps_ud_2023 (rf_epsuk r) (gamma_s r)
  | _ => code_epsud (rf_epsuk r) (gamma_eps r)
  end.
(** materials/reinforcement/_reinforcement.py:72-75 epsyk. *)
Definition rf_epsyk (r : reinf) : result R :=
  if Reqb (rf_Es r) 0 then Err ZeroDivisionError else Ok (rf_fyk r / rf_Es r).
(** materials/reinforcement/_reinforcement.py:107-110 epsyd. *)
Definition rf_epsyd (r : reinf) : result R :=
  do f <- rf_fyd r; if Reqb (rf_Es r) 0 then Err ZeroDivisionError else Ok (f / rf_Es r).
(** materials/reinforcement/_reinforcement.py:67-70: the epsuk setter (touches only _epsuk). *)
Definition set_epsuk (e : R) (r : reinf) : reinf :=
  {| rf_cls := rf_cls r; rf_fyk := rf_fyk r; rf_Es := rf_Es r; rf_ftk := rf_ftk r; rf_epsuk := Rabs e;
     rf_gs := rf_gs r; rf_ge := rf_ge r |}.

(** Keyword arguments produced by the special methods
    (materials/reinforcement/_reinforcementEC2_2004.py:128-152, _reinforcementEC2_2023.py:116-140, _reinforcementMC2010.py:124-148). *)
Inductive lkwargs := KElastic (E : R) | KPlastic (E fy Eh : R) (eps_su : R).
(** The methods __elastic__, __elasticperfectlyplastic__ and __elasticplastic__
    of the three classes:
    materials/reinforcement/_reinforcementEC2_2004.py:128-152 and siblings. *)
Definition rf_methods (r : reinf) (m : string) : option (result lkwargs) :=
  if String.eqb m "__elastic__" then Some (Ok (KElastic (rf_Es r)))
  else if String.eqb m "__elasticperfectlyplastic__" then
    Some (do fy <- rf_fyd r; do u <- rf_epsud r; Ok (KPlastic (rf_Es r) fy 0 u))
  else if String.eqb m "__elasticplastic__" then
    Some (do ft <- rf_ftd r; do fy <- rf_fyd r; do u <- rf_epsud r; do y <- rf_epsyd r;
          if Reqb (u - y) 0 then Err ZeroDivisionError
          else Ok (KPlastic (rf_Es r) fy ((ft - fy) / (u - y)) u))
  else None.
(** materials/constitutive_laws/__init__.py:83-90: the law object the factory builds for a reinforcement. *)
Inductive rlaw := RElastic (l : elastic) | RPlastic (l : ep).
(** materials/constitutive_laws/__init__.py:83-90: the class call with the
    keyword arguments. *)
Definition rf_build (c : lclass) (k : lkwargs) : result rlaw :=
  match c, k with
  | CElastic, KElastic E => do l <- elastic_init E None; Ok (RElastic l)
  | CElasticPlastic, KPlastic E fy Eh u => do l <- ep_init E fy Eh (Some u); Ok (RPlastic l)
  | _, _ => Err TypeError
  end.
(** materials/reinforcement/_reinforcementEC2_2004.py:14-100 (_reinforcementEC2_2023.py:14-95, _reinforcementMC2010.py:14-100) with a law name, without
    initial strain; elastic and elastic-plastic laws list 'steel' among their
    materials, so the material check passes.  The result is the object with the
    law it was built with. *)
Definition reinf_init (c : mclass) (fyk Es ftk epsuk : R) (gs ge : option R) (law_name : string)
  : result (reinf * rlaw) :=
  let r := reinf_attrs c fyk Es ftk epsuk gs ge in
  do l <- create_law (rf_methods r) rf_build law_name;
  Ok (r, l).

(** reinforcement_duct_props: codes/ec2_2004/_reinforcement_material_properties.py:72-104 and codes/ec2_2023/_section5_materials.py:
    14-27, 1132-1160 (classes A-C), codes/mc2010/_reinforcement_material_properties.py:73-105 (A-D);
    the class letter is upper-cased first.  [None] = no such class. *)
Definition upper (s : string) : string :=
  match s with
  | "a"%string => "A"%string | "b"%string => "B"%string
  | "c"%string => "C"%string | "d"%string => "D"%string | _ => s
  end.
(** codes/ec2_2004/_reinforcement_material_properties.py:72-104 and the two
    sibling functions named above. *)
Definition duct_props (with_D : bool) (fyk : R) (cl : string) : result (R * R) :=
  let c := upper cl in
  if String.eqb c "A" then Ok (25 / 1000, 105 / 100 * fyk)
  else if String.eqb c "B" then Ok (5 / 100, 108 / 100 * fyk)
  else if String.eqb c "C" then Ok (75 / 1000, 115 / 100 * fyk)
  else if andb with_D (String.eqb c "D") then Ok (8 / 100, 125 / 100 * fyk)
  else Err ValueError.
