(** The initial-strain wrapper as a law of a section's materials. *)
From Verif Require Import Base M_Laws M_Laws2.

(** materials/constitutive_laws/_initial_strain.py:68-130, packed.  eps + initial_strain is a new array: the
    caller's array is untouched.  Without strain compatibility get_tangent (lines 81-83) returns one number for an
    array; simplification: the integrators broadcast it over the areas, so it is modelled as a constant array. *)
Definition initial_law (i : istr) : law := {|
  lw_stress := is_stress i; lw_tangent := is_tangent i;
  lw_stress_arr := fun a =>
    let v := fst (lw_stress_arr (is_law i) (map (fun e => e + is_e0 i) a)) in
    (if is_compat i then v else map (fun _ => 1 * is_s0 i) v, a);
  lw_tangent_arr := fun a =>
    (if is_compat i then fst (lw_tangent_arr (is_law i) (map (fun e => e + is_e0 i) a))
     else map (fun _ => lw_tangent (is_law i) 0 * / 1000000) a, a);
  lw_marin := is_marin i; lw_marin_tangent := is_marin_tangent i; lw_ult := is_ult i |}.
