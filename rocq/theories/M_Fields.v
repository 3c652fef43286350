(** The remaining laws packed behind the common interface (see M_Laws2 for elastic,
    elastic-plastic, ParabolaRectangle with exponent 2 and UserDefined).
    Simplifications: a law record cannot raise, so where the code raises (a
    discretisation that fails, Sargin's division by zero on a Python float, a Parallel
    law whose Marin coefficients do not fit together) the record answers with no
    ranges and no coefficients, or with 0; the theorems assume or prove that these cases do not
    occur (C05, C08 and C09 state when they do). *)
From Verif Require Import Base M_Laws M_Laws2 M_Discr.

(** core/base.py:272-281 and 283-290, inherited: the Marin form of the discretised
    law.  The caller's strain list is handed to the discretised law, which may
    replace its first entry. *)
Definition by_default (get : ud -> R * R -> R * marin_out) (arr : list R -> list R * list R) (ult s : R * R) : R * marin_out :=
  match discretize arr ult with Ok l => get l s | Err _ => (fst s, (None, [])) end.
(** A value that may have raised: materials/constitutive_laws/_sargin.py:62-107 on a Python float. *)
Definition or_zero (r : result R) : R := match r with Ok v => v | Err _ => 0 end.

(** materials/constitutive_laws/_bilinearcompression.py:44-184, packed. *)
Definition bil_law (l : bil) : law := {|
  lw_stress := bil_stress l; lw_tangent := bil_tangent l;
  lw_stress_arr := fun a => (bil_stress_arr l a, prep_arr (bil_ult l) a);
  lw_tangent_arr := fun a => (bil_tangent_arr l a, a);
  lw_marin := bil_marin l; lw_marin_tangent := bil_marin_tangent l; lw_ult := bil_ult l |}.
(** materials/constitutive_laws/_sargin.py:62-115 with core/base.py:221-290, packed. *)
Definition sargin_law (l : sargin) : law :=
  let arr := fun a => (sargin_stress_arr l a, prep_arr (sargin_ult l) a) in {|
  lw_stress := fun e => or_zero (sargin_stress l e); lw_tangent := fun e => or_zero (sargin_tangent l e);
  lw_stress_arr := arr; lw_tangent_arr := fun a => (sargin_tangent_arr l a, a);
  lw_marin := by_default ud_marin arr (sargin_ult l); lw_marin_tangent := by_default ud_marin_tangent arr (sargin_ult l);
  lw_ult := sargin_ult l |}.
(** materials/constitutive_laws/_popovics.py:76-133 with core/base.py:221-290, packed;
    get_tangent snaps the caller's array too. *)
Definition popovics_law (l : popovics) : law :=
  let arr := fun a => (popovics_stress_arr l a, prep_arr (popovics_ult l) a) in {|
  lw_stress := popovics_stress l; lw_tangent := popovics_tangent l;
  lw_stress_arr := arr; lw_tangent_arr := fun a => (popovics_tangent_arr l a, prep_arr (popovics_ult l) a);
  lw_marin := by_default ud_marin arr (popovics_ult l); lw_marin_tangent := by_default ud_marin_tangent arr (popovics_ult l);
  lw_ult := popovics_ult l |}.
(** materials/constitutive_laws/_parabolarectangle.py:50-255, any exponent (lines 126-129 and 206-209), packed. *)
Definition pr_law_n (l : pr) : law :=
  let arr := fun a => (pr_stress_arr l a, prep_arr (pr_ult l) a) in {|
  lw_stress := pr_stress l; lw_tangent := pr_tangent l;
  lw_stress_arr := arr; lw_tangent_arr := fun a => (pr_tangent_arr l a, a);
  lw_marin := fun s => if Reqb (pr_n l) 2 then pr_marin2 l s else by_default ud_marin arr (pr_ult l) s;
  lw_marin_tangent := fun s => if Reqb (pr_n l) 2 then pr_marin_tangent2 l s else by_default ud_marin_tangent arr (pr_ult l) s;
  lw_ult := pr_ult l |}.
(** materials/constitutive_laws/_parallel.py:83-91 get_tangent, array: as get_stress. *)
Definition par_tangent_arr (p : par) (eps : list R) : list R * list R :=
  fold_left (fun acc wl =>
      let '(s, a) := acc in
      let '(v, a') := lw_tangent_arr (snd wl) a in
      (vadd s (map (Rmult (fst wl)) v), a'))
    (combine (pa_w p) (pa_laws p)) (map (fun e => 0 * e) eps, eps).
(** materials/constitutive_laws/_parallel.py:72-232, packed. *)
Definition par_law (p : par) : law :=
  let form (x : R * result marin_out) : R * marin_out := (fst x, match snd x with Ok o => o | Err _ => (None, []) end) in {|
  lw_stress := par_stress p; lw_tangent := par_tangent p;
  lw_stress_arr := par_stress_arr p; lw_tangent_arr := par_tangent_arr p;
  lw_marin := fun s => form (par_marin p s); lw_marin_tangent := fun s => form (par_marin_tangent p s);
  lw_ult := match par_ult p with Some u => u | None => (0, 0) end |}.
