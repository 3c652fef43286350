(** Model of ConstitutiveLaw._discretize_law and of the default __marin__ /
    __marin_tangent__ (core/base.py:221-290), used by Sargin, Popovics and by
    ParabolaRectangle with an exponent other than 2. *)
From Verif Require Import Base M_Laws M_Laws2 M_Section.

(** core/base.py:241, 252: np.max of an array that is not empty. *)
Definition np_max (l : list R) : R :=
  match l with [] => 0 | a :: l' => fold_left Rmax l' a end.
(** core/base.py:226-234 find_x_lim: the entry of x at the last non-zero entry
    of y, None when all are zero. *)
Definition find_x_lim (x y : list R) : option R :=
  match filter (fun p => negb (Reqb (snd p) 0)) (combine x y) with
  | [] => None
  | nz => Some (fst (last nz (0, 0)))
  end.
(** core/base.py:241 and 252: [sig[sig < np.max(sig) * 1e-6] = 0]. *)
Definition cut_small (sig : list R) : list R :=
  let m := np_max sig in map (fun s => if Rltb s (m * / 1000000) then 0 else s) sig.
(** core/base.py:221-270.  [arr] is get_stress on an array: the stresses and
    the content of the caller's array afterwards (the strains are snapped in
    place); [ult] is get_ultimate_strain(). *)
Definition discretize (arr : list R -> list R * list R) (ult : R * R) : result ud :=
  let '(eps_min, eps_max) := ult in
  let eps_max := Rmin eps_max 1 in
  let '(sig, eps) := arr (linspace 0 eps_max (Z.to_nat 10000) true) in
  let eps_pos := match find_x_lim eps (cut_small sig) with
                 | None => linspace 0 (- eps_min) 1 true
                 | Some l => linspace 0 l 10 true
                 end in
  let '(sig, eps) := arr (linspace 0 eps_min (Z.to_nat 10000) true) in
  let sig := map Ropp sig in
  let eps_neg := match find_x_lim (map Ropp eps) (cut_small sig) with
                 | None => linspace eps_min 0 1 false
                 | Some l => linspace (- l) 0 10 false
                 end in
  let '(sig, eps) := arr (eps_neg ++ eps_pos) in
  ud_init eps sig None 0.
(** core/base.py:272-281. *)
Definition default_marin (arr : list R -> list R * list R) (ult s : R * R) : result marin_out :=
  do l <- discretize arr ult; Ok (snd (ud_marin l s)).
(** core/base.py:283-290. *)
Definition default_marin_tangent (arr : list R -> list R * list R) (ult s : R * R) : result marin_out :=
  do l <- discretize arr ult; Ok (snd (ud_marin_tangent l s)).
(** materials/constitutive_laws/_parabolarectangle.py:126-129 and 206-209: exponents other than 2 use the
    default. *)
Definition pr_marin (l : pr) (s : R * R) : result marin_out :=
  if Reqb (pr_n l) 2 then Ok (snd (pr_marin2 l s))
  else default_marin (fun a => (pr_stress_arr l a, prep_arr (pr_ult l) a)) (pr_ult l) s.
(** materials/constitutive_laws/_parabolarectangle.py:206-209, core/base.py:283-290. *)
Definition pr_marin_tangent (l : pr) (s : R * R) : result marin_out :=
  if Reqb (pr_n l) 2 then Ok (snd (pr_marin_tangent2 l s))
  else default_marin_tangent (fun a => (pr_stress_arr l a, prep_arr (pr_ult l) a)) (pr_ult l) s.
(** core/base.py:272-281, inherited by materials/constitutive_laws/_sargin.py:13 [Sargin]. *)
Definition sargin_marin (l : sargin) (s : R * R) : result marin_out :=
  default_marin (fun a => (sargin_stress_arr l a, prep_arr (sargin_ult l) a)) (sargin_ult l) s.
(** core/base.py:283-290, inherited by materials/constitutive_laws/_sargin.py:13
    [Sargin]. *)
Definition sargin_marin_tangent (l : sargin) (s : R * R) : result marin_out :=
  default_marin_tangent (fun a => (sargin_stress_arr l a, prep_arr (sargin_ult l) a)) (sargin_ult l) s.
(** core/base.py:272-281, inherited by
    materials/constitutive_laws/_popovics.py:13 [Popovics]. *)
Definition popovics_marin (l : popovics) (s : R * R) : result marin_out :=
  default_marin (fun a => (popovics_stress_arr l a, prep_arr (popovics_ult l) a)) (popovics_ult l) s.
(** core/base.py:283-290, inherited by
    materials/constitutive_laws/_popovics.py:13 [Popovics]. *)
Definition popovics_marin_tangent (l : popovics) (s : R * R) : result marin_out :=
  default_marin_tangent (fun a => (popovics_stress_arr l a, prep_arr (popovics_ult l) a)) (popovics_ult l) s.
