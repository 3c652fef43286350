(** Independent specification: materials equal in tension and compression (C65). *)
From Verif Require Import Base M_Laws M_Laws2 M_Fiber M_MarinInt M_Section S_MarinInt.

(** The opposite strain profile, or the opposite forces. *)
Definition opposite (p : R * R * R) : R * R * R := (- fst (fst p), - snd (fst p), - snd p).
(** Stress at -e is minus the stress at e, the tangent is the same. *)
Definition two_sided (l : law) : Prop := forall e, lw_stress l (- e) = - lw_stress l e /\ lw_tangent l (- e) = lw_tangent l e.
(** The same for the answers to the exact integrator under a uniform strain e: a
    (possibly snapped) strain e' and one list of coefficients for the whole surface. *)
Definition two_sided_uniform (l : law) : Prop := forall e,
  (exists e' c, lw_marin l (e, 0) = (e', (None, [c])) /\ lw_marin l (- e, 0) = (- e', (None, [map Ropp c]))) /\
  (exists e' c, lw_marin_tangent l (e, 0) = (e', (None, [c])) /\ lw_marin_tangent l (- e, 0) = (- e', (None, [c]))).
(** Curves with f(-e) = -f(e), and slopes with t(-e) = t(e). *)
Definition odd_curve (f : R -> R) : Prop := forall e, f (- e) = - f e.
Definition even_curve (f : R -> R) : Prop := forall e, f (- e) = f e.
