(** Independent specification for the section calculator. *)
From Verif Require Import Base M_Laws2 M_Fiber S_Fiber.

(** The axial force v balances the applied load n (documented tolerance 1e-2). *)
Definition balances (n v : R) : Prop := Rabs (v - n) <= 1 / 100.
(** Total response functions: never raising. *)
Definition total (f : R -> result R) (h : R -> R) : Prop := forall x, f x = Ok (h x).
Definition nondecreasing (h : R -> R) : Prop := forall x y, x <= y -> h x <= h y.
Definition lipschitz (L : R) (h : R -> R) : Prop := forall x y, Rabs (h x - h y) <= L * Rabs (x - y).

(** Linear strain profile over the height, tension at the bottom. *)
Definition strain_at (p : R * R * R) (z : R) : R := fst (fst p) + snd (fst p) * z.

(** Matrix times vector, as a triple. *)
Definition mul3 (K : nat -> nat -> R) (v : R * R * R) : R * R * R :=
  let '(a, b, c) := v in (mat_vec K a b c 0, mat_vec K a b c 1, mat_vec K a b c 2).

(** Points reached by halving, starting from a step d at a: a + d * m / 2^j. *)
Definition grid (a d x : R) : Prop := exists (m : Z) (j : nat), x = a + d * (IZR m / 2 ^ j).

(** Integrating a profile afresh or with the data of an earlier call gives the
    same forces, and the mesh size is irrelevant once there are data. *)
From Verif Require Import M_MarinInt M_Section.
Definition reuse_safe (ig : integ) (g : compound) : Prop :=
  (forall p m F d, ig_forces ig g p None m = Ok (F, d) -> rmap fst (ig_forces ig g p (Some d) None) = Ok F) /\
  (forall p d m m', rmap fst (ig_forces ig g p (Some d) m) = rmap fst (ig_forces ig g p (Some d) m')).

(** Ultimate strains that the balanced-failure analysis has to respect in one
    part of the section: without yielding the ultimate ones, with yielding the
    yield strains, except that in a reinforced concrete section the compression
    of the steel is never limited by its yield strain. *)
Definition tension_limit (yielding : bool) (i : item) : R := snd (im_ult i yielding).
Definition compression_limit (rc yielding : bool) (i : item) : R :=
  if andb rc (negb (im_conc i)) then fst (im_ult i false) else fst (im_ult i yielding).
(** Every ordinate z of the part is within its limits for profile p. *)
Definition part_within (rc yielding : bool) (p : R * R * R) (i : item) : Prop :=
  forall z, im_lo i <= z <= im_hi i -> compression_limit rc yielding i <= strain_at p z <= tension_limit yielding i.
(** Ordinates of the material of a section. *)
Definition surface_ordinate (s : surface) (z : R) : Prop :=
  exists v w, In v (sf_ext s) /\ In w (sf_ext s) /\ snd v <= z <= snd w.
