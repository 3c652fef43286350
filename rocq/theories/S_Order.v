(** Independent specification: the order in which surfaces and bars are listed (C61). *)
From Coq Require Import Permutation.
From Verif Require Import Base M_Laws M_Laws2 M_Fiber M_MarinInt M_Section S_Section.

(** The same surfaces and bars, in any order. *)
Definition reordered (g g' : compound) : Prop := Permutation (cg_surf g) (cg_surf g') /\ Permutation (cg_bars g) (cg_bars g').
(** Ultimate strains: some surface or bar has a point at height z and the ultimate strain u
    there, in tension or in compression (yielding: the yield strain of the steels). *)
Definition lengthens (t : traits) (g : compound) (y : bool) (z u : R) : Prop :=
  (exists s v, In s (cg_surf g) /\ In v (sf_ext s) /\ snd v = z /\ u = snd (tr_ult t (sf_law s) y)) \/
  (exists b, In b (cg_bars g) /\ br_z b = z /\ u = snd (tr_ult t (br_law b) y)).
Definition shortens (t : traits) (g : compound) (y : bool) (z u : R) : Prop :=
  (exists s v, In s (cg_surf g) /\ In v (sf_ext s) /\ snd v = z /\ u = fst (tr_ult t (sf_law s) (if tr_rc t then andb y (tr_conc t (sf_law s)) else y))) \/
  (exists b, In b (cg_bars g) /\ br_z b = z /\ u = fst (tr_ult t (br_law b) (if tr_rc t then false else y))).
(** The strain profile p, bent about the horizontal axis, is a balanced failure: it overstrains
    nothing, and the ultimate strains are reached at the height zn in compression
    and zp < zn in tension. *)
Definition at_failure (t : traits) (g : compound) (y : bool) (p : R * R * R) (zn zp : R) : Prop :=
  p_kz p = 0 /\ zp < zn /\ (forall z u, lengthens t g y z u -> strain_at p z <= u) /\ (forall z u, shortens t g y z u -> u <= strain_at p z) /\
  lengthens t g y zp (strain_at p zp) /\ shortens t g y zn (strain_at p zn).
(** However the section is turned, at balanced failure the ultimate strains are
    reached at one height in compression and at one height in tension. *)
Definition one_failure (t : traits) (g : compound) : Prop := forall a y p zn zp zn' zp',
  at_failure t (rotate_geo a g) y p zn zp -> at_failure t (rotate_geo a g) y p zn' zp' -> zn' = zn /\ zp' = zp.
(** No material allows a shortening in tension or a lengthening in compression. *)
Definition around_zero (t : traits) : Prop := forall k y, fst (tr_ult t k y) <= 0 <= snd (tr_ult t k y).
(** The surfaces' laws write the same strain back when they are asked for a uniform strain. *)
Definition write_alike (laws : nat -> law) (g : compound) : Prop := forall s s' e, In s (cg_surf g) -> In s' (cg_surf g) ->
  fst (lw_marin (laws (sf_law s)) (e, 0)) = fst (lw_marin (laws (sf_law s')) (e, 0)) /\
  fst (lw_marin_tangent (laws (sf_law s)) (e, 0)) = fst (lw_marin_tangent (laws (sf_law s')) (e, 0)).
