(** Independent specification: a section moved, mirrored or drawn with other vertices first (C58). *)
From Coq Require Import Permutation.
From Verif Require Import Base S_Marin M_Laws M_Laws2 M_Fiber M_MarinInt M_Section M_Domain S_MarinInt.

(** The point (y, z) after mirroring y if sg = -1 (not if sg = 1) and moving by (a, b). *)
Definition place (sg a b : R) (p : R * R) : R * R := (sg * fst p + a, snd p + b).
(** The outline [r'] has the placed edges of the outline [r], in any order of the
    vertices and any sense of rotation; the outline encloses an area. *)
Definition same_outline (T : R * R -> R * R) (r r' : list (R * R)) : Prop :=
  shoelace r <> 0 /\
  (Permutation (edges r') (map (fun e => (T (fst e), T (snd e))) (edges r)) \/
   Permutation (edges r') (map (fun e => (T (snd e), T (fst e))) (edges r))).
Definition same_surface (T : R * R -> R * R) (s s' : surface) : Prop :=
  sf_law s' = sf_law s /\ same_outline T (sf_ext s) (sf_ext s') /\
  exists holes, Permutation holes (sf_ints s') /\ Forall2 (same_outline T) (sf_ints s) holes.
Definition same_bar (T : R * R -> R * R) (b b' : bar) : Prop :=
  (br_y b', br_z b') = T (br_y b, br_z b) /\ br_area b' = br_area b /\ br_law b' = br_law b.
(** Surface by surface and bar by bar. *)
Definition moved (sg a b : R) (g g' : compound) : Prop :=
  Forall2 (same_surface (place sg a b)) (cg_surf g) (cg_surf g') /\ Forall2 (same_bar (place sg a b)) (cg_bars g) (cg_bars g').

(** The strain profile with the same strain in every point. *)
Definition moved_profile (sg a b : R) (p : R * R * R) : R * R * R :=
  let '(e, ky, kz) := p in (e - ky * b + sg * kz * a, ky, sg * kz).
(** Resultants of the same stresses, moments about the new origin. *)
Definition moved_forces (sg a b : R) (F : R * R * R) : R * R * R :=
  let '(N, My, Mz) := F in (N, My + b * N, sg * Mz - a * N).
Definition moved_strength (sg a b : R) (r : strength) : strength :=
  let F := moved_forces sg a b (rs_n r, rs_my r, rs_mz r) in
  let p := moved_profile sg a b (rs_eps r, rs_chiy r, rs_chiz r) in
  {| rs_n := fst (fst F); rs_my := snd (fst F); rs_mz := snd F; rs_eps := fst (fst p); rs_chiy := snd (fst p); rs_chiz := snd p |}.
Definition moved_domain (sg a b : R) (d : domain) : domain :=
  {| dm_strains := map (moved_profile sg a b) (dm_strains d); dm_forces := map (moved_forces sg a b) (dm_forces d); dm_fields := dm_fields d |}.
(** The stiffness matrix K' answers the moved deformation with the moved forces. *)
Definition moved_matrix (sg a b : R) (K K' : nat -> nat -> R) : Prop := forall e ky kz,
  (let '(e', ky', kz') := moved_profile sg a b (e, ky, kz) in
   let row i := K' i 0%nat * e' + K' i 1%nat * ky' + K' i 2%nat * kz' in (row 0%nat, row 1%nat, row 2%nat)) =
  moved_forces sg a b (let row i := K i 0%nat * e + K i 1%nat * ky + K i 2%nat * kz in (row 0%nat, row 1%nat, row 2%nat)).
(** Some vertex of a surface lies less than 10^16 from the origin. *)
Definition near_origin (g : compound) : Prop := exists s p, In s (cg_surf g) /\ In p (sf_ext s) /\ Rabs (fst p) + Rabs (snd p) <= 10 ^ 16.
(** Points of a moment-curvature relation and of a moment-moment domain. *)
Definition mirrored_point (sg : R) (x : R * R * R * R * R) : R * R * R * R * R :=
  let '(e, cy, cz, my, mz) := x in (e, cy, sg * cz, my, sg * mz).
Definition moved_mm (a b : R) (n : R) (r : strength) : (R * R * R) * (R * R * R) :=
  let q := moved_strength 1 a b r in ((n, rs_my q, rs_mz q), (rs_eps q, rs_chiy q, rs_chiz q)).
(** The laws of the surfaces follow the curves [ts] when asked for their tangent. *)
Definition follows_tangent (laws : nat -> law) (ts : nat -> R -> R) (g : compound) : Prop :=
  forall s e r, In s (cg_surf g) -> 0 < r -> field_of (lw_marin_tangent (laws (sf_law s)) (e, r)) (ts (sf_law s)) e r.
(** Surface by surface the mesher gives the placed triangles (fraction [ms] of the area). *)
Definition meshes_move (mesher : surface -> R -> list mtri) (T : R * R -> R * R) (ms : R) (g g' : compound) : Prop :=
  Forall2 (fun s s' => mesher s' (surface_area s' * ms) = map (fun t => let '(p, q, r) := t in (T p, T q, T r)) (mesher s (surface_area s * ms)))
    (cg_surf g) (cg_surf g').
