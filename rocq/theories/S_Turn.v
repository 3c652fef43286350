(** Independent specification: results of a section turned about the origin. *)
From Verif Require Import Base M_Laws M_Laws2 M_Fiber M_Section M_Domain S_MarinInt S_Frame S_History.

(** A strain profile (axial strain, curvatures) or a set of forces (axial force, moments) turned by a. *)
Definition spun3 (a : R) (v : R * R * R) : R * R * R :=
  (fst (fst v), fst (spun a (snd (fst v)) (snd v)), snd (spun a (snd (fst v)) (snd v))).
(** Result of a bending strength. *)
Definition spun_strength (a : R) (r : strength) : strength :=
  {| rs_n := rs_n r; rs_my := fst (spun a (rs_my r) (rs_mz r)); rs_mz := snd (spun a (rs_my r) (rs_mz r));
     rs_eps := rs_eps r; rs_chiy := fst (spun a (rs_chiy r) (rs_chiz r)); rs_chiz := snd (spun a (rs_chiy r) (rs_chiz r)) |}.
(** Point (axial strain, curvatures, moments) of a moment-curvature relation. *)
Definition spun_point (a : R) (x : R * R * R * R * R) : R * R * R * R * R :=
  let '(e, cy, cz, my, mz) := x in
  (e, fst (spun a cy cz), snd (spun a cy cz), fst (spun a my mz), snd (spun a my mz)).
(** Interaction domain. *)
Definition spun_domain (a : R) (d : domain) : domain :=
  {| dm_strains := map (spun3 a) (dm_strains d); dm_forces := map (spun3 a) (dm_forces d); dm_fields := dm_fields d |}.
(** The axial load lies within the limits the section reports. *)
Definition admits (ig : integ) (t : traits) (ms : R) (g : compound) (n : R) : Prop :=
  exists lo hi, fst (run ig t ms g OLimits st_init) = Ok (ALimits (lo, hi)) /\ lo <= n <= hi.
(** Under a uniform strain the law gives one polynomial that is a constant. *)
Definition uniform_output (out : R * marin_out) : Prop :=
  exists v c, snd out = (None, [v :: c]) /\ forall x, In x c -> x = 0.
(** True of the stress and of the modulus of every surface material. *)
Definition steady (laws : nat -> law) (g : compound) : Prop := forall s e, In s (cg_surf g) ->
  uniform_output (lw_marin (laws (sf_law s)) (e, 0)) /\ uniform_output (lw_marin_tangent (laws (sf_law s)) (e, 0)).
(** The mesher turns its triangles with the surface. *)
Definition mesher_turns (mesher : surface -> R -> list mtri) (a : R) (g : compound) : Prop :=
  forall s m, In s (cg_surf g) ->
  mesher {| sf_ext := map (fun p => spun a (fst p) (snd p)) (sf_ext s);
            sf_ints := map (map (fun p => spun a (fst p) (snd p))) (sf_ints s); sf_law := sf_law s |} m =
  map (fun T => let '(p, q, r) := T in (spun a (fst p) (snd p), spun a (fst q) (snd q), spun a (fst r) (snd r))) (mesher s m).
(** Stiffness matrix of the turned section: rows and columns turned. *)
Definition spun_matrix (a : R) (K K' : nat -> nat -> R) : Prop :=
  forall e ky kz, (let row i := K' i 0%nat * e + K' i 1%nat * fst (spun a ky kz) + K' i 2%nat * snd (spun a ky kz) in
    (row 0%nat, row 1%nat, row 2%nat)) =
  spun3 a (let row i := K i 0%nat * e + K i 1%nat * ky + K i 2%nat * kz in (row 0%nat, row 1%nat, row 2%nat)).
