(** Model of sections/_rc_utils.py: elastic cracked properties of a reinforced
    concrete section.  Simplifications: names, labels and the name counter of the
    intermediate geometries are left out (C31 describes them); shapely's split
    and centroid are the parameters [cutter] and [centroid]. *)
From Verif Require Import Base M_Marin M_Laws M_Laws2 M_Fiber M_MarinInt M_Section M_Gross M_Geo.

(** sections/_rc_utils.py:71-86 and 93-98: the elastic material of one part, from
    the tangent of its law at zero strain; concrete gets no tension branch. *)
Definition cracked_law (concrete : bool) (l : law) : result law :=
  let E := lw_tangent l 0 in
  if concrete then do u <- ud_init [-100; 0] [-100 * E; 0] None 0; Ok (ud_law u)
  else do e <- elastic_init E None; Ok (elastic_law e).
(** sections/_rc_utils.py:70-101: one new material per surface, then one per bar, in this order. *)
Definition cracked_laws (laws : nat -> law) (g : comp) : result (list law) :=
  mapM (fun x => cracked_law (fst x) (laws (snd x)))
    (map (fun s => (sg_concrete s, mt_id (sg_mat s))) (cp_surf g) ++ map (fun p => (false, mt_id (pg_mat p))) (cp_pnt g)).
(** sections/_rc_utils.py:68-105: the rotated geometry with its new materials (numbered
    in order), their laws and densities. *)
Definition temporary (laws : nat -> law) (theta : R) (g : comp) : result (compound * (nat -> law) * (nat -> option R)) :=
  do ls <- cracked_laws laws g;
  let h := rotate_geo (- theta) (forget g) in
  Ok ({| cg_surf := number_surfaces 0 (cg_surf h); cg_bars := number_bars (length (cg_surf h)) (cg_bars h) |},
      fun i => nth i ls (elastic_law {| el_E := 1; el_u := None |}),
      fun i => nth i (map sg_density (cp_surf g) ++ map pg_density (cp_pnt g)) None).

(** shapely.ops.split of a polygon by a line, or the polygon itself when the line
    misses it (geometry/_geometry.py:494-514). *)
Definition shapely_split : Type := polygon -> (R * R) * (R * R) -> list polygon.
(** sections/_rc_utils.py:118-121 with geometry/_geometry.py:469-516: the pieces above
    the horizontal line at z_na, with the material of the part. *)
Definition upper_part (cutter : shapely_split) (centroid : polygon -> R * R) (z_na : R) (s : surface) : list surface :=
  let p := {| pl_ext := sf_ext s; pl_ints := sf_ints s |} in
  let line := line_point_angle (0, z_na) 0 (bounds p) in
  map (fun q => {| sf_ext := pl_ext q; sf_ints := pl_ints q; sf_law := sf_law s |}) (fst (split_pieces line (cutter p line) centroid)).

(** sections/_rc_utils.py:107: the curvature used. *)
Definition cracked_curvature : R := - / 10 ^ 5.
(** sections/_rc_utils.py:30-144 [calculate_elastic_cracked_properties]: None for a section
    without concrete, else the properties and the cracked geometry.  [mk] is the
    integration method of the section and [sec_mesh] its mesh size; the integrator
    object has no attribute mesh_size, so that line 59-62 always gives 0.01 (Marin
    ignores it, line 65).  Without surfaces line 131 would fail, but then there is
    no concrete. *)
Definition cracked_properties (mk : (nat -> law) -> integ) (laws : nat -> law) (eig : eigen) (un : compound -> union)
    (cutter : shapely_split) (centroid : polygon -> R * R) (sec_mesh : R) (theta : R) (g : comp)
  : result (option (gross * compound)) :=
  do rc <- reinforced_concrete g;
  if negb (fst rc) then Ok None else
  do t <- temporary laws theta g;
  let '(tg, tl, td) := t in
  let mesh_size := 1 / 100 in
  do strain <- fst (fixed_curvature (mk tl) tg 0 cracked_curvature 0 st_init);
  let z_na := - p_e0 strain / cracked_curvature in
  let cut := {| cg_surf := flat_map (upper_part cutter centroid z_na) (cg_surf tg); cg_bars := cg_bars tg |} in
  let cracked := rotate_geo theta cut in
  do r <- gross_properties mk tl td eig (un cracked) mesh_size cracked;
  Ok (Some (r, cracked)).
