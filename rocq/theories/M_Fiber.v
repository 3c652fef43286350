(** Model of sections/section_integrators/_fiber_integrator.py.
    Simplifications: numbers are reals; a law object is a number (its identity)
    looked up in a heap [laws]; the external mesher (package [triangle]) is a
    parameter that turns the prepared planar straight line graph and the largest
    allowed triangle area into a list of vertex triples. *)
From Verif Require Import Base M_Laws M_Laws2.

(** A point (y, z): one entry of a ring's coordinate lists,
    sections/section_integrators/_fiber_integrator.py:34. *)
Notation pt := (R * R)%type (only parsing).
(** A triangle of the mesh, by its corners:
    sections/section_integrators/_fiber_integrator.py:96-124. *)
Notation mtri := ((R * R) * (R * R) * (R * R))%type (only parsing).

(** geometry/_geometry.py:374-455 SurfaceGeometry as the integrators see it: outer ring
    and interior rings (closed vertex lists, as shapely's [.xy] gives them) and
    the identity of [material.constitutive_law]. *)
Record surface := { sf_ext : list pt; sf_ints : list (list pt); sf_law : nat }.
(** geometry/_geometry.py:128-216 PointGeometry: position, area, law. *)
Record bar := { br_y : R; br_z : R; br_area : R; br_law : nat }.
(** geometry/_geometry.py:724-778 CompoundGeometry: [geometries] and [point_geometries]. *)
Record compound := { cg_surf : list surface; cg_bars : list bar }.

(** shapely's ring area, used by geometry/_geometry.py:419-426 (area): absolute value of the shoelace sum (external library). *)
Fixpoint shoe (l : list pt) : R :=
  match l with
  | p :: ((q :: _) as tl) => (fst p * snd q - fst q * snd p) / 2 + shoe tl
  | _ => 0
  end.
(** geometry/_geometry.py:419-426 SurfaceGeometry.area = shapely polygon area (external library). *)
Definition surface_area (g : surface) : R :=
  Rabs (shoe (sf_ext g)) - lsum (map (fun r => Rabs (shoe r)) (sf_ints g)).

(** sections/section_integrators/_fiber_integrator.py:35-39, 46-50: [node_i = arange(k) + n], [node_j = roll(node_i, -1)],
    segments of one ring of k vertices whose numbering starts at n. *)
Definition ring_segments (n k : nat) : list (nat * nat) :=
  map (fun i => (n + i, n + (S i) mod k)%nat) (seq 0 k).
(** sections/section_integrators/_fiber_integrator.py:32-59 [prepare_triangulation] without the hole markers:
    all distinct ring vertices and the segments. *)
Fixpoint prep_rings (rings : list (list pt)) (n : nat) : list pt * list (nat * nat) :=
  match rings with
  | [] => ([], [])
  | r :: rs =>
      let v := removelast r in
      let '(vs, ss) := prep_rings rs (n + length v)%nat in
      (v ++ vs, ring_segments n (length v) ++ ss)
  end.
(** sections/section_integrators/_fiber_integrator.py:21-62
    [prepare_triangulation]: outer ring first, then the holes. *)
Definition prepare_triangulation (g : surface) : list pt * list (nat * nat) :=
  prep_rings (sf_ext g :: sf_ints g) 0.
(** sections/section_integrators/_fiber_integrator.py:51-52: the hole marker is the centroid of the interior
    ring (shapely: first moments over signed area). *)
Fixpoint shoe_y (l : list pt) : R :=
  match l with
  | p :: ((q :: _) as tl) => (fst p + fst q) * (fst p * snd q - fst q * snd p) / 6 + shoe_y tl
  | _ => 0
  end.
(** sections/section_integrators/_fiber_integrator.py:51-52: the other first moment. *)
Fixpoint shoe_z (l : list pt) : R :=
  match l with
  | p :: ((q :: _) as tl) => (snd p + snd q) * (fst p * snd q - fst q * snd p) / 6 + shoe_z tl
  | _ => 0
  end.
(** sections/section_integrators/_fiber_integrator.py:51-52: the centroid. *)
Definition hole_marker (ring : list pt) : pt := (shoe_y ring / shoe ring, shoe_z ring / shoe ring).
(** sections/section_integrators/_fiber_integrator.py:42-52: markers of all holes. *)
Definition hole_markers (g : surface) : list pt := map hole_marker (sf_ints g).

(** sections/section_integrators/_fiber_integrator.py:92-95, 130-132: one fibre, position and area. *)
Record fibre := { fb_y : R; fb_z : R; fb_a : R }.
(** sections/section_integrators/_fiber_integrator.py:96-126: fibre of one triangle of the mesh. *)
Definition fibre_of_triangle (t : mtri) : fibre :=
  let '(p, q, r) := t in
  {| fb_y := (fst p + fst q + fst r) / 3;
     fb_z := (snd p + snd q + snd r) / 3;
     fb_a := Rabs ((fst p * snd q - snd p * fst q) + (fst q * snd r - snd q * fst r)
                   + (fst r * snd p - snd r * fst p)) * (1/2) |}.

(** sections/section_integrators/_fiber_integrator.py:129-132, 159-162: one entry of [triangulated_data], fibres and law.  [gr_scalar]: a law with a
    single bar keeps 0-d arrays (lines 143-148), for which numpy arithmetic gives
    a scalar, so that the law's scalar branch runs. *)
Record group := { gr_fibres : list fibre; gr_scalar : bool; gr_law : nat }.

(** sections/section_integrators/_fiber_integrator.py:133-158: dictionary keyed by the law object, insertion
    order. *)
Fixpoint add_bar (d : list (nat * list fibre)) (k : nat) (f : fibre) : list (nat * list fibre) :=
  match d with
  | [] => [(k, [f])]
  | (k', fs) :: d' => if (k' =? k)%nat then (k', fs ++ [f]) :: d' else (k', fs) :: add_bar d' k f
  end.
(** sections/section_integrators/_fiber_integrator.py:137-142: the fibre of a
    point geometry. *)
Definition fibre_of_bar (b : bar) : fibre := {| fb_y := br_y b; fb_z := br_z b; fb_a := br_area b |}.
(** sections/section_integrators/_fiber_integrator.py:135-158: the loop over the
    point geometries. *)
Definition group_bars (bs : list bar) : list (nat * list fibre) :=
  fold_left (fun d b => add_bar d (br_law b) (fibre_of_bar b)) bs [].
(** sections/section_integrators/_fiber_integrator.py:159-162: the dictionary's entries. *)
Definition bar_groups (bs : list bar) : list group :=
  map (fun kv => {| gr_fibres := snd kv; gr_scalar := (length (snd kv) =? 1)%nat; gr_law := fst kv |})
      (group_bars bs).

(** sections/section_integrators/_fiber_integrator.py:64-164 [triangulate]. *)
Definition triangulate (mesher : surface -> R -> list mtri) (g : compound) (mesh_size : R) : result (list group) :=
  if orb (Rleb mesh_size 0) (Rltb 1 mesh_size) then Err ValueError
  else Ok (map (fun s => {| gr_fibres := map fibre_of_triangle (mesher s (surface_area s * mesh_size));
                            gr_scalar := false; gr_law := sf_law s |}) (cg_surf g)
           ++ bar_groups (cg_bars g)).

(** sections/section_integrators/_fiber_integrator.py:181-183, the strain argument: (axial strain, curvature y, curvature z). *)
Notation profile := (R * R * R)%type (only parsing).
(** sections/section_integrators/_fiber_integrator.py:224: strain[0]. *)
Definition p_e0 (s : profile) : R := fst (fst s).
(** sections/section_integrators/_fiber_integrator.py:224: strain[1]. *)
Definition p_ky (s : profile) : R := snd (fst s).
(** sections/section_integrators/_fiber_integrator.py:224: strain[2]. *)
Definition p_kz (s : profile) : R := snd s.

(** sections/section_integrators/_fiber_integrator.py:226-231: 'stress',
    'modulus' or anything else. *)
Inductive integrand := IStress | IModulus | IOther.

(** sections/section_integrators/_fiber_integrator.py:224: strain of a fibre. *)
Definition fibre_strain (s : profile) (f : fibre) : R := p_e0 s - p_kz s * fb_y f + p_ky s * fb_z f.
(** sections/section_integrators/_fiber_integrator.py:225-231: value of the integrand for one group. *)
Definition group_values (laws : nat -> law) (what : integrand) (s : profile) (g : group) : result (list R) :=
  let eps := map (fibre_strain s) (gr_fibres g) in
  let l := laws (gr_law g) in
  match what with
  | IStress => Ok (if gr_scalar g then map (lw_stress l) eps else fst (lw_stress_arr l eps))
  | IModulus => Ok (if gr_scalar g then map (lw_tangent l) eps else fst (lw_tangent_arr l eps))
  | IOther => Err ValueError
  end.
(** sections/section_integrators/_fiber_integrator.py:219-235: the loop over the groups; one (y, z, value * area) per fibre. *)
Fixpoint prepare_groups (laws : nat -> law) (what : integrand) (s : profile) (gs : list group)
  : result (list (R * R * R)) :=
  match gs with
  | [] => Ok []
  | g :: gs' =>
      do v <- group_values laws what s g;
      do rest <- prepare_groups laws what s gs';
      Ok (map (fun vf => (fb_y (snd vf), fb_z (snd vf), fst vf * fb_a (snd vf))) (combine v (gr_fibres g)) ++ rest)
  end.
(** sections/section_integrators/_fiber_integrator.py:166-237 [prepare_input]; [np.hstack] of an empty list
    raises ValueError. *)
Definition prepare_input (laws : nat -> law) (mesher : surface -> R -> list mtri) (g : compound) (s : profile)
    (what : integrand) (data : option (list group)) (mesh_size : option R)
  : result (list (R * R * R) * list group) :=
  do gs <- match data with
           | Some d => Ok d
           | None => triangulate mesher g (match mesh_size with Some m => m | None => 1 / 100 end)
           end;
  do v <- prepare_groups laws what s gs;
  match gs with [] => Err ValueError | _ => Ok (v, gs) end.

(** sections/section_integrators/_fiber_integrator.py:239-260 [integrate_stress]. *)
Definition f_integrate_stress (v : list (R * R * R)) : R * R * R :=
  (lsum (map (fun x => snd x) v),
   lsum (map (fun x => snd x * snd (fst x)) v),
   lsum (map (fun x => - snd x * fst (fst x)) v)).

(** sections/section_integrators/_fiber_integrator.py:262-288 [integrate_modulus]; the matrix as a function of
    row and column (0..2). *)
Definition f_integrate_modulus (v : list (R * R * R)) (i j : nat) : R :=
  match i, j with
  | 0%nat, 0%nat => lsum (map (fun x => snd x) v)
  | 0%nat, 1%nat | 1%nat, 0%nat => lsum (map (fun x => snd x * snd (fst x)) v)
  | 0%nat, 2%nat | 2%nat, 0%nat => lsum (map (fun x => - snd x * fst (fst x)) v)
  | 1%nat, 1%nat => lsum (map (fun x => snd (fst x) * snd (fst x) * snd x) v)
  | 1%nat, 2%nat | 2%nat, 1%nat => lsum (map (fun x => - fst (fst x) * snd (fst x) * snd x) v)
  | 2%nat, 2%nat => lsum (map (fun x => fst (fst x) * fst (fst x) * snd x) v)
  | _, _ => 0
  end.

(** sections/section_integrators/_fiber_integrator.py:290-340, integrate='stress'. *)
Definition fiber_forces (laws : nat -> law) mesher (g : compound) (s : profile) data mesh_size
  : result ((R * R * R) * list group) :=
  do x <- prepare_input laws mesher g s IStress data mesh_size;
  Ok (f_integrate_stress (fst x), snd x).
(** sections/section_integrators/_fiber_integrator.py:290-340, integrate='modulus'. *)
Definition fiber_stiffness (laws : nat -> law) mesher (g : compound) (s : profile) data mesh_size
  : result ((nat -> nat -> R) * list group) :=
  do x <- prepare_input laws mesher g s IModulus data mesh_size;
  Ok (f_integrate_modulus (fst x), snd x).
