(** Model of geometry/_geometry.py: surfaces, points and compound geometries with
    their attributes.  Shapely polygons are an exterior ring and interior rings,
    closed lists of vertices.  The class attribute Geometry.section_counter is
    threaded explicitly.  Simplification: shapely.affinity.rotate replaces a
    cosine or sine below 2.5e-16 by zero, which is exact arithmetic's intention. *)
From Verif Require Import Base M_Marin M_Laws M_Laws2 M_Fiber M_MarinInt.
From Coq Require Import String.
Open Scope R_scope.
Open Scope list_scope.

(** What the geometry layer looks at in a Material: identity, whether it is an
    instance of Concrete, density (core/base.py:14-62). *)
Record material := { mt_id : nat; mt_is_concrete : bool; mt_density : option R }.
(** geometry/_geometry.py:76-80: a name given by the user or "Geometry_<counter>". *)
Inductive gname := Named (s : string) | Auto (k : nat).
(** geometry/_geometry.py:391-404: the shapely Polygon a surface holds. *)
Record polygon := { pl_ext : list (R * R); pl_ints : list (list (R * R)) }.
(** geometry/_geometry.py:374-417 and 128-181. *)
Record surf := { sg_poly : polygon; sg_mat : material; sg_concrete : bool; sg_name : gname; sg_group : option string }.
(** geometry/_geometry.py:128-181 [PointGeometry]. *)
Record pnt := { pg_at : R * R; pg_diam : R; pg_mat : material; pg_name : gname; pg_group : option string }.
(** geometry/_geometry.py:733-773; [cp_rc] is the attribute _reinforced_concrete: absent
    after the MultiPolygon branch, otherwise None or a cached value. *)
Inductive rc_state := RcAbsent | RcNone | RcKnown (b : bool).
(** geometry/_geometry.py:724-773 [CompoundGeometry]. *)
Record comp := { cp_surf : list surf; cp_pnt : list pnt; cp_rc : rc_state }.

(** geometry/_geometry.py:76-80, 99-104: a computation that may take names from the counter. *)
Definition counted (A : Type) : Type := nat -> A * nat.
(** geometry/_geometry.py:76-80, 100-104. *)
Definition new_name (n : option string) : counted gname :=
  fun c => match n with Some s => (Named s, c) | None => (Auto c, S c) end.
(** geometry/_geometry.py:384-417 [SurfaceGeometry.__init__] on a polygon. *)
Definition new_surf (p : polygon) (m : material) (concrete : bool) (name group : option string) : counted surf :=
  fun c => let '(n, c) := new_name name c in
    ({| sg_poly := p; sg_mat := m; sg_concrete := if mt_is_concrete m then true else concrete; sg_name := n; sg_group := group |}, c).
(** geometry/_geometry.py:135-181 [PointGeometry.__init__] with a Point; [name] an existing name. *)
Definition new_pnt (at_ : R * R) (d : R) (m : material) (name : option string) (group : option string) : counted pnt :=
  fun c => let '(n, c) := new_name name c in
    ({| pg_at := at_; pg_diam := d; pg_mat := m; pg_name := n; pg_group := group |}, c).
(** geometry/_geometry.py:162-173: a point given as coordinates; a list of one is refused, extra
    coordinates are dropped. *)
Definition new_pnt_coords (coords : list R) (d : R) (m : material) (name group : option string) : nat -> result (pnt * nat) :=
  fun c => match coords with
           | y :: z :: _ => Ok (new_pnt (y, z) d m name group c)
           | _ => Err ValueError
           end.
(** geometry/_geometry.py:181. *)
Definition pg_area (p : pnt) : R := PI * pg_diam p ^ 2 / 4.
(** geometry/_geometry.py:199-201, 438-440. *)
Definition sg_density (s : surf) : option R := mt_density (sg_mat s).
(** geometry/_geometry.py:198-201 [PointGeometry.density]. *)
Definition pg_density (p : pnt) : option R := mt_density (pg_mat p).
(** geometry/_geometry.py:420-426, shapely area. *)
Definition poly_area (p : polygon) : R := Rabs (shoe (pl_ext p)) - lsum (map (fun r => Rabs (shoe r)) (pl_ints p)).
(** geometry/_geometry.py:419-426 [SurfaceGeometry.area]. *)
Definition sg_area (s : surf) : R := poly_area (sg_poly s).

(** * Motions *)
(** geometry/_geometry.py:277-289, 623-634: shapely's affinity.affine_transform. *)
Definition affine (a b d e x0 y0 : R) (p : R * R) : R * R := (a * fst p + b * snd p + x0, d * fst p + e * snd p + y0).
(** geometry/_geometry.py:222-238, 571-585: shapely's affinity.translate. *)
Definition translate_map (dx dy : R) : R * R -> R * R := affine 1 0 0 1 dx dy.
(** geometry/_geometry.py:240-264, 587-612: shapely's affinity.rotate about a point. *)
Definition rotate_map (angle : R) (o : R * R) (use_radians : bool) : R * R -> R * R :=
  let a := if use_radians then angle else angle * PI / 180 in
  affine (cos a) (- sin a) (sin a) (cos a)
    (fst o - fst o * cos a + snd o * sin a) (snd o - fst o * sin a - snd o * cos a).
(** geometry/_geometry.py:27-57: the numpy 3x3 matrices used there. *)
Definition m3 : Type := nat -> nat -> R.
(** geometry/_geometry.py:38-51: np.array of three rows. *)
Definition m3_of (a b c d e f g h i : R) : m3 := fun r s => match r, s with
  | 0%nat, 0%nat => a | 0%nat, 1%nat => b | 0%nat, _ => c
  | 1%nat, 0%nat => d | 1%nat, 1%nat => e | 1%nat, _ => f
  | _, 0%nat => g | _, 1%nat => h | _, _ => i end.
(** geometry/_geometry.py:54-57: the product @ of two matrices. *)
Definition m3_mul (A B : m3) : m3 := fun i j => A i 0%nat * B 0%nat j + A i 1%nat * B 1%nat j + A i 2%nat * B 2%nat j.
(** geometry/_geometry.py:54-57: determinant, used by np.linalg.inv. *)
Definition m3_det (A : m3) : R :=
  A 0%nat 0%nat * (A 1%nat 1%nat * A 2%nat 2%nat - A 1%nat 2%nat * A 2%nat 1%nat)
  - A 0%nat 1%nat * (A 1%nat 0%nat * A 2%nat 2%nat - A 1%nat 2%nat * A 2%nat 0%nat)
  + A 0%nat 2%nat * (A 1%nat 0%nat * A 2%nat 1%nat - A 1%nat 1%nat * A 2%nat 0%nat).
(** geometry/_geometry.py:54-57: np.linalg.inv by cofactors. *)
Definition m3_inv (A : m3) : m3 :=
  let d := m3_det A in
  m3_of
   ((A 1%nat 1%nat * A 2%nat 2%nat - A 1%nat 2%nat * A 2%nat 1%nat) / d) ((A 0%nat 2%nat * A 2%nat 1%nat - A 0%nat 1%nat * A 2%nat 2%nat) / d) ((A 0%nat 1%nat * A 1%nat 2%nat - A 0%nat 2%nat * A 1%nat 1%nat) / d)
   ((A 1%nat 2%nat * A 2%nat 0%nat - A 1%nat 0%nat * A 2%nat 2%nat) / d) ((A 0%nat 0%nat * A 2%nat 2%nat - A 0%nat 2%nat * A 2%nat 0%nat) / d) ((A 0%nat 2%nat * A 1%nat 0%nat - A 0%nat 0%nat * A 1%nat 2%nat) / d)
   ((A 1%nat 0%nat * A 2%nat 1%nat - A 1%nat 1%nat * A 2%nat 0%nat) / d) ((A 0%nat 1%nat * A 2%nat 0%nat - A 0%nat 0%nat * A 2%nat 1%nat) / d) ((A 0%nat 0%nat * A 1%nat 1%nat - A 0%nat 1%nat * A 1%nat 0%nat) / d).
(** geometry/_geometry.py:27-57 [_mirror_about_axis_matrix]; more or fewer than two points in the
    axis fail to unpack. *)
Definition mirror_matrix (axis : list (R * R)) : result m3 :=
  match axis with
  | [(x1, y1); (x2, y2)] =>
      let dx := x2 - x1 in let dy := y2 - y1 in
      let theta := atan2 dy dx in
      let T := m3_of 1 0 (- x1) 0 1 (- y1) 0 0 1 in
      let Rm := m3_of (cos theta) (sin theta) 0 (- sin theta) (cos theta) 0 0 0 1 in
      let M := m3_of 1 0 0 0 (-1) 0 0 0 1 in
      Ok (m3_mul (m3_mul (m3_mul (m3_mul (m3_inv T) (m3_inv Rm)) M) Rm) T)
  | _ => Err ValueError
  end.
(** geometry/_geometry.py:277-289, 623-634. *)
Definition mirror_map (axis : list (R * R)) : result (R * R -> R * R) :=
  do A <- mirror_matrix axis;
  Ok (affine (A 0%nat 0%nat) (A 0%nat 1%nat) (A 1%nat 0%nat) (A 1%nat 1%nat) (A 0%nat 2%nat) (A 1%nat 2%nat)).

(** geometry/_geometry.py:571-634: shapely applies the map to every vertex of
    every ring. *)
Definition map_poly (f : R * R -> R * R) (p : polygon) : polygon :=
  {| pl_ext := map f (pl_ext p); pl_ints := map (map f) (pl_ints p) |}.
(** geometry/_geometry.py:571-634: a moved surface is a new SurfaceGeometry without name and label. *)
Definition move_surf (f : R * R -> R * R) (s : surf) : counted surf :=
  new_surf (map_poly f (sg_poly s)) (sg_mat s) (sg_concrete s) None None.
(** geometry/_geometry.py:222-289: a moved point keeps name (passed as a string) and label. *)
Definition move_pnt (f : R * R -> R * R) (p : pnt) : pnt :=
  {| pg_at := f (pg_at p); pg_diam := pg_diam p; pg_mat := pg_mat p; pg_name := pg_name p; pg_group := pg_group p |}.
(** geometry/_geometry.py:827-885: the loops that build a list of new
    geometries, threading the counter. *)
Fixpoint traverse {A B} (f : A -> counted B) (l : list A) : counted (list B) :=
  fun c => match l with
           | [] => ([], c)
           | a :: l' => let '(b, c) := f a c in let '(r, c) := traverse f l' c in (b :: r, c)
           end.

(** * Compound geometries *)
(** geometry/_geometry.py:704-721: elements of the list given to CompoundGeometry; anything else is ignored. *)
Inductive part := PSurf (s : surf) | PPnt (p : pnt) | PComp (g : comp) | POther.
(** geometry/_geometry.py:704-721 [_process_geometries_list]: the two accumulated lists. *)
Definition process_list (l : list part) : list surf * list pnt :=
  fold_left (fun (acc : list surf * list pnt) (x : part) =>
    match x with
    | PSurf s => (fst acc ++ [s], snd acc)
    | PComp g => (fold_left (fun a s => a ++ [s]) (cp_surf g) (fst acc), fold_left (fun a p => a ++ [p]) (cp_pnt g) (snd acc))
    | PPnt p => (fst acc, snd acc ++ [p])
    | POther => acc
    end) l ([], []).
(** geometry/_geometry.py:763-773: the constructor on a list. *)
Definition compound_of (l : list part) : comp :=
  let '(ss, ps) := process_list l in {| cp_surf := ss; cp_pnt := ps; cp_rc := RcNone |}.
(** geometry/_geometry.py:681-701 [_process_geometries_multipolygon] and 751-759. *)
Inductive materials := OneMaterial (m : material) | ManyMaterials (l : list material) | NoMaterials.
(** geometry/_geometry.py:681-701 [_process_geometries_multipolygon]. *)
Definition process_multi (ps : list polygon) (ms : materials) : nat -> result (list surf * nat) :=
  fun c => match ms with
  | OneMaterial m => Ok (traverse (fun p => new_surf p m false None None) ps c)
  | ManyMaterials l =>
      if (List.length ps =? List.length l)%nat then Ok (traverse (fun pm => new_surf (fst pm) (snd pm) false None None) (combine ps l) c)
      else Err ValueError
  | NoMaterials => Ok ([], c)
  end.
(** geometry/_geometry.py:751-759: the constructor on a MultiPolygon. *)
Definition compound_of_multi (ps : list polygon) (ms : materials) : nat -> result (comp * nat) :=
  fun c => do x <- process_multi ps ms c; Ok ({| cp_surf := fst x; cp_pnt := []; cp_rc := RcAbsent |}, snd x).
(** geometry/_geometry.py:116-125 [__add__]. *)
Definition add_part (a b : part) : comp := compound_of [a; b].
(** geometry/_geometry.py:785-793 [reinforced_concrete]: value and the object with its cache. *)
Definition reinforced_concrete (g : comp) : result (bool * comp) :=
  match cp_rc g with
  | RcAbsent => Err AttributeError
  | RcKnown b => Ok (b, g)
  | RcNone => let b := existsb sg_concrete (cp_surf g) in
      Ok (b, {| cp_surf := cp_surf g; cp_pnt := cp_pnt g; cp_rc := RcKnown b |})
  end.
(** geometry/_geometry.py:796-801. *)
Definition comp_area (g : comp) : R := fold_left (fun a s => a + sg_area s) (cp_surf g) 0.
(** geometry/_geometry.py:466: shapely's bounds of a polygon, least coordinate of the exterior. *)
Definition fold_min (f : R * R -> R) (r : list (R * R)) : R := match r with [] => 0 | p :: q => fold_left (fun m v => Rmin m (f v)) q (f p) end.
(** geometry/_geometry.py:466: shapely's bounds, greatest coordinate. *)
Definition fold_max (f : R * R -> R) (r : list (R * R)) : R := match r with [] => 0 | p :: q => fold_left (fun m v => Rmax m (f v)) q (f p) end.
(** geometry/_geometry.py:466: shapely's bounds of a polygon. *)
Definition bounds (p : polygon) : R * R * R * R :=
  (fold_min fst (pl_ext p), fold_min snd (pl_ext p), fold_max fst (pl_ext p), fold_max snd (pl_ext p)).
(** geometry/_geometry.py:457-467: (min_x, max_x, min_y, max_y). *)
Definition surf_extents (s : surf) : R * R * R * R := let '(a, b, c, d) := bounds (sg_poly s) in (a, c, b, d).
(** geometry/_geometry.py:803-825. *)
Definition comp_extents (g : comp) : R * R * R * R :=
  fold_left (fun (e : R * R * R * R) s =>
    let '(mnx, mxx, mny, mxy) := e in
    let '(x0, x1, y0, y1) := surf_extents s in
    (Rmin mnx x0, Rmax mxx x1, Rmin mny y0, Rmax mxy y1)) (cp_surf g) (10 ^ 16, - 10 ^ 16, 10 ^ 16, - 10 ^ 16).
(** geometry/_geometry.py:827-885: motions of a compound geometry. *)
Definition move_comp (f : R * R -> R * R) (g : comp) : counted comp :=
  fun c => let '(ss, c) := traverse (move_surf f) (cp_surf g) c in
    (compound_of (map PSurf ss ++ map (fun p => PPnt (move_pnt f p)) (cp_pnt g)), c).
(** geometry/_geometry.py:827-885: the three methods with their arguments. *)
Inductive motion := Translate (dx dy : R) | Rotate (angle : R) (o : R * R) (use_radians : bool) | Mirror (axis : list (R * R)).
(** geometry/_geometry.py:827-885: the map each method applies to the vertices. *)
Definition motion_map (m : motion) : result (R * R -> R * R) :=
  match m with
  | Translate dx dy => Ok (translate_map dx dy)
  | Rotate a o rad => Ok (rotate_map a o rad)
  | Mirror axis => mirror_map axis
  end.
(** geometry/_geometry.py:827-885: translate, rotate or mirror of a compound geometry. *)
Definition apply_motion (m : motion) (g : comp) (c : nat) : result (comp * nat) :=
  match cp_surf g, cp_pnt g with
  | [], [] => Ok (compound_of [], c)   (* the matrix is only built inside the loops *)
  | _, _ => do f <- motion_map m; Ok (move_comp f g c)
  end.

(** Polygon difference is shapely's; a result that is not one polygon is refused by
    the constructor of SurfaceGeometry (lines 400-404). *)
Definition difference : Type := polygon -> polygon -> option polygon.
(** geometry/_geometry.py:543-565 [SurfaceGeometry.__sub__]; after a first difference that is
    not one polygon the next difference still runs: modelled as failure at the end. *)
Fixpoint sub_all (diff : difference) (p : polygon) (l : list surf) : option polygon :=
  match l with
  | [] => Some p
  | s :: l' => match diff p (sg_poly s) with Some q => sub_all diff q l' | None => None end
  end.
(** geometry/_geometry.py:543-565 [SurfaceGeometry.__sub__]. *)
Definition surf_sub (diff : difference) (s : surf) (other : part) : nat -> result (surf * nat) :=
  fun c =>
  let p := match other with
           | PSurf o => diff (sg_poly s) (sg_poly o)
           | PComp g => sub_all diff (sg_poly s) (cp_surf g)
           | _ => Some (sg_poly s)
           end in
  match p with Some q => Ok (new_surf q (sg_mat s) false None None c) | None => Err TypeError end.
(** geometry/_geometry.py:896-905: the loop of CompoundGeometry.__sub__. *)
Fixpoint traverseE {A B} (f : A -> nat -> result (B * nat)) (l : list A) (c : nat) : result (list B * nat) :=
  match l with
  | [] => Ok ([], c)
  | a :: l' => do x <- f a c; do y <- traverseE f l' (snd x); Ok (fst x :: fst y, snd y)
  end.
(** geometry/_geometry.py:887-905 [CompoundGeometry.__sub__]. *)
Definition comp_sub (diff : difference) (g : comp) (other : part) : nat -> result (comp * nat) :=
  fun c => match other with
  | PPnt _ => Ok (g, c)
  | _ => do x <- traverseE (fun s => surf_sub diff s other) (cp_surf g) c;
         Ok (compound_of (map PSurf (fst x) ++ map PPnt (cp_pnt g)), snd x)
  end.

(** * Cutting lines *)
(** geometry/_geometry.py:335-371 [create_line_point_angle]; bbox = (min_x, min_y, max_x, max_y). *)
Definition line_point_angle (p : R * R) (theta : R) (bbox : R * R * R * R) : (R * R) * (R * R) :=
  let '(b0, b1, b2, b3) := bbox in
  let vx := cos theta in let vy := sin theta in
  if Rltb (/ 10 ^ 8) (Rabs vx) then
    let tg := vy / vx in
    let x1 := b0 - /1000 in let x2 := b2 + /1000 in
    ((x1, snd p + (x1 - fst p) * tg), (x2, snd p + (x2 - fst p) * tg))
  else
    let ctg := vx / vy in
    let y1 := b1 - /1000 in let y2 := b2 + /1000 in
    ((fst p + (y1 - snd p) * ctg, y1), (fst p + (y2 - snd p) * ctg, y2)).
(** geometry/_geometry.py:489-514: shapely's LinearRing(...).is_ccw of a triangle: positive signed area. *)
Definition is_ccw3 (a b c : R * R) : bool :=
  Rltb 0 ((fst b - fst a) * (snd c - snd a) - (fst c - fst a) * (snd b - snd a)).
(** geometry/_geometry.py:469-516 [split]: [pieces] is shapely's split (the polygon itself if the
    line misses it), with the centroid of each piece. *)
Definition split_pieces {A} (line : (R * R) * (R * R)) (pieces : list A) (centroid : A -> R * R) : list A * list A :=
  fold_left (fun (acc : list A * list A) g =>
    if is_ccw3 (fst line) (snd line) (centroid g) then (fst acc ++ [g], snd acc) else (fst acc, snd acc ++ [g])) pieces ([], []).

(** * What the integrators see of a compound geometry *)
(** geometry/_geometry.py:724-773 as read by
    sections/section_integrators/_fiber_integrator.py and
    _marin_integrator.py: coordinates, areas and materials only. *)
Definition forget (g : comp) : compound :=
  {| cg_surf := map (fun s => {| sf_ext := pl_ext (sg_poly s); sf_ints := pl_ints (sg_poly s); sf_law := mt_id (sg_mat s) |}) (cp_surf g);
     cg_bars := map (fun p => {| br_y := fst (pg_at p); br_z := snd (pg_at p); br_area := pg_area p; br_law := mt_id (pg_mat p) |}) (cp_pnt g) |}.

(** * Rectangles, geometry/_rectangular.py:27-84; Polygon closes the ring. *)
Definition rectangle (width height : R) (m : material) (concrete : bool) (origin : option (list R)) (name group : option string)
  : nat -> result (surf * nat) :=
  fun c =>
  if Rleb width 0 then Err ValueError else if Rleb height 0 then Err ValueError else
  do o <- match origin with None => Ok (0, 0) | Some [a; b] => Ok (a, b) | Some _ => Err ValueError end;
  let v x y := (x + fst o, y + snd o) in
  let ring := [v (- width / 2) (- height / 2); v (width / 2) (- height / 2); v (width / 2) (height / 2); v (- width / 2) (height / 2); v (- width / 2) (- height / 2)] in
  Ok (new_surf {| pl_ext := ring; pl_ints := [] |} m concrete name group c).
