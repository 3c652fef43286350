(** Model of the gross section properties, sections/_generic.py:132-297. *)
From Verif Require Import Base M_Marin M_Laws M_Laws2 M_Fiber M_MarinInt M_Section.

(** CompoundGeometry.translate (geometry/_geometry.py:827-842, 222-238, 571-585);
    shapely.affinity.translate adds the offsets to every coordinate. *)
Definition move (u v : R) (p : R * R) : R * R := (fst p + u, snd p + v).
(** geometry/_geometry.py:571-585 SurfaceGeometry.translate. *)
Definition translate_surface (u v : R) (s : surface) : surface :=
  {| sf_ext := map (move u v) (sf_ext s); sf_ints := map (map (move u v)) (sf_ints s); sf_law := sf_law s |}.
(** geometry/_geometry.py:222-238 PointGeometry.translate. *)
Definition translate_bar (u v : R) (b : bar) : bar :=
  {| br_y := br_y b + u; br_z := br_z b + v; br_area := br_area b; br_law := br_law b |}.
(** geometry/_geometry.py:827-842 CompoundGeometry.translate. *)
Definition translate_geo (u v : R) (g : compound) : compound :=
  {| cg_surf := map (translate_surface u v) (cg_surf g); cg_bars := map (translate_bar u v) (cg_bars g) |}.

(** A Python comprehension or loop whose body may raise (geometry/_geometry.py:908-935): left to right; the first failure is raised. *)
Fixpoint mapM {A B} (f : A -> result B) (l : list A) : result (list B) :=
  match l with [] => Ok [] | a :: l' => do b <- f a; do r <- mapM f l'; Ok (b :: r) end.
(** geometry/_geometry.py:908-935, the parts of a geometry with their laws replaced by numbers k, k+1, ... *)
Fixpoint number_surfaces (k : nat) (l : list surface) : list surface :=
  match l with [] => [] | s :: l' => {| sf_ext := sf_ext s; sf_ints := sf_ints s; sf_law := k |} :: number_surfaces (S k) l' end.
(** geometry/_geometry.py:908-935, the same for the point geometries. *)
Fixpoint number_bars (k : nat) (l : list bar) : list bar :=
  match l with [] => [] | b :: l' => {| br_y := br_y b; br_z := br_z b; br_area := br_area b; br_law := k |} :: number_bars (S k) l' end.
(** CompoundGeometry.from_geometry without a new material (geometry/_geometry.py:908-935,
    637-671, 292-332 and materials/basic/_elastic.py:69-80): every part gets its
    own new elastic material with the tangent of its law at zero strain. *)
Definition elasticise (laws : nat -> law) (g : compound) : result (compound * (nat -> law)) :=
  do ls <- mapM (fun k => elastic_init (lw_tangent (laws k) 0) None) (map sf_law (cg_surf g) ++ map br_law (cg_bars g));
  Ok ({| cg_surf := number_surfaces 0 (cg_surf g); cg_bars := number_bars (length (cg_surf g)) (cg_bars g) |},
      fun i => elastic_law (nth i ls {| el_E := 1; el_u := None |})).
(** The same with the dummy material ElasticMaterial(E=1), sections/_generic.py:199-201, 248-256. *)
Definition dummy (g : compound) : compound :=
  {| cg_surf := map (fun s => {| sf_ext := sf_ext s; sf_ints := sf_ints s; sf_law := 0 |}) (cg_surf g);
     cg_bars := map (fun b => {| br_y := br_y b; br_z := br_z b; br_area := br_area b; br_law := 0 |}) (cg_bars g) |}.
(** sections/_generic.py:248-250: the dummy material's law everywhere. *)
Definition unit_laws : nat -> law := fun _ => elastic_law {| el_E := 1; el_u := None |}.

(** Python's math.isclose(a, b, rel_tol, abs_tol), used in sections/_generic.py:240. *)
Definition math_isclose (rel abs a b : R) : bool := Rleb (Rabs (a - b)) (Rmax (rel * Rmax (Rabs a) (Rabs b)) abs).

(** sections/_generic.py:196-246 [compute_area_moments] on a geometry with its laws; [mk] makes
    the integrator.  Result: sy, sz, iyy, izz, iyz. *)
Definition area_moments (mk : (nat -> law) -> integ) (laws : nat -> law) (ms : R) (g : compound) : result (R * R * R * R * R) :=
  do a <- ig_forces (mk laws) g (0, 1, 0) None (Some ms);
  let '((sy, iyy, miyz), data) := a in
  let iyz := miyz * -1 in
  do b <- ig_forces (mk laws) g (0, 0, -1) (Some data) (Some ms);
  let '((sz, izy, mizz), _) := b in
  let izz := mizz * -1 in
  if math_isclose (/ 10 ^ 9) (1/2 * (iyy + izz) * / 10 ^ 9) iyz izy then Ok (sy, sz, iyy, izz, iyz) else Err RuntimeError.

(** sections/_generic.py:144-154, shapely unary_union of the polygons: one polygon with the length of its
    exterior, or several. *)
Inductive union := OnePolygon (perimeter : R) | ManyPolygons.

(** core/_section_results.py:11-70: the numbers of SectionProperties. *)
Record gross := {
  gp_perimeter : R; gp_area : R; gp_area_reinforcement : R; gp_ea : R; gp_mass : R;
  gp_sy : R; gp_sz : R; gp_iyy : R; gp_izz : R; gp_iyz : R;
  gp_e_sy : R; gp_e_sz : R; gp_e_iyy : R; gp_e_izz : R; gp_e_iyz : R;
  gp_cy : R; gp_cz : R;
  gp_iyy_c : R; gp_izz_c : R; gp_iyz_c : R; gp_e_iyy_c : R; gp_e_izz_c : R; gp_e_iyz_c : R;
  gp_i11 : R; gp_i22 : R; gp_theta : R; gp_e_i11 : R; gp_e_i22 : R; gp_e_theta : R }.

(** sections/_generic.py:280-288 [find_principal_axes_moments]: [eig] stands for np.linalg.eig
    on [[a, c], [c, b]]: the two eigenvalues and the two eigenvectors. *)
Definition eigen := R -> R -> R -> (R * R) * ((R * R) * (R * R)).
(** sections/_generic.py:280-288 [find_principal_axes_moments]. *)
Definition principal (eig : eigen) (iyy izz iyz : R) : R * R * R :=
  let '((l0, l1), (v0, v1)) := eig iyy izz iyz in
  if Rltb l0 l1 then (l1, l0, acos (1 * fst v1 + 0 * snd v1)) else (l0, l1, acos (1 * fst v0 + 0 * snd v0)).

(** sections/_generic.py:132-297; [dens k] is the density of the material with law k. A
    MultiPolygon has no attribute [exterior] (line 154). *)
Definition gross_properties (mk : (nat -> law) -> integ) (laws : nat -> law) (dens : nat -> option R) (eig : eigen)
    (un : union) (ms : R) (g : compound) : result gross :=
  do perimeter <- match un with OnePolygon p => Ok p | ManyPolygons => Err AttributeError end;
  let area := lsum (map surface_area (cg_surf g)) in
  let ea := lsum (map (fun s => surface_area s * lw_tangent (laws (sf_law s)) 0) (cg_surf g)
                  ++ map (fun b => br_area b * lw_tangent (laws (br_law b)) 0) (cg_bars g)) in
  let weigh k a := match dens k with Some d => a * d * / 10 ^ 9 | None => 0 end in
  let mass := lsum (map (fun s => weigh (sf_law s) (surface_area s)) (cg_surf g)
                    ++ map (fun b => weigh (br_law b) (br_area b)) (cg_bars g)) in
  do m <- area_moments mk unit_laws ms (dummy g);
  let '(sy, sz, iyy, izz, iyz) := m in
  do eg <- elasticise laws g;
  do em <- area_moments mk (snd eg) ms (fst eg);
  let '(esy, esz, eiyy, eizz, eiyz) := em in
  let cy := esz / ea in
  let cz := esy / ea in
  let tg := translate_geo (- cy) (- cz) g in
  do mc <- area_moments mk unit_laws ms (dummy tg);
  let '(_, _, iyyc, izzc, iyzc) := mc in
  do etg <- elasticise laws tg;
  do emc <- area_moments mk (snd etg) ms (fst etg);
  let '(_, _, eiyyc, eizzc, eiyzc) := emc in
  let '(i11, i22, th) := principal eig iyyc izzc iyzc in
  let '(ei11, ei22, eth) := principal eig eiyyc eizzc eiyzc in
  Ok {| gp_perimeter := perimeter; gp_area := area; gp_area_reinforcement := lsum (map br_area (cg_bars g)); gp_ea := ea; gp_mass := mass;
        gp_sy := sy; gp_sz := sz; gp_iyy := iyy; gp_izz := izz; gp_iyz := iyz;
        gp_e_sy := esy; gp_e_sz := esz; gp_e_iyy := eiyy; gp_e_izz := eizz; gp_e_iyz := eiyz;
        gp_cy := cy; gp_cz := cz;
        gp_iyy_c := iyyc; gp_izz_c := izzc; gp_iyz_c := iyzc; gp_e_iyy_c := eiyyc; gp_e_izz_c := eizzc; gp_e_iyz_c := eiyzc;
        gp_i11 := i11; gp_i22 := i22; gp_theta := th; gp_e_i11 := ei11; gp_e_i22 := ei22; gp_e_theta := eth |}.
