(** Model of sections/section_integrators/_marin_integrator.py.
    Simplifications, all about the external library shapely: polygons are lists
    of closed vertex rings; the intersection of a polygon with a horizontal
    strip is modelled by half-plane clipping of every ring (Sutherland-Hodgman),
    which may keep coincident edges along the cutting lines where shapely returns
    several pieces; orientation is fixed before the cut instead of after it. *)
From Verif Require Import Base M_Marin M_Laws M_Laws2 M_Fiber.

(** math.atan2 (C library), on reals; used in sections/section_integrators/_marin_integrator.py:34. *)
Definition atan2 (y x : R) : R :=
  if Rltb 0 x then atan (y / x)
  else if Rltb x 0 then (if Rleb 0 y then atan (y / x) + PI else atan (y / x) - PI)
  else if Rltb 0 y then PI / 2 else if Rltb y 0 then - (PI / 2) else 0.

(** shapely.affinity.rotate about the origin, radians
    (geometry/_geometry.py:240-264, 587-612 with the default point). *)
Definition rot (a : R) (p : R * R) : R * R :=
  (cos a * fst p - sin a * snd p, sin a * fst p + cos a * snd p).

(** shapely.geometry.polygon.orient(polygon, 1) for one ring
    (sections/section_integrators/_marin_integrator.py:72): exterior counter-clockwise, interiors clockwise. *)
Definition orient_ext (r : list (R * R)) : list (R * R) := if Rltb (shoe r) 0 then rev r else r.
(** sections/section_integrators/_marin_integrator.py:72, 84-88: an interior ring. *)
Definition orient_int (r : list (R * R)) : list (R * R) := if Rltb 0 (shoe r) then rev r else r.
(** sections/section_integrators/_marin_integrator.py:65-88: the rings of one
    polygon as they are appended. *)
Definition oriented (s : surface) : list (list (R * R)) := orient_ext (sf_ext s) :: map orient_int (sf_ints s).

(** shapely's split and intersection behind geometry/_geometry.py:518-541 (split_two_lines), as half-plane clipping of a closed ring.  [sg] = 1 keeps ordinates <= c,
    [sg] = -1 keeps ordinates >= c. *)
Definition inside (sg c : R) (p : R * R) : bool := Rleb (sg * snd p) (sg * c).
(** geometry/_geometry.py:518-541, as above: where an edge meets the line. *)
Definition cut_point (c : R) (p q : R * R) : R * R :=
  let t := (c - snd p) / (snd q - snd p) in (fst p + t * (fst q - fst p), c).
(** geometry/_geometry.py:518-541, as above: the points one edge contributes. *)
Definition emit (sg c : R) (p q : R * R) : list (R * R) :=
  (if inside sg c p then [p] else []) ++
  (if Bool.eqb (inside sg c p) (inside sg c q) then [] else [cut_point c p q]).
(** geometry/_geometry.py:518-541, as above: an open path. *)
Fixpoint clip_path (sg c : R) (l : list (R * R)) : list (R * R) :=
  match l with
  | p :: ((q :: _) as tl) => emit sg c p q ++ clip_path sg c tl
  | _ => []
  end.
(** geometry/_geometry.py:518-541, as above: a closed ring. *)
Definition clip (sg c : R) (ring : list (R * R)) : list (R * R) :=
  match clip_path sg c ring with [] => [] | (h :: _) as l => l ++ [h] end.
(** sections/section_integrators/_marin_integrator.py:147-160 and geometry/_geometry.py:518-541 [split_two_lines] with
    two horizontal lines at y0 <= y1. *)
Definition strip (y0 y1 : R) (ring : list (R * R)) : list (R * R) := clip (-1) y0 (clip 1 y1 ring).

(** sections/section_integrators/_marin_integrator.py:82, 88: one entry of [prepared_input] with flag 0, coefficients and ring. *)
Definition s_entry : Type := (list R * list (R * R))%type.

(** sections/section_integrators/_marin_integrator.py:144-166: entries of one geometry whose ranges were
    returned by the law.  [e1] = 0 here is a division by zero; fewer
    coefficient lists than ranges is an IndexError. *)
Fixpoint range_entries (e0 e1 : R) (rings : list (list (R * R))) (rs : list (R * R)) (cs : list (list R))
  : result (list s_entry) :=
  match rs with
  | [] => Ok []
  | r :: rs' =>
      if Reqb e1 0 then Err ZeroDivisionError else
      let y0 := - (e0 - fst r) / e1 in
      let y1 := - (e0 - snd r) / e1 in
      let '(y0, y1) := if Rltb y1 y0 then (y1, y0) else (y0, y1) in
      match cs with
      | [] => Err IndexError
      | c :: cs' =>
          do rest <- range_entries e0 e1 rings rs' cs';
          Ok (map (fun ring => (c, strip y0 y1 ring)) rings ++ rest)
      end
  end.
(** sections/section_integrators/_marin_integrator.py:90-128 and 138-146: coefficients of the law (for the
    stress or the modulus), then either the whole polygon with the first
    coefficient list or one strip per range.  The list [strain] is shared with
    the law, which may overwrite its first element (line 139 passes it by
    reference); the new value is returned. *)
Definition surface_entries (l : law) (what : integrand) (e0 e1 : R) (s : surface) : result (R * list s_entry) :=
  do x <- match what with
          | IStress => Ok (lw_marin l (e0, e1))
          | IModulus => Ok (lw_marin_tangent l (e0, e1))
          | IOther => Err ValueError
          end;
  let '(e0, (rs, cs)) := x in
  match rs with
  | None => match cs with [] => Err IndexError | c :: _ => Ok (e0, map (fun ring => (c, ring)) (oriented s)) end
  | Some rs => do es <- range_entries e0 e1 (oriented s) rs cs; Ok (e0, es)
  end.
(** sections/section_integrators/_marin_integrator.py:130-166 [_process_surface_geometries]. *)
Fixpoint surfaces_entries (laws : nat -> law) (what : integrand) (e0 e1 : R) (ss : list surface)
  : result (R * list s_entry) :=
  match ss with
  | [] => Ok (e0, [])
  | s :: ss' =>
      do x <- surface_entries (laws (sf_law s)) what e0 e1 s;
      do y <- surfaces_entries laws what (fst x) e1 ss';
      Ok (fst y, snd x ++ snd y)
  end.

(** sections/section_integrators/_marin_integrator.py:27-63 [_rotate_geometry]: rotated surface (geometry/_geometry.py:587-612). *)
Definition rotate_surface (a : R) (s : surface) : surface :=
  {| sf_ext := map (rot a) (sf_ext s); sf_ints := map (map (rot a)) (sf_ints s); sf_law := sf_law s |}.
(** sections/section_integrators/_marin_integrator.py:36: rotated point geometry
    (geometry/_geometry.py:240-264). *)
Definition rotate_bar (a : R) (b : bar) : bar :=
  let p := rot a (br_y b, br_z b) in {| br_y := fst p; br_z := snd p; br_area := br_area b; br_law := br_law b |}.
(** sections/section_integrators/_marin_integrator.py:42-49: rotated coordinates
    of the stored data. *)
Definition rotate_fibre (a : R) (f : fibre) : fibre :=
  let p := rot a (fb_y f, fb_z f) in {| fb_y := fst p; fb_z := snd p; fb_a := fb_a f |}.
(** sections/section_integrators/_marin_integrator.py:38-57: rotated data; matrix products give one-dimensional arrays, never scalars. *)
Definition rotate_group (a : R) (g : group) : group :=
  {| gr_fibres := map (rotate_fibre a) (gr_fibres g); gr_scalar := false; gr_law := gr_law g |}.

(** sections/section_integrators/_marin_integrator.py:231: strain of a bar in the rotated frame. *)
Definition z_strain (e0 e1 : R) (f : fibre) : R := e0 + e1 * fb_z f.
(** sections/section_integrators/_marin_integrator.py:229-241
    [_process_point_geometries]: values of one group. *)
Definition bar_values (laws : nat -> law) (what : integrand) (e0 e1 : R) (g : group) : result (list R) :=
  let eps := map (z_strain e0 e1) (gr_fibres g) in
  let l := laws (gr_law g) in
  match what with
  | IStress => Ok (if gr_scalar g then map (lw_stress l) eps else fst (lw_stress_arr l eps))
  | IModulus => Ok (if gr_scalar g then map (lw_tangent l) eps else fst (lw_tangent_arr l eps))
  | IOther => Err ValueError
  end.
(** sections/section_integrators/_marin_integrator.py:224-243: all groups, one
    (y, z, value * area) per bar. *)
Fixpoint bars_entries (laws : nat -> law) (what : integrand) (e0 e1 : R) (gs : list group) : result (list (R * R * R)) :=
  match gs with
  | [] => Ok []
  | g :: gs' =>
      do v <- bar_values laws what e0 e1 g;
      do rest <- bars_entries laws what e0 e1 gs';
      Ok (map (fun vf => (fb_y (snd vf), fb_z (snd vf), fst vf * fb_a (snd vf))) (combine v (gr_fibres g)) ++ rest)
  end.
(** sections/section_integrators/_marin_integrator.py:243: [np.array] of groups
    of different sizes is refused (numpy 1.24 and later: ValueError,
    inhomogeneous shape). *)
Definition homogeneous (gs : list group) : bool :=
  match gs with
  | [] => true
  | g :: gs' => forallb (fun g' => (length (gr_fibres g') =? length (gr_fibres g))%nat) gs'
  end.

(** sections/section_integrators/_marin_integrator.py:246-308 [prepare_input]. *)
Definition m_prepare (laws : nat -> law) (g : compound) (s : profile) (what : integrand) (data : option (list group))
  : result (R * list s_entry * list (R * R * R) * list group) :=
  let a := - atan2 (p_kz s) (p_ky s) in
  let e1 := sqrt (p_kz s ^ 2 + p_ky s ^ 2) in
  do x <- surfaces_entries laws what (p_e0 s) e1 (map (rotate_surface a) (cg_surf g));
  let gs := match data with
            | Some d => map (rotate_group a) d
            | None => bar_groups (map (rotate_bar a) (cg_bars g))
            end in
  do b <- bars_entries laws what (fst x) e1 gs;
  if homogeneous gs then Ok (a, snd x, b, gs) else Err ValueError.

(** sections/section_integrators/_marin_integrator.py:336-344, 418-423: [marin_integration] on one ring (its two coordinate sequences have the same
    length, so it cannot fail). *)
Definition moment_of (ring : list (R * R)) (m n : nat) : R :=
  match ring_moment ring m n with Ok v => v | Err _ => 0 end.
(** sections/section_integrators/_marin_integrator.py:335-349, 416-424: [sum(coeff * moments)] with the z exponent shifted by [off]. *)
Definition coeff_sum (e : s_entry) (m off : nat) : R :=
  lsum (map (fun k => nth k (fst e) 0 * moment_of (snd e) m (k + off)) (seq 0 (length (fst e)))).

(** sections/section_integrators/_marin_integrator.py:310-378 [integrate_stress] (forces and the data rotated back). *)
Definition m_integrate_stress (a : R) (es : list s_entry) (bs : list (R * R * R)) : R * R * R :=
  let N := lsum (map (fun e => coeff_sum e 0 0) es) + lsum (map (fun b => snd b) bs) in
  let My := lsum (map (fun e => coeff_sum e 0 1) es) + lsum (map (fun b => snd b * snd (fst b)) bs) in
  let Mz := - lsum (map (fun e => coeff_sum e 1 0) es) - lsum (map (fun b => snd b * fst (fst b)) bs) in
  (N, cos (- a) * My - sin (- a) * Mz, sin (- a) * My + cos (- a) * Mz).

(** sections/section_integrators/_marin_integrator.py:396-437 [integrate_modulus] before the back rotation. *)
Definition m_stiff_rot (es : list s_entry) (bs : list (R * R * R)) (i j : nat) : R :=
  match i, j with
  | 0%nat, 0%nat => lsum (map (fun e => coeff_sum e 0 0) es) + lsum (map (fun b => snd b) bs)
  | 0%nat, 1%nat | 1%nat, 0%nat => lsum (map (fun e => coeff_sum e 0 1) es) + lsum (map (fun b => snd b * snd (fst b)) bs)
  | 0%nat, 2%nat | 2%nat, 0%nat => - lsum (map (fun e => coeff_sum e 1 0) es) - lsum (map (fun b => snd b * fst (fst b)) bs)
  | 1%nat, 1%nat => lsum (map (fun e => coeff_sum e 0 2) es) + lsum (map (fun b => snd b * snd (fst b) * snd (fst b)) bs)
  | 1%nat, 2%nat | 2%nat, 1%nat => - lsum (map (fun e => coeff_sum e 1 1) es) - lsum (map (fun b => snd b * fst (fst b) * snd (fst b)) bs)
  | 2%nat, 2%nat => lsum (map (fun e => coeff_sum e 2 0) es) + lsum (map (fun b => snd b * fst (fst b) * fst (fst b)) bs)
  | _, _ => 0
  end.
(** sections/section_integrators/_marin_integrator.py:470: 3x3 matrices (numpy). *)
Definition mat3 : Type := nat -> nat -> R.
(** sections/section_integrators/_marin_integrator.py:470: numpy's matrix product. *)
Definition mmul (A B : mat3) : mat3 := fun i j => A i 0%nat * B 0%nat j + A i 1%nat * B 1%nat j + A i 2%nat * B 2%nat j.
(** sections/section_integrators/_marin_integrator.py:470: numpy's transpose. *)
Definition mtr (A : mat3) : mat3 := fun i j => A j i.
(** sections/section_integrators/_marin_integrator.py:462-468: the rotation matrix T. *)
Definition m_T (a : R) : mat3 := fun i j =>
  match i, j with
  | 0%nat, 0%nat => 1
  | 1%nat, 1%nat => cos (- a)
  | 1%nat, 2%nat => sin (- a)
  | 2%nat, 1%nat => - sin (- a)
  | 2%nat, 2%nat => cos (- a)
  | _, _ => 0
  end.
(** sections/section_integrators/_marin_integrator.py:380-470 [integrate_modulus]. *)
Definition m_integrate_modulus (a : R) (es : list s_entry) (bs : list (R * R * R)) : mat3 :=
  mmul (mmul (mtr (m_T a)) (m_stiff_rot es bs)) (m_T a).

(** sections/section_integrators/_marin_integrator.py:472-525, integrate='stress'; the returned
    integration data are rotated back (lines 360-376). *)
Definition marin_forces (laws : nat -> law) (g : compound) (s : profile) (data : option (list group))
  : result ((R * R * R) * list group) :=
  do x <- m_prepare laws g s IStress data;
  let '(a, es, bs, gs) := x in
  Ok (m_integrate_stress a es bs, map (rotate_group (- a)) gs).
(** sections/section_integrators/_marin_integrator.py:472-525,
    integrate='modulus'; data rotated back as in lines 441-460. *)
Definition marin_stiffness (laws : nat -> law) (g : compound) (s : profile) (data : option (list group))
  : result (mat3 * list group) :=
  do x <- m_prepare laws g s IModulus data;
  let '(a, es, bs, gs) := x in
  Ok (m_integrate_modulus a es bs, map (rotate_group (- a)) gs).
