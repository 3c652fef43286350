(** Independent specification of fibre sections. *)
From Coquelicot Require Import Coquelicot.
From Verif Require Import Base S_Marin M_Laws M_Laws2 M_Fiber.

(** A material fibre of the section: position, area, stress-strain curve and tangent. *)
Record mfibre := { m_y : R; m_z : R; m_a : R; m_sigma : R -> R; m_tangent : R -> R }.

(** Plane sections remain plane. *)
Definition plane_strain (e0 ky kz y z : R) : R := e0 + ky * z - kz * y.

(** Resultants of the fibre forces about the origin. *)
Definition axial (fs : list mfibre) (e0 ky kz : R) : R :=
  lsum (map (fun f => m_sigma f (plane_strain e0 ky kz (m_y f) (m_z f)) * m_a f) fs).
Definition moment_y (fs : list mfibre) (e0 ky kz : R) : R :=
  lsum (map (fun f => m_sigma f (plane_strain e0 ky kz (m_y f) (m_z f)) * m_a f * m_z f) fs).
Definition moment_z (fs : list mfibre) (e0 ky kz : R) : R :=
  - lsum (map (fun f => m_sigma f (plane_strain e0 ky kz (m_y f) (m_z f)) * m_a f * m_y f) fs).

(** Tangent of each fibre at the given profile. *)
Definition fibre_tangent (e0 ky kz : R) (f : mfibre) : R := m_tangent f (plane_strain e0 ky kz (m_y f) (m_z f)).

(** Quadratic form and matrix-vector product for 3x3 matrices. *)
Definition mat_vec (K : nat -> nat -> R) (a b c : R) (i : nat) : R := K i 0%nat * a + K i 1%nat * b + K i 2%nat * c.
Definition quad (K : nat -> nat -> R) (a b c : R) : R :=
  a * mat_vec K a b c 0 + b * mat_vec K a b c 1 + c * mat_vec K a b c 2.

(** Closed ring of a triangle. *)
Definition tri_ring (t : (R * R) * (R * R) * (R * R)) : list (R * R) :=
  let '(p, q, r) := t in [p; q; r; p].
(** Counter-clockwise triangle. *)
Definition ccw (t : (R * R) * (R * R) * (R * R)) : Prop := 0 <= fan_moment 0 0 (tri_ring t).
(** All edges of the triangle are at most h high and wide. *)
Definition tri_size (h : R) (t : (R * R) * (R * R) * (R * R)) : Prop :=
  let '(p, q, r) := t in
  Rabs (snd p - snd q) <= h /\ Rabs (snd q - snd r) <= h /\ Rabs (snd r - snd p) <= h /\
  Rabs (fst p - fst q) <= h /\ Rabs (fst q - fst r) <= h /\ Rabs (fst r - fst p) <= h.

(** The triangles tile the region bounded by the rings (outer ring
    counter-clockwise, holes clockwise): they are counter-clockwise and all area
    moments add up. *)
Definition tiles (ts : list ((R * R) * (R * R) * (R * R))) (rings : list (list (R * R))) : Prop :=
  (forall t, In t ts -> ccw t) /\
  (forall m n, lsum (map (fun t => fan_moment m n (tri_ring t)) ts) = lsum (map (fan_moment m n) rings)).

(** Axis-parallel box. *)
Definition in_box (y0 y1 z0 z1 : R) (p : R * R) : Prop := y0 < fst p < y1 /\ z0 < snd p < z1.

(** All material fibres of a section, in the order in which the user lists them:
    one fibre per mesh triangle (centroid, area), one fibre per bar.  [mesh]
    gives the triangles of each surface. *)
Definition mfibre_at (l : law) (y z a : R) : mfibre :=
  {| m_y := y; m_z := z; m_a := a; m_sigma := lw_stress l; m_tangent := lw_tangent l |}.
Definition tri_fibre (l : law) (t : (R * R) * (R * R) * (R * R)) : mfibre :=
  let '(p, q, r) := t in
  mfibre_at l ((fst p + fst q + fst r) / 3) ((snd p + snd q + snd r) / 3) (Rabs (shoelace [p; q; r; p])).
Definition section_fibres (laws : nat -> law) (mesh : surface -> list ((R * R) * (R * R) * (R * R))) (g : compound)
  : list mfibre :=
  flat_map (fun s => map (tri_fibre (laws (sf_law s))) (mesh s)) (cg_surf g)
  ++ map (fun b => mfibre_at (laws (br_law b)) (br_y b) (br_z b) (br_area b)) (cg_bars g).

(** Array evaluation of a law agrees with scalar evaluation (property C05). *)
Definition batched (l : law) : Prop :=
  (forall eps, fst (lw_stress_arr l eps) = map (lw_stress l) eps) /\
  (forall eps, fst (lw_tangent_arr l eps) = map (lw_tangent l) eps).

(** Stiffness specification: sum of tangent * area times the outer product of (1, z, -y). *)
Definition lever (f : mfibre) (i : nat) : R := match i with 0%nat => 1 | 1%nat => m_z f | _ => - m_y f end.
Definition stiff (F : list mfibre) (e0 ky kz : R) (i j : nat) : R :=
  lsum (map (fun f => fibre_tangent e0 ky kz f * m_a f * lever f i * lever f j) F).

(** Twice the signed area of the triangle (a, b, c): positive when c is to the
    left of the line from a to b, negative to the right. *)
Definition side (a b c : R * R) : R := (fst b - fst a) * (snd c - snd a) - (snd b - snd a) * (fst c - fst a).
