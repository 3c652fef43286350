(** Independent specification for the analyses with the exact (default) integrator (C54). *)
From Verif Require Import Base S_Marin M_Laws S_Laws M_Laws2 S_Laws2 M_Fiber S_Fiber M_MarinInt S_MarinInt M_Section S_Section S_Gross.

(** Forces (N, My, Mz), in the user's axes, of a section whose materials follow the
    stress-strain curves fs (surfaces) and the laws of the bars, under a profile that
    bends about the axis turned by theta: axial strain e in the origin, curvature c.
    The surface part is the area integral of stress times (1, z, -y), computed in axes
    parallel and normal to that axis, where the strain of a point is e + c z'. *)
Definition exact_forces (fs : nat -> R -> R) (laws : nat -> law) (g : compound) (theta e c : R) : R * R * R :=
  let ky := cos theta * c in let kz := sin theta * c in
  (surfaces_turned fs (fun _ _ => 1) (- theta) e ky kz (cg_surf g) + axial (bar_fibres laws g) e ky kz,
   surfaces_turned fs (fun _ z => z) (- theta) e ky kz (cg_surf g) + moment_y (bar_fibres laws g) e ky kz,
   surfaces_turned fs (fun y _ => - y) (- theta) e ky kz (cg_surf g) + moment_z (bar_fibres laws g) e ky kz).
Definition exact_axial (fs : nat -> R -> R) (laws : nat -> law) (g : compound) (theta e c : R) : R := fst (fst (exact_forces fs laws g theta e c)).

(** Sections the integrator can handle: closed rings, and bar materials that occur equally often. *)
Definition drawn (g : compound) : Prop :=
  (forall s, In s (cg_surf g) -> closed (sf_ext s) /\ (forall q, In q (sf_ints s) -> closed q)) /\
  (forall b b', In b (cg_bars g) -> In b' (cg_bars g) -> count_law (br_law b) (cg_bars g) = count_law (br_law b') (cg_bars g)).
(** The laws of the surfaces follow the curves fs wherever the strain varies over the section. *)
Definition follows (laws : nat -> law) (fs : nat -> R -> R) (g : compound) : Prop :=
  forall s e r, In s (cg_surf g) -> 0 < r -> field_of (lw_marin (laws (sf_law s)) (e, r)) (fs (sf_law s)) e r.

(** A deformation that leaves the section plane and produces no forces does not exist
    (E: stiffness of the materials, [weighted] the integral over the section). *)
Definition no_mechanism (E : nat -> R) (g : compound) : Prop := forall e0 ky kz,
  weighted E (fun y z => plane_strain e0 ky kz y z) g = 0 ->
  weighted E (fun y z => plane_strain e0 ky kz y z * z) g = 0 ->
  weighted E (fun y z => plane_strain e0 ky kz y z * - y) g = 0 -> e0 = 0 /\ ky = 0 /\ kz = 0.
(** The square of a linear function never has a negative (for a bulky surface: always a
    positive) integral over the surface. *)
Definition firm (s : surface) : Prop := forall a b c, 0 <= surface_integral (fun y z => (a + b * y + c * z) ^ 2) s.
Definition bulky (s : surface) : Prop := forall a b c, (a, b, c) <> (0, 0, 0) -> 0 < surface_integral (fun y z => (a + b * y + c * z) ^ 2) s.
