(** Independent specification of section forces by plain area integrals in the user's axes. *)
From Verif Require Import Base S_Marin M_Laws S_Laws M_Laws2 S_Laws2 M_Fiber S_Fiber M_MarinInt S_MarinInt M_Section.

(** Integral over all surfaces of stress times a weight: the strain of the point (y, z)
    is e0 + ky z - kz y, the stress the value of the curve of its material. *)
Definition over_surfaces (fs : nat -> R -> R) (wt : R -> R -> R) (e0 ky kz : R) (ss : list surface) : R :=
  lsum (map (fun s => surface_integral (fun y z => fs (sf_law s) (plane_strain e0 ky kz y z) * wt y z) s) ss).
(** Forces (N, My, Mz): stress times (1, z, -y), surfaces by area, bars at their points. *)
Definition area_forces (fs : nat -> R -> R) (laws : nat -> law) (g : compound) (p : R * R * R) : R * R * R :=
  let '(e0, ky, kz) := p in
  (over_surfaces fs (fun _ _ => 1) e0 ky kz (cg_surf g) + axial (bar_fibres laws g) e0 ky kz,
   over_surfaces fs (fun _ z => z) e0 ky kz (cg_surf g) + moment_y (bar_fibres laws g) e0 ky kz,
   over_surfaces fs (fun y _ => - y) e0 ky kz (cg_surf g) + moment_z (bar_fibres laws g) e0 ky kz).

(** A pair (components along y and z) turned by the angle a, counter-clockwise. *)
Definition spun (a u v : R) : R * R := (cos a * u - sin a * v, sin a * u + cos a * v).
(** The section turned by the angle a about the origin. *)
Definition spun_section (a : R) (g : compound) : compound :=
  {| cg_surf := map (fun s => {| sf_ext := map (fun p => spun a (fst p) (snd p)) (sf_ext s);
                                 sf_ints := map (map (fun p => spun a (fst p) (snd p))) (sf_ints s); sf_law := sf_law s |}) (cg_surf g);
     cg_bars := map (fun b => {| br_y := fst (spun a (br_y b) (br_z b)); br_z := snd (spun a (br_y b) (br_z b));
                                 br_area := br_area b; br_law := br_law b |}) (cg_bars g) |}.
