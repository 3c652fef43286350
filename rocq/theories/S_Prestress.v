(** Independent specification: prestressed bars (C63). *)
From Verif Require Import Base M_Laws M_Laws2 M_Fiber S_Fiber M_MarinInt S_MarinInt M_Section S_Scale.

(** The section with one more bar. *)
Definition with_bar (g : compound) (b : bar) : compound := {| cg_surf := cg_surf g; cg_bars := cg_bars g ++ [b] |}.
(** N, My, Mz of a force T in the bar; a stiffness t of the bar in row i and column j. *)
Definition pulled (b : bar) (T : R) : R * R * R := (T, T * br_z b, - T * br_y b).
Definition stiffened (b : bar) (t : R) (K K' : nat -> nat -> R) : Prop := forall i j, (i < 3)%nat -> (j < 3)%nat ->
  K' i j = K i j + t * arm i (br_y b) (br_z b) * arm j (br_y b) (br_z b).
(** Strain of the section at the bar. *)
Definition bar_strain (b : bar) (p : R * R * R) : R := let '(e, ky, kz) := p in plane_strain e ky kz (br_y b) (br_z b).
