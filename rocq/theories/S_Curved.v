(** Independent specification: how much a changed stress-strain curve changes the forces (C60). *)
From Verif Require Import Base S_Marin M_Laws S_Laws M_Laws2 S_Laws2 M_Fiber S_Fiber M_MarinInt S_MarinInt M_Section S_Frame S_Mesh.

(** Two curves that differ by no more than d between the strains lo and hi. *)
Definition within (d lo hi : R) (f h : R -> R) : Prop := forall e, lo <= e <= hi -> Rabs (f e - h e) <= d.
(** The section can be divided into triangles whose corners have |y| <= Y, |z| <= Z
    and, under the strain plane p, strains between lo and hi of their material. *)
Definition kept_in (mesh : surface -> list tri) (g : compound) (p : R * R * R) (lo hi : nat -> R) (Y Z : R) : Prop :=
  forall s, In s (cg_surf g) -> triangulates (mesh s) s /\
    forall t v, In t (mesh s) -> corner t v -> Rabs (fst v) <= Y /\ Rabs (snd v) <= Z /\
      lo (sf_law s) <= plane_strain (fst (fst p)) (snd (fst p)) (snd p) (fst v) (snd v) <= hi (sf_law s).
(** A stress per material, times the area of the surfaces made of it. *)
Definition over_area (d : nat -> R) (g : compound) : R := lsum (map (fun s => d (sf_law s) * surface_integral (fun _ _ => 1) s) (cg_surf g)).
(** N differs by no more than E, My by E times the height, Mz by E times the width. *)
Definition forces_near (E Y Z : R) (F G : R * R * R) : Prop :=
  Rabs (fst (fst F) - fst (fst G)) <= E /\ Rabs (snd (fst F) - snd (fst G)) <= E * Z /\ Rabs (snd F - snd G) <= E * Y.
(** A curve whose slope ds changes by no more than M per unit of strain between u and 0. *)
Definition bends_at_most (M u : R) (s : R -> R) : Prop := exists ds, (forall e, u <= e <= 0 -> derivable_pt_lim s e (ds e)) /\
  (forall x y, u <= x -> x <= y -> y <= 0 -> Rabs (ds y - ds x) <= M * (y - x)).
(** A curve that is no steeper than L between u and 0. *)
Definition steep_at_most (L u : R) (s : R -> R) : Prop := forall x y, u <= x <= 0 -> u <= y <= 0 -> Rabs (s x - s y) <= L * Rabs (x - y).
(** The curve s in compression, down to the strain u; constant beyond u and from 0 on. *)
Definition in_compression (u : R) (s : R -> R) (e : R) : R := if Rle_dec e u then s u else if Rle_dec e 0 then s e else s 0.
(** Stress-strain curves in compression (fc, e1, p, strains as positive numbers): Sargin,
    parabola with exponent n and plateau, Popovics. *)
Definition sargin_curve (fc e1 k e : R) : R := let x := - e / e1 in - fc * (k * x - x ^ 2) / (1 + (k - 2) * x).
Definition parabola_curve (fc p n e : R) : R := if Rle_dec e (- p) then - fc else - fc * (1 - Rpower (1 + e / p) n).
Definition popovics_curve (fc ec n e : R) : R := let x := - e / ec in if Rle_dec 0 e then 0 else - fc * x * n / (n - 1 + Rpower x n).
(** The material curve of a law in compression, and how well the polygon the exact
    integrator uses for it fits: the law reaches the integrator as a curve f that is, at
    every strain above the ultimate one, within d of the curve s that the law itself follows. *)
Definition polygon_fits (l : law) (u : R) (s : R -> R) (d : R) (f : R -> R) : Prop :=
  (forall e, continuity_pt (in_compression (- u) s) e) /\
  (forall e, - u <= e -> settled (- u, 100) e -> lw_stress l e = in_compression (- u) s e) /\
  (forall hi, within d (- u) hi f (in_compression (- u) s)).
