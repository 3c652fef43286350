(** Independent specification: how forces and strain profiles determine each other (C64). *)
From Verif Require Import Base S_Marin M_Laws M_Laws2 M_Fiber S_Fiber M_MarinInt S_MarinInt M_Section S_Gross S_Mesh S_Curved.

(** Between the strains lo and hi the curve f rises by at least m and at most L per unit of strain. *)
Definition rises (m L lo hi : R) (f : R -> R) : Prop := forall e e', lo <= e -> e <= e' -> e' <= hi ->
  m * (e' - e) <= f e' - f e <= L * (e' - e).
(** The strains of the bars under the profile p are between lo and hi of their material. *)
Definition bars_kept (g : compound) (p : R * R * R) (lo hi : nat -> R) : Prop := forall b, In b (cg_bars g) ->
  lo (br_law b) <= plane_strain (fst (fst p)) (snd (fst p)) (snd p) (br_y b) (br_z b) <= hi (br_law b).
(** The same for the centroids of the triangles of a mesh. *)
Definition centroids_kept (mesh : surface -> list tri) (g : compound) (p : R * R * R) (lo hi : nat -> R) : Prop :=
  forall s a b c, In s (cg_surf g) -> In (a, b, c) (mesh s) ->
  lo (sf_law s) <= plane_strain (fst (fst p)) (snd (fst p)) (snd p) ((fst a + fst b + fst c) / 3) ((snd a + snd b + snd c) / 3) <= hi (sf_law s).
(** The difference of two force triples times the difference of two strain profiles. *)
Definition work (p q F G : R * R * R) : R :=
  (fst (fst G) - fst (fst F)) * (fst (fst q) - fst (fst p)) + (snd (fst G) - snd (fst F)) * (snd (fst q) - snd (fst p)) + (snd G - snd F) * (snd q - snd p).
(** Square of the difference of the strains at a point under the profiles p and q. *)
Definition apart (p q : R * R * R) (y z : R) : R :=
  (plane_strain (fst (fst q)) (snd (fst q)) (snd q) y z - plane_strain (fst (fst p)) (snd (fst p)) (snd p) y z) ^ 2.
(** Something resists every deformation: a surface with area, or three bars not in a line (w: stiffness of the materials). *)
Definition anchored (w : nat -> R) (g : compound) : Prop :=
  (exists s, In s (cg_surf g) /\ 0 < w (sf_law s) /\ 0 < surface_integral (fun _ _ => 1) s) \/
  (exists b1 b2 b3, In b1 (cg_bars g) /\ In b2 (cg_bars g) /\ In b3 (cg_bars g) /\
     (br_y b2 - br_y b1) * (br_z b3 - br_z b1) <> (br_y b3 - br_y b1) * (br_z b2 - br_z b1) /\
     forall b, b = b1 \/ b = b2 \/ b = b3 -> 0 < br_area b /\ 0 < w (br_law b)).
(** Between the strains lo and hi the curve always rises. *)
Definition climbs (lo hi : R) (f : R -> R) : Prop := forall e e', lo <= e -> e < e' -> e' <= hi -> f e < f e'.
