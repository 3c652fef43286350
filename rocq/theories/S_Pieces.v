(** Independent specification: a section assembled from pieces (C59). *)
From Verif Require Import Base S_Marin M_Laws M_Laws2 M_Fiber M_MarinInt M_Section M_Domain S_MarinInt S_Mesh.

(** Points between the vertices of an outline. *)
Inductive in_hull (l : list (R * R)) : R * R -> Prop :=
| hull_vertex p : In p l -> in_hull l p
| hull_between p q t : 0 <= t <= 1 -> in_hull l p -> in_hull l q -> in_hull l (seg p q t).
(** The surfaces [l] make up the surface [s]: the same material, vertices between those
    of s, every outer vertex of s is a vertex of a piece, and the edges of the pieces
    bound the region that the edges of s bound. *)
Definition pieces_of (s : surface) (l : list surface) : Prop :=
  (forall p, In p l -> sf_law p = sf_law s /\ sf_ext p <> [] /\ forall v, In v (sf_ext p) -> in_hull (sf_ext s) v) /\
  (forall v, In v (sf_ext s) -> exists p, In p l /\ In v (sf_ext p)) /\ sf_ext s <> [] /\
  same_boundary (flat_map surface_edges l) (surface_edges s).
(** The section g' has the bars of g and, in the place of each surface of g, pieces of it. *)
Definition assembled (g g' : compound) : Prop :=
  exists ls, Forall2 pieces_of (cg_surf g) ls /\ cg_surf g' = concat ls /\ cg_bars g' = cg_bars g.
Definition closed_rings (g : compound) : Prop :=
  forall s, In s (cg_surf g) -> closed (sf_ext s) /\ (forall q, In q (sf_ints s) -> closed q).
(** A law that is asked for a uniform strain, and then for the strain it wrote back, answers the same. *)
Definition repeats (laws : nat -> law) (g : compound) : Prop := forall s e, In s (cg_surf g) -> let l := laws (sf_law s) in
  lw_marin l (fst (lw_marin l (e, 0)), 0) = lw_marin l (e, 0) /\ lw_marin_tangent l (fst (lw_marin_tangent l (e, 0)), 0) = lw_marin_tangent l (e, 0).
(** Ultimate strains: a shortening and a lengthening. *)
Definition two_sided (t : traits) (g : compound) : Prop := forall k y,
  (exists s, In s (cg_surf g) /\ sf_law s = k) \/ (exists b, In b (cg_bars g) /\ br_law b = k) -> fst (tr_ult t k y) < 0 < snd (tr_ult t k y).
