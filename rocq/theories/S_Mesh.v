(** Independent specification of triangulations (C55). *)
From Coq Require Import Permutation.
From Verif Require Import Base S_Marin M_Laws M_Laws2 M_Fiber S_Fiber S_MarinInt.

Definition tri := ((R * R) * (R * R) * (R * R))%type.
Definition tri_edges (t : tri) : list ((R * R) * (R * R)) := let '(p, q, r) := t in [(p, q); (q, r); (r, p)].
(** Two lists of directed edges bound the same region: they turn into each other by
    reordering, cancelling an edge against its reverse, and joining the two parts of
    an edge that is divided at one of its points. *)
Inductive same_boundary : list ((R * R) * (R * R)) -> list ((R * R) * (R * R)) -> Prop :=
| sb_perm l m : Permutation l m -> same_boundary l m
| sb_cancel p q l : same_boundary ((p, q) :: (q, p) :: l) l
| sb_join p q t l : 0 <= t <= 1 -> same_boundary ((p, seg p q t) :: (seg p q t, q) :: l) ((p, q) :: l)
| sb_sym l m : same_boundary l m -> same_boundary m l
| sb_trans l m n : same_boundary l m -> same_boundary m n -> same_boundary l n.
(** Boundary of a surface: outer ring counter-clockwise, holes clockwise. *)
Definition surface_edges (s : surface) : list ((R * R) * (R * R)) :=
  edges (ccw_ring (sf_ext s)) ++ flat_map (fun r => edges (cw_ring r)) (sf_ints s).
(** Counter-clockwise triangles whose common boundary is that of the surface. *)
Definition triangulates (ts : list tri) (s : surface) : Prop :=
  (forall t, In t ts -> ccw t) /\ same_boundary (flat_map tri_edges ts) (surface_edges s).

(** Points of a triangle. *)
Definition mix (a b c : R) (t : tri) : R * R :=
  let '(p, q, r) := t in (a * fst p + b * fst q + c * fst r, a * snd p + b * snd q + c * snd r).
Definition in_tri (t : tri) (v : R * R) : Prop := exists a b c, 0 <= a /\ 0 <= b /\ 0 <= c /\ a + b + c = 1 /\ v = mix a b c t.
Definition corner (t : tri) (v : R * R) : Prop := let '(p, q, r) := t in v = p \/ v = q \/ v = r.

(** On the strains [lo, hi] the stress is the curve f, which is no steeper than L. *)
Definition smooth_on (stress f : R -> R) (L lo hi : R) : Prop :=
  0 <= L /\ (forall e, lo <= e <= hi -> stress e = f e) /\
  (forall e e', lo <= e <= hi -> lo <= e' <= hi -> Rabs (f e - f e') <= L * Rabs (e - e')).
