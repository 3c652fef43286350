(** Independent specification of plane motions and of compound geometries. *)
From Verif Require Import Base S_Marin M_Laws M_Laws2 M_Fiber M_Geo.
From Coq Require Import String.
Open Scope R_scope.
Open Scope list_scope.

Definition dist2 (p q : R * R) : R := (fst p - fst q) ^ 2 + (snd p - snd q) ^ 2.
(** Distance preserving maps of the plane. *)
Definition isometry (f : R * R -> R * R) : Prop := forall p q, dist2 (f p) (f q) = dist2 p q.
(** q is the mirror image of p in the line through a and b: the segment pq is
    perpendicular to the line and its midpoint lies on it. *)
Definition mirror_image (a b p q : R * R) : Prop :=
  (fst q - fst p) * (fst b - fst a) + (snd q - snd p) * (snd b - snd a) = 0 /\
  ((fst p + fst q) / 2 - fst a) * (snd b - snd a) = ((snd p + snd q) / 2 - snd a) * (fst b - fst a).
(** q is p turned about o by the angle a. *)
Definition turned_by (a : R) (o p q : R * R) : Prop :=
  fst q - fst o = cos a * (fst p - fst o) - sin a * (snd p - snd o) /\
  snd q - snd o = sin a * (fst p - fst o) + cos a * (snd p - snd o).

(** Surfaces as the constructor makes them: concrete materials set the flag. *)
Definition well_made (s : surf) : Prop := mt_is_concrete (sg_mat s) = true -> sg_concrete s = true.
Definition sound_rings (p : polygon) : Prop := closed (pl_ext p) /\ (forall r, In r (pl_ints p) -> closed r).

(** s' is s with every vertex moved by f and nothing else of interest changed. *)
Definition image_of (f : R * R -> R * R) (s s' : surf) : Prop :=
  pl_ext (sg_poly s') = map f (pl_ext (sg_poly s)) /\ pl_ints (sg_poly s') = map (map f) (pl_ints (sg_poly s)) /\
  sg_mat s' = sg_mat s /\ sg_concrete s' = sg_concrete s /\ sg_density s' = sg_density s /\ sg_area s' = sg_area s.
Definition image_of_point (f : R * R -> R * R) (p p' : pnt) : Prop :=
  pg_at p' = f (pg_at p) /\ pg_diam p' = pg_diam p /\ pg_area p' = pg_area p /\ pg_mat p' = pg_mat p /\
  pg_name p' = pg_name p /\ pg_group p' = pg_group p /\ pg_density p' = pg_density p.

(** Nested construction: surfaces, points, and compounds of such things. *)
Inductive tree := TSurf (s : surf) | TPnt (p : pnt) | TNode (l : list tree).
Fixpoint tree_surfaces (t : tree) : list surf :=
  match t with TSurf s => [s] | TPnt _ => [] | TNode l => (fix go l := match l with [] => [] | x :: r => tree_surfaces x ++ go r end) l end.
Fixpoint tree_points (t : tree) : list pnt :=
  match t with TSurf _ => [] | TPnt p => [p] | TNode l => (fix go l := match l with [] => [] | x :: r => tree_points x ++ go r end) l end.
(** What the user writes: CompoundGeometry([...]) at every node. *)
Fixpoint build (t : tree) : part :=
  match t with TSurf s => PSurf s | TPnt p => PPnt p | TNode l => PComp (compound_of ((fix go l := match l with [] => [] | x :: r => build x :: go r end) l)) end.
Definition part_surfaces (x : part) : list surf := match x with PSurf s => [s] | PComp g => cp_surf g | _ => [] end.
Definition part_points (x : part) : list pnt := match x with PPnt p => [p] | PComp g => cp_pnt g | _ => [] end.

Definition vertex_in (e : R * R * R * R) (v : R * R) : Prop :=
  let '(x0, x1, y0, y1) := e in x0 <= fst v <= x1 /\ y0 <= snd v <= y1.
(** On the line through p with direction theta. *)
Definition on_line (p : R * R) (theta : R) (q : R * R) : Prop :=
  (fst q - fst p) * sin theta = (snd q - snd p) * cos theta.
(** q strictly to the left of the directed line a -> b. *)
Definition left_of (a b q : R * R) : Prop :=
  0 < (fst b - fst a) * (snd q - snd a) - (fst q - fst a) * (snd b - snd a).
