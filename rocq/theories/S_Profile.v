(** Independent specification of the constants of a profile. *)
From Verif Require Import Base S_Marin M_Laws M_Laws2 M_Fiber M_MarinInt M_Gross S_Gross M_Geo S_Geo M_Profile.
Open Scope R_scope.
Open Scope list_scope.

(** A closed outline with positive (counter-clockwise) area and positive extent
    in both directions. *)
Definition outline (p : ring) : Prop :=
  closed p /\ 0 < fan_moment 0 0 p /\ 0 < fan_moment 0 2 p /\ 0 < fan_moment 2 0 p /\
  (exists v w, In v p /\ In w p /\ fst v < fst w) /\ (exists v w, In v p /\ In w p /\ snd v < snd w).
(** h is the largest distance of a vertex from the axis measured by f. *)
Definition farthest (f : R * R -> R) (p : ring) (h : R) : Prop :=
  (forall v, In v p -> Rabs (f v) <= h) /\ (exists v, In v p /\ Rabs (f v) = h).
Definition quarter_turn (v : R * R) : R * R := (- snd v, fst v).
Definition up (z : R) (v : R * R) : R * R := (fst v, snd v + z).
(** Lowest and highest ordinate. *)
Definition spans (p : ring) (z0 z1 : R) : Prop :=
  (forall v, In v p -> z0 <= snd v <= z1) /\ (exists v, In v p /\ snd v = z0) /\ (exists v, In v p /\ snd v = z1).
(** What splitting at a height has to give: the pieces whose centroid is above
    the line have the area [above z] of the part above, the others the rest; the
    area above shrinks from the whole area at the bottom to nothing at the top,
    at most by the width W per unit of height. *)
Definition centre_height (g : ring) : R := fan_moment 0 1 g / fan_moment 0 0 g.
Definition slices (slice : slicer) (p : ring) (above : R -> R) (W : R) : Prop :=
  forall z0 z1, spans p z0 z1 ->
  (forall z, z0 <= z <= z1 ->
     lsum (map (fun g => if Rlt_dec z (centre_height g) then Rabs (shoelace g) else 0) (slice p z)) = above z /\
     lsum (map (fun g => if Rlt_dec z (centre_height g) then 0 else Rabs (shoelace g)) (slice p z)) = shoelace p - above z) /\
  above z0 = shoelace p /\ above z1 = 0 /\
  (forall z z', z0 <= z <= z' -> z' <= z1 -> 0 <= above z - above z' <= W * (z' - z)).
