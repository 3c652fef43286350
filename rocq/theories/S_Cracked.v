(** Independent specification of the cracked elastic section. *)
From Verif Require Import Base S_Marin M_Laws M_Laws2 M_Fiber S_Fiber S_MarinInt M_Section M_Gross S_Gross M_Geo M_Cracked.
From Coq Require Import Permutation.

(** Elastic in compression, no resistance in tension. *)
Definition no_tension (E e : R) : R := if Rle_dec e 0 then E * e else 0.

(** Integral of phi over the part of a surface above the height c. *)
Definition part_above (c : R) (phi : R -> R -> R) (s : surface) : R :=
  surface_integral (fun y z => if Rlt_dec c z then phi y z else 0) s.
(** A valid polygon: nothing in it counts negatively. *)
Definition solid (s : surface) : Prop :=
  forall f, (forall z, continuity_pt f z) -> (forall z, 0 <= f z) -> 0 <= surface_integral (fun _ z => f z) s.
Definition plain (p : polygon) : surface := {| sf_ext := pl_ext p; sf_ints := pl_ints p; sf_law := 0 |}.

(** What shapely's split and centroid guarantee for the polygon p and a line
    running to the right at height c: valid pieces that lie above or below; the
    centroid tells which; the pieces above make up the part of p above the line. *)
Definition cuts_at (cutter : shapely_split) (centroid : polygon -> R * R) (p : polygon) (c : R) : Prop :=
  forall y1 y2, y1 < y2 -> exists up down,
    Permutation (cutter p ((y1, c), (y2, c))) (up ++ down) /\
    (forall q, In q up -> c < snd (centroid q) /\ solid (plain q) /\ closed (pl_ext q) /\ (forall r, In r (pl_ints q) -> closed r)) /\
    (forall q, In q down -> snd (centroid q) <= c) /\
    forall k0 k1 k2 k3 k4 k5,
      let phi y z := k0 + k1 * y + k2 * z + k3 * y ^ 2 + k4 * y * z + k5 * z ^ 2 in
      lsum (map (fun q => surface_integral phi (plain q)) up) = part_above c phi (plain p).

(** Integral over the cracked section, in the user's axes: the part of every
    surface above the neutral axis (height c in axes turned by theta) and all bars,
    weighted with E. *)
Definition cracked_integral (E : nat -> R) (theta c : R) (g : compound) (phi : R -> R -> R) : R :=
  lsum (map (fun s => E (sf_law s) *
    part_above c (fun y z => phi (back_y (- theta) y z) (back_z (- theta) y z)) (turned (- theta) s)) (cg_surf g))
  + lsum (map (fun b => E (br_law b) * (br_area b * phi (br_y b) (br_z b))) (cg_bars g)).
(** Height of a point above the origin in axes turned by theta. *)
Definition height (theta y z : R) : R := cos theta * z - sin theta * y.
(** First moment of the cracked section about the axis at height c. *)
Definition first_moment (E : nat -> R) (theta : R) (g : compound) (c : R) : R :=
  cracked_integral E theta c g (fun y z => height theta y z - c).
(** Sections of a reasonable size: everything within a kilometre of the origin. *)
Definition moderate (g : compound) : Prop :=
  (forall s v, In s (cg_surf g) -> In v (sf_ext s) \/ (exists r, In r (sf_ints s) /\ In v r) -> fst v ^ 2 + snd v ^ 2 <= (10 ^ 6) ^ 2) /\
  (forall b, In b (cg_bars g) -> br_y b ^ 2 + br_z b ^ 2 <= (10 ^ 6) ^ 2).
(** Outline of a surface, turned by - theta. *)
Definition outline (theta : R) (s : surf) : polygon :=
  {| pl_ext := map (turn (- theta)) (pl_ext (sg_poly s)); pl_ints := map (map (turn (- theta))) (pl_ints (sg_poly s)) |}.
(** Area of the part of a surface above the axis. *)
Definition area_above (theta c : R) (s : surf) : R := part_above c (fun _ _ => 1) (plain (outline theta s)).
(** A density in kg per cubic metre as a mass per square millimetre and millimetre. *)
Definition kg (density : option R) : R := match density with Some d => d / 10 ^ 9 | None => 0 end.
(** Where the bars are and how large. *)
Definition bars_at (g : compound) : list (R * R * R) := map (fun b => (br_y b, br_z b, br_area b)) (cg_bars g).
