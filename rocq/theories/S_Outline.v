(** Independent specification of the outlines of steel profiles. *)
From Verif Require Import Base S_Marin M_Profile S_Profile M_Catalog S_Catalog M_Outline.
Open Scope R_scope.
Open Scope list_scope.

(** Integral of y^m z^n over the region a ring encloses, whichever way round it is listed. *)
Definition region_moment (m n : nat) (p : ring) : R := if Rlt_dec (shoelace p) 0 then - fan_moment m n p else fan_moment m n p.
(** Two lists of polygons without overlaps cover the same region: all moments agree. *)
Definition same_region (a b : list ring) : Prop := forall m n, lsum (map (region_moment m n) a) = lsum (map (region_moment m n) b).
(** The same bounding box. *)
Definition within_box (a b : list ring) : Prop := forall p v, In p a -> In v p ->
  (exists q w, In q b /\ In w q /\ fst w <= fst v) /\ (exists q w, In q b /\ In w q /\ fst v <= fst w) /\
  (exists q w, In q b /\ In w q /\ snd w <= snd v) /\ (exists q w, In q b /\ In w q /\ snd v <= snd w).
Definition same_box (a b : list ring) : Prop := within_box a b /\ within_box b a.
(** A polygon every row of which is an interval of positive length: it has a left and a right side, both going upwards between the same heights,
    on two sides of a vertical line.  Such a polygon is connected and has no holes. *)
Definition climbs (l : list (R * R)) : Prop := forall e, In e (edges l) -> snd (fst e) <= snd (snd e).
Definition tower (l r : list (R * R)) : Prop :=
  climbs l /\ climbs r /\
  (exists l0 l1 r0 r1, hd_error l = Some l0 /\ hd_error (rev l) = Some l1 /\ hd_error r = Some r0 /\ hd_error (rev r) = Some r1 /\
     snd l0 = snd r0 /\ snd l1 = snd r1 /\ snd l0 < snd l1) /\
  (exists c, (forall v, In v l -> fst v < c) /\ (forall v, In v r -> c < fst v)).
Definition tower_ring (l r : list (R * R)) : ring := match l with [] => [] | v :: _ => v :: r ++ rev l end.
(** What an exact [unary_union] does: parts that together fill a polygon of this kind, without overlaps, become one polygon. *)
Definition exact_union (union : list ring -> list ring) : Prop := forall parts l r,
  tower l r -> same_region [tower_ring l r] parts -> same_box [tower_ring l r] parts ->
  exists p, union parts = [p] /\ closed p /\ same_region [p] parts /\ same_box [p] parts.

(** What offsetting a line of two segments to its inner side and back does to a corner of at most a right angle: A and C stay, the corner B is cut
    off between points T1 and T2 not farther than r from it; in between the line stays in the triangle T1 B T2 and only turns from the first to the
    second direction.  The direction in which the outcome is listed is not fixed, nor is whether T1 is repeated if it is A. *)
Definition between (v w : R * R) (t : R) : R * R := (fst v + t * (fst w - fst v), snd v + t * (snd w - snd v)).
Definition dist (v w : R * R) : R := sqrt ((fst w - fst v) ^ 2 + (snd w - snd v) ^ 2).
Definition cuts_corner (r : R) (A B C : R * R) (p : list (R * R)) : Prop :=
  exists T1 T2 q k1 k2, 0 < k1 <= 1 /\ 0 < k2 <= 1 /\ k1 * dist A B <= r /\ k2 * dist B C <= r /\ T1 = between B A k1 /\ T2 = between B C k2 /\
  hd_error q = Some T1 /\ hd_error (rev q) = Some T2 /\
  (forall v, In v q -> exists s t, 0 <= t <= s /\ s <= 1 /\
     v = (fst T1 + s * (fst B - fst T1) + t * (fst T2 - fst B), snd T1 + s * (snd B - snd T1) + t * (snd T2 - snd B))) /\
  (forall e, In e (edges q) -> exists s t, 0 <= s /\ 0 <= t /\
     fst (snd e) - fst (fst e) = s * (fst B - fst A) + t * (fst C - fst B) /\ snd (snd e) - snd (fst e) = s * (snd B - snd A) + t * (snd C - snd B)) /\
  (p = A :: q ++ [C] \/ (T1 = A /\ p = q ++ [C]) \/ (T2 = C /\ p = A :: q) \/ (T1 = A /\ T2 = C /\ p = q)).
Definition turn (A B C : R * R) : R := (fst B - fst A) * (snd C - snd B) - (fst C - fst B) * (snd B - snd A).
Definition exact_offset (offset : list (R * R) -> R -> list (R * R)) : Prop := forall A B C r,
  0 < r * turn A B C -> 0 <= (fst B - fst A) * (fst C - fst B) + (snd B - snd A) * (snd C - snd B) ->
  Rabs r <= dist A B -> Rabs r <= dist B C ->
  let p := offset (offset [A; B; C] r) (- r) in cuts_corner (Rabs r) A B C p \/ cuts_corner (Rabs r) A B C (rev p).
Definition exact (S : shapely) : Prop := exact_union (unary_union S) /\ exact_offset (offset_curve S).

(** Height and width of an outline. *)
Definition measures (p : ring) (width height : R) : Prop :=
  (exists y0 y1, (forall v, In v p -> y0 <= fst v <= y1) /\ (exists v, In v p /\ fst v = y0) /\ (exists v, In v p /\ fst v = y1) /\ y1 - y0 = width) /\
  (exists z0 z1, spans p z0 z1 /\ z1 - z0 = height).
(** Symmetric to the horizontal (vertical) axis, as far as moments see it. *)
Definition mirror_z (p : ring) : Prop := forall m n, Nat.Odd n -> fan_moment m n p = 0.
Definition mirror_y (p : ring) : Prop := forall m n, Nat.Odd m -> fan_moment m n p = 0.
(** Nominal values with circular fillets: second moments of a flanged section about its axes of symmetry. *)
Definition quarter_2 (r d : R) : R := PI / 16 * r ^ 4 + 2 * d * (r ^ 3 / 3) + d ^ 2 * (PI / 4 * r ^ 2).
Definition fillet_2 (r d : R) : R := r * ((d + r) ^ 3 - d ^ 3) / 3 - quarter_2 r d.
(** [k] fillets: four in an I section, two in a channel. *)
Definition flanged_area (k h b tw tf r : R) : R := 2 * (b * tf) + (h - 2 * tf) * tw + k * ((1 - PI / 4) * r ^ 2).
Definition flanged_iy (k h b tw tf r : R) : R := (b * h ^ 3 - (b - tw) * (h - 2 * tf) ^ 3) / 12 + k * fillet_2 r (h / 2 - tf - r).
Definition i_iz (h b tw tf r : R) : R := (2 * tf * b ^ 3 + (h - 2 * tf) * tw ^ 3) / 12 + 4 * fillet_2 r (- (tw / 2 + r)).
(** Height and width of a profile; which profiles have two equal flanges, and which of these on both sides of the web. *)
Definition height_of (s : shape) : R := match s with ShI h _ _ _ _ | ShParallelU h _ _ _ _ | ShTaperI h _ _ _ _ _ _ | ShTaperU h _ _ _ _ _ _ _ | ShL h _ _ _ _ _ => h end.
Definition width_of (s : shape) : R := match s with ShI _ b _ _ _ | ShParallelU _ b _ _ _ | ShTaperI _ b _ _ _ _ _ | ShTaperU _ b _ _ _ _ _ _ | ShL _ b _ _ _ _ => b end.
Definition equal_flanges (s : shape) : Prop := match s with ShL _ _ _ _ _ _ => False | _ => True end.
Definition both_sides (s : shape) : Prop := match s with ShI _ _ _ _ _ | ShTaperI _ _ _ _ _ _ _ => True | _ => False end.
(** Areas with sharp corners: web over the full height, and two flanges beside it with their thickness half way between web and tip; two legs. *)
Definition sharp_area (s : shape) : R :=
  match s with
  | ShTaperI h b tw tf _ _ sl => h * tw + 2 * ((b - tw) * (tf + sl * (b / 4 - (b + tw) / 4)))
  | ShTaperU h b tw tf _ _ sl u => h * tw + 2 * ((b - tw) * (tf + sl * ((b - u) - (b + tw) / 2)))
  | ShL h b t1 t2 _ _ => h * t2 + (b - t2) * t1
  | ShI h b tw tf _ | ShParallelU h b tw tf _ => h * tw + 2 * ((b - tw) * tf)
  end.
(** How much rounding one corner of each of the two radii can change. *)
Definition round_off (r : R) : R := r ^ 2 / 2.
