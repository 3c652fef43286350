(** Independent specification of area integrals of stress fields. *)
From Coquelicot Require Import Coquelicot.
From Verif Require Import Base S_Marin M_Laws S_Laws M_Laws2 S_Laws2 M_Fiber S_Fiber.

(** Signed area integral of phi(y, z) over the region enclosed by a closed
    ring, as an iterated Riemann integral: every edge contributes the integral,
    along the edge, of the horizontal slice between the z axis and the edge. *)
Definition region_integral (phi : R -> R -> R) (ring : list (R * R)) : R :=
  lsum (map (fun e =>
    RInt (fun t => RInt (fun y => phi y (snd (seg (fst e) (snd e) t))) 0 (fst (seg (fst e) (snd e) t))
                   * (snd (snd e) - snd (fst e))) 0 1) (edges ring)).

(** Area integral over a surface with holes: outer ring taken
    counter-clockwise, holes clockwise. *)
Definition ccw_ring (r : list (R * R)) : list (R * R) := if Rlt_dec (shoelace r) 0 then rev r else r.
Definition cw_ring (r : list (R * R)) : list (R * R) := if Rlt_dec 0 (shoelace r) then rev r else r.
Definition surface_integral (phi : R -> R -> R) (s : surface) : R :=
  region_integral phi (ccw_ring (sf_ext s)) + lsum (map (fun r => region_integral phi (cw_ring r)) (sf_ints s)).

(** Coordinates in axes turned by an angle: (y', z') are the coordinates of the
    point in the turned axes, [back] returns the original ones. *)
Definition turn (a : R) (p : R * R) : R * R := (cos a * fst p - sin a * snd p, sin a * fst p + cos a * snd p).
Definition back_y (a y' z' : R) : R := cos a * y' + sin a * z'.
Definition back_z (a y' z' : R) : R := cos a * z' - sin a * y'.
Definition turned (a : R) (s : surface) : surface :=
  {| sf_ext := map (turn a) (sf_ext s); sf_ints := map (map (turn a)) (sf_ints s); sf_law := sf_law s |}.

(** The law's output at (e0, e1) is the field f: the law leaves the strain
    alone and its ranges and coefficients reproduce f(e0 + e1 z), up to finitely
    many strains, with ranges that do not overlap (see C08). *)
Definition field_of (out : R * marin_out) (f : R -> R) (e0 e1 : R) : Prop :=
  fst out = e0 /\
  match fst (snd out) with
  | None => describes (fun _ => True) f e0 e1 (snd out)
  | Some rs => 0 < e1 /\ tidy rs /\ exists bad, describes (fun e => ~ In e bad) f e0 e1 (snd out)
  end.
Definition ask (what : integrand) (l : law) (s : R * R) : R * marin_out :=
  match what with IModulus => lw_marin_tangent l s | _ => lw_marin l s end.
(** Number of bars carrying law number k. *)
Definition count_law (k : nat) (bs : list bar) : nat := length (filter (fun b => (br_law b =? k)%nat) bs).

(** Bars of a section as material fibres. *)
Definition bar_fibres (laws : nat -> law) (g : compound) : list mfibre :=
  map (fun b => mfibre_at (laws (br_law b)) (br_y b) (br_z b) (br_area b)) (cg_bars g).
(** Surface integrals of a field of the strain, weighted by a function of the
    original coordinates, computed in axes turned by a. *)
Definition surfaces_turned (fs : nat -> R -> R) (wt : R -> R -> R) (a e0 ky kz : R) (ss : list surface) : R :=
  lsum (map (fun s => surface_integral (fun y' z' =>
     fs (sf_law s) (plane_strain e0 ky kz (back_y a y' z') (back_z a y' z')) * wt (back_y a y' z') (back_z a y' z'))
     (turned a s)) ss).
(** Weights of N, My, Mz. *)
Definition arm (i : nat) (y z : R) : R := match i with 0%nat => 1 | 1%nat => z | _ => - y end.

(** Stress-strain curves without the snapping of strains to the limits. *)
Definition ep_curve (E fy Eh u e : R) : R :=
  if Rlt_dec u (Rabs e) then 0 else if Rle_dec (Rabs e) (fy / E) then E * e
  else if Rle_dec 0 e then fy + Eh * (e - fy / E) else - (fy + Eh * (- e - fy / E)).
Definition ep_slope (E fy Eh u e : R) : R :=
  if Rlt_dec u (Rabs e) then 0 else if Rle_dec (Rabs e) (fy / E) then E else Eh.
Definition pr_curve (fc p u e : R) : R :=
  if Rlt_dec 0 e then 0 else if Rle_dec (- p) e then - fc * (1 - (1 + e / p) ^ 2)
  else if Rle_dec (- u) e then - fc else 0.
Definition pr_slope (fc p u e : R) : R :=
  if Rlt_dec 0 e then 0 else if Rle_dec (- p) e then 2 * fc / p * (1 + e / p) else 0.
