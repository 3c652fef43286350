(** Independent specification of area moments of polygons: Riemann integrals
    only (Coquelicot), no binomials. *)
From Coquelicot Require Import Coquelicot.
From Verif Require Import Base.

(** Consecutive pairs of a vertex list. *)
Fixpoint edges (l : list (R * R)) : list ((R * R) * (R * R)) :=
  match l with
  | p :: ((q :: _) as tl) => (p, q) :: edges tl
  | _ => []
  end.

(** Point at parameter t of the segment from p to q. *)
Definition seg (p q : R * R) (t : R) : R * R :=
  ((1 - t) * fst p + t * fst q, (1 - t) * snd p + t * snd q).

Definition cross (p q : R * R) : R := fst p * snd q - fst q * snd p.

(** Integral of y^m z^n over the oriented triangle (O, p, q), in the polar-type
    parametrisation (r, t) |-> r * seg p q t, with 0 <= r, t <= 1, whose
    Jacobian determinant is r * cross p q. *)
Definition triangle_moment (m n : nat) (p q : R * R) : R :=
  RInt (fun t => RInt (fun r => (r * fst (seg p q t)) ^ m * (r * snd (seg p q t)) ^ n
                                 * (r * cross p q)) 0 1) 0 1.

(** Signed area moment of a ring: sum over the fan of oriented triangles. *)
Definition fan_moment (m n : nat) (ring : list (R * R)) : R :=
  lsum (map (fun e => triangle_moment m n (fst e) (snd e)) (edges ring)).

(** Green's theorem form: the boundary integral of y^(m+1)/(m+1) * z^n dz. *)
Definition green_moment (m n : nat) (ring : list (R * R)) : R :=
  lsum (map (fun e =>
    RInt (fun t => fst (seg (fst e) (snd e) t) ^ (m + 1) / INR (m + 1)
                   * snd (seg (fst e) (snd e) t) ^ n * (snd (snd e) - snd (fst e))) 0 1)
    (edges ring)).

(** A ring is closed when its last vertex is its first. *)
Definition closed (ring : list (R * R)) : Prop :=
  match ring with [] => True | p :: _ => last ring p = p end.

(** Shoelace area. *)
Definition shoelace (ring : list (R * R)) : R :=
  lsum (map (fun e => cross (fst e) (snd e) / 2) (edges ring)).

(** Genuine iterated integral over the trapezoid
    { (y,z) : za <= z <= zb, lo(z) <= y <= hi(z) } with affine sides. *)
Definition trapezoid_integral (m n : nat) (lo hi : R -> R) (za zb : R) : R :=
  RInt (fun z => RInt (fun y => y ^ m * z ^ n) (lo z) (hi z)) za zb.

(** Linear map (y, z) |-> (a y + b z, c y + d z) and translation. *)
Definition lin (a b c d : R) (v : R * R) : R * R :=
  (a * fst v + b * snd v, c * fst v + d * snd v).
Definition shift (u v : R) (p : R * R) : R * R := (fst p + u, snd p + v).

(** Closed vertex list of the trapezoid with sides lo, hi between za and zb
    (counter-clockwise when lo <= hi and za <= zb). *)
Definition trapezoid_ring (lo hi : R -> R) (za zb : R) : list (R * R) :=
  [(lo za, za); (hi za, za); (hi zb, zb); (lo zb, zb); (lo za, za)].

Definition affine (f : R -> R) : Prop := exists a b, forall x, f x = a + b * x.
