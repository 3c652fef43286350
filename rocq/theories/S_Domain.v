(** Independent specification for the interaction domains. *)
From Verif Require Import Base S_Fiber M_Fiber M_Section M_Domain.

(** Ordinate of the point (y, z) in axes turned by theta. *)
Definition turned (theta y z : R) : R := cos theta * z - sin theta * y.
(** Strain of a profile (axial strain, two curvatures) in a point. *)
Definition strain_in (p : R * R * R) (y z : R) : R := plane_strain (fst (fst p)) (snd (fst p)) (snd p) y z.
(** The same strain everywhere. *)
Definition uniform (p : R * R * R) (e : R) : Prop := forall y z, strain_in p y z = e.
(** Between two values, in either order. *)
Definition between (a b e : R) : Prop := Rmin a b <= e <= Rmax a b.
(** Logarithmic spacing needs end values of one sign, none closer to zero than
    1e-10 if the other one is zero. *)
Definition spaceable (ty : spacing) (a b : R) : Prop :=
  ty = Geometric -> 0 < a * b \/ (b = 0 /\ / 10 ^ 10 <= Rabs a) \/ (a = 0 /\ / 10 ^ 10 <= Rabs b).
(** Requested numbers, one per field. *)
Definition wanted (f : fields) : list Z := [fd_n1 f; fd_n2 f; fd_n3 f; fd_n4 f; fd_n5 f; fd_n6 f].
Definition sumZ (l : list Z) : Z := fold_right Z.add 0%Z l.

(** [q] is the whole number of profiles in [w] parts of 35 of the total. *)
Definition share (num w q : Z) : Prop := (35 * q <= num * w < 35 * q + 35)%Z.
(** [n] is the larger of the minimum and the number that satisfies [p]. *)
Definition larger_of (m : Z) (p : Z -> Prop) (n : Z) : Prop := exists q, p q /\ n = Z.max m q.

(** [m] is the ordinate (in axes turned by [theta]) of the lowest vertex of the surfaces. *)
Definition lowest (theta : R) (g : compound) (m : R) : Prop :=
  (forall s v, In s (cg_surf g) -> In v (sf_ext s) -> m <= turned theta (fst v) (snd v)) /\
  (exists s v, In s (cg_surf g) /\ In v (sf_ext s) /\ turned theta (fst v) (snd v) = m).
(** [e] is number [i] (from 0) of [n] values that run from [a] towards [b].
    Linear: [n] equal steps, of which the last is not taken.  Geometric: likewise with equal ratios; a zero end value is
    itself the last (first) of the values, the others run to (from) 1e-10.  Quadratic: quadratic in the distance from the
    last value, which is [b] itself. *)
Definition spaced (ty : spacing) (a b : R) (n i : nat) (e : R) : Prop :=
  match ty with
  | Linear => INR n * (e - a) = INR i * (b - a)
  | Geometric =>
      (0 < a * b -> e = a * Rpower (b / a) (INR i / INR n)) /\
      (a <> 0 -> b = 0 -> (S i = n -> e = 0) /\ ((S i < n)%nat -> e = a * Rpower (/ 10 ^ 10 / Rabs a) (INR i / (INR n - 1)))) /\
      (a = 0 -> b <> 0 -> (i = 0%nat -> e = 0) /\
         (forall j, i = S j -> 10 ^ 10 * e = b / Rabs b * Rpower (10 ^ 10 * Rabs b) (INR j / (INR n - 1)))) /\
      (a <> 0 \/ b <> 0)
  | Quadratic => (n = 1%nat -> e = b) /\ (e - b) * (INR n - 1) ^ 2 = (a - b) * (INR n - 1 - INR i) ^ 2
  | OtherSpacing => False
  end.
(** The strain is [e] in all points with ordinate [y0] (in axes turned by [theta]). *)
Definition has_at (theta : R) (p : R * R * R) (y0 e : R) : Prop := forall y z, turned theta y z = y0 -> strain_in p y z = e.
(** Where field [k] (1 to 6) starts in the list of all profiles and how many it has. *)
Definition field_start (f : fields) (k : nat) : nat := Z.to_nat (sumZ (firstn (k - 1) (wanted f))).
Definition field_size (f : fields) (k : nat) : nat := Z.to_nat (nth (k - 1) (wanted f) 0%Z).
(** Every profile of field [k] (number [i] of the field) satisfies [P] with some strain [e]. *)
Definition in_field (f : fields) (ps : list (R * R * R)) (nums : list nat) (k : nat) (P : nat -> R * R * R -> R -> Prop) : Prop :=
  forall i, (i < field_size f k)%nat -> exists p e,
    nth_error ps (field_start f k + i) = Some p /\ nth_error nums (field_start f k + i) = Some k /\ P i p e.
(** Angle number [i] of [n] that go round once, both ends included. *)
Definition round_angle (n i : nat) (a : R) : Prop := (n = 1%nat -> a = 0) /\ a * (INR n - 1) = 2 * PI * INR i.
