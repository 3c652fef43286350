(** Vocabulary for the default Marin form of a compression law. *)
From Verif Require Import Base S_Laws.

(** [f] is the polygon through the values of [s] at the eleven strains
    0, u/10, 2u/10, ..., u (u < 0), and zero outside [u, 0]. *)
Definition polygon_at_tenths (u : R) (s f : R -> R) : Prop :=
  (forall e, e < u \/ 0 < e -> f e = 0) /\
  (forall k, (k < 10)%nat -> forall w, 0 <= w <= 1 ->
     f (u * ((INR k + w) / 10)) = (1 - w) * s (u * (INR k / 10)) + w * s (u * (INR (S k) / 10))).
(** [t] is the slope of that polygon: between neighbouring nodes the difference
    quotient of [s], zero outside. *)
Definition slope_at_tenths (u : R) (s t : R -> R) : Prop :=
  (forall e, e < u \/ 0 < e -> t e = 0) /\
  (forall k, (k < 10)%nat -> forall w, 0 < w < 1 ->
     t (u * ((INR k + w) / 10)) = (s (u * (INR (S k) / 10)) - s (u * (INR k / 10))) / (u / 10)).
(** A tenth of u. *)
Definition tenth_of (u e : R) : Prop := exists k, (k <= 10)%nat /\ e = u * (INR k / 10).

(** [f] is the straight line between the values of [s] at [a] and [b]. *)
Definition joins (s f : R -> R) (a b : R) : Prop :=
  forall w, 0 <= w <= 1 -> f (a + w * (b - a)) = (1 - w) * s a + w * s b.
(** [f] is the polygon through the values of [s] at the tenths of [lo] and the ninths of [hi], and zero outside. *)
Definition polygon_both (lo hi : R) (s f : R -> R) : Prop :=
  (forall e, e < lo \/ hi < e -> f e = 0) /\
  (forall k, (k < 10)%nat -> joins s f (lo * (INR k / 10)) (lo * (INR (S k) / 10))) /\
  (forall k, (k < 9)%nat -> joins s f (hi * (INR k / 9)) (hi * (INR (S k) / 9))).
(** [t] is the slope of that polygon between its nodes, and zero outside. *)
Definition slope_between (s t : R -> R) (a b : R) : Prop :=
  forall w, 0 < w < 1 -> t (a + w * (b - a)) = (s b - s a) / (b - a).
Definition slope_both (lo hi : R) (s t : R -> R) : Prop :=
  (forall e, e < lo \/ hi < e -> t e = 0) /\
  (forall k, (k < 10)%nat -> slope_between s t (lo * (INR k / 10)) (lo * (INR (S k) / 10))) /\
  (forall k, (k < 9)%nat -> slope_between s t (hi * (INR k / 9)) (hi * (INR (S k) / 9))).
(** A ninth of u. *)
Definition ninth_of (u e : R) : Prop := exists k, (k <= 9)%nat /\ e = u * (INR k / 9).
