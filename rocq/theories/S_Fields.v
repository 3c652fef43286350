(** Independent specification: the stress-strain curve behind the exact integrator (C57). *)
From Coquelicot Require Import Coquelicot.
From Verif Require Import Base M_Laws M_Laws2 S_Laws S_Laws2 M_Fiber S_Fiber M_MarinInt S_MarinInt.

(** [t] is the slope of the curve [f], except at finitely many strains. *)
Definition slope_of (f t : R -> R) : Prop := exists bad, forall e : R, ~ In e bad -> is_derive f e (t e).
(** Whatever the strains over the section (axial strain e0, slope r >= 0; a uniform
    strain is assumed to satisfy [ok]), the law's coefficients for the exact integrator
    are those of the curve [f] for the stress and of [t] for the modulus. *)
Definition represented (l : law) (ok : R -> Prop) (f t : R -> R) : Prop := forall e0 r, 0 <= r -> (r = 0 -> ok e0) ->
  field_of (lw_marin l (e0, r)) f e0 r /\ field_of (lw_marin_tangent l (e0, r)) t e0 r.
(** The curve is the law's own stress, wherever [ok]. *)
Definition own_curve (l : law) (ok : R -> Prop) (f : R -> R) : Prop := forall e, ok e -> lw_stress l e = f e.
(** The law answers with ranges when the strain varies. *)
Definition in_pieces (l : law) : Prop := forall e0 r, 0 < r ->
  (exists rs q, fst (snd (lw_marin l (e0, r))) = Some rs /\ In q rs /\ fst q < snd q) /\
  (exists rs q, fst (snd (lw_marin_tangent l (e0, r))) = Some rs /\ In q rs /\ fst q < snd q).
(** The law answers without ranges. *)
Definition in_one (l : law) : Prop := forall e0 r,
  fst (snd (lw_marin l (e0, r))) = None /\ fst (snd (lw_marin_tangent l (e0, r))) = None.

(** BilinearCompression: line to -fc at -p, plateau to -u, nothing in tension or beyond. *)
Definition bil_curve (fc p u e : R) : R :=
  if Rlt_dec 0 e then 0 else if Rle_dec (- p) e then fc / p * e else if Rle_dec (- u) e then - fc else 0.
(** UserDefined: straight lines between the points; beyond them, out to a hundred times
    the last strain, as the flag says; nothing farther out. *)
Definition data_curve (flag : nat) (xs ys : list R) (f : R -> R) : Prop :=
  (forall i e, (S i < length xs)%nat -> nth i xs 0 <= e <= nth (S i) xs 0 -> f e = chord xs ys i e) /\
  (forall e, last xs 0 < e <= 100 * last xs 0 -> f e = beyond_right flag xs ys e) /\
  (forall e, 100 * nth 0 xs 0 <= e < nth 0 xs 0 -> f e = beyond_left flag xs ys e) /\
  (forall e, e < 100 * nth 0 xs 0 \/ 100 * last xs 0 < e -> f e = 0).
