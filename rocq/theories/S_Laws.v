(** Independent vocabulary for stating properties of constitutive laws. *)
From Coquelicot Require Import Coquelicot.
From Verif Require Import Base.

(** The documented closeness tolerance of numpy.isclose with atol = 1e-6,
    rtol = 1e-5 around a limit. *)
Definition tol (lim : R) : R := / 1000000 + / 100000 * Rabs lim.
Definition near (lim eps : R) : Prop := Rabs (eps - lim) <= tol lim.
Definition far (lim eps : R) : Prop := tol lim < Rabs (eps - lim).

(** Lower and upper limit are not within tolerance of each other. *)
Definition separated (lim : R * R) : Prop := far (fst lim) (snd lim).

(** Value of a polynomial given by its coefficient list, lowest degree first. *)
Fixpoint poly (c : list R) (y : R) : R :=
  match c with [] => 0 | a :: c' => a + y * poly c' y end.

(** A pair (ranges, coefficients) describes the stress [f (e0 + e1 y)] along a
    linear strain field for all strains satisfying [ok]:
    - without ranges, the single polynomial is the stress at every ordinate;
    - with ranges, in each range the corresponding polynomial is the stress, and
      strains outside all ranges carry no stress. *)
Definition describes (ok : R -> Prop) (f : R -> R) (e0 e1 : R)
    (out : option (list (R * R)) * list (list R)) : Prop :=
  match fst out with
  | None => exists c, snd out = [c] /\ forall y, ok (e0 + e1 * y) -> poly c y = f (e0 + e1 * y)
  | Some rs =>
      length rs = length (snd out) /\
      forall y, ok (e0 + e1 * y) ->
        (forall r c, In (r, c) (combine rs (snd out)) ->
           fst r <= e0 + e1 * y <= snd r -> poly c y = f (e0 + e1 * y)) /\
        ((forall r, In r rs -> ~ (fst r <= e0 + e1 * y <= snd r)) -> f (e0 + e1 * y) = 0)
  end.

(** A strain that snapping leaves alone: either clear of both limits, or exactly
    one of the (separated) limits. *)
Definition settled (lim : R * R) (eps : R) : Prop :=
  (far (fst lim) eps /\ far (snd lim) eps) \/ eps = snd lim \/ (eps = fst lim /\ far (snd lim) (fst lim)).
