(** Model of geometry/_reinforcement.py (bars along lines and circles) and of
    geometry/_circular.py.  Arguments are Python floats and ints; coordinates
    become numpy floats inside add_reinforcement_line, so there a division by
    zero gives nan or inf instead of an exception. *)
From Verif Require Import Base M_Marin M_Laws M_Laws2 M_Fiber M_MarinInt M_Geo.
From Coq Require Import String ZArith.
Open Scope R_scope.
Open Scope list_scope.

(** geometry/_reinforcement.py:113-117, coordinates of a bar: real, or not a number. *)
Inductive spot := At (p : R * R) | NotANumber.

(** Python's math.floor (geometry/_reinforcement.py:101, 216). *)
Definition floorZ (x : R) : Z := Int_part x.
(** geometry/_reinforcement.py:108-112, 237-241: which of the n bars are placed. *)
Definition placed (n : Z) (first last : bool) (i : nat) : bool :=
  if ((Z.of_nat i =? 0)%Z && negb first)%bool then false
  else if ((Z.of_nat i =? n - 1)%Z && negb last)%bool then false else true.
(** Python's range(n) (geometry/_reinforcement.py:108, 237). *)
Definition range (n : Z) : list nat := seq 0 (Z.to_nat n).

(** numpy's norm of a difference (geometry/_reinforcement.py:83). *)
Definition norm2 (p q : R * R) : R := sqrt ((fst q - fst p) ^ 2 + (snd q - snd p) ^ 2).
(** geometry/_reinforcement.py:81-113 [add_reinforcement_line]: positions of the bars in order of
    addition.  A zero distance makes the direction nan; n = 1 without s makes s
    infinite and the only coordinate nan. *)
Definition line_spots (pi pj : R * R) (n : Z) (s : R) (first last : bool) : result (list spot) :=
  let distance := norm2 pi pj in
  let v := ((fst pj - fst pi) / distance, (snd pj - snd pi) / distance) in
  let emit (p1 : R * R) (n : Z) (s : R) (finite : bool) :=
    Ok (map (fun i => if (finite && negb (Reqb distance 0))%bool
                      then At (fst p1 + fst v * s * INR i, snd p1 + snd v * s * INR i) else NotANumber)
            (filter (placed n first last) (range n))) in
  let centre d := (fst pi + fst v * (distance - d) / 2, snd pi + snd v * (distance - d) / 2) in
  if ((0 <? n)%Z && Rltb 0 s)%bool then
    let d := IZR (n - 1) * s in
    if Rltb distance d then Err ValueError else emit (centre d) n s true
  else if (0 <? n)%Z then emit pi n (distance / IZR (n - 1)) (negb (n =? 1)%Z)
  else if Rltb 0 s then
    let n := (floorZ (distance / s) + 1)%Z in
    emit (centre (IZR (n - 1) * s)) n s true
  else Err ValueError.

(** numpy's linspace(a, b, n) (geometry/_reinforcement.py:226-228): n <= 0 gives nothing (negative: ValueError), one point is a. *)
Definition linspace (a b : R) (n : Z) : result (list R) :=
  if (n <? 0)%Z then Err ValueError
  else Ok (map (fun i => if (n =? 1)%Z then a else a + INR i * ((b - a) / IZR (n - 1))) (range n)).
(** Python's math.isclose (geometry/_reinforcement.py:189) with relative and absolute tolerance. *)
Definition math_isclose (a b rel abs : R) : bool := Rleb (Rabs (a - b)) (Rmax (rel * Rmax (Rabs a) (Rabs b)) abs).
(** geometry/_reinforcement.py:178-241 [add_reinforcement_circle]: positions. *)
Definition circle_spots (center : R * R) (radius : R) (n : Z) (s : R) (first last : bool) (start stop : R) : result (list (R * R)) :=
  if (Rleb (stop - start) 0 || Rltb (2 * PI) (stop - start))%bool then Err ValueError else
  let length := radius * (stop - start) in
  let whole := math_isclose (length - 2 * PI * radius) 0 (/ 10 ^ 9) (/ 10 ^ 4) in
  let add_n := if whole then 1%Z else 0%Z in
  do ndw <-
    (if ((0 <? n)%Z && Rltb 0 s)%bool then
       let n := (n + add_n)%Z in
       let needed := IZR (n - 1) * s in
       if Rltb length needed then Err ValueError
       else if Reqb radius 0 then Err ZeroDivisionError
       else Ok (n, (length - needed) / 2 / radius, whole)
     else if (0 <? n)%Z then
       if (n =? 1)%Z then Err ZeroDivisionError else Ok ((n + add_n)%Z, 0, whole)
     else if Rltb 0 s then
       let n := (floorZ (length / s) + 1)%Z in
       let needed := IZR (n - 1) * s in
       if Reqb radius 0 then Err ZeroDivisionError
       else Ok (n, (length - needed) / 2 / radius, false)
     else Err ValueError);
  let '(n, delta, whole) := ndw in
  do phi <- linspace (start + delta) (stop - delta) n;
  let n' := if whole then (n - 1)%Z else n in
  let phi := if whole then removelast phi else phi in
  Ok (map (fun i => let a := nth i phi 0 in (fst center + radius * cos a, snd center + radius * sin a))
          (filter (placed n' first last) (range n'))).

(** geometry/_reinforcement.py:14-39 (add_reinforcement) and the loops 108-121, 237-249: bars are added one after the other; each is a new
    PointGeometry without a name. *)
Fixpoint add_bars (g : part) (l : list (R * R)) (d : R) (m : material) (label : option string) (c : nat) : part * nat :=
  match l with
  | [] => (g, c)
  | p :: l' => let '(b, c) := new_pnt p d m None label c in add_bars (PComp (add_part g (PPnt b))) l' d m label c
  end.
(** geometry/_reinforcement.py:113-121, a geometry with bars at real coordinates, or one containing nan bars. *)
Inductive layout := Bars (g : part) (c : nat) | NanBars.
(** geometry/_reinforcement.py:113-117: whether every bar has real coordinates. *)
Fixpoint all_real (l : list spot) : option (list (R * R)) :=
  match l with
  | [] => Some []
  | At p :: l' => match all_real l' with Some r => Some (p :: r) | None => None end
  | NotANumber :: _ => None
  end.
(** geometry/_reinforcement.py:42-121 [add_reinforcement_line]. *)
Definition add_reinforcement_line (g : part) (pi pj : R * R) (d : R) (m : material) (n : Z) (s : R) (first last : bool)
    (label : option string) (c : nat) : result layout :=
  do l <- line_spots pi pj n s first last;
  Ok (match all_real l with Some ps => let '(g', c') := add_bars g ps d m label c in Bars g' c' | None => NanBars end).
(** geometry/_reinforcement.py:124-249 [add_reinforcement_circle]. *)
Definition add_reinforcement_circle (g : part) (center : R * R) (radius d : R) (m : material) (n : Z) (s : R) (first last : bool)
    (start stop : R) (label : option string) (c : nat) : result (part * nat) :=
  do ps <- circle_spots center radius n s first last start stop;
  Ok (add_bars g ps d m label c).

(** * geometry/_circular.py *)
(** geometry/_circular.py:23-29, Python's round(npoints / 4): nearest integer, ties to even. *)
Definition round_quarter (n : Z) : Z :=
  let q := (n / 4)%Z in
  match (n mod 4)%Z with
  | 0%Z | 1%Z => q
  | 2%Z => if Z.even q then q else (q + 1)%Z
  | _ => (q + 1)%Z
  end.
(** shapely's Point.buffer (geometry/_circular.py:19-29): a closed ring of 4*quad_segs vertices, clockwise from
    the east; values below one are taken as one by GEOS. *)
Definition circle_ring (o : R * R) (r : R) (k : nat) : list (R * R) :=
  map (fun i => (fst o + r * cos (2 * PI * INR i / INR k), snd o - r * sin (2 * PI * INR i / INR k))) (seq 0 k ++ [O]).
(** geometry/_circular.py:39-87 CircularGeometry.__init__. *)
Definition circle (diameter : R) (m : material) (n_points : Z) (concrete : bool) (origin : option (list R)) (name group : option string)
  : nat -> result (surf * nat) :=
  fun c =>
  if Rleb diameter 0 then Err ValueError else
  do o <- match origin with None => Ok (0, 0) | Some [a; b] => Ok (a, b) | Some _ => Err ValueError end;
  let quad := Z.to_nat (Z.max 1 (round_quarter n_points)) in
  Ok (new_surf {| pl_ext := circle_ring o (diameter / 2) (4 * quad); pl_ints := [] |} m concrete name group c).
