(** Independent specification for the concrete formulas: MC2010 Table 5.1-8 (one
    row per grade: eps_c1, eps_c,lim in 1/1000, k) and the contract of the
    interpolation over scattered points. *)
From Coq Require Import String.
From Verif Require Import Base S_Marin S_Calc.
Open Scope R_scope.
Open Scope list_scope.

Definition grades : list (R * (R * R * R)) :=
  [(12, (19, 35, 244)); (16, (20, 35, 236)); (20, (21, 35, 228)); (25, (22, 35, 215)); (30, (23, 35, 204)); (35, (23, 35, 192));
   (40, (24, 35, 182)); (45, (25, 35, 174)); (50, (26, 34, 166)); (55, (26, 34, 161)); (60, (27, 33, 155)); (70, (27, 32, 147));
   (80, (28, 31, 141)); (90, (29, 30, 136)); (100, (30, 30, 132)); (110, (30, 30, 124)); (120, (30, 30, 118))].
Definition peak_strains : list (R * R) := map (fun g => (fst g, - fst (fst (snd g)) / 10 / 1000)) grades.
Definition limit_strains : list (R * R) := map (fun g => (fst g, - snd (fst (snd g)) / 10 / 1000)) grades.
Definition plasticities : list (R * R) := map (fun g => (fst g, snd (snd g) / 100)) grades.

(** w are weights of a mean of the points of a data set. *)
Definition mean_of (l : list ((R * R) * R)) (w : list R) (p : R * R) (v : R) : Prop :=
  List.length w = List.length l /\ Forall (fun x => 0 <= x) w /\ lsum w = 1 /\
  lsum (map (fun '(a, d) => a * fst (fst d)) (combine w l)) = fst p /\ lsum (map (fun '(a, d) => a * snd (fst d)) (combine w l)) = snd p /\
  lsum (map (fun '(a, d) => a * snd d) (combine w l)) = v.
(** Linear interpolation over scattered data: a value at p exactly when p is in
    the convex hull of the points, then a mean of the data, and at a point of the
    data (all distinct) its own value. *)
Definition interpolates (gd : list ((R * R) * R) -> R * R -> option R) : Prop := forall l p,
  (forall v, gd l p = Some v -> exists w, mean_of l w p v) /\ (gd l p = None -> ~ exists w v, mean_of l w p v) /\
  (NoDup (map fst l) -> forall d, In d l -> gd l (fst d) = Some (snd d)).
(** EN 1992-1-1:2023 Tables 5.2 and 5.3, notional sizes 100, 200, 500, 1000 mm. *)
Definition sizes : list R := [100; 200; 500; 1000].
Inductive development := slow | normal | rapid.
Definition class_names (d : development) : list string :=
  match d with slow => ["CS"; "SLOW"] | normal => ["CN"; "NORMAL"] | rapid => ["CR"; "RAPID"] end%string.
Definition ages (d : development) : list R := match d with slow => [3; 10; 32; 91; 365] | normal => [1; 7; 28; 91; 365] | rapid => [1; 3; 23; 91; 365] end.
Definition creep_rows (dry : bool) : list (list R) :=
  if dry then [[42; 38; 34; 31]; [31; 28; 25; 23]; [24; 22; 19; 18]; [19; 17; 15; 14]; [14; 13; 11; 10]]
  else [[30; 28; 26; 25]; [22; 21; 20; 19]; [17; 16; 16; 15]; [14; 13; 12; 12]; [10; 9; 9; 8]].
Definition strengths (d : development) : list R := match d with slow => [20; 35; 50] | normal => [20; 35; 50; 80] | rapid => [35; 50; 80] end.
Definition shrinkage_rows (dry : bool) (d : development) : list (list R) :=
  if dry then match d with
    | slow => [[57; 56; 48; 36]; [53; 51; 45; 35]; [49; 48; 43; 35]]
    | normal => [[67; 65; 56; 41]; [60; 59; 51; 39]; [55; 54; 48; 37]; [48; 48; 43; 36]]
    | rapid => [[76; 74; 65; 48]; [67; 66; 58; 44]; [55; 54; 49; 39]]
    end
  else match d with
    | slow => [[33; 32; 28; 21]; [31; 31; 27; 22]; [30; 29; 27; 23]]
    | normal => [[38; 37; 32; 24]; [34; 34; 30; 24]; [31; 31; 28; 23]; [30; 30; 28; 25]]
    | rapid => [[42; 41; 36; 28]; [36; 35; 32; 26]; [31; 30; 28; 25]]
    end.
(** The entry of a table at row key x and size y, in the given unit. *)
Definition entry (keys : list R) (rows : list (list R)) (unit x y v : R) : Prop :=
  exists i j row n, nth_error keys i = Some x /\ nth_error rows i = Some row /\ nth_error sizes j = Some y /\ nth_error row j = Some n /\ v = n / unit.
