(** Independent specification for EC2:2004 crack control: the tables of the code and
    the contract of the interpolation over scattered points with gaps. *)
From Coq Require Import String.
From Verif Require Import Base S_Marin S_Calc S_Conc.
Open Scope R_scope.
Open Scope list_scope.

(** Table 7.1N. *)
Inductive exposure := very_dry | carbonation | chlorides.
Definition exposure_names (e : exposure) : list string :=
  match e with very_dry => ["X0"; "XC1"] | carbonation => ["XC2"; "XC3"; "XC4"] | chlorides => ["XD1"; "XD2"; "XS1"; "XS2"; "XS3"] end%string.
Definition is_class (e : exposure) (s : string) : Prop := exists w, In w (exposure_names e) /\ written w s.
Definition frequent_width (e : exposure) : option R := match e with chlorides => None | _ => Some (2 / 10) end.
Definition permanent_width (e : exposure) : R := match e with very_dry => 4 / 10 | _ => 3 / 10 end.

(** The data of a table with gaps. *)
Definition present (l : list ((R * R) * option R)) : list ((R * R) * R) :=
  flat_map (fun d => match snd d with Some v => [(fst d, v)] | None => [] end) l.
(** Linear interpolation over data with gaps: a value, if there is one, is a mean of
    the data that are present, and at a point of the data its own value. *)
Definition interpolates_gaps (gd : list ((R * R) * option R) -> R * R -> option R) : Prop := forall l p v, gd l p = Some v ->
  (exists w, mean_of (present l) w p v) /\ (NoDup (map fst l) -> forall u, In (p, u) l -> u = Some v).
(** Tables 7.2N and 7.3N: steel stress, crack width, largest diameter or spacing. *)
Definition widths : list R := [4 / 10; 3 / 10; 2 / 10].
Definition largest_bar : list (R * list R) :=
  [(160, [40; 32; 25]); (200, [32; 25; 16]); (240, [20; 16; 12]); (280, [16; 12; 8]); (320, [12; 10; 6]); (360, [10; 8; 5]); (400, [8; 6; 4]); (450, [6; 5])].
Definition largest_spacing : list (R * list R) :=
  [(160, [300; 300; 200]); (200, [300; 250; 150]); (240, [250; 200; 100]); (280, [200; 150; 50]); (320, [150; 100]); (360, [100; 50])].
Definition tabulated (t : list (R * list R)) (s w v : R) : Prop := exists row j, In (s, row) t /\ nth_error widths j = Some w /\ nth_error row j = Some v.
(** What As_min_2 multiplies the tabulated diameter by. *)
Definition bar_factor (fct_eff h_cr h d : R) (kc : option R) : R :=
  match kc with Some k => fct_eff / (29 / 10) * (k * h_cr) / (2 * (h - d)) | None => fct_eff / (29 / 10) * h_cr / (8 * (h - d)) end.
(** Arguments of the minimum reinforcement formulas within the scope of the code. *)
Definition in_scope (A_ct sigma_s k kc : R) : Prop := 0 < A_ct /\ 0 <= sigma_s /\ 65 / 100 <= k <= 1 /\ 0 <= kc <= 1.
