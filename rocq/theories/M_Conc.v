(** Model of the concrete material formulas: codes/mc2010/_concrete_material_properties.py
    (prefix mc_), codes/ec2_2004/_concrete_material_properties.py (ec_) and
    codes/ec2_2023/_section5_materials.py (e3_). *)
From Coq Require Import String.
From Verif Require Import Base M_Registry M_Calc.
Open Scope R_scope.
Open Scope list_scope.

(** * MC2010 *)
(** codes/mc2010/_concrete_material_properties.py:12-17, 19-26 *)
Definition mc_alpha_e : list (string * R) := [("basalt", 12 / 10); ("quartzite", 1); ("limestone", 9 / 10); ("sandstone", 7 / 10)]%string.
(** codes/mc2010/_concrete_material_properties.py:19-26 [S_CEM]. *)
Definition mc_s_cem : list (string * R) :=
  [("32.5 R", 25 / 100); ("42.5 N", 25 / 100); ("42.5 R", 20 / 100); ("52.5 N", 20 / 100); ("52.5 R", 20 / 100); ("32.5 N", 38 / 100)]%string.
(** codes/mc2010/_concrete_material_properties.py:29-45 *)
Definition mc_fcm (fck delta_f : R) : R := Rabs fck + Rabs delta_f.
(** codes/mc2010/_concrete_material_properties.py:48-62 *)
Definition mc_fctm (fck : R) : R :=
  if Rleb (Rabs fck) 50 then 3 / 10 * pw (Rabs fck) (2 / 3) else 212 / 100 * ln (1 + 1 / 10 * mc_fcm fck 8).
(** codes/mc2010/_concrete_material_properties.py:65-92 *)
Definition mc_fctkmin (fctm : R) : R := 7 / 10 * fctm.
(** codes/mc2010/_concrete_material_properties.py:80-92 [fctkmax]. *)
Definition mc_fctkmax (fctm : R) : R := 13 / 10 * fctm.
(** codes/mc2010/_concrete_material_properties.py:95-107 *)
Definition mc_Gf (fck : R) : R := 73 * pw (mc_fcm fck 8) (18 / 100).
(** codes/mc2010/_concrete_material_properties.py:110-135 *)
Definition mc_Eci (fcm : R) (agg : string) (EC0 : R) : result R :=
  do a <- dict_item mc_alpha_e (lower agg); Ok (EC0 * a * pw (fcm / 10) (1 / 3)).
(** codes/mc2010/_concrete_material_properties.py:138-162, one time *)
Definition mc_beta_cc (time fcm : R) (cem : string) : result R :=
  if Rltb 60 fcm then Ok (exp (20 / 100 * (1 - sqrt (28 / time))))
  else do s <- dict_item mc_s_cem (str_upper cem); Ok (exp (s * (1 - sqrt (28 / time)))).
(** codes/mc2010/_concrete_material_properties.py:165-198 *)
Definition mc_beta_e (beta_cc : R) : R := sqrt beta_cc.
(** codes/mc2010/_concrete_material_properties.py:181-198 [Eci_t]. *)
Definition mc_Eci_t (beta_e Eci : R) : R := beta_e * Eci.
(** codes/mc2010/_concrete_material_properties.py:201-218 *)
Definition mc_fcd (fck alpha_cc gamma_c : R) : R := Rabs alpha_cc * Rabs fck / Rabs gamma_c.
(** codes/mc2010/_concrete_material_properties.py:221-269, 272-315, 318-359: tables, fck checked against the first and
    the last grade. *)
Definition mc_eps_c1_table : list (R * R) :=
  [(12, -19 / 10); (16, -20 / 10); (20, -21 / 10); (25, -22 / 10); (30, -23 / 10); (35, -23 / 10); (40, -24 / 10); (45, -25 / 10); (50, -26 / 10);
   (55, -26 / 10); (60, -27 / 10); (70, -27 / 10); (80, -28 / 10); (90, -29 / 10); (100, -30 / 10); (110, -30 / 10); (120, -30 / 10)].
(** codes/mc2010/_concrete_material_properties.py:272-315 [eps_clim]. *)
Definition mc_eps_clim_table : list (R * R) :=
  [(12, -35 / 10); (16, -35 / 10); (20, -35 / 10); (25, -35 / 10); (30, -35 / 10); (35, -35 / 10); (40, -35 / 10); (45, -35 / 10); (50, -34 / 10);
   (55, -34 / 10); (60, -33 / 10); (70, -32 / 10); (80, -31 / 10); (90, -30 / 10); (100, -30 / 10); (110, -30 / 10); (120, -30 / 10)].
(** codes/mc2010/_concrete_material_properties.py:318-359 [k_sargin]: the table. *)
Definition mc_k_table : list (R * R) :=
  [(12, 244 / 100); (16, 236 / 100); (20, 228 / 100); (25, 215 / 100); (30, 204 / 100); (35, 192 / 100); (40, 182 / 100); (45, 174 / 100); (50, 166 / 100);
   (55, 161 / 100); (60, 155 / 100); (70, 147 / 100); (80, 141 / 100); (90, 136 / 100); (100, 132 / 100); (110, 124 / 100); (120, 118 / 100)].
(** codes/mc2010/_concrete_material_properties.py:260-269, 310-315, 354-359:
    range check of fck, then np.interp. *)
Definition graded (t : list (R * R)) (unit fck : R) : result R :=
  if orb (Rltb fck 12) (Rltb 120 fck) then Err ValueError else Ok (np_interp fck t / unit).
(** codes/mc2010/_concrete_material_properties.py:221-269 [eps_c1]. *)
Definition mc_eps_c1 : R -> result R := graded mc_eps_c1_table 1000.
(** codes/mc2010/_concrete_material_properties.py:272-315 [eps_clim]. *)
Definition mc_eps_clim : R -> result R := graded mc_eps_clim_table 1000.
(** codes/mc2010/_concrete_material_properties.py:318-359 [k_sargin]. *)
Definition mc_k_sargin : R -> result R := graded mc_k_table 1.
(** codes/mc2010/_concrete_material_properties.py:362-375 *)
Definition mc_eps_cu1 (fck : R) : result R := mc_eps_clim fck.
(** codes/mc2010/_concrete_material_properties.py:378-395 *)
Definition mc_eps_c2 (f : R) : R :=
  let fck := Rabs f in if Rleb fck 50 then 2 / 1000 else (2 + 85 / 1000 * pw (fck - 50) (53 / 100)) / 1000.
(** codes/mc2010/_concrete_material_properties.py:398-415 *)
Definition mc_eps_cu2 (f : R) : R :=
  let fck := Rabs f in if Rleb fck 50 then 35 / 10 / 1000 else (26 / 10 + 35 * ((90 - fck) / 100) ^ 4) / 1000.
(** codes/mc2010/_concrete_material_properties.py:418-431 *)
Definition mc_n (f : R) : R :=
  let fck := Rabs f in if Rleb fck 50 then 2 else 14 / 10 + 234 / 10 * ((90 - fck) / 100) ^ 4.
(** codes/mc2010/_concrete_material_properties.py:434-448 *)
Definition mc_eps_c3 (f : R) : R :=
  let fck := Rabs f in if Rleb fck 50 then 175 / 100 / 1000 else (175 / 100 + 55 / 100 * (fck - 50) / 40) / 1000.
(** codes/mc2010/_concrete_material_properties.py:451-463 *)
Definition mc_eps_cu3 (f : R) : R := mc_eps_cu2 f.

(** * EC2:2004 *)
(** codes/ec2_2004/_concrete_material_properties.py:20-36, 39-51, 54-65, 68-79 *)
Definition ec_fcm (fck delta_f : R) : R := mc_fcm (Rabs fck) (Rabs delta_f).
(** codes/ec2_2004/_concrete_material_properties.py:39-51 [fctm]. *)
Definition ec_fctm (fck : R) : R := mc_fctm (Rabs fck).
(** codes/ec2_2004/_concrete_material_properties.py:54-65 [fctk_5]. *)
Definition ec_fctk_5 (fctm : R) : R := mc_fctkmin (Rabs fctm).
(** codes/ec2_2004/_concrete_material_properties.py:68-79 [fctk_95]. *)
Definition ec_fctk_95 (fctm : R) : R := mc_fctkmax (Rabs fctm).
(** codes/ec2_2004/_concrete_material_properties.py:82-93 *)
Definition ec_Ecm (fcm : R) : R := 22000 * pw (Rabs fcm / 10) (3 / 10).
(** codes/ec2_2004/_concrete_material_properties.py:96-109 *)
Definition ec_eps_c1 (fcm : R) : R := Rmin (7 / 10 * pw (Rabs fcm) (31 / 100)) (28 / 10) / 1000.
(** codes/ec2_2004/_concrete_material_properties.py:112-129 *)
Definition ec_eps_cu1 (f : R) : R :=
  let fck := Rabs f in if Rltb fck 50 then 35 / 10 / 1000 else (28 / 10 + 27 * ((98 - ec_fcm fck 8) / 100) ^ 4) / 1000.
(** codes/ec2_2004/_concrete_material_properties.py:132-146 *)
Definition ec_k_sargin (Ecm fcm eps_c1 : R) : R := 105 / 100 * Ecm * Rabs eps_c1 / fcm.
(** codes/ec2_2004/_concrete_material_properties.py:149-234: the same text as MC2010 lines 378-463. *)
Definition ec_eps_c2 (f : R) : R :=
  let fck := Rabs f in if Rleb fck 50 then 2 / 1000 else (2 + 85 / 1000 * pw (fck - 50) (53 / 100)) / 1000.
(** codes/ec2_2004/_concrete_material_properties.py:169-186 [eps_cu2]. *)
Definition ec_eps_cu2 (f : R) : R :=
  let fck := Rabs f in if Rleb fck 50 then 35 / 10 / 1000 else (26 / 10 + 35 * ((90 - fck) / 100) ^ 4) / 1000.
(** codes/ec2_2004/_concrete_material_properties.py:189-202 [n_parabolic_rectangular]. *)
Definition ec_n (f : R) : R :=
  let fck := Rabs f in if Rleb fck 50 then 2 else 14 / 10 + 234 / 10 * ((90 - fck) / 100) ^ 4.
(** codes/ec2_2004/_concrete_material_properties.py:205-219 [eps_c3]. *)
Definition ec_eps_c3 (f : R) : R :=
  let fck := Rabs f in if Rleb fck 50 then 175 / 100 / 1000 else (175 / 100 + 55 / 100 * (fck - 50) / 40) / 1000.
(** codes/ec2_2004/_concrete_material_properties.py:222-234 [eps_cu3]. *)
Definition ec_eps_cu3 (f : R) : R := ec_eps_cu2 f.
(** codes/ec2_2004/_concrete_material_properties.py:237-251 *)
Definition ec_fcd (fck alpha_cc gamma_c : R) : R := Rabs alpha_cc * Rabs fck / Rabs gamma_c.
(** codes/ec2_2004/_concrete_material_properties.py:254-269, one time *)
Definition ec_beta_cc (t s : R) : R := exp (s * (1 - sqrt (28 / t))).
(** codes/ec2_2004/_concrete_material_properties.py:272-295: a number, and a list of numbers. *)
Definition ec_beta_ct (t s : R) : R := let beta := ec_beta_cc t s in if Rltb t 28 then beta else pw beta (2 / 3).
(** codes/ec2_2004/_concrete_material_properties.py:272-295 [beta_ct] on an array. *)
Definition ec_beta_ct_array (ts : list R) (s : R) : list R :=
  let beta := map (fun t => ec_beta_cc t s) ts in
  masked (map (fun t => Rleb 28 t) ts) (map (fun b => pw b (2 / 3)) beta) beta.
(** codes/ec2_2004/_concrete_material_properties.py:298-313 *)
Definition ec_beta_E (t s : R) : R := pw (ec_beta_cc t s) (3 / 10).
(** codes/ec2_2004/_concrete_material_properties.py:13-17, 316-344 *)
Definition ec_s_dict : list (string * R) := [("R", 20 / 100); ("N", 25 / 100); ("S", 38 / 100)]%string.
(** codes/ec2_2004/_concrete_material_properties.py:316-344 [s_time_development]. *)
Definition ec_s_time_development (cement_class : option string) : result R :=
  let c := match cement_class with Some c => str_strip (str_upper c) | None => ""%string end in
  match dict_get ec_s_dict c with Some s => Ok s | None => Err ValueError end.
(** codes/ec2_2004/_concrete_material_properties.py:347-406 *)
Definition ec_fcm_time (fcm beta_cc : R) : R := fcm * beta_cc.
(** codes/ec2_2004/_concrete_material_properties.py:365-384 [fctm_time]. *)
Definition ec_fctm_time (fctm beta_cc alpha : R) : R := pw beta_cc alpha * fctm.
(** codes/ec2_2004/_concrete_material_properties.py:387-406 [Ecm_time]. *)
Definition ec_Ecm_time (fcm fcm_time Ecm : R) : R := pw (fcm_time / fcm) (3 / 10) * Ecm.

(** * EC2:2023 *)
(** codes/ec2_2023/_section5_materials.py:29-89 *)
Definition e3_fcm (fck delta_f : R) : R := mc_fcm fck delta_f.
(** codes/ec2_2023/_section5_materials.py:47-61 [fctm]. *)
Definition e3_fctm (fck : R) : R := if Rleb (Rabs fck) 50 then 3 / 10 * pw (Rabs fck) (2 / 3) else 11 / 10 * pw (Rabs fck) (1 / 3).
(** codes/ec2_2023/_section5_materials.py:64-75 [fctk_5]. *)
Definition e3_fctk_5 (fctm : R) : R := Rabs fctm * (7 / 10).
(** codes/ec2_2023/_section5_materials.py:78-89 [fctk_95]. *)
Definition e3_fctk_95 (fctm : R) : R := Rabs fctm * (13 / 10).
(** codes/ec2_2023/_section5_materials.py:92-118 *)
Definition e3_Ecm (fcm kE : R) : result R :=
  if Rltb fcm 0 then Err ValueError else if Rltb kE 5000 then Err ValueError else if Rltb 13000 kE then Err ValueError else Ok (kE * pw fcm (1 / 3)).
(** codes/ec2_2023/_section5_materials.py:121-142 *)
Definition e3_hn (Ac u : R) : result R := if Rltb Ac 0 then Err ValueError else if Rltb u 0 then Err ValueError else pdiv (2 * Ac) u.
(** codes/ec2_2023/_section5_materials.py:145-182; scipy interp1d inside its range is linear interpolation. *)
Definition e3_A_phi_dry : list (R * R) := [(100, 82 / 100); (200, 79 / 100); (500, 75 / 100); (1000, 72 / 100)].
(** codes/ec2_2023/_section5_materials.py:173-175: the values in humid conditions. *)
Definition e3_A_phi_humid : list (R * R) := [(100, 71 / 100); (200, 68 / 100); (500, 66 / 100); (1000, 64 / 100)].
(** codes/ec2_2023/_section5_materials.py:145-182 [A_phi_correction_exp]. *)
Definition e3_A_phi (hn : R) (atm : string) : result R :=
  if Rltb hn 100 then Err ValueError else if Rltb 1000 hn then Err ValueError else
  let atm := str_strip (lower atm) in
  if String.eqb atm "dry" then Ok (np_interp hn e3_A_phi_dry)
  else if String.eqb atm "humid" then Ok (np_interp hn e3_A_phi_humid) else Err ValueError.
(** codes/ec2_2023/_section5_materials.py:185-210 *)
Definition e3_phi_correction (fck A : R) : result R :=
  if Rltb fck 12 then Err ValueError else if Rltb 100 fck then Err ValueError else
  if Rltb A (64 / 100) then Err ValueError else if Rltb (82 / 100) A then Err ValueError else Ok (pw (35 / fck) A).
(** codes/ec2_2023/_section5_materials.py:11, 213-328, 331-507: tables over a grid; scipy griddata is a parameter,
    None standing for nan. *)
Definition gridder : Type := list ((R * R) * R) -> R * R -> option R.
(** codes/ec2_2023/_section5_materials.py:319, 498: np.meshgrid(...).T.reshape(-1, 2). *)
Definition grid (xs ys : list R) (vs : list R) : list ((R * R) * R) := combine (list_prod xs ys) vs.
(** codes/ec2_2023/_section5_materials.py:11 [VALID_STRENGTH_DEV_CLASSES]. *)
Definition e3_classes : list string := ["CS"; "CN"; "CR"; "SLOW"; "NORMAL"; "RAPID"]%string.
(** codes/ec2_2023/_section5_materials.py:270, 396. *)
Definition e3_h : list R := [100; 200; 500; 1000].
(** codes/ec2_2023/_section5_materials.py:273-294. *)
Definition e3_phi_dry : list R :=
  [42 / 10; 38 / 10; 34 / 10; 31 / 10; 31 / 10; 28 / 10; 25 / 10; 23 / 10; 24 / 10; 22 / 10; 19 / 10; 18 / 10; 19 / 10; 17 / 10; 15 / 10; 14 / 10; 14 / 10; 13 / 10; 11 / 10; 10 / 10].
(** codes/ec2_2023/_section5_materials.py:296-317. *)
Definition e3_phi_humid : list R :=
  [30 / 10; 28 / 10; 26 / 10; 25 / 10; 22 / 10; 21 / 10; 20 / 10; 19 / 10; 17 / 10; 16 / 10; 16 / 10; 15 / 10; 14 / 10; 13 / 10; 12 / 10; 12 / 10; 10 / 10; 9 / 10; 9 / 10; 8 / 10].
(** codes/ec2_2023/_section5_materials.py:263-268. *)
Definition e3_times (cls : string) : list R :=
  if one_of cls ["CS"; "SLOW"]%string then [3; 10; 32; 91; 365]
  else if one_of cls ["CN"; "NORMAL"]%string then [1; 7; 28; 91; 365] else [1; 3; 23; 91; 365].
(** codes/ec2_2023/_section5_materials.py:213-328 [phi_50y_t0]. *)
Definition e3_phi_50y (gd : gridder) (t0 : R) (atm : string) (hn : R) (cls : string) : result R :=
  if Rltb t0 1 then Err ValueError else
  let atm := str_strip (lower atm) in
  if negb (one_of atm ["dry"; "humid"]%string) then Err ValueError else
  if Rltb hn 100 then Err ValueError else if Rltb 1000 hn then Err ValueError else
  let cls := str_strip (str_upper cls) in
  if negb (one_of cls e3_classes) then Err ValueError else
  let values := if String.eqb atm "dry" then e3_phi_dry else e3_phi_humid in
  match gd (grid (e3_times cls) e3_h values) (t0, hn) with Some v => Ok v | None => Err ValueError end.
(** codes/ec2_2023/_section5_materials.py:398-496. *)
Definition e3_eps_values (dry : bool) (cls : string) : list R :=
  if dry then
    if String.eqb cls "CS" then [57 / 100; 56 / 100; 48 / 100; 36 / 100; 53 / 100; 51 / 100; 45 / 100; 35 / 100; 49 / 100; 48 / 100; 43 / 100; 35 / 100]
    else if String.eqb cls "CN" then [67 / 100; 65 / 100; 56 / 100; 41 / 100; 60 / 100; 59 / 100; 51 / 100; 39 / 100; 55 / 100; 54 / 100; 48 / 100; 37 / 100; 48 / 100; 48 / 100; 43 / 100; 36 / 100]
    else [76 / 100; 74 / 100; 65 / 100; 48 / 100; 67 / 100; 66 / 100; 58 / 100; 44 / 100; 55 / 100; 54 / 100; 49 / 100; 39 / 100]
  else
    if String.eqb cls "CS" then [33 / 100; 32 / 100; 28 / 100; 21 / 100; 31 / 100; 31 / 100; 27 / 100; 22 / 100; 30 / 100; 29 / 100; 27 / 100; 23 / 100]
    else if String.eqb cls "CN" then [38 / 100; 37 / 100; 32 / 100; 24 / 100; 34 / 100; 34 / 100; 30 / 100; 24 / 100; 31 / 100; 31 / 100; 28 / 100; 23 / 100; 30 / 100; 30 / 100; 28 / 100; 25 / 100]
    else [42 / 100; 41 / 100; 36 / 100; 28 / 100; 36 / 100; 35 / 100; 32 / 100; 26 / 100; 31 / 100; 30 / 100; 28 / 100; 25 / 100].
(** codes/ec2_2023/_section5_materials.py:384-389. *)
Definition e3_strengths (cls : string) : list R :=
  if String.eqb cls "CS" then [20; 35; 50] else if String.eqb cls "CN" then [20; 35; 50; 80] else [35; 50; 80].
(** codes/ec2_2023/_section5_materials.py:331-507 [eps_cs_50y]. *)
Definition e3_eps_cs_50y (gd : gridder) (fck : R) (atm : string) (hn : R) (cls : string) : result R :=
  if Rltb fck 20 then Err ValueError else if Rltb 80 fck then Err ValueError else
  let atm := str_strip (lower atm) in
  if negb (one_of atm ["dry"; "humid"]%string) then Err ValueError else
  if Rltb hn 100 then Err ValueError else if Rltb 1000 hn then Err ValueError else
  let cls := str_strip (str_upper cls) in
  let cls := if String.eqb cls "SLOW" then "CS"%string else if String.eqb cls "NORMAL" then "CN"%string else if String.eqb cls "RAPID" then "CR"%string else cls in
  if negb (one_of cls ["CS"; "CN"; "CR"]%string) then Err ValueError else
  match gd (grid (e3_strengths cls) e3_h (e3_eps_values (String.eqb atm "dry") cls)) (fck, hn) with Some v => Ok v | None => Err ValueError end.
(** codes/ec2_2023/_section5_materials.py:510-535 *)
Definition e3_eta_cc (fck fck_ref : R) : result R :=
  if Rltb fck 12 then Err ValueError else if Rleb fck_ref 0 then Err ValueError else Ok (Rmin (pw (fck_ref / fck) (1 / 3)) 1).
(** codes/ec2_2023/_section5_materials.py:538-586 *)
Definition e3_k_tc (t_ref t0 : R) (cls : string) : result R :=
  if Rltb t_ref 0 then Err ValueError else if Rltb t0 0 then Err ValueError else
  let cls := str_strip (str_upper cls) in
  if negb (one_of cls e3_classes) then Err ValueError else
  if andb (andb (one_of cls ["CR"; "CN"; "RAPID"; "NORMAL"]%string) (Rleb t_ref 28)) (Rltb 90 t0) then Ok 1 else
  if andb (andb (one_of cls ["CS"; "SLOW"]%string) (Rleb t_ref 56)) (Rltb 90 t0) then Ok 1 else Ok (85 / 100).
(** codes/ec2_2023/_section5_materials.py:589-618 *)
Definition e3_fcd (fck eta_cc k_tc gamma_c : R) : result R :=
  if Rltb fck 12 then Err ValueError else if orb (Rltb eta_cc 0) (Rltb 1 eta_cc) then Err ValueError else
  if Rltb gamma_c 1 then Err ValueError else Ok (eta_cc * k_tc * fck / gamma_c).
(** codes/ec2_2023/_section5_materials.py:621-661 *)
Definition e3_k_tt (t_ref : R) (cls : string) : result R :=
  if Rltb t_ref 0 then Err ValueError else
  let cls := str_strip (str_upper cls) in
  if negb (one_of cls e3_classes) then Err ValueError else
  if andb (one_of cls ["CR"; "CN"; "RAPID"; "NORMAL"]%string) (Rleb t_ref 28) then Ok (8 / 10) else
  if andb (one_of cls ["CS"; "SLOW"]%string) (Rleb t_ref 56) then Ok (8 / 10) else Ok (7 / 10).
(** codes/ec2_2023/_section5_materials.py:664-687 *)
Definition e3_fctd (fctk_5 k_tt gamma_c : R) : result R :=
  if Rltb fctk_5 0 then Err ValueError else if Rltb gamma_c 1 then Err ValueError else Ok (k_tt * fctk_5 / gamma_c).
(** codes/ec2_2023/_section5_materials.py:690-728 *)
Definition e3_eps_c1 (fcm : R) : result R := if Rltb fcm 20 then Err ValueError else Ok (Rmin (7 / 10 * pw fcm (1 / 3)) (28 / 10) / 1000).
(** codes/ec2_2023/_section5_materials.py:711-728 [eps_cu1]. *)
Definition e3_eps_cu1 (fcm : R) : result R := if Rltb fcm 20 then Err ValueError else Ok (Rmin (28 / 10 + 14 * (1 - fcm / 108) ^ 4) (35 / 10) / 1000).
(** codes/ec2_2023/_section5_materials.py:731-760 *)
Definition e3_k_sargin (Ecm fcm eps_c1 : R) : result R :=
  if Rleb Ecm 0 then Err ValueError else if Rltb fcm 20 then Err ValueError else if Rleb eps_c1 0 then Err ValueError else Ok (105 / 100 * Ecm * eps_c1 / fcm).
(** codes/ec2_2023/_section5_materials.py:763-794 *)
Definition e3_eps_c2 : R := 2 / 1000.
(** codes/ec2_2023/_section5_materials.py:776-784 [eps_cu2]. *)
Definition e3_eps_cu2 : R := 35 / 10000.
(** codes/ec2_2023/_section5_materials.py:787-794 [n_parabolic_rectangular]. *)
Definition e3_n : R := 2.
(** codes/ec2_2023/_section5_materials.py:797-822 *)
Definition e3_weight_c (t : string) : result R :=
  let t := str_strip (lower t) in if String.eqb t "nc" then Ok 25 else if String.eqb t "npc" then Ok 24 else Err ValueError.
(** codes/ec2_2023/_section5_materials.py:825-872 *)
Definition e3_alpha_c_th : R := 10 * / 100000.
(** codes/ec2_2023/_section5_materials.py:838-847 [Es]. *)
Definition e3_Es : R := 200000.
(** codes/ec2_2023/_section5_materials.py:850-860 [alpha_s_th]. *)
Definition e3_alpha_s_th : R := 10 * / 100000.
(** codes/ec2_2023/_section5_materials.py:863-872 [weight_s]. *)
Definition e3_weight_s : R := 785 / 10.
