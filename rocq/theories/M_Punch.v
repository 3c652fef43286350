(** Model of codes/mc2010/_concrete_punching.py,
    _concrete_interface_different_casting_times.py and
    _interface_concrete_steel_rebar.py.  Warnings are not modelled. *)
From Coq Require Import String ZArith.
From Verif Require Import Base M_Registry M_Calc M_Crack.
Open Scope R_scope.
Open Scope list_scope.
Local Open Scope string_scope.

(** _concrete_punching.py lines 8-21, 24-42 *)
Definition pu_b_0 (v_ed v_prep_d_max : R) : R := v_ed / v_prep_d_max.
(** codes/mc2010/_concrete_punching.py:24-42 [b_s]. *)
Definition pu_b_s (l_x l_y : R) : R :=
  let r_sx := 22 / 100 * l_x in let r_sy := 22 / 100 * l_y in Rmin (15 / 10 * sqrt (r_sx * r_sy)) (Rmin l_x l_y).
(** codes/mc2010/_concrete_punching.py:45-82 *)
Definition pu_m_ed (v_ed e_u b_s : R) (inner edge_par edge_per corner : bool) : result R :=
  if inner then Ok (v_ed * (1 / 8 + Rabs e_u / (2 * b_s)))
  else if edge_par then Ok (Rmax (v_ed * (1 / 8 + e_u / (2 * b_s))) (v_ed / 4))
  else if edge_per then Ok (v_ed * (1 / 8 + e_u / b_s))
  else if corner then Ok (Rmax (v_ed * (1 / 8 + e_u / b_s)) (v_ed / 2))
  else Err ValueError.
(** codes/mc2010/_concrete_punching.py:85-100, 103-139 *)
Definition pu_b_sr (l_x l_y : R) : R := Rmin l_x l_y.
(** codes/mc2010/_concrete_punching.py:103-139 [r_s]. *)
Definition pu_r_s (l_x l_y : R) (x_direction level3 edge_or_corner : bool) (b_sr : option R) : result R :=
  let r_s := if x_direction then 22 / 100 * l_x else 22 / 100 * l_y in
  if andb edge_or_corner level3 then match b_sr with None => Err ValueError | Some b => Ok (Rmax r_s (67 / 100 * b)) end else Ok r_s.
(** codes/mc2010/_concrete_punching.py:142-164, 167-197 (power 1.5 of a non-negative number), 200-224, 227-253 *)
Definition pu_psi1 (l_x l_y f_yd d_eff e_s : R) : R := let r_s := Rmax (22 / 100 * l_x) (22 / 100 * l_y) in 15 / 10 * r_s * f_yd / (d_eff * e_s).
(** codes/mc2010/_concrete_punching.py:167-197 [psi_punching_level_two]. *)
Definition pu_psi2 (r_s f_yd d_eff e_s m_ed m_rd m_Pd : R) : R := 15 / 10 * r_s * f_yd / (d_eff * e_s) * pw ((m_ed - m_Pd) / (m_rd - m_Pd)) (3 / 2).
(** codes/mc2010/_concrete_punching.py:200-224 [psi_punching_level_three]. *)
Definition pu_psi3 (psi2 : R) (uncracked_model moment_uncracked : bool) : R := if andb uncracked_model moment_uncracked then 12 / 10 / (15 / 10) * psi2 else psi2.
(** codes/mc2010/_concrete_punching.py:227-253 [psi_punching]. *)
Definition pu_psi (psi1 psi2 psi3 lvl : R) : result R := if Reqb lvl 1 then Ok psi1 else if Reqb lvl 2 then Ok psi2 else if Reqb lvl 3 then Ok psi3 else Err ValueError.
(** codes/mc2010/_concrete_punching.py:256-269, 272-289, 292-313 *)
Definition pu_k_dg (d_g : R) : R := Rmax (32 / (16 + d_g)) (75 / 100).
(** codes/mc2010/_concrete_punching.py:272-289 [k_psi]. *)
Definition pu_k_psi (k_dg d_eff psi : R) : R := Rmin (1 / (15 / 10 + 9 / 10 * k_dg * d_eff * psi)) (6 / 10).
(** codes/mc2010/_concrete_punching.py:292-313 [v_rdc_punching]. *)
Definition pu_v_rdc (k_psi b_0 d_v f_ck gamma_c : R) : R := k_psi * b_0 * d_v * sqrt f_ck / gamma_c.
(** codes/mc2010/_concrete_punching.py:316-332, 335-365, 368-401 *)
Definition pu_f_ywd (f_ywk gamma_s : R) : R := f_ywk / gamma_s.
(** codes/mc2010/_concrete_punching.py:335-365 [sigma_swd]. *)
Definition pu_sigma_swd (e_s psi alpha f_bd d_eff f_ywd phi_w : R) : R :=
  Rmin (e_s * psi / 6 * (sin (radians alpha) + cos (radians alpha)) * (sin (radians alpha) + f_bd * d_eff / (f_ywd * phi_w))) f_ywd.
(** codes/mc2010/_concrete_punching.py:368-401 [v_rds_punching]. *)
Definition pu_v_rds (f_ywd e_u b_u alpha sigma_swd a_sw v_ed : R) : R :=
  let k_e := 1 / (1 + e_u / b_u) in a_sw * k_e * sigma_swd * sin (radians alpha).
(** codes/mc2010/_concrete_punching.py:404-439, 442-455 *)
Definition pu_v_rd_max (d_v f_ck : R) (d_head stirrups_compression : bool) (b0 k_psi gamma_c : R) : R :=
  let k_sys := if d_head then 28 / 10 else if stirrups_compression then 24 / 10 else 2 in
  let base := b0 * d_v * (sqrt f_ck / gamma_c) in Rmin (k_sys * k_psi * base) base.
(** codes/mc2010/_concrete_punching.py:442-455 [v_rd_punching]. *)
Definition pu_v_rd (v_rd_c v_rd_s v_rd_max : R) : R := Rmin (v_rd_c + v_rd_s) v_rd_max.

(** _concrete_interface_different_casting_times.py lines 6-21, 24-52, 55-104 *)
Definition if_tau_edi (beta v_ed z b_i : R) : R := beta * v_ed / (z * b_i).
(** codes/mc2010/_concrete_interface_different_casting_times.py:24-52
    [tau_rdi_without_reinforcement]. *)
Definition if_tau_rdi (c_a f_ctd mu sigma_n f_ck f_cd : R) : R :=
  let v := Rmin (55 / 100 * pw (30 / f_ck) (1 / 3)) (55 / 100) in Rmin (c_a * f_ctd + mu * sigma_n) (5 / 10 * v * f_cd).
(** codes/mc2010/_concrete_interface_different_casting_times.py:55-104
    [tau_rdi_with_reinforcement]. *)
Definition if_tau_rdi_reinf (c_r k1 k2 mu ro sigma_n alpha beta_c f_ck f_yd f_cd : R) : R :=
  let v := Rmin (55 / 100 * pw (30 / f_ck) (1 / 3)) (55 / 100) in
  Rmin (c_r * pw f_ck (1 / 3) + mu * sigma_n + k1 * ro * f_yd * (mu * sin (radians alpha) + cos (radians alpha)) + k2 * ro * sqrt (f_yd * f_cd)) (beta_c * v * f_cd).

(** _interface_concrete_steel_rebar.py lines 16-25, 28-39, 42-51: None and other types raise ValueError *)
Definition bo_valid (l : list string) (v : pystr) : result string :=
  match v with PStr s => if one_of (lower s) l then Ok (lower s) else Err ValueError | PNotStr => Err ValueError end.
(** codes/mc2010/_interface_concrete_steel_rebar.py:16-25 [_validate_bond_value]. *)
Definition bo_bond := bo_valid ["good"; "other"]%list.
(** codes/mc2010/_interface_concrete_steel_rebar.py:28-39 [_validate_confinement_value]. *)
Definition bo_confinement := bo_valid ["unconfined"; "stirrups"]%list.
(** codes/mc2010/_interface_concrete_steel_rebar.py:42-51. *)
Definition bo_failmod := bo_valid ["po"; "sp"]%list.
(** codes/mc2010/_interface_concrete_steel_rebar.py:54-71, 136-154, 157-174, 177-192 *)
Definition bo_table (bond : pystr) (good other : R) : result R := do b <- bo_bond bond; dict_item [("good", good); ("other", other)]%list b.
(** codes/mc2010/_interface_concrete_steel_rebar.py:54-71 [eta_2]. *)
Definition bo_eta_2 (bond : pystr) : result R := bo_table bond 1 (7 / 10).
(** codes/mc2010/_interface_concrete_steel_rebar.py:136-154 [tau_bmax]. *)
Definition bo_tau_bmax (bond : pystr) (f_cm : R) : result R := bo_table bond (25 / 10 * sqrt f_cm) (125 / 100 * sqrt f_cm).
(** codes/mc2010/_interface_concrete_steel_rebar.py:157-174 [s_1]. *)
Definition bo_s_1 (bond : pystr) : result R := bo_table bond 1 (18 / 10).
(** codes/mc2010/_interface_concrete_steel_rebar.py:177-192 [s_2]. *)
Definition bo_s_2 (bond : pystr) : result R := bo_table bond 2 (36 / 10).
(** codes/mc2010/_interface_concrete_steel_rebar.py:195-242 *)
Definition bo_s_3 (failmod bond confinement : pystr) (c_clear s_1 : R) : result R :=
  do f <- bo_failmod failmod;
  if String.eqb f "po" then bo_table bond c_clear c_clear
  else if String.eqb f "sp" then
    do b <- bo_bond bond;
    do d <- dict_item [("good", [("unconfined", 12 / 10 * s_1); ("stirrups", 5 / 10 * c_clear)]); ("other", [("unconfined", 12 / 10 * s_1); ("stirrups", 5 / 10 * c_clear)])]%list b;
    do c <- bo_confinement confinement;
    dict_item d c
  else Ok 0.
(** codes/mc2010/_interface_concrete_steel_rebar.py:74-106, 109-133, 245-263, 266-324, 327-348 *)
Definition bo_tau_split (eta_2 f_cm phi c_min c_max k_m K_tr : R) : R :=
  eta_2 * (65 / 10) * pw (f_cm / 25) (1 / 4) * pw (25 / phi) (1 / 5) * (pw (c_min / phi) (33 / 100) * pw (c_max / c_min) (1 / 10) + k_m * K_tr).
(** codes/mc2010/_interface_concrete_steel_rebar.py:109-133 [K_tr]. *)
Definition bo_K_tr (n_t A_st n_b phi s_t : R) : R := Rmin (n_t * A_st / (n_b * phi * s_t)) (5 / 100).
(** codes/mc2010/_interface_concrete_steel_rebar.py:245-263 [s_tau_bu_split]. *)
Definition bo_s_split (tau_bmax tau_bu_split alpha s_1 : R) : R := pw (tau_bu_split / tau_bmax) (1 / alpha) * s_1.
(** codes/mc2010/_interface_concrete_steel_rebar.py:266-324 [f_stm]. *)
Definition bo_f_stm (f_cm phi l_b c_min c_max k_m K_tr : R) : R :=
  54 * pw (f_cm / 25) (1 / 4) * pw (25 / phi) (1 / 5) * pw (l_b / phi) (55 / 100) * (pw (c_min / phi) (1 / 4) * pw (c_max / c_min) (1 / 10) + k_m * K_tr).
(** codes/mc2010/_interface_concrete_steel_rebar.py:327-348 [tau_yield]. *)
Definition bo_tau_yield (f_y l_b phi : R) : R := f_y / (4 * l_b / phi).
