(** Model of codes/ec2_2004/_concrete_creep_and_shrinkage.py (prefix ec_) and
    codes/mc2010/_concrete_creep_and_shrinkage.py (prefix mc_).  A function of an
    array of times acts on each entry alone; the model gives the entry.  The checks
    that only warn are omitted. *)
From Coq Require Import String.
From Verif Require Import Base M_Registry M_Calc M_Conc.
Open Scope R_scope.
Open Scope list_scope.

(** * EC2:2004 *)
(** codes/ec2_2004/_concrete_creep_and_shrinkage.py:20-37, 40-62 *)
Definition ec_eps_cs (eps_cd eps_ca : R) : R := eps_cd + eps_ca.
(** codes/ec2_2004/_concrete_creep_and_shrinkage.py:40-62 [eps_cd]. *)
Definition ec_eps_cd (beta_ds k_h eps_cd_0 : R) : R := beta_ds * k_h * eps_cd_0.
(** codes/ec2_2004/_concrete_creep_and_shrinkage.py:65-85; h_0 ** (3/2). *)
Definition ec_beta_ds (t t_s h_0 : R) : R := let d := Rmax (t - t_s) 0 in d / (d + 4 / 100 * pw h_0 (3 / 2)).
(** codes/ec2_2004/_concrete_creep_and_shrinkage.py:88-99 *)
Definition ec_k_h (h_0 : R) : R := np_interp h_0 [(100, 1); (200, 85 / 100); (300, 75 / 100); (500, 7 / 10)].
(** codes/ec2_2004/_concrete_creep_and_shrinkage.py:102-133 *)
Definition ec_eps_cd_0 (alpha_ds1 alpha_ds2 fcm beta_RH fcm_0 : R) : R :=
  85 / 100 * ((220 + 110 * alpha_ds1) * exp (- alpha_ds2 * fcm / fcm_0)) * / 1000000 * beta_RH.
(** codes/ec2_2004/_concrete_creep_and_shrinkage.py:13-17, 136-183 *)
Definition ec_alpha_ds : list (string * (R * R)) := [("R", (6, 11 / 100)); ("N", (4, 12 / 100)); ("S", (3, 13 / 100))]%string.
(** codes/ec2_2004/_concrete_creep_and_shrinkage.py:172-183 [_get_alpha_ds_dict]. *)
Definition ec_get_alpha_ds (c : string) : result (R * R) := match dict_get ec_alpha_ds (str_strip (str_upper c)) with Some v => Ok v | None => Err ValueError end.
(** codes/ec2_2004/_concrete_creep_and_shrinkage.py:136-151 [alpha_ds1]. *)
Definition ec_alpha_ds1 (c : string) : result R := rmap fst (ec_get_alpha_ds c).
(** codes/ec2_2004/_concrete_creep_and_shrinkage.py:154-169 [alpha_ds2]. *)
Definition ec_alpha_ds2 (c : string) : result R := rmap snd (ec_get_alpha_ds c).
(** codes/ec2_2004/_concrete_creep_and_shrinkage.py:186-200 *)
Definition ec_beta_RH (RH RH_0 : R) : R := 155 / 100 * (1 - (RH / RH_0) ^ 3).
(** codes/ec2_2004/_concrete_creep_and_shrinkage.py:203-220, 223-234 *)
Definition ec_eps_ca (beta_as eps_ca_inf : R) : R := beta_as * eps_ca_inf.
(** codes/ec2_2004/_concrete_creep_and_shrinkage.py:223-234 [eps_ca_inf]. *)
Definition ec_eps_ca_inf (fck : R) : R := 25 / 10 * (fck - 10) * / 1000000.
(** codes/ec2_2004/_concrete_creep_and_shrinkage.py:237-251; t ** 0.5 *)
Definition ec_beta_as (t : R) : R := 1 - exp (- (2 / 10) * pw t (1 / 2)).
(** codes/ec2_2004/_concrete_creep_and_shrinkage.py:254-269, 272-286 *)
Definition ec_phi (phi_0 beta_c : R) : R := phi_0 * beta_c.
(** codes/ec2_2004/_concrete_creep_and_shrinkage.py:272-286 [phi_0]. *)
Definition ec_phi_0 (phi_RH beta_fcm beta_t0 : R) : R := phi_RH * beta_fcm * beta_t0.
(** codes/ec2_2004/_concrete_creep_and_shrinkage.py:289-312 *)
Definition ec_phi_RH (h_0 fcm RH alpha_1 alpha_2 : R) : R :=
  if Rleb fcm 35 then 1 + (1 - RH / 100) / (1 / 10 * pw h_0 (1 / 3))
  else (1 + (1 - RH / 100) / (1 / 10 * pw h_0 (1 / 3)) * alpha_1) * alpha_2.
(** codes/ec2_2004/_concrete_creep_and_shrinkage.py:315-327, 330-342, 345-362 *)
Definition ec_beta_fcm (fcm : R) : R := 168 / 10 / pw fcm (1 / 2).
(** codes/ec2_2004/_concrete_creep_and_shrinkage.py:330-342 [beta_t0]. *)
Definition ec_beta_t0 (t0 : R) : R := 1 / (1 / 10 + pw t0 (2 / 10)).
(** codes/ec2_2004/_concrete_creep_and_shrinkage.py:345-362 [h_0]. *)
Definition ec_h_0 (Ac u : R) : R := 2 * Ac / u.
(** codes/ec2_2004/_concrete_creep_and_shrinkage.py:365-385 *)
Definition ec_beta_c (t0 t beta_H : R) : R := let d := Rmax (t - t0) 0 in pw (d / (beta_H + d)) (3 / 10).
(** codes/ec2_2004/_concrete_creep_and_shrinkage.py:388-413 *)
Definition ec_beta_H (h_0 fcm RH alpha_3 : R) : R :=
  if Rleb fcm 35 then Rmin (15 / 10 * (1 + (12 / 1000 * RH) ^ 18) * h_0 + 250) 1500
  else Rmin (15 / 10 * (1 + (12 / 1000 * RH) ^ 18) * h_0 + 250 * alpha_3) (1500 * alpha_3).
(** codes/ec2_2004/_concrete_creep_and_shrinkage.py:416-446 *)
Definition ec_alpha_1 (fcm : R) : R := pw (35 / fcm) (7 / 10).
(** codes/ec2_2004/_concrete_creep_and_shrinkage.py:427-435 [alpha_2]. *)
Definition ec_alpha_2 (fcm : R) : R := pw (35 / fcm) (2 / 10).
(** codes/ec2_2004/_concrete_creep_and_shrinkage.py:438-446 [alpha_3]. *)
Definition ec_alpha_3 (fcm : R) : R := pw (35 / fcm) (1 / 2).
(** codes/ec2_2004/_concrete_creep_and_shrinkage.py:461: x ** alpha for alpha in {1, 0, -1} (the only values of the cement tables) or any
    other exponent, x > 0. *)
Definition pw_any (x a : R) : R := Rpower x a.
(** codes/ec2_2004/_concrete_creep_and_shrinkage.py:449-461 *)
Definition ec_t0_adj (t0 alpha_cement : R) : R := Rmax (t0 * pw_any (9 / (2 + pw t0 (12 / 10)) + 1) alpha_cement) (5 / 10).
(** codes/ec2_2004/_concrete_creep_and_shrinkage.py:464-505: two numbers, or two arrays (shape checked; the sum over the
    entries), or a mixture (rejected). *)
Inductive arg := Num (x : R) | Arr (l : list R).
(** codes/ec2_2004/_concrete_creep_and_shrinkage.py:480-505: the sum over the
    temperature intervals. *)
Definition aged (T dt : R) : R := exp (1365 / 100 - 4000 / (273 + T)) * dt.
(** codes/ec2_2004/_concrete_creep_and_shrinkage.py:464-505 [t_T]. *)
Definition ec_t_T (T dt : arg) : result R :=
  match T, dt with
  | Num T, Num dt => Ok (aged T dt)
  | Arr Ts, Arr dts => if Nat.eqb (List.length Ts) (List.length dts) then Ok (lsum (map (fun '(T, dt) => aged T dt) (combine Ts dts))) else Err ValueError
  | _, _ => Err ValueError
  end.
(** codes/ec2_2004/_concrete_creep_and_shrinkage.py:12, 508-529; upper() without strip(). *)
Definition ec_alpha_cement_dict : list (string * R) := [("R", 1); ("N", 0); ("S", -1)]%string.
(** codes/ec2_2004/_concrete_creep_and_shrinkage.py:508-529 [alpha_cement]. *)
Definition ec_alpha_cement (c : string) : result R := match dict_get ec_alpha_cement_dict (str_upper c) with Some v => Ok v | None => Err ValueError end.

(** * MC2010 *)
(** codes/mc2010/_concrete_creep_and_shrinkage.py:19-50 *)
Definition mc_ALPHA : list (string * R) := [("32.5 R", 0); ("42.5 N", 0); ("42.5 R", 1); ("52.5 N", 1); ("52.5 R", 1); ("32.5 N", -1)]%string.
(** codes/mc2010/_concrete_creep_and_shrinkage.py:27-34 [ALPHA_BS]. *)
Definition mc_ALPHA_BS : list (string * R) := [("32.5 R", 700); ("42.5 N", 700); ("42.5 R", 600); ("52.5 N", 600); ("52.5 R", 600); ("32.5 N", 800)]%string.
(** codes/mc2010/_concrete_creep_and_shrinkage.py:35-42 [ALPHA_DS1]. *)
Definition mc_ALPHA_DS1 : list (string * R) := [("32.5 R", 4); ("42.5 N", 4); ("42.5 R", 6); ("52.5 N", 6); ("52.5 R", 6); ("32.5 N", 3)]%string.
(** codes/mc2010/_concrete_creep_and_shrinkage.py:43-50 [ALPHA_DS2]. *)
Definition mc_ALPHA_DS2 : list (string * R) :=
  [("32.5 R", 12 / 1000); ("42.5 N", 12 / 1000); ("42.5 R", 12 / 1000); ("52.5 N", 12 / 1000); ("52.5 R", 12 / 1000); ("32.5 N", 13 / 1000)]%string.
(** codes/mc2010/_concrete_creep_and_shrinkage.py:53-74 *)
Definition mc_check_fcm (fcm : R) : result unit := if orb (Rltb fcm 20) (Rltb 130 fcm) then Err ValueError else Ok tt.
(** codes/mc2010/_concrete_creep_and_shrinkage.py:77-108 *)
Definition mc_check_initial_stress (sigma fcm : R) : result unit := if Rltb (6 / 10 * fcm) (Rabs sigma) then Err ValueError else Ok tt.
(** codes/mc2010/_concrete_creep_and_shrinkage.py:111-131 *)
Definition mc_check_age_at_loading (t0 : R) : result unit := if Rltb t0 1 then Err ValueError else Ok tt.
(** codes/mc2010/_concrete_creep_and_shrinkage.py:134-155 *)
Definition mc_check_RH (rh : R) : result unit :=
  if andb (orb (Rltb rh (4 / 10)) (Rltb 1 rh)) (orb (Rltb rh 40) (Rltb 100 rh)) then Err ValueError else Ok tt.
(** codes/mc2010/_concrete_creep_and_shrinkage.py:182-228: the same text as EC2:2004 lines 464-505. *)
Definition mc_t_T (T dt : arg) : result R :=
  match T, dt with
  | Num T, Num dt => Ok (aged T dt)
  | Arr Ts, Arr dts => if Nat.eqb (List.length Ts) (List.length dts) then Ok (lsum (map (fun '(T, dt) => aged T dt) (combine Ts dts))) else Err ValueError
  | _, _ => Err ValueError
  end.
(** codes/mc2010/_concrete_creep_and_shrinkage.py:231-259 *)
Definition mc_t0_adj (t_T : R) (cem : string) : result R :=
  do a <- dict_item mc_ALPHA cem; Ok (Rmax (t_T * pw_any (9 / (2 + pw t_T (12 / 10)) + 1) a) (5 / 10)).
(** codes/mc2010/_concrete_creep_and_shrinkage.py:262-284 *)
Definition mc_eps_cds0 (fcm : R) (cem : string) : result R :=
  do a <- dict_item mc_ALPHA_DS1 cem; do b <- dict_item mc_ALPHA_DS2 cem; Ok ((220 + 110 * a) * exp (- b * fcm) * / 1000000).
(** codes/mc2010/_concrete_creep_and_shrinkage.py:287-311 *)
Definition mc_beta_ds (time ts notional_size : R) : R := let d := Rmax (time - ts) 0 in sqrt (d / (35 / 1000 * notional_size ^ 2 + d)).
(** codes/mc2010/_concrete_creep_and_shrinkage.py:314-326 *)
Definition mc_beta_s1 (fcm : R) : R := Rmin (pw (35 / fcm) (1 / 10)) 1.
(** codes/mc2010/_concrete_creep_and_shrinkage.py:329-354 *)
Definition mc_beta_RH (rh beta_s1 : R) : result R :=
  do _ <- mc_check_RH rh;
  let rh := if Rltb 1 rh then rh / 100 else rh in
  if Rleb (99 / 100 * beta_s1) rh then Ok (25 / 100)
  else if andb (Rleb (4 / 10 * beta_s1) rh) (Rltb rh (99 / 100 * beta_s1)) then Ok (- (155 / 100) * (1 - rh ^ 3)) else Err ValueError.
(** codes/mc2010/_concrete_creep_and_shrinkage.py:357-379 *)
Definition mc_eps_cds (eps_cds0 beta_ds beta_rh : R) : R := eps_cds0 * beta_rh * beta_ds.
(** codes/mc2010/_concrete_creep_and_shrinkage.py:382-401 *)
Definition mc_eps_cbs0 (fcm : R) (cem : string) : result R :=
  do a <- dict_item mc_ALPHA_BS cem; Ok (- a * pw (1 / 10 * fcm / (6 + 1 / 10 * fcm)) (25 / 10) * / 1000000).
(** codes/mc2010/_concrete_creep_and_shrinkage.py:404-420, 423-440 *)
Definition mc_beta_bs (time : R) : R := 1 - exp (- (2 / 10) * sqrt time).
(** codes/mc2010/_concrete_creep_and_shrinkage.py:423-440 [eps_cbs]. *)
Definition mc_eps_cbs (eps_cbs0 beta_bs : R) : R := eps_cbs0 * beta_bs.
(** codes/mc2010/_concrete_creep_and_shrinkage.py:443-456, 459-479, 482-500 *)
Definition mc_beta_bc_fcm (fcm : R) : R := 18 / 10 / pw fcm (7 / 10).
(** codes/mc2010/_concrete_creep_and_shrinkage.py:459-479 [beta_bc_t]. *)
Definition mc_beta_bc_t (time t0 t0_adj : R) : R := ln ((30 / t0_adj + 35 / 1000) ^ 2 * (time - t0) + 1).
(** codes/mc2010/_concrete_creep_and_shrinkage.py:482-500 [phi_bc]. *)
Definition mc_phi_bc (beta_bc_fcm beta_bc_t : R) : R := beta_bc_fcm * beta_bc_t.
(** codes/mc2010/_concrete_creep_and_shrinkage.py:503-515 *)
Definition mc_beta_dc_fcm (fcm : R) : R := 412 / pw fcm (14 / 10).
(** codes/mc2010/_concrete_creep_and_shrinkage.py:518-537 *)
Definition mc_beta_dc_RH (rh notional_size : R) : result R :=
  do _ <- mc_check_RH rh;
  let rh := if Rltb 1 rh then rh / 100 else rh in Ok ((1 - rh) / pw (1 / 10 * notional_size / 100) (1 / 3)).
(** codes/mc2010/_concrete_creep_and_shrinkage.py:540-555, 558-570, 573-588, 591-606 *)
Definition mc_beta_dc_t0 (t0_adj : R) : R := 1 / (1 / 10 + pw t0_adj (2 / 10)).
(** codes/mc2010/_concrete_creep_and_shrinkage.py:558-570 [alpha_fcm]. *)
Definition mc_alpha_fcm (fcm : R) : R := sqrt (35 / fcm).
(** codes/mc2010/_concrete_creep_and_shrinkage.py:573-588 [beta_h]. *)
Definition mc_beta_h (notional_size alpha_fcm : R) : R := Rmin (15 / 10 * notional_size + 250 * alpha_fcm) (1500 * alpha_fcm).
(** codes/mc2010/_concrete_creep_and_shrinkage.py:591-606 [gamma_t0]. *)
Definition mc_gamma_t0 (t0_adj : R) : R := 1 / (23 / 10 + 35 / 10 / sqrt t0_adj).
(** codes/mc2010/_concrete_creep_and_shrinkage.py:609-635, for time >= t0 (below, numpy gives nan). *)
Definition mc_beta_dc_t (time t0 beta_h gamma_t0 : R) : R := pw ((time - t0) / (beta_h + (time - t0))) gamma_t0.
(** codes/mc2010/_concrete_creep_and_shrinkage.py:638-665 *)
Definition mc_phi_dc (beta_dc_fcm beta_dc_RH beta_dc_t0 beta_dc_t : R) : R := beta_dc_fcm * beta_dc_RH * beta_dc_t0 * beta_dc_t.
(** codes/mc2010/_concrete_creep_and_shrinkage.py:668-684 *)
Definition mc_k_sigma (sigma fcm : R) : result R := do _ <- mc_check_initial_stress sigma fcm; Ok (Rabs (sigma / fcm)).
(** codes/mc2010/_concrete_creep_and_shrinkage.py:687-717 *)
Definition mc_phi (phi_bc phi_dc sigma fcm : R) : result R :=
  let phi := phi_bc + phi_dc in
  do k <- mc_k_sigma sigma fcm;
  if andb (Rltb (4 / 10) k) (Rleb k (6 / 10)) then Ok (exp (15 / 10 * (k - 4 / 10)) * phi) else Ok phi.
(** codes/mc2010/_concrete_creep_and_shrinkage.py:720-738 *)
Definition mc_calc_J (E_ci_t0 phi E_ci : R) : R := 1 / E_ci_t0 + phi / E_ci.
