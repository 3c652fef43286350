(** Model of the steel part of codes/ec2_2023/_section5_materials.py and of
    codes/ec2_2023/_section9_sls.py, with alpha_c of _annexB_time_dependent.py. *)
From Coq Require Import String.
From Verif Require Import Base M_Registry M_Calc M_Conc M_Crack.
Open Scope R_scope.
Open Scope list_scope.
Local Open Scope string_scope.

(** * Steel, codes/ec2_2023/_section5_materials.py *)
(** codes/ec2_2023/_section5_materials.py:875-896, 899-920, 1052-1074 *)
Definition st_fyd (fyk gamma_s : R) : result R := do _ <- refuse (Rltb fyk 0); do _ <- refuse (Rltb gamma_s 1); Ok (fyk / gamma_s).
(** codes/ec2_2023/_section5_materials.py:899-920 [eps_ud]. *)
Definition st_eps_ud (eps_uk gamma_s : R) : result R := do _ <- refuse (Rltb eps_uk 0); do _ <- refuse (Rltb gamma_s 1); Ok (eps_uk / gamma_s).
(** codes/ec2_2023/_section5_materials.py:1052-1074 [fpd]. *)
Definition st_fpd (fp01k gamma_P : R) : result R := do _ <- refuse (Rltb fp01k 0); do _ <- refuse (Rltb gamma_P 1); Ok (fp01k / gamma_P).
(** codes/ec2_2023/_section5_materials.py:923-978; Es is 200000 unless given *)
Definition st_sigma_s (eps fy k eps_u Es : R) : result R :=
  do _ <- refuse (Rltb eps 0);
  do _ <- refuse (Rleb eps_u 0);
  do _ <- refuse (andb (Rltb eps_u eps) (Rltb 1 k));
  do _ <- refuse (Rleb Es 0);
  do _ <- refuse (Rleb fy 0);
  do _ <- refuse (Rltb k 0);
  let eps_y := fy / Es in
  if Rleb eps eps_y then Ok (eps * Es)
  else do m <- pdiv (fy * (k - 1)) (eps_u - eps_y); Ok (fy + m * (eps - eps_y)).
(** codes/ec2_2023/_section5_materials.py:1077-1129; eps_u is 0.035 and Ep is 190000 unless given *)
Definition st_sigma_p (eps fpy fpu eps_u Ep : R) : result R :=
  do _ <- refuse (Rltb eps 0);
  do _ <- refuse (Rleb eps_u 0);
  do _ <- refuse (andb (Rltb eps_u eps) (negb (Reqb fpy fpu)));
  do _ <- refuse (Rleb fpy 0);
  do _ <- refuse (Rltb fpu fpy);
  do _ <- refuse (Rleb Ep 0);
  let eps_y := fpy / Ep in
  if Rleb eps eps_y then Ok (eps * Ep)
  else do m <- pdiv (fpu - fpy) (eps_u - eps_y); Ok (fpy + m * (eps - eps_y)).
(** codes/ec2_2023/_section5_materials.py:981-1049 *)
Definition st_data : list (string * list (string * (R * R))) :=
  [("W", [("Y1570", (1380, 1570)); ("Y1670", (1470, 1670)); ("Y1770", (1550, 1770)); ("Y1860", (1650, 1860))]);
   ("S", [("Y1770", (1560, 1770)); ("Y1860", (1640, 1860)); ("Y1960", (1740, 1960)); ("Y2060", (1830, 2060))]);
   ("B", [("Y1030", (835, 1030)); ("Y1050", (950, 1050)); ("Y1100", (900, 1100)); ("Y1230", (1080, 1230))])]%list.
(** codes/ec2_2023/_section5_materials.py:981-1049 [p_steel_stress_params]. *)
Definition st_params (prestress_class element : string) : result (R * R) :=
  let c := str_strip (str_upper prestress_class) in
  let e := str_strip (str_upper element) in
  match dict_get st_data e with
  | None => Err ValueError
  | Some material => match dict_get material c with None => Err ValueError | Some v => Ok v end
  end.

(** * codes/ec2_2023/_annexB_time_dependent.py, lines 4-17 *)
Definition sl_alpha_c (fcm_28 : R) : R := Rmax (1 / (8 / 10 + 2 / 10 * (fcm_28 / 88))) 1.
(** * codes/ec2_2023/_section9_sls.py *)
(** codes/ec2_2023/_section9_sls.py:10-26; fcm >= 0 *)
Definition sl_Ec_eff (fcm phi kE : R) : result R :=
  let Ecm := kE * pw fcm (1 / 3) in pdiv (sl_alpha_c fcm * Ecm) (1 + phi).
(** codes/ec2_2023/_section9_sls.py:72-86 *)
Definition sl_kh (b h : R) : R := Rmin (Rmax (8 / 10 - 6 / 10 * (Rmin b h - 3 / 10)) (5 / 10)) (8 / 10).
(** codes/ec2_2023/_section9_sls.py:29-69 *)
Definition sl_As_min_y (NEd b h fct_eff fyk : R) : result (R * R) :=
  do q1 <- pdiv (3 / 10 * NEd / 1000 + 2 / 10 * sl_kh b h * fct_eff * b * h) fyk;
  do q2 <- pdiv (5 / 10 * sl_kh b h * fct_eff * b * h) fyk;
  let As_min_y1 := Rmin (Rmax q1 0) q2 * 10000 in
  Ok (As_min_y1, Rmin (Rmax (NEd / fyk * 10 - As_min_y1) 0) As_min_y1).
(** codes/ec2_2023/_section9_sls.py:89-110 *)
Definition sl_wk_cal2 (kw k_1_r srm_cal epssm_epscm : R) : R := kw * k_1_r * srm_cal * epssm_epscm.
(** codes/ec2_2023/_section9_sls.py:113-130 *)
Definition sl_k_1_r (h x ay : R) : result R := pdiv (h - x) (h - ay - x).
(** codes/ec2_2023/_section9_sls.py:133-166 *)
Definition sl_epssm_epscm (sigma_s kt fct_eff rho_eff alphae Es : R) : result R :=
  do q <- pdiv (kt * fct_eff) rho_eff;
  do a <- pdiv (sigma_s - q * (1 + alphae * rho_eff)) Es;
  Ok (Rmax a ((1 - kt) * sigma_s / Es)).
(** codes/ec2_2023/_section9_sls.py:169-185 *)
Definition sl_kfl (h xg hceff : R) : result R := do q <- pdiv (h - xg - hceff) (h - xg); Ok (Rmax (5 / 10 * (1 + q)) (5 / 10)).
(** codes/ec2_2023/_section9_sls.py:188-220 *)
Definition sl_srm_cal (c kfl_ kb phi rho_eff kw h x : R) : result R :=
  do q <- pdiv (kfl_ * kb / (72 / 10) * phi) rho_eff;
  do r <- pdiv (13 / 10) kw;
  Ok (Rmin (15 / 10 * c + q) (r * (h - x))).
(** codes/ec2_2023/_section9_sls.py:223-276 *)
Definition sl_wk_cal (kw h xg hc_eff c kb phi rho_eff x sigma_s kt fct_eff alphae Es : R) : result (R * R * R * R) :=
  do k_1_r_ <- sl_k_1_r h x (c + phi / 2);
  do kfl_ <- sl_kfl h xg hc_eff;
  do srm_cal_ <- sl_srm_cal c kfl_ kb phi rho_eff kw h x;
  do epssm_epscm_ <- sl_epssm_epscm sigma_s kt fct_eff rho_eff alphae Es;
  let wk_cal_ := kw * k_1_r_ * srm_cal_ * epssm_epscm_ in
  Ok (wk_cal_, k_1_r_, srm_cal_, epssm_epscm_).
(** codes/ec2_2023/_section9_sls.py:316: math.pow(x, 0.6), ValueError for x < 0 *)
Definition sl_pow06 (x : R) : result R := do _ <- refuse (Rltb x 0); Ok (pw x (6 / 10)).
(** codes/ec2_2023/_section9_sls.py:279-325; fctm and fcm of _section5_materials.py, fcm with its default 8 and
    Ec_eff with its default 9500 *)
Definition sl_delta_simpl (delta_loads delta_shr fck1 phi1 b1 h d As1 Mk : R) : result R :=
  let Mcr := e3_fctm fck1 * 1000 * b1 * h ^ 2 / 6 in
  do q <- pdiv Mcr Mk;
  let zeta := 1 - 5 / 10 * q ^ 2 in
  do r1 <- pdiv As1 b1;
  do r2 <- pdiv r1 d;
  let rho_l := r2 * (1 / 10000) in
  do E <- sl_Ec_eff (e3_fcm fck1 8) phi1 9500;
  do alpha_e_eff <- pdiv 200000 E;
  do p <- sl_pow06 (alpha_e_eff * rho_l);
  do dh <- pdiv d h;
  do Ig_Icr <- pdiv 1 (27 / 10 * p * dh ^ 3);
  let kS := if Rltb Mk Mcr then 1 else 455 * rho_l ^ 2 - 35 * rho_l + 16 / 10 in
  let kI := if Rltb Mk Mcr then 1 else zeta * Ig_Icr + (1 - zeta) in
  Ok (kI * (delta_loads + kS * delta_shr)).
