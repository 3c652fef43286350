(** Model of codes/ec2_2004/_section_7_3_crack_control.py and
    codes/ec2_2004/_cracking_restraint_imposed_deformations.py. *)
From Coq Require Import String ZArith.
From Verif Require Import Base M_Registry M_Calc M_Conc.
Open Scope R_scope.
Open Scope list_scope.
Local Open Scope string_scope.

(** codes/ec2_2004/_section_7_3_crack_control.py:104-112 and the like: a check [if c: raise ValueError(...)] of the function bodies below. *)
Definition refuse (c : bool) : result unit := if c then Err ValueError else Ok tt.
(** codes/ec2_2004/_section_7_3_crack_control.py:34-36, 703-710: an argument that should be a str, and one that should be an int. *)
Inductive pystr := PStr (s : string) | PNotStr.
(** codes/ec2_2004/_section_7_3_crack_control.py:703-710: an argument that
    should be an int. *)
Inductive pynum := PInt (z : Z) | PFloat (x : R).
(** codes/ec2_2004/_section_7_3_crack_control.py:683-718: the number in it. *)
Definition num_val (n : pynum) : R := match n with PInt z => IZR z | PFloat x => x end.

(** codes/ec2_2004/_section_7_3_crack_control.py:12-64 *)
Definition ck_w_max (exposure_class load_combination : string) : result R :=
  let l := str_strip (lower load_combination) in
  let e := str_strip (str_upper exposure_class) in
  if String.eqb l "f" then
    if one_of e ["X0"; "XC1"]%list then Ok (2 / 10) else if one_of e ["XC2"; "XC3"; "XC4"]%list then Ok (2 / 10) else Err ValueError
  else if String.eqb l "qp" then
    if one_of e ["X0"; "XC1"]%list then Ok (4 / 10)
    else if one_of e ["XC2"; "XC3"; "XC4"; "XD1"; "XD2"; "XS1"; "XS2"; "XS3"]%list then Ok (3 / 10) else Err ValueError
  else Err ValueError.
(** codes/ec2_2004/_section_7_3_crack_control.py:67-118 *)
Definition ck_As_min (A_ct sigma_s fct_eff k kc : R) : result R :=
  let fct_eff := Rabs fct_eff in
  do _ <- refuse (Rleb A_ct 0);
  do _ <- refuse (Rltb sigma_s 0);
  do _ <- refuse (orb (Rltb k (65 / 100)) (Rltb 1 k));
  do _ <- refuse (orb (Rltb 1 kc) (Rltb kc 0));
  pdiv (kc * k * fct_eff * A_ct) sigma_s.
(** codes/ec2_2004/_section_7_3_crack_control.py:121-146; interp1d on two points is the chord *)
Definition ck_k (h : R) : result R :=
  do _ <- refuse (Rltb h 0);
  if Rleb h 300 then Ok 1 else if Rltb h 800 then Ok (1 + (65 / 100 - 1) / (800 - 300) * (h - 300)) else Ok (65 / 100).
(** codes/ec2_2004/_section_7_3_crack_control.py:149-159 *)
Definition ck_kc_tension : R := 1.
(** codes/ec2_2004/_section_7_3_crack_control.py:162-198 *)
Definition ck_kc_rect_area (h b fct_eff N_ed : R) : result R :=
  do _ <- refuse (Rltb h 0);
  do _ <- refuse (Rltb b 0);
  let h_s := Rmin h 1000 in
  do k1 <- (if Rleb 0 N_ed then Ok (15 / 10) else pdiv (2 * h_s / 3) h);
  do s1 <- pdiv (N_ed * 1000) b;
  do s_concrete <- pdiv s1 h;
  do h_ratio <- pdiv h h_s;
  do q1 <- pdiv s_concrete k1;
  do q2 <- pdiv q1 h_ratio;
  do q3 <- pdiv q2 fct_eff;
  Ok (Rmin (Rmax (4 / 10 * (1 - q3)) 0) 1).
(** codes/ec2_2004/_section_7_3_crack_control.py:201-228 *)
Definition ck_kc_flanges_area (f_cr A_ct fct_eff : R) : result R :=
  do a <- pdiv (9 / 10 * Rabs f_cr * 1000) A_ct;
  do b <- pdiv a fct_eff;
  Ok (Rmax b (5 / 10)).
(** codes/ec2_2004/_section_7_3_crack_control.py:231-261; x ** 0.5 with x >= 0 *)
Definition ck_xi1 (xi phi_p phi_s : R) : result R :=
  do _ <- refuse (Rleb phi_p 0);
  do _ <- refuse (Rltb phi_s 0);
  do _ <- refuse (Rltb xi (15 / 100));
  do _ <- refuse (Rltb (8 / 10) xi);
  Ok (if Rltb 0 phi_s then sqrt (xi * phi_s / phi_p) else sqrt xi).
(** codes/ec2_2004/_section_7_3_crack_control.py:264-294 *)
Definition ck_hc_eff (h d x : R) : result R :=
  do _ <- refuse (Rltb h 0);
  do _ <- refuse (Rltb d 0);
  do _ <- refuse (Rltb x 0);
  do _ <- refuse (Rltb h d);
  do _ <- refuse (Rltb h x);
  Ok (Rmin (Rmin (25 / 10 * (h - d)) ((h - x) / 3)) (h / 2)).
(** codes/ec2_2004/_section_7_3_crack_control.py:297-376 *)
Definition ck_As_min_p (A_ct sigma_s fct_eff k kc Ap phi_s phi_p xi delta_s : R) : result R :=
  let fct_eff := Rabs fct_eff in
  do _ <- refuse (Rltb Ap 0);
  do _ <- refuse (Rltb delta_s 0);
  do _ <- refuse (Rleb A_ct 0);
  do _ <- refuse (Rltb sigma_s 0);
  do _ <- refuse (orb (Rltb k (65 / 100)) (Rltb 1 k));
  do _ <- refuse (orb (Rltb 1 kc) (Rltb kc 0));
  let a1 := kc * k * fct_eff * A_ct in
  do e1 <- ck_xi1 xi phi_p phi_s;
  let a2 := e1 * Ap * delta_s in
  pdiv (a1 - a2) sigma_s.
(** codes/ec2_2004/_section_7_3_crack_control.py:379-513: tables 7.2N and 7.3N over a grid; scipy griddata is a parameter,
    None data are gaps, nan is None. *)
Definition gap_gridder : Type := list ((R * R) * option R) -> R * R -> option R.
(** codes/ec2_2004/_section_7_3_crack_control.py:444. *)
Definition ck_x : list R := [4 / 10; 3 / 10; 2 / 10].
(** codes/ec2_2004/_section_7_3_crack_control.py:445. *)
Definition ck_y_phi : list R := [160; 200; 240; 280; 320; 360; 400; 450].
(** codes/ec2_2004/_section_7_3_crack_control.py:446. *)
Definition ck_y_spa : list R := [160; 200; 240; 280; 320; 360].
(** codes/ec2_2004/_section_7_3_crack_control.py:447-472. *)
Definition ck_phi_v : list (option R) :=
  [Some 40; Some 32; Some 25; Some 32; Some 25; Some 16; Some 20; Some 16; Some 12; Some 16; Some 12; Some 8; Some 12; Some 10; Some 6;
   Some 10; Some 8; Some 5; Some 8; Some 6; Some 4; Some 6; Some 5; None].
(** codes/ec2_2004/_section_7_3_crack_control.py:473-492. *)
Definition ck_spa_v : list (option R) :=
  [Some 300; Some 300; Some 200; Some 300; Some 250; Some 150; Some 250; Some 200; Some 100; Some 200; Some 150; Some 50; Some 150; Some 100; None;
   Some 100; Some 50; None].
(** codes/ec2_2004/_section_7_3_crack_control.py:494. *)
Definition ck_points_phi := combine (list_prod ck_y_phi ck_x) ck_phi_v.
(** codes/ec2_2004/_section_7_3_crack_control.py:495. *)
Definition ck_points_spa := combine (list_prod ck_y_spa ck_x) ck_spa_v.
(** codes/ec2_2004/_section_7_3_crack_control.py:379-513 [As_min_2]. *)
Definition ck_As_min_2 (gd : gap_gridder) (wk sigma_s fct_eff h_cr h d delta_s : R) (kc : option R) : result (R * R) :=
  do _ <- refuse (Rltb wk 0);
  do _ <- refuse (Rltb fct_eff 0);
  do _ <- refuse (Rltb h_cr 0);
  do _ <- refuse (Rltb h 0);
  do _ <- refuse (Rltb d 0);
  do _ <- refuse (match kc with Some kc => orb (Rltb kc 0) (Rltb 1 kc) | None => false end);
  let s := sigma_s - delta_s in
  if Rleb s 0 then Ok (0, 0)
  else
    let phi_star := gd ck_points_phi (s, wk) in
    do factor <- match kc with
                 | Some kc => pdiv (fct_eff / (29 / 10) * kc * h_cr) (2 * (h - d))
                 | None => pdiv (fct_eff / (29 / 10) * h_cr) (8 * (h - d))
                 end;
    match phi_star, gd ck_points_spa (s, wk) with
    | Some phi, Some spa => Ok (phi * factor, spa)
    | _, _ => Err ValueError
    end.
(** codes/ec2_2004/_section_7_3_crack_control.py:516-536 *)
Definition ck_alpha_e (Es Ecm : R) : result R :=
  do _ <- refuse (Rltb Es 0); do _ <- refuse (Rltb Ecm 0); pdiv Es Ecm.
(** codes/ec2_2004/_section_7_3_crack_control.py:539-566 *)
Definition ck_rho_p_eff (As xi1 Ap Ac_eff : R) : result R :=
  do _ <- refuse (Rltb As 0); do _ <- refuse (Rltb xi1 0); do _ <- refuse (Rltb Ap 0); do _ <- refuse (Rltb Ac_eff 0);
  pdiv (As + xi1 ^ 2 * Ap) Ac_eff.
(** codes/ec2_2004/_section_7_3_crack_control.py:569-592 *)
Definition ck_kt (load_type : pystr) : result R :=
  match load_type with
  | PNotStr => Err TypeError
  | PStr s => let s := str_strip (lower s) in
      if negb (one_of s ["short"; "long"]%list) then Err ValueError else Ok (if String.eqb s "short" then 6 / 10 else 4 / 10)
  end.
(** codes/ec2_2004/_section_7_3_crack_control.py:595-655 *)
Definition ck_eps_sm_eps_cm (sigma_s alpha_e rho_p_eff kt fct_eff Es : R) : result R :=
  do _ <- refuse (Rltb sigma_s 0); do _ <- refuse (Rltb alpha_e 0); do _ <- refuse (Rltb rho_p_eff 0);
  do _ <- refuse (Rltb fct_eff 0); do _ <- refuse (Rltb Es 0);
  do _ <- refuse (negb (orb (Reqb kt (6 / 10)) (Reqb kt (4 / 10))));
  do min_val <- pdiv (6 / 10 * sigma_s) Es;
  let a := 1 + alpha_e * rho_p_eff in
  do b <- pdiv (kt * fct_eff) rho_p_eff;
  let b := b * a in
  do c <- pdiv (sigma_s - b) Es;
  Ok (Rmax c min_val).
(** codes/ec2_2004/_section_7_3_crack_control.py:658-680 *)
Definition ck_w_spacing (c phi : R) : result R :=
  do _ <- refuse (Rltb c 0); do _ <- refuse (Rltb phi 0); Ok (5 * (c + phi / 2)).
(** codes/ec2_2004/_section_7_3_crack_control.py:683-718 *)
Definition ck_int (n : pynum) : result unit :=
  do _ <- refuse (Rltb (num_val n) 0); match n with PInt _ => Ok tt | PFloat _ => Err TypeError end.
(** codes/ec2_2004/_section_7_3_crack_control.py:683-718 [phi_eq]. *)
Definition ck_phi_eq (n1 n2 : pynum) (phi1 phi2 : R) : result R :=
  do _ <- ck_int n1; do _ <- ck_int n2;
  do _ <- refuse (Rltb phi1 0); do _ <- refuse (Rltb phi2 0);
  pdiv (num_val n1 * phi1 ^ 2 + num_val n2 * phi2 ^ 2) (num_val n1 * phi1 + num_val n2 * phi2).
(** codes/ec2_2004/_section_7_3_crack_control.py:721-747 *)
Definition ck_k1 (bond_type : pystr) : result R :=
  match bond_type with
  | PNotStr => Err TypeError
  | PStr s => let s := str_strip (lower s) in
      if negb (one_of s ["bond"; "plain"]%list) then Err ValueError else Ok (if String.eqb s "bond" then 8 / 10 else 16 / 10)
  end.
(** codes/ec2_2004/_section_7_3_crack_control.py:750-770, 773-779, 782-788 *)
Definition ck_k2 (eps_r : R) : result R := do _ <- refuse (orb (Rltb eps_r 0) (Rltb 1 eps_r)); Ok ((1 + eps_r) / 2).
(** codes/ec2_2004/_section_7_3_crack_control.py:773-779 [k3]. *)
Definition ck_k3 : R := 34 / 10.
(** codes/ec2_2004/_section_7_3_crack_control.py:782-788 [k4]. *)
Definition ck_k4 : R := 425 / 1000.
(** codes/ec2_2004/_section_7_3_crack_control.py:791, 794-855; None means the recommended value *)
Definition ck_sr_max_close (c phi rho_p_eff k1 k2 : R) (k3 k4 : option R) : result R :=
  let k3 := match k3 with Some k => k | None => ck_k3 end in
  let k4 := match k4 with Some k => k | None => ck_k4 end in
  do _ <- refuse (Rltb c 0); do _ <- refuse (Rltb phi 0); do _ <- refuse (Rltb rho_p_eff 0);
  do _ <- refuse (Rltb k3 0); do _ <- refuse (Rltb k4 0);
  do _ <- refuse (negb (orb (Reqb k1 (8 / 10)) (Reqb k1 (16 / 10))));
  do _ <- refuse (orb (Rltb k2 (5 / 10)) (Rltb 1 k2));
  do q <- pdiv (k1 * k2 * k4 * phi) rho_p_eff;
  Ok (k3 * c + q).
(** codes/ec2_2004/_section_7_3_crack_control.py:858-883 *)
Definition ck_sr_max_far (h x : R) : result R :=
  do _ <- refuse (Rltb x 0); do _ <- refuse (Rltb h 0); do _ <- refuse (Rltb h x); Ok (13 / 10 * (h - x)).
(** codes/ec2_2004/_section_7_3_crack_control.py:886-913 *)
Definition ck_sr_max_theta (sr_max_y sr_max_z theta : R) : result R :=
  do _ <- refuse (Rltb sr_max_y 0); do _ <- refuse (Rltb sr_max_z 0);
  do a <- pdiv (cos theta) sr_max_y;
  do b <- pdiv (sin theta) sr_max_z;
  pdiv 1 (a + b).
(** codes/ec2_2004/_section_7_3_crack_control.py:916-941 *)
Definition ck_wk (sr_max eps_sm_eps_cm : R) : result R :=
  do _ <- refuse (Rltb sr_max 0); do _ <- refuse (Rltb eps_sm_eps_cm 0); Ok (sr_max * eps_sm_eps_cm).
(** _cracking_restraint_imposed_deformations.py lines 4-41 *)
Definition ck_eps_restraint_end (alpha_e rho_p_eff kc k fct_eff Es : R) : R :=
  5 / 10 * alpha_e * kc * k * fct_eff * (1 + 1 / (alpha_e * rho_p_eff)) / Es.
