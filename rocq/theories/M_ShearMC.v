(** Model of codes/mc2010/_concrete_shear.py and _concrete_torsion.py.  Levels are
    ints.  Warnings are not modelled. *)
From Coq Require Import ZArith.
From Verif Require Import Base M_Calc.
Open Scope R_scope.

(** create_load_dict, lines 54-71: all four keys are present *)
Record loads := { Med : R; Ved : R; Ned : R; delta_e : R }.
(** codes/mc2010/_concrete_shear.py:8-37 *)
Definition epsilon_x (E_s As z : R) (l : loads) : R :=
  Rmax (1 / (2 * E_s * As) * (Rabs (Med l) / z + Rabs (Ved l) + Ned l * (1 / 2 + delta_e l / z))) 0.
(** codes/mc2010/_concrete_shear.py:40-51 *)
Definition eta_fc (fck : R) : R := Rmin (pw (30 / fck) (1 / 3)) 1.
(** codes/mc2010/_concrete_shear.py:470-503 *)
Definition v_rd_max_approx1 (fck bw theta z alpha gamma_c : R) : R :=
  55 / 100 * eta_fc fck * (fck / gamma_c) * bw * z * ((cot (radians theta) + cot (radians alpha)) / (1 + cot (radians theta) ^ 2)).
(** codes/mc2010/_concrete_shear.py:506-551 *)
Definition v_rd_max_approx2 (fck bw theta z E_s As : R) (l : loads) (alpha gamma_c : R) : R :=
  let epsilonx := epsilon_x E_s As z l in
  let epsilon_1 := epsilonx + (epsilonx + 2 / 1000) * cot (radians theta) ^ 2 in
  let k_epsilon := Rmin (1 / (12 / 10 + 55 * epsilon_1)) (65 / 100) in
  k_epsilon * eta_fc fck * (fck / gamma_c) * bw * z * ((cot (radians theta) + cot (radians alpha)) / (1 + cot (radians theta) ^ 2)).
(** codes/mc2010/_concrete_shear.py:554-586 *)
Definition v_rd_max_approx3 (fck bw z E_s As : R) (l : loads) (alpha gamma_c : R) : R :=
  let theta_min := 20 + 10000 * epsilon_x E_s As z l in v_rd_max_approx2 fck bw theta_min z E_s As l alpha gamma_c.
(** codes/mc2010/_concrete_shear.py:424-467 *)
Definition v_rd_max (lvl : Z) (fck bw theta z E_s As : R) (l : loads) (alpha gamma_c : R) : result R :=
  if Z.eqb lvl 1 then Ok (v_rd_max_approx1 fck bw theta z alpha gamma_c)
  else if Z.eqb lvl 2 then Ok (v_rd_max_approx2 fck bw theta z E_s As l alpha gamma_c)
  else if Z.eqb lvl 3 then Ok (v_rd_max_approx3 fck bw z E_s As l alpha gamma_c)
  else Err ValueError.
(** codes/mc2010/_concrete_shear.py:262-287 *)
Definition v_rdc_approx1 (fck z bw gamma_c : R) : R :=
  let fsqr := Rmin (sqrt fck) 8 in let kv := 180 / (1000 + 125 / 100 * z) in kv * fsqr * z * bw / gamma_c.
(** codes/mc2010/_concrete_shear.py:290-328 *)
Definition v_rdc_approx2 (fck z bw dg E_s As : R) (l : loads) (gamma_c : R) : R :=
  let dg := if Rltb 70 fck then 0 else dg in
  let fsqr := Rmin (sqrt fck) 8 in
  let epsilonx := epsilon_x E_s As z l in
  let k_dg := Rmax (32 / (16 + dg)) (75 / 100) in
  let kv := 4 / 10 / (1 + 1500 * epsilonx) * (1300 / (1000 + k_dg * z)) in
  kv * fsqr * z * bw / gamma_c.
(** codes/mc2010/_concrete_shear.py:331-382, called with approx_lvl = 3 *)
Definition v_rdc_approx3 (fck z bw E_s As : R) (l : loads) (alpha gamma_c : R) : R :=
  let fsqr := Rmin (sqrt fck) 8 in
  let epsilonx := epsilon_x E_s As z l in
  let V_rd_max := v_rd_max_approx3 fck bw z E_s As l alpha gamma_c in
  let kv := Rmax (4 / 10 / (1 + 1500 * epsilonx) * (1 - Ved l / V_rd_max)) 0 in
  kv * fsqr * z * bw / gamma_c.
(** codes/mc2010/_concrete_shear.py:209-259 *)
Definition v_rdc (lvl : Z) (fck z bw dg E_s As : R) (l : loads) (alpha gamma_c : R) : result R :=
  if Z.eqb lvl 1 then Ok (v_rdc_approx1 fck z bw gamma_c)
  else if Z.eqb lvl 2 then Ok (v_rdc_approx2 fck z bw dg E_s As l gamma_c)
  else if Z.eqb lvl 3 then Ok (v_rdc_approx3 fck z bw E_s As l alpha gamma_c)
  else Err ValueError.
(** codes/mc2010/_concrete_shear.py:385-421 *)
Definition v_rds (asw sw z f_ywk theta alpha gamma_s : R) : R :=
  let f_ywd := f_ywk / gamma_s in asw / sw * z * f_ywd * (cot (radians theta) + cot (radians alpha)) * sin (radians alpha).
(** codes/mc2010/_concrete_shear.py:74-206.  v_rds is called without gamma_s, so with its default 1.15.  The
    optional arguments are those of the stirrups; arithmetic with None raises TypeError.
    The recursive call is to level 2. *)
Definition v_rd_12 (lvl : Z) (fck z bw E_s As : R) (l : loads) (asw sw f_ywk theta : option R) (alpha gamma_c : R) : result R :=
  match asw, sw, f_ywk, theta with
  | Some asw, Some sw, Some f_ywk, Some theta =>
      do m <- v_rd_max lvl fck bw theta z E_s As l alpha gamma_c; Ok (Rmin (v_rds asw sw z f_ywk theta alpha (115 / 100)) m)
  | _, _, _, _ => Err TypeError
  end.
(** codes/mc2010/_concrete_shear.py:74-206 [v_rd]. *)
Definition v_rd (lvl : Z) (with_shear : bool) (fck z bw dg E_s As : R) (l : loads) (asw sw f_ywk theta : option R) (alpha gamma_c gamma_s : R) : result R :=
  if negb with_shear then v_rdc lvl fck z bw dg E_s As l alpha gamma_c
  else match f_ywk with
  | None => Err TypeError
  | Some fy =>
    let f_ywd := fy / gamma_s in
    if orb (Z.eqb lvl 1) (Z.eqb lvl 2) then v_rd_12 lvl fck z bw E_s As l asw sw f_ywk theta alpha gamma_c
    else if Z.eqb lvl 3 then
      do V_rdc <- v_rdc lvl fck z bw dg E_s As l alpha gamma_c;
      do V_rd_max <- v_rd_max lvl fck bw 0 z E_s As l alpha gamma_c;
      match asw, sw, theta with
      | Some asw', Some sw', Some theta' =>
          let s := v_rds asw' sw' z f_ywd theta' alpha (115 / 100) in
          if Rltb (V_rdc + s) V_rd_max then Ok (V_rdc + s) else v_rd_12 2 fck z bw E_s As l asw sw f_ywk theta alpha gamma_c
      | _, _, _ => Err TypeError
      end
    else Err ValueError
  end.
(** codes/mc2010/_concrete_shear.py:662-697, 700-749, 589-659; powers 0.5 of non-negative numbers *)
Definition v_rd_ct_approx1 (f_ctd i_c s_c b_w sigma_cp l_x l_bd0 : R) : R :=
  let alpha_l := l_x / (12 / 10 * l_bd0) in 8 / 10 * (i_c * b_w / s_c) * sqrt (f_ctd ^ 2 + alpha_l * sigma_cp * f_ctd).
(** codes/mc2010/_concrete_shear.py:700-749 [v_rd_ct_approx2]. *)
Definition v_rd_ct_approx2 (f_ctd i_c l_x l_bd0 S_cy b_wy y y_c A_c A_cy y_pt f_p_lx f_p_lx_dx : R) : R :=
  let alpha_l := l_x / (12 / 10 * l_bd0) in
  let sigma_cpy := 1 / A_c * ((y_c - y) / i_c) * f_p_lx in
  let tau_cpy := 1 / b_wy * (A_cy / A_c - S_cy * (y_c - y_pt) / i_c) * f_p_lx_dx in
  i_c * b_wy / S_cy * (sqrt (f_ctd ^ 2 + alpha_l * sigma_cpy * f_ctd) - tau_cpy).
(** codes/mc2010/_concrete_shear.py:589-659 [v_rd_ct]. *)
Definition v_rd_ct (lvl : Z) (f_ctd i_c s_c b_w sigma_cp l_x l_bd0 S_cy b_wy y y_c A_c A_cy y_pt f_p_lx f_p_lx_dx : R) : result R :=
  if Z.eqb lvl 1 then Ok (v_rd_ct_approx1 f_ctd i_c s_c b_w sigma_cp l_x l_bd0)
  else if Z.eqb lvl 2 then Ok (v_rd_ct_approx2 f_ctd i_c l_x l_bd0 S_cy b_wy y y_c A_c A_cy y_pt f_p_lx f_p_lx_dx)
  else Err ValueError.

(** _concrete_torsion.py lines 8-21 *)
Definition v_ed_ti (t_ed a_k z_i : R) : R := t_ed * z_i / (2 * a_k).
(** codes/mc2010/_concrete_torsion.py:24-88; for another level k_epsilon is not bound *)
Definition t_rd_max (f_ck d_k a_k theta : R) (lvl : Z) (z E_s As : R) (l : loads) (gamma_c : R) : result R :=
  let t_ef := d_k / 8 in
  let k2 theta := let epsilonx := epsilon_x E_s As z l in
    let epsilon_1 := epsilonx + (epsilonx + 2 / 1000) * cot (radians theta) ^ 2 in Rmin (1 / (12 / 10 + 55 * epsilon_1)) (65 / 100) in
  do k_epsilon <- (if Z.eqb lvl 1 then Ok (55 / 100) else if Z.eqb lvl 2 then Ok (k2 theta) else if Z.eqb lvl 3 then Ok (k2 (20 + 10000 * epsilon_x E_s As z l)) else Err UnboundLocalError);
  let k_c := eta_fc f_ck * k_epsilon in
  Ok (k_c * f_ck * t_ef * 2 * a_k * sin (radians theta) * cos (radians theta) / gamma_c).
(** codes/mc2010/_concrete_torsion.py:91-164; a zero resistance raises ZeroDivisionError *)
Definition t_rd (t_ed : R) (lvl : Z) (fck bw theta z E_s As : R) (l : loads) (d_k a_k alpha gamma_c : R) : result bool :=
  do t <- t_rd_max fck d_k a_k theta lvl z E_s As l gamma_c;
  do q1 <- pdiv t_ed t;
  do v <- v_rd_max lvl fck bw theta z E_s As l alpha gamma_c;
  do q2 <- pdiv (Ved l) v;
  Ok (Rleb (q1 ^ 2 + q2 ^ 2) 1).
