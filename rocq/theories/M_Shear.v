(** Model of codes/ec2_2004/shear.py.  1/math.tan(x) is cos x / sin x. *)
From Verif Require Import Base M_Calc M_Reinf.
Open Scope R_scope.
Open Scope list_scope.

(** codes/ec2_2004/shear.py:10-22 *)
Definition sh_k (d : R) : R := Rmin (1 + sqrt (200 / d)) 2.
(** codes/ec2_2004/shear.py:26-42 *)
Definition sh_rho_L (Asl bw d : R) : R := Rmin (Asl / (bw * d)) (2 / 100).
(** codes/ec2_2004/shear.py:46-61 *)
Definition sh_sigma_cp (NEd Ac fcd : R) : R := Rmin (NEd / Ac) (2 / 10 * fcd).
(** codes/ec2_2004/shear.py:65-82 *)
Definition sh_alpha_l (L_x L_pt2 : R) : R := Rmin (L_x / L_pt2) 1.
(** codes/ec2_2004/shear.py:86-119, cot_min = 1, cot_max = 2.5 (no caller sets them) *)
Definition sh_theta (theta : R) : result unit :=
  let theta_ := radians theta in
  if orb (Rltb (round2 (cot theta_)) 1) (Rltb (25 / 10) (round2 (cot theta_))) then Err ValueError else Ok tt.
(** codes/ec2_2004/shear.py:123-158 *)
Definition sh_alpha_cw (Ned Ac fcd : R) : result R :=
  let sigma_cp := Ned / Ac in
  if Rleb sigma_cp 0 then Ok 1
  else if Rleb sigma_cp (25 / 100 * fcd) then Ok (1 + sigma_cp / fcd)
  else if Rleb sigma_cp (5 / 10 * fcd) then Ok (125 / 100)
  else if Rltb sigma_cp fcd then Ok (25 / 10 * (1 - sigma_cp / fcd)) else Err ValueError.
(** codes/ec2_2004/shear.py:219-231 *)
Definition sh_vmin (fck d : R) : R := 35 / 1000 * pw (sh_k d) (3 / 2) * pw fck (1 / 2).
(** codes/ec2_2004/shear.py:165-215; [CRdc or 0.18 / gamma_c] *)
Definition sh_VRdc (fck d Asl bw NEd Ac fcd k1 gamma_c : R) (CRdc : option R) : R :=
  let CRdc := py_or CRdc (18 / 100 / gamma_c) in
  Rmax (Rmax (CRdc * sh_k d * pw (100 * sh_rho_L Asl bw d * fck) (1 / 3) + k1 * sh_sigma_cp NEd Ac fcd)
             (sh_vmin fck d + k1 * sh_sigma_cp NEd Ac fcd) * bw * d) 0.
(** codes/ec2_2004/shear.py:235-287; math.sqrt of a negative number raises ValueError *)
Definition sh_VRdc_prin_stress (Iy bw S fctd NEd Ac : R) (L_x L_pt2 : option R) : result R :=
  let sigma_cp := NEd / Ac in
  let alpha_L := match L_x, L_pt2 with Some x, Some l => sh_alpha_l x l | _, _ => 1 end in
  let q := fctd ^ 2 + alpha_L * sigma_cp * fctd in
  if Rltb q 0 then Err ValueError else Ok (Iy * bw / S * sqrt q).
(** codes/ec2_2004/shear.py:317-330, 334-347 *)
Definition sh_v (fck : R) : R := 6 / 10 * (1 - fck / 250).
(** codes/ec2_2004/shear.py:334-347 [v1]. *)
Definition sh_v1 (fck : R) : R := if Rleb fck 60 then 6 / 10 else Rmax (9 / 10 - fck / 200) (5 / 10).
(** codes/ec2_2004/shear.py:291-313 *)
Definition sh_VEdmax_unreinf (bw d fck fcd : R) : R := 5 / 10 * bw * d * sh_v fck * fcd.
(** codes/ec2_2004/shear.py:355-401 *)
Definition sh_VRds (Asw s z theta fyk alpha gamma_s : R) : result R :=
  let fywd := fyk / gamma_s in
  do _ <- sh_theta theta;
  let theta := radians theta in let alpha := radians alpha in
  Ok (Asw / s * z * fywd * (cot theta + cot alpha) * sin alpha).
(** codes/ec2_2004/shear.py:405-441 *)
Definition sh_Asw_s_required (Ved z theta fywd alpha : R) : R :=
  let theta := radians theta in let alpha := radians alpha in
  Ved / z / fywd / (cot theta + cot alpha) / sin alpha.
(** codes/ec2_2004/shear.py:446-498 *)
Definition sh_VRdmax (bw z fck theta NEd Ac fcd alpha : R) (limit_fyd : bool) : result R :=
  do _ <- sh_theta theta;
  let theta := radians theta in let alpha := radians alpha in
  let reduction := if limit_fyd then sh_v1 fck else sh_v fck in
  do a <- sh_alpha_cw NEd Ac fcd;
  Ok (a * bw * z * reduction * fcd * (cot theta + cot alpha) / (1 + cot theta ^ 2)).
(** codes/ec2_2004/shear.py:503-551 *)
Definition sh_Asw_max (fcd fck bw s fywd NEd Ac alpha : R) : result R :=
  let alpha := radians alpha in
  do a <- sh_alpha_cw NEd Ac fcd; Ok (1 / 2 * a * sh_v fck * fcd * bw * s / (fywd * sin alpha)).
