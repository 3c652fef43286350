(** Model of the interaction domains, sections/_generic.py:936-1429.
    Python ints are Z.  Real arithmetic: a division whose denominator is zero
    (nan or inf in numpy) has the value Coq's real division gives; the theorems
    exclude it. *)
From Verif Require Import Base M_Marin M_Laws M_Laws2 M_Fiber M_MarinInt M_Section.

(** sections/_generic.py:936-990 [_process_num_strain_profiles]; [int(num / 35 * k)] truncates. *)
Definition attempt (num k : Z) : Z := Z.quot (num * k) 35.
(** sections/_generic.py:936-990 [_process_num_strain_profiles]. *)
Definition process_num (num m1 m2 m3 m4 m5 m6 : Z) : Z * Z * Z * Z * Z * Z :=
  (Z.max (attempt num 1) m1, Z.max (attempt num 2) m2, Z.max (attempt num 15) m3,
   Z.max (attempt num 10) m4, Z.max (attempt num 3) m5, Z.max (attempt num 4) m6).

(** sections/_generic.py:1193-1217, the literal types of spacing ([type.lower()] has been applied); anything else raises. *)
Inductive spacing := Linear | Geometric | Quadratic | OtherSpacing.
(** numpy's geomspace (sections/_generic.py:1202-1212) for end values of the same sign; a zero end value raises. *)
Definition geomspace (a b : R) (n : nat) (endpoint : bool) : result (list R) :=
  if orb (Reqb a 0) (Reqb b 0) then Err ValueError
  else
    let div := if endpoint then INR n - 1 else INR n in
    Ok (map (fun i => if andb endpoint ((i =? n - 1)%nat && (1 <? n)%nat) then b
                      else a * Rpower (b / a) (INR i / div)) (seq 0 n)).
(** numpy's sign (sections/_generic.py:1205, 1210). *)
Definition sgn (x : R) : R := if Rltb 0 x then 1 else if Rltb x 0 then -1 else 0.
(** sections/_generic.py:1193-1217 [_np_space]. *)
Definition np_space (a b : R) (n : Z) (ty : spacing) (endpoint : bool) : result (list R) :=
  if (n <? 0)%Z then Err ValueError
  else match ty with
  | Linear => Ok (linspace a b (Z.to_nat n) endpoint)
  | Geometric =>
      if andb (negb (Reqb b 0)) (negb (Reqb a 0)) then geomspace a b (Z.to_nat n) endpoint
      else if (n =? 0)%Z then Err ValueError
      else if Reqb b 0 then do l <- geomspace a (/ 10 ^ 10 * sgn a) (Z.to_nat (n - 1)) endpoint; Ok (l ++ [0])
      else do l <- geomspace (/ 10 ^ 10 * sgn b) b (Z.to_nat (n - 1)) endpoint; Ok (0 :: l)
  | Quadratic => Ok (rev (map (fun x => x ^ 2 * (a - b) + b) (linspace 0 1 (Z.to_nat n) true)))
  | OtherSpacing => Err ValueError
  end.

(** CompoundGeometry.calculate_extents()[2] (geometry/_geometry.py:803-825): surfaces only. *)
Definition min_y (g : compound) : R :=
  fold_left (fun m s => Rmin m (ring_min (sf_ext s))) (cg_surf g) (10 ^ 16).

(** sections/_generic.py:992-1010 and 1286-1304: the arguments num_1 ... num_6
    and type_1 ... type_6. *)
Record fields := { fd_n1 : Z; fd_n2 : Z; fd_n3 : Z; fd_n4 : Z; fd_n5 : Z; fd_n6 : Z;
                   fd_t1 : spacing; fd_t2 : spacing; fd_t3 : spacing; fd_t4 : spacing; fd_t5 : spacing; fd_t6 : spacing }.
(** sections/_generic.py:1219-1222: np.repeat of the field numbers. *)
Definition field_nums (f : fields) : result (list nat) :=
  if orb (fd_n1 f <? 0)%Z (orb (fd_n2 f <? 0)%Z (orb (fd_n3 f <? 0)%Z (orb (fd_n4 f <? 0)%Z (orb (fd_n5 f <? 0)%Z (fd_n6 f <? 0)%Z))))
  then Err ValueError
  else Ok (repeat 1 (Z.to_nat (fd_n1 f)) ++ repeat 2 (Z.to_nat (fd_n2 f)) ++ repeat 3 (Z.to_nat (fd_n3 f)) ++
           repeat 4 (Z.to_nat (fd_n4 f)) ++ repeat 5 (Z.to_nat (fd_n5 f)) ++ repeat 6 (Z.to_nat (fd_n6 f)))%nat.
(** sections/_generic.py:1223-1272: pairs (eps_n, eps_p) of the six fields, from the balanced
    values: eps_p_b, eps_n_b, eps_p_y, eps_n_y and the ordinates. *)
Definition field_pairs (f : fields) (rc : bool) (epb enb epy eny yn yp h : R) : result (list (R * R)) :=
  do f1 <- np_space epb 0 (fd_n1 f) (fd_t1 f) false;
  do f2 <- np_space 0 enb (fd_n2 f) (fd_t2 f) false;
  do f3 <- np_space epb epy (fd_n3 f) (fd_t3 f) false;
  do f4 <- np_space epy 0 (fd_n4 f) (fd_t4 f) false;
  let lim := enb * (h - (yn - yp)) / h in
  do f5 <- np_space 0 lim (fd_n5 f) (fd_t5 f) false;
  do f6 <- np_space lim (if rc then eny else enb) (fd_n6 f - 1) (fd_t6 f) false;
  let f6 := f6 ++ [if rc then eny else enb] in
  let zp := yn - (1 - eny / enb) * h in
  Ok (map (fun e => (e, epb)) f1 ++ map (fun e => (e, epb)) f2 ++
      map (fun e => (enb, e)) f3 ++ map (fun e => (enb, e)) f4 ++ map (fun e => (enb, e)) f5 ++
      map (fun e => (if rc then - (eny - e) * (zp - yn) / (zp - yp) + eny else enb, e)) f6).
(** sections/_generic.py:1274-1284: strain components in the section system. *)
Definition pair_profile (theta yn yp : R) (x : R * R) : profile :=
  let k := (fst x - snd x) / (yn - yp) in
  (fst x - k * yn, cos theta * k - sin theta * 0, sin theta * k + cos theta * 0).
(** sections/_generic.py:1127-1284 [_compute_ultimate_strain_profiles]. *)
Definition ultimate_profiles (t : traits) (g : compound) (theta : R) (f : fields) : result (list profile * list nat) :=
  let gr := rotate_geo (- theta) g in
  do y <- balanced (tr_rc t) true (items_of t gr);
  let '(yn0, yp0, sy) := y in
  let epy := p_e0 sy + p_ky sy * yp0 in
  let eny := p_e0 sy + p_ky sy * yn0 in
  do b <- balanced (tr_rc t) false (items_of t gr);
  let '(yn, yp, sb) := b in
  let epb := p_e0 sb + p_ky sb * yp in
  let enb := p_e0 sb + p_ky sb * yn in
  let h := yn - min_y gr in
  do nums <- field_nums f;
  do prs <- field_pairs f (tr_rc t) epb enb epy eny yn yp h;
  Ok (map (pair_profile theta yn yp) prs, nums).

(** sections/_generic.py:1098-1100, Python slice [-2:0:-1] of a list: without the last and the first element, reversed. *)
Definition inner_rev {A} (l : list A) : list A := rev (tl (removelast l)).

(** sections/_generic.py:1103-1118, 1374-1388: integration of all profiles. *)
Fixpoint integrate_all (ig : integ) (ms : option R) (g : compound) (ps : list profile) : act (list (R * R * R)) :=
  match ps with
  | [] => aret []
  | p :: ps' => abind (forces_k ig g p ms) (fun F => abind (integrate_all ig ms g ps') (fun r => aret (F :: r)))
  end.
(** core/_section_results.py:182-260 and sections/_generic.py:1120-1123: the
    numbers of the result object. *)
Record domain := { dm_strains : list profile; dm_forces : list (R * R * R); dm_fields : list nat }.
(** sections/_generic.py:992-1125 [calculate_nm_interaction_domain] (after [num] was processed). *)
Definition nm_domain (ig : integ) (t : traits) (ms : R) (g : compound) (theta : R) (f : fields) (complete : bool) : act domain :=
  abind (alift (ultimate_profiles t g theta f)) (fun u =>
  abind (if complete then abind (alift (ultimate_profiles t g (theta + PI) f)) (fun v =>
                            aret (fst u ++ inner_rev (fst v), snd u ++ inner_rev (snd v)))
         else aret u) (fun u =>
  abind (integrate_all ig (Some ms) g (fst u)) (fun F =>
  aret {| dm_strains := fst u; dm_forces := F; dm_fields := snd u |}))).
(** sections/_generic.py:1351-1372: profiles of all angles; [field_num] is the one of the last
    angle, unassigned if there is no angle. *)
Fixpoint all_profiles (t : traits) (g : compound) (f : fields) (thetas : list R) (last : option (list nat))
  : result (list profile * option (list nat)) :=
  match thetas with
  | [] => Ok ([], last)
  | th :: rest =>
      do u <- ultimate_profiles t g th f;
      do v <- all_profiles t g f rest (Some (snd u));
      Ok (fst u ++ fst v, snd v)
  end.
(** sections/_generic.py:1286-1395 [calculate_nmm_interaction_domain] (no mesh_size is passed). *)
Definition nmm_domain (ig : integ) (t : traits) (g : compound) (num_theta : nat) (f : fields) : act domain :=
  abind (alift (all_profiles t g f (linspace 0 (PI * 2) num_theta true) None)) (fun u =>
  abind (integrate_all ig None g (fst u)) (fun F =>
  match snd u with
  | None => afail UnboundLocalError
  | Some nums => aret {| dm_strains := fst u; dm_forces := F; dm_fields := nums |}
  end)).
(** sections/_generic.py:1417-1427: the loop of [calculate_mm_interaction_domain]. *)
Fixpoint strengths (ig : integ) (t : traits) (ms : R) (g : compound) (n : R) (thetas : list R) : act (list strength) :=
  match thetas with
  | [] => aret []
  | th :: rest => abind (bending_strength ig t ms g th n) (fun r => abind (strengths ig t ms g n rest) (fun q => aret (r :: q)))
  end.
(** sections/_generic.py:1397-1429 [calculate_mm_interaction_domain]. *)
Definition mm_domain (ig : integ) (t : traits) (ms : R) (g : compound) (n : R) (num_theta : nat)
  : act (list ((R * R * R) * (R * R * R))) :=
  abind (strengths ig t ms g n (linspace 0 (PI * 2) num_theta true)) (fun l =>
  aret (map (fun r => ((n, rs_my r, rs_mz r), (rs_eps r, rs_chiy r, rs_chiz r))) l)).
