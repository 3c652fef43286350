(** Model of the concrete materials (materials/concrete/_concrete*.py) and of the
    basic materials (materials/basic).  Warnings, names and densities are not modelled;
    initial strains are the subject of M_Laws2. *)
From Coq Require Import String.
From Verif Require Import Base M_Laws M_Registry M_Reinf M_Calc M_Conc M_Crack.
Open Scope R_scope.
Open Scope list_scope.
Local Open Scope string_scope.

(** Optional keyword arguments of the constructors: materials/concrete/_concreteEC2_2004.py:30-61,
    materials/concrete/_concreteMC2010.py:32-63, materials/concrete/_concreteEC2_2023.py:29-60.  ft_lo, ft_hi are
    fctk_5, fctk_95 (EC2) and fctkmin, fctkmax (MC2010); Em is Ecm (EC2) and Eci
    (MC2010); alpha_cc, eps_c3, eps_cu3 do not exist for EC2:2023 (swallowed by
    **kwargs), Gf only for MC2010, kE and the strength development class only for
    EC2:2023. *)
Record cargs := { a_gamma_c : option R; a_alpha_cc : option R; a_kE : R; a_dev : string;
  a_fcm : option R; a_fctm : option R; a_ft_lo : option R; a_ft_hi : option R; a_Em : option R; a_Gf : option R;
  a_eps_c1 : option R; a_eps_cu1 : option R; a_k : option R; a_eps_c2 : option R; a_eps_cu2 : option R; a_n : option R;
  a_eps_c3 : option R; a_eps_cu3 : option R }.
(** The attributes: materials/concrete/_concrete.py:17-44, materials/concrete/_concreteEC2_2004.py:131-165,
    materials/concrete/_concreteMC2010.py:131-166, materials/concrete/_concreteEC2_2023.py:127-158. *)
Record concrete := { c_cls : mclass; c_fck : R; c_a : cargs }.
(** materials/concrete/_concreteEC2_2004.py:138-165,
    materials/concrete/_concreteMC2010.py:140-166,
    materials/concrete/_concreteEC2_2023.py:136-158: [abs(x) if x is not
    None else None]. *)
Definition abs_arg (a : option R) : option R := option_map Rabs a.
(** materials/concrete/_concreteEC2_2004.py:131-165,
    materials/concrete/_concreteMC2010.py:131-166,
    materials/concrete/_concreteEC2_2023.py:127-158,
    materials/concrete/_concrete.py:17-44. *)
Definition concrete_attrs (c : mclass) (fck : R) (a : cargs) : concrete :=
  {| c_cls := c; c_fck := Rabs fck;
     c_a := {| a_gamma_c := a_gamma_c a; a_alpha_cc := a_alpha_cc a; a_kE := a_kE a; a_dev := lower (str_strip (a_dev a));
       a_fcm := abs_arg (a_fcm a); a_fctm := abs_arg (a_fctm a); a_ft_lo := abs_arg (a_ft_lo a); a_ft_hi := abs_arg (a_ft_hi a);
       a_Em := abs_arg (a_Em a); a_Gf := abs_arg (a_Gf a);
       a_eps_c1 := abs_arg (a_eps_c1 a); a_eps_cu1 := abs_arg (a_eps_cu1 a); a_k := a_k a;
       a_eps_c2 := abs_arg (a_eps_c2 a); a_eps_cu2 := abs_arg (a_eps_cu2 a); a_n := a_n a;
       a_eps_c3 := abs_arg (a_eps_c3 a); a_eps_cu3 := abs_arg (a_eps_cu3 a) |} |}.
(** materials/concrete/_concreteEC2_2004.py:183-268,
    materials/concrete/_concreteMC2010.py:185-277,
    materials/concrete/_concreteEC2_2023.py:176-255: [x is not None and
    test]. *)
Definition given_and (p : R -> bool) (a : option R) : bool := match a with Some v => p v | None => false end.
(** __post_init__: materials/concrete/_concreteEC2_2004.py:183-268, materials/concrete/_concreteMC2010.py:185-277,
    materials/concrete/_concreteEC2_2023.py:176-255 *)
Definition post_init (o : concrete) : result unit :=
  let a := c_a o in
  do _ <- (match c_cls o with
           | ClsEC2_2023 =>
               do _ <- refuse (negb (one_of (a_dev a) ["cs"; "cn"; "cr"; "slow"; "normal"; "rapid"]%list));
               refuse (given_and (fun g => Rleb g 0) (a_gamma_c a))
           | _ => Ok tt
           end);
  do _ <- refuse (given_and (fun f => Rleb f (c_fck o)) (a_fcm a));
  do _ <- refuse (given_and (fun k => Rltb k 0) (a_k a));
  refuse (given_and (fun n => Rltb n 0) (a_n a)).

(** * Properties.  EC2:2004 lines 270-498, MC2010 lines 279-519, EC2:2023 lines 257-476. *)
(** materials/concrete/_concreteEC2_2004.py:270-498: [if self._x is None:
    computed else self._x]. *)
Definition or_else (a : option R) (d : result R) : result R := match a with Some v => Ok v | None => d end.
(** materials/concrete/_concreteEC2_2004.py:270-283,
    materials/concrete/_concreteMC2010.py:279-292,
    materials/concrete/_concreteEC2_2023.py:257-270. *)
Definition get_fcm (o : concrete) : R :=
  match a_fcm (c_a o) with Some v => v
  | None => match c_cls o with ClsMC2010 => mc_fcm (c_fck o) 8 | ClsEC2_2004 => ec_fcm (c_fck o) 8 | ClsEC2_2023 => e3_fcm (c_fck o) 8 end end.
(** materials/concrete/_concreteEC2_2004.py:285-298,
    materials/concrete/_concreteMC2010.py:312-325,
    materials/concrete/_concreteEC2_2023.py:272-285. *)
Definition get_fctm (o : concrete) : R :=
  match a_fctm (c_a o) with Some v => v
  | None => match c_cls o with ClsMC2010 => mc_fctm (c_fck o) | ClsEC2_2004 => ec_fctm (c_fck o) | ClsEC2_2023 => e3_fctm (c_fck o) end end.
(** materials/concrete/_concreteEC2_2004.py:300-313,
    materials/concrete/_concreteMC2010.py:327-340,
    materials/concrete/_concreteEC2_2023.py:287-300. *)
Definition get_ft_lo (o : concrete) : R :=
  match a_ft_lo (c_a o) with Some v => v
  | None => match c_cls o with ClsMC2010 => mc_fctkmin (get_fctm o) | ClsEC2_2004 => ec_fctk_5 (get_fctm o) | ClsEC2_2023 => e3_fctk_5 (get_fctm o) end end.
(** materials/concrete/_concreteEC2_2004.py:315-328,
    materials/concrete/_concreteMC2010.py:342-355,
    materials/concrete/_concreteEC2_2023.py:302-315. *)
Definition get_ft_hi (o : concrete) : R :=
  match a_ft_hi (c_a o) with Some v => v
  | None => match c_cls o with ClsMC2010 => mc_fctkmax (get_fctm o) | ClsEC2_2004 => ec_fctk_95 (get_fctm o) | ClsEC2_2023 => e3_fctk_95 (get_fctm o) end end.
(** Eci(fcm) with its defaults 'quartzite' and 21500 *)
(** materials/concrete/_concreteEC2_2004.py:330-343,
    materials/concrete/_concreteMC2010.py:294-310,
    materials/concrete/_concreteEC2_2023.py:317-330. *)
Definition get_Em (o : concrete) : result R :=
  or_else (a_Em (c_a o)) (match c_cls o with ClsMC2010 => mc_Eci (get_fcm o) "quartzite" 21500 | ClsEC2_2004 => Ok (ec_Ecm (get_fcm o)) | ClsEC2_2023 => e3_Ecm (get_fcm o) (a_kE (c_a o)) end).
(** MC2010 only *)
(** materials/concrete/_concreteMC2010.py:357-370. *)
Definition get_Gf (o : concrete) : R := match a_Gf (c_a o) with Some v => v | None => mc_Gf (c_fck o) end.
(** materials/concrete/_concreteEC2_2004.py:357-362,
    materials/concrete/_concreteMC2010.py:372-375,
    materials/concrete/_concreteEC2_2023.py:471-476. *)
Definition get_gamma_c (o : concrete) : R := py_or (a_gamma_c (c_a o)) (15 / 10).
(** EC2:2004 and MC2010 only *)
(** materials/concrete/_concreteEC2_2004.py:364-369,
    materials/concrete/_concreteMC2010.py:389-394. *)
Definition get_alpha_cc (o : concrete) : R := py_or (a_alpha_cc (c_a o)) 1.
(** materials/concrete/_concreteEC2_2004.py:371-385,
    materials/concrete/_concreteMC2010.py:396-410,
    materials/concrete/_concreteEC2_2023.py:374-388. *)
Definition get_eps_c1 (o : concrete) : result R :=
  or_else (a_eps_c1 (c_a o)) (match c_cls o with ClsMC2010 => mc_eps_c1 (c_fck o) | ClsEC2_2004 => Ok (ec_eps_c1 (get_fcm o)) | ClsEC2_2023 => e3_eps_c1 (get_fcm o) end).
(** materials/concrete/_concreteEC2_2004.py:387-400,
    materials/concrete/_concreteMC2010.py:412-425,
    materials/concrete/_concreteEC2_2023.py:390-403. *)
Definition get_eps_cu1 (o : concrete) : result R :=
  or_else (a_eps_cu1 (c_a o)) (match c_cls o with ClsMC2010 => mc_eps_cu1 (c_fck o) | ClsEC2_2004 => Ok (ec_eps_cu1 (c_fck o)) | ClsEC2_2023 => e3_eps_cu1 (get_fcm o) end).
(** materials/concrete/_concreteEC2_2004.py:402-419,
    materials/concrete/_concreteMC2010.py:427-440,
    materials/concrete/_concreteEC2_2023.py:405-422. *)
Definition get_k (o : concrete) : result R :=
  or_else (a_k (c_a o)) (match c_cls o with
    | ClsMC2010 => mc_k_sargin (c_fck o)
    | ClsEC2_2004 => do E <- get_Em o; do e <- get_eps_c1 o; Ok (ec_k_sargin E (get_fcm o) e)
    | ClsEC2_2023 => do E <- get_Em o; do e <- get_eps_c1 o; e3_k_sargin E (get_fcm o) e
    end).
(** materials/concrete/_concreteEC2_2004.py:421-435,
    materials/concrete/_concreteMC2010.py:442-456,
    materials/concrete/_concreteEC2_2023.py:424-438. *)
Definition get_eps_c2 (o : concrete) : R :=
  match a_eps_c2 (c_a o) with Some v => v
  | None => match c_cls o with ClsMC2010 => mc_eps_c2 (c_fck o) | ClsEC2_2004 => ec_eps_c2 (c_fck o) | ClsEC2_2023 => e3_eps_c2 end end.
(** materials/concrete/_concreteEC2_2004.py:437-451,
    materials/concrete/_concreteMC2010.py:458-472,
    materials/concrete/_concreteEC2_2023.py:440-454. *)
Definition get_eps_cu2 (o : concrete) : R :=
  match a_eps_cu2 (c_a o) with Some v => v
  | None => match c_cls o with ClsMC2010 => mc_eps_cu2 (c_fck o) | ClsEC2_2004 => ec_eps_cu2 (c_fck o) | ClsEC2_2023 => e3_eps_cu2 end end.
(** materials/concrete/_concreteEC2_2004.py:453-466,
    materials/concrete/_concreteMC2010.py:474-487,
    materials/concrete/_concreteEC2_2023.py:456-469. *)
Definition get_n (o : concrete) : R :=
  match a_n (c_a o) with Some v => v
  | None => match c_cls o with ClsMC2010 => mc_n (c_fck o) | ClsEC2_2004 => ec_n (c_fck o) | ClsEC2_2023 => e3_n end end.
(** EC2:2004 and MC2010 only *)
(** materials/concrete/_concreteEC2_2004.py:468-482,
    materials/concrete/_concreteMC2010.py:489-503. *)
Definition get_eps_c3 (o : concrete) : R :=
  match a_eps_c3 (c_a o) with Some v => v | None => match c_cls o with ClsEC2_2004 => ec_eps_c3 (c_fck o) | _ => mc_eps_c3 (c_fck o) end end.
(** materials/concrete/_concreteEC2_2004.py:484-498,
    materials/concrete/_concreteMC2010.py:505-519. *)
Definition get_eps_cu3 (o : concrete) : R :=
  match a_eps_cu3 (c_a o) with Some v => v | None => match c_cls o with ClsEC2_2004 => ec_eps_cu3 (c_fck o) | _ => mc_eps_cu3 (c_fck o) end end.
(** EC2:2023 lines 332-372, with the arguments t_ref, t0, fck_ref *)
Definition fcd_2023 (o : concrete) (t_ref t0 fck_ref : R) : result R :=
  do eta <- e3_eta_cc (c_fck o) fck_ref; do k <- e3_k_tc t_ref t0 (a_dev (c_a o)); e3_fcd (c_fck o) eta k (get_gamma_c o).
(** materials/concrete/_concreteEC2_2023.py:356-372. *)
Definition fctd_2023 (o : concrete) (t_ref : R) : result R :=
  do k <- e3_k_tt t_ref (a_dev (c_a o)); e3_fctd (get_ft_lo o) k (get_gamma_c o).
(** EC2:2004 lines 345-355, MC2010 lines 377-387, EC2:2023 with the defaults 28, 91, 40 *)
(** materials/concrete/_concreteEC2_2004.py:345-355,
    materials/concrete/_concreteMC2010.py:377-387,
    materials/concrete/_concreteEC2_2023.py:332-354. *)
Definition get_fcd (o : concrete) : result R :=
  match c_cls o with
  | ClsMC2010 => Ok (mc_fcd (c_fck o) (get_alpha_cc o) (get_gamma_c o))
  | ClsEC2_2004 => Ok (ec_fcd (c_fck o) (get_alpha_cc o) (get_gamma_c o))
  | ClsEC2_2023 => fcd_2023 o 28 91 40
  end.

(** * Laws.  EC2:2004 lines 500-537, MC2010 lines 521-558, EC2:2023 lines 478-507. *)
(** materials/concrete/_concreteEC2_2004.py:500-537,
    materials/concrete/_concreteMC2010.py:521-558,
    materials/concrete/_concreteEC2_2023.py:478-507: the dictionaries
    returned. *)
Inductive ckwargs := CKElastic (E : R) | CKBilinear (fc eps_c eps_cu : R) | CKParabola (fc eps_0 eps_u n : R)
  | CKSargin (fc eps_c1 eps_cu1 k : R) | CKPopovics (fc eps_c eps_cu Ec : R).
(** materials/concrete/_concreteEC2_2004.py:500-537,
    materials/concrete/_concreteMC2010.py:521-558,
    materials/concrete/_concreteEC2_2023.py:478-507: the dunder method of a
    law name. *)
Definition c_methods (o : concrete) (m : string) : option (result ckwargs) :=
  if String.eqb m "__elastic__" then Some (do E <- get_Em o; Ok (CKElastic E))
  else if String.eqb m "__bilinearcompression__" then
    match c_cls o with ClsEC2_2023 => None | _ => Some (do fc <- get_fcd o; Ok (CKBilinear fc (get_eps_c3 o) (get_eps_cu3 o))) end
  else if String.eqb m "__parabolarectangle__" then Some (do fc <- get_fcd o; Ok (CKParabola fc (get_eps_c2 o) (get_eps_cu2 o) (get_n o)))
  else if String.eqb m "__sargin__" then Some (do e <- get_eps_c1 o; do u <- get_eps_cu1 o; do k <- get_k o; Ok (CKSargin (get_fcm o) e u k))
  else if String.eqb m "__popovics__" then Some (do fc <- get_fcd o; do e <- get_eps_c1 o; do u <- get_eps_cu1 o; do E <- get_Em o; Ok (CKPopovics fc e u E))
  else None.
(** materials/constitutive_laws/__init__.py:30-39: the laws a concrete can be given. *)
Inductive claw := LElastic (l : elastic) | LBilinear (l : bil) | LParabola (l : pr) | LSargin (l : sargin) | LPopovics (l : popovics)
  (** any other law object, with what its class says about concrete *)
  | LOther (for_concrete : bool).
(** materials/constitutive_laws/__init__.py:83-85: the class called on the dictionary. *)
Definition c_build (c : lclass) (k : ckwargs) : result claw :=
  match c, k with
  | CElastic, CKElastic E => do l <- elastic_init E None; Ok (LElastic l)
  | CBilinear, CKBilinear fc e u => do l <- bil_init fc e (Some u); Ok (LBilinear l)
  | CParabola, CKParabola fc e u n => Ok (LParabola (pr_init fc e u n))
  | CSargin, CKSargin fc e u k => Ok (LSargin (sargin_init fc e u k))
  | CPopovics, CKPopovics fc e u E => do l <- popovics_init fc e u (Some E); Ok (LPopovics l)
  | _, _ => Err TypeError
  end.
(** materials/concrete/_concreteEC2_2004.py:178-181 with __materials__ of the law classes (e.g. materials/constitutive_laws/_sargin.py:25) *)
Definition for_concrete (l : claw) : bool := match l with LOther b => b | _ => true end.
(** materials/concrete/_concreteEC2_2004.py:170-177, materials/concrete/_concreteMC2010.py:172-179, materials/concrete/_concreteEC2_2023.py:163-170: the constitutive_law argument, a name or a law object. *)
Inductive law_arg := LName (n : string) | LLaw (l : claw).
(** materials/concrete/_concrete.py:38-41 *)
Definition base_init (existing : bool) : result unit := if existing then Err NotImplementedError else Ok tt.
(** materials/concrete/_concreteEC2_2004.py:122-181, materials/concrete/_concreteMC2010.py:122-183,
    materials/concrete/_concreteEC2_2023.py:117-174.  [existing] reaches the subclasses in **kwargs, which
    they delete: they hand existing=False (EC2), or nothing (MC2010), to Concrete, whose
    own check is thus never reached. *)
Definition concrete_init (c : mclass) (fck : R) (existing : bool) (a : cargs) (law : law_arg) : result (concrete * claw) :=
  let o := concrete_attrs c fck a in
  do _ <- base_init false;
  do _ <- post_init o;
  do l <- (match law with LLaw l => Ok l | LName n => create_law (c_methods o) c_build n end);
  do _ <- refuse (negb (for_concrete l));
  Ok (o, l).

(** * Basic materials *)
(** materials/basic/_elastic.py:14-66: the law of the material *)
Definition elastic_material (E : R) (ultimate_strain : option epsu_arg) : result elastic := elastic_init E ultimate_strain.
(** materials/basic/_elastic.py:68-80: from the tangent at zero strain of another
    material's law; laws whose tangent is not modelled here are left out. *)
Definition tangent_at_zero (l : claw) : result R :=
  match l with
  | LElastic l => Ok (elastic_tangent l 0)
  | LBilinear l => Ok (bil_tangent l 0)
  | LParabola l => Ok (pr_tangent l 0)
  | LSargin l => sargin_tangent l 0
  | LPopovics l => Ok (popovics_tangent l 0)
  | LOther _ => Err NotImplementedError
  end.
(** materials/basic/_elastic.py:68-80 [from_material]. *)
Definition from_material (l : claw) : result elastic := do E <- tangent_at_zero l; elastic_material E None.
(** materials/basic/_elasticplastic.py:17-92: the law of the material *)
Definition elasticplastic_material (E fy Eh : R) (eps_su : option R) : result ep := ep_init E fy Eh eps_su.
