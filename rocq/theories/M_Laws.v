(** Model of structuralcodes/materials/constitutive_laws: Elastic,
    ElasticPlastic, ParabolaRectangle, BilinearCompression, Sargin, Popovics,
    and of ConstitutiveLaw.preprocess_strains_with_limits / get_secant in
    core/base.py.  Each law has a scalar branch and an array branch in the code;
    both are modelled separately and literally.  Float arrays are [list R].
    Integer-typed arrays are not modelled. *)
From Verif Require Import Base.

(** core/base.py:199-213: scalar branch of preprocess_strains_with_limits. *)
Definition prep (lim : R * R) (eps : R) : R :=
  if isclose (/ 1000000) eps (snd lim) then snd lim
  else if isclose (/ 1000000) eps (fst lim) then fst lim
  else eps.

(** core/base.py:205-206, 214-219: array branch.  [eps] is the caller's array itself
    (np.atleast_1d does not copy a 1-d array), so the returned list is both the
    result and the new content of the caller's array. *)
Definition prep_arr (lim : R * R) (eps : list R) : list R :=
  let e1 := masked (map (fun e => isclose (/ 1000000) e (snd lim)) eps)
                   (map (fun _ => snd lim) eps) eps in
  masked (map (fun e => isclose (/ 1000000) e (fst lim)) e1)
         (map (fun _ => fst lim) e1) e1.

(** core/base.py:268-288 (and the overrides in each law): return value of __marin__ and __marin_tangent__: [strains] (None or list of
    ranges) and [coeff] (list of coefficient tuples); together with the value of
    strain[0] after the call, because the code assigns strain[0] in place. *)
Definition marin_out : Type := (option (list (R * R)) * list (list R))%type.

(** ** Elastic *)
(** materials/constitutive_laws/_elastic.py:112-147 _set_ultimate_strain; the argument is a float, a tuple
    or anything else. *)
Inductive epsu_arg := EFloat (x : R) | ETuple (l : list R) | EOther.

(** materials/constitutive_laws/_elastic.py:112-147 _set_ultimate_strain. *)
Definition set_ultimate (a : epsu_arg) : result (R * R) :=
  match a with
  | EFloat x => Ok (- Rabs x, Rabs x)
  | ETuple l =>
      match l with
      | n :: p :: _ =>
          let p' := if Rltb p n then n else p in
          let n' := if Rltb p n then p else n in
          if Rltb p' 0 then Err ValueError
          else if Rltb 0 n' then Err ValueError
          else Ok (n', p')
      | _ => Err ValueError
      end
  | EOther => Err ValueError
  end.

(** materials/constitutive_laws/_elastic.py:22-48: the attributes of an Elastic
    law (_E, _eps_u). *)
Record elastic := { el_E : R; el_u : option (R * R) }.

(** materials/constitutive_laws/_elastic.py:22-48 __init__. *)
Definition elastic_init (E : R) (eps_u : option epsu_arg) : result elastic :=
  if Rleb E 0 then Err ValueError
  else match eps_u with
       | None => Ok {| el_E := E; el_u := None |}
       | Some a => do u <- set_ultimate a; Ok {| el_E := E; el_u := Some u |}
       end.
(** materials/constitutive_laws/_elastic.py:50-55. No preprocessing, no cut-off. *)
Definition elastic_stress (l : elastic) (eps : R) : R := el_E l * eps.
(** materials/constitutive_laws/_elastic.py:50-55, array input. *)
Definition elastic_stress_arr (l : elastic) (eps : list R) : list R := map (fun e => el_E l * e) eps.
(** materials/constitutive_laws/_elastic.py:57-64. *)
Definition elastic_tangent (l : elastic) (_ : R) : R := el_E l.
(** materials/constitutive_laws/_elastic.py:57-64, array input. *)
Definition elastic_tangent_arr (l : elastic) (eps : list R) : list R := map (fun o => o * el_E l) (map (fun _ => 1) eps).
(** materials/constitutive_laws/_elastic.py:66-84 __marin__. *)
Definition elastic_marin (l : elastic) (s : R * R) : R * marin_out :=
  (fst s, (None, [[el_E l * fst s; el_E l * snd s]])).
(** materials/constitutive_laws/_elastic.py:86-103 __marin_tangent__. *)
Definition elastic_marin_tangent (l : elastic) (s : R * R) : R * marin_out :=
  (fst s, (None, [[el_E l]])).
(** materials/constitutive_laws/_elastic.py:105-110: [self._eps_u or (-100, 100)]; a pair is truthy. *)
Definition elastic_ult (l : elastic) : R * R :=
  match el_u l with Some u => u | None => (-100, 100) end.

(** ** ElasticPlastic *)
(** materials/constitutive_laws/_elasticplastic.py:21-49: the attributes (_E,
    _fy, _Eh, _eps_su, _eps_sy). *)
Record ep := { ep_E : R; ep_fy : R; ep_Eh : R; ep_su : option R; ep_sy : R }.
(** materials/constitutive_laws/_elasticplastic.py:21-49 __init__. *)
Definition ep_init (E fy Eh : R) (su : option R) : result ep :=
  if Rltb 0 E then Ok {| ep_E := E; ep_fy := fy; ep_Eh := Eh; ep_su := su; ep_sy := fy / E |}
  else Err ValueError.
(** materials/constitutive_laws/_elasticplastic.py:218-227 get_ultimate_strain (yielding False / True). *)
Definition ep_ult (l : ep) : R * R :=
  match ep_su l with
  | None => (- ep_sy l * 2, ep_sy l * 2)
  | Some u => (- u, u)
  end.
(** materials/constitutive_laws/_elasticplastic.py:218-227, yielding=True. *)
Definition ep_yield (l : ep) : R * R := (- ep_sy l, ep_sy l).
(** materials/constitutive_laws/_elasticplastic.py:51-76 scalar branch. *)
Definition ep_stress (l : ep) (eps0 : R) : R :=
  let eps := prep (ep_ult l) eps0 in
  let sig := ep_E l * eps in
  let d := ep_fy l * (1 - ep_Eh l / ep_E l) in
  let sig := if Rltb sig (- ep_fy l) then eps * ep_Eh l - d else sig in
  let sig := if Rltb (ep_fy l) sig then eps * ep_Eh l + d else sig in
  match ep_su l with
  | None => sig
  | Some u => if orb (Rltb u eps) (Rltb eps (- u)) then 0 else sig
  end.
(** materials/constitutive_laws/_elasticplastic.py:51-76 array branch. *)
Definition ep_stress_arr (l : ep) (eps0 : list R) : list R :=
  let eps := prep_arr (ep_ult l) eps0 in
  let sig := map (fun e => ep_E l * e) eps in
  let d := ep_fy l * (1 - ep_Eh l / ep_E l) in
  let sig := masked (map (fun s => Rltb s (- ep_fy l)) sig) (map (fun e => e * ep_Eh l - d) eps) sig in
  let sig := masked (map (fun s => Rltb (ep_fy l) s) sig) (map (fun e => e * ep_Eh l + d) eps) sig in
  match ep_su l with
  | None => sig
  | Some u =>
      let sig := masked (map (fun e => Rltb u e) eps) (map (fun _ => 0) eps) sig in
      masked (map (fun e => Rltb e (- u)) eps) (map (fun _ => 0) eps) sig
  end.
(** materials/constitutive_laws/_elasticplastic.py:78-100 (no preprocessing). *)
Definition ep_tangent (l : ep) (eps : R) : R :=
  let t := if andb (Rleb (- ep_sy l) eps) (Rleb eps (ep_sy l)) then ep_E l else ep_Eh l in
  match ep_su l with
  | None => t
  | Some u => if orb (Rltb u eps) (Rltb eps (- u)) then 0 else t
  end.
(** materials/constitutive_laws/_elasticplastic.py:78-100, array branch. *)
Definition ep_tangent_arr (l : ep) (eps : list R) : list R :=
  let t := map (fun o => o * ep_E l) (map (fun _ => 1) eps) in
  let t := masked (map (fun e => Rltb (ep_sy l) e) eps) (map (fun _ => ep_Eh l) eps) t in
  let t := masked (map (fun e => Rltb e (- ep_sy l)) eps) (map (fun _ => ep_Eh l) eps) t in
  match ep_su l with
  | None => t
  | Some u =>
      let t := masked (map (fun e => Rltb u e) eps) (map (fun _ => 0) eps) t in
      masked (map (fun e => Rltb e (- u)) eps) (map (fun _ => 0) eps) t
  end.
(** materials/constitutive_laws/_elasticplastic.py:102-161 __marin__. *)
Definition ep_marin (l : ep) (s : R * R) : R * marin_out :=
  let '(e0, e1) := s in
  let E := ep_E l in let Eh := ep_Eh l in let fy := ep_fy l in
  let '(syn, syp) := ep_yield l in let '(sun, sup) := ep_ult l in
  if Reqb e1 0 then
    let e0 := prep (ep_ult l) e0 in
    (e0,
     if andb (Rltb syp e0) (Rleb e0 sup) then (None, [[Eh * e0 + fy * (1 - Eh / E); Eh * e1]])
     else if andb (Rltb e0 syn) (Rleb sun e0) then (None, [[Eh * e0 - fy * (1 - Eh / E); Eh * e1]])
     else if Rleb (Rabs e0) (ep_sy l) then (None, [[E * e0; E * e1]])
     else (None, [[0]]))
  else
    (e0, (Some [(sun, syn); (syn, syp); (syp, sup)],
          [[Eh * e0 - fy * (1 - Eh / E); Eh * e1];
           [E * e0; E * e1];
           [Eh * e0 + fy * (1 - Eh / E); Eh * e1]])).
(** materials/constitutive_laws/_elasticplastic.py:163-216 __marin_tangent__. *)
Definition ep_marin_tangent (l : ep) (s : R * R) : R * marin_out :=
  let '(e0, e1) := s in
  let '(syn, syp) := ep_yield l in let '(sun, sup) := ep_ult l in
  if Reqb e1 0 then
    let e0 := prep (ep_ult l) e0 in
    (e0,
     if andb (Rltb syp e0) (Rleb e0 sup) then (None, [[ep_Eh l]])
     else if andb (Rltb e0 syn) (Rleb sun e0) then (None, [[ep_Eh l]])
     else if Rleb (Rabs e0) (ep_sy l) then (None, [[ep_E l]])
     else (None, [[0]]))
  else
    (e0, (Some [(sun, syn); (syn, syp); (syp, sup)], [[ep_Eh l]; [ep_E l]; [ep_Eh l]])).

(** ** ParabolaRectangle *)
(** Python's [x ** n], as used in materials/constitutive_laws/_parabolarectangle.py:50-110 and _popovics.py:76-125, for a non-negative base and positive exponent (the only
    powers taken inside the masks for valid parameters). *)
Definition pypow (x n : R) : R := if Reqb x 0 then (if Reqb n 0 then 1 else 0) else Rpower x n.

(** materials/constitutive_laws/_parabolarectangle.py:22-48: the attributes
    (_fc, _eps_0, _eps_u, _n). *)
Record pr := { pr_fc : R; pr_e0 : R; pr_eu : R; pr_n : R }.
(** materials/constitutive_laws/_parabolarectangle.py:22-48 __init__. *)
Definition pr_init (fc eps_0 eps_u n : R) : pr :=
  {| pr_fc := - Rabs fc; pr_e0 := - Rabs eps_0; pr_eu := - Rabs eps_u; pr_n := n |}.
(** materials/constitutive_laws/_parabolarectangle.py:249-255. *)
Definition pr_ult (l : pr) : R * R := (pr_eu l, 100).
(** materials/constitutive_laws/_parabolarectangle.py:50-70 scalar.  eps_0 = 0 would raise
    ZeroDivisionError; theorems assume eps_0 <> 0. *)
Definition pr_stress (l : pr) (eps0 : R) : R :=
  let eps := prep (pr_ult l) eps0 in
  let sig := 0 in
  let sig := if andb (Rleb (pr_e0 l) eps) (Rleb eps 0)
             then pr_fc l * (1 - pypow (1 - eps / pr_e0 l) (pr_n l)) else sig in
  if andb (Rleb (pr_eu l) eps) (Rltb eps (pr_e0 l)) then pr_fc l else sig.
(** materials/constitutive_laws/_parabolarectangle.py:71-79 array. *)
Definition pr_stress_arr (l : pr) (eps0 : list R) : list R :=
  let eps := prep_arr (pr_ult l) eps0 in
  let sig := map (fun _ => 0) eps in
  let sig := masked (map (fun e => andb (Rleb e 0) (Rleb (pr_e0 l) e)) eps)
                    (map (fun e => pr_fc l * (1 - pypow (1 - e / pr_e0 l) (pr_n l))) eps) sig in
  let sig := masked (map (fun e => Rltb e (pr_e0 l)) eps) (map (fun _ => pr_fc l) eps) sig in
  let sig := masked (map (fun e => Rltb e (pr_eu l)) eps) (map (fun _ => 0) eps) sig in
  masked (map (fun e => Rltb 0 e) eps) (map (fun _ => 0) eps) sig.
(** materials/constitutive_laws/_parabolarectangle.py:81-98 scalar tangent. *)
Definition pr_tangent (l : pr) (eps : R) : R :=
  if andb (Rleb (pr_e0 l) eps) (Rleb eps 0)
  then pr_n l * pr_fc l / pr_e0 l * pypow (1 - eps / pr_e0 l) (pr_n l - 1) else 0.
(** materials/constitutive_laws/_parabolarectangle.py:99-110 array tangent. *)
Definition pr_tangent_arr (l : pr) (eps : list R) : list R :=
  let t := map (fun _ => 0) eps in
  let t := masked (map (fun e => andb (Rleb e 0) (Rleb (pr_e0 l) e)) eps)
             (map (fun e => pr_n l * pr_fc l / pr_e0 l * pypow (1 - e / pr_e0 l) (pr_n l - 1)) eps) t in
  let t := masked (map (fun e => Rltb e (pr_e0 l)) eps) (map (fun _ => 0) eps) t in
  masked (map (fun e => Rltb 0 e) eps) (map (fun _ => 0) eps) t.
(** materials/constitutive_laws/_parabolarectangle.py:112-190 __marin__ for n = 2 (line 130: other exponents
    are discretised through the base class, modelled in M_Discr). *)
Definition pr_marin2 (l : pr) (s : R * R) : R * marin_out :=
  let '(e0, e1) := s in
  let fc := pr_fc l in let eps0 := pr_e0 l in
  if Reqb e1 0 then
    let e0 := prep (pr_ult l) e0 in
    (e0,
     if Rltb 0 e0 then (None, [[0]])
     else if Rltb eps0 e0 then
       (None, [[2 * fc * e0 / eps0 * (1 - 5 / 10 * (e0 / eps0));
                2 * fc / eps0 * e1 * (1 - e0 / eps0); 0]])
     else if Rleb (pr_eu l) e0 then (None, [[fc]])
     else (None, [[0]]))
  else
    (e0, (Some [(eps0, 0); (pr_eu l, eps0)],
          [[2 * fc * e0 / eps0 * (1 - 5 / 10 * (e0 / eps0));
            2 * fc / eps0 * e1 * (1 - e0 / eps0);
            - fc * e1 ^ 2 / eps0 ^ 2];
           [fc]])).
(** materials/constitutive_laws/_parabolarectangle.py:192-247 __marin_tangent__ for n = 2. *)
Definition pr_marin_tangent2 (l : pr) (s : R * R) : R * marin_out :=
  let '(e0, e1) := s in
  let fc := pr_fc l in let eps0 := pr_e0 l in
  if Reqb e1 0 then
    let e0 := prep (pr_ult l) e0 in
    (e0,
     if Rltb 0 e0 then (None, [[0]])
     else if Rltb eps0 e0 then
       (None, [[2 * fc / eps0 * (1 - e0 / eps0); -2 * fc / eps0 ^ 2 * e1]])
     else (None, [[0]]))
  else
    (e0, (Some [(eps0, 0); (pr_eu l, eps0)],
          [[2 * fc / eps0 * (1 - e0 / eps0); -2 * fc / eps0 ^ 2 * e1]; [0]])).

(** ** BilinearCompression *)
(** materials/constitutive_laws/_bilinearcompression.py:20-42: the attributes
    (_fc, _eps_c, _eps_cu, _E). *)
Record bil := { bi_fc : R; bi_ec : R; bi_ecu : R; bi_E : R }.
(** materials/constitutive_laws/_bilinearcompression.py:20-42 __init__: [abs(None)] raises TypeError when
    eps_cu is left at its default; fc/eps_c raises ZeroDivisionError for
    eps_c = 0. *)
Definition bil_init (fc eps_c : R) (eps_cu : option R) : result bil :=
  match eps_cu with
  | None => Err TypeError
  | Some u =>
      if Reqb eps_c 0 then Err ZeroDivisionError
      else Ok {| bi_fc := - Rabs fc; bi_ec := - Rabs eps_c; bi_ecu := - Rabs u;
                 bi_E := (- Rabs fc) / (- Rabs eps_c) |}
  end.
(** materials/constitutive_laws/_bilinearcompression.py:178-184. *)
Definition bil_ult (l : bil) : R * R := (bi_ecu l, 100).
(** materials/constitutive_laws/_bilinearcompression.py:44-57 scalar. *)
Definition bil_stress (l : bil) (eps0 : R) : R :=
  let eps := prep (bil_ult l) eps0 in
  if orb (Rltb 0 eps) (Rltb eps (bi_ecu l)) then 0
  else Rmax (bi_E l * eps) (bi_fc l).
(** materials/constitutive_laws/_bilinearcompression.py:58-63 array. *)
Definition bil_stress_arr (l : bil) (eps0 : list R) : list R :=
  let eps := prep_arr (bil_ult l) eps0 in
  let sig := map (fun e => bi_E l * e) eps in
  let sig := masked (map (fun s => Rltb s (bi_fc l)) sig) (map (fun _ => bi_fc l) eps) sig in
  let sig := masked (map (fun e => Rltb 0 e) eps) (map (fun _ => 0) eps) sig in
  masked (map (fun e => Rltb e (bi_ecu l)) eps) (map (fun _ => 0) eps) sig.
(** materials/constitutive_laws/_bilinearcompression.py:65-75 scalar. *)
Definition bil_tangent (l : bil) (eps : R) : R :=
  if andb (Rltb (bi_ec l) eps) (Rleb eps 0) then bi_E l else 0.
(** materials/constitutive_laws/_bilinearcompression.py:77-81 array. *)
Definition bil_tangent_arr (l : bil) (eps : list R) : list R :=
  let t := map (fun o => o * bi_E l) (map (fun _ => 1) eps) in
  let t := masked (map (fun e => Rleb 0 e) eps) (map (fun _ => 0) eps) t in
  masked (map (fun e => Rltb e (bi_ec l)) eps) (map (fun _ => 0) eps) t.
(** materials/constitutive_laws/_bilinearcompression.py:83-131. *)
Definition bil_marin (l : bil) (s : R * R) : R * marin_out :=
  let '(e0, e1) := s in
  if Reqb e1 0 then
    let e0 := prep (bil_ult l) e0 in
    (e0,
     if Rltb 0 e0 then (None, [[0]])
     else if Rltb (bi_ec l) e0 then (None, [[bi_E l * e0; bi_E l * e1]])
     else if Rleb (bi_ecu l) e0 then (None, [[bi_fc l]])
     else (None, [[0]]))
  else
    (e0, (Some [(bi_ec l, 0); (bi_ecu l, bi_ec l)],
          [[bi_E l * e0; bi_E l * e1]; [bi_fc l]])).
(** materials/constitutive_laws/_bilinearcompression.py:133-176. *)
Definition bil_marin_tangent (l : bil) (s : R * R) : R * marin_out :=
  let '(e0, e1) := s in
  if Reqb e1 0 then
    let e0 := prep (bil_ult l) e0 in
    (e0,
     if Rltb 0 e0 then (None, [[0]])
     else if Rltb (bi_ec l) e0 then (None, [[bi_E l]])
     else (None, [[0]]))
  else (e0, (Some [(bi_ec l, 0); (bi_ecu l, bi_ec l)], [[bi_E l]; [0]])).

(** ** Sargin *)
(** materials/constitutive_laws/_sargin.py:27-60: the attributes (_fc, _eps_c1,
    _eps_cu1, _k). *)
Record sargin := { sa_fc : R; sa_ec1 : R; sa_ecu1 : R; sa_k : R }.
(** materials/constitutive_laws/_sargin.py:27-60 __init__ (no check of k). *)
Definition sargin_init (fc eps_c1 eps_cu1 k : R) : sargin :=
  {| sa_fc := - Rabs fc; sa_ec1 := - Rabs eps_c1; sa_ecu1 := - Rabs eps_cu1; sa_k := k |}.
(** materials/constitutive_laws/_sargin.py:109-115. *)
Definition sargin_ult (l : sargin) : R * R := (sa_ecu1 l, 100).
(** materials/constitutive_laws/_sargin.py:69-74: the rational function. *)
Definition sargin_raw (l : sargin) (eps : R) : R :=
  let eta := eps / sa_ec1 l in
  sa_fc l * (sa_k l * eta - eta ^ 2) / (1 + (sa_k l - 2) * eta).
(** materials/constitutive_laws/_sargin.py:62-83 scalar branch on a Python float: both divisions are
    evaluated before the strain check and raise ZeroDivisionError. *)
Definition sargin_stress (l : sargin) (eps0 : R) : result R :=
  let eps := prep (sargin_ult l) eps0 in
  if Reqb (sa_ec1 l) 0 then Err ZeroDivisionError
  else if Reqb (1 + (sa_k l - 2) * (eps / sa_ec1 l)) 0 then Err ZeroDivisionError
  else if orb (Rltb eps (sa_ecu1 l)) (Rltb 0 eps) then Ok 0
  else Ok (sargin_raw l eps).
(** materials/constitutive_laws/_sargin.py:62-83 array branch: numpy division never raises; entries outside
    [eps_cu1, 0] are overwritten by 0.  Entries inside with a zero denominator
    would be inf/nan in numpy (a real division by 0 here): theorems exclude
    that case. *)
Definition sargin_stress_arr (l : sargin) (eps0 : list R) : list R :=
  let eps := prep_arr (sargin_ult l) eps0 in
  let sig := map (sargin_raw l) eps in
  let sig := masked (map (fun e => Rltb e (sa_ecu1 l)) eps) (map (fun _ => 0) eps) sig in
  masked (map (fun e => Rltb 0 e) eps) (map (fun _ => 0) eps) sig.
(** materials/constitutive_laws/_sargin.py:91-99: the rational function of the tangent. *)
Definition sargin_raw_tangent (l : sargin) (eps : R) : R :=
  let eta := eps / sa_ec1 l in
  sa_fc l / sa_ec1 l * ((2 - sa_k l) * eta ^ 2 - 2 * eta + sa_k l) / (1 + (sa_k l - 2) * eta) ^ 2.
(** materials/constitutive_laws/_sargin.py:85-107 (no preprocessing). *)
Definition sargin_tangent (l : sargin) (eps : R) : result R :=
  if Reqb (sa_ec1 l) 0 then Err ZeroDivisionError
  else if Reqb (1 + (sa_k l - 2) * (eps / sa_ec1 l)) 0 then Err ZeroDivisionError
  else if orb (Rltb eps (sa_ecu1 l)) (Rltb 0 eps) then Ok 0
  else Ok (sargin_raw_tangent l eps).
(** materials/constitutive_laws/_sargin.py:85-107, array branch. *)
Definition sargin_tangent_arr (l : sargin) (eps : list R) : list R :=
  let t := map (sargin_raw_tangent l) eps in
  let t := masked (map (fun e => Rltb e (sa_ecu1 l)) eps) (map (fun _ => 0) eps) t in
  masked (map (fun e => Rltb 0 e) eps) (map (fun _ => 0) eps) t.

(** ** Popovics *)
(** materials/constitutive_laws/_popovics.py:33-74: the attributes (_fc, _eps_c,
    _eps_cu, _n). *)
Record popovics := { po_fc : R; po_ec : R; po_ecu : R; po_n : R }.
(** materials/constitutive_laws/_popovics.py:33-74 __init__; division errors as in Python. *)
Definition popovics_init (fc eps_c eps_cu : R) (Ec : option R) : result popovics :=
  let ec := match Ec with None => 5000 * sqrt (Rabs fc) | Some e => e end in
  if Rleb ec 0 then Err ValueError
  else if Reqb eps_c 0 then Err ZeroDivisionError
  else
    let esec := (- Rabs fc) / (- Rabs eps_c) in
    if Reqb (ec - esec) 0 then Err ZeroDivisionError
    else Ok {| po_fc := - Rabs fc; po_ec := - Rabs eps_c; po_ecu := - Rabs eps_cu;
               po_n := ec / (ec - esec) |}.
(** materials/constitutive_laws/_popovics.py:127-133. *)
Definition popovics_ult (l : popovics) : R * R := (po_ecu l, 100).
(** materials/constitutive_laws/_popovics.py:83-86 (for strains in [eps_cu, 0], where eta >= 0). *)
Definition popovics_raw (l : popovics) (eps : R) : R :=
  let eta := eps / po_ec l in
  po_fc l * eta * po_n l / (po_n l - 1 + pypow eta (po_n l)).
(** materials/constitutive_laws/_popovics.py:76-97 scalar.  Simplification: for eps > 0 the code evaluates
    eta**n on a negative base (complex or nan) and then discards it; the model
    goes straight to the discarding branch.  n > 1 is assumed by theorems. *)
Definition popovics_stress (l : popovics) (eps0 : R) : R :=
  let eps := prep (popovics_ult l) eps0 in
  if orb (Rltb eps (po_ecu l)) (Rltb 0 eps) then 0 else popovics_raw l eps.
(** materials/constitutive_laws/_popovics.py:76-97 array. *)
Definition popovics_stress_arr (l : popovics) (eps0 : list R) : list R :=
  let eps := prep_arr (popovics_ult l) eps0 in
  let sig := map (popovics_raw l) eps in
  let sig := masked (map (fun e => Rltb e (po_ecu l)) eps) (map (fun _ => 0) eps) sig in
  masked (map (fun e => Rltb 0 e) eps) (map (fun _ => 0) eps) sig.
(** materials/constitutive_laws/_popovics.py:108-117. *)
Definition popovics_raw_tangent (l : popovics) (eps : R) : R :=
  let eta := eps / po_ec l in
  (1 - pypow eta (po_n l)) / (po_n l - 1 + pypow eta (po_n l)) ^ 2
  * po_n l * (po_n l - 1) * po_fc l / po_ec l.
(** materials/constitutive_laws/_popovics.py:99-125; this law's tangent does preprocess the strains. *)
Definition popovics_tangent (l : popovics) (eps0 : R) : R :=
  let eps := prep (popovics_ult l) eps0 in
  if orb (Rltb eps (po_ecu l)) (Rltb 0 eps) then 0 else popovics_raw_tangent l eps.
(** materials/constitutive_laws/_popovics.py:99-125, array branch. *)
Definition popovics_tangent_arr (l : popovics) (eps0 : list R) : list R :=
  let eps := prep_arr (popovics_ult l) eps0 in
  let t := map (popovics_raw_tangent l) eps in
  let t := masked (map (fun e => Rltb e (po_ecu l)) eps) (map (fun _ => 0) eps) t in
  masked (map (fun e => Rltb 0 e) eps) (map (fun _ => 0) eps) t.

(** ** get_secant (core/base.py:290-312), generic in the law *)
(** core/base.py:290-302 scalar branch. *)
Definition secant (stress tangent : R -> R) (eps : R) : R :=
  if negb (Reqb eps 0) then stress eps / eps else tangent eps.
(** core/base.py:304-312: boolean indexing [eps[mask]] makes copies
    on which the law is evaluated, and the results are scattered back. *)
Fixpoint scatter (mask : list bool) (vals dst : list R) : list R :=
  match mask, dst with
  | true :: ms, d :: ds => match vals with v :: vs => v :: scatter ms vs ds | [] => d :: ds end
  | false :: ms, d :: ds => d :: scatter ms vals ds
  | _, _ => dst
  end.
(** core/base.py:304-312: numpy's [eps[mask]]. *)
Fixpoint select (mask : list bool) (l : list R) : list R :=
  match mask, l with
  | true :: ms, x :: xs => x :: select ms xs
  | false :: ms, _ :: xs => select ms xs
  | _, _ => []
  end.
(** core/base.py:309-311: elementwise division of two arrays. *)
Definition zipdiv (a b : list R) : list R := map (fun p => fst p / snd p) (combine a b).
(** core/base.py:304-312: array branch of get_secant. *)
Definition secant_arr (stress_arr tangent_arr : list R -> list R) (eps : list R) : list R :=
  let s := map (fun _ => 0) eps in
  let mz := map (fun e => Reqb e 0) eps in
  let mn := map (fun e => negb (Reqb e 0)) eps in
  let s := scatter mz (tangent_arr (select mz eps)) s in
  scatter mn (zipdiv (stress_arr (select mn eps)) (select mn eps)) s.
