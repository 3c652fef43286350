(** Model of the wrapper laws: UserDefined, Parallel, InitialStrain
    (structuralcodes/materials/constitutive_laws) and of Material's initial
    stress handling (core/base.py). *)
From Verif Require Import Base M_Laws.

(** * UserDefined *)
(** materials/constitutive_laws/_userdefined.py:110: np.interp(e, xp, fp, left=0, right=0) for one value; xp must be increasing
    for numpy's result to be meaningful.  numpy returns fp[j] exactly on a node
    and slope*(e - xp[j]) + fp[j] between nodes. *)
Fixpoint interp_go (x0 y0 : R) (xs ys : list R) (e : R) : R :=
  match xs, ys with
  | x1 :: xs', y1 :: ys' =>
      if Rltb e x1 then
        if Reqb e x0 then y0 else (y1 - y0) / (x1 - x0) * (e - x0) + y0
      else interp_go x1 y1 xs' ys' e
  | _, _ => if Reqb e x0 then y0 else 0
  end.
(** materials/constitutive_laws/_userdefined.py:110: the same, from the first
    node on; 0 to its left. *)
Definition interp (xs ys : list R) (e : R) : R :=
  match xs, ys with
  | x0 :: xs', y0 :: ys' => if Rltb e x0 then 0 else interp_go x0 y0 xs' ys' e
  | _, _ => 0
  end.

(** materials/constitutive_laws/_userdefined.py:94-95: [np.diff(y) / np.diff(x)]. *)
Fixpoint slopes (xs ys : list R) : list R :=
  match xs, ys with
  | x0 :: ((x1 :: _) as xs'), y0 :: ((y1 :: _) as ys') => (y1 - y0) / (x1 - x0) :: slopes xs' ys'
  | _, _ => []
  end.

(** materials/constitutive_laws/_userdefined.py:49-96: the attributes (_x, _y,
    _ultimate_strain_n, _ultimate_strain_p); _slopes is recomputed by
    [slopes]. *)
Record ud := { ud_x : list R; ud_y : list R; ud_un : R; ud_up : R }.

(** materials/constitutive_laws/_userdefined.py:49-60: reflection when no strain is negative. *)
Definition ud_reflect (x : list R) : list R := map Ropp (removelast (rev x)) ++ x.
(** materials/constitutive_laws/_userdefined.py:53-60: both coordinates,
    reflected or as given. *)
Definition ud_base (x y : list R) : list R * list R :=
  if negb (existsb (fun a => Rltb a 0) x) then (ud_reflect x, ud_reflect y) else (x, y).

(** materials/constitutive_laws/_userdefined.py:66-92: extension beyond the last points. *)
Definition ud_extend (flag : nat) (x y : list R) : result (list R * list R) :=
  let n := length x in
  let a := nth 0 x 0 in let b := last x 0 in
  let ya := nth 0 y 0 in let yb := last y 0 in
  let x' := a * 100 :: x ++ [b * 100] in
  match flag with
  | 0%nat => Ok (x, y)
  | 1%nat => Ok (x', ya :: y ++ [yb])
  | 2%nat =>
      if (n <? 2)%nat then Err IndexError
      else
        let tp := (yb - nth (n - 2) y 0) / (b - nth (n - 2) x 0) in
        let tn := (nth 1 y 0 - ya) / (nth 1 x 0 - a) in
        Ok (x', (a * 100 - a) * tn + ya :: y ++ [(b * 100 - b) * tp + yb])
  | 3%nat =>
      let sp := yb / b in let sn := ya / a in
      Ok (x', (a * 100 - a) * sn + ya :: y ++ [(b * 100 - b) * sp + yb])
  | _ => Err ValueError
  end.

(** materials/constitutive_laws/_userdefined.py:24-100 __init__.  The zero divisions numpy turns into inf or
    nan (repeated strains, secant at strain 0) are excluded by the theorems'
    hypotheses. *)
Definition ud_init (x y : list R) (eps_u : option epsu_arg) (flag : nat) : result ud :=
  if negb (length x =? length y)%nat then Err ValueError
  else
    let '(bx, by_) := ud_base x y in
    if (3 <? flag)%nat then Err ValueError
    else match bx with
    | [] => Err IndexError
    | a :: _ =>
        do xy <- ud_extend flag bx by_;
        match eps_u with
        | None => Ok {| ud_x := fst xy; ud_y := snd xy; ud_un := a; ud_up := last bx 0 |}
        | Some e =>
            do u <- set_ultimate e;
            Ok {| ud_x := fst xy; ud_y := snd xy; ud_un := fst u; ud_up := snd u |}
        end
    end.

(** materials/constitutive_laws/_userdefined.py:229-232 get_ultimate_strain. *)
Definition ud_ult (l : ud) : R * R := (ud_un l, ud_up l).
(** materials/constitutive_laws/_userdefined.py:102-110 get_stress (np.interp is elementwise, so the array branch is
    the map over the snapped array). *)
Definition ud_stress (l : ud) (e : R) : R := interp (ud_x l) (ud_y l) (prep (ud_ult l) e).
(** materials/constitutive_laws/_userdefined.py:102-110 get_stress, array input. *)
Definition ud_stress_arr (l : ud) (eps : list R) : list R :=
  map (interp (ud_x l) (ud_y l)) (prep_arr (ud_ult l) eps).
(** materials/constitutive_laws/_userdefined.py:118-119: np.searchsorted(x, e) (side='left'): number of entries < e, for sorted x. *)
Fixpoint searchsorted (xs : list R) (e : R) : nat :=
  match xs with x :: xs' => if Rltb x e then S (searchsorted xs' e) else O | [] => O end.
(** materials/constitutive_laws/_userdefined.py:112-135 get_tangent; indices - 1 clipped to [0, len(slopes)-1]. *)
Definition ud_tangent (l : ud) (e : R) : R :=
  let sl := slopes (ud_x l) (ud_y l) in
  let i := Nat.min (searchsorted (ud_x l) e - 1) (length sl - 1) in
  if orb (Rltb e (nth 0 (ud_x l) 0)) (Rltb (last (ud_x l) 0) e) then 0 else nth i sl 0.
(** materials/constitutive_laws/_userdefined.py:112-135 get_tangent, array input. *)
Definition ud_tangent_arr (l : ud) (eps : list R) : list R :=
  let sl := slopes (ud_x l) (ud_y l) in
  let t := map (fun e => nth (Nat.min (searchsorted (ud_x l) e - 1) (length sl - 1)) sl 0) eps in
  let t := masked (map (fun e => Rltb e (nth 0 (ud_x l) 0)) eps) (map (fun _ => 0) eps) t in
  masked (map (fun e => Rltb (last (ud_x l) 0) e) eps) (map (fun _ => 0) eps) t.

(** materials/constitutive_laws/_userdefined.py:153-171: first branch containing the uniform strain. *)
Fixpoint ud_find (xs ys : list R) (e0 e1 : R) : option (list R) :=
  match xs, ys with
  | x0 :: ((x1 :: _) as xs'), y0 :: ((y1 :: _) as ys') =>
      if andb (Rleb x0 e0) (Rleb e0 x1)
      then let k := (y1 - y0) / (x1 - x0) in Some [k * (e0 - x0) + y0; k * e1]
      else ud_find xs' ys' e0 e1
  | _, _ => None
  end.
(** materials/constitutive_laws/_userdefined.py:172-181: one range and one linear polynomial per branch. *)
Fixpoint ud_branches (xs ys : list R) (e0 e1 : R) : list ((R * R) * list R) :=
  match xs, ys with
  | x0 :: ((x1 :: _) as xs'), y0 :: ((y1 :: _) as ys') =>
      let k := (y1 - y0) / (x1 - x0) in
      ((x0, x1), [k * (e0 - x0) + y0; k * e1]) :: ud_branches xs' ys' e0 e1
  | _, _ => []
  end.
(** materials/constitutive_laws/_userdefined.py:137-183 __marin__. *)
Definition ud_marin (l : ud) (s : R * R) : R * marin_out :=
  let '(e0, e1) := s in
  if Reqb e1 0 then
    let e0 := prep (ud_ult l) e0 in
    (e0, match ud_find (ud_x l) (ud_y l) e0 e1 with
         | Some c => (None, [c]) | None => (None, [[0]]) end)
  else
    let br := ud_branches (ud_x l) (ud_y l) e0 e1 in
    (e0, (Some (map fst br), map snd br)).
(** materials/constitutive_laws/_userdefined.py:201-217: the branch search of __marin_tangent__. *)
Fixpoint ud_find_t (xs ys : list R) (e0 : R) : option (list R) :=
  match xs, ys with
  | x0 :: ((x1 :: _) as xs'), y0 :: ((y1 :: _) as ys') =>
      if andb (Rleb x0 e0) (Rleb e0 x1) then Some [(y1 - y0) / (x1 - x0)]
      else ud_find_t xs' ys' e0
  | _, _ => None
  end.
(** materials/constitutive_laws/_userdefined.py:218-225: one constant per branch. *)
Fixpoint ud_branches_t (xs ys : list R) : list ((R * R) * list R) :=
  match xs, ys with
  | x0 :: ((x1 :: _) as xs'), y0 :: ((y1 :: _) as ys') =>
      ((x0, x1), [(y1 - y0) / (x1 - x0)]) :: ud_branches_t xs' ys'
  | _, _ => []
  end.
(** materials/constitutive_laws/_userdefined.py:185-227 __marin_tangent__. *)
Definition ud_marin_tangent (l : ud) (s : R * R) : R * marin_out :=
  let '(e0, e1) := s in
  if Reqb e1 0 then
    let e0 := prep (ud_ult l) e0 in
    (e0, match ud_find_t (ud_x l) (ud_y l) e0 with
         | Some c => (None, [c]) | None => (None, [[0]]) end)
  else
    let br := ud_branches_t (ud_x l) (ud_y l) in
    (e0, (Some (map fst br), map snd br)).

(** * The interface of a constitutive law, as seen by the wrappers *)
(** core/base.py:156-312 ConstitutiveLaw's methods.  Array evaluation returns the stresses and the caller's array afterwards. *)
Record law := {
  lw_stress : R -> R;
  lw_tangent : R -> R;
  lw_stress_arr : list R -> list R * list R;
  lw_tangent_arr : list R -> list R * list R;
  lw_marin : R * R -> R * marin_out;
  lw_marin_tangent : R * R -> R * marin_out;
  lw_ult : R * R
}.

(** * Parallel *)
(** materials/constitutive_laws/_parallel.py:50-60: the attributes
    (_wrapped_laws, _weights). *)
Record par := { pa_laws : list law; pa_w : list R }.
(** materials/constitutive_laws/_parallel.py:24-60 __init__ (type check of the elements is by typing). *)
Definition par_init (laws : list law) (w : option (list R)) : result par :=
  match w with
  | None => Ok {| pa_laws := laws; pa_w := map (fun _ => 1) laws |}
  | Some w => if (length w =? length laws)%nat then Ok {| pa_laws := laws; pa_w := w |}
              else Err ValueError
  end.
(** materials/constitutive_laws/_parallel.py:72-81 get_stress, scalar. *)
Definition par_stress (p : par) (e : R) : R :=
  fold_left (fun s wl => s + fst wl * lw_stress (snd wl) e) (combine (pa_w p) (pa_laws p)) (0 * e).
(** materials/constitutive_laws/_parallel.py:83-91 get_tangent, scalar. *)
Definition par_tangent (p : par) (e : R) : R :=
  fold_left (fun s wl => s + fst wl * lw_tangent (snd wl) e) (combine (pa_w p) (pa_laws p)) (0 * e).
(** materials/constitutive_laws/_parallel.py:72-81 get_stress, array: every law gets the same array object, so each sees
    what the laws before it left in it. *)
Definition vadd (a b : list R) : list R := map (fun p => fst p + snd p) (combine a b).
(** materials/constitutive_laws/_parallel.py:72-81 get_stress, array. *)
Definition par_stress_arr (p : par) (eps : list R) : list R * list R :=
  fold_left (fun acc wl =>
      let '(s, a) := acc in
      let '(v, a') := lw_stress_arr (snd wl) a in
      (vadd s (map (Rmult (fst wl)) v), a'))
    (combine (pa_w p) (pa_laws p)) (map (fun e => 0 * e) eps, eps).

(** materials/constitutive_laws/_parallel.py:97-110: breakpoints, without duplicates, sorted. *)
Fixpoint insert_uniq (x : R) (l : list R) : list R :=
  match l with
  | [] => [x]
  | y :: l' => if Reqb x y then l else if Rltb x y then x :: l else y :: insert_uniq x l'
  end.
(** materials/constitutive_laws/_parallel.py:97-110 _collect_breakpoints. *)
Definition breakpoints (outs : list marin_out) : list R :=
  fold_right insert_uniq []
    (flat_map (fun o => match fst o with
                        | None => []
                        | Some rs => flat_map (fun r => [fst r; snd r]) rs end) outs).
(** materials/constitutive_laws/_parallel.py:112-116: the consecutive breakpoints. *)
Fixpoint refine (bp : list R) : list (R * R) :=
  match bp with a :: ((b :: _) as t) => (a, b) :: refine t | _ => [] end.
(** materials/constitutive_laws/_parallel.py:134-138: stable sort of (range, coeff) by range start. *)
Fixpoint insert_rc (x : (R * R) * list R) (l : list ((R * R) * list R)) :=
  match l with
  | [] => [x]
  | y :: l' => if Rleb (fst (fst x)) (fst (fst y)) then x :: l else y :: insert_rc x l'
  end.
(** materials/constitutive_laws/_parallel.py:134-138: [sorted] with the range
    start as key. *)
Definition sort_rc (l : list ((R * R) * list R)) := fold_right insert_rc [] l.
(** materials/constitutive_laws/_parallel.py:143-148: the while loop advancing j (the list is the suffix
    starting at j). *)
Fixpoint advance (eps1 : R) (l : list ((R * R) * list R)) :=
  match l with
  | rc :: l' => if Rltb (snd (fst rc)) eps1 then advance eps1 l' else l
  | [] => []
  end.
(** materials/constitutive_laws/_parallel.py:140-156. *)
Fixpoint map_ranges (l : list ((R * R) * list R)) (refined : list (R * R)) : list (list R) :=
  match refined with
  | [] => []
  | (eps0, eps1) :: rest =>
      let l' := advance eps1 l in
      (match l' with
       | (r, c) :: _ => if andb (Rleb (fst r) eps0) (Rleb eps1 (snd r)) then c else []
       | [] => []
       end) :: map_ranges l' rest
  end.
(** materials/constitutive_laws/_parallel.py:118-158 _map_coeffs, for one law.  [zip( *zipped)] of an empty range list raises
    ValueError. *)
Definition law_map (refined : list (R * R)) (o : marin_out) : result (list (list R)) :=
  match fst o with
  | None => match snd o with
            | [] => Err IndexError
            | c :: _ => match refined with [] => Ok [c] | _ => Ok (map (fun _ => c) refined) end
            end
  | Some rs => match combine rs (snd o) with
               | [] => Err ValueError
               | rc => Ok (map_ranges (sort_rc rc) refined)
               end
  end.
(** Python's loop over a list whose body may raise
    (materials/constitutive_laws/_parallel.py:121-157, 164-176). *)
Fixpoint mapM {A B} (f : A -> result B) (l : list A) : result (list B) :=
  match l with
  | [] => Ok []
  | a :: l' => do b <- f a; do bs <- mapM f l'; Ok (b :: bs)
  end.
(** materials/constitutive_laws/_parallel.py:173-175: [total[k] += c[k]]. *)
Fixpoint add_into (total c : list R) : list R :=
  match total, c with
  | t :: ts, x :: xs => (t + x) :: add_into ts xs
  | _, _ => total
  end.
(** materials/constitutive_laws/_parallel.py:162-176: the coefficients of refined range number i. *)
Definition sum_coeffs (ws : list R) (maps : list (list (list R))) (i : nat) : result (list R) :=
  do cs <- mapM (fun wm => match nth_error (snd wm) i with
                           | Some c => Ok (map (Rmult (fst wm)) c)
                           | None => Err IndexError end) (combine ws maps);
  let max_len := fold_right (fun c m => Nat.max (length c) m) O cs in
  Ok (fold_left add_into cs (repeat 0 max_len)).
(** materials/constitutive_laws/_parallel.py:93-179 _split_marin. *)
Definition split_marin (ws : list R) (outs : list marin_out) : result marin_out :=
  let refined := refine (breakpoints outs) in
  do maps <- mapM (law_map refined) outs;
  do coeffs <- mapM (sum_coeffs ws maps) (seq 0 (Nat.max (length refined) 1));
  Ok (match refined with [] => None | _ => Some refined end, coeffs).
(** materials/constitutive_laws/_parallel.py:195-198 and 216-219: the shared strain list is passed to each law
    in turn; each may have replaced strain[0]. *)
Definition par_collect (get : law -> R * R -> R * marin_out) (laws : list law) (s : R * R)
  : R * list marin_out :=
  fold_left (fun acc l => let '(e0, outs) := acc in
                          let '(e0', o) := get l (e0, snd s) in (e0', outs ++ [o]))
    laws (fst s, []).
(** materials/constitutive_laws/_parallel.py:181-200 __marin__. *)
Definition par_marin (p : par) (s : R * R) : R * result marin_out :=
  let '(e0, outs) := par_collect lw_marin (pa_laws p) s in (e0, split_marin (pa_w p) outs).
(** materials/constitutive_laws/_parallel.py:202-221 __marin_tangent__. *)
Definition par_marin_tangent (p : par) (s : R * R) : R * result marin_out :=
  let '(e0, outs) := par_collect lw_marin_tangent (pa_laws p) s in (e0, split_marin (pa_w p) outs).
(** materials/constitutive_laws/_parallel.py:223-232: smallest lower and largest upper limit; (inf, -inf)
    for an empty list, modelled as None. *)
Definition par_ult (p : par) : option (R * R) :=
  fold_left (fun acc l => match acc with
                          | None => Some (lw_ult l)
                          | Some (a, b) => Some (Rmin a (fst (lw_ult l)), Rmax b (snd (lw_ult l))) end)
    (pa_laws p) None.

(** * InitialStrain *)
(** materials/constitutive_laws/_initial_strain.py:53-56: the attributes
    (_wrapped_law, _initial_strain, _initial_stress, _strain_compatibility). *)
Record istr := { is_law : law; is_e0 : R; is_s0 : R; is_compat : bool }.
(** materials/constitutive_laws/_initial_strain.py:26-56 __init__ (the type check is by typing). *)
Definition is_init (l : law) (e0 : R) (compat : bool) : istr :=
  {| is_law := l; is_e0 := e0; is_s0 := lw_stress l e0; is_compat := compat |}.
(** materials/constitutive_laws/_initial_strain.py:68-76 get_stress. *)
Definition is_stress (i : istr) (e : R) : R :=
  let s := lw_stress (is_law i) (e + is_e0 i) in
  if is_compat i then s else 1 * is_s0 i.
(** materials/constitutive_laws/_initial_strain.py:78-84 get_tangent. *)
Definition is_tangent (i : istr) (e : R) : R :=
  if is_compat i then lw_tangent (is_law i) (e + is_e0 i)
  else lw_tangent (is_law i) 0 * / 1000000.
(** materials/constitutive_laws/_initial_strain.py:86-102 __marin__: a fresh list is passed, so the
    caller's strain is untouched; the ranges come back unchanged. *)
Definition is_marin (i : istr) (s : R * R) : R * marin_out :=
  (fst s, snd (lw_marin (is_law i) (fst s + is_e0 i, snd s))).
(** materials/constitutive_laws/_initial_strain.py:104-120 __marin_tangent__, as
    for __marin__. *)
Definition is_marin_tangent (i : istr) (s : R * R) : R * marin_out :=
  (fst s, snd (lw_marin_tangent (is_law i) (fst s + is_e0 i, snd s))).
(** materials/constitutive_laws/_initial_strain.py:122-130 get_ultimate_strain. *)
Definition is_ult (i : istr) : R * R :=
  (fst (lw_ult (is_law i)) - is_e0 i, snd (lw_ult (is_law i)) - is_e0 i).

(** * Material (core/base.py) *)
(** core/base.py:17-20: the attributes (_initial_strain, _initial_stress,
    _strain_compatibility); name and density are not modelled. *)
Record material := { mt_strain : option R; mt_stress : option R; mt_compat : option bool }.
(** core/base.py:22-56 Material.__init__. *)
Definition mat_init (strain stress : option R) (compat : option bool) : result material :=
  match strain, stress with
  | Some _, Some _ => Err ValueError
  | _, _ => Ok {| mt_strain := strain; mt_stress := stress; mt_compat := compat |}
  end.
(** core/base.py:136-148: the Newton loop; [k] is max_iter - num_iter. *)
Fixpoint newton (k : nat) (stress tangent : R -> R) (target strain d : R) : result (R * R) :=
  if Rleb (Rabs d) (/ 10 ^ 12) then Ok (strain, d)
  else match k with
  | O => Ok (strain, d)
  | S k' =>
      if Reqb (tangent strain) 0 then Err ValueError
      else
        let strain' := strain + d / tangent strain in
        newton k' stress tangent target strain' (target - stress strain')
  end.
(** core/base.py:123-153 _initial_strain_from_stress. *)
Definition strain_from_stress (stress tangent : R -> R) (target : R) : result R :=
  do sd <- newton 100 stress tangent target 0 (target - stress 0);
  if Rltb (/ 10 ^ 12) (Rabs (snd sd)) then Err RuntimeError else Ok (fst sd).
(** core/base.py:95-121 _apply_initial_strain: the material afterwards and the
    law it carries (None: the original law). *)
Definition apply_initial (m : material) (l : law) : result (material * option istr) :=
  do m1 <- match mt_stress m with
           | Some s => do e <- strain_from_stress (lw_stress l) (lw_tangent l) s;
                       Ok {| mt_strain := Some e; mt_stress := mt_stress m; mt_compat := mt_compat m |}
           | None => Ok m
           end;
  match mt_strain m1 with
  | None => Ok (m1, None)
  | Some e =>
      let st := match mt_stress m1 with Some s => s | None => lw_stress l e end in
      Ok ({| mt_strain := Some e; mt_stress := Some st; mt_compat := mt_compat m1 |},
          Some (is_init l e (match mt_compat m1 with Some b => b | None => true end)))
  end.

(** Laws packed behind the common interface (the methods of _elastic.py, _elasticplastic.py,
    _parabolarectangle.py and _userdefined.py; get_stress of the last three snaps the caller's array in place,
    core/base.py:199-219).  This one: materials/constitutive_laws/_elastic.py:50-110. *)
Definition elastic_law (l : elastic) : law := {|
  lw_stress := elastic_stress l; lw_tangent := elastic_tangent l;
  lw_stress_arr := fun a => (elastic_stress_arr l a, a);
  lw_tangent_arr := fun a => (elastic_tangent_arr l a, a);
  lw_marin := elastic_marin l; lw_marin_tangent := elastic_marin_tangent l; lw_ult := elastic_ult l |}.
(** materials/constitutive_laws/_elasticplastic.py:51-227, packed. *)
Definition ep_law (l : ep) : law := {|
  lw_stress := ep_stress l; lw_tangent := ep_tangent l;
  lw_stress_arr := fun a => (ep_stress_arr l a, prep_arr (ep_ult l) a);
  lw_tangent_arr := fun a => (ep_tangent_arr l a, a);
  lw_marin := ep_marin l; lw_marin_tangent := ep_marin_tangent l; lw_ult := ep_ult l |}.
(** materials/constitutive_laws/_parabolarectangle.py:50-255 (n = 2), packed. *)
Definition pr_law (l : pr) : law := {|
  lw_stress := pr_stress l; lw_tangent := pr_tangent l;
  lw_stress_arr := fun a => (pr_stress_arr l a, prep_arr (pr_ult l) a);
  lw_tangent_arr := fun a => (pr_tangent_arr l a, a);
  lw_marin := pr_marin2 l; lw_marin_tangent := pr_marin_tangent2 l; lw_ult := pr_ult l |}.
(** materials/constitutive_laws/_userdefined.py:102-232, packed. *)
Definition ud_law (l : ud) : law := {|
  lw_stress := ud_stress l; lw_tangent := ud_tangent l;
  lw_stress_arr := fun a => (ud_stress_arr l a, prep_arr (ud_ult l) a);
  lw_tangent_arr := fun a => (ud_tangent_arr l a, a);
  lw_marin := ud_marin l; lw_marin_tangent := ud_marin_tangent l; lw_ult := ud_ult l |}.
