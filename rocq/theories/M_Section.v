(** Model of sections/_generic.py, the section calculator.
    The calculator's mutable attributes are threaded explicitly through every
    analysis, also when the analysis raises.  The integrator (fibre or Marin) is
    a record of its two requests.  Simplifications: [_n_min] and [_n_max] are one
    optional pair (they are always assigned together, lines 635, 645); numpy
    arrays of strains are lists; numpy scalars are real numbers. *)
From Verif Require Import Base M_Marin M_Laws M_Laws2 M_Fiber M_MarinInt.

(** The integrator interface, sections/section_integrators/_section_integrator.py:63-90:
    integrate_strain_response_on_geometry with integrate='stress' and 'modulus';
    [option R] is the mesh_size keyword, absent when the caller does not pass it. *)
Record integ := {
  ig_forces : compound -> profile -> option (list group) -> option R -> result ((R * R * R) * list group);
  ig_modulus : compound -> profile -> option (list group) -> option R -> result ((nat -> nat -> R) * list group) }.
(** sections/section_integrators/_factory.py:9, 22-38: the fibre integrator. *)
Definition fiber_integ (laws : nat -> law) (mesher : surface -> R -> list mtri) : integ :=
  {| ig_forces := fiber_forces laws mesher; ig_modulus := fiber_stiffness laws mesher |}.
(** sections/section_integrators/_factory.py:9, 22-38: the Marin integrator (it
    ignores mesh_size). *)
Definition marin_integ (laws : nat -> law) : integ :=
  {| ig_forces := fun g s d _ => marin_forces laws g s d; ig_modulus := fun g s d _ => marin_stiffness laws g s d |}.

(** * Balanced failure, sections/_generic.py:299-372 *)
(** sections/_generic.py:319-368, what the double loop looks at: lowest and highest ordinate, ultimate strains
    for both values of [yielding], whether it is a concrete surface. *)
Record item := { im_lo : R; im_hi : R; im_ult : bool -> R * R; im_conc : bool }.
(** sections/_generic.py:325-368: one pair of the double loop; the accumulator is
    (chi_min, eps_0, y_n, y_p), unassigned before the first hit. *)
Definition pair_step (rc yielding : bool) (acc : option (R * R * R * R)) (gh : item * item) : option (R * R * R * R) :=
  let '(g, h) := gh in
  let eps_p := snd (im_ult g yielding) in
  let y_p := im_lo g in
  let use := if orb (andb rc (im_conc h)) (negb rc) then yielding else false in
  let eps_n := fst (im_ult h use) in
  let y_n := im_hi h in
  if Rleb y_n y_p then acc
  else
    let chi := - (eps_p - eps_n) / (y_p - y_n) in
    if Rltb chi (match acc with Some (c, _, _, _) => c | None => 10 ^ 10 end)
    then Some (chi, eps_n + chi * y_n, y_n, y_p) else acc.
(** sections/_generic.py:299-372 [get_balanced_failure_strain]; no hit leaves
    the locals unassigned (UnboundLocalError). *)
Definition balanced (rc yielding : bool) (items : list item) : result (R * R * (R * R * R)) :=
  match fold_left (pair_step rc yielding) (list_prod items items) None with
  | None => Err UnboundLocalError
  | Some (chi, eps0, yn, yp) => Ok (yn, yp, (eps0, - chi, 0))
  end.
(** shapely's polygon.bounds[1] of the exterior ring (sections/_generic.py:328-331, 356-359). *)
Definition ring_min (r : list (R * R)) : R :=
  match r with [] => 0 | p :: q => fold_left (fun m v => Rmin m (snd v)) q (snd p) end.
(** shapely's polygon.bounds[3] (sections/_generic.py:328-331, 356-359). *)
Definition ring_max (r : list (R * R)) : R :=
  match r with [] => 0 | p :: q => fold_left (fun m v => Rmax m (snd v)) q (snd p) end.
(** sections/_generic.py:325-354, static description of the section that does not change: ultimate strains of
    each law (without / with yielding), which materials are concrete. *)
Record traits := { tr_ult : nat -> bool -> R * R; tr_conc : nat -> bool; tr_rc : bool }.
(** sections/_generic.py:320-321: the list of surfaces followed by bars that
    both loops run over. *)
Definition items_of (t : traits) (g : compound) : list item :=
  map (fun s => {| im_lo := ring_min (sf_ext s); im_hi := ring_max (sf_ext s);
                   im_ult := tr_ult t (sf_law s); im_conc := tr_conc t (sf_law s) |}) (cg_surf g)
  ++ map (fun b => {| im_lo := br_z b; im_hi := br_z b; im_ult := tr_ult t (br_law b); im_conc := false |}) (cg_bars g).

(** * Root searches on a response function *)
(** sections/_generic.py:432-463 and 566-595: bisection; [f x] is the axial force at x,
    [fuel] the remaining iterations (ITMAX - it), [last] the last midpoint. *)
Fixpoint bisect (fuel : nat) (f : R -> result R) (n xa da xb db : R) (last : option R) : result R :=
  match fuel with
  | O => Err ValueError
  | S k =>
      if Rltb (1/100) (Rabs (da - db)) then
        let xc := (xa + xb) / 2 in
        do nc <- f xc;
        let dc := nc - n in
        if Rltb (dc * da) 0 then bisect k f n xa da xc dc (Some xc)
        else bisect k f n xc dc xb db (Some xc)
      else match last with None => Err UnboundLocalError | Some x => Ok x end
  end.
(** sections/_generic.py:465-525 [_prefind_range_curvature_equilibrium]: loop state
    (it, restarts, delta, diverging_steps), last probe [b]. *)
Fixpoint prefind (fuel : nat) (f : R -> result R) (n a da : R) (it rst : nat) (delta : R) (ds : nat) (b : R * R)
  : result (R * R) :=
  match fuel with
  | O => Err RuntimeError
  | S k =>
      if andb (it <? 20)%nat (rst <? 20)%nat then
        let sign := if Rltb 0 da then -1 else 1 in
        let xb := a + sign * delta * 2 ^ it in
        do nb <- f xb;
        let db := nb - n in
        if Rltb (da * db) 0 then Ok (xb, db)
        else if Rltb (Rabs da) (Rabs db) then
          if (10 <? S ds)%nat then prefind k f n a da 1 (S rst) (delta / 2) 0 (xb, db)
          else prefind k f n a da (S it) rst delta (S ds) (xb, db)
        else prefind k f n a da (S it) rst delta ds (xb, db)
      else if (20 <=? it)%nat then Err ValueError else Ok b
  end.
(** sections/_generic.py:543-595 after the first integration ([n0] = its axial force);
    the curvature is fixed, [f] depends on the axial strain. *)
Definition solve_curvature (f : R -> result R) (n eps0 n0 : R) : result R :=
  let da := n0 - n in
  if Rleb (Rabs da) (1/100) then Ok eps0
  else
    do b <- prefind 500 f n eps0 da 0 0 (1/1000) 0 (0, 0);
    bisect 100 f n eps0 da (fst b) (snd b) None.
(** sections/_generic.py:397-463 after the first integration; [f eps0 chi] is the axial
    force; returns (eps_0, chi). *)
Definition solve_pivot (f : R -> R -> result R) (n yn yp eps0 chi n0 : R) : result (R * R) :=
  let eps_p := eps0 + chi * yp in
  let eps_n := eps0 + chi * yn in
  let da := n0 - n in
  if Rleb (Rabs da) (1/100) then Ok (eps0, chi)
  else
    let chi_b := - / 10 ^ 13 in
    let '(pivot, strain_pivot) := if Rltb n0 n then (yp, eps_p) else (yn, eps_n) in
    let g := fun c => f (strain_pivot - c * pivot) c in
    do nb <- g chi_b;
    do c <- bisect 100 g n chi da chi_b (nb - n) None;
    Ok (strain_pivot - c * pivot, c).

(** * The calculator and its state *)
(** sections/_generic.py:103-130: the calculator's mutable attributes
    (integration_data, _n_min and _n_max). *)
Record sstate := { st_data : option (list group); st_lim : option (R * R) }.
(** sections/_generic.py:103-130: a new calculator. *)
Definition st_init : sstate := {| st_data := None; st_lim := None |}.
(** A method that reads and updates the calculator's attributes, also when it
    raises (sections/_generic.py:97-130). *)
Definition act (A : Type) : Type := sstate -> result A * sstate.
(** Plumbing for the methods of sections/_generic.py:97-1525: return. *)
Definition aret {A} (a : A) : act A := fun s => (Ok a, s).
(** Plumbing for the methods of sections/_generic.py:97-1525: raise. *)
Definition afail {A} (e : exn) : act A := fun s => (Err e, s).
(** Plumbing for the methods of sections/_generic.py:97-1525: one statement after another; an exception keeps
    the attributes as they are. *)
Definition abind {A B} (x : act A) (f : A -> act B) : act B :=
  fun s => match x s with (Ok a, s') => f a s' | (Err e, s') => (Err e, s') end.
(** Plumbing for the methods of sections/_generic.py:97-1525: an expression without effect. *)
Definition alift {A} (x : result A) : act A := fun s => (x, s).

(** sections/_generic.py:413-415, 559-560, 624-625, 718-720, 1472-1474: [if self.integration_data is None and integration_data is not None: ...]. *)
Definition keep_data (d : list group) (s : sstate) : sstate :=
  {| st_data := match st_data s with None => Some d | Some _ => st_data s end; st_lim := st_lim s |}.
(** sections/_generic.py:401-415: one integration, storing the returned data. *)
Definition forces_k (ig : integ) (g : compound) (p : profile) (ms : option R) : act (R * R * R) :=
  fun s => match ig_forces ig g p (st_data s) ms with
           | Ok (F, d) => (Ok F, keep_data d s) | Err e => (Err e, s) end.
(** sections/_generic.py:905-909: one integration without storing the data. *)
Definition forces_n (ig : integ) (g : compound) (p : profile) (ms : option R) : act (R * R * R) :=
  fun s => match ig_forces ig g p (st_data s) ms with
           | Ok (F, _) => (Ok F, s) | Err e => (Err e, s) end.
(** sections/_generic.py:434-436, 442-449: axial force with the data of the moment. *)
Definition axial_fun (ig : integ) (g : compound) (s : sstate) (p : profile) : result R :=
  rmap (fun x => fst (fst (fst x))) (ig_forces ig g p (st_data s) None).

(** sections/_generic.py:374-463 [find_equilibrium_fixed_pivot]. *)
Definition fixed_pivot (ig : integ) (t : traits) (ms : R) (g : compound) (n : R) (yielding : bool) : act (R * R * R) :=
  abind (alift (balanced (tr_rc t) yielding (items_of t g))) (fun b =>
  let '(yn, yp, strain) := b in
  abind (forces_k ig g strain (Some ms)) (fun F => fun s =>
    (rmap (fun r => (fst r, snd r, 0))
       (solve_pivot (fun e c => axial_fun ig g s (e, c, 0)) n yn yp (p_e0 strain) (p_ky strain) (fst (fst F))), s))).
(** sections/_generic.py:527-595 [find_equilibrium_fixed_curvature] (no mesh_size is passed). *)
Definition fixed_curvature (ig : integ) (g : compound) (n curv eps0 : R) : act (R * R * R) :=
  abind (forces_k ig g (eps0, curv, 0) None) (fun F => fun s =>
    (rmap (fun e => (e, curv, 0))
       (solve_curvature (fun e => axial_fun ig g s (e, curv, 0)) n eps0 (fst (fst F))), s)).

(** sections/_generic.py:597-626 [calculate_limit_axial_load]. *)
Definition limit_load (ig : integ) (t : traits) (ms : R) (g : compound) : act (R * R) :=
  abind (alift (balanced (tr_rc t) false (items_of t g))) (fun b => fun s =>
  let '(yn, yp, strain) := b in
  let eps_p := p_e0 strain + p_ky strain * yp in
  let eps_n := p_e0 strain + p_ky strain * yn in
  match ig_forces ig g (eps_n, 0, 0) (st_data s) (Some ms) with
  | Err e => (Err e, s)
  | Ok (F1, d) =>
      match ig_forces ig g (eps_p, 0, 0) (Some d) None with
      | Err e => (Err e, s)
      | Ok (F2, _) => (Ok (fst (fst F1), fst (fst F2)), keep_data d s)
      end
  end).
(** sections/_generic.py:628-646: the cached properties n_min and n_max. *)
Definition limits (ig : integ) (t : traits) (ms : R) (g : compound) : act (R * R) :=
  fun s => match st_lim s with
           | Some l => (Ok l, s)
           | None => match limit_load ig t ms g s with
                     | (Ok l, s') => (Ok l, {| st_data := st_data s'; st_lim := Some l |})
                     | (Err e, s') => (Err e, s')
                     end
           end.
(** sections/_generic.py:648-657 [check_axial_load]. *)
Definition check_axial (ig : integ) (t : traits) (ms : R) (g : compound) (n : R) : act unit :=
  abind (limits ig t ms g) (fun l => if orb (Rltb n (fst l)) (Rltb (snd l) n) then afail ValueError else aret tt).

(** CompoundGeometry.rotate about the origin (geometry/_geometry.py:844-868). *)
Definition rotate_geo (a : R) (g : compound) : compound :=
  {| cg_surf := map (rotate_surface a) (cg_surf g); cg_bars := map (rotate_bar a) (cg_bars g) |}.
(** sections/_generic.py:659-674 [_rotate_integration_data], guarded by "is not None". *)
Definition rotate_data (a : R) : act unit :=
  fun s => (Ok tt, {| st_data := option_map (map (rotate_group a)) (st_data s); st_lim := st_lim s |}).

(** sections/_generic.py:676-732 [integrate_strain_profile]. *)
Definition integrate_profile (ig : integ) (ms : R) (g : compound) (p : profile) : act (R * R * R) :=
  forces_k ig g p (Some ms).
(** sections/_generic.py:676-732 with integrate='modulus'. *)
Definition integrate_modulus (ig : integ) (ms : R) (g : compound) (p : profile) : act (nat -> nat -> R) :=
  fun s => match ig_modulus ig g p (st_data s) (Some ms) with
           | Ok (K, d) => (Ok K, keep_data d s) | Err e => (Err e, s) end.

(** sections/_generic.py:734-790 [calculate_bending_strength]: N, My, Mz, eps_a, chi_y, chi_z. *)
Record strength := { rs_n : R; rs_my : R; rs_mz : R; rs_eps : R; rs_chiy : R; rs_chiz : R }.
(** sections/_generic.py:734-790 [calculate_bending_strength]. *)
Definition bending_strength (ig : integ) (t : traits) (ms : R) (g : compound) (theta n : R) : act strength :=
  abind (check_axial ig t ms g n) (fun _ =>
  let gr := rotate_geo (- theta) g in
  abind (rotate_data (- theta)) (fun _ =>
  abind (fixed_pivot ig t ms gr n false) (fun strain =>
  abind (forces_n ig gr strain None) (fun F =>
  let '(N, My, Mz) := F in
  abind (rotate_data theta) (fun _ =>
  aret {| rs_n := N; rs_my := cos theta * My - sin theta * Mz; rs_mz := sin theta * My + cos theta * Mz;
          rs_eps := p_e0 strain; rs_chiy := cos theta * p_ky strain - sin theta * p_kz strain;
          rs_chiz := sin theta * p_ky strain + cos theta * p_kz strain |}))))).

(** numpy's linspace, as used in sections/_generic.py:864-882. *)
Definition linspace (a b : R) (n : nat) (endpoint : bool) : list R :=
  let div := if endpoint then INR n - 1 else INR n in
  map (fun i => if andb endpoint ((i =? n - 1)%nat && (1 <? n)%nat) then b else a + INR i * ((b - a) / div)) (seq 0 n).
(** sections/_generic.py:849-882: the curvatures used when the caller gives none. *)
Definition auto_curvatures (chi_u chi_y chi_first : R) (npre npost : nat) : result (list R) :=
  if Rltb (chi_u * chi_y) 0 then Err ValueError
  else
    let cf := chi_first * (if Rltb (chi_first * chi_y) 0 then -1 else 1) in
    do cf <- (if Rleb (Rabs chi_y) (Rabs cf)
              then (if (npre =? 0)%nat then Err ZeroDivisionError else Ok (chi_y / INR npre)) else Ok cf);
    if Rleb (Rabs chi_u) (Rabs chi_y + / 10 ^ 8) then Ok (linspace cf chi_y npre true)
    else if (npre =? 0)%nat then Err ValueError
    else Ok (linspace cf chi_y (npre - 1) false ++ linspace chi_y chi_u (npost + 1) true).
(** sections/_generic.py:891-923: the loop over the curvatures; each point is
    (curvature, eps_a, My, Mz) before rotating back. *)
Fixpoint curvature_points (ig : integ) (g : compound) (n : R) (chis : list R) (eps : R) : act (list (R * R * R * R)) :=
  match chis with
  | [] => aret []
  | c :: cs =>
      abind (fixed_curvature ig g n c eps) (fun strain =>
      abind (forces_n ig g strain None) (fun F =>
      abind (curvature_points ig g n cs (p_e0 strain)) (fun rest =>
      aret ((c, p_e0 strain, snd (fst F), snd F) :: rest))))
  end.
(** sections/_generic.py:792-934 [calculate_moment_curvature]: list of
    (eps_a, chi_y, chi_z, my, mz). *)
Definition moment_curvature (ig : integ) (t : traits) (ms : R) (g : compound)
    (theta n chi_first : R) (npre npost : nat) (chi : option (list R)) : act (list (R * R * R * R * R)) :=
  abind (check_axial ig t ms g n) (fun _ =>
  let gr := rotate_geo (- theta) g in
  abind (rotate_data (- theta)) (fun _ =>
  abind (match chi with
         | Some l => aret l
         | None =>
             abind (fixed_pivot ig t ms gr n false) (fun su =>
             abind (fixed_pivot ig t ms gr n true) (fun sy =>
             alift (auto_curvatures (p_ky su) (p_ky sy) chi_first npre npost)))
         end) (fun chis =>
  abind (curvature_points ig gr n chis 0) (fun pts =>
  abind (rotate_data theta) (fun _ =>
  aret (map (fun x => let '(c, e, My, Mz) := x in
         (e, cos theta * c - sin theta * 0, sin theta * c + cos theta * 0,
          cos theta * My - sin theta * Mz, sin theta * My + cos theta * Mz)) pts)))))).

(** * calculate_strain_profile, sections/_generic.py:1431-1525 *)
(** sections/_generic.py:1480-1511: np.linalg.solve and lu_factor/lu_solve on a 3x3 system: Cramer's rule; a
    singular matrix raises LinAlgError (np.linalg.solve). *)
Definition det3 (K : nat -> nat -> R) : R :=
  K 0%nat 0%nat * (K 1%nat 1%nat * K 2%nat 2%nat - K 1%nat 2%nat * K 2%nat 1%nat)
  - K 0%nat 1%nat * (K 1%nat 0%nat * K 2%nat 2%nat - K 1%nat 2%nat * K 2%nat 0%nat)
  + K 0%nat 2%nat * (K 1%nat 0%nat * K 2%nat 1%nat - K 1%nat 1%nat * K 2%nat 0%nat).
(** sections/_generic.py:1480-1511, as above: a column replaced. *)
Definition put_col (K : nat -> nat -> R) (c : nat) (v : R * R * R) : nat -> nat -> R :=
  fun i j => if (j =? c)%nat then match i with 0%nat => fst (fst v) | 1%nat => snd (fst v) | _ => snd v end else K i j.
(** sections/_generic.py:1480-1511, as above: the solution. *)
Definition solve3 (K : nat -> nat -> R) (v : R * R * R) : result (R * R * R) :=
  if Reqb (det3 K) 0 then Err LinAlgError
  else Ok (det3 (put_col K 0 v) / det3 K, det3 (put_col K 1 v) / det3 K, det3 (put_col K 2 v) / det3 K).
(** sections/_generic.py:1519: np.linalg.norm of a vector of three. *)
Definition norm3 (v : R * R * R) : R := sqrt (fst (fst v) ^ 2 + snd (fst v) ^ 2 + snd v ^ 2).
(** sections/_generic.py:1514: addition of two vectors. *)
Definition add3 (u v : R * R * R) : R * R * R := (fst (fst u) + fst (fst v), snd (fst u) + snd (fst v), snd u + snd v).
(** sections/_generic.py:1494: subtraction of two vectors. *)
Definition sub3 (u v : R * R * R) : R * R * R := (fst (fst u) - fst (fst v), snd (fst u) - snd (fst v), snd u - snd v).
(** sections/_generic.py:1486-1525: the loop; [fuel] = max_iter + 1 - num_iter, i.e. the
    iterations still allowed by the test on line 1489.  [K0]: tangent at zero
    for the modified Newton method. *)
Fixpoint newton_loop (fuel : nat) (ig : integ) (ms : R) (g : compound) (loads : R * R * R) (tol : R)
    (K0 : option (nat -> nat -> R)) (num max_iter : nat) (strain : R * R * R) : act (R * R * R) :=
  let finish num strain := if (max_iter <=? num)%nat then afail StopIteration else aret strain in
  match fuel with
  | O => finish num strain
  | S k =>
      abind (integrate_profile ig ms g strain) (fun F =>
      abind (match K0 with
             | Some K => aret K
             | None => fun s => match ig_modulus ig g strain (st_data s) None with
                                | Ok (K, _) => (Ok K, s) | Err e => (Err e, s) end
             end) (fun K =>
      abind (alift (solve3 K (sub3 loads F))) (fun d =>
      let strain' := add3 strain d in
      if Rltb (norm3 d) tol then finish (S num) strain'
      else newton_loop k ig ms g loads tol K0 (S num) max_iter strain')))
  end.
(** sections/_generic.py:1431-1525 [calculate_strain_profile]; the first tangent
    stiffness is taken at zero strain. *)
Definition strain_profile (ig : integ) (ms : R) (g : compound) (loads : R * R * R) (initial : bool) (max_iter : nat) (tol : R)
  : act (R * R * R) :=
  fun s => match ig_modulus ig g (0, 0, 0) (st_data s) None with
           | Err e => (Err e, s)
           | Ok (K, d) => newton_loop (S max_iter) ig ms g loads tol (if initial then Some K else None) 0 max_iter (0, 0, 0) (keep_data d s)
           end.
