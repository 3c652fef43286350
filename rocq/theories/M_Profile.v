(** Model of geometry/profiles/_base_profile.py: cached section constants of a
    steel profile and the search for its plastic neutral axis.  The polygon is a
    closed ring (profiles have no holes); shapely's [split] by a horizontal line
    is a parameter [slice]: the pieces of a ring at a height. *)
From Verif Require Import Base M_Marin M_Laws M_Laws2 M_Fiber M_MarinInt M_Section M_Gross M_Geo.
Open Scope R_scope.
Open Scope list_scope.

(** geometry/profiles/_base_profile.py:21-35: the exterior of the profile's polygon. *)
Definition ring : Type := list (R * R).
(** geometry/profiles/_base_profile.py:96-116, 253-257: shapely's split by a
    horizontal line, a parameter. *)
Definition slicer : Type := ring -> R -> list ring.
(** geometry/profiles/_base_profile.py:92, 219: shapely's bounds, least y. *)
Definition r_ymin (p : ring) : R := fold_min fst p.
(** geometry/profiles/_base_profile.py:62, 220: shapely's bounds, least z. *)
Definition r_zmin (p : ring) : R := fold_min snd p.
(** geometry/profiles/_base_profile.py:92, 219: shapely's bounds, greatest y. *)
Definition r_ymax (p : ring) : R := fold_max fst p.
(** geometry/profiles/_base_profile.py:62, 220: shapely's bounds, greatest z. *)
Definition r_zmax (p : ring) : R := fold_max snd p.
(** geometry/profiles/_base_profile.py:131-177: marin_integration on the exterior (never raises: equal lengths). *)
Definition moment (p : ring) (m n : nat) : R := match ring_moment p m n with Ok v => v | Err _ => 0 end.
(** geometry/profiles/_base_profile.py:106-116: shapely's area of a piece. *)
Definition ring_area (p : ring) : R := Rabs (shoe p).
(** geometry/profiles/_base_profile.py:106-116: shapely's centroid of a piece. *)
Definition centroid (p : ring) : R * R := (moment p 1 0 / moment p 0 0, moment p 0 1 / moment p 0 0).

(** geometry/profiles/_base_profile.py:84-116 [_find_delta_area_above_minus_below]; a line that misses the
    polygon yields it as the only piece. *)
Definition delta_area (slice : slicer) (p : ring) (z : R) : R :=
  let xmax := Rmax (Rabs (r_ymin p)) (r_ymax p) in
  let a := (- xmax * (105 / 100), z) in
  let b := (xmax * (105 / 100), z) in
  let '(above, below) := fold_left (fun (acc : R * R) g =>
    if is_ccw3 a b (centroid g) then (fst acc + ring_area g, snd acc) else (fst acc, snd acc + ring_area g)) (slice p z) (0, 0) in
  above - below.
(** geometry/profiles/_base_profile.py:65-82: the loop with the iterations left, [zC] unbound at first. *)
Fixpoint pna_loop (todo : nat) (da : R -> R) (tol zA zB daA : R) (zC : option R) : result R :=
  match todo with
  | O => Err ValueError
  | S todo =>
      if Rltb tol (Rabs (zB - zA)) then
        let c := (zA + zB) / 2 in
        let daC := da c in
        if Rltb (Rabs daC) (/ 10 ^ 10) then Ok c
        else if Rltb (daA * daC) 0 then pna_loop todo da tol zA c daA (Some c)
        else pna_loop todo da tol c zB daC (Some c)
      else match zC with Some c => Ok c | None => Err UnboundLocalError end
  end.
(** geometry/profiles/_base_profile.py:49-82 [_find_plastic_neutral_axis_y], ITMAX = 200. *)
Definition find_pna (slice : slicer) (p : ring) : result R :=
  let zmin := r_zmin p in let zmax := r_zmax p in
  pna_loop 200 (delta_area slice p) ((zmax - zmin) * / 10 ^ 10) zmin zmax (delta_area slice p zmin) None.

(** geometry/profiles/_base_profile.py:21-35: attributes; [pf_theta] is None while the attribute does not
    exist (it is not set in __init__). *)
Record profile := {
  pf_poly : ring; pf_A : option R; pf_Iy : option R; pf_Iz : option R; pf_Iyz : option R; pf_Icsi : option R; pf_Ieta : option R;
  pf_theta : option R; pf_Wely : option R; pf_Welz : option R; pf_Wply : option R; pf_Wplz : option R; pf_iy : option R; pf_iz : option R }.
(** geometry/profiles/_base_profile.py:21-35: the attributes set by __init__. *)
Definition fresh (p : ring) : profile :=
  {| pf_poly := p; pf_A := None; pf_Iy := None; pf_Iz := None; pf_Iyz := None; pf_Icsi := None; pf_Ieta := None;
     pf_theta := None; pf_Wely := None; pf_Welz := None; pf_Wply := None; pf_Wplz := None; pf_iy := None; pf_iz := None |}.
(** geometry/profiles/_base_profile.py:266-291: assigning the attribute _polygon. *)
Definition with_poly (x : ring) (s : profile) : profile :=
  {| pf_poly := x; pf_A := pf_A s; pf_Iy := pf_Iy s; pf_Iz := pf_Iz s; pf_Iyz := pf_Iyz s; pf_Icsi := pf_Icsi s; pf_Ieta := pf_Ieta s;
     pf_theta := pf_theta s; pf_Wely := pf_Wely s; pf_Welz := pf_Welz s; pf_Wply := pf_Wply s; pf_Wplz := pf_Wplz s; pf_iy := pf_iy s; pf_iz := pf_iz s |}.
(** geometry/profiles/_base_profile.py:131-141: assigning the attribute _A. *)
Definition with_A (x : R) (s : profile) : profile :=
  {| pf_poly := pf_poly s; pf_A := Some x; pf_Iy := pf_Iy s; pf_Iz := pf_Iz s; pf_Iyz := pf_Iyz s; pf_Icsi := pf_Icsi s; pf_Ieta := pf_Ieta s;
     pf_theta := pf_theta s; pf_Wely := pf_Wely s; pf_Welz := pf_Welz s; pf_Wply := pf_Wply s; pf_Wplz := pf_Wplz s; pf_iy := pf_iy s; pf_iz := pf_iz s |}.
(** geometry/profiles/_base_profile.py:143-153: assigning the attribute _Iy. *)
Definition with_Iy (x : R) (s : profile) : profile :=
  {| pf_poly := pf_poly s; pf_A := pf_A s; pf_Iy := Some x; pf_Iz := pf_Iz s; pf_Iyz := pf_Iyz s; pf_Icsi := pf_Icsi s; pf_Ieta := pf_Ieta s;
     pf_theta := pf_theta s; pf_Wely := pf_Wely s; pf_Welz := pf_Welz s; pf_Wply := pf_Wply s; pf_Wplz := pf_Wplz s; pf_iy := pf_iy s; pf_iz := pf_iz s |}.
(** geometry/profiles/_base_profile.py:155-165: assigning the attribute _Iz. *)
Definition with_Iz (x : R) (s : profile) : profile :=
  {| pf_poly := pf_poly s; pf_A := pf_A s; pf_Iy := pf_Iy s; pf_Iz := Some x; pf_Iyz := pf_Iyz s; pf_Icsi := pf_Icsi s; pf_Ieta := pf_Ieta s;
     pf_theta := pf_theta s; pf_Wely := pf_Wely s; pf_Welz := pf_Welz s; pf_Wply := pf_Wply s; pf_Wplz := pf_Wplz s; pf_iy := pf_iy s; pf_iz := pf_iz s |}.
(** geometry/profiles/_base_profile.py:167-177: assigning the attribute _Iyz. *)
Definition with_Iyz (x : R) (s : profile) : profile :=
  {| pf_poly := pf_poly s; pf_A := pf_A s; pf_Iy := pf_Iy s; pf_Iz := pf_Iz s; pf_Iyz := Some x; pf_Icsi := pf_Icsi s; pf_Ieta := pf_Ieta s;
     pf_theta := pf_theta s; pf_Wely := pf_Wely s; pf_Welz := pf_Welz s; pf_Wply := pf_Wply s; pf_Wplz := pf_Wplz s; pf_iy := pf_iy s; pf_iz := pf_iz s |}.
(** geometry/profiles/_base_profile.py:118-129: assigning _Icsi, _Ieta and _theta. *)
Definition with_principal (x y t : R) (s : profile) : profile :=
  {| pf_poly := pf_poly s; pf_A := pf_A s; pf_Iy := pf_Iy s; pf_Iz := pf_Iz s; pf_Iyz := pf_Iyz s; pf_Icsi := Some x; pf_Ieta := Some y;
     pf_theta := Some t; pf_Wely := pf_Wely s; pf_Welz := pf_Welz s; pf_Wply := pf_Wply s; pf_Wplz := pf_Wplz s; pf_iy := pf_iy s; pf_iz := pf_iz s |}.
(** geometry/profiles/_base_profile.py:215-225: assigning the attribute _Wely. *)
Definition with_Wely (x : R) (s : profile) : profile :=
  {| pf_poly := pf_poly s; pf_A := pf_A s; pf_Iy := pf_Iy s; pf_Iz := pf_Iz s; pf_Iyz := pf_Iyz s; pf_Icsi := pf_Icsi s; pf_Ieta := pf_Ieta s;
     pf_theta := pf_theta s; pf_Wely := Some x; pf_Welz := pf_Welz s; pf_Wply := pf_Wply s; pf_Wplz := pf_Wplz s; pf_iy := pf_iy s; pf_iz := pf_iz s |}.
(** geometry/profiles/_base_profile.py:215-225: assigning the attribute _Welz. *)
Definition with_Welz (x : R) (s : profile) : profile :=
  {| pf_poly := pf_poly s; pf_A := pf_A s; pf_Iy := pf_Iy s; pf_Iz := pf_Iz s; pf_Iyz := pf_Iyz s; pf_Icsi := pf_Icsi s; pf_Ieta := pf_Ieta s;
     pf_theta := pf_theta s; pf_Wely := pf_Wely s; pf_Welz := Some x; pf_Wply := pf_Wply s; pf_Wplz := pf_Wplz s; pf_iy := pf_iy s; pf_iz := pf_iz s |}.
(** geometry/profiles/_base_profile.py:243-264: assigning the attribute _Wply. *)
Definition with_Wply (x : R) (s : profile) : profile :=
  {| pf_poly := pf_poly s; pf_A := pf_A s; pf_Iy := pf_Iy s; pf_Iz := pf_Iz s; pf_Iyz := pf_Iyz s; pf_Icsi := pf_Icsi s; pf_Ieta := pf_Ieta s;
     pf_theta := pf_theta s; pf_Wely := pf_Wely s; pf_Welz := pf_Welz s; pf_Wply := Some x; pf_Wplz := pf_Wplz s; pf_iy := pf_iy s; pf_iz := pf_iz s |}.
(** geometry/profiles/_base_profile.py:266-291: assigning the attribute _Wplz. *)
Definition with_Wplz (x : R) (s : profile) : profile :=
  {| pf_poly := pf_poly s; pf_A := pf_A s; pf_Iy := pf_Iy s; pf_Iz := pf_Iz s; pf_Iyz := pf_Iyz s; pf_Icsi := pf_Icsi s; pf_Ieta := pf_Ieta s;
     pf_theta := pf_theta s; pf_Wely := pf_Wely s; pf_Welz := pf_Welz s; pf_Wply := pf_Wply s; pf_Wplz := Some x; pf_iy := pf_iy s; pf_iz := pf_iz s |}.
(** geometry/profiles/_base_profile.py:293-298: assigning the attribute _iy. *)
Definition with_iy (x : R) (s : profile) : profile :=
  {| pf_poly := pf_poly s; pf_A := pf_A s; pf_Iy := pf_Iy s; pf_Iz := pf_Iz s; pf_Iyz := pf_Iyz s; pf_Icsi := pf_Icsi s; pf_Ieta := pf_Ieta s;
     pf_theta := pf_theta s; pf_Wely := pf_Wely s; pf_Welz := pf_Welz s; pf_Wply := pf_Wply s; pf_Wplz := pf_Wplz s; pf_iy := Some x; pf_iz := pf_iz s |}.
(** geometry/profiles/_base_profile.py:300-305: assigning the attribute _iz. *)
Definition with_iz (x : R) (s : profile) : profile :=
  {| pf_poly := pf_poly s; pf_A := pf_A s; pf_Iy := pf_Iy s; pf_Iz := pf_Iz s; pf_Iyz := pf_Iyz s; pf_Icsi := pf_Icsi s; pf_Ieta := pf_Ieta s;
     pf_theta := pf_theta s; pf_Wely := pf_Wely s; pf_Welz := pf_Welz s; pf_Wply := pf_Wply s; pf_Wplz := pf_Wplz s; pf_iy := pf_iy s; pf_iz := Some x |}.

(** geometry/profiles/_base_profile.py:131-305: reading a property returns a value or raises, and leaves the object in a new state. *)
Definition reading : Type := profile -> result R * profile.
(** geometry/profiles/_base_profile.py:131-141 [A]. *)
Definition read_A : reading := fun s => match pf_A s with Some v => (Ok v, s) | None => let v := moment (pf_poly s) 0 0 in (Ok v, with_A v s) end.
(** geometry/profiles/_base_profile.py:143-153 [Iy]. *)
Definition read_Iy : reading := fun s => match pf_Iy s with Some v => (Ok v, s) | None => let v := moment (pf_poly s) 0 2 in (Ok v, with_Iy v s) end.
(** geometry/profiles/_base_profile.py:155-165 [Iz]. *)
Definition read_Iz : reading := fun s => match pf_Iz s with Some v => (Ok v, s) | None => let v := moment (pf_poly s) 2 0 in (Ok v, with_Iz v s) end.
(** geometry/profiles/_base_profile.py:167-177 [Iyz]. *)
Definition read_Iyz : reading := fun s => match pf_Iyz s with Some v => (Ok v, s) | None => let v := moment (pf_poly s) 1 1 in (Ok v, with_Iyz v s) end.
(** geometry/profiles/_base_profile.py:118-305: reading one value after another inside a computation. *)
Definition after (x : reading) (k : R -> reading) : reading :=
  fun s => let '(r, s) := x s in match r with Ok v => k v s | Err e => (Err e, s) end.
(** geometry/profiles/_base_profile.py:118-129; the second read of Iyz is from the cache. *)
Definition principals (eig : eigen) (k : R * R * R -> R) : reading :=
  after read_Iy (fun iy => after read_Iyz (fun iyz => after read_Iz (fun iz => fun s =>
    let '(i1, i2, t) := principal eig iy iz iyz in (Ok (k (i1, i2, t)), with_principal i1 i2 t s)))).
(** geometry/profiles/_base_profile.py:179-188 [Icsi]. *)
Definition read_Icsi (eig : eigen) : reading := fun s => match pf_Icsi s with Some v => (Ok v, s) | None => principals eig (fun '(a, _, _) => a) s end.
(** geometry/profiles/_base_profile.py:190-199 [Ieta]. *)
Definition read_Ieta (eig : eigen) : reading := fun s => match pf_Ieta s with Some v => (Ok v, s) | None => principals eig (fun '(_, b, _) => b) s end.
(** geometry/profiles/_base_profile.py:201-213: the attribute is tested before it exists. *)
Definition read_theta : reading := fun s => match pf_theta s with Some v => (Ok v, s) | None => (Err AttributeError, s) end.
(** geometry/profiles/_base_profile.py:215-225 [_compute_elastic_moduli]. *)
Definition elastic_moduli (k : R * R -> R) : reading := fun s =>
  let p := pf_poly s in
  let xmax := Rmax (Rabs (r_ymin p)) (r_ymax p) in
  let ymax := Rmax (Rabs (r_zmin p)) (r_zmax p) in
  after read_Iy (fun iy s =>
    if Reqb ymax 0 then (Err ZeroDivisionError, s) else
    let s := with_Wely (iy / ymax) s in
    after read_Iz (fun iz s =>
      if Reqb xmax 0 then (Err ZeroDivisionError, s) else
      (Ok (k (iy / ymax, iz / xmax)), with_Welz (iz / xmax) s)) s) s.
(** geometry/profiles/_base_profile.py:227-233 [Wely]. *)
Definition read_Wely : reading := fun s => match pf_Wely s with Some v => (Ok v, s) | None => elastic_moduli fst s end.
(** geometry/profiles/_base_profile.py:235-241 [Welz]. *)
Definition read_Welz : reading := fun s => match pf_Welz s with Some v => (Ok v, s) | None => elastic_moduli snd s end.
(** geometry/profiles/_base_profile.py:256-263: the sum over the pieces below and above the plastic axis. *)
Definition plastic_modulus (slice : slicer) (p : ring) (z : R) : R :=
  fold_left (fun (w : R) g => w + Rabs (moment g 0 1)) (slice (map (translate_map 0 (- z)) p) 0) 0.
(** geometry/profiles/_base_profile.py:243-264: the cache is set to 0 before the search. *)
Definition read_Wply (slice : slicer) : reading := fun s =>
  match pf_Wply s with
  | Some v => (Ok v, s)
  | None =>
      let s := with_Wply 0 s in
      match find_pna slice (pf_poly s) with
      | Err e => (Err e, s)
      | Ok z => let w := plastic_modulus slice (pf_poly s) z in (Ok w, with_Wply w s)
      end
  end.
(** geometry/profiles/_base_profile.py:266-291: the polygon is turned by 90 degrees and back. *)
Definition read_Wplz (slice : slicer) : reading := fun s =>
  match pf_Wplz s with
  | Some v => (Ok v, s)
  | None =>
      let s := with_Wplz 0 (with_poly (map (rotate_map 90 (0, 0) false) (pf_poly s)) s) in
      match find_pna slice (pf_poly s) with
      | Err e => (Err e, s)
      | Ok z => let w := plastic_modulus slice (pf_poly s) z in
          (Ok w, with_poly (map (rotate_map (-90) (0, 0) false) (pf_poly s)) (with_Wplz w s))
      end
  end.
(** geometry/profiles/_base_profile.py:293-305: [self._iy or (self.Iy / self.A) ** 0.5]; the power of a negative
    number (complex in Python) is not modelled. *)
Definition read_iy : reading := fun s =>
  let compute := after read_Iy (fun i => after read_A (fun a s => if Reqb a 0 then (Err ZeroDivisionError, s) else (Ok (sqrt (i / a)), with_iy (sqrt (i / a)) s))) in
  match pf_iy s with Some v => if Reqb v 0 then compute s else (Ok v, s) | None => compute s end.
(** geometry/profiles/_base_profile.py:300-305 [iz]. *)
Definition read_iz : reading := fun s =>
  let compute := after read_Iz (fun i => after read_A (fun a s => if Reqb a 0 then (Err ZeroDivisionError, s) else (Ok (sqrt (i / a)), with_iz (sqrt (i / a)) s))) in
  match pf_iz s with Some v => if Reqb v 0 then compute s else (Ok v, s) | None => compute s end.

(** geometry/profiles/_base_profile.py:131-305: the properties a user can read. *)
Inductive quantity := QA | QIy | QIz | QIyz | QIcsi | QIeta | Qtheta | QWely | QWelz | QWply | QWplz | Qiy | Qiz.
(** geometry/profiles/_base_profile.py:131-305: reading one of them. *)
Definition read (slice : slicer) (eig : eigen) (q : quantity) : reading :=
  match q with
  | QA => read_A | QIy => read_Iy | QIz => read_Iz | QIyz => read_Iyz | QIcsi => read_Icsi eig | QIeta => read_Ieta eig | Qtheta => read_theta
  | QWely => read_Wely | QWelz => read_Welz | QWply => read_Wply slice | QWplz => read_Wplz slice | Qiy => read_iy | Qiz => read_iz
  end.
(** geometry/profiles/_base_profile.py:131-305: a program reading one quantity after another, whatever it raises. *)
Fixpoint reads (slice : slicer) (eig : eigen) (l : list quantity) (s : profile) : profile :=
  match l with [] => s | q :: l' => reads slice eig l' (snd (read slice eig q s)) end.
