(** Histories of analyses on one section calculator. *)
From Verif Require Import Base M_Laws M_Laws2 M_Fiber M_MarinInt M_Section M_Domain.

(** The public analyses with their arguments. *)
Inductive op :=
| OProfile (p : profile)                                   (* integrate_strain_profile *)
| OTangent (p : profile)                                   (* integrate_strain_profile(integrate='modulus') *)
| OLimits                                                  (* n_min, n_max *)
| OStrength (theta n : R)                                  (* calculate_bending_strength *)
| OCurvature (theta n chi_first : R) (npre npost : nat) (chi : option (list R))  (* calculate_moment_curvature *)
| ONM (theta : R) (f : fields) (complete : bool)           (* calculate_nm_interaction_domain *)
| OMM (n : R) (num_theta : nat)                            (* calculate_mm_interaction_domain *)
| ONMM (num_theta : nat) (f : fields)                      (* calculate_nmm_interaction_domain *)
| OStrain (loads : R * R * R) (initial : bool) (max_iter : nat) (tol : R)  (* calculate_strain_profile *)
| OFixed (n curv eps0 : R).                                (* find_equilibrium_fixed_curvature *)
Inductive reply :=
| AForces (F : R * R * R) | AMatrix (K : nat -> nat -> R) | ALimits (l : R * R) | AStrength (r : strength)
| ACurvature (l : list (R * R * R * R * R)) | ADomain (d : domain) | AMM (l : list ((R * R * R) * (R * R * R))) | AStrain (p : profile).
Definition amap {A B} (f : A -> B) (x : act A) : act B := fun s => (rmap f (fst (x s)), snd (x s)).
Definition run (ig : integ) (t : traits) (ms : R) (g : compound) (o : op) : act reply :=
  match o with
  | OProfile p => amap AForces (integrate_profile ig ms g p)
  | OTangent p => amap AMatrix (integrate_modulus ig ms g p)
  | OLimits => amap ALimits (limits ig t ms g)
  | OStrength th n => amap AStrength (bending_strength ig t ms g th n)
  | OCurvature th n c a b l => amap ACurvature (moment_curvature ig t ms g th n c a b l)
  | ONM th f c => amap ADomain (nm_domain ig t ms g th f c)
  | OMM n k => amap AMM (mm_domain ig t ms g n k)
  | ONMM k f => amap ADomain (nmm_domain ig t g k f)
  | OStrain l i k e => amap AStrain (strain_profile ig ms g l i k e)
  | OFixed n c e => amap AStrain (fixed_curvature ig g n c e)
  end.
(** Analyses that hand the calculator's mesh size to the integrator. *)
Definition meshed (o : op) : Prop :=
  match o with ONMM _ _ | OStrain _ _ _ _ | OFixed _ _ _ => False | _ => True end.

(** Analyses that never turn the section. *)
Definition upright (o : op) : Prop :=
  match o with OStrength _ _ | OCurvature _ _ _ _ _ _ | OMM _ _ => False | _ => True end.

(** [history ops s]: the state of a new calculator after these analyses; an
    analysis that raised is part of the history only if it does not turn the
    section. *)
Inductive history (ig : integ) (t : traits) (ms : R) (g : compound) : list op -> sstate -> Prop :=
| h_new : history ig t ms g [] st_init
| h_next ops s o a s' : history ig t ms g ops s -> run ig t ms g o s = (Ok a, s') -> history ig t ms g (ops ++ [o]) s'
| h_raised ops s o e s' : history ig t ms g ops s -> run ig t ms g o s = (Err e, s') -> upright o -> history ig t ms g (ops ++ [o]) s'.

(** The triangulation a calculator works with: what the mesher gives for mesh
    size ms, or nothing yet, when the next analysis would ask for [dflt]. *)
Definition same_mesh (d e : list group) : Prop :=
  map (fun x => (gr_fibres x, gr_law x)) d = map (fun x => (gr_fibres x, gr_law x)) e.
Definition uses_mesh (mesher : surface -> R -> list mtri) (g : compound) (ms dflt : R) (s : sstate) : Prop :=
  match st_data s with
  | None => dflt = ms
  | Some d => exists e, triangulate mesher g ms = Ok e /\ same_mesh d e
  end.
