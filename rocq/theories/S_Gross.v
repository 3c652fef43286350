(** Independent specification of gross section properties. *)
From Verif Require Import Base S_Marin M_Laws M_Laws2 M_Fiber S_Fiber S_MarinInt M_Section M_Gross.

(** Integral of phi over the section, surfaces by area, bars by their area, each
    weighted with the stiffness E of its material. *)
Definition weighted (E : nat -> R) (phi : R -> R -> R) (g : compound) : R :=
  lsum (map (fun s => E (sf_law s) * surface_integral phi s) (cg_surf g))
  + lsum (map (fun b => E (br_law b) * (br_area b * phi (br_y b) (br_z b))) (cg_bars g)).
(** The same for a section whose surfaces are divided into triangles: every
    triangle counts with its area at its centroid. *)
Definition lumped (E : nat -> R) (mesh : surface -> list ((R * R) * (R * R) * (R * R))) (phi : R -> R -> R) (g : compound) : R :=
  lsum (map (fun s => E (sf_law s) * lsum (map (fun t => let '(p, q, r) := t in
      Rabs (shoelace [p; q; r; p]) * phi ((fst p + fst q + fst r) / 3) ((snd p + snd q + snd r) / 3)) (mesh s))) (cg_surf g))
  + lsum (map (fun b => E (br_law b) * (br_area b * phi (br_y b) (br_z b))) (cg_bars g)).
(** A mesh generator that looks at the polygon only and moves its triangles with
    it, and whose triangles fill the polygon. *)
Definition moved_tri (u v : R) (t : (R * R) * (R * R) * (R * R)) : (R * R) * (R * R) * (R * R) :=
  let '(p, q, r) := t in ((fst p + u, snd p + v), (fst q + u, snd q + v), (fst r + u, snd r + v)).
Definition rigid (mesher : surface -> R -> list ((R * R) * (R * R) * (R * R))) (s : surface) : Prop :=
  forall a u v k, mesher {| sf_ext := map (fun p => (fst p + u, snd p + v)) (sf_ext s);
                            sf_ints := map (map (fun p => (fst p + u, snd p + v))) (sf_ints s); sf_law := k |} a
                  = map (moved_tri u v) (mesher s a).
Definition fills (ts : list ((R * R) * (R * R) * (R * R))) (s : surface) : Prop :=
  lsum (map (fun t => let '(p, q, r) := t in Rabs (shoelace [p; q; r; p])) ts) = surface_integral (fun _ _ => 1) s.
(** All rings are closed. *)
Definition rings_closed (g : compound) : Prop :=
  forall s, In s (cg_surf g) -> closed (sf_ext s) /\ (forall r, In r (sf_ints s) -> closed r).
(** A section made of two others. *)
Definition both (g h : compound) : compound := {| cg_surf := cg_surf g ++ cg_surf h; cg_bars := cg_bars g ++ cg_bars h |}.

(** What np.linalg.eig guarantees for the matrix [[a, c], [c, b]]: the values are
    the roots of the characteristic polynomial, the vectors unit eigenvectors. *)
Definition eigenvector (a b c l : R) (v : R * R) : Prop :=
  a * fst v + c * snd v = l * fst v /\ c * fst v + b * snd v = l * snd v /\ fst v ^ 2 + snd v ^ 2 = 1.
Definition eigen_ok (eig : eigen) : Prop := forall a b c,
  let '((l0, l1), (v0, v1)) := eig a b c in
  l0 + l1 = a + b /\ l0 * l1 = a * b - c ^ 2 /\ eigenvector a b c l0 v0 /\ eigenvector a b c l1 v1.

(** The numbers of a cross section described by its integrals: A phi without, W
    phi with the stiffness as weight; p the perimeter. *)
Definition classical (A W : (R -> R -> R) -> R) (r : gross) : Prop :=
  gp_ea r = W (fun _ _ => 1) /\
  gp_sy r = A (fun _ z => z) /\ gp_sz r = A (fun y _ => y) /\
  gp_iyy r = A (fun _ z => z ^ 2) /\ gp_izz r = A (fun y _ => y ^ 2) /\ gp_iyz r = A (fun y z => y * z) /\
  gp_e_sy r = W (fun _ z => z) /\ gp_e_sz r = W (fun y _ => y) /\
  gp_e_iyy r = W (fun _ z => z ^ 2) /\ gp_e_izz r = W (fun y _ => y ^ 2) /\ gp_e_iyz r = W (fun y z => y * z) /\
  gp_cy r * W (fun _ _ => 1) = W (fun y _ => y) /\ gp_cz r * W (fun _ _ => 1) = W (fun _ z => z) /\
  gp_iyy_c r = A (fun _ z => (z - gp_cz r) ^ 2) /\ gp_izz_c r = A (fun y _ => (y - gp_cy r) ^ 2) /\
  gp_iyz_c r = A (fun y z => (y - gp_cy r) * (z - gp_cz r)) /\
  gp_e_iyy_c r = W (fun _ z => (z - gp_cz r) ^ 2) /\ gp_e_izz_c r = W (fun y _ => (y - gp_cy r) ^ 2) /\
  gp_e_iyz_c r = W (fun y z => (y - gp_cy r) * (z - gp_cz r)).
(** Initial stiffness of the materials in use. *)
Definition stiffness0 (laws : nat -> law) (k : nat) : R := lw_tangent (laws k) 0.
Definition in_use (g : compound) (k : nat) : Prop :=
  (exists s, In s (cg_surf g) /\ sf_law s = k) \/ (exists b, In b (cg_bars g) /\ br_law b = k).

(** The two integration methods and what they integrate: Marin is exact, the
    fibre method replaces surfaces by the triangles of a mesh generator. *)
Definition integrates (mk : (nat -> law) -> integ) (ms : R) (g : compound) (I : (nat -> R) -> (R -> R -> R) -> compound -> R) : Prop :=
  (mk = marin_integ /\ I = weighted) \/
  (exists mesher, mk = (fun laws => fiber_integ laws mesher) /\ 0 < ms <= 1 /\
     (forall s, In s (cg_surf g) -> rigid mesher s /\ fills (mesher s (surface_area s * ms)) s) /\
     I = fun E phi g => lumped E (fun s => mesher s (surface_area s * ms)) phi g).
(** Second moment about the axis with direction (cos t, sin t). *)
Definition inertia_about (iyy izz iyz t : R) : R := iyy * cos t ^ 2 + 2 * iyz * (cos t * sin t) + izz * sin t ^ 2.
