(** Independent specification for bending strength and moment-curvature results. *)
From Verif Require Import Base M_Marin M_Laws M_Laws2 M_Fiber S_Fiber M_Section S_Section S_Domain.

(** Internal forces (N, My, Mz) are the resultants of the fibres F under the
    strain profile p = (axial strain, two curvatures). *)
Definition equilibrates (F : list mfibre) (p forces : R * R * R) : Prop :=
  forces = (axial F (fst (fst p)) (snd (fst p)) (snd p), moment_y F (fst (fst p)) (snd (fst p)) (snd p), moment_z F (fst (fst p)) (snd (fst p)) (snd p)).
(** Axial force of a profile that bends about the axis turned by theta only:
    axial strain e in the origin, curvature c. *)
Definition axial_turned (F : list mfibre) (theta e c : R) : R := axial F e (cos theta * c) (sin theta * c).
(** Result of an analysis as profile and as forces. *)
Definition profile_of (r : strength) : R * R * R := (rs_eps r, rs_chiy r, rs_chiz r).
Definition forces_of (r : strength) : R * R * R := (rs_n r, rs_my r, rs_mz r).
(** A point of a moment-curvature curve: axial strain, two curvatures, two moments. *)
Definition point := (R * R * R * R * R)%type.
Definition pt_profile (x : point) : R * R * R := fst (fst x).
Definition pt_moments (x : point) : R * R := (snd (fst x), snd x).
(** Every strain of the section's material points is within the material's
    ultimate strains ([ult] of the material number); corners of the surfaces and bars. *)
Definition point_of (g : compound) (y z : R) (k : nat) : Prop :=
  (exists s v, In s (cg_surf g) /\ In v (sf_ext s) /\ v = (y, z) /\ k = sf_law s) \/
  (exists b, In b (cg_bars g) /\ y = br_y b /\ z = br_z b /\ k = br_law b).
