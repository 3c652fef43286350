(** What a geometry with another material has in common with the original. *)
From Verif Require Import Base M_Laws M_Laws2 M_Geo M_Derive.
From Coq Require Import String.
Open Scope R_scope.
Open Scope list_scope.

(** Same outline, new automatic name, no label. *)
Definition same_outline (s s' : surf) : Prop := sg_poly s' = sg_poly s /\ sg_group s' = None /\ exists k, sg_name s' = Auto k.
(** Same bar: position, size, name and label. *)
Definition same_bar (p p' : pnt) : Prop :=
  pg_at p' = pg_at p /\ pg_diam p' = pg_diam p /\ pg_name p' = pg_name p /\ pg_group p' = pg_group p.
(** The material [m'], made after [w], is linear elastic without limit, with the modulus [m] has at zero strain, and as heavy. *)
Definition elastic_twin (w w' : world) (m m' : material) : Prop :=
  (w_next w <= mt_id m' < w_next w')%nat /\ mt_is_concrete m' = false /\ mt_density m' = mt_density m /\
  forall e, lw_stress (w_laws w' (mt_id m')) e = lw_tangent (w_laws w (mt_id m)) 0 * e /\
            lw_tangent (w_laws w' (mt_id m')) e = lw_tangent (w_laws w (mt_id m)) 0.
(** The materials of a geometry, surfaces first. *)
Definition materials_of (g : comp) : list material := map sg_mat (cp_surf g) ++ map pg_mat (cp_pnt g).
(** All materials of the geometry exist. *)
Definition lives_in (w : world) (g : comp) : Prop := forall m, In m (materials_of g) -> (mt_id m < w_next w)%nat.
