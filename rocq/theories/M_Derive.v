(** Model of from_geometry, geometry/_geometry.py:291-332, 636-671 and 907-935: a geometry with another material.
    The materials that exist are threaded: [w_laws i] is the constitutive law of the material with identity i, [w_next] the
    first unused identity; [w_names] is the counter of automatic names.  The type checks are the model's types. *)
From Verif Require Import Base M_Marin M_Laws M_Laws2 M_Fiber M_MarinInt M_Geo.
From Coq Require Import String.
Open Scope R_scope.
Open Scope list_scope.

(** core/base.py:14-62 and geometry/_geometry.py:63, 99-104: the objects that exist so far. *)
Record world := { w_names : nat; w_next : nat; w_laws : nat -> law }.
(** geometry/_geometry.py:76-80: making something that may take a name. *)
Definition named {A} (f : counted A) (w : world) : A * world :=
  let '(a, c) := f (w_names w) in (a, {| w_names := c; w_next := w_next w; w_laws := w_laws w |}).
(** materials/basic/_elastic.py:68-80 [ElasticMaterial.from_material]: a new material; not an instance of Concrete. *)
Definition elastic_copy (m : material) (w : world) : result (material * world) :=
  do l <- elastic_init (lw_tangent (w_laws w (mt_id m)) 0) None;
  Ok ({| mt_id := w_next w; mt_is_concrete := false; mt_density := mt_density m |},
      {| w_names := w_names w; w_next := S (w_next w);
         w_laws := fun i => if (i =? w_next w)%nat then elastic_law l else w_laws w i |}).
(** geometry/_geometry.py:312-324, 655-667: the new material or the elastic copy. *)
Definition choose (new : option material) (old : material) (w : world) : result (material * world) :=
  match new with Some m => Ok (m, w) | None => elastic_copy old w end.
(** geometry/_geometry.py:636-669 [SurfaceGeometry.from_geometry]. *)
Definition surf_from (new : option material) (s : surf) (w : world) : result (surf * world) :=
  do x <- choose new (sg_mat s) w;
  Ok (named (new_surf (sg_poly s) (fst x) false None None) (snd x)).
(** geometry/_geometry.py:291-332 [PointGeometry.from_geometry]; the name is passed on. *)
Definition pnt_from (new : option material) (p : pnt) (w : world) : result (pnt * world) :=
  do x <- choose new (pg_mat p) w;
  Ok ({| pg_at := pg_at p; pg_diam := pg_diam p; pg_mat := fst x; pg_name := pg_name p; pg_group := pg_group p |}, snd x).
(** geometry/_geometry.py:925-934: the two loops. *)
Fixpoint walk {A B} (f : A -> world -> result (B * world)) (l : list A) (w : world) : result (list B * world) :=
  match l with
  | [] => Ok ([], w)
  | a :: l' => do x <- f a w; do y <- walk f l' (snd x); Ok (fst x :: fst y, snd y)
  end.
(** geometry/_geometry.py:907-935 [CompoundGeometry.from_geometry]. *)
Definition comp_from (new : option material) (g : comp) (w : world) : result (comp * world) :=
  do x <- walk (surf_from new) (cp_surf g) w;
  do y <- walk (pnt_from new) (cp_pnt g) (snd x);
  Ok (compound_of (map PSurf (fst x) ++ map PPnt (fst y)), snd y).
