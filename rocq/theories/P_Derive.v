(** Property C51: geometries with another material. *)
From Verif Require Import Base M_Marin M_Laws M_Laws2 M_Fiber M_MarinInt M_Section M_Geo S_Geo L_Geo M_Gross M_Derive S_Derive L_Derive.
From Coq Require Import String Lia.
Open Scope R_scope.
Open Scope list_scope.

(** With a new material: the same outlines and bars in the same order, all of the new material, which alone decides which surfaces
    are concrete; bars keep name and label, surfaces get consecutive new names. No material is made or changed. *)
Theorem C51_new_material : forall m g w, exists g' w', comp_from (Some m) g w = Ok (g', w') /\
  Forall2 (fun s s' => same_outline s s' /\ sg_mat s' = m /\ sg_concrete s' = mt_is_concrete m) (cp_surf g) (cp_surf g') /\
  Forall2 (fun p p' => same_bar p p' /\ pg_mat p' = m) (cp_pnt g) (cp_pnt g') /\
  w_next w' = w_next w /\ w_laws w' = w_laws w /\ map sg_name (cp_surf g') = map Auto (seq (w_names w) (List.length (cp_surf g))).
Proof. exact given_from. Qed.
Print Assumptions C51_new_material.

(** Without: every part gets a linear elastic material of its own, with the modulus its material has at zero strain; the materials of
    the original geometry stay as they were. *)
Theorem C51_elastic_copy : forall g w, lives_in w g -> (forall m, In m (materials_of g) -> 0 < lw_tangent (w_laws w (mt_id m)) 0) ->
  exists g' w', comp_from None g w = Ok (g', w') /\
    Forall2 (fun s s' => same_outline s s' /\ elastic_twin w w' (sg_mat s) (sg_mat s')) (cp_surf g) (cp_surf g') /\
    Forall2 (fun p p' => same_bar p p' /\ elastic_twin w w' (pg_mat p) (pg_mat p')) (cp_pnt g) (cp_pnt g') /\
    NoDup (map mt_id (materials_of g')) /\ (forall i, (i < w_next w)%nat -> w_laws w' i = w_laws w i) /\
    map sg_name (cp_surf g') = map Auto (seq (w_names w) (List.length (cp_surf g))).
Proof.
  intros g w L P. destruct (elastic_from g w L P) as (g' & w' & E & F1 & F2 & I & X & N & _). exists g', w'.
  split; [exact E|]. split; [|split; [exact F2|split; [rewrite I; apply seq_NoDup|split; [apply X|exact N]]]].
  clear - F1. induction F1 as [|a b la lb (A & T & _) FF IH]; constructor; [split; assumption|exact IH].
Qed.
Print Assumptions C51_elastic_copy.

(** A material whose law does not rise at zero strain cannot be copied. *)
Theorem C51_elastic_refused : forall g w m, lives_in w g -> In m (materials_of g) -> lw_tangent (w_laws w (mt_id m)) 0 <= 0 ->
  comp_from None g w = Err ValueError.
Proof. exact elastic_from_fails. Qed.
Print Assumptions C51_elastic_refused.

(** The elastic copy has the gross properties of the original, with either integrator. *)
Theorem C51_gross : forall mk eig un ms g w g' w' dens dens', lives_in w g -> comp_from None g w = Ok (g', w') ->
  (forall m, In m (materials_of g) -> 0 < lw_tangent (w_laws w (mt_id m)) 0) ->
  (forall m, In m (materials_of g) -> dens (mt_id m) = mt_density m) -> (forall m, In m (materials_of g') -> dens' (mt_id m) = mt_density m) ->
  gross_properties mk (w_laws w') dens' eig un ms (forget g') = gross_properties mk (w_laws w) dens eig un ms (forget g).
Proof. exact gross_from. Qed.
Print Assumptions C51_gross.

(** But it is not reinforced concrete any more, whatever the original was, and its surfaces have lost their labels. *)
Theorem C51_flag_refuted : forall g w g' w', lives_in w g -> comp_from None g w = Ok (g', w') ->
  (forall m, In m (materials_of g) -> 0 < lw_tangent (w_laws w (mt_id m)) 0) ->
  (exists h, reinforced_concrete g' = Ok (false, h)) /\ forall s, In s (cp_surf g') -> sg_group s = None.
Proof.
  intros g w g' w' L E P. destruct (elastic_from g w L P) as (g2 & w2 & E2 & F1 & _ & _ & _ & _ & RC). rewrite E in E2. injection E2 as <- <-.
  assert (A : forall s, In s (cp_surf g') -> sg_concrete s = false /\ sg_group s = None).
  { clear - F1. induction F1 as [|a b la lb ((_ & G & _) & _ & C) FF IH]; [intros s []|]. intros s [<- | I]; [split; assumption|apply IH; exact I]. }
  split; [|intros s I; apply A; exact I]. unfold reinforced_concrete. rewrite RC. eexists. do 2 f_equal.
  destruct (existsb sg_concrete (cp_surf g')) eqn:X; [|reflexivity]. apply existsb_exists in X. destruct X as (s & I & C). destruct (A s I) as [Q _]. congruence.
Qed.
Print Assumptions C51_flag_refuted.

(** A labelled concrete block with a bar. *)
Definition block_poly : polygon := {| pl_ext := [(0,0); (1,0); (1,1); (0,1); (0,0)]; pl_ints := [] |}.
Definition block_mat : material := {| mt_id := 0; mt_is_concrete := true; mt_density := Some 2500 |}.
Definition bar_mat : material := {| mt_id := 1; mt_is_concrete := false; mt_density := Some 7850 |}.
Definition small_beam : comp := {|
  cp_surf := [{| sg_poly := block_poly; sg_mat := block_mat; sg_concrete := true; sg_name := Named "block"; sg_group := Some "body"%string |}];
  cp_pnt := [{| pg_at := (1/2, 1/10); pg_diam := 1/50; pg_mat := bar_mat; pg_name := Auto 0; pg_group := None |}]; cp_rc := RcNone |}.
Definition small_world : world := {| w_names := 1; w_next := 2;
  w_laws := fun i => match i with O => elastic_law {| el_E := 30000; el_u := None |} | _ => elastic_law {| el_E := 200000; el_u := Some (-(1/10), 1/10) |} end |}.
Example C51_applies : lives_in small_world small_beam /\ (forall m, In m (materials_of small_beam) -> 0 < lw_tangent (w_laws small_world (mt_id m)) 0) /\
  exists h, reinforced_concrete small_beam = Ok (true, h).
Proof.
  split; [|split].
  - intros m [<- | [<- | []]]; cbn; lia.
  - intros m [<- | [<- | []]]; cbn; lra.
  - eexists. reflexivity.
Qed.
