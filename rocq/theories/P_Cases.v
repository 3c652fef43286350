(** Concrete cases that meet the hypotheses of C09, C10, C12, C16, C25, C45 and C46. *)
From Coq Require Import String Ascii ZArith Lra Lia.
From Coquelicot Require Import Coquelicot.
From Verif Require Import Base L_Section4 M_Marin S_Marin M_Laws S_Laws L_Laws L_LawsB L_LawsC M_Laws2 S_Laws2 L_Laws2 P_Laws P_Laws2 M_Registry S_Registry P_Registry
  M_Fiber S_Fiber L_Fiber P_Fiber M_MarinInt M_Section S_History P_Section M_Gross M_Geo S_Geo L_Geo P_Geo M_Bars S_Bars P_Bars P_Mesh3.

(** A hardening steel at 0, in the elastic range and beyond yielding. *)
Example C09_example : let eps := [1/1000; 0; 1/50] in
  secant_arr (ep_stress_arr steel) (ep_tangent_arr steel) eps = map (secant (ep_stress steel) (ep_tangent steel)) eps /\
  secant (ep_stress steel) (ep_tangent steel) (1/1000) = 200000.
Proof.
  intros eps. split.
  - apply (C09_secant_array_elasticplastic 200000 400 1000 (Some (5/100)) steel eps steel_init); [lra|lra|intros u [= <-]; lra|cbn; lra].
  - pose proof (proj1 (C09_secant (ep_stress steel) (ep_tangent steel) (1/1000)) ltac:(lra)) as Q.
    assert (W : ep_wf steel) by (apply (ep_init_wf _ _ _ _ _ steel_init); [lra|lra|intros u [= <-]; lra]).
    rewrite (ep_elastic_range steel (1/1000) W) in Q; [cbn [steel ep_E] in Q; lra| |].
    + unfold settled, ep_ult, steel. cbn [ep_su fst snd]. unfold far, tol. repeat split; unfold Rabs; repeat destruct Rcase_abs; lra.
    + cbn [steel ep_sy]. unfold Rabs; repeat destruct Rcase_abs; lra.
Qed.
(** Two laws asked one after the other with the same array. *)
Example C10_example : let laws := [ep_law steel; elastic_law {| el_E := 30000; el_u := None |}] in let eps := [1/1000; -3/1000] in
  in_turn (map lw_stress_arr laws) eps = (map (fun l => fst (lw_stress_arr l eps)) laws, eps).
Proof.
  intros laws eps. apply C10_order_independence.
  - intros l [<-|[<-|[]]]; [right; left; eexists; reflexivity|left; eexists; reflexivity].
  - intros l [<-|[<-|[]]]; cbn [lw_ult ep_law elastic_law]; unfold ep_ult, elastic_ult, steel; cbn [ep_su el_u fst snd];
    (split; [unfold separated, far, tol; cbn [fst snd]; unfold Rabs; repeat destruct Rcase_abs; lra|]);
    intros e [<-|[<-|[]]]; unfold far, tol; split; unfold Rabs; repeat destruct Rcase_abs; lra.
Qed.
(** An elastic tendon under a strain field that varies over the section. *)
Example C12_example : let l := elastic_law {| el_E := 200000; el_u := None |} in let i := is_init l (1/1000) true in
  describes (fun _ => True) (is_stress i) (1/500) 3 (snd (is_marin i (1/500, 3))) /\ is_stress i 0 = 200.
Proof.
  intros l i. split.
  - apply (C12_marin_uniform (fun _ => True) l (1/1000) (1/500) 3); [apply elastic_describes|reflexivity].
  - destruct (C12_compatible l (1/1000) 0) as (_ & _ & _ & E). unfold i. rewrite E. cbn. unfold elastic_stress. cbn. lra.
Qed.
(** With the code set to EC2:2004 and no code in the call, its own concrete class is built;
    a code module without reinforcement is refused. *)
Example C16_example : let s := with_code (Some ec2_2004) g_initial in
  fst (create "concrete" (fun k => Ok k) ANone s) = Ok (Some ClsEC2_2004) /\
  (forall (A : Type) (b : mclass -> result A), fst (create "reinforcement" b (AMod {| md_title := Some "T"%string; md_year := Some "1"%string; md_materials := Some ["concrete"%string] |}) s) = Err ValueError).
Proof.
  intros s. split.
  - destruct (C16_class_of_code mclass "concrete" (fun k => Ok k) ANone (Some ec2_2004) s (or_introl eq_refl) (or_introl (conj eq_refl eq_refl))) as (_ & E & _). exact (E eq_refl).
  - intros A b. apply (C16_uncovered_material_raises A "reinforcement" b _ ["concrete"%string]); [cbn; repeat split; discriminate|reflexivity|].
    cbn. intros [E|[]]. discriminate.
Qed.
(** Forces asked twice with one mesh size. *)
Example C25_example : let ig := fiber_integ (stiff_laws 1000) ex_mesher in let o := OProfile (1/1000, 0, 0) in
  let s := snd (run ig (sym_traits 1) (1/20) ex_geo o st_init) in uses_mesh ex_mesher ex_geo (1/20) (1/20) s.
Proof.
  intros ig o s. apply (C25_mesh_used (stiff_laws 1000) ex_mesher (sym_traits 1) (1/20) ex_geo [o] s (stiff_batched 1000) ltac:(lra)).
  - intros x [<-|[]]. exact Logic.I.
  - change [o] with ([] ++ [o]). unfold s. destruct (run ig (sym_traits 1) (1/20) ex_geo o st_init) as [[a|e] s'] eqn:E; cbn [snd].
    + exact (h_next _ _ _ _ [] st_init o a s' (h_new _ _ _ _) E).
    + exact (h_raised _ _ _ _ [] st_init o e s' (h_new _ _ _ _) E Logic.I).
Qed.
(** A horizontal line through (1, 2) and three pieces. *)
Example C45_example : let l := line_point_angle (1, 2) 0 (-3, -3, 3, 3) in
  fst (fst l) < -3 /\ 3 < fst (snd l) /\
  split_pieces ((0, 0), (1, 0)) [1; -1; 2] (fun h => (0, h)) = ([1; 2], [-1]).
Proof.
  intros l. destruct (C45_line_spans (1, 2) 0 (-3) (-3) 3 3) as (A & B); [rewrite cos_0, Rabs_R1; lra|]. split; [exact A|]. split; [exact B|].
  assert (T : forall h, 0 < h -> is_ccw3 (0, 0) (1, 0) (0, h) = true) by (intros h H; apply Rltb_true; cbn [fst snd]; lra).
  assert (F : is_ccw3 (0, 0) (1, 0) (0, -1) = false) by (apply Bool.not_true_is_false; intros H; apply Rltb_true in H; cbn [fst snd] in H; lra).
  unfold split_pieces. cbn [fold_left fst snd]. rewrite F, !T by lra. reflexivity.
Qed.
Example C46_example : exists s c, rectangle 2 3 {| mt_id := 0; mt_is_concrete := true; mt_density := None |} false (Some [1; 5]) None None 0 = Ok (s, c) /\
  sg_area s = 6 /\ surf_extents s = (0, 2, 7/2, 13/2).
Proof.
  destruct (C46_rectangle 2 3 {| mt_id := 0; mt_is_concrete := true; mt_density := None |} false (Some [1; 5]) None None 0 ltac:(lra) ltac:(lra)
    ltac:(right; do 2 eexists; reflexivity)) as (s & c & E & _ & _ & A & X & _).
  exists s, c. split; [exact E|]. rewrite A, X. split; [lra|]. apply f_equal2; [apply f_equal2; [apply f_equal2|]|]; lra.
Qed.
