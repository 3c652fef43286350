(** Lemmas for C50: the two example sections. *)
From Coquelicot Require Import Coquelicot.
From Verif Require Import Base M_Marin S_Marin L_Marin M_Laws S_Laws L_Laws L_LawsC M_Laws2 S_Laws2 L_Laws2 M_Fiber S_Fiber L_Fiber P_Fiber M_MarinInt S_MarinInt L_MarinInt L_MarinInt2 L_MarinInt3 L_MarinInt4 M_Section S_Section L_Section L_Section2 M_Gross S_Gross L_Gross L_Gross2 M_Geo M_Cracked S_Cracked L_Cracked L_Cracked2 L_Cracked3 L_Cracked4 L_Cracked5 L_Cracked6 L_Cracked7.
From Coq Require Import Lra Lia Permutation String.
Open Scope R_scope.
Open Scope list_scope.

Lemma turn_zero v : turn (- 0) v = v.
Proof. destruct v as [y z]. unfold turn. cbn [fst snd]. rewrite Ropp_0, cos_0, sin_0. f_equal; ring. Qed.
Lemma turn_zero_ring l : map (turn (- 0)) l = l.
Proof. rewrite (map_ext _ (fun v => v) turn_zero). apply map_id. Qed.
Lemma back_zero y z : back_y (- 0) y z = y /\ back_z (- 0) y z = z.
Proof. unfold back_y, back_z. rewrite Ropp_0, cos_0, sin_0. split; ring. Qed.
Lemma int_id a b : is_RInt (fun z : R => z) a b (b ^ 2 / 2 - a ^ 2 / 2).
Proof.
  apply (is_RInt_derive (fun z => z ^ 2 / 2) (fun z => z)).
  - intros z _. auto_derive; [exact I|field].
  - intros z _. apply continuous_id.
Qed.
Lemma int_ramp0 a b : a <= 0 <= b -> a < b -> is_RInt (ramp 0) a b (b ^ 2 / 2).
Proof.
  intros [A B] L. replace (b ^ 2 / 2) with (plus 0 (b ^ 2 / 2)) by (change (0 + b ^ 2 / 2 = b ^ 2 / 2); ring).
  apply (is_RInt_Chasles (V := R_NormedModule) (ramp 0) a 0 b 0 (b ^ 2 / 2)).
  - apply is_RInt_zero. intros z Hz. rewrite Rmin_left, Rmax_right in Hz by lra. unfold ramp, Rmax. destruct (Rle_dec _ _); lra.
  - eapply is_RInt_ext; [|replace (b ^ 2 / 2) with (b ^ 2 / 2 - 0 ^ 2 / 2) by field; apply int_id].
    intros z Hz. rewrite Rmin_left, Rmax_right in Hz by lra. unfold ramp, Rmax. destruct (Rle_dec _ _); lra.
Qed.
Lemma sfield_rect F y0 y1 z0 z1 k v : y0 < y1 -> z0 < z1 -> is_RInt F z0 z1 v ->
  sfield F {| sf_ext := rect y0 y1 z0 z1; sf_ints := []; sf_law := k |} = (y1 - y0) * v.
Proof.
  intros A B H. unfold sfield. cbn [sf_ext sf_ints map]. rewrite lsum_nil, rect_ccw by assumption. rewrite (gfield_rect 0 F y0 y1 z0 z1 v H). cbn [Nat.add INR pow]. field.
Qed.

Lemma rotate_zero s : rotate_surface 0 s = s.
Proof.
  rewrite rotate_surface_turned. destruct s as [e i k]. unfold turned. cbn [sf_ext sf_ints sf_law].
  replace (turn 0) with (turn (- 0)) by (now rewrite Ropp_0). rewrite turn_zero_ring. rewrite (map_ext _ (fun l => l) turn_zero_ring), map_id. reflexivity.
Qed.
Lemma rotate_neg_zero s : rotate_surface (- 0) s = s.
Proof. rewrite Ropp_0. apply rotate_zero. Qed.

(** A beam 300 by 600 with one bar, its neutral axis in the origin. *)
Definition beam_laws (k : nat) : law := elastic_law {| el_E := match k with O => 30000 | _ => 200000 end; el_u := None |}.
Definition depth : R := 10125 / 8 / PI.
Definition beam : comp :=
  {| cp_surf := [{| sg_poly := rect_poly (-150) 150 (-450) 150; sg_mat := {| mt_id := 0; mt_is_concrete := true; mt_density := Some 2500 |}; sg_concrete := true; sg_name := Auto 0; sg_group := None |}];
     cp_pnt := [{| pg_at := (0, - depth); pg_diam := 40; pg_mat := {| mt_id := 1; mt_is_concrete := false; mt_density := Some 7850 |}; pg_name := Auto 1; pg_group := None |}];
     cp_rc := RcNone |}.
Lemma depth_bounds : 0 < depth <= 1000 /\ PI <= 4 /\ 2 < PI.
Proof.
  pose proof PI2_1 as A. pose proof PI_4 as B.
  assert (X : depth * PI = 10125 / 8) by (unfold depth; field; lra).
  assert (P : 0 < depth) by (unfold depth; apply Rdiv_lt_0_compat; lra).
  split; [split; [exact P|]|lra]. apply Rnot_lt_le. intros N. nra.
Qed.
Lemma beam_moment : first_moment (stiffness0 beam_laws) 0 (forget beam) 0 = 0.
Proof.
  rewrite <- moment_first. unfold moment_at.
  rewrite (sum_surf (stiffness0 beam_laws) 0 (forget beam) (fun x => x) (sfield (ramp 0))) by reflexivity.
  rewrite (sum_bar (stiffness0 beam_laws) 0 (forget beam) (fun x => x) (fun b => br_area b * (br_z b - 0))) by reflexivity.
  cbn [forget beam cg_surf cg_bars cp_surf cp_pnt map sg_poly rect_poly pl_ext pl_ints sg_mat mt_id pg_at pg_mat turned sf_ext sf_ints sf_law br_law].
  rewrite !lsum_cons, !lsum_nil. unfold turned. cbn [sf_ext sf_ints sf_law]. rewrite turn_zero_ring. cbn [map].
  rewrite (sfield_rect (ramp 0) (-150) 150 (-450) 150 0 (150 ^ 2 / 2)) by (lra || (apply int_ramp0; lra)).
  unfold rotate_bar. cbn [br_area br_y br_z fst snd]. rewrite rot_turn, turn_zero. unfold pg_area. cbn [pg_diam fst snd].
  unfold stiffness0, beam_laws. cbn [elastic_law lw_tangent]. unfold elastic_tangent. cbn [el_E]. unfold depth. pose proof PI_RGT_0. field. lra.
Qed.
Lemma beam_stiff : weighted (stiffness0 beam_laws) (fun _ _ => 1) (forget beam) <= 10 ^ 24.
Proof.
  unfold weighted. cbn [forget beam cg_surf cg_bars cp_surf cp_pnt map sg_poly rect_poly pl_ext pl_ints sg_mat mt_id pg_at pg_mat sf_law br_law br_area].
  rewrite !lsum_cons, !lsum_nil. rewrite (surface_field (fun _ => 1)).
  rewrite (sfield_rect (fun _ => 1) (-150) 150 (-450) 150 0 (scal (150 - -450) 1)) by (lra || apply (is_RInt_const (V := R_NormedModule))).
  change (scal (150 - -450) 1) with ((150 - -450) * 1). unfold pg_area, stiffness0, beam_laws. cbn [pg_diam elastic_law lw_tangent]. unfold elastic_tangent. cbn [el_E].
  destruct depth_bounds as (_ & A & B). cbn [pow]. lra.
Qed.

(** A steel plate below and a concrete plate above, equally stiff. *)
Definition plates_laws (k : nat) : law := elastic_law {| el_E := 1; el_u := None |}.
Definition steel_plate : surf :=
  {| sg_poly := rect_poly 0 1 (-1) 0; sg_mat := {| mt_id := 0; mt_is_concrete := false; mt_density := Some 7850 |}; sg_concrete := false; sg_name := Auto 0; sg_group := None |}.
Definition concrete_plate : surf :=
  {| sg_poly := rect_poly 0 1 0 1; sg_mat := {| mt_id := 1; mt_is_concrete := true; mt_density := Some 2500 |}; sg_concrete := true; sg_name := Auto 1; sg_group := None |}.
Definition plates : comp := {| cp_surf := [steel_plate; concrete_plate]; cp_pnt := []; cp_rc := RcNone |}.
Definition pt_laws (i : nat) : law := nth i [elastic_law {| el_E := 1; el_u := None |}; ncl 1] (elastic_law {| el_E := 1; el_u := None |}).
Definition pt_geo : compound :=
  {| cg_surf := [{| sf_ext := rect 0 1 (-1) 0; sf_ints := []; sf_law := 0 |}; {| sf_ext := rect 0 1 0 1; sf_ints := []; sf_law := 1 |}]; cg_bars := [] |}.
Lemma plates_temp : temporary plates_laws 0 plates = Ok (pt_geo, pt_laws, fun i => nth i [Some 7850; Some 2500] None).
Proof.
  unfold temporary, cracked_laws.
  cbn [plates cp_surf cp_pnt map app fst snd steel_plate concrete_plate sg_concrete sg_mat mt_id mapM].
  unfold cracked_law at 1. change (lw_tangent (plates_laws 0) 0) with 1. unfold elastic_init. destruct (Rleb_spec 1 0) as [N|_]; [lra|]. cbn [bind].
  rewrite ncl_init. change (lw_tangent (plates_laws 1) 0) with 1. cbn [bind]. f_equal. f_equal. f_equal.
  cbn [rotate_geo forget plates cp_surf cp_pnt cg_surf cg_bars map rotate_surface rotate_bar number_surfaces number_bars length].
  unfold pt_geo. f_equal. cbn [sf_ext sf_ints steel_plate concrete_plate sg_poly rect_poly pl_ext pl_ints map rect].
  repeat rewrite rotate_neg_zero. reflexivity.
Qed.
Lemma pt_batched k : batched (pt_laws k).
Proof. destruct k as [|[|k]]; cbn; [apply elastic_batched|apply ncl_batched|]. destruct k; apply elastic_batched. Qed.
Lemma plates_balance : exists My Mz d, marin_forces pt_laws pt_geo (0, curv, 0) None = Ok ((0, My, Mz), d).
Proof.
  pose proof curv_val as CV.
  set (r := sqrt (0 ^ 2 + curv ^ 2)).
  assert (RV : r = - curv).
  { unfold r. replace (0 ^ 2 + curv ^ 2) with ((- curv) * (- curv)) by ring. apply sqrt_square. lra. }
  set (fs := fun k : nat => match k with O => fun e => 1 * e | _ => nct 1 end).
  assert (FO : forall s, In s (cg_surf pt_geo) -> field_of (lw_marin (pt_laws (sf_law s)) (0, r)) (fs (sf_law s)) 0 r /\
    closed (sf_ext s) /\ (forall q, In q (sf_ints s) -> closed q)).
  { intros s [<-|[<-|[]]]; (split; [|split; [reflexivity|contradiction]]).
    - apply (elastic_field {| el_E := 1; el_u := None |} 0 r).
    - apply ncl_field. lra. }
  pose proof (forces_core pt_laws fs pt_geo 0 curv 0 pt_batched FO ltac:(intros b b' [])) as FC. cbv zeta in FC.
  rewrite FC. do 3 eexists. f_equal. f_equal. f_equal. f_equal. clear FC.
  set (a := - atan2 0 curv).
  destruct (atan2_spec curv 0) as [A1 A2]. fold r in A1, A2.
  assert (Ca : cos a = -1) by (unfold a; rewrite cos_neg; apply Rmult_eq_reg_l with r; lra).
  assert (Sa : sin a = 0) by (unfold a; rewrite sin_neg; apply Rmult_eq_reg_l with r; lra).
  unfold surfaces_turned. cbn [pt_geo cg_surf cg_bars map]. rewrite !lsum_cons, !lsum_nil.
  assert (SV : forall k F y0 y1 z0 z1 v, y0 < y1 -> z0 < z1 -> (forall z, z0 <= z <= z1 -> fs k (0 + r * (- z)) = F z) -> is_RInt F z0 z1 v ->
    surface_integral (fun y' z' => fs k (plane_strain 0 curv 0 (back_y a y' z') (back_z a y' z')) * arm 0 (back_y a y' z') (back_z a y' z'))
      (turned a {| sf_ext := rect y0 y1 z0 z1; sf_ints := []; sf_law := k |}) = (y1 - y0) * v).
  { intros k F y0 y1 z0 z1 v L1 L2 H IV.
    transitivity (surface_integral (fun _ z' => fs k (0 + r * z')) (turned a {| sf_ext := rect y0 y1 z0 z1; sf_ints := []; sf_law := k |})).
    { apply surf_ext. intros y z. cbn [arm]. unfold a, r. rewrite rotated_strain. ring. }
    rewrite (surface_field (fun z' => fs k (0 + r * z'))), (sfield_half a (fun z' => fs k (0 + r * z'))) by assumption.
    rewrite (sfield_band z0 z1 _ F); [now apply sfield_rect| |exact H].
    split; [|contradiction]. intros u J. cbn [sf_ext rect] in J. repeat (destruct J as [<-|J]; [cbn [snd]; lra|]). contradiction. }
  cbn [sf_law].
  rewrite (SV 0%nat (fun z => curv * z) 0 1 (-1) 0 (scal curv (0 ^ 2 / 2 - (-1) ^ 2 / 2))); [|lra|lra| |].
  - rewrite (SV 1%nat (fun z => curv * z) 0 1 0 1 (scal curv (1 ^ 2 / 2 - 0 ^ 2 / 2))); [|lra|lra| |].
    + change (scal curv ?a) with (curv * a). unfold barpart. cbn [map]. rewrite lsum_nil. field.
    + intros z Hz. unfold fs, nct. rewrite RV, CV. destruct (Rle_dec (-100) _); [|lra]. destruct (Rle_dec _ 0); lra.
    + apply (is_RInt_scal (V := R_NormedModule) (fun z => z)). apply int_id.
  - intros z Hz. unfold fs. rewrite RV. ring.
  - apply (is_RInt_scal (V := R_NormedModule) (fun z => z)). apply int_id.
Qed.
Lemma plates_axis : fst (fixed_curvature (marin_integ pt_laws) pt_geo 0 curv 0 st_init) = Ok (0, curv, 0).
Proof.
  destruct plates_balance as (My & Mz & d & F0). unfold fixed_curvature, abind, forces_k. cbn [st_init st_data marin_integ ig_forces]. rewrite F0.
  cbn [fst snd]. unfold solve_curvature. destruct (Rleb_spec (Rabs (0 - 0)) (1/100)) as [_|N]; [reflexivity|]. exfalso. apply N. rewrite Rminus_0_r, Rabs_R0. lra.
Qed.
Definition pt_cracked : compound := rotate_geo 0 {| cg_surf := [{| sf_ext := rect 0 1 0 1; sf_ints := []; sf_law := 1 |}]; cg_bars := [] |}.
Lemma plates_run eig ms p : exists r, cracked_properties marin_integ plates_laws eig (fun _ => OnePolygon p) level_cutter middle ms 0 plates = Ok (Some (r, pt_cracked)) /\
  gp_ea r = 1 /\ gp_cz r = 1/2.
Proof.
  assert (UP : flat_map (upper_part level_cutter middle 0) (cg_surf pt_geo) = [{| sf_ext := rect 0 1 0 1; sf_ints := []; sf_law := 1 |}]).
  { cbn [pt_geo cg_surf flat_map]. unfold upper_part. cbn [sf_ext sf_ints sf_law].
    destruct (level_line {| pl_ext := rect 0 1 (-1) 0; pl_ints := [] |} 0) as (y1 & y2 & L & ->).
    destruct (level_line {| pl_ext := rect 0 1 0 1; pl_ints := [] |} 0) as (y3 & y4 & L' & ->).
    unfold split_pieces. cbn [fst snd]. rewrite (split_filter y1 y2 0 _ middle L), (split_filter y3 y4 0 _ middle L'). cbn [app].
    unfold level_cutter, rect. cbn [pl_ext fst snd].
    destruct (Rltb_spec (-1) 0) as [_|N]; [|lra]. destruct (Rltb_spec 0 0) as [N|_]; [lra|]. cbn [filter]. unfold middle. cbn [pl_ext fst snd].
    destruct (Rltb_spec 0 ((-1 + 0) / 2)) as [N|_]; [lra|]. destruct (Rltb_spec 0 ((0 + 1) / 2)) as [_|N]; [|lra]. reflexivity. }
  assert (RC1 : rings_closed pt_cracked).
  { intros s I. unfold pt_cracked in I. cbn [rotate_geo cg_surf map] in I. rewrite rotate_zero in I. destruct I as [<-|[]]. split; [reflexivity|contradiction]. }
  assert (WV : forall w k v, is_RInt w 0 1 v -> weighted (stiffness0 pt_laws) (fun _ z => w z) pt_cracked = v + k - k).
  { intros w k v H. unfold weighted, pt_cracked. cbn [rotate_geo cg_surf cg_bars map]. rewrite rotate_zero. cbn [sf_law]. rewrite !lsum_cons, !lsum_nil.
    rewrite (surface_field w), (sfield_rect w 0 1 0 1 1 v) by (lra || exact H). change (stiffness0 pt_laws 1) with (lw_tangent (ncl 1) 0). rewrite ncl_tangent. ring. }
  assert (W1 : weighted (stiffness0 pt_laws) (fun _ _ => 1) pt_cracked = 1).
  { rewrite (WV (fun _ => 1) 0 (scal (1 - 0) 1)) by apply (is_RInt_const (V := R_NormedModule)). change (scal (1 - 0) 1) with ((1 - 0) * 1). ring. }
  assert (W2 : weighted (stiffness0 pt_laws) (fun _ z => z) pt_cracked = 1/2).
  { rewrite (WV (fun z => z) 0 (1 ^ 2 / 2 - 0 ^ 2 / 2)) by apply int_id. field. }
  destruct (gross_method marin_integ pt_laws (fun i => nth i [Some 7850; Some 2500] None) eig p (1/100) pt_cracked weighted RC1) as (r & Q & CL & _).
  - intros k [(s & I & <-)|(b & I & _)].
    + unfold pt_cracked in I. cbn [rotate_geo cg_surf map] in I. destruct I as [<-|[]]. cbn [rotate_surface sf_law].
      change (stiffness0 pt_laws 1) with (lw_tangent (ncl 1) 0). rewrite ncl_tangent. lra.
    + cbn in I. contradiction.
  - left. split; reflexivity.
  - rewrite W1. lra.
  - exists r. split.
    + unfold cracked_properties. cbn [plates reinforced_concrete cp_rc bind fst existsb steel_plate concrete_plate sg_concrete cp_surf orb negb].
      fold steel_plate concrete_plate. fold plates. rewrite plates_temp. cbn [bind]. change cracked_curvature with curv. rewrite plates_axis. cbn [bind]. cbv zeta. unfold p_e0. cbn [fst].
      replace (- 0 / curv) with 0 by (rewrite curv_val; field). rewrite UP.
      change (cg_bars pt_geo) with (@nil bar). fold pt_cracked. rewrite Q. reflexivity.
    + destruct CL as (C1 & _ & _ & _ & _ & _ & _ & _ & _ & _ & _ & CY & CZ & _). rewrite W1 in *. split; [exact C1|]. rewrite W2 in CZ. lra.
Qed.
