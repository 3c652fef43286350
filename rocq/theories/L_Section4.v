(** Concrete sections for the examples and the refutations of C22-C28. *)
From Coq Require Import FunctionalExtensionality.
From Verif Require Import Base M_Marin S_Marin L_Marin M_Laws S_Laws L_Laws M_Laws2 L_LawsC M_Fiber S_Fiber L_Fiber M_MarinInt S_MarinInt L_MarinInt3
  M_Section S_Section L_Section L_Section2 L_Section3 M_Domain S_History L_History S_Laws2 L_Laws2 L_Laws4 P_Laws P_Laws2 P_Fiber.

Definition mesh_of (m : option R) : R := match m with Some x => x | None => 1 / 100 end.
Lemma forces_k_fresh laws mesher g p m d l : (forall k, batched (laws k)) -> triangulate mesher g (mesh_of m) = Ok d -> d <> [] ->
  exists F, forces_k (fiber_integ laws mesher) g p m {| st_data := None; st_lim := l |} = (Ok F, {| st_data := Some d; st_lim := l |}) /\
    fst (fst F) = group_axial laws d p.
Proof.
  intros B T NE. unfold forces_k. cbn. unfold fiber_forces, prepare_input. fold (mesh_of m). rewrite T. cbn [bind].
  rewrite prepare_groups_ok by (assumption || discriminate). cbn [bind]. destruct d as [|x d]; [contradiction|].
  cbn [bind fst snd]. eexists. split; [reflexivity|]. cbn [f_integrate_stress fst snd]. unfold group_axial. rewrite lsum_flat.
  apply lsum_map_ext. intros gr _. rewrite map_map. reflexivity.
Qed.
Lemma forces_k_data laws mesher g p m d l : (forall k, batched (laws k)) -> d <> [] ->
  exists F, forces_k (fiber_integ laws mesher) g p m {| st_data := Some d; st_lim := l |} = (Ok F, {| st_data := Some d; st_lim := l |}) /\
    fst (fst F) = group_axial laws d p.
Proof.
  intros B NE. unfold forces_k. cbn. unfold fiber_forces, prepare_input. cbn [bind].
  rewrite prepare_groups_ok by (assumption || discriminate). cbn [bind]. destruct d as [|x d]; [contradiction|].
  cbn [bind fst snd]. eexists. split; [reflexivity|]. cbn [f_integrate_stress fst snd]. unfold group_axial. rewrite lsum_flat.
  apply lsum_map_ext. intros gr _. rewrite map_map. reflexivity.
Qed.
Lemma solve_curvature_total f h n eps0 n0 : total f h -> solve_curvature f n eps0 n0 = solve_curvature (fun x => Ok (h x)) n eps0 n0.
Proof. intros T. now rewrite (total_eq _ _ T). Qed.
(** Fixed curvature on a fresh calculator, reduced to its response function. *)
Lemma fixed_curvature_fresh laws mesher g n c e d : (forall k, batched (laws k)) -> triangulate mesher g (1/100) = Ok d -> d <> [] ->
  let h := fun x => group_axial laws d (x, c, 0) in
  fixed_curvature (fiber_integ laws mesher) g n c e st_init =
   (rmap (fun x => (x, c, 0)) (solve_curvature (fun x => Ok (h x)) n e (h e)), {| st_data := Some d; st_lim := None |}).
Proof.
  intros B T NE h. destruct (forces_k_fresh laws mesher g (e, c, 0) None d None B T NE) as (F & E & EF).
  unfold fixed_curvature, abind. unfold st_init at 1. rewrite E. cbn [fst snd]. rewrite EF. unfold h.
  rewrite (solve_curvature_total _ (fun x => group_axial laws d (x, c, 0))); [reflexivity|].
  intros x. apply fiber_axial; [exact B|reflexivity|exact NE].
Qed.

(** ** One elastic bar at the origin *)
Definition bar1 : compound := {| cg_surf := []; cg_bars := [ {| br_y := 0; br_z := 0; br_area := 1; br_law := 0 |} ] |}.
Definition stiff_laws (E : R) (k : nat) : law := ex_el E.
Lemma stiff_batched E k : batched (stiff_laws E k). Proof. apply elastic_batched. Qed.
Definition data1 : list group := [ {| gr_fibres := [ {| fb_y := 0; fb_z := 0; fb_a := 1 |} ]; gr_scalar := true; gr_law := 0 |} ].
Lemma bar1_data mesher m : 0 < m <= 1 -> triangulate mesher bar1 m = Ok data1.
Proof. intros M. unfold triangulate. destruct (Rleb_spec m 0); [lra|]. destruct (Rltb_spec 1 m); [lra|]. reflexivity. Qed.
Lemma bar1_axial E x c : group_axial (stiff_laws E) data1 (x, c, 0) = E * x.
Proof. unfold group_axial, data1. cbn. unfold elastic_stress, fibre_strain, p_e0, p_ky, p_kz. cbn. ring. Qed.

Lemma lipschitz_linear E : 0 <= E -> lipschitz E (fun x => E * x).
Proof. intros P x y. replace (E * x - E * y) with (E * (x - y)) by ring. rewrite Rabs_mult, (Rabs_pos_eq E) by assumption. lra. Qed.
Lemma lipschitz_down E : 0 <= E -> lipschitz E (fun x => - E * x).
Proof. intros P x y. replace (- E * x - - E * y) with (- (E * (x - y))) by ring. rewrite Rabs_Ropp, Rabs_mult, (Rabs_pos_eq E) by assumption. lra. Qed.

(** The load is met exactly by the first midpoint: the bisection runs away. *)
Lemma exact_hit : exists c, solve_curvature (fun x => Ok (1000 * x)) (-1/2) 0 (1000 * 0) = Ok c /\ 1000 * c <= -49/100 - 49/100.
Proof.
  rewrite solve_gen_eq. change 500%nat with (S 499). change 100%nat with (S 99). generalize 499%nat. intros K.
  assert (HM : (20 < 99)%nat) by lia. revert HM. generalize 99%nat. intros M HM. unfold solve_gen.
  destruct (Rleb_spec (Rabs (1000 * 0 - -1/2)) (1/100)) as [L|L]; [rewrite Rabs_pos_eq in L; lra|].
  cbn [prefind]. change (0 <? 20)%nat with true. cbn [andb bind].
  destruct (Rltb_spec 0 (1000 * 0 - -1/2)); [|lra].
  replace (0 + -1 * (1 / 1000) * 2 ^ 0) with (- (1/1000)) by (cbn [pow]; lra).
  destruct (Rltb_spec ((1000 * 0 - -1/2) * (1000 * - (1/1000) - -1/2)) 0); [|lra]. cbn [bind fst snd].
  cbn [bisect bind].
  destruct (Rltb_spec (1/100) (Rabs (1000 * 0 - -1/2 - (1000 * - (1/1000) - -1/2)))) as [Q|Q]; [|exfalso; apply Q; rewrite Rabs_pos_eq; lra].
  replace ((0 + - (1/1000)) / 2) with (- (1/2000)) by lra.
  replace (1000 * - (1/2000) - -1/2) with 0 by lra. rewrite Rmult_0_l. destruct (Rltb_spec 0 0); [lra|].
  destruct (bisect_runaway 10 M (fun x => Ok (1000 * x)) (fun x => 1000 * x) (-1/2) (- (1/2000)) (- (1/1000)) (Some (- (1/2000))) 1000)
    as (c & E & D).
  - lia.
  - intros x. reflexivity.
  - intros x _. apply lipschitz_linear. lra.
  - intros x y (X1 & X2) (Y1 & Y2). unfold Rmin, Rmax in *. destruct (Rle_dec (- (1/2000)) (- (1/1000))); [lra|]. nra.
  - discriminate.
  - now right.
  - replace (- (1/2000) - - (1/1000)) with (1/2000) by lra. rewrite Rabs_pos_eq by lra. cbn [pow]. lra.
  - replace (1000 * - (1/2000) - -1/2) with 0 in E by lra. exists c. split; [exact E|].
    revert D. unfold Rabs. destruct (Rcase_abs _); intros; lra.
Qed.

(** ** One bar of a softening user-defined law *)
Definition soft_ud : ud := {| ud_x := [-10; 10]; ud_y := [10 ^ 7; - 10 ^ 7]; ud_un := -10; ud_up := 10 |}.
Lemma soft_ud_init : ud_init [-10; 10] [10 ^ 7; - 10 ^ 7] None 0 = Ok soft_ud.
Proof.
  unfold ud_init. cbn [length Nat.eqb negb].
  rewrite ud_base_neg by (exists (-10); split; [left; reflexivity|lra]). reflexivity.
Qed.
Lemma soft_separated : separated (ud_ult soft_ud).
Proof. unfold separated, far, soft_ud, ud_ult, tol. cbn [fst snd ud_un ud_up]. rnum. Qed.
Definition soft_laws (k : nat) : law := ud_law soft_ud.
Lemma soft_batched k : batched (soft_laws k).
Proof. split; intros eps; cbn; apply C05_userdefined_arrays; apply soft_separated. Qed.
Lemma soft_stress e : -9 <= e <= 9 -> ud_stress soft_ud e = - 10 ^ 6 * e.
Proof.
  intros B. unfold ud_stress. rewrite prep_far; [|unfold far, soft_ud, ud_ult, tol; cbn [fst snd ud_un ud_up]; rnum..].
  unfold soft_ud, ud_x, ud_y.
  rewrite (interp_seg _ _ 0%nat); [|reflexivity| |cbn; lia|cbn; lra].
  - unfold chord. cbn [nth]. field.
  - intros i j [H1 H2]. cbn in H2. destruct i as [|[|i]], j as [|[|j]]; cbn; try lra; lia.
Qed.
Lemma soft_axial x c : group_axial soft_laws data1 (x, c, 0) = ud_stress soft_ud x.
Proof.
  unfold group_axial, data1. cbn [map gr_fibres gr_law soft_laws ud_law lw_stress]. rewrite !lsum_cons, !lsum_nil. cbn [fb_a].
  unfold fibre_strain, p_e0, p_ky, p_kz. cbn [fst snd fb_y fb_z]. rewrite !Rmult_0_r. unfold Rminus. rewrite Ropp_0, !Rplus_0_r, Rmult_1_r. reflexivity.
Qed.
Lemma soft_runaway : exists c, solve_curvature (fun x => Ok (ud_stress soft_ud x)) (-1) 0 (ud_stress soft_ud 0) = Ok c /\
  ud_stress soft_ud c >= 3.
Proof.
  set (h := ud_stress soft_ud).
  assert (H0 : h 0 = 0) by (unfold h; rewrite soft_stress; lra).
  pose proof (prefind_lost (fun x => Ok (h x)) h (-1) 0 (fun x => eq_refl)) as PL.
  cbv zeta in PL. rewrite H0 in PL. replace (0 - -1) with 1 in PL by lra.
  destruct (Rltb_spec 0 1) in PL; [|lra].
  assert (AW : forall d, 0 < d <= 3 -> 0 <= 1 * (h (0 + -1 * d) - -1) /\ Rabs 1 < Rabs (h (0 + -1 * d) - -1)).
  { intros d D. unfold h. rewrite soft_stress by lra. rewrite (Rabs_pos_eq 1), (Rabs_pos_eq (_ - _)) by lra. lra. }
  specialize (PL AW). rewrite solve_gen_eq. unfold solve_gen. rewrite H0. replace (0 - -1) with 1 by lra.
  destruct (Rleb_spec (Rabs 1) (1/100)) as [Q|Q]; [rewrite Rabs_R1 in Q; lra|]. rewrite PL. cbn [bind fst snd].
  replace (0 + -1 * (1 / 1000 / 2 ^ 19) * 2 ^ 11) with (- (1/256000)) by (cbn [pow]; field).
  clear PL. assert (HM : (20 < 100)%nat) by lia. revert HM. generalize 100%nat. intros M HM.
  destruct (bisect_runaway 10 M (fun x => Ok (h x)) h (-1) 0 (- (1/256000)) None (10 ^ 6)) as (c & E & D).
  - lia.
  - intros x. reflexivity.
  - intros x X. unfold Rmin, Rmax in X. destruct (Rle_dec 0 (- (1/256000))); [lra|]. unfold h. rewrite !soft_stress by lra.
    replace (- 10 ^ 6 * x - - 10 ^ 6 * - (1 / 256000)) with (- 10 ^ 6 * (x - - (1/256000))) by ring.
    rewrite Rabs_mult, Rabs_Ropp, (Rabs_pos_eq (10 ^ 6)) by lra. lra.
  - intros x y X Y. unfold Rmin, Rmax in *. destruct (Rle_dec 0 (- (1/256000))); [lra|]. unfold h. rewrite !soft_stress by lra.
    apply Rmult_le_pos; lra.
  - intros _. rewrite H0. unfold h. rewrite soft_stress by lra. unfold Rabs. destruct (Rcase_abs _); lra.
  - now left.
  - replace (0 - - (1/256000)) with (1/256000) by lra. rewrite Rabs_pos_eq by lra. cbn [pow]. lra.
  - rewrite H0 in E. replace (0 - -1) with 1 in E by lra. exists c. split; [exact E|].
    assert (HP : h (- (1/256000)) = 10 ^ 6 * (1/256000)) by (unfold h; rewrite (soft_stress (- (1/256000))) by lra; ring).
    rewrite HP in D. change (h c >= 3). clearbody h. revert D. cbn [pow]. unfold Rabs. destruct (Rcase_abs _); intros; lra.
Qed.

(** ** Two elastic bars, one above the other *)
Definition two_bars (a b : R) : compound := {| cg_surf := [];
  cg_bars := [ {| br_y := 0; br_z := 1; br_area := a; br_law := 0 |}; {| br_y := 0; br_z := -1; br_area := b; br_law := 0 |} ] |}.
Definition data2 (a b : R) : list group :=
  [ {| gr_fibres := [ {| fb_y := 0; fb_z := 1; fb_a := a |}; {| fb_y := 0; fb_z := -1; fb_a := b |} ]; gr_scalar := false; gr_law := 0 |} ].
Lemma two_bars_data mesher m a b : 0 < m <= 1 -> triangulate mesher (two_bars a b) m = Ok (data2 a b).
Proof. intros M. unfold triangulate. destruct (Rleb_spec m 0); [lra|]. destruct (Rltb_spec 1 m); [lra|]. reflexivity. Qed.
Definition sym_traits (u : R) : traits := {| tr_ult := fun _ _ => (- u, u); tr_conc := fun _ => false; tr_rc := false |}.
Lemma two_bars_axial E a b x c : group_axial (stiff_laws E) (data2 a b) (x, c, 0) = E * ((x + c) * a + (x - c) * b).
Proof. unfold group_axial, data2. cbn. unfold elastic_stress, fibre_strain, p_e0, p_ky, p_kz. cbn. ring. Qed.
Lemma two_bars_balanced u y a b : 0 < u < 10 ^ 9 ->
  balanced false y (items_of (sym_traits u) (two_bars a b)) = Ok (1, -1, (0, - u, 0)).
Proof.
  intros U. unfold balanced, items_of, two_bars, sym_traits. cbn [cg_surf cg_bars map app list_prod br_z br_law tr_ult tr_conc].
  cbn [fold_left]. unfold pair_step. cbn [im_lo im_hi im_ult im_conc fst snd andb orb negb].
  destruct (Rleb_spec 1 1); [|lra]. destruct (Rleb_spec (-1) 1); [|lra]. destruct (Rleb_spec 1 (-1)); [lra|]. destruct (Rleb_spec (-1) (-1)); [|lra].
  replace (- (u - - u) / (-1 - 1)) with u by field. destruct (Rltb_spec u (10 ^ 10)); [|cbn [pow] in *; lra].
  apply f_equal. apply f_equal2; [reflexivity|]. apply f_equal2; [|reflexivity]. apply f_equal2; ring.
Qed.

(** Fixed pivot on a fresh calculator, reduced to its response function. *)
Lemma fixed_pivot_fresh laws mesher t ms g n y d yn yp p : (forall k, batched (laws k)) -> triangulate mesher g ms = Ok d -> d <> [] ->
  balanced (tr_rc t) y (items_of t g) = Ok (yn, yp, p) -> p_kz p = 0 ->
  fixed_pivot (fiber_integ laws mesher) t ms g n y st_init =
   (rmap (fun r => (fst r, snd r, 0)) (pivot_gen 100 (fun e c => Ok (group_axial laws d (e, c, 0))) n yn yp (p_e0 p) (p_ky p) (group_axial laws d p)),
    {| st_data := Some d; st_lim := None |}).
Proof.
  intros B T NE HB KZ. unfold fixed_pivot. rewrite HB. unfold abind at 1. unfold alift.
  destruct (forces_k_fresh laws mesher g p (Some ms) d None B T NE) as (F & E & EF).
  unfold abind. unfold st_init. rewrite E. cbn [fst snd]. rewrite EF, pivot_gen_eq.
  generalize 100%nat. intros M.
  assert (EQ : (fun e c => axial_fun (fiber_integ laws mesher) g {| st_data := Some d; st_lim := None |} (e, c, 0)) =
               (fun e c => Ok (group_axial laws d (e, c, 0)))).
  { extensionality e. extensionality c. apply fiber_axial; [exact B|reflexivity|exact NE]. }
  rewrite EQ. reflexivity.
Qed.

(** The load is met exactly by the first midpoint: the bisection runs away. *)
Lemma pivot_exact_hit : exists e c,
  pivot_gen 100 (fun e c => Ok (2000 * e)) (1 - / 10 ^ 10) 1 (-1) 0 (- (1/1000)) 0 = Ok (e, c) /\ 19/10 <= 2000 * e.
Proof.
  assert (HM : (20 < 99)%nat) by lia. change 100%nat with (S 99). revert HM. generalize 99%nat. intros M HM.
  unfold pivot_gen, pivot_of. destruct (Rltb_spec 0 (1 - / 10 ^ 10)) as [_|Q]; [|cbn [pow] in Q; lra].
  destruct (Rleb_spec (Rabs (0 - (1 - / 10 ^ 10))) (1/100)) as [Q|_].
  { exfalso. revert Q. unfold Rabs. cbn [pow]. destruct (Rcase_abs _); lra. }
  cbn [bind]. set (h := fun c => 2000 * (0 + - (1/1000) * -1 - c * -1)).
  cbn [bisect bind].
  destruct (Rltb_spec (1/100) (Rabs (0 - (1 - / 10 ^ 10) - (2000 * (0 + - (1 / 1000) * -1 - - / 10 ^ 13 * -1) - (1 - / 10 ^ 10))))) as [_|Q].
  2: { exfalso. apply Q. unfold Rabs. cbn [pow]. destruct (Rcase_abs _); lra. }
  set (xc := (- (1/1000) + - / 10 ^ 13) / 2).
  replace (2000 * (0 + - (1 / 1000) * -1 - xc * -1) - (1 - / 10 ^ 10)) with 0 by (unfold xc; cbn [pow]; field).
  rewrite Rmult_0_l. destruct (Rltb_spec 0 0); [lra|].
  destruct (bisect_runaway 10 M (fun c => Ok (h c)) h (1 - / 10 ^ 10) xc (- / 10 ^ 13) (Some xc) 2000) as (c & E & D).
  - lia.
  - intros x. reflexivity.
  - intros x _. unfold h. replace (2000 * (0 + - (1 / 1000) * -1 - x * -1) - 2000 * (0 + - (1 / 1000) * -1 - - / 10 ^ 13 * -1)) with (2000 * (x - - / 10 ^ 13)) by ring.
    rewrite Rabs_mult, (Rabs_pos_eq 2000) by lra. lra.
  - assert (XC : h xc - (1 - / 10 ^ 10) = 0) by (unfold h, xc; cbn [pow]; field).
    assert (LE : xc <= - / 10 ^ 13) by (unfold xc; cbn [pow]; lra).
    rewrite (Rmin_left _ _ LE), (Rmax_right _ _ LE).
    intros x y X Y. assert (G : forall z, xc <= z -> 0 <= h z - (1 - / 10 ^ 10)).
    { intros z Z. rewrite <- XC. unfold h. lra. }
    apply Rmult_le_pos; apply G; lra.
  - discriminate.
  - now right.
  - replace (xc - - / 10 ^ 13) with (- ((1/1000 - / 10 ^ 13) / 2)) by (unfold xc; field). rewrite Rabs_Ropp, Rabs_pos_eq by (cbn [pow]; lra). cbn [pow]. lra.
  - replace (h xc - (1 - / 10 ^ 10)) with 0 in E by (unfold h, xc; cbn [pow]; field). unfold h in E at 1 2. rewrite E. cbn [bind].
    do 2 eexists. split; [reflexivity|].
    assert (HP : h (- / 10 ^ 13) = 2 - 2 / 10 ^ 10) by (unfold h; cbn [pow]; field). rewrite HP in D.
    change (19/10 <= h c). clearbody h. revert D. unfold Rabs. cbn [pow]. destruct (Rcase_abs _); intros; lra.
Qed.

(** ** An analysis that raises half-way leaves the data turned *)
Definition spun : list group := map (rotate_group (- PI)) (data2 1 2).
Lemma spun_value : spun = [ {| gr_fibres := [ {| fb_y := 0; fb_z := -1; fb_a := 1 |}; {| fb_y := 0; fb_z := 1; fb_a := 2 |} ]; gr_scalar := false; gr_law := 0 |} ].
Proof.
  unfold spun, data2, rotate_group. cbn [map gr_fibres gr_law gr_scalar]. unfold rotate_fibre, rot. cbn [fb_y fb_z fb_a fst snd].
  rewrite cos_neg, sin_neg, cos_PI, sin_PI.
  repeat match goal with |- context [{| fb_y := ?a; fb_z := ?b; fb_a := _ |}] => progress (ring_simplify a b) end. reflexivity.
Qed.
Lemma spun_axial E x c : group_axial (stiff_laws E) spun (x, c, 0) = E * ((x - c) + (x + c) * 2).
Proof. rewrite spun_value. unfold group_axial. cbn. unfold elastic_stress, fibre_strain, p_e0, p_ky, p_kz. cbn. ring. Qed.
Lemma too_curved h : (forall x, h x = 1 * ((x - 10000) + (x + 10000) * 2)) -> solve_curvature (fun x => Ok (h x)) 0 0 (h 0) = Err ValueError.
Proof.
  intros HH.
  rewrite solve_gen_eq. assert (K : (20 < 500)%nat) by lia. revert K. generalize 500%nat. intros K HK. generalize 100%nat. intros M.
  unfold solve_gen. cbv zeta.
  destruct (Rleb_spec (Rabs (h 0 - 0)) (1/100)) as [Q|_].
  { exfalso. revert Q. rewrite HH. unfold Rabs. destruct (Rcase_abs _); lra. }
  destruct (prefind_dich K (fun x => Ok (h x)) h 0 0 0 0 (0, 0)) as [E|(b & db & E & D & N & j & J & BJ)].
  - intros x; reflexivity.
  - intros x y H. rewrite !HH. lra.
  - rewrite HH. lra.
  - lia.
  - lia.
  - rewrite E. reflexivity.
  - exfalso. assert (P : 2 ^ j <= 2 ^ 19) by (apply Rle_pow; [lra|lia]). assert (P' : 0 < 2 ^ j) by (apply pow_lt; lra).
    cbn [pow] in P. change (2 ^ j) with (Rpow_def.pow 2 j) in *. subst db. rewrite !HH in N. destruct BJ as [-> | ->]; nra.
Qed.
Lemma raising_analysis mesher : 
  run (fiber_integ (stiff_laws 1) mesher) (sym_traits (1/1000)) (1/10) (two_bars 1 2) (OCurvature PI 0 0 0 0 (Some [10000])) st_init =
  (Err ValueError, {| st_data := Some spun; st_lim := Some (- (3/1000), 3/1000) |}).
Proof.
  set (ig := fiber_integ (stiff_laws 1) mesher).
  assert (B : forall k, batched (stiff_laws 1 k)) by apply stiff_batched.
  assert (LIM : limits ig (sym_traits (1/1000)) (1/10) (two_bars 1 2) st_init =
    (Ok (- (3/1000), 3/1000), {| st_data := Some (data2 1 2); st_lim := Some (- (3/1000), 3/1000) |})).
  { unfold limits, st_init at 1. cbn [st_lim]. unfold limit_load. change (tr_rc (sym_traits (1/1000))) with false.
    rewrite two_bars_balanced by (cbn [pow]; lra). unfold abind, alift. unfold p_e0, p_ky. cbn [fst snd].
    destruct (forces_k_fresh (stiff_laws 1) mesher (two_bars 1 2) (0 + - (1/1000) * 1, 0, 0) (Some (1/10)) (data2 1 2) None B) as (F & E & EF).
    { apply two_bars_data. cbn. lra. } { discriminate. }
    unfold forces_k in E. fold ig in E. unfold st_init. cbn [st_data]. cbn [st_data] in E.
    destruct (ig_forces ig (two_bars 1 2) (0 + - (1/1000) * 1, 0, 0) None (Some (1/10))) as [[F1 d1]|] eqn:E1; [|discriminate].
    inversion E. subst F1 d1.
    pose proof (fiber_axial (stiff_laws 1) mesher (two_bars 1 2) {| st_data := Some (data2 1 2); st_lim := None |} (data2 1 2)
       (0 + - (1/1000) * -1, 0, 0) B eq_refl ltac:(discriminate)) as AX.
    unfold axial_fun in AX. fold ig in AX. cbn [st_data] in AX.
    destruct (ig_forces ig (two_bars 1 2) (0 + - (1/1000) * -1, 0, 0) (Some (data2 1 2)) None) as [[F2 d2]|] eqn:E2; [|discriminate].
    cbn [rmap] in AX. injection AX as AX. cbn [fst snd] in AX. cbn [fst snd]. rewrite EF, AX, !two_bars_axial. unfold keep_data. cbn [st_data st_lim].
    replace (1 * ((0 + - (1/1000) * 1 + 0) * 1 + (0 + - (1/1000) * 1 - 0) * 2)) with (- (3/1000)) by field.
    replace (1 * ((0 + - (1/1000) * -1 + 0) * 1 + (0 + - (1/1000) * -1 - 0) * 2)) with (3/1000) by field. reflexivity. }
  assert (MC : moment_curvature ig (sym_traits (1/1000)) (1/10) (two_bars 1 2) PI 0 0 0 0 (Some [10000]) st_init =
    (Err ValueError, {| st_data := Some spun; st_lim := Some (- (3/1000), 3/1000) |})); [|unfold run, amap; rewrite MC; reflexivity].
  unfold moment_curvature, check_axial, abind at 1 2. rewrite LIM. cbn [fst snd].
  destruct (Rltb_spec 0 (- (3/1000))); [lra|]. destruct (Rltb_spec (3/1000) 0); [lra|]. cbn [orb]. unfold aret at 1.
  unfold abind at 1 2, rotate_data at 1 2. cbn [st_data option_map st_lim fst snd]. fold spun.
  set (gr := rotate_geo (- PI) (two_bars 1 2)).
  assert (FC : fixed_curvature ig gr 0 10000 0 {| st_data := Some spun; st_lim := Some (- (3/1000), 3/1000) |} =
    (Err ValueError, {| st_data := Some spun; st_lim := Some (- (3/1000), 3/1000) |})).
  { destruct (forces_k_data (stiff_laws 1) mesher gr (0, 10000, 0) None spun (Some (- (3/1000), 3/1000)) B) as (F & E & EF); [rewrite spun_value; discriminate|].
    unfold fixed_curvature, abind. fold ig in E. rewrite E. rewrite EF.
    rewrite (solve_curvature_total _ (fun x => group_axial (stiff_laws 1) spun (x, 10000, 0))).
    - pose proof (too_curved (fun x => group_axial (stiff_laws 1) spun (x, 10000, 0))) as TC. cbv beta in TC.
      rewrite TC; [reflexivity|]. intros x. apply spun_axial.
    - intros x. apply fiber_axial; [exact B|reflexivity|rewrite spun_value; discriminate]. }
  unfold abind at 1 2. unfold aret at 1 2. cbn [curvature_points]. unfold abind. rewrite FC. reflexivity.
Qed.
