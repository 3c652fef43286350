(** The solvers on the response of the exact integrator (C54). *)
From Coq Require Import FunctionalExtensionality Lra.
From Verif Require Import Base M_Marin S_Marin L_Marin M_Laws S_Laws L_Laws M_Laws2 S_Laws2 L_LawsC M_Fiber S_Fiber L_Fiber M_MarinInt S_MarinInt L_MarinInt L_MarinInt2 L_MarinInt3
  M_Section S_Section L_Section L_Section2 L_Section3 M_Domain S_Domain S_History L_History L_Section4 L_Section5 L_Section6 L_Domain2 S_Strength L_Strength S_Exact L_Exact.

Lemma bisect_ext fuel (P : R -> Prop) : (forall x y, P x -> P y -> P ((x + y) / 2)) -> forall f f' n xa da xb db last, P xa -> P xb -> (forall x, P x -> f x = f' x) ->
  bisect fuel f n xa da xb db last = bisect fuel f' n xa da xb db last.
Proof.
  intros MID. induction fuel as [|k IH]; intros f f' n xa da xb db last A B E; cbn [bisect]; [reflexivity|].
  destruct (Rltb (1/100) (Rabs (da - db))); [|reflexivity]. cbv zeta. rewrite (E ((xa + xb) / 2)) by (apply MID; assumption). destruct (f' ((xa + xb) / 2)) as [nc|]; [|reflexivity]. cbn [bind].
  destruct (Rltb ((nc - n) * da) 0); apply IH; auto.
Qed.
Lemma pivot_ext M f f' n yn yp e0 chi n0 : chi < 0 -> (forall e c, c < 0 -> f e c = f' e c) -> pivot_gen M f n yn yp e0 chi n0 = pivot_gen M f' n yn yp e0 chi n0.
Proof.
  intros NC E. assert (TI : 0 < / 10 ^ 13) by (apply Rinv_0_lt_compat, pow_lt; lra). unfold pivot_gen. destruct (Rleb _ _); [reflexivity|]. cbv zeta. rewrite E by lra.
  destruct (f' _ (- / 10 ^ 13)) as [nb|]; [|reflexivity]. cbn [bind].
  rewrite (bisect_ext M (fun c => c < 0)) with (f' := fun c => f' (e0 + chi * pivot_of n yn yp n0 - c * pivot_of n yn yp n0) c); [reflexivity|intros; lra|exact NC|lra|intros; apply E; assumption].
Qed.

Section Run.
Variables (laws : nat -> law) (fs : nat -> R -> R) (g : compound) (theta : R).
Hypothesis B : forall k, batched (laws k).
Hypothesis DR : drawn g.
Hypothesis FO : follows laws fs g.
Let gr := rotate_geo (- theta) g.
Let Dr := map unscalar (bar_groups (map (rotate_bar (- theta)) (cg_bars g))).
Let N := exact_axial fs laws g theta.

Lemma turned_forces e c d m : c <> 0 -> d = Dr -> exists F, ig_forces (marin_integ laws) gr (e, c, 0) (Some d) m = Ok (F, Dr) /\ back theta F = exact_forces fs laws g theta e c /\ fst (fst F) = N e c.
Proof.
  intros NC ->. destruct (exact_core laws fs g theta e c B DR) as (F & E & EB).
  { intros s HS. apply FO; [exact HS|]. apply Rabs_pos_lt, NC. }
  exists F. cbn [ig_forces marin_integ]. split; [|split; [exact EB|]].
  - unfold Dr. change (map (rotate_bar (- theta)) (cg_bars g)) with (cg_bars gr). rewrite forces_reuse by exact B. exact E.
  - unfold N, exact_axial. rewrite <- EB. destruct F as ((x & y) & z). reflexivity.
Qed.
Lemma turned_forces_k e c m s : c <> 0 -> st_data s = Some Dr -> exists F, forces_k (marin_integ laws) gr (e, c, 0) m s = (Ok F, s) /\ back theta F = exact_forces fs laws g theta e c /\ fst (fst F) = N e c.
Proof.
  intros NC SD. destruct (turned_forces e c Dr m NC eq_refl) as (F & E & EB & EN). exists F. split; [|split; assumption]. unfold forces_k. rewrite SD, E. unfold keep_data. rewrite SD. destruct s. cbn in *. subst. reflexivity.
Qed.
Lemma turned_forces_n e c m s : c <> 0 -> st_data s = Some Dr -> exists F, forces_n (marin_integ laws) gr (e, c, 0) m s = (Ok F, s) /\ back theta F = exact_forces fs laws g theta e c /\ fst (fst F) = N e c.
Proof.
  intros NC SD. destruct (turned_forces e c Dr m NC eq_refl) as (F & E & EB & EN). exists F. split; [|split; assumption]. unfold forces_n. rewrite SD, E. reflexivity.
Qed.
Lemma turned_axial e c s : c <> 0 -> st_data s = Some Dr -> axial_fun (marin_integ laws) gr s (e, c, 0) = Ok (N e c).
Proof. intros NC SD. destruct (turned_forces e c Dr None NC eq_refl) as (F & E & _ & EN). unfold axial_fun. rewrite SD, E. cbn [rmap fst]. rewrite EN. reflexivity. Qed.
Lemma pivot_marin t ms n y s yn yp b : st_data s = Some Dr -> balanced (tr_rc t) y (items_of t gr) = Ok (yn, yp, b) -> p_ky b < 0 ->
  fixed_pivot (marin_integ laws) t ms gr n y s =
   (rmap (fun r => (fst r, snd r, 0)) (pivot_gen 100 (fun e c => Ok (N e c)) n yn yp (p_e0 b) (p_ky b) (N (p_e0 b) (p_ky b))), s).
Proof.
  intros SD HB NB. unfold fixed_pivot. rewrite HB. unfold abind, alift.
  assert (KZ : p_kz b = 0) by (unfold balanced in HB; destruct (fold_left _ _ _) as [[[[? ?] ?] ?]|]; [|discriminate]; inversion HB; reflexivity).
  assert (EP : b = (p_e0 b, p_ky b, 0)) by (rewrite <- KZ; destruct b as ((? & ?) & ?); reflexivity).
  destruct (turned_forces_k (p_e0 b) (p_ky b) (Some ms) s ltac:(lra) SD) as (F & E & _ & EN). rewrite <- EP in E. rewrite E, EN, pivot_gen_eq.
  rewrite (pivot_ext 100 _ (fun e c => Ok (N e c)) _ _ _ _ _ _ NB); [reflexivity|]. intros e c NC. apply turned_axial; [lra|exact SD].
Qed.
Lemma curvature_marin n c e s : c <> 0 -> st_data s = Some Dr ->
  fixed_curvature (marin_integ laws) gr n c e s = (rmap (fun x => (x, c, 0)) (solve_curvature (fun x => Ok (N x c)) n e (N e c)), s).
Proof.
  intros NC SD. unfold fixed_curvature, abind. destruct (turned_forces_k e c None s NC SD) as (F & E & _ & EN). rewrite E, EN.
  rewrite (solve_curvature_total _ (fun x => N x c)); [reflexivity|]. intros x. apply turned_axial; assumption.
Qed.
Lemma points_marin n : forall cs e s pts s', st_data s = Some Dr -> (forall c, In c cs -> c <> 0) -> curvature_points (marin_integ laws) gr n cs e s = (Ok pts, s') ->
  s' = s /\ Forall2 (fun c x => let '(c', e', My, Mz) := x in c' = c /\ back theta (N e' c, My, Mz) = exact_forces fs laws g theta e' c) cs pts /\
  ((forall c x, In c cs -> grid 0 (1/1000) x -> N x c <> n) -> grid 0 (1/1000) e -> (forall c, In c cs -> nondecreasing (fun x => N x c)) ->
   Forall (fun x => let '(c', e', _, _) := x in balances n (N e' c')) pts).
Proof.
  induction cs as [|c cs IH]; intros e s pts s' SD NZ E; cbn [curvature_points] in E.
  - injection E as <- <-. split; [reflexivity|]. split; [constructor|]. intros. constructor.
  - unfold abind in E. rewrite (curvature_marin n c e s (NZ c (or_introl eq_refl)) SD) in E.
    destruct (solve_curvature _ n e _) as [e1|] eqn:SC; cbn [rmap] in E; [|discriminate].
    destruct (turned_forces_n e1 c None s (NZ c (or_introl eq_refl)) SD) as (F & EF & EB & EN). rewrite EF in E. cbn [fst snd] in E.
    change (p_e0 (e1, c, 0)) with e1 in E.
    destruct (curvature_points _ gr n cs e1 s) as [[rest|] s2] eqn:CP; [|discriminate]. apply IH in CP; [|exact SD|intros; apply NZ; now right]. destruct CP as (-> & F2 & BAL).
    injection E as <- <-. split; [reflexivity|]. split.
    { constructor; [|exact F2]. split; [reflexivity|]. rewrite <- EB, <- EN. destruct F as ((? & ?) & ?). reflexivity. }
    intros NG G MO.
    assert (GE : grid 0 (1/1000) e1 /\ balances n (N e1 c)).
    { split; [exact (solve_curvature_grid (fun x => N x c) _ _ _ SC G)|].
      apply (solve_curvature_sound (fun x => Ok (N x c)) (fun x => N x c) n e e1); [intros x; reflexivity|apply MO; now left| |exact SC].
      intros x X. apply NG; [now left|exact (grid_within e _ G X)]. }
    destruct GE as (GE & BE). constructor; [exact BE|]. apply BAL; [intros; apply NG; [now right|assumption]|exact GE|intros; apply MO; now right].
Qed.
Lemma points_found n : forall cs e s, st_data s = Some Dr -> (forall c, In c cs -> c <> 0) -> grid 0 (1/1000) e -> -262 <= e <= 262 ->
  (forall c, In c cs -> nondecreasing (fun x => N x c) /\ (exists L, lipschitz L (fun x => N x c) /\ L <= 10 ^ 24) /\ (forall x, grid 0 (1/1000) x -> N x c <> n) /\ N (-262) c < n - 1/100 /\ n + 1/100 < N 262 c) ->
  exists pts, curvature_points (marin_integ laws) gr n cs e s = (Ok pts, s).
Proof.
  induction cs as [|c cs IH]; intros e s SD NZ G EB HC; cbn [curvature_points].
  - eexists. reflexivity.
  - destruct (HC c (or_introl eq_refl)) as (MO & (L & LP & LB) & NG & LO & HI).
    assert (GG : forall x, grid e (1/1000) x -> N x c <> n) by (intros y Y; apply NG; exact (grid_within e _ G Y)).
    destruct (solve_curvature_finds (fun x => Ok (N x c)) (fun x => N x c) n e L) as (e1 & SC); [intros x; reflexivity|exact MO|exact LP|exact LB|exact GG| |].
    { assert (P19 : 1/1000 * 2 ^ 19 = 524288/1000) by (cbn [pow]; lra). rewrite P19. split.
      - apply Rle_lt_trans with (N (-262) c); [apply (MO (e - 524288/1000) (-262)); lra|lra].
      - apply Rlt_le_trans with (N 262 c); [lra|apply (MO 262 (e + 524288/1000)); lra]. }
    pose proof (curvature_marin n c e s (NZ c (or_introl eq_refl)) SD) as CD. rewrite SC in CD. cbn [rmap] in CD.
    assert (G1 : grid 0 (1/1000) e1 /\ balances n (N e1 c)).
    { split; [exact (solve_curvature_grid (fun x => N x c) _ _ _ SC G)|apply (solve_curvature_sound (fun x => Ok (N x c)) (fun x => N x c) n e e1); [intros x; reflexivity|exact MO|exact GG|exact SC]]. }
    destruct G1 as (G1 & B1). unfold balances in B1. assert (B1' : n - 1/100 <= N e1 c <= n + 1/100) by (revert B1; unfold Rabs; destruct (Rcase_abs _); intros; lra). clear B1.
    destruct (IH e1 s SD) as (pts & P); [intros; apply NZ; now right|exact G1| | |].
    { split.
      - destruct (Rle_lt_dec (-262) e1) as [|X]; [assumption|]. exfalso. pose proof (MO e1 (-262) ltac:(lra)). cbv beta in *. lra.
      - destruct (Rle_lt_dec e1 262) as [|X]; [assumption|]. exfalso. pose proof (MO 262 e1 ltac:(lra)). cbv beta in *. lra. }
    { intros c' HC'. apply HC. now right. }
    destruct (turned_forces_n e1 c None s (NZ c (or_introl eq_refl)) SD) as (F & EF & _).
    unfold abind. rewrite CD, EF. change (p_e0 (e1, c, 0)) with e1. rewrite P. eexists. reflexivity.
Qed.
(** After the axial load check, and the rotation that follows it, the calculator holds the data of the rotated section. *)
Lemma marin_checked t ms ops s n s1 s2 : history (marin_integ laws) t ms g ops s -> check_axial (marin_integ laws) t ms g n s = (Ok tt, s1) -> rotate_data (- theta) s1 = (Ok tt, s2) ->
  st_data s2 = Some Dr.
Proof.
  intros H E RD. pose proof (marin_coherent laws g (Some ms) B) as CO.
  assert (SR := history_srel (marin_integ laws) t ms g _ CO ops s (fun o _ => or_intror (marin_coherent laws g None B)) H).
  destruct (check_good (marin_integ laws) t ms g _ CO n _ _ SR) as (_ & G). rewrite E in G. cbn [fst snd] in G. destruct (G tt eq_refl) as ((d & SD & EQ) & _).
  unfold rotate_data in RD. injection RD as <-. cbn [st_data]. rewrite SD. cbn [option_map]. f_equal. rewrite (eqd_rotate _ _ _ EQ). apply reused_data.
Qed.
End Run.
Lemma rotate_geo_0 g : rotate_geo (- 0) g = g.
Proof.
  rewrite Ropp_0. destruct g as [ss bs]. unfold rotate_geo. cbn [cg_surf cg_bars]. f_equal.
  - rewrite <- (map_id ss) at 2. apply map_ext. intros s. rewrite rotate_surface_turned. apply turned_0.
  - rewrite <- (map_id bs) at 2. apply map_ext. intros b. unfold rotate_bar, rot. cbn [fst snd]. rewrite cos_0, sin_0. destruct b. cbn. f_equal; ring.
Qed.
