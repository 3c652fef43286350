(** Lemmas for C56: analyses of a section and of the turned section. *)
From Coq Require Import FunctionalExtensionality Lra Lia.
From Verif Require Import Base M_Marin M_Laws M_Laws2 M_Fiber S_Fiber L_Fiber M_MarinInt S_MarinInt L_MarinInt3 M_Section S_Section L_Section M_Domain S_History L_History S_Frame S_Turn.

Lemma rot_rot a b p : rot a (rot b p) = rot (a + b) p.
Proof. unfold rot. cbn [fst snd]. rewrite cos_plus, sin_plus. f_equal; ring. Qed.
Lemma spun_rot a p : spun a (fst p) (snd p) = rot a p.
Proof. reflexivity. Qed.
Lemma rotate_rotate a b g : rotate_geo a (rotate_geo b g) = rotate_geo (a + b) g.
Proof.
  unfold rotate_geo. cbn [cg_surf cg_bars]. rewrite !map_map. f_equal; apply map_ext.
  - intros s. unfold rotate_surface. cbn [sf_ext sf_ints sf_law]. rewrite !map_map. f_equal.
    + apply map_ext. intros p. apply rot_rot.
    + apply map_ext. intros r. rewrite map_map. apply map_ext. intros p. apply rot_rot.
  - intros x. unfold rotate_bar. cbn [br_y br_z br_area br_law].
    rewrite <- (surjective_pairing (rot b (br_y x, br_z x))), rot_rot. reflexivity.
Qed.
Lemma rotate_spun a g : rotate_geo a g = spun_section a g.
Proof. reflexivity. Qed.
Lemma rotate_groups a b d : map (rotate_group a) (map (rotate_group b) d) = map (rotate_group (a + b)) d.
Proof.
  rewrite map_map. apply map_ext. intros x. unfold rotate_group. cbn [gr_fibres gr_scalar gr_law]. rewrite map_map. f_equal.
  apply map_ext. intros f. unfold rotate_fibre. cbn [fb_y fb_z fb_a].
  rewrite <- (surjective_pairing (rot b (fb_y f, fb_z f))), rot_rot. reflexivity.
Qed.
Lemma spun_spun a b u v : spun a (fst (spun b u v)) (snd (spun b u v)) = spun (a + b) u v.
Proof. unfold spun. cbn [fst snd]. rewrite cos_plus, sin_plus. f_equal; ring. Qed.

Lemma pair5 (a b c d e a' b' c' d' e' : R) : a = a' -> b = b' -> c = c' -> d = d' -> e = e' -> (a, b, c, d, e) = (a', b', c', d', e').
Proof. congruence. Qed.
Lemma pair3 (a b c a' b' c' : R) : a = a' -> b = b' -> c = c' -> (a, b, c) = (a', b', c').
Proof. congruence. Qed.

Section Same.
Variables (ig : integ) (t : traits) (ms : R) (g0 : compound) (D0 : list group).
Hypothesis CO : coherent ig g0 (Some ms) D0.
Definition both (E : list group) (s1 s2 : sstate) : Prop := has E s1 /\ has E s2.
Lemma b_forces_k E h p m : good (both E) (both E) (forces_k ig h p m).
Proof.
  intros s1 s2 (H1 & H2). pose proof H1 as (d1 & D1 & E1). pose proof H2 as (d2 & D2 & E2).
  unfold forces_k. rewrite D1, D2.
  pose proof (co_forces _ _ _ _ CO h p d1 d2 m m (eqd_trans _ _ _ E1 (eqd_sym _ _ E2))) as X.
  destruct (ig_forces ig h p (Some d1) m) as [[F e]|e], (ig_forces ig h p (Some d2) m) as [[F2 e2]|e2]; cbn in X; try discriminate; inversion X; subst;
    (split; [reflexivity|]); cbn [fst snd]; [|discriminate].
  intros _ _. rewrite (keep_has E) by assumption. rewrite (keep_has E) by assumption. exact (conj H1 H2).
Qed.
Lemma b_forces_n E h p m : good (both E) (both E) (forces_n ig h p m).
Proof.
  intros s1 s2 (H1 & H2). pose proof H1 as (d1 & D1 & E1). pose proof H2 as (d2 & D2 & E2).
  unfold forces_n. rewrite D1, D2.
  pose proof (co_forces _ _ _ _ CO h p d1 d2 m m (eqd_trans _ _ _ E1 (eqd_sym _ _ E2))) as X.
  destruct (ig_forces ig h p (Some d1) m) as [[F e]|e], (ig_forces ig h p (Some d2) m) as [[F2 e2]|e2]; cbn in X; try discriminate; inversion X; subst;
    (split; [reflexivity|]); cbn [fst snd]; [|discriminate].
  intros _ _. exact (conj H1 H2).
Qed.
Lemma b_axial E h s1 s2 : both E s1 s2 -> axial_fun ig h s1 = axial_fun ig h s2.
Proof.
  intros ((d1 & D1 & E1) & (d2 & D2 & E2)). apply functional_extensionality. intros p. unfold axial_fun. rewrite D1, D2.
  pose proof (co_forces _ _ _ _ CO h p d1 d2 None None (eqd_trans _ _ _ E1 (eqd_sym _ _ E2))) as X.
  destruct (ig_forces ig h p (Some d1) None) as [[F e]|e], (ig_forces ig h p (Some d2) None) as [[F2 e2]|e2]; cbn in X; try discriminate; inversion X; reflexivity.
Qed.
Lemma b_pivot E h n y : good (both E) (both E) (fixed_pivot ig t ms h n y).
Proof.
  unfold fixed_pivot. eapply good_bind; [apply good_lift|]. intros [[yn yp] strain].
  eapply good_bind; [apply b_forces_k|]. intros F s1 s2 R. cbn [fst snd].
  rewrite (b_axial E h s1 s2 R). split; [reflexivity|]. intros; exact R.
Qed.
Lemma b_curvature E h n c e : good (both E) (both E) (fixed_curvature ig h n c e).
Proof.
  unfold fixed_curvature. eapply good_bind; [apply b_forces_k|]. intros F s1 s2 R. cbn [fst snd].
  rewrite (b_axial E h s1 s2 R). split; [reflexivity|]. intros; exact R.
Qed.
Lemma b_points E h n chis : forall e, good (both E) (both E) (curvature_points ig h n chis e).
Proof.
  induction chis as [|c cs IH]; intros e; cbn [curvature_points]; [apply good_ret|].
  eapply good_bind; [apply b_curvature|]. intros s. eapply good_bind; [apply b_forces_n|]. intros F.
  eapply good_bind; [apply IH|]. intros r. apply good_ret.
Qed.
End Same.

Lemma abind_map {A B C} (x : act A) (f : A -> act B) (h : B -> act C) (k : B -> C) s :
  (forall b s', fst (h b s') = Ok (k b)) -> fst (abind (abind x f) h s) = rmap k (fst (abind x f s)).
Proof.
  intros H. unfold abind at 1. destruct (abind x f s) as [[b|e] s']; cbn [fst rmap]; [apply H|reflexivity].
Qed.

(** A section and its copy turned by [phi], the stored data turned accordingly. *)
Section Turn.
Variables (ig : integ) (t : traits) (ms : R) (g : compound) (phi : R) (D D' : list group).
Hypothesis CO : coherent ig g (Some ms) D.
Hypothesis CO' : coherent ig (rotate_geo phi g) (Some ms) D'.
Hypothesis HD : eqd D' (map (rotate_group phi) D).
Let c0 : sstate := {| st_data := Some D; st_lim := None |}.
Let c0' : sstate := {| st_data := Some D'; st_lim := None |}.

Lemma check_runs h E n lo hi : coherent ig h (Some ms) E ->
  fst (run ig t ms h OLimits {| st_data := Some E; st_lim := None |}) = Ok (ALimits (lo, hi)) -> lo <= n <= hi ->
  exists s, check_axial ig t ms h n {| st_data := Some E; st_lim := None |} = (Ok tt, s) /\ has E s.
Proof.
  intros C L B. cbn [run] in L. unfold amap in L. cbn [fst] in L. unfold check_axial, abind.
  pose proof (limits_has ig t ms h E C {| st_data := Some E; st_lim := None |} ltac:(exists E; split; [reflexivity|apply eqd_refl]) ltac:(left; reflexivity)) as (_ & X).
  destruct (limits ig t ms h {| st_data := Some E; st_lim := None |}) as [[l|e] s]; cbn [fst snd rmap] in *; [|discriminate].
  assert (l = (lo, hi)) by congruence. subst l. cbn [fst snd].
  destruct (Rltb_spec n lo); [lra|]. destruct (Rltb_spec hi n); [lra|]. cbn [orb]. exists s. split; [reflexivity|].
  exact (proj1 (X (lo, hi) eq_refl)).
Qed.
Lemma turned_both theta s s' : has D s -> has D' s' ->
  both (map (rotate_group (- theta)) D) (snd (rotate_data (- theta) s)) (snd (rotate_data (- (theta + phi)) s')).
Proof.
  intros (d & HS & E) (d' & HS' & E'). unfold rotate_data, both, has. cbn [snd st_data]. rewrite HS, HS'. cbn [option_map]. split.
  - eexists. split; [reflexivity|]. rewrite (eqd_rotate _ _ _ E). apply eqd_refl.
  - eexists. split; [reflexivity|]. rewrite (eqd_rotate _ _ _ E'), (eqd_rotate _ _ _ HD), rotate_groups.
    replace (- (theta + phi) + phi) with (- theta) by ring. apply eqd_refl.
Qed.
Lemma same_geo theta : rotate_geo (- (theta + phi)) (rotate_geo phi g) = rotate_geo (- theta) g.
Proof. rewrite rotate_rotate. f_equal. ring. Qed.

Definition admitted (n : R) : Prop :=
  (exists lo hi, fst (run ig t ms g OLimits c0) = Ok (ALimits (lo, hi)) /\ lo <= n <= hi) /\
  (exists lo hi, fst (run ig t ms (rotate_geo phi g) OLimits c0') = Ok (ALimits (lo, hi)) /\ lo <= n <= hi).

Lemma turn_strength theta n : admitted n ->
  fst (bending_strength ig t ms (rotate_geo phi g) (theta + phi) n c0') =
  rmap (spun_strength phi) (fst (bending_strength ig t ms g theta n c0)).
Proof.
  intros ((lo & hi & L & B) & (lo' & hi' & L' & B')).
  destruct (check_runs g D n lo hi CO L B) as (s & CK & HS), (check_runs _ D' n lo' hi' CO' L' B') as (s' & CK' & HS').
  unfold bending_strength. unfold abind at 1 6. unfold c0, c0' in *. rewrite CK, CK'. cbv zeta. rewrite same_geo.
  pose proof (turned_both theta s s' HS HS') as BB. unfold abind at 1 5.
  destruct (rotate_data (- theta) s) as [[[]|e] u] eqn:RU; [|unfold rotate_data in RU; congruence].
  destruct (rotate_data (- (theta + phi)) s') as [[[]|e] u'] eqn:RU'; [|unfold rotate_data in RU'; congruence]. cbn [snd] in BB.
  pose proof (b_pivot ig t ms g D CO _ (rotate_geo (- theta) g) n false u u' BB) as (X & Y).
  unfold abind at 1 4. destruct (fixed_pivot ig t ms (rotate_geo (- theta) g) n false u) as [[p|e] v], (fixed_pivot ig t ms (rotate_geo (- theta) g) n false u') as [[p'|e'] v'];
    cbn [fst snd] in *; try discriminate; [|cbn [fst rmap]; congruence].
  inversion X; subst p'. specialize (Y p eq_refl).
  pose proof (b_forces_n ig ms g D CO _ (rotate_geo (- theta) g) p None v v' Y) as (Z & W).
  unfold abind at 1 3. destruct (forces_n ig (rotate_geo (- theta) g) p None v) as [[F|e] w], (forces_n ig (rotate_geo (- theta) g) p None v') as [[F'|e'] w'];
    cbn [fst snd] in *; try discriminate; [|cbn [fst rmap]; congruence].
  inversion Z; subst F'. destruct F as [[N My] Mz]. cbn [abind rotate_data aret fst rmap]. unfold spun_strength. cbn [rs_n rs_my rs_mz rs_eps rs_chiy rs_chiz].
  unfold spun. cbn [fst snd]. rewrite cos_plus, sin_plus. f_equal. f_equal; ring.
Qed.

Lemma turn_curve theta n cf a b l : admitted n ->
  fst (moment_curvature ig t ms (rotate_geo phi g) (theta + phi) n cf a b l c0') =
  rmap (map (spun_point phi)) (fst (moment_curvature ig t ms g theta n cf a b l c0)).
Proof.
  intros ((lo & hi & L & B) & (lo' & hi' & L' & B')).
  destruct (check_runs g D n lo hi CO L B) as (s & CK & HS), (check_runs _ D' n lo' hi' CO' L' B') as (s' & CK' & HS').
  unfold moment_curvature.
  match goal with |- fst (abind _ ?f _) = rmap _ (fst (abind _ ?h _)) => set (F' := f); set (F := h) end.
  unfold abind at 1 2. unfold c0, c0' in *. rewrite CK, CK'. unfold F', F. clear F F'. cbv zeta. rewrite same_geo.
  pose proof (turned_both theta s s' HS HS') as BB.
  match goal with |- fst (abind _ ?f _) = rmap _ (fst (abind _ ?h _)) => set (F' := f); set (F := h) end. unfold abind at 1 2.
  destruct (rotate_data (- theta) s) as [[[]|e] u] eqn:RU; [|unfold rotate_data in RU; congruence].
  destruct (rotate_data (- (theta + phi)) s') as [[[]|e] u'] eqn:RU'; [|unfold rotate_data in RU'; congruence]. cbn [snd] in BB.
  unfold F', F. clear F F'. set (E := map (rotate_group (- theta)) D) in *. set (h := rotate_geo (- theta) g).
  match goal with |- fst (abind ?x ?f _) = rmap _ (fst (abind _ ?h _)) => set (F' := f); set (F := h); set (X0 := x) end.
  assert (GX : good (both E) (both E) X0).
  { unfold X0. destruct l; [apply good_ret|]. eapply good_bind; [apply (b_pivot ig t ms g D CO)|]. intros su.
    eapply good_bind; [apply (b_pivot ig t ms g D CO)|]. intros sy. apply good_lift. }
  destruct (GX u u' BB) as (X & Y). unfold abind at 1 2. destruct (X0 u) as [[chis|e] v], (X0 u') as [[chis'|e'] v']; cbn [fst snd] in *; try discriminate; [|cbn [rmap]; congruence].
  inversion X; subst chis'. specialize (Y chis eq_refl). unfold F', F. clear F F'.
  match goal with |- fst (abind ?x ?f _) = rmap _ (fst (abind _ ?h _)) => set (F' := f); set (F := h) end.
  destruct (b_points ig ms g D CO E h n chis 0 v v' Y) as (Z & W). unfold abind at 1 2.
  destruct (curvature_points ig h n chis 0 v) as [[pts|e] w], (curvature_points ig h n chis 0 v') as [[pts'|e'] w']; cbn [fst snd] in *; try discriminate; [|cbn [rmap]; congruence].
  inversion Z; subst pts'. unfold F', F. cbn [abind rotate_data aret fst rmap]. f_equal. rewrite map_map. apply map_ext.
  intros [[[c e] My] Mz]. unfold spun_point, spun. cbn [fst snd]. rewrite cos_plus, sin_plus.
  apply pair5; ring.
Qed.
End Turn.
