(** Lemmas for C58: analyses of a section and of the moved section, continued. *)
From Coq Require Import Permutation FunctionalExtensionality Lra Lia.
From Verif Require Import Base M_Marin S_Marin M_Laws M_Laws2 M_Fiber S_Fiber L_Fiber M_MarinInt S_MarinInt L_MarinInt3 L_Frame4 M_Section S_Section L_Section M_Domain S_History L_History S_Frame S_Turn L_Turn L_Turn2 S_Move L_Move L_Move2 L_Move3 L_Move4.

(** Two runs, on the section and on the moved one, with corresponding results. *)
Definition twin {A B} (P Q : sstate -> sstate -> Prop) (x : act A) (x' : act B) (k : A -> B) : Prop :=
  forall s s', P s s' -> fst (x' s') = rmap k (fst (x s)) /\ (forall a, fst (x s) = Ok a -> Q (snd (x s)) (snd (x' s'))).
Lemma twin_bind {A B A' B'} P Q S' (x : act A) (x' : act A') k (f : A -> act B) (f' : A' -> act B') l :
  twin P Q x x' k -> (forall a, twin Q S' (f a) (f' (k a)) l) -> twin P S' (abind x f) (abind x' f') l.
Proof.
  intros X F s s' H. destruct (X s s' H) as (E & N). unfold abind. destruct (x s) as [[a|e] u], (x' s') as [[a'|e'] u']; cbn [fst snd rmap] in *; try discriminate.
  - assert (EA : a' = k a) by congruence. rewrite EA. exact (F a u u' (N a eq_refl)).
  - split; [congruence|discriminate].
Qed.
Lemma twin_bind_on {A B A' B'} (V : A -> Prop) P Q S' (x : act A) (x' : act A') k (f : A -> act B) (f' : A' -> act B') l :
  twin P Q x x' k -> (forall s s' a, P s s' -> fst (x s) = Ok a -> V a) -> (forall a, V a -> twin Q S' (f a) (f' (k a)) l) -> twin P S' (abind x f) (abind x' f') l.
Proof.
  intros X VA F s s' H. destruct (X s s' H) as (E & N). pose proof (VA s s') as W. unfold abind. destruct (x s) as [[a|e] u], (x' s') as [[a'|e'] u']; cbn [fst snd rmap] in *; try discriminate.
  - assert (EA : a' = k a) by congruence. rewrite EA. exact (F a (W a H eq_refl) u u' (N a eq_refl)).
  - split; [congruence|discriminate].
Qed.
Lemma twin_ret {A B} P (a : A) (b : B) k : b = k a -> twin P P (aret a) (aret b) k.
Proof. intros -> s s' H. split; [reflexivity|]. intros; exact H. Qed.
Lemma twin_lift {A B} P (x : result A) (y : result B) k : y = rmap k x -> twin P P (alift x) (alift y) k.
Proof. intros -> s s' H. split; [reflexivity|]. intros; exact H. Qed.
Definition pairs (E E' : list group) (s s' : sstate) : Prop := has E s /\ has E' s'.
Lemma twin_rotate E E' a a' : twin (pairs E E') (pairs (map (rotate_group a) E) (map (rotate_group a') E')) (rotate_data a) (rotate_data a') (fun _ => tt).
Proof.
  intros s s' ((d & H & X) & (d' & H' & X')). split; [reflexivity|]. intros _ _. unfold rotate_data. cbn [snd]. unfold pairs, has. cbn [st_data]. rewrite H, H'. cbn [option_map].
  split; eexists; (split; [reflexivity|]); [rewrite (eqd_rotate _ _ _ X)|rewrite (eqd_rotate _ _ _ X')]; apply eqd_refl.
Qed.
Section Pair.
Variables (ig : integ) (t : traits) (ms : R) (g0 g0' : compound) (D0 D0' : list group) (sg al be : R) (h h' : compound) (E E' : list group).
Hypothesis CO : coherent ig g0 (Some ms) D0.
Hypothesis MV : moved sg al be h h'.
Hypothesis PF : forall p m, rmap fst (ig_forces ig h' (moved_profile sg al be p) (Some E') m) = rmap (moved_forces sg al be) (rmap fst (ig_forces ig h p (Some E) m)).
Lemma pair_data p m s s' : pairs E E' s s' ->
  rmap fst (ig_forces ig h' (moved_profile sg al be p) (st_data s') m) = rmap (moved_forces sg al be) (rmap fst (ig_forces ig h p (st_data s) m)).
Proof.
  intros ((d & DS & X) & (d' & DS' & X')). rewrite DS, DS'. rewrite (co_forces _ _ _ _ CO h' (moved_profile sg al be p) d' E' m m X'), (co_forces _ _ _ _ CO h p d E m m X). apply PF.
Qed.
Lemma twin_k p m : twin (pairs E E') (pairs E E') (forces_k ig h p m) (forces_k ig h' (moved_profile sg al be p) m) (moved_forces sg al be).
Proof.
  intros s s' H. pose proof (pair_data p m s s' H) as X. destruct H as (HS & HS'). unfold forces_k.
  destruct (ig_forces ig h p (st_data s) m) as [[F e]|e], (ig_forces ig h' (moved_profile sg al be p) (st_data s') m) as [[F' e']|e']; cbn [rmap fst] in X; try discriminate; cbn [fst snd rmap].
  - rewrite (keep_has E), (keep_has E') by assumption. split; [congruence|]. intros _ _. split; assumption.
  - split; [congruence|discriminate].
Qed.
Lemma twin_n p m : twin (pairs E E') (pairs E E') (forces_n ig h p m) (forces_n ig h' (moved_profile sg al be p) m) (moved_forces sg al be).
Proof.
  intros s s' H. pose proof (pair_data p m s s' H) as X. destruct H as (HS & HS'). unfold forces_n.
  destruct (ig_forces ig h p (st_data s) m) as [[F e]|e], (ig_forces ig h' (moved_profile sg al be p) (st_data s') m) as [[F' e']|e']; cbn [rmap fst] in X; try discriminate; cbn [fst snd rmap].
  - split; [congruence|]. intros _ _. split; assumption.
  - split; [congruence|discriminate].
Qed.
Lemma flat_profile e c : moved_profile sg al be (e, c, 0) = (e - c * be, c, 0).
Proof. unfold moved_profile. apply pair3; ring. Qed.
Lemma pair_axial s s' e c : pairs E E' s s' -> axial_fun ig h' s' (e - c * be, c, 0) = axial_fun ig h s (e, c, 0).
Proof.
  intros H. pose proof (pair_data (e, c, 0) None s s' H) as X. rewrite flat_profile in X. unfold axial_fun.
  destruct (ig_forces ig h (e, c, 0) (st_data s) None) as [[[[N My] Mz] d]|x], (ig_forces ig h' (e - c * be, c, 0) (st_data s') None) as [[[[N' My'] Mz'] d']|x']; cbn [rmap fst moved_forces] in X |- *; try discriminate; congruence.
Qed.
Lemma twin_pivot n y : twin (pairs E E') (pairs E E') (fixed_pivot ig t ms h n y) (fixed_pivot ig t ms h' n y) (moved_profile sg al be).
Proof.
  unfold fixed_pivot. destruct (balanced_moved t sg al be h h' y MV) as (B & Z). rewrite B.
  destruct (balanced (tr_rc t) y (items_of t h)) as [[[yn yp] p]|e]; cbn [rmap]; [|intros s s' H; split; [reflexivity|discriminate]].
  specialize (Z yn yp p eq_refl). destruct p as [[e c] z]. cbn [p_kz snd] in Z. subst z. unfold p_e0, p_ky, p_kz. cbn [fst snd].
  unfold alift. unfold abind at 1 3. rewrite <- flat_profile.
  apply (twin_bind (pairs E E') (pairs E E') (pairs E E') _ _ (moved_forces sg al be)); [apply twin_k|].
  intros F s s' H. cbn [fst snd]. split; [|intros; exact H].
  assert (N0 : fst (fst (moved_forces sg al be F)) = fst (fst F)) by (destruct F as [[N My] Mz]; reflexivity). rewrite N0.
  assert (FE : fst (fst (moved_profile sg al be (e, c, 0))) = e - c * be /\ snd (fst (moved_profile sg al be (e, c, 0))) = c) by (rewrite flat_profile; split; reflexivity).
  destruct FE as (-> & ->).
  rewrite (pivot_moved (fun e c => axial_fun ig h s (e, c, 0)) (fun e c => axial_fun ig h' s' (e, c, 0)) be) by (intros; apply pair_axial; exact H).
  destruct (solve_pivot _ _ _ _ _ _ _) as [[e1 c1]|]; cbn [rmap fst snd]; [|reflexivity]. rewrite flat_profile. reflexivity.
Qed.
(** Moments about the same height: the strain at the origin does not change. *)
Lemma twin_curvature n c e : be = 0 -> twin (pairs E E') (pairs E E') (fixed_curvature ig h n c e) (fixed_curvature ig h' n c e) (moved_profile sg al be).
Proof.
  intros Z. assert (FE : forall x y, moved_profile sg al be (x, y, 0) = (x, y, 0)) by (intros; rewrite flat_profile; apply pair3; rewrite ?Z; ring).
  unfold fixed_curvature. rewrite <- (FE e c) at 2.
  apply (twin_bind (pairs E E') (pairs E E') (pairs E E') _ _ (moved_forces sg al be)); [apply twin_k|].
  intros F s s' H. cbn [fst snd]. split; [|intros; exact H].
  assert (N0 : fst (fst (moved_forces sg al be F)) = fst (fst F)) by (destruct F as [[N My] Mz]; reflexivity). rewrite N0.
  assert (AX : (fun e => axial_fun ig h' s' (e, c, 0)) = (fun e => axial_fun ig h s (e, c, 0))).
  { apply functional_extensionality. intros x. rewrite <- (pair_axial s s' x c H). f_equal. apply pair3; rewrite ?Z; ring. }
  rewrite AX. destruct (solve_curvature _ _ _ _) as [x|]; cbn [rmap]; [|reflexivity]. rewrite FE. reflexivity.
Qed.
Lemma twin_points n chis : al = 0 -> be = 0 -> forall e, twin (pairs E E') (pairs E E') (curvature_points ig h n chis e) (curvature_points ig h' n chis e)
  (map (fun x => let '(c, e, My, Mz) := x in (c, e, My, sg * Mz))).
Proof.
  intros Z1 Z. assert (FE : forall x y, moved_profile sg al be (x, y, 0) = (x, y, 0)) by (intros; rewrite flat_profile; apply pair3; rewrite ?Z; ring).
  induction chis as [|c cs IH]; intros e; [apply twin_ret; reflexivity|]. cbn [curvature_points].
  apply (twin_bind_on (fun p => exists x, p = (x, c, 0)) _ _ _ _ _ _ _ _ _ (twin_curvature n c e Z)).
  { intros s s' p _. unfold fixed_curvature, abind. destruct (forces_k ig h (e, c, 0) None s) as [[F|] u]; cbn [fst]; [|discriminate].
    destruct (solve_curvature _ _ _ _) as [x|]; cbn [rmap]; [|discriminate]. intros Q. injection Q as <-. exists x. reflexivity. }
  intros p (v & EV). 
  eapply twin_bind; [apply twin_n|]. intros F. rewrite EV, FE. eapply twin_bind; [apply IH|]. intros r. apply twin_ret. cbn [map]. f_equal.
  destruct F as [[N My] Mz]. unfold moved_forces, p_e0. cbn [fst snd]. rewrite Z, Z1. apply f_equal2; [apply pair3; ring|ring].
Qed.
Lemma twin_all m ps : twin (pairs E E') (pairs E E') (integrate_all ig m h ps) (integrate_all ig m h' (map (moved_profile sg al be) ps)) (map (moved_forces sg al be)).
Proof.
  induction ps as [|p ps IH]; [apply twin_ret; reflexivity|]. cbn [map integrate_all].
  eapply twin_bind; [apply twin_k|]. intros F. eapply twin_bind; [exact IH|]. intros r. apply twin_ret. reflexivity.
Qed.
End Pair.

(** The section and the moved section, with all their turned copies. *)
Section Analyses.
Variables (ig : integ) (t : traits) (ms : R) (g g' : compound) (D D' : list group) (sg a b : R).
Hypothesis SG : sg = 1 \/ sg = -1.
Hypothesis CO : coherent ig g (Some ms) D.
Hypothesis CO' : coherent ig g' (Some ms) D'.
Hypothesis MV : moved sg a b g g'.
Hypothesis PF : forall p m, rmap fst (ig_forces ig g' (moved_profile sg a b p) (Some D') m) = rmap (moved_forces sg a b) (rmap fst (ig_forces ig g p (Some D) m)).
Hypothesis PR : forall phi phi', cos phi' = cos phi -> sin phi' = sg * sin phi -> let al := fst (rot phi' (a, b)) in let be := snd (rot phi' (a, b)) in forall p m,
  rmap fst (ig_forces ig (rotate_geo phi' g') (moved_profile sg al be p) (Some (map (rotate_group phi') D')) m) =
  rmap (moved_forces sg al be) (rmap fst (ig_forces ig (rotate_geo phi g) p (Some (map (rotate_group phi) D)) m)).
Let c0 : sstate := {| st_data := Some D; st_lim := None |}.
Let c0' : sstate := {| st_data := Some D'; st_lim := None |}.
Lemma pairs0 : pairs D D' c0 c0'.
Proof. split; eexists; (split; [reflexivity|apply eqd_refl]). Qed.
Lemma move_limit_load : fst (limit_load ig t ms g' c0') = fst (limit_load ig t ms g c0).
Proof.
  unfold limit_load. destruct (balanced_moved t sg a b g g' false MV) as (B & Z). rewrite B. unfold alift, abind.
  destruct (balanced (tr_rc t) false (items_of t g)) as [[[yn yp] p]|e]; cbn [rmap fst]; [|reflexivity].
  specialize (Z yn yp p eq_refl). destruct p as [[e c] z]. unfold p_e0, p_ky, p_kz. cbn [fst snd c0 c0' st_data].
  replace (e - c * b + c * (yn + b)) with (e + c * yn) by ring. replace (e - c * b + c * (yp + b)) with (e + c * yp) by ring.
  assert (U : forall x m, rmap fst (ig_forces ig g' (x, 0, 0) (Some D') m) = rmap (moved_forces sg a b) (rmap fst (ig_forces ig g (x, 0, 0) (Some D) m))).
  { intros x m. rewrite <- PF. do 3 f_equal. unfold moved_profile. apply pair3; ring. }
  pose proof (U (e + c * yn) (Some ms)) as U1.
  destruct (ig_forces ig g (e + c * yn, 0, 0) (Some D) (Some ms)) as [[[[N My] Mz] d]|x] eqn:E1, (ig_forces ig g' (e + c * yn, 0, 0) (Some D') (Some ms)) as [[[[N' My'] Mz'] d']|x'] eqn:E1'; cbn [rmap fst moved_forces] in U1; try discriminate; [|cbn [fst]; congruence].
  pose proof (U (e + c * yp) None) as U2.
  rewrite <- (co_forces _ _ _ _ CO' g' _ d' D' None None (co_data _ _ _ _ CO' _ _ _ _ _ _ E1')), <- (co_forces _ _ _ _ CO g _ d D None None (co_data _ _ _ _ CO _ _ _ _ _ _ E1)) in U2.
  destruct (ig_forces ig g (e + c * yp, 0, 0) (Some d) None) as [[[[N2 My2] Mz2] d2]|x2], (ig_forces ig g' (e + c * yp, 0, 0) (Some d') None) as [[[[N2' My2'] Mz2'] d2']|x2']; cbn [rmap fst moved_forces] in U2; try discriminate; cbn [fst]; congruence.
Qed.
Lemma move_limits s s' : has D s -> limok ig t ms g D s -> has D' s' -> limok ig t ms g' D' s' -> fst (limits ig t ms g' s') = fst (limits ig t ms g s).
Proof.
  intros A B C F. rewrite (proj1 (limits_has ig t ms g D CO s A B)), (proj1 (limits_has ig t ms g' D' CO' s' C F)). exact move_limit_load.
Qed.
Definition ready (s s' : sstate) : Prop := pairs D D' s s' /\ limok ig t ms g D s /\ limok ig t ms g' D' s'.
Lemma ready0 : ready c0 c0'.
Proof. split; [exact pairs0|]. split; left; reflexivity. Qed.
Lemma twin_check n : twin ready ready (check_axial ig t ms g n) (check_axial ig t ms g' n) (fun x => x).
Proof.
  unfold check_axial. apply (twin_bind ready ready ready _ _ (fun x => x)).
  - intros s s' ((A & C) & B & F). split; [rewrite (move_limits s s' A B C F); destruct (fst (limits ig t ms g s)); reflexivity|].
    intros l X. destruct (limits_has ig t ms g D CO s A B) as (P1 & P2). destruct (limits_has ig t ms g' D' CO' s' C F) as (Q1 & Q2).
    destruct (P2 l X) as (H1 & L1). destruct (Q2 l ltac:(rewrite (move_limits s s' A B C F); exact X)) as (H2 & L2). exact (conj (conj H1 H2) (conj L1 L2)).
  - intros l. destruct (orb _ _); [intros s s' H; split; [reflexivity|discriminate]|apply twin_ret; reflexivity].
Qed.
Lemma twin_weaken {A B} (P Q Q' : sstate -> sstate -> Prop) (x : act A) (x' : act B) k : (forall s s', Q s s' -> Q' s s') -> twin P Q x x' k -> twin P Q' x x' k.
Proof. intros W H s s' X. destruct (H s s' X) as (E & N). split; [exact E|]. intros v V. apply W, (N v V). Qed.
Section Angle.
Variables (phi phi' : R).
Hypothesis CC : cos phi' = cos phi.
Hypothesis SS : sin phi' = sg * sin phi.
Let al := fst (rot phi' (a, b)).
Let be := snd (rot phi' (a, b)).
Let E := map (rotate_group phi) D.
Let E' := map (rotate_group phi') D'.
Let h := rotate_geo phi g.
Let h' := rotate_geo phi' g'.
Lemma angle_moved : moved sg al be h h'.
Proof. exact (geo_rot sg a b phi phi' SG CC SS g g' MV). Qed.
Lemma move_strength_act n : twin ready (fun _ _ => True)
  (abind (check_axial ig t ms g n) (fun _ => abind (rotate_data phi) (fun _ => abind (fixed_pivot ig t ms h n false) (fun p => abind (forces_n ig h p None) (fun F => aret (p, F))))))
  (abind (check_axial ig t ms g' n) (fun _ => abind (rotate_data phi') (fun _ => abind (fixed_pivot ig t ms h' n false) (fun p => abind (forces_n ig h' p None) (fun F => aret (p, F))))))
  (fun x => (moved_profile sg al be (fst x), moved_forces sg al be (snd x))).
Proof.
  eapply twin_bind; [apply (twin_weaken _ ready (pairs D D')); [intros s s' (H & _); exact H|apply twin_check]|]. intros [].
  eapply twin_bind; [apply twin_rotate|]. intros [].
  eapply twin_bind; [exact (twin_pivot ig t ms g D sg al be h h' E E' CO angle_moved (PR phi phi' CC SS) n false)|]. intros p.
  eapply twin_bind; [exact (twin_n ig ms g D sg al be h h' E E' CO (PR phi phi' CC SS) p None)|]. intros F.
  apply (twin_weaken _ (pairs E E')); [trivial|]. apply twin_ret. reflexivity.
Qed.
End Angle.
Lemma bind_tail {A B C} (x : act A) (f : A -> B) (k : A -> act C) (m : B -> C) s : (forall y u, fst (k y u) = Ok (m (f y))) ->
  fst (abind x k s) = rmap m (fst (abind x (fun y => aret (f y)) s)).
Proof. intros H. unfold abind. destruct (x s) as [[y|e] u]; cbn [fst rmap]; [apply H|reflexivity]. Qed.
Definition back_strength (theta : R) (x : R * R * R * (R * R * R)) : strength :=
  let '(strain, (N, My, Mz)) := x in
  {| rs_n := N; rs_my := cos theta * My - sin theta * Mz; rs_mz := sin theta * My + cos theta * Mz;
     rs_eps := p_e0 strain; rs_chiy := cos theta * p_ky strain - sin theta * p_kz strain; rs_chiz := sin theta * p_ky strain + cos theta * p_kz strain |}.
Lemma strength_tail (G : compound) theta n s : fst (bending_strength ig t ms G theta n s) =
  rmap (back_strength theta) (fst (abind (check_axial ig t ms G n) (fun _ => abind (rotate_data (- theta)) (fun _ => abind (fixed_pivot ig t ms (rotate_geo (- theta) G) n false) (fun p => abind (forces_n ig (rotate_geo (- theta) G) p None) (fun F => aret (p, F))))) s)).
Proof.
  unfold bending_strength. unfold abind at 1 6. destruct (check_axial ig t ms G n s) as [[[]|e] u]; [|reflexivity]. cbv zeta.
  unfold abind at 1 5. destruct (rotate_data (- theta) u) as [[[]|e] v]; [|reflexivity].
  unfold abind at 1 4. destruct (fixed_pivot ig t ms (rotate_geo (- theta) G) n false v) as [[p|e] w]; [|reflexivity].
  unfold abind at 1 3. destruct (forces_n ig (rotate_geo (- theta) G) p None w) as [[F|e] x]; [|reflexivity].
  destruct F as [[N My] Mz]. reflexivity.
Qed.
Lemma move_strength theta n s s' : ready s s' -> 
  fst (bending_strength ig t ms g' (sg * theta) n s') = rmap (moved_strength sg a b) (fst (bending_strength ig t ms g theta n s)).
Proof.
  intros H. assert (CC : cos (- (sg * theta)) = cos (- theta)) by (destruct SG as [Z|Z]; rewrite Z, ?Rmult_1_l; [reflexivity|rewrite !cos_neg; replace (-1 * theta) with (- theta) by ring; apply cos_neg]).
  assert (SS : sin (- (sg * theta)) = sg * sin (- theta)) by (destruct SG as [Z|Z]; rewrite Z; [rewrite !Rmult_1_l; reflexivity|replace (- (-1 * theta)) with theta by ring; rewrite sin_neg; ring]).
  rewrite !strength_tail. rewrite (proj1 (move_strength_act (- theta) (- (sg * theta)) CC SS n s s' H)).
  set (X := fst (abind (check_axial ig t ms g n) _ s)). destruct X as [[[[e ky] kz] [[N My] Mz]]|]; cbn [rmap]; [|reflexivity]. f_equal.
  unfold back_strength, moved_strength, moved_forces, moved_profile, rot, p_e0, p_ky, p_kz. cbn [fst snd rs_n rs_my rs_mz rs_eps rs_chiy rs_chiz].
  rewrite CC, SS. rewrite cos_neg in CC. rewrite sin_neg in SS. assert (S1 : sin (sg * theta) = sg * sin theta) by (rewrite sin_neg in SS; lra).
  rewrite CC, S1, cos_neg, sin_neg. pose proof (unit_square sg SG) as S2. pose proof (trig_square theta) as T. f_equal; ring [S2 T].
Qed.
End Analyses.
