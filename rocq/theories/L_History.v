From Coq Require Import FunctionalExtensionality.
From Verif Require Import Base M_Marin M_Laws M_Laws2 M_Fiber S_Fiber L_Fiber M_MarinInt S_MarinInt L_MarinInt3 M_Section S_Section L_Section M_Domain S_History.

(** Integration data that differ only in scalar versus array storage. *)
Definition eqd (d e : list group) : Prop := map unscalar d = map unscalar e.
Lemma eqd_refl d : eqd d d. Proof. reflexivity. Qed.
Lemma eqd_sym d e : eqd d e -> eqd e d. Proof. now unfold eqd. Qed.
Lemma eqd_trans d e f : eqd d e -> eqd e f -> eqd d f. Proof. unfold eqd. congruence. Qed.
Lemma unscalar_idem d : map unscalar (map unscalar d) = map unscalar d.
Proof. rewrite map_map. reflexivity. Qed.
Lemma eqd_unscalar d : eqd (map unscalar d) d.
Proof. apply unscalar_idem. Qed.
Lemma rotate_unscalar_map a d : map (rotate_group a) (map unscalar d) = map (rotate_group a) d.
Proof. rewrite map_map. apply map_ext. intros. apply rotate_unscalar. Qed.
Lemma eqd_rotate a d e : eqd d e -> map (rotate_group a) d = map (rotate_group a) e.
Proof. unfold eqd. intros H. rewrite <- (rotate_unscalar_map a d), H. apply rotate_unscalar_map. Qed.
Lemma rotate_back_map a d : eqd (map (rotate_group a) (map (rotate_group (- a)) d)) d.
Proof.
  unfold eqd. rewrite !map_map. apply map_ext. intros x.
  pose proof (rotate_group_back (- a) x) as H. rewrite Ropp_involutive in H. rewrite H. reflexivity.
Qed.

(** What the analyses rely on in the integrator. *)
Record coherent (ig : integ) (g : compound) (ms : option R) (D : list group) : Prop := {
  co_forces : forall h p d e m k, eqd d e -> rmap fst (ig_forces ig h p (Some d) m) = rmap fst (ig_forces ig h p (Some e) k);
  co_modulus : forall h p d e m k, eqd d e -> rmap fst (ig_modulus ig h p (Some d) m) = rmap fst (ig_modulus ig h p (Some e) k);
  co_data : forall h p d m F e, ig_forces ig h p (Some d) m = Ok (F, e) -> eqd e d;
  co_mdata : forall h p d m F e, ig_modulus ig h p (Some d) m = Ok (F, e) -> eqd e d;
  co_fresh : forall p, rmap fst (ig_forces ig g p None ms) = rmap fst (ig_forces ig g p (Some D) None);
  co_mfresh : forall p, rmap fst (ig_modulus ig g p None ms) = rmap fst (ig_modulus ig g p (Some D) None);
  co_fdata : forall p F e, ig_forces ig g p None ms = Ok (F, e) -> eqd e D;
  co_mfdata : forall p F e, ig_modulus ig g p None ms = Ok (F, e) -> eqd e D }.

Lemma rmap_fst_ok {A B} (x y : result (A * B)) a b : rmap fst x = rmap fst y -> x = Ok (a, b) -> exists c, y = Ok (a, c).
Proof. intros H ->. destruct y as [[u v]|]; cbn in H; [|discriminate]. inversion H. eexists; reflexivity. Qed.
Lemma rmap_fst_err {A B} (x y : result (A * B)) e : rmap fst x = rmap fst y -> x = Err e -> y = Err e.
Proof. intros H ->. destruct y as [[u v]|]; cbn in H; congruence. Qed.

Section Sim.
Variables (ig : integ) (t : traits) (ms : R) (g : compound) (D : list group).
Hypothesis CO : coherent ig g (Some ms) D.
Let ld0 : result (R * R) := fst (limit_load ig t ms g {| st_data := Some D; st_lim := None |}).
Definition limok (s : sstate) : Prop := st_lim s = None \/ exists l, st_lim s = Some l /\ ld0 = Ok l.
Definition has (E : list group) (s : sstate) : Prop := exists d, st_data s = Some d /\ eqd d E.
Definition rel (E : list group) (s1 s2 : sstate) : Prop := has E s1 /\ has E s2 /\ limok s1 /\ limok s2.
Definition srel (s1 s2 : sstate) : Prop :=
  (st_data s1 = None /\ st_lim s1 = None /\ has D s2 /\ limok s2) \/ rel D s1 s2.
Definition good {A} (P Q : sstate -> sstate -> Prop) (x : act A) : Prop :=
  forall s1 s2, P s1 s2 -> fst (x s1) = fst (x s2) /\ (forall a, fst (x s1) = Ok a -> Q (snd (x s1)) (snd (x s2))).

Lemma good_ret {A} P (a : A) : good P P (aret a).
Proof. intros s1 s2 H. split; [reflexivity|]. intros; exact H. Qed.
Lemma good_lift {A} P (x : result A) : good P P (alift x).
Proof. intros s1 s2 H. split; [reflexivity|]. intros; exact H. Qed.
Lemma good_fail {A} P Q e : good P Q (@afail A e).
Proof. intros s1 s2 H. split; [reflexivity|]. intros a H0. discriminate. Qed.
Lemma good_bind {A B} P Q S' (x : act A) (f : A -> act B) : good P Q x -> (forall a, good Q S' (f a)) -> good P S' (abind x f).
Proof.
  intros Hx Hf s1 s2 H. destruct (Hx s1 s2 H) as (E & K). unfold abind in *.
  destruct (x s1) as [[a|e] s1'], (x s2) as [[b|e2] s2']; cbn [fst snd] in *; try discriminate.
  - inversion E; subst. apply Hf. apply (K b eq_refl).
  - split; [congruence|discriminate].
Qed.
Lemma good_map {A B} P Q (f : A -> B) (x : act A) : good P Q x -> good P Q (amap f x).
Proof.
  intros Hx s1 s2 H. destruct (Hx s1 s2 H) as (E & K). unfold amap. cbn [fst snd]. rewrite E. split; [reflexivity|].
  intros a H0. destruct (fst (x s2)) as [u|] eqn:X; [|discriminate]. exact (K u E).
Qed.
Lemma rel_srel s1 s2 : rel D s1 s2 -> srel s1 s2. Proof. now right. Qed.

Lemma keep_has E d s : has E s -> keep_data d s = s.
Proof. intros (x & H & _). unfold keep_data. destruct s as [dt l]; cbn in *. subst. reflexivity. Qed.
Lemma forces_k_good E h p m : good (rel E) (rel E) (forces_k ig h p m).
Proof.
  intros s1 s2 R. destruct R as (H1 & H2 & R). pose proof H1 as (d1 & D1 & E1). pose proof H2 as (d2 & D2 & E2).
  unfold forces_k. rewrite D1, D2.
  pose proof (co_forces _ _ _ _ CO h p d1 d2 m m (eqd_trans _ _ _ E1 (eqd_sym _ _ E2))) as X.
  destruct (ig_forces ig h p (Some d1) m) as [[F e]|e], (ig_forces ig h p (Some d2) m) as [[F2 e2]|e2]; cbn in X; try discriminate; inversion X; subst;
    (split; [reflexivity|]); cbn [fst snd]; [|discriminate].
  intros _ _. rewrite (keep_has E) by assumption. rewrite (keep_has E) by assumption. exact (conj H1 (conj H2 R)).
Qed.
Lemma forces_n_good E h p m : good (rel E) (rel E) (forces_n ig h p m).
Proof.
  intros s1 s2 R. destruct R as (H1 & H2 & R). pose proof H1 as (d1 & D1 & E1). pose proof H2 as (d2 & D2 & E2).
  unfold forces_n. rewrite D1, D2.
  pose proof (co_forces _ _ _ _ CO h p d1 d2 m m (eqd_trans _ _ _ E1 (eqd_sym _ _ E2))) as X.
  destruct (ig_forces ig h p (Some d1) m) as [[F e]|e], (ig_forces ig h p (Some d2) m) as [[F2 e2]|e2]; cbn in X; try discriminate; inversion X; subst;
    (split; [reflexivity|]); cbn [fst snd]; [|discriminate].
  intros _ _. exact (conj H1 (conj H2 R)).
Qed.
Lemma axial_rel E h s1 s2 : rel E s1 s2 -> axial_fun ig h s1 = axial_fun ig h s2.
Proof.
  intros ((d1 & D1 & E1) & (d2 & D2 & E2) & _). apply functional_extensionality. intros p. unfold axial_fun. rewrite D1, D2.
  pose proof (co_forces _ _ _ _ CO h p d1 d2 None None (eqd_trans _ _ _ E1 (eqd_sym _ _ E2))) as X.
  destruct (ig_forces ig h p (Some d1) None) as [[F e]|e], (ig_forces ig h p (Some d2) None) as [[F2 e2]|e2]; cbn in X; try discriminate; inversion X; reflexivity.
Qed.
Lemma rotate_good E a : good (rel E) (rel (map (rotate_group a) E)) (rotate_data a).
Proof.
  intros s1 s2 ((d1 & D1 & E1) & (d2 & D2 & E2) & L1 & L2). split; [reflexivity|]. intros _ _. cbn.
  rewrite D1, D2. cbn. repeat split.
  - eexists. split; [reflexivity|]. rewrite (eqd_rotate a _ _ E1). apply eqd_refl.
  - eexists. split; [reflexivity|]. rewrite (eqd_rotate a _ _ E2). apply eqd_refl.
  - exact L1.
  - exact L2.
Qed.
Lemma rel_eqd E E' s1 s2 : eqd E E' -> rel E s1 s2 -> rel E' s1 s2.
Proof.
  intros H ((d1 & D1 & E1) & (d2 & D2 & E2) & L). repeat split; try tauto; eexists; (split; [eassumption|]); eapply eqd_trans; eassumption.
Qed.
Lemma rotate_back_good a : good (rel (map (rotate_group (- a)) D)) (rel D) (rotate_data a).
Proof.
  intros s1 s2 R. destruct (rotate_good _ a s1 s2 R) as (X & Y). split; [exact X|]. intros u Hu.
  eapply rel_eqd; [|eapply Y; exact Hu]. apply rotate_back_map.
Qed.
Lemma fixed_pivot_good E h n y : good (rel E) (rel E) (fixed_pivot ig t ms h n y).
Proof.
  unfold fixed_pivot. eapply good_bind; [apply good_lift|]. intros [[yn yp] strain].
  eapply good_bind; [apply forces_k_good|]. intros F s1 s2 R. cbn [fst snd].
  rewrite (axial_rel E h s1 s2 R). split; [reflexivity|]. intros; exact R.
Qed.
Lemma fixed_curvature_good E h n c e : good (rel E) (rel E) (fixed_curvature ig h n c e).
Proof.
  unfold fixed_curvature. eapply good_bind; [apply forces_k_good|]. intros F s1 s2 R. cbn [fst snd].
  rewrite (axial_rel E h s1 s2 R). split; [reflexivity|]. intros; exact R.
Qed.
Lemma curvature_points_good E h n chis : forall e, good (rel E) (rel E) (curvature_points ig h n chis e).
Proof.
  induction chis as [|c cs IH]; intros e; cbn [curvature_points]; [apply good_ret|].
  eapply good_bind; [apply fixed_curvature_good|]. intros s. eapply good_bind; [apply forces_n_good|]. intros F.
  eapply good_bind; [apply IH|]. intros r. apply good_ret.
Qed.

(** Limit loads. *)
Lemma limit_load_has s d : st_data s = Some d -> eqd d D -> fst (limit_load ig t ms g s) = ld0 /\
  (forall a, fst (limit_load ig t ms g s) = Ok a -> snd (limit_load ig t ms g s) = s).
Proof.
  intros DS ED. unfold ld0, limit_load, abind, alift.
  destruct (balanced (tr_rc t) false (items_of t g)) as [[[yn yp] strain]|e]; [|split; [reflexivity|discriminate]].
  cbn [fst snd st_data]. rewrite DS.
  set (p1 := (p_e0 strain + p_ky strain * yn, 0, 0) : profile). set (p2 := (p_e0 strain + p_ky strain * yp, 0, 0) : profile).
  pose proof (co_forces _ _ _ _ CO g p1 d D (Some ms) (Some ms) ED) as X.
  destruct (ig_forces ig g p1 (Some d) (Some ms)) as [[F e]|e] eqn:X1, (ig_forces ig g p1 (Some D) (Some ms)) as [[F2 e2]|e2] eqn:X2;
    cbn in X; try discriminate; inversion X; subst; [|split; [reflexivity|discriminate]].
  assert (EE : eqd e e2).
  { apply eqd_trans with d; [exact (co_data _ _ _ _ CO _ _ _ _ _ _ X1)|]. apply eqd_trans with D; [exact ED|].
    apply eqd_sym. exact (co_data _ _ _ _ CO _ _ _ _ _ _ X2). }
  pose proof (co_forces _ _ _ _ CO g p2 e e2 None None EE) as Y.
  destruct (ig_forces ig g p2 (Some e) None) as [[G k]|k], (ig_forces ig g p2 (Some e2) None) as [[G2 k2]|k2];
    cbn in Y; try discriminate; inversion Y; subst; split; try reflexivity; cbn [fst snd]; try discriminate.
  intros _ _. apply (keep_has D). exists d. split; assumption.
Qed.
Lemma limit_load_fresh s : st_data s = None -> fst (limit_load ig t ms g s) = ld0 /\
  (forall a, fst (limit_load ig t ms g s) = Ok a -> has D (snd (limit_load ig t ms g s)) /\ st_lim (snd (limit_load ig t ms g s)) = st_lim s).
Proof.
  intros DS. unfold ld0, limit_load, abind, alift.
  destruct (balanced (tr_rc t) false (items_of t g)) as [[[yn yp] strain]|e]; [|split; [reflexivity|discriminate]].
  cbn [fst snd st_data]. rewrite DS.
  set (p1 := (p_e0 strain + p_ky strain * yn, 0, 0) : profile). set (p2 := (p_e0 strain + p_ky strain * yp, 0, 0) : profile).
  pose proof (co_fresh _ _ _ _ CO p1) as X. rewrite (co_forces _ _ _ _ CO g p1 D D None (Some ms) (eqd_refl D)) in X.
  destruct (ig_forces ig g p1 None (Some ms)) as [[F e]|e] eqn:X1, (ig_forces ig g p1 (Some D) (Some ms)) as [[F2 e2]|e2] eqn:X2;
    cbn in X; try discriminate; inversion X; subst; [|split; [reflexivity|discriminate]].
  pose proof (co_fdata _ _ _ _ CO _ _ _ X1) as ED.
  assert (EE : eqd e e2).
  { apply eqd_trans with D; [exact ED|]. apply eqd_sym. exact (co_data _ _ _ _ CO _ _ _ _ _ _ X2). }
  pose proof (co_forces _ _ _ _ CO g p2 e e2 None None EE) as Y.
  destruct (ig_forces ig g p2 (Some e) None) as [[G k]|k], (ig_forces ig g p2 (Some e2) None) as [[G2 k2]|k2];
    cbn in Y; try discriminate; inversion Y; subst; split; try reflexivity; cbn [fst snd]; try discriminate.
  intros _ _. unfold keep_data, has. cbn. rewrite DS. split; [|reflexivity]. exists e. split; [reflexivity|exact ED].
Qed.
Lemma limits_has s : has D s -> limok s -> fst (limits ig t ms g s) = ld0 /\
  (forall a, fst (limits ig t ms g s) = Ok a -> has D (snd (limits ig t ms g s)) /\ limok (snd (limits ig t ms g s))).
Proof.
  intros (d & DS & ED) L. unfold limits. destruct L as [L|(l & L & E)]; rewrite L.
  - destruct (limit_load_has s d DS ED) as (X & Y). destruct (limit_load ig t ms g s) as [[l|e] s'] eqn:LL; cbn [fst snd] in *.
    + specialize (Y l eq_refl). subst s'. split; [congruence|]. intros a _. split; [exists d; split; assumption|].
      right. exists l. split; [reflexivity|congruence].
    + split; [congruence|discriminate].
  - split; [cbn [fst]; symmetry; exact E|]. intros a _. cbn [snd]. split; [exists d; split; assumption|]. right. exists l. split; assumption.
Qed.
Lemma limits_fresh s : st_data s = None -> st_lim s = None -> fst (limits ig t ms g s) = ld0 /\
  (forall a, fst (limits ig t ms g s) = Ok a -> has D (snd (limits ig t ms g s)) /\ limok (snd (limits ig t ms g s))).
Proof.
  intros DS L. unfold limits. rewrite L.
  destruct (limit_load_fresh s DS) as (X & Y). destruct (limit_load ig t ms g s) as [[l|e] s'] eqn:LL; cbn [fst snd] in *.
  - destruct (Y l eq_refl) as ((d & D1 & D2) & _). split; [congruence|]. intros a _. split; [exists d; split; assumption|].
    right. exists l. split; [reflexivity|congruence].
  - split; [congruence|discriminate].
Qed.
Lemma limits_good : good srel (rel D) (limits ig t ms g).
Proof.
  intros s1 s2 [(A & B & H2 & L2)|(H1 & H2 & L1 & L2)].
  - destruct (limits_fresh s1 A B) as (X1 & Y1), (limits_has s2 H2 L2) as (X2 & Y2). split; [congruence|].
    intros a Ha. rewrite X1 in Ha. rewrite X2 in Y2. rewrite X1 in Y1. destruct (Y1 a Ha), (Y2 a Ha). repeat split; assumption.
  - destruct (limits_has s1 H1 L1) as (X1 & Y1), (limits_has s2 H2 L2) as (X2 & Y2). split; [congruence|].
    intros a Ha. rewrite X1 in Ha. rewrite X2 in Y2. rewrite X1 in Y1. destruct (Y1 a Ha), (Y2 a Ha). repeat split; assumption.
Qed.
Lemma check_good n : good srel (rel D) (check_axial ig t ms g n).
Proof.
  unfold check_axial. eapply good_bind; [apply limits_good|]. intros l.
  destruct (orb _ _); [apply good_fail|apply good_ret].
Qed.
Lemma good_weaken {A} (P Q Q' : sstate -> sstate -> Prop) (x : act A) : (forall a b, Q a b -> Q' a b) -> good P Q x -> good P Q' x.
Proof. intros W G s1 s2 H. destruct (G s1 s2 H) as (X & Y). split; [exact X|]. intros a Ha. apply W. exact (Y a Ha). Qed.
Lemma forces_k_start m p : coherent ig g m D -> good srel (rel D) (forces_k ig g p m).
Proof.
  intros COm s1 s2 [(A & B & H2 & L2)|R]; [|exact (forces_k_good D g p m s1 s2 R)].
  pose proof H2 as (d2 & D2 & E2). unfold forces_k. rewrite A, D2.
  pose proof (co_fresh _ _ _ _ COm p) as X. rewrite (co_forces _ _ _ _ CO g p D d2 None m (eqd_sym _ _ E2)) in X.
  destruct (ig_forces ig g p None m) as [[F e]|e] eqn:X1, (ig_forces ig g p (Some d2) m) as [[F2 e2]|e2]; cbn in X; try discriminate; inversion X; subst;
    (split; [reflexivity|]); cbn [fst snd]; [|discriminate].
  intros _ _. rewrite (keep_has D e2) by assumption. repeat split; try assumption.
  - unfold keep_data. exists e. cbn. rewrite A. split; [reflexivity|]. exact (co_fdata _ _ _ _ COm _ _ _ X1).
  - left. unfold keep_data. cbn. exact B.
Qed.
Lemma modulus_good p : good srel (rel D) (integrate_modulus ig ms g p).
Proof.
  intros s1 s2 [(A & B & H2 & L2)|R].
  - pose proof H2 as (d2 & D2 & E2). unfold integrate_modulus. rewrite A, D2.
    pose proof (co_mfresh _ _ _ _ CO p) as X. rewrite (co_modulus _ _ _ _ CO g p D d2 None (Some ms) (eqd_sym _ _ E2)) in X.
    destruct (ig_modulus ig g p None (Some ms)) as [[F e]|e] eqn:X1, (ig_modulus ig g p (Some d2) (Some ms)) as [[F2 e2]|e2]; cbn in X; try discriminate; inversion X; subst;
      (split; [reflexivity|]); cbn [fst snd]; [|discriminate].
    intros _ _. rewrite (keep_has D e2) by assumption. repeat split; try assumption.
    + unfold keep_data. exists e. cbn. rewrite A. split; [reflexivity|]. exact (co_mfdata _ _ _ _ CO _ _ _ X1).
    + left. unfold keep_data. cbn. exact B.
  - destruct R as (H1 & H2 & R). pose proof H1 as (d1 & D1 & E1). pose proof H2 as (d2 & D2 & E2).
    unfold integrate_modulus. rewrite D1, D2.
    pose proof (co_modulus _ _ _ _ CO g p d1 d2 (Some ms) (Some ms) (eqd_trans _ _ _ E1 (eqd_sym _ _ E2))) as X.
    destruct (ig_modulus ig g p (Some d1) (Some ms)) as [[F e]|e], (ig_modulus ig g p (Some d2) (Some ms)) as [[F2 e2]|e2]; cbn in X; try discriminate; inversion X; subst;
      (split; [reflexivity|]); cbn [fst snd]; [|discriminate].
    intros _ _. rewrite (keep_has D) by assumption. rewrite (keep_has D) by assumption. exact (conj H1 (conj H2 R)).
Qed.
Lemma strength_good th n : good srel (rel D) (bending_strength ig t ms g th n).
Proof.
  unfold bending_strength. eapply good_bind; [apply check_good|]. intros _. cbv zeta.
  eapply good_bind; [apply rotate_good|]. intros _.
  eapply good_bind; [apply fixed_pivot_good|]. intros strain.
  eapply good_bind; [apply forces_n_good|]. intros [[N My] Mz].
  eapply good_bind; [apply rotate_back_good|]. intros _. apply good_ret.
Qed.
Lemma moment_good th n c a b l : good srel (rel D) (moment_curvature ig t ms g th n c a b l).
Proof.
  unfold moment_curvature. eapply good_bind; [apply check_good|]. intros _. cbv zeta.
  eapply good_bind; [apply rotate_good|]. intros _.
  eapply good_bind.
  { destruct l; [apply good_ret|]. eapply good_bind; [apply fixed_pivot_good|]. intros su.
    eapply good_bind; [apply fixed_pivot_good|]. intros sy. apply good_lift. }
  intros chis. eapply good_bind; [apply curvature_points_good|]. intros pts.
  eapply good_bind; [apply rotate_back_good|]. intros _. apply good_ret.
Qed.
Lemma all_good m ps : coherent ig g m D -> good srel srel (integrate_all ig m g ps).
Proof.
  intros COm. induction ps as [|p ps IH]; cbn [integrate_all]; [apply good_ret|].
  eapply good_bind; [eapply good_weaken; [exact rel_srel|apply forces_k_start; exact COm]|]. intros F.
  eapply good_bind; [exact IH|]. intros r. apply good_ret.
Qed.
Lemma nm_good th f c : good srel srel (nm_domain ig t ms g th f c).
Proof.
  unfold nm_domain. eapply good_bind; [apply good_lift|]. intros u. eapply good_bind.
  { destruct c; [|apply good_ret]. eapply good_bind; [apply good_lift|]. intros v. apply good_ret. }
  intros v. eapply good_bind; [apply all_good; exact CO|]. intros F. apply good_ret.
Qed.
Lemma strengths_good n ths : good srel srel (strengths ig t ms g n ths).
Proof.
  induction ths as [|th ths IH]; cbn [strengths]; [apply good_ret|].
  eapply good_bind; [eapply good_weaken; [exact rel_srel|apply strength_good]|]. intros r.
  eapply good_bind; [exact IH|]. intros q. apply good_ret.
Qed.
Lemma nmm_good k f : coherent ig g None D -> good srel srel (nmm_domain ig t g k f).
Proof.
  intros CN. unfold nmm_domain. eapply good_bind; [apply good_lift|]. intros u.
  eapply good_bind; [apply all_good; exact CN|]. intros F. destruct (snd u); [apply good_ret|apply good_fail].
Qed.
Lemma fixed_start n c e : coherent ig g None D -> good srel (rel D) (fixed_curvature ig g n c e).
Proof.
  intros CN. unfold fixed_curvature. eapply good_bind; [apply forces_k_start; exact CN|]. intros F s1 s2 R. cbn [fst snd].
  rewrite (axial_rel D g s1 s2 R). split; [reflexivity|]. intros; exact R.
Qed.
Lemma newton_good loads tol K0 mx : forall fuel num strain, good (rel D) (rel D) (newton_loop fuel ig ms g loads tol K0 num mx strain).
Proof.
  induction fuel as [|k IH]; intros num strain; cbn [newton_loop].
  { destruct (mx <=? num)%nat; [apply good_fail|apply good_ret]. }
  eapply good_bind; [apply forces_k_good|]. intros F. eapply good_bind.
  { destruct K0; [apply good_ret|]. intros s1 s2 R. destruct R as (H1 & H2 & R). pose proof H1 as (d1 & D1 & E1). pose proof H2 as (d2 & D2 & E2).
    rewrite D1, D2.
    pose proof (co_modulus _ _ _ _ CO g strain d1 d2 None None (eqd_trans _ _ _ E1 (eqd_sym _ _ E2))) as X.
    destruct (ig_modulus ig g strain (Some d1) None) as [[A e]|e], (ig_modulus ig g strain (Some d2) None) as [[A2 e2]|e2]; cbn in X; try discriminate; inversion X; subst;
      (split; [reflexivity|]); cbn [fst snd]; [|discriminate]. intros _ _. exact (conj H1 (conj H2 R)). }
  intros K. eapply good_bind; [apply good_lift|]. intros d. destruct (Rltb _ tol); [|apply IH].
  destruct (mx <=? S num)%nat; [apply good_fail|apply good_ret].
Qed.
Lemma strain_good loads i mx tol : coherent ig g None D -> good srel (rel D) (strain_profile ig ms g loads i mx tol).
Proof.
  intros CN s1 s2 R. unfold strain_profile.
  assert (Z : rmap fst (ig_modulus ig g (0, 0, 0) (st_data s1) None) = rmap fst (ig_modulus ig g (0, 0, 0) (st_data s2) None) /\
    forall K1 e1 K2 e2, ig_modulus ig g (0, 0, 0) (st_data s1) None = Ok (K1, e1) -> ig_modulus ig g (0, 0, 0) (st_data s2) None = Ok (K2, e2) ->
      rel D (keep_data e1 s1) (keep_data e2 s2)).
  { destruct R as [(A & B & H2 & L2)|(H1 & H2 & R)].
    - pose proof H2 as (d2 & D2 & E2). rewrite A, D2. split.
      + rewrite (co_mfresh _ _ _ _ CN). apply (co_modulus _ _ _ _ CO). now apply eqd_sym.
      + intros K1 e1 K2 e2 X1 X2. rewrite (keep_has D _ s2) by assumption. repeat split; try assumption.
        * unfold keep_data. exists e1. cbn. rewrite A. split; [reflexivity|]. exact (co_mfdata _ _ _ _ CN _ _ _ X1).
        * left. unfold keep_data. cbn. exact B.
    - pose proof H1 as (d1 & D1 & E1). pose proof H2 as (d2 & D2 & E2). rewrite D1, D2. split.
      + apply (co_modulus _ _ _ _ CO). eapply eqd_trans; [exact E1|now apply eqd_sym].
      + intros. rewrite (keep_has D _ s2) by assumption. rewrite (keep_has D _ s1) by assumption. exact (conj H1 (conj H2 R)). }
  destruct Z as (Z1 & Z2).
  destruct (ig_modulus ig g (0, 0, 0) (st_data s1) None) as [[K1 e1]|e1], (ig_modulus ig g (0, 0, 0) (st_data s2) None) as [[K2 e2]|e2];
    cbn in Z1; try discriminate; inversion Z1; subst; [|split; [reflexivity|discriminate]].
  apply newton_good. exact (Z2 _ _ _ _ eq_refl eq_refl).
Qed.

Lemma run_good o : meshed o \/ coherent ig g None D -> good srel srel (run ig t ms g o).
Proof.
  intros M. destruct o; cbn [run]; apply good_map.
  - eapply good_weaken; [exact rel_srel|]. apply forces_k_start. exact CO.
  - eapply good_weaken; [exact rel_srel|]. apply modulus_good.
  - eapply good_weaken; [exact rel_srel|]. apply limits_good.
  - eapply good_weaken; [exact rel_srel|]. apply strength_good.
  - eapply good_weaken; [exact rel_srel|]. apply moment_good.
  - apply nm_good.
  - unfold mm_domain. eapply good_bind; [apply strengths_good|]. intros l. apply good_ret.
  - destruct M as [[]|M]. apply nmm_good. exact M.
  - destruct M as [[]|M]. eapply good_weaken; [exact rel_srel|]. apply strain_good. exact M.
  - destruct M as [[]|M]. eapply good_weaken; [exact rel_srel|]. apply fixed_start. exact M.
Qed.

(** Analyses that keep the relation also when they raise. *)
Definition solid {A} (x : act A) : Prop :=
  forall s1 s2, srel s1 s2 -> fst (x s1) = fst (x s2) /\ srel (snd (x s1)) (snd (x s2)).
Lemma solid_ret {A} (a : A) : solid (aret a). Proof. intros s1 s2 H. split; [reflexivity|exact H]. Qed.
Lemma solid_fail {A} e : solid (@afail A e). Proof. intros s1 s2 H. split; [reflexivity|exact H]. Qed.
Lemma solid_lift {A} (x : result A) : solid (alift x). Proof. intros s1 s2 H. split; [reflexivity|exact H]. Qed.
Lemma solid_bind {A B} (x : act A) (f : A -> act B) : solid x -> (forall a, solid (f a)) -> solid (abind x f).
Proof.
  intros Hx Hf s1 s2 H. destruct (Hx s1 s2 H) as (E & K). unfold abind in *.
  destruct (x s1) as [[a|e] s1'], (x s2) as [[b|e2] s2']; cbn [fst snd] in *; try discriminate.
  - inversion E; subst. apply Hf. exact K.
  - split; [congruence|exact K].
Qed.
Lemma solid_map {A B} (f : A -> B) (x : act A) : solid x -> solid (amap f x).
Proof. intros Hx s1 s2 H. destruct (Hx s1 s2 H) as (E & K). unfold amap. cbn [fst snd]. rewrite E. split; [reflexivity|exact K]. Qed.
(** Calls that leave the state alone when they fail. *)
Lemma solid_of_good {A} (x : act A) : good srel srel x -> (forall s e, fst (x s) = Err e -> snd (x s) = s) -> solid x.
Proof.
  intros G N s1 s2 H. destruct (G s1 s2 H) as (E & K). split; [exact E|].
  destruct (fst (x s1)) as [a|e] eqn:X; [exact (K a eq_refl)|].
  rewrite (N s1 e X), (N s2 e (eq_sym E)). exact H.
Qed.
Lemma forces_k_solid m p : coherent ig g m D -> solid (forces_k ig g p m).
Proof.
  intros C. apply solid_of_good.
  - eapply good_weaken; [exact rel_srel|apply forces_k_start; exact C].
  - intros s e. unfold forces_k. destruct (ig_forces ig g p (st_data s) m) as [[F d]|x]; [discriminate|reflexivity].
Qed.
Lemma modulus_solid p : solid (integrate_modulus ig ms g p).
Proof.
  apply solid_of_good.
  - eapply good_weaken; [exact rel_srel|apply modulus_good].
  - intros s e. unfold integrate_modulus. destruct (ig_modulus ig g p (st_data s) (Some ms)) as [[F d]|x]; [discriminate|reflexivity].
Qed.
Lemma limits_solid : solid (limits ig t ms g).
Proof.
  apply solid_of_good.
  - eapply good_weaken; [exact rel_srel|apply limits_good].
  - intros s e. unfold limits. destruct (st_lim s); [reflexivity|]. unfold limit_load, abind, alift.
    destruct (balanced (tr_rc t) false (items_of t g)) as [[[yn yp] strain]|x]; [|reflexivity].
    destruct (ig_forces ig g _ (st_data s) (Some ms)) as [[F d]|x]; [|reflexivity].
    destruct (ig_forces ig g _ (Some d) None) as [[F2 d2]|x]; [discriminate|reflexivity].
Qed.
Lemma all_solid m ps : coherent ig g m D -> solid (integrate_all ig m g ps).
Proof.
  intros COm. induction ps as [|p ps IH]; cbn [integrate_all]; [apply solid_ret|].
  apply solid_bind; [apply forces_k_solid; exact COm|]. intros F. apply solid_bind; [exact IH|]. intros r. apply solid_ret.
Qed.
Lemma srel_some s1 s2 d : srel s1 s2 -> st_data s1 = Some d -> rel D s1 s2.
Proof. intros [(A & _)|R] H; [congruence|exact R]. Qed.
Lemma newton_solid loads tol K0 mx : forall fuel num strain, solid (newton_loop fuel ig ms g loads tol K0 num mx strain).
Proof.
  induction fuel as [|k IH]; intros num strain; cbn [newton_loop].
  { destruct (mx <=? num)%nat; [apply solid_fail|apply solid_ret]. }
  intros s1 s2 R. pose proof (forces_k_start (Some ms) strain CO s1 s2 R) as (E & K).
  pose proof (forces_k_solid (Some ms) strain CO s1 s2 R) as (_ & KS).
  fold (integrate_profile ig ms g strain) in E, K, KS.
  match goal with |- fst (abind _ ?f _) = _ /\ _ => set (rest := f) end. unfold abind.
  destruct (integrate_profile ig ms g strain s1) as [[F|e] s1'], (integrate_profile ig ms g strain s2) as [[F2|e2] s2']; cbn [fst snd] in *; try discriminate;
    [|split; [congruence|exact KS]]. unfold rest. clear rest.
  inversion E; subst F2. specialize (K F eq_refl). clear E KS R s1 s2.
  assert (Z : forall x : act (nat -> nat -> R), good (rel D) (rel D) x -> (forall s e, fst (x s) = Err e -> snd (x s) = s) ->
    forall f : (nat -> nat -> R) -> act (R * R * R), (forall a, solid (f a)) ->
    fst (abind x f s1') = fst (abind x f s2') /\ srel (snd (abind x f s1')) (snd (abind x f s2'))).
  { intros x G N f SF. destruct (G _ _ K) as (E & KK). unfold abind. pose proof (N s1') as N1. pose proof (N s2') as N2.
    destruct (x s1') as [[a|e] u1], (x s2') as [[b|e2] u2]; cbn [fst snd] in *; try discriminate.
    - inversion E; subst. apply SF. apply rel_srel. exact (KK b eq_refl).
    - split; [congruence|]. rewrite (N1 e eq_refl), (N2 e2 eq_refl). apply rel_srel. exact K. }
  apply Z.
  - destruct K0; [apply good_ret|]. intros s1 s2 R. destruct R as (H1 & H2 & R). pose proof H1 as (d1 & D1 & E1). pose proof H2 as (d2 & D2 & E2).
    rewrite D1, D2.
    pose proof (co_modulus _ _ _ _ CO g strain d1 d2 None None (eqd_trans _ _ _ E1 (eqd_sym _ _ E2))) as X.
    destruct (ig_modulus ig g strain (Some d1) None) as [[A e]|e], (ig_modulus ig g strain (Some d2) None) as [[A2 e2]|e2]; cbn in X; try discriminate; inversion X; subst;
      (split; [reflexivity|]); cbn [fst snd]; [|discriminate]. intros _ _. exact (conj H1 (conj H2 R)).
  - intros s e. destruct K0; [discriminate|]. destruct (ig_modulus ig g strain (st_data s) None) as [[A d]|x]; [discriminate|reflexivity].
  - intros K1. apply solid_bind; [apply solid_lift|]. intros d. destruct (Rltb _ tol); [|apply IH].
    destruct (mx <=? S num)%nat; [apply solid_fail|apply solid_ret].
Qed.
Lemma strain_solid loads i mx tol : coherent ig g None D -> solid (strain_profile ig ms g loads i mx tol).
Proof.
  intros CN s1 s2 R. unfold strain_profile.
  assert (Z : rmap fst (ig_modulus ig g (0, 0, 0) (st_data s1) None) = rmap fst (ig_modulus ig g (0, 0, 0) (st_data s2) None) /\
    forall K1 e1 K2 e2, ig_modulus ig g (0, 0, 0) (st_data s1) None = Ok (K1, e1) -> ig_modulus ig g (0, 0, 0) (st_data s2) None = Ok (K2, e2) ->
      rel D (keep_data e1 s1) (keep_data e2 s2)).
  { destruct R as [(A & B & H2 & L2)|(H1 & H2 & R)].
    - pose proof H2 as (d2 & D2 & E2). rewrite A, D2. split.
      + rewrite (co_mfresh _ _ _ _ CN). apply (co_modulus _ _ _ _ CO). now apply eqd_sym.
      + intros K1 e1 K2 e2 X1 X2. rewrite (keep_has D _ s2) by assumption. repeat split; try assumption.
        * unfold keep_data. exists e1. cbn. rewrite A. split; [reflexivity|]. exact (co_mfdata _ _ _ _ CN _ _ _ X1).
        * left. unfold keep_data. cbn. exact B.
    - pose proof H1 as (d1 & D1 & E1). pose proof H2 as (d2 & D2 & E2). rewrite D1, D2. split.
      + apply (co_modulus _ _ _ _ CO). eapply eqd_trans; [exact E1|now apply eqd_sym].
      + intros. rewrite (keep_has D _ s2) by assumption. rewrite (keep_has D _ s1) by assumption. exact (conj H1 (conj H2 R)). }
  destruct Z as (Z1 & Z2).
  destruct (ig_modulus ig g (0, 0, 0) (st_data s1) None) as [[K1 e1]|e1], (ig_modulus ig g (0, 0, 0) (st_data s2) None) as [[K2 e2]|e2];
    cbn in Z1; try discriminate; inversion Z1; subst; [|split; [reflexivity|exact R]].
  apply newton_solid. apply rel_srel. exact (Z2 _ _ _ _ eq_refl eq_refl).
Qed.
Lemma fixed_solid n c e : coherent ig g None D -> solid (fixed_curvature ig g n c e).
Proof.
  intros CN s1 s2 R. pose proof (forces_k_start None (e, c, 0) CN s1 s2 R) as (E & K).
  pose proof (forces_k_solid None (e, c, 0) CN s1 s2 R) as (_ & KS). unfold fixed_curvature, abind.
  destruct (forces_k ig g (e, c, 0) None s1) as [[F|x] s1'], (forces_k ig g (e, c, 0) None s2) as [[F2|x2] s2']; cbn [fst snd] in *; try discriminate.
  - inversion E; subst F2. rewrite (axial_rel D g s1' s2' (K F eq_refl)). split; [reflexivity|exact KS].
  - split; [congruence|exact KS].
Qed.
Lemma run_solid o : upright o -> meshed o \/ coherent ig g None D -> solid (run ig t ms g o).
Proof.
  intros U M. destruct o; try destruct U; cbn [run]; apply solid_map.
  - apply forces_k_solid. exact CO.
  - apply modulus_solid.
  - apply limits_solid.
  - unfold nm_domain. apply solid_bind; [apply solid_lift|]. intros u. apply solid_bind.
    { destruct complete; [|apply solid_ret]. apply solid_bind; [apply solid_lift|]. intros v. apply solid_ret. }
    intros v. apply solid_bind; [apply all_solid; exact CO|]. intros F. apply solid_ret.
  - destruct M as [[]|M]. unfold nmm_domain. apply solid_bind; [apply solid_lift|]. intros u.
    apply solid_bind; [apply all_solid; exact M|]. intros F. destruct (snd u); [apply solid_ret|apply solid_fail].
  - destruct M as [[]|M]. apply strain_solid. exact M.
  - destruct M as [[]|M]. apply fixed_solid. exact M.
Qed.

Let c0 : sstate := {| st_data := Some D; st_lim := None |}.
Lemma c0_rel : rel D c0 c0.
Proof. repeat split; try (exists D; split; [reflexivity|apply eqd_refl]); left; reflexivity. Qed.
Lemma init_srel : srel st_init c0.
Proof. left. repeat split; [|left; reflexivity]. exists D. split; [reflexivity|apply eqd_refl]. Qed.
Lemma srel_drop s1 s2 : srel s1 s2 -> srel s1 c0.
Proof.
  destruct c0_rel as (H & _ & L & _). intros [(A & B & _)|(A & B & C & _)]; [left|right]; repeat split; assumption.
Qed.
Lemma history_srel ops s : (forall o, In o ops -> meshed o \/ coherent ig g None D) -> history ig t ms g ops s -> srel s c0.
Proof.
  intros M H. induction H as [|ops s o a s' H IH E|ops s o e s' H IH E U]; [exact init_srel| |].
  2:{ assert (IH' : srel s c0) by (apply IH; intros; apply M, in_or_app; now left).
      destruct (run_solid o U (M o ltac:(apply in_or_app; right; now left)) s c0 IH') as (X & Y). rewrite E in Y. exact (srel_drop _ _ Y). }
  assert (IH' : srel s c0) by (apply IH; intros; apply M, in_or_app; now left).
  destruct (run_good o (M o ltac:(apply in_or_app; right; now left)) s c0 IH') as (X & Y). rewrite E in Y. cbn in Y.
  exact (srel_drop _ _ (Y a eq_refl)).
Qed.
Lemma history_free ops s o : (forall o', In o' (o :: ops) -> meshed o' \/ coherent ig g None D) -> history ig t ms g ops s ->
  fst (run ig t ms g o s) = fst (run ig t ms g o st_init).
Proof.
  intros M H. assert (M2 := M o (or_introl eq_refl)).
  pose proof (history_srel ops s (fun o' I => M o' (or_intror I)) H) as R.
  destruct (run_good o M2 s c0 R) as (X & _). destruct (run_good o M2 st_init c0 init_srel) as (Y & _). congruence.
Qed.
End Sim.

(** * The two integrators are coherent *)
Lemma groups_unscalar laws what s d e : (forall k, batched (laws k)) -> what <> IOther -> eqd d e ->
  prepare_groups laws what s d = prepare_groups laws what s e.
Proof.
  intros B W H. rewrite !prepare_groups_ok by assumption. f_equal. unfold eqd in H.
  revert e H. induction d as [|x d IH]; intros [|y e] H; try discriminate; [reflexivity|].
  cbn [map] in H. injection H as H1 H2 H3. cbn [flat_map]. rewrite H1, H2. f_equal. apply IH. exact H3.
Qed.
Lemma eqd_nil d e : eqd d e -> d = [] -> e = [].
Proof. unfold eqd. intros H ->. destruct e; [reflexivity|discriminate]. Qed.
Lemma input_unscalar laws mesher h p what d e m k : (forall k, batched (laws k)) -> what <> IOther -> eqd d e ->
  rmap fst (prepare_input laws mesher h p what (Some d) m) = rmap fst (prepare_input laws mesher h p what (Some e) k).
Proof.
  intros B W H. unfold prepare_input. cbn [bind]. rewrite (groups_unscalar laws what p d e B W H).
  destruct (prepare_groups laws what p e); cbn [bind]; [|reflexivity].
  destruct d, e; try reflexivity; [unfold eqd in H; discriminate|unfold eqd in H; discriminate].
Qed.
Lemma input_data laws mesher h p what d m v e : prepare_input laws mesher h p what (Some d) m = Ok (v, e) -> e = d.
Proof.
  unfold prepare_input. cbn [bind]. destruct (prepare_groups laws what p d); cbn [bind]; [|discriminate].
  destruct d; [discriminate|]. intros H. now inversion H.
Qed.
Lemma input_fresh laws mesher g p what ms D : triangulate mesher g ms = Ok D ->
  prepare_input laws mesher g p what None (Some ms) = prepare_input laws mesher g p what (Some D) None.
Proof. intros T. unfold prepare_input. rewrite T. reflexivity. Qed.
Lemma fiber_coherent laws mesher g ms D : (forall k, batched (laws k)) -> triangulate mesher g ms = Ok D ->
  coherent (fiber_integ laws mesher) g (Some ms) D.
Proof.
  intros B T.
  assert (UF : forall h p d e m k, eqd d e -> rmap fst (fiber_forces laws mesher h p (Some d) m) = rmap fst (fiber_forces laws mesher h p (Some e) k)).
  { intros. unfold fiber_forces. pose proof (input_unscalar laws mesher h p IStress d e m k B ltac:(discriminate) H) as X.
    destruct (prepare_input laws mesher h p IStress (Some d) m) as [[a b]|], (prepare_input laws mesher h p IStress (Some e) k) as [[a' b']|]; cbn in *; congruence. }
  assert (UM : forall h p d e m k, eqd d e -> rmap fst (fiber_stiffness laws mesher h p (Some d) m) = rmap fst (fiber_stiffness laws mesher h p (Some e) k)).
  { intros. unfold fiber_stiffness. pose proof (input_unscalar laws mesher h p IModulus d e m k B ltac:(discriminate) H) as X.
    destruct (prepare_input laws mesher h p IModulus (Some d) m) as [[a b]|], (prepare_input laws mesher h p IModulus (Some e) k) as [[a' b']|]; cbn in *; congruence. }
  assert (DF : forall h p d m F e, fiber_forces laws mesher h p (Some d) m = Ok (F, e) -> e = d).
  { intros h p d m F e. unfold fiber_forces. destruct (prepare_input laws mesher h p IStress (Some d) m) as [[a b]|] eqn:E; [|discriminate].
    cbn. intros X. inversion X; subst. exact (input_data _ _ _ _ _ _ _ _ _ E). }
  assert (DM : forall h p d m F e, fiber_stiffness laws mesher h p (Some d) m = Ok (F, e) -> e = d).
  { intros h p d m F e. unfold fiber_stiffness. destruct (prepare_input laws mesher h p IModulus (Some d) m) as [[a b]|] eqn:E; [|discriminate].
    cbn. intros X. inversion X; subst. exact (input_data _ _ _ _ _ _ _ _ _ E). }
  assert (NF : forall p, fiber_forces laws mesher g p None (Some ms) = fiber_forces laws mesher g p (Some D) None).
  { intros. unfold fiber_forces. rewrite (input_fresh _ _ _ _ _ _ _ T). reflexivity. }
  assert (NM : forall p, fiber_stiffness laws mesher g p None (Some ms) = fiber_stiffness laws mesher g p (Some D) None).
  { intros. unfold fiber_stiffness. rewrite (input_fresh _ _ _ _ _ _ _ T). reflexivity. }
  constructor; cbn; auto.
  - intros. rewrite (DF _ _ _ _ _ _ H). apply eqd_refl.
  - intros. rewrite (DM _ _ _ _ _ _ H). apply eqd_refl.
  - intros. now rewrite NF.
  - intros. now rewrite NM.
  - intros p F e. rewrite NF. intros H. rewrite (DF _ _ _ _ _ _ H). apply eqd_refl.
  - intros p F e. rewrite NM. intros H. rewrite (DM _ _ _ _ _ _ H). apply eqd_refl.
Qed.
Lemma fiber_coherent_none laws mesher g D : coherent (fiber_integ laws mesher) g (Some (1/100)) D ->
  coherent (fiber_integ laws mesher) g None D.
Proof. intros []. constructor; assumption. Qed.

Lemma mprep_unscalar laws h p what d e : eqd d e -> m_prepare laws h p what (Some d) = m_prepare laws h p what (Some e).
Proof. intros H. unfold m_prepare. rewrite (eqd_rotate _ _ _ H). reflexivity. Qed.
Lemma marin_back a d : eqd (map (rotate_group (- a)) (map (rotate_group a) d)) d.
Proof. unfold eqd. rewrite !map_map. apply map_ext. intros x. rewrite rotate_group_back. reflexivity. Qed.
Lemma mprep_data laws h p what d a es bs gs : m_prepare laws h p what (Some d) = Ok (a, es, bs, gs) -> eqd (map (rotate_group (- a)) gs) d.
Proof.
  unfold m_prepare. destruct (surfaces_entries _ _ _ _ _) as [x|]; [|discriminate]. cbn [bind].
  destruct (bars_entries _ _ _ _ _); [|discriminate]. cbn [bind]. destruct (homogeneous _); [|discriminate].
  intros H. inversion H; subst. apply marin_back.
Qed.
Lemma marin_coherent laws g ms : (forall k, batched (laws k)) -> coherent (marin_integ laws) g ms (map unscalar (bar_groups (cg_bars g))).
Proof.
  intros B. constructor; cbn.
  - intros. unfold marin_forces. rewrite (mprep_unscalar _ _ _ _ _ _ H). reflexivity.
  - intros. unfold marin_stiffness. rewrite (mprep_unscalar _ _ _ _ _ _ H). reflexivity.
  - intros h p d m F e. unfold marin_forces. destruct (m_prepare laws h p IStress (Some d)) as [[[[a es] bs] gs]|] eqn:X; [|discriminate].
    cbn. intros Y. inversion Y; subst. exact (mprep_data _ _ _ _ _ _ _ _ _ X).
  - intros h p d m F e. unfold marin_stiffness. destruct (m_prepare laws h p IModulus (Some d)) as [[[[a es] bs] gs]|] eqn:X; [|discriminate].
    cbn. intros Y. inversion Y; subst. exact (mprep_data _ _ _ _ _ _ _ _ _ X).
  - intros p. rewrite forces_reuse by assumption. reflexivity.
  - intros p. rewrite stiffness_reuse by assumption. reflexivity.
  - intros p F e H. rewrite (forces_data _ _ _ _ _ H). apply eqd_refl.
  - intros p F e H. rewrite (stiffness_data _ _ _ _ _ H). apply eqd_refl.
Qed.
