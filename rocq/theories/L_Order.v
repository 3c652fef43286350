(** Lemmas for C61: analyses of two sections whose integration data are related. *)
From Coq Require Import FunctionalExtensionality Lra Lia.
From Verif Require Import Base M_Laws M_Laws2 M_Fiber M_MarinInt M_Section M_Domain S_History.

Section Kin.
Variables (ig : integ) (rel : list group -> list group -> Prop).
Definition krel (s s' : sstate) : Prop := st_lim s' = st_lim s /\
  match st_data s, st_data s' with None, None => True | Some d, Some d' => rel d d' | _, _ => False end.
Definition orel (d d' : option (list group)) : Prop := match d, d' with None, None => True | Some x, Some y => rel x y | _, _ => False end.
(** Same value or same error, related data. *)
Definition outs {A} (x x' : result (A * list group)) : Prop :=
  match x, x' with Ok (v, d), Ok (v', d') => v' = v /\ rel d d' | Err e, Err e' => e' = e | _, _ => False end.
Definition kin {A} (x x' : act A) : Prop := forall s s', krel s s' -> fst (x' s') = fst (x s) /\ krel (snd (x s)) (snd (x' s')).
Lemma kin_ret {A} (a : A) : kin (aret a) (aret a).
Proof. intros s s' K. split; [reflexivity|exact K]. Qed.
Lemma kin_fail {A} e : kin (@afail A e) (afail e).
Proof. intros s s' K. split; [reflexivity|exact K]. Qed.
Lemma kin_lift {A} (x x' : result A) : x' = x -> kin (alift x) (alift x').
Proof. intros -> s s' K. split; [reflexivity|exact K]. Qed.
Lemma kin_bind {A B} (x x' : act A) (f f' : A -> act B) : kin x x' -> (forall a, kin (f a) (f' a)) -> kin (abind x f) (abind x' f').
Proof.
  intros X F s s' K. unfold abind. destruct (X s s' K) as (E & K2). destruct (x s) as [r u], (x' s') as [r' u']. cbn [fst snd] in E, K2. subst r'.
  destruct r as [a|e]; [apply F, K2|]. split; [reflexivity|exact K2].
Qed.
Lemma kin_map {A B} (f : A -> B) (x x' : act A) : kin x x' -> kin (amap f x) (amap f x').
Proof. intros X s s' K. unfold amap. cbn [fst snd]. destruct (X s s' K) as (-> & K2). split; [reflexivity|exact K2]. Qed.
Lemma keep_krel d d' s s' : krel s s' -> rel d d' -> krel (keep_data d s) (keep_data d' s').
Proof. intros (L & D) R. split; [exact L|]. unfold keep_data. cbn [st_data]. destruct (st_data s), (st_data s'); tauto. Qed.
Lemma kin_rotate a : (forall d d', rel d d' -> rel (map (rotate_group a) d) (map (rotate_group a) d')) -> kin (rotate_data a) (rotate_data a).
Proof.
  intros H s s' (L & D). unfold rotate_data. cbn [fst snd]. split; [reflexivity|]. split; [exact L|]. cbn [st_data].
  destruct (st_data s), (st_data s'); cbn [option_map]; auto.
Qed.

Section OneSection.
Variables (h h' : compound).
Definition kin_forces : Prop := forall p d d' m, orel d d' -> outs (ig_forces ig h p d m) (ig_forces ig h' p d' m).
Definition kin_modulus : Prop := forall p d d' m, orel d d' -> outs (ig_modulus ig h p d m) (ig_modulus ig h' p d' m).
Hypothesis F : kin_forces.
Lemma kin_k p m : kin (forces_k ig h p m) (forces_k ig h' p m).
Proof.
  intros s s' K. unfold forces_k. pose proof (F p (st_data s) (st_data s') m (proj2 K)) as O. unfold outs in O.
  destruct (ig_forces ig h p (st_data s) m) as [[v d]|e], (ig_forces ig h' p (st_data s') m) as [[v' d']|e']; try contradiction.
  - destruct O as (-> & R). split; [reflexivity|]. apply keep_krel; assumption.
  - subst e'. split; [reflexivity|exact K].
Qed.
Lemma kin_n p m : kin (forces_n ig h p m) (forces_n ig h' p m).
Proof.
  intros s s' K. unfold forces_n. pose proof (F p (st_data s) (st_data s') m (proj2 K)) as O. unfold outs in O.
  destruct (ig_forces ig h p (st_data s) m) as [[v d]|e], (ig_forces ig h' p (st_data s') m) as [[v' d']|e']; try contradiction.
  - destruct O as (-> & R). split; [reflexivity|exact K].
  - subst e'. split; [reflexivity|exact K].
Qed.
Lemma kin_axial s s' p : krel s s' -> axial_fun ig h' s' p = axial_fun ig h s p.
Proof.
  intros K. unfold axial_fun. pose proof (F p (st_data s) (st_data s') None (proj2 K)) as O. unfold outs in O.
  destruct (ig_forces ig h p (st_data s) None) as [[v d]|e], (ig_forces ig h' p (st_data s') None) as [[v' d']|e']; try contradiction.
  - destruct O as (-> & R). reflexivity.
  - subst e'. reflexivity.
Qed.
Lemma kin_curvature n c e : kin (fixed_curvature ig h n c e) (fixed_curvature ig h' n c e).
Proof.
  unfold fixed_curvature. apply kin_bind; [apply kin_k|]. intros x s s' K. cbn [fst snd].
  assert (E : (fun u => axial_fun ig h' s' (u, c, 0)) = (fun u => axial_fun ig h s (u, c, 0))) by (apply functional_extensionality; intros u; apply kin_axial, K).
  rewrite E. split; [reflexivity|exact K].
Qed.
Lemma kin_points n chis : forall e, kin (curvature_points ig h n chis e) (curvature_points ig h' n chis e).
Proof.
  induction chis as [|c cs IH]; intros e; [apply kin_ret|]. cbn [curvature_points]. apply kin_bind; [apply kin_curvature|]. intros p.
  apply kin_bind; [apply kin_n|]. intros x. apply kin_bind; [apply IH|]. intros y. apply kin_ret.
Qed.
Lemma kin_all m ps : kin (integrate_all ig m h ps) (integrate_all ig m h' ps).
Proof.
  induction ps as [|p ps IH]; [apply kin_ret|]. cbn [integrate_all]. apply kin_bind; [apply kin_k|]. intros x. apply kin_bind; [exact IH|]. intros y. apply kin_ret.
Qed.
Variable t : traits.
Hypothesis B : forall y, balanced (tr_rc t) y (items_of t h') = balanced (tr_rc t) y (items_of t h).
Lemma kin_pivot ms n y : kin (fixed_pivot ig t ms h n y) (fixed_pivot ig t ms h' n y).
Proof.
  unfold fixed_pivot. rewrite B. apply kin_bind; [apply kin_lift; reflexivity|]. intros [[yn yp] p]. apply kin_bind; [apply kin_k|]. intros x s s' K. cbn [fst snd].
  assert (E : (fun e c => axial_fun ig h' s' (e, c, 0)) = (fun e c => axial_fun ig h s (e, c, 0))) by (apply functional_extensionality; intros e; apply functional_extensionality; intros c; apply kin_axial, K).
  rewrite E. split; [reflexivity|exact K].
Qed.
Lemma kin_load ms : kin (limit_load ig t ms h) (limit_load ig t ms h').
Proof.
  unfold limit_load. rewrite B. apply kin_bind; [apply kin_lift; reflexivity|]. intros [[yn yp] p] s s' K.
  set (q1 := (p_e0 p + p_ky p * yn, 0, 0)). set (q2 := (p_e0 p + p_ky p * yp, 0, 0)).
  pose proof (F q1 (st_data s) (st_data s') (Some ms) (proj2 K)) as O. unfold outs in O.
  destruct (ig_forces ig h q1 (st_data s) (Some ms)) as [[v d]|e], (ig_forces ig h' q1 (st_data s') (Some ms)) as [[v' d']|e']; try contradiction.
  - destruct O as (-> & R). pose proof (F q2 (Some d) (Some d') None R) as O2. unfold outs in O2.
    destruct (ig_forces ig h q2 (Some d) None) as [[w d2]|e], (ig_forces ig h' q2 (Some d') None) as [[w' d2']|e']; try contradiction.
    + destruct O2 as (-> & R2). split; [reflexivity|]. apply keep_krel; assumption.
    + subst e'. split; [reflexivity|exact K].
  - subst e'. split; [reflexivity|exact K].
Qed.
Lemma kin_limits ms : kin (limits ig t ms h) (limits ig t ms h').
Proof.
  intros s s' K. unfold limits. rewrite (proj1 K). destruct (st_lim s) as [l|] eqn:L; [split; [reflexivity|exact K]|].
  destruct (kin_load ms s s' K) as (E & K2). destruct (limit_load ig t ms h s) as [r u], (limit_load ig t ms h' s') as [r' u']. cbn [fst snd] in E, K2. subst r'.
  destruct r as [x|e]; cbn [fst snd]; (split; [reflexivity|]); [split; [reflexivity|apply K2]|exact K2].
Qed.
Lemma kin_check ms n : kin (check_axial ig t ms h n) (check_axial ig t ms h' n).
Proof. unfold check_axial. apply kin_bind; [apply kin_limits|]. intros l. destruct (_ || _)%bool; [apply kin_fail|apply kin_ret]. Qed.
Hypothesis M : kin_modulus.
Lemma kin_newton ms loads tol mx K0 : forall fuel num strain, kin (newton_loop fuel ig ms h loads tol K0 num mx strain) (newton_loop fuel ig ms h' loads tol K0 num mx strain).
Proof.
  induction fuel as [|k IH]; intros num strain; cbn [newton_loop].
  - destruct (_ <=? _)%nat; [apply kin_fail|apply kin_ret].
  - apply kin_bind; [apply kin_k|]. intros x. apply kin_bind.
    + destruct K0; [apply kin_ret|]. intros s s' K. pose proof (M strain (st_data s) (st_data s') None (proj2 K)) as O. unfold outs in O.
      destruct (ig_modulus ig h strain (st_data s) None) as [[v d]|e], (ig_modulus ig h' strain (st_data s') None) as [[v' d']|e']; try contradiction.
      * destruct O as (-> & R). split; [reflexivity|exact K].
      * subst e'. split; [reflexivity|exact K].
    + intros Q. apply kin_bind; [apply kin_lift; reflexivity|]. intros d. cbv zeta. destruct (Rltb _ _); [|apply IH].
      destruct (_ <=? _)%nat; [apply kin_fail|apply kin_ret].
Qed.
Lemma kin_strain ms loads i mx tol : kin (strain_profile ig ms h loads i mx tol) (strain_profile ig ms h' loads i mx tol).
Proof.
  intros s s' K. unfold strain_profile. pose proof (M (0, 0, 0) (st_data s) (st_data s') None (proj2 K)) as O. unfold outs in O.
  destruct (ig_modulus ig h (0, 0, 0) (st_data s) None) as [[v d]|e], (ig_modulus ig h' (0, 0, 0) (st_data s') None) as [[v' d']|e']; try contradiction.
  - destruct O as (-> & R). apply kin_newton. apply keep_krel; assumption.
  - subst e'. split; [reflexivity|exact K].
Qed.
Lemma kin_tangent ms p : kin (integrate_modulus ig ms h p) (integrate_modulus ig ms h' p).
Proof.
  intros s s' K. unfold integrate_modulus. pose proof (M p (st_data s) (st_data s') (Some ms) (proj2 K)) as O. unfold outs in O.
  destruct (ig_modulus ig h p (st_data s) (Some ms)) as [[v d]|e], (ig_modulus ig h' p (st_data s') (Some ms)) as [[v' d']|e']; try contradiction.
  - destruct O as (-> & R). split; [reflexivity|]. apply keep_krel; assumption.
  - subst e'. split; [reflexivity|exact K].
Qed.
End OneSection.

Variables (t : traits) (ms : R) (g g' : compound).
Hypothesis RR : forall a d d', rel d d' -> rel (map (rotate_group a) d) (map (rotate_group a) d').
Hypothesis F0 : kin_forces g g'.
Hypothesis F : forall a, kin_forces (rotate_geo a g) (rotate_geo a g').
Hypothesis M : kin_modulus g g'.
Hypothesis B0 : forall y, balanced (tr_rc t) y (items_of t g') = balanced (tr_rc t) y (items_of t g).
Hypothesis B : forall a y, balanced (tr_rc t) y (items_of t (rotate_geo a g')) = balanced (tr_rc t) y (items_of t (rotate_geo a g)).
Hypothesis Y : forall a, min_y (rotate_geo a g') = min_y (rotate_geo a g).
Lemma kin_strength theta n : kin (bending_strength ig t ms g theta n) (bending_strength ig t ms g' theta n).
Proof.
  unfold bending_strength. apply kin_bind; [apply kin_check; assumption|]. intros []. cbv zeta. apply kin_bind; [apply kin_rotate, RR|]. intros [].
  apply kin_bind; [apply kin_pivot; [apply F|apply B]|]. intros p. apply kin_bind; [apply kin_n, F|]. intros [[N My] Mz].
  apply kin_bind; [apply kin_rotate, RR|]. intros []. apply kin_ret.
Qed.
Lemma kin_moment theta n cf x y l : kin (moment_curvature ig t ms g theta n cf x y l) (moment_curvature ig t ms g' theta n cf x y l).
Proof.
  unfold moment_curvature. apply kin_bind; [apply kin_check; assumption|]. intros []. cbv zeta. apply kin_bind; [apply kin_rotate, RR|]. intros []. apply kin_bind.
  - destruct l; [apply kin_ret|]. apply kin_bind; [apply kin_pivot; [apply F|apply B]|]. intros su. apply kin_bind; [apply kin_pivot; [apply F|apply B]|]. intros sy. apply kin_lift. reflexivity.
  - intros chis. apply kin_bind; [apply kin_points, F|]. intros pts. apply kin_bind; [apply kin_rotate, RR|]. intros []. apply kin_ret.
Qed.
Lemma kin_ultimate theta f : ultimate_profiles t g' theta f = ultimate_profiles t g theta f.
Proof. unfold ultimate_profiles. cbv zeta. rewrite !B, Y. reflexivity. Qed.
Lemma kin_nm theta f c : kin (nm_domain ig t ms g theta f c) (nm_domain ig t ms g' theta f c).
Proof.
  unfold nm_domain. rewrite !kin_ultimate. apply kin_bind; [apply kin_lift; reflexivity|]. intros u. apply kin_bind.
  - destruct c; [|apply kin_ret]. apply kin_bind; [apply kin_lift; reflexivity|]. intros v. apply kin_ret.
  - intros v. apply kin_bind; [apply kin_all, F0|]. intros x. apply kin_ret.
Qed.
Lemma kin_profiles f : forall thetas last, all_profiles t g' f thetas last = all_profiles t g f thetas last.
Proof.
  induction thetas as [|th rest IH]; intros last; [reflexivity|]. cbn [all_profiles]. rewrite kin_ultimate. destruct (ultimate_profiles t g th f); cbn [bind]; [|reflexivity]. rewrite IH. reflexivity.
Qed.
Lemma kin_nmm k f : kin (nmm_domain ig t g k f) (nmm_domain ig t g' k f).
Proof.
  unfold nmm_domain. rewrite kin_profiles. apply kin_bind; [apply kin_lift; reflexivity|]. intros u. apply kin_bind; [apply kin_all, F0|]. intros x.
  destruct (snd u); [apply kin_ret|apply kin_fail].
Qed.
Lemma kin_strengths n : forall thetas, kin (strengths ig t ms g n thetas) (strengths ig t ms g' n thetas).
Proof.
  induction thetas as [|th rest IH]; [apply kin_ret|]. cbn [strengths]. apply kin_bind; [apply kin_strength|]. intros r. apply kin_bind; [exact IH|]. intros q. apply kin_ret.
Qed.
Lemma kin_run o : kin (run ig t ms g o) (run ig t ms g' o).
Proof.
  destruct o as [p|p| |th n|th n c a b l|th f c|n k|k f|l i k e|n c e]; cbn [run]; apply kin_map.
  - apply kin_k, F0.
  - apply kin_tangent, M.
  - apply kin_limits; assumption.
  - apply kin_strength.
  - apply kin_moment.
  - apply kin_nm.
  - unfold mm_domain. apply kin_bind; [apply kin_strengths|]. intros l. apply kin_ret.
  - apply kin_nmm.
  - apply kin_strain; assumption.
  - apply kin_curvature, F0.
Qed.
(** Hence along any history. *)
Lemma kin_init : krel st_init st_init.
Proof. split; [reflexivity|exact Logic.I]. Qed.
Lemma kin_history : forall ops s, history ig t ms g ops s -> exists s', history ig t ms g' ops s' /\ krel s s'.
Proof.
  intros ops s H. induction H as [|ops s o a u H IH E|ops s o e u H IH E U].
  - exists st_init. split; [constructor|apply kin_init].
  - destruct IH as (s' & H' & K). destruct (kin_run o s s' K) as (E' & K2). rewrite E in E', K2. cbn [fst snd] in E', K2.
    exists (snd (run ig t ms g' o s')). split; [|exact K2]. apply (h_next ig t ms g' ops s' o a); [exact H'|]. rewrite <- E'. apply surjective_pairing.
  - destruct IH as (s' & H' & K). destruct (kin_run o s s' K) as (E' & K2). rewrite E in E', K2. cbn [fst snd] in E', K2.
    exists (snd (run ig t ms g' o s')). split; [|exact K2]. apply (h_raised ig t ms g' ops s' o e); [exact H'| |exact U]. rewrite <- E'. apply surjective_pairing.
Qed.
End Kin.
(** The state after a history is determined by the analyses. *)
Lemma history_unique ig t ms g : forall ops s, history ig t ms g ops s -> forall u, history ig t ms g ops u -> u = s.
Proof.
  intros ops s H. induction H as [|ops s o a s' H IH E|ops s o e s' H IH E U]; intros u G.
  - inversion G as [|ops' ? ? ? ? ? ? X|ops' ? ? ? ? ? ? ? X]; [reflexivity|destruct ops'; discriminate|destruct ops'; discriminate].
  - inversion G as [X|ops' s0 o0 a0 ? G0 E0 X|ops' s0 o0 a0 ? G0 E0 ? X]; [destruct ops; discriminate|apply app_inj_tail in X as (-> & ->)..]; apply IH in G0; subst s0; rewrite E in E0; congruence.
  - inversion G as [X|ops' s0 o0 a0 ? G0 E0 X|ops' s0 o0 a0 ? G0 E0 ? X]; [destruct ops; discriminate|apply app_inj_tail in X as (-> & ->)..]; apply IH in G0; subst s0; rewrite E in E0; congruence.
Qed.
