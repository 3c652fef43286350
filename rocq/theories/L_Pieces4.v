(** Lemmas for C59: two sections with the same integrals, balanced failures and lowest ordinates give the same analyses. *)
From Coq Require Import FunctionalExtensionality Lra Lia.
From Verif Require Import Base M_Laws M_Laws2 M_Fiber M_MarinInt M_Section M_Domain S_History.

Section OneSection.
Variables (ig : integ) (h h' : compound).
Hypothesis F : forall p d m, ig_forces ig h' p d m = ig_forces ig h p d m.
Lemma same_k p m : forces_k ig h' p m = forces_k ig h p m.
Proof. apply functional_extensionality. intros s. unfold forces_k. rewrite F. reflexivity. Qed.
Lemma same_n p m : forces_n ig h' p m = forces_n ig h p m.
Proof. apply functional_extensionality. intros s. unfold forces_n. rewrite F. reflexivity. Qed.
Lemma same_axial s p : axial_fun ig h' s p = axial_fun ig h s p.
Proof. unfold axial_fun. rewrite F. reflexivity. Qed.
Lemma same_bind {A B} (x x' : act A) (f f' : A -> act B) : x' = x -> (forall a, f' a = f a) -> abind x' f' = abind x f.
Proof. intros -> E. f_equal. apply functional_extensionality, E. Qed.
Lemma same_curvature n c e : fixed_curvature ig h' n c e = fixed_curvature ig h n c e.
Proof.
  unfold fixed_curvature. apply same_bind; [apply same_k|]. intros x. apply functional_extensionality. intros s.
  assert (E : (fun u => axial_fun ig h' s (u, c, 0)) = (fun u => axial_fun ig h s (u, c, 0))) by (apply functional_extensionality; intros u; apply same_axial).
  rewrite E. reflexivity.
Qed.
Lemma same_points n chis : forall e, curvature_points ig h' n chis e = curvature_points ig h n chis e.
Proof.
  induction chis as [|c cs IH]; intros e; [reflexivity|]. cbn [curvature_points]. apply same_bind; [apply same_curvature|]. intros p.
  apply same_bind; [apply same_n|]. intros x. apply same_bind; [apply IH|reflexivity].
Qed.
Lemma same_all m ps : integrate_all ig m h' ps = integrate_all ig m h ps.
Proof.
  induction ps as [|p ps IH]; [reflexivity|]. cbn [integrate_all]. apply same_bind; [apply same_k|]. intros x. apply same_bind; [exact IH|reflexivity].
Qed.
Variable t : traits.
Hypothesis B : forall y, balanced (tr_rc t) y (items_of t h') = balanced (tr_rc t) y (items_of t h).
Lemma same_pivot ms n y : fixed_pivot ig t ms h' n y = fixed_pivot ig t ms h n y.
Proof.
  unfold fixed_pivot. rewrite B. apply same_bind; [reflexivity|]. intros [[yn yp] p]. apply same_bind; [apply same_k|]. intros x.
  apply functional_extensionality. intros s.
  assert (E : (fun e c => axial_fun ig h' s (e, c, 0)) = (fun e c => axial_fun ig h s (e, c, 0))) by (apply functional_extensionality; intros e; apply functional_extensionality; intros c; apply same_axial).
  rewrite E. reflexivity.
Qed.
Lemma same_limits ms : limits ig t ms h' = limits ig t ms h.
Proof.
  apply functional_extensionality. intros s. unfold limits.
  assert (E : limit_load ig t ms h' = limit_load ig t ms h); [|rewrite E; reflexivity].
  unfold limit_load. rewrite B. apply same_bind; [reflexivity|]. intros [[yn yp] p]. apply functional_extensionality. intros u. rewrite F.
  destruct (ig_forces ig h _ (st_data u) (Some ms)) as [[F1 d]|]; [|reflexivity]. rewrite F. reflexivity.
Qed.
Lemma same_check ms n : check_axial ig t ms h' n = check_axial ig t ms h n.
Proof. unfold check_axial. rewrite same_limits. reflexivity. Qed.
Hypothesis K : forall p d m, ig_modulus ig h' p d m = ig_modulus ig h p d m.
Lemma same_newton ms loads tol mx K0 : forall fuel num strain, newton_loop fuel ig ms h' loads tol K0 num mx strain = newton_loop fuel ig ms h loads tol K0 num mx strain.
Proof.
  induction fuel as [|k IH]; intros num strain; [reflexivity|]. cbn [newton_loop]. apply same_bind; [apply same_k|]. intros x. apply same_bind.
  - destruct K0; [reflexivity|]. apply functional_extensionality. intros s. rewrite K. reflexivity.
  - intros M. apply same_bind; [reflexivity|]. intros d. destruct (Rltb _ _); [reflexivity|apply IH].
Qed.
End OneSection.
Section All.
Variables (ig : integ) (t : traits) (ms : R) (g g' : compound).
Hypothesis F0 : forall p d m, ig_forces ig g' p d m = ig_forces ig g p d m.
Hypothesis F : forall a p d m, ig_forces ig (rotate_geo a g') p d m = ig_forces ig (rotate_geo a g) p d m.
Hypothesis K : forall p d m, ig_modulus ig g' p d m = ig_modulus ig g p d m.
Hypothesis B0 : forall y, balanced (tr_rc t) y (items_of t g') = balanced (tr_rc t) y (items_of t g).
Hypothesis B : forall a y, balanced (tr_rc t) y (items_of t (rotate_geo a g')) = balanced (tr_rc t) y (items_of t (rotate_geo a g)).
Hypothesis Y : forall a, min_y (rotate_geo a g') = min_y (rotate_geo a g).
Lemma same_strength theta n : bending_strength ig t ms g' theta n = bending_strength ig t ms g theta n.
Proof.
  unfold bending_strength. apply same_bind; [apply same_check; assumption|]. intros []. apply same_bind; [reflexivity|]. intros [].
  apply same_bind; [apply same_pivot; [apply F|apply B]|]. intros p. apply same_bind; [apply same_n, F|]. intros [[N My] Mz]. reflexivity.
Qed.
Lemma same_moment theta n cf x y l : moment_curvature ig t ms g' theta n cf x y l = moment_curvature ig t ms g theta n cf x y l.
Proof.
  unfold moment_curvature. apply same_bind; [apply same_check; assumption|]. intros []. apply same_bind; [reflexivity|]. intros []. apply same_bind.
  - destruct l; [reflexivity|]. apply same_bind; [apply same_pivot; [apply F|apply B]|]. intros su. apply same_bind; [apply same_pivot; [apply F|apply B]|]. reflexivity.
  - intros chis. apply same_bind; [apply same_points, F|]. reflexivity.
Qed.
Lemma same_ultimate theta f : ultimate_profiles t g' theta f = ultimate_profiles t g theta f.
Proof. unfold ultimate_profiles. cbv zeta. rewrite !B, Y. reflexivity. Qed.
Lemma same_nm theta f c : nm_domain ig t ms g' theta f c = nm_domain ig t ms g theta f c.
Proof.
  unfold nm_domain. rewrite !same_ultimate. apply same_bind; [reflexivity|]. intros u. apply same_bind; [reflexivity|]. intros v. apply same_bind; [apply same_all, F0|]. reflexivity.
Qed.
Lemma same_profiles f : forall thetas last, all_profiles t g' f thetas last = all_profiles t g f thetas last.
Proof.
  induction thetas as [|th rest IH]; intros last; [reflexivity|]. cbn [all_profiles]. rewrite same_ultimate. destruct (ultimate_profiles t g th f); cbn [bind]; [|reflexivity]. rewrite IH. reflexivity.
Qed.
Lemma same_nmm k f : nmm_domain ig t g' k f = nmm_domain ig t g k f.
Proof.
  unfold nmm_domain. rewrite same_profiles. apply same_bind; [reflexivity|]. intros u. apply same_bind; [apply same_all, F0|]. reflexivity.
Qed.
Lemma same_strengths n : forall thetas, strengths ig t ms g' n thetas = strengths ig t ms g n thetas.
Proof.
  induction thetas as [|th rest IH]; [reflexivity|]. cbn [strengths]. apply same_bind; [apply same_strength|]. intros r. apply same_bind; [exact IH|reflexivity].
Qed.
Lemma same_strain loads i mx tol : strain_profile ig ms g' loads i mx tol = strain_profile ig ms g loads i mx tol.
Proof.
  apply functional_extensionality. intros s. unfold strain_profile. rewrite K. destruct (ig_modulus ig g _ _ _) as [[M d]|]; [|reflexivity]. rewrite (same_newton ig g g' F0 K). reflexivity.
Qed.
Lemma same_run o : run ig t ms g' o = run ig t ms g o.
Proof.
  destruct o as [p|p| |th n|th n c a b l|th f c|n k|k f|l i k e|n c e]; cbn [run].
  - unfold integrate_profile. rewrite (same_k ig g g' F0). reflexivity.
  - f_equal. apply functional_extensionality. intros s. unfold integrate_modulus. rewrite K. reflexivity.
  - rewrite (same_limits ig g g' F0 t B0). reflexivity.
  - rewrite same_strength. reflexivity.
  - rewrite same_moment. reflexivity.
  - rewrite same_nm. reflexivity.
  - unfold mm_domain. rewrite same_strengths. reflexivity.
  - rewrite same_nmm. reflexivity.
  - rewrite same_strain. reflexivity.
  - rewrite (same_curvature ig g g' F0). reflexivity.
Qed.
End All.
