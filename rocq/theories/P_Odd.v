(** C65: materials equal in tension and compression. *)
From Coq Require Import Lra Lia.
From Verif Require Import Base L_Section4 L_Exact P_Exact M_Marin S_Marin L_Marin M_Laws S_Laws L_Laws L_LawsC M_Laws2 S_Laws2 L_Laws2 M_Fiber S_Fiber L_Fiber M_MarinInt L_MarinInt2 L_MarinInt3 M_Section S_Section L_Section M_Domain S_History L_History
  P_Fiber P_MarinInt P_Section S_Frame S_MarinInt S_Exact S_Turn L_Turn2 L_Turn3 S_Move L_Move5 L_Section4 S_Odd L_Odd L_Odd2 P_Unique3.

(** * The materials *)
Lemma elastic_two_sided l : two_sided (elastic_law l) /\ two_sided_uniform (elastic_law l).
Proof.
  split; intros e.
  - cbn. unfold elastic_stress, elastic_tangent. split; [ring|reflexivity].
  - split.
    + exists e, [el_E l * e; el_E l * 0]. cbn [elastic_law lw_marin]. unfold elastic_marin. cbn [fst snd map]. split; [reflexivity|]. repeat f_equal; ring.
    + exists e, [el_E l]. cbn [elastic_law lw_marin_tangent]. unfold elastic_marin_tangent. cbn [fst snd]. split; reflexivity.
Qed.
Lemma ep_two_sided l : ep_wf l -> tol (snd (ep_ult l)) < snd (ep_ult l) -> two_sided (ep_law l) /\ two_sided_uniform (ep_law l).
Proof.
  intros W Ht. assert (Hsy := ep_sy_pos l W).
  assert (PO : forall e, prep (ep_ult l) (- e) = - prep (ep_ult l) e) by (intros e; rewrite (ep_ult_sym l); apply prep_odd; exact Ht).
  assert (SU : ep_sy l <= snd (ep_ult l)) by (destruct W as (_ & _ & _ & _ & Hu); unfold ep_ult; destruct (ep_su l); cbn [snd]; lra).
  split; intros e.
  - split; [exact (ep_odd l e W Ht)|]. cbn [ep_law lw_tangent]. unfold ep_tangent. destruct (ep_su l) as [u|]; rsplit.
  - cbn [ep_law lw_marin lw_marin_tangent]. unfold ep_marin, ep_marin_tangent, ep_yield. rewrite (ep_ult_sym l). set (u := snd (ep_ult l)) in *.
    replace (- u, u) with (ep_ult l) by (rewrite (ep_ult_sym l); reflexivity).
    rewrite (PO e). set (x := prep (ep_ult l) e) in *. rewrite !Rabs_Ropp.
    destruct (Reqb_spec 0 0) as [_|N]; [|destruct (N eq_refl)]. split.
    + destruct (Rltb_spec (ep_sy l) x); destruct (Rleb_spec x u); destruct (Rltb_spec x (- ep_sy l)); destruct (Rleb_spec (- u) x);
      destruct (Rltb_spec (ep_sy l) (- x)); destruct (Rleb_spec (- x) u); destruct (Rltb_spec (- x) (- ep_sy l)); destruct (Rleb_spec (- u) (- x)); try lra; cbn [andb];
      try (destruct (Rleb_spec (Rabs x) (ep_sy l)));
      (eexists; eexists; split; [reflexivity|]; cbn [map]; repeat f_equal; try ring).
    + destruct (Rltb_spec (ep_sy l) x); destruct (Rleb_spec x u); destruct (Rltb_spec x (- ep_sy l)); destruct (Rleb_spec (- u) x);
      destruct (Rltb_spec (ep_sy l) (- x)); destruct (Rleb_spec (- x) u); destruct (Rltb_spec (- x) (- ep_sy l)); destruct (Rleb_spec (- u) (- x)); try lra; cbn [andb];
      try (destruct (Rleb_spec (Rabs x) (ep_sy l)));
      (eexists; eexists; split; [reflexivity|]; reflexivity).
Qed.
(** Elastic materials, and elastic-plastic ones whose ultimate strain is wider than the
    tolerance of the limits, act the same in tension and compression. *)
Theorem C65_laws :
  (forall l, two_sided (elastic_law l) /\ two_sided_uniform (elastic_law l)) /\
  (forall E fy Eh su l, ep_init E fy Eh su = Ok l -> 0 < fy -> 0 <= Eh -> (forall u, su = Some u -> fy / E <= u) ->
     (let u := match su with Some u => u | None => 2 * (fy / E) end in / 1000000 + / 100000 * u < u) ->
     two_sided (ep_law l) /\ two_sided_uniform (ep_law l)).
Proof.
  split; [exact elastic_two_sided|]. intros E fy Eh su l H F HH HU HT. apply ep_two_sided; [exact (ep_init_wf _ _ _ _ _ H F HH HU)|].
  apply ep_init_inv in H as [HE ->]. assert (0 < fy / E) by (apply Rdiv_lt_0_compat; assumption).
  unfold ep_ult, tol. cbn [ep_su ep_sy]. destruct su as [u|]; cbn [snd]; cbv zeta in HT.
  - specialize (HU u eq_refl). rewrite Rabs_pos_eq by lra. lra.
  - rewrite Rabs_pos_eq by lra. lra.
Qed.
Print Assumptions C65_laws.

(** * Any integrator *)
Section Generic.
Variables (ig : integ) (t : traits) (ms : R) (g : compound) (D : list group) (ops : list op) (s : sstate).
Hypothesis CO : coherent ig g (Some ms) D.
Hypothesis M : forall o, In o ops -> meshed o \/ coherent ig g None D.
Hypothesis H : history ig t ms g ops s.
Hypothesis PF : forall p m, rmap fst (ig_forces ig g (opposite p) (Some D) m) = rmap opposite (rmap fst (ig_forces ig g p (Some D) m)).
Let SR := history_srel ig t ms g D CO ops s M H.
Lemma odd_forces p : fst (integrate_profile ig ms g (opposite p) s) = rmap opposite (fst (integrate_profile ig ms g p s)).
Proof.
  unfold integrate_profile.
  rewrite (proj1 (forces_k_start ig t ms g D CO _ p CO _ _ SR)), (proj1 (forces_k_start ig t ms g D CO _ (opposite p) CO _ _ SR)).
  apply (twin_opp ig ms g D CO PF p (Some ms)). split; (eexists; split; [reflexivity|apply eqd_refl]).
Qed.
Lemma odd_limits u lo hi : 0 <= u -> (forall k y, tr_ult t k y = (- u, u)) -> (forall x, In x (cg_surf g) -> sf_ext x <> []) ->
  fst (limits ig t ms g s) = Ok (lo, hi) -> lo = - hi.
Proof.
  intros U TR NE. rewrite (proj1 (limits_good ig t ms g D CO _ _ SR)). intros E.
  destruct (balanced (tr_rc t) false (items_of t g)) as [[[yn yp] b]|e] eqn:BA.
  2:{ revert E. unfold limits, limit_load, abind, alift. cbn [st_lim]. rewrite BA. cbn. discriminate. }
  destruct (P_Section.C27_attained t g false yn yp b ltac:(intros k y; rewrite TR; cbn [fst snd]; lra) NE BA) as (A & B).
  apply (opp_limits ig t ms g D CO PF u yn yp b BA).
  - destruct B as [(x & v & _ & _ & _ & Q)|(x & _ & _ & Q)]; rewrite TR in Q; exact Q.
  - destruct A as [(x & v & _ & _ & _ & Q)|(x & _ & _ & Q)]; rewrite TR in Q; exact Q.
  - exact E.
Qed.
Hypothesis PK : forall p m, match ig_modulus ig g p (Some D) m, ig_modulus ig g (opposite p) (Some D) m with
  | Ok (K, _), Ok (K', _) => eq3 K' K | Err e, Err e' => e = e' | _, _ => False end.
Lemma odd_tangent p : match fst (integrate_modulus ig ms g p s), fst (integrate_modulus ig ms g (opposite p) s) with
  | Ok K, Ok K' => eq3 K' K | Err e, Err e' => e = e' | _, _ => False end.
Proof.
  rewrite (proj1 (modulus_good ig t ms g D CO p _ _ SR)), (proj1 (modulus_good ig t ms g D CO (opposite p) _ _ SR)).
  unfold integrate_modulus. cbn [st_data]. pose proof (PK p (Some ms)) as P.
  destruct (ig_modulus ig g p (Some D) (Some ms)) as [[K d]|e], (ig_modulus ig g (opposite p) (Some D) (Some ms)) as [[K' d']|e']; exact P.
Qed.
Lemma odd_strain loads i mx tol : coherent ig g None D ->
  fst (strain_profile ig ms g (opposite loads) i mx tol s) = rmap opposite (fst (strain_profile ig ms g loads i mx tol s)).
Proof.
  intros CN. rewrite (proj1 (strain_good ig t ms g D CO loads i mx tol CN _ _ SR)), (proj1 (strain_good ig t ms g D CO (opposite loads) i mx tol CN _ _ SR)).
  eapply opp_strain; eassumption.
Qed.
End Generic.

(** * The exact integrator *)
(** When every material is the same in tension and compression, opposite strain profiles
    give opposite forces and the same stiffness, opposite forces need opposite strain
    profiles, and with one ultimate strain for all materials the section carries as much
    axial compression as tension, after any calls. *)
Theorem C65_marin : forall laws fs ts t ms g ops s,
  (forall k, batched (laws k)) -> (forall k, two_sided (laws k)) -> drawn g -> (forall x, In x (cg_surf g) -> two_sided_uniform (laws (sf_law x))) ->
  follows laws fs g -> (forall x, In x (cg_surf g) -> odd_curve (fs (sf_law x))) ->
  let ig := marin_integ laws in
  history ig t ms g ops s ->
  (forall p, fst (integrate_profile ig ms g (opposite p) s) = rmap opposite (fst (integrate_profile ig ms g p s))) /\
  (forall u lo hi, 0 <= u -> (forall k y, tr_ult t k y = (- u, u)) -> (forall x, In x (cg_surf g) -> sf_ext x <> []) -> fst (limits ig t ms g s) = Ok (lo, hi) -> lo = - hi) /\
  (follows_tangent laws ts g -> (forall x, In x (cg_surf g) -> even_curve (ts (sf_law x))) ->
   (forall p, match fst (integrate_modulus ig ms g p s), fst (integrate_modulus ig ms g (opposite p) s) with
      | Ok K, Ok K' => forall i j, (i < 3)%nat -> (j < 3)%nat -> K' i j = K i j | Err e, Err e' => e = e' | _, _ => False end) /\
   (forall loads initial max_iter tol,
      fst (strain_profile ig ms g (opposite loads) initial max_iter tol s) = rmap opposite (fst (strain_profile ig ms g loads initial max_iter tol s)))).
Proof.
  intros laws fs ts t ms g ops s B T DR U FO OD ig H.
  pose proof (marin_coherent laws g (Some ms) B) as CO. pose proof (marin_coherent laws g None B) as CN. fold ig in CO, CN. set (D := map unscalar (bar_groups (cg_bars g))) in *.
  assert (M : forall o, In o ops -> meshed o \/ coherent ig g None D) by (intros o _; right; exact CN).
  assert (PF : forall p m, rmap fst (ig_forces ig g (opposite p) (Some D) m) = rmap opposite (rmap fst (ig_forces ig g p (Some D) m))).
  { intros p m. rewrite (co_forces _ _ _ _ CN g (opposite p) D D m None (eqd_refl D)), (co_forces _ _ _ _ CN g p D D m None (eqd_refl D)).
    rewrite <- (co_fresh _ _ _ _ CN), <- (co_fresh _ _ _ _ CN). exact (marin_opposite laws fs g B T DR U FO OD p). }
  split; [exact (odd_forces ig t ms g D ops s CO M H PF)|]. split.
  { intros u lo hi U0 TR NE. exact (odd_limits ig t ms g D ops s CO M H PF u lo hi U0 TR NE). }
  intros FT EV.
  assert (PK : forall p m, match ig_modulus ig g p (Some D) m, ig_modulus ig g (opposite p) (Some D) m with
    | Ok (K, _), Ok (K', _) => eq3 K' K | Err e, Err e' => e = e' | _, _ => False end).
  { intros p m. pose proof (marin_same laws ts g B T DR U FT EV p) as Q.
    change (marin_stiffness laws g p None) with (ig_modulus ig g p None None) in Q. change (marin_stiffness laws g (opposite p) None) with (ig_modulus ig g (opposite p) None None) in Q.
    rewrite !(co_mfresh _ _ _ _ CN) in Q.
    rewrite <- (co_modulus _ _ _ _ CN g p D D m None (eqd_refl D)), <- (co_modulus _ _ _ _ CN g (opposite p) D D m None (eqd_refl D)) in Q.
    destruct (ig_modulus ig g p (Some D) m) as [[K d]|e], (ig_modulus ig g (opposite p) (Some D) m) as [[K' d']|e']; exact Q. }
  split.
  - exact (odd_tangent ig t ms g D ops s CO M H PK).
  - intros loads i mx tol. exact (odd_strain ig t ms g D ops s CO M H PF PK loads i mx tol CN).
Qed.
Print Assumptions C65_marin.

(** * The fibre integrator *)
Theorem C65_fiber : forall laws mesher t ms g ops s,
  (forall k, batched (laws k)) -> (forall k, two_sided (laws k)) -> 0 < ms <= 1 -> (forall o, In o ops -> meshed o) ->
  let ig := fiber_integ laws mesher in
  history ig t ms g ops s ->
  (forall p, fst (integrate_profile ig ms g (opposite p) s) = rmap opposite (fst (integrate_profile ig ms g p s))) /\
  (forall u lo hi, 0 <= u -> (forall k y, tr_ult t k y = (- u, u)) -> (forall x, In x (cg_surf g) -> sf_ext x <> []) -> fst (limits ig t ms g s) = Ok (lo, hi) -> lo = - hi) /\
  (forall p, match fst (integrate_modulus ig ms g p s), fst (integrate_modulus ig ms g (opposite p) s) with
     | Ok K, Ok K' => forall i j, (i < 3)%nat -> (j < 3)%nat -> K' i j = K i j | Err e, Err e' => e = e' | _, _ => False end).
Proof.
  intros laws mesher t ms g ops s B T MS HO ig H. destruct (triangulate_ok mesher g ms MS) as (D & TR). pose proof (fiber_coherent laws mesher g ms D B TR) as CO. fold ig in CO.
  assert (M : forall o, In o ops -> meshed o \/ coherent ig g None D) by (intros o I; left; exact (HO o I)).
  assert (PF : forall p m, rmap fst (ig_forces ig g (opposite p) (Some D) m) = rmap opposite (rmap fst (ig_forces ig g p (Some D) m))) by (intros p m; exact (fiber_opposite laws mesher B T g p D m)).
  assert (PK : forall p m, match ig_modulus ig g p (Some D) m, ig_modulus ig g (opposite p) (Some D) m with
    | Ok (K, _), Ok (K', _) => eq3 K' K | Err e, Err e' => e = e' | _, _ => False end) by (intros p m; exact (fiber_same laws mesher B T g p D m)).
  split; [exact (odd_forces ig t ms g D ops s CO M H PF)|]. split.
  - intros u lo hi U0 UL NE. exact (odd_limits ig t ms g D ops s CO M H PF u lo hi U0 UL NE).
  - exact (odd_tangent ig t ms g D ops s CO M H PK).
Qed.
Print Assumptions C65_fiber.
(** Strain profiles under given forces, with the default mesh. *)
Theorem C65_fiber_strain : forall laws mesher t g ops s loads initial max_iter tol,
  (forall k, batched (laws k)) -> (forall k, two_sided (laws k)) ->
  let ig := fiber_integ laws mesher in
  history ig t (1/100) g ops s ->
  fst (strain_profile ig (1/100) g (opposite loads) initial max_iter tol s) = rmap opposite (fst (strain_profile ig (1/100) g loads initial max_iter tol s)).
Proof.
  intros laws mesher t g ops s loads i mx tol B T ig H. destruct (triangulate_ok mesher g (1/100) ltac:(lra)) as (D & TR). pose proof (fiber_coherent laws mesher g (1/100) D B TR) as CO.
  pose proof (fiber_coherent_none _ _ _ _ CO) as CN. fold ig in CO, CN.
  apply (odd_strain ig t (1/100) g D ops s CO); [intros o _; right; exact CN|exact H| | |exact CN].
  - intros p m; exact (fiber_opposite laws mesher B T g p D m).
  - intros p m; exact (fiber_same laws mesher B T g p D m).
Qed.
Print Assumptions C65_fiber_strain.

(** * Examples *)
Example C65_laws_example : exists l, ep_init 200000 400 2000 (Some (5/100)) = Ok l /\ two_sided (ep_law l) /\ two_sided_uniform (ep_law l) /\
  lw_stress (ep_law l) (-1) = 0 /\ lw_stress (ep_law l) (-1/1000) = -200.
Proof.
  destruct (ep_init 200000 400 2000 (Some (5/100))) as [l|e] eqn:E; [|unfold ep_init in E; revert E; destruct (Rltb_spec 0 200000); [discriminate|lra]].
  exists l. split; [reflexivity|].
  destruct (proj2 C65_laws 200000 400 2000 (Some (5/100)) l E ltac:(lra) ltac:(lra) ltac:(intros u [= <-]; lra) ltac:(cbv zeta; lra)) as (A & B).
  split; [exact A|]. split; [exact B|].
  assert (W : ep_wf l) by (apply (ep_init_wf _ _ _ _ _ E); [lra|lra|intros u [= <-]; lra]).
  apply ep_init_inv in E as (_ & El). split.
  - cbn [ep_law lw_stress]. apply (ep_beyond l (5/100)); [rewrite El; reflexivity| | |]; unfold far, tol; rewrite ?Rabs_Ropp; unfold Rabs; repeat destruct Rcase_abs; lra.
  - cbn [ep_law lw_stress]. rewrite (ep_elastic_range l (-1/1000) W).
    + rewrite El. cbn [ep_E]. lra.
    + unfold settled. rewrite El. unfold ep_ult. cbn [ep_su fst snd]. unfold far, tol. repeat split; unfold Rabs; repeat destruct Rcase_abs; lra.
    + rewrite El. cbn [ep_sy]. unfold Rabs; repeat destruct Rcase_abs; lra.
Qed.
(** The elastic plate. *)
Example C65_marin_example s : history (marin_integ (stiff_laws 1000)) (sym_traits (1/1000)) (1/10) plate [] s -> forall p,
  fst (integrate_profile (marin_integ (stiff_laws 1000)) (1/10) plate (opposite p) s) = rmap opposite (fst (integrate_profile (marin_integ (stiff_laws 1000)) (1/10) plate p s)) /\
  exists lo hi, fst (limits (marin_integ (stiff_laws 1000)) (sym_traits (1/1000)) (1/10) plate st_init) = Ok (lo, hi) /\ lo = - hi /\ hi = 2.
Proof.
  intros H p. assert (T : forall k, two_sided (stiff_laws 1000 k)) by (intros k; apply elastic_two_sided).
  assert (U : forall x, In x (cg_surf plate) -> two_sided_uniform (stiff_laws 1000 (sf_law x))) by (intros x _; apply elastic_two_sided).
  assert (OD : forall x, In x (cg_surf plate) -> odd_curve (hooke (sf_law x))) by (intros x _ e; unfold hooke; ring).
  destruct (C65_marin (stiff_laws 1000) hooke hooke (sym_traits (1/1000)) (1/10) plate [] s (stiff_batched 1000) T plate_drawn U plate_follows OD H) as (A & _).
  destruct (C65_marin (stiff_laws 1000) hooke hooke (sym_traits (1/1000)) (1/10) plate [] st_init (stiff_batched 1000) T plate_drawn U plate_follows OD (h_new _ _ _ _)) as (_ & B & _).
  split; [exact (A p)|]. destruct plate_limits as (s1 & L). exists (-2), 2. rewrite L. split; [reflexivity|]. split; [|reflexivity].
  apply (B (1/1000) (-2) 2); [lra|reflexivity| |rewrite L; reflexivity]. intros x I. cbn in I. destruct I as [<-|[]]. discriminate.
Qed.
(** Three bars under a load and its opposite, with the fibre integrator. *)
Example C65_fiber_example : exists e0 ky kz,
  fst (strain_profile (fiber_integ ex_laws ex_mesher) (1/100) P_Section.three_bars (1, 2, 3) false 10 (1/1000) st_init) = Ok (e0, ky, kz) /\
  fst (strain_profile (fiber_integ ex_laws ex_mesher) (1/100) P_Section.three_bars (-1, -2, -3) false 10 (1/1000) st_init) = Ok (- e0, - ky, - kz) /\
  axial (section_fibres ex_laws (fun x => ex_mesher x (surface_area x * (1/100))) P_Section.three_bars) e0 ky kz = 1.
Proof.
  destruct C26_example as (e0 & ky & kz & s' & E & A). exists e0, ky, kz. rewrite E. split; [reflexivity|]. split; [|exact A].
  pose proof (C65_fiber_strain ex_laws ex_mesher (sym_traits 1) P_Section.three_bars [] st_init (1, 2, 3) false 10 (1/1000)
    (fun k => elastic_batched _) (fun k => proj1 (elastic_two_sided _)) (h_new _ _ _ _)) as Q.
  rewrite E in Q. cbn [fst rmap] in Q. unfold opposite in Q. cbn [fst snd] in Q. exact Q.
Qed.
