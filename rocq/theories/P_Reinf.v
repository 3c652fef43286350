(** C18: reinforcement. *)
From Coq Require Import String.
From Coquelicot Require Import Coquelicot.
From Verif Require Import Base M_Laws S_Laws L_Laws L_LawsC M_Registry M_Reinf S_Reinf L_Reinf.
Open Scope R_scope.

(** Design values, for factors other than 0. *)
Theorem C18_design_values : forall c fyk Es ftk epsuk gs ge g e,
  factor gs (115/100) g -> factor ge (9/10) e -> g <> 0 -> e <> 0 ->
  let r := reinf_attrs c fyk Es ftk epsuk gs ge in
  (1 <= g -> rf_fyd r = Ok (Rabs fyk / g) /\ rf_ftd r = Ok (Rabs ftk / g)) /\
  (g < 1 -> rf_fyd r = Err ValueError /\ rf_ftd r = Err ValueError) /\
  (1 <= g -> e <= 1 -> rf_epsud r = Ok (design_ultimate c (Rabs epsuk) g e)) /\
  (1 <= g -> Es <> 0 -> rf_epsyd r = Ok (Rabs fyk / g / Rabs Es)).
Proof.
  intros c fyk Es ftk epsuk gs ge g e Hg He Ng Ne r.
  assert (Eg : gamma_s r = g).
  { unfold gamma_s, py_or. cbn. destruct gs; cbn in Hg; subst g; [destruct (Reqb_spec r0 0); [contradiction|reflexivity]|reflexivity]. }
  assert (Ee : gamma_eps r = e).
  { unfold gamma_eps, py_or. cbn. destruct ge; cbn in He; subst e; [destruct (Reqb_spec r0 0); [contradiction|reflexivity]|reflexivity]. }
  assert (P : forall x, Rltb (Rabs x) 0 = false).
  { intros x. destruct (Rltb_spec (Rabs x) 0); [|reflexivity]. pose proof (Rabs_pos x). lra. }
  unfold rf_epsyd, rf_fyd, rf_ftd, code_fyd. rewrite Eg. cbn [rf_fyk rf_ftk rf_Es rf_epsuk r reinf_attrs]. rewrite !P.
  split; [|split; [|split]].
  - intros H. destruct (Rltb_spec g 1); [lra|]. auto.
  - intros H. destruct (Rltb_spec g 1); [|lra]. auto.
  - intros H1 H2. unfold rf_epsud, code_eps_ud_2023, code_epsud. rewrite Eg, Ee. cbn [rf_cls rf_epsuk r reinf_attrs].
    rewrite P. destruct (Rltb_spec g 1); [lra|]. destruct (Rltb_spec 1 e); [lra|]. destruct c; reflexivity.
  - intros H1 H2. destruct (Rltb_spec g 1); [lra|]. cbn [bind]. destruct (Reqb_spec (Rabs Es) 0) as [Z|]; [|reflexivity].
    destruct (Rabs_no_R0 _ H2 Z).
Qed.
Print Assumptions C18_design_values.
(** Characteristic yield strain; without modulus both yield strains are refused. *)
Theorem C18_yield_strain : forall c fyk Es ftk epsuk gs ge, let r := reinf_attrs c fyk Es ftk epsuk gs ge in
  (forall y, rf_epsyk r = Ok y <-> Es <> 0 /\ y * Rabs Es = Rabs fyk) /\
  (Es = 0 -> rf_epsyk r = Err ZeroDivisionError /\ (forall y, rf_epsyd r <> Ok y)).
Proof.
  intros c fyk Es ftk epsuk gs ge r. split.
  - intros y. unfold rf_epsyk. cbn [rf_Es rf_fyk r reinf_attrs]. destruct (Reqb_spec (Rabs Es) 0) as [Z|Z].
    + split; [discriminate|]. intros (H & _). destruct (Rabs_no_R0 _ H Z).
    + assert (N : Es <> 0) by (intros ->; apply Z, Rabs_R0). split; [intros H; injection H as <-; split; [exact N|field; exact Z]|]. intros (_ & <-). f_equal. field. exact Z.
  - intros ->. unfold rf_epsyk, rf_epsyd. cbn [rf_Es rf_fyk r reinf_attrs]. rewrite Rabs_R0. destruct (Reqb_spec 0 0) as [_|N]; [|contradiction]. split; [reflexivity|]. intros y. destruct (rf_fyd _); discriminate.
Qed.
Print Assumptions C18_yield_strain.
(** Hardening law: slope Es up to the yield point, through both design points,
    straight between them, odd, and zero beyond the ultimate strain. *)
Theorem C18_design_curve : forall c fyk Es ftk epsuk gs ge r l y u fy ft,
  reinf_init c fyk Es ftk epsuk gs ge "elasticplastic" = Ok (r, l) ->
  rf_epsyd r = Ok y -> rf_epsud r = Ok u -> rf_fyd r = Ok fy -> rf_ftd r = Ok ft ->
  0 < fy <= ft -> y < u ->
  exists p, l = RPlastic p /\
   (forall e, Rabs e <= y -> settled (- u, u) e -> ep_stress p e = Rabs Es * e) /\
   (far u y -> ep_stress p y = fy) /\
   ep_stress p u = ft /\
   (forall e, y <= e <= u -> settled (- u, u) e -> ep_stress p e = fy + (ft - fy) * ((e - y) / (u - y))) /\
   (forall e, u < Rabs e -> far u e -> far (- u) e -> ep_stress p e = 0).
Proof.
  intros c fyk Es ftk epsuk gs ge r l y u fy ft H Hy Hu Hf Ht [F1 F2] Yu.
  apply rf_law_plastic in H as (ft' & fy' & u' & y' & p & Er & E1 & E2 & E3 & E4 & N & -> & I).
  assert (ft' = ft) by congruence. assert (fy' = fy) by congruence. assert (u' = u) by congruence. assert (y' = y) by congruence. subst ft' fy' u' y'.
  exists p. split; [reflexivity|].
  pose proof (rf_values _ _ _ _ _ _ _ _ Er) as (_ & VE & _).
  pose proof (ep_init_inv _ _ _ _ _ I) as [EP Ep].
  assert (Yv : y = fy / Rabs Es).
  { unfold rf_epsyd in Hy. rewrite Hf in Hy. cbn [bind] in Hy. rewrite VE in Hy.
    destruct (Reqb_spec (Rabs Es) 0); [lra|]. injection Hy as <-. reflexivity. }
  assert (Hh : 0 <= (ft - fy) / (u - y)) by (apply Rcomplements.Rdiv_le_0_compat; lra).
  assert (W : ep_wf p). { apply (ep_init_wf _ _ _ _ _ I F1 Hh). intros w [= <-]. rewrite <- Yv. lra. }
  assert (Hy0 : 0 < y) by (rewrite Yv; apply Rdiv_lt_0_compat; lra).
  assert (U : ep_ult p = (- u, u)) by (rewrite Ep; reflexivity).
  assert (Sy : ep_sy p = y) by (rewrite Ep, Yv; reflexivity).
  assert (Su : settled (ep_ult p) u) by (rewrite U; right; left; reflexivity).
  assert (Fy : ep_fy p = fy) by (rewrite Ep; reflexivity).
  assert (Eh : ep_Eh p = (ft - fy) / (u - y)) by (rewrite Ep; reflexivity).
  assert (EE : ep_E p = Rabs Es) by (rewrite Ep; reflexivity).
  assert (Lim : forall w e, ep_su p = Some w -> e <= u -> e <= w) by (intros w e Hw; rewrite Ep in Hw; injection Hw as <-; auto).
  assert (Pl : forall e, y <= e <= u -> settled (- u, u) e -> ep_stress p e = fy + (ft - fy) * ((e - y) / (u - y))).
  { intros e [A B] S0. rewrite ep_plastic_range; [|exact W|rewrite U; exact S0|lra|intros w Hw; exact (Lim w e Hw B)].
    rewrite Fy, Eh, Sy. field. lra. }
  repeat split.
  - intros e A S0. rewrite ep_elastic_range; [rewrite EE; reflexivity|exact W|rewrite U; exact S0|lra].
  - intros Fa. rewrite Pl; [|lra|]; [field; lra|]. left. cbn [fst snd]. split; [|exact Fa].
    unfold far, tol in *. rewrite Rabs_Ropp. replace (y - - u) with (y + u) by ring.
    rewrite (Rabs_left (y - u)) in Fa by lra. rewrite (Rabs_pos_eq (y + u)) by lra. lra.
  - rewrite Pl; [field; lra|lra|right; left; reflexivity].
  - exact Pl.
  - intros e A F3 F4. apply (ep_beyond p u); [rewrite Ep; reflexivity|exact F3|exact F4|exact A].
Qed.
Print Assumptions C18_design_curve.
(** Perfectly plastic law: plateau at the design yield strength. *)
Theorem C18_perfectly_plastic : forall c fyk Es ftk epsuk gs ge r l y u fy,
  reinf_init c fyk Es ftk epsuk gs ge "elasticperfectlyplastic" = Ok (r, l) ->
  rf_epsyd r = Ok y -> rf_epsud r = Ok u -> rf_fyd r = Ok fy -> 0 < fy -> y <= u ->
  exists p, l = RPlastic p /\
   (forall e, Rabs e <= y -> settled (- u, u) e -> ep_stress p e = Rabs Es * e) /\
   (forall e, y <= e <= u -> settled (- u, u) e -> ep_stress p e = fy) /\
   (forall e, u < Rabs e -> far u e -> far (- u) e -> ep_stress p e = 0).
Proof.
  intros c fyk Es ftk epsuk gs ge r l y u fy H Hy Hu Hf F1 Yu.
  apply rf_law_perfect in H as (fy' & u' & p & Er & E2 & E3 & -> & I).
  assert (fy' = fy) by congruence. assert (u' = u) by congruence. subst fy' u'.
  exists p. split; [reflexivity|].
  pose proof (rf_values _ _ _ _ _ _ _ _ Er) as (_ & VE & _).
  pose proof (ep_init_inv _ _ _ _ _ I) as [EP Ep].
  assert (Yv : y = fy / Rabs Es).
  { unfold rf_epsyd in Hy. rewrite Hf in Hy. cbn [bind] in Hy. rewrite VE in Hy.
    destruct (Reqb_spec (Rabs Es) 0); [lra|]. injection Hy as <-. reflexivity. }
  assert (W : ep_wf p). { apply (ep_init_wf _ _ _ _ _ I F1 (Rle_refl 0)). intros w [= <-]. rewrite <- Yv. lra. }
  assert (U : ep_ult p = (- u, u)) by (rewrite Ep; reflexivity).
  assert (Sy : ep_sy p = y) by (rewrite Ep, Yv; reflexivity).
  repeat split.
  - intros e A S0. rewrite ep_elastic_range; [rewrite Ep; reflexivity|exact W|rewrite U; exact S0|lra].
  - intros e [A B] S0. rewrite ep_plastic_range; [|exact W|rewrite U; exact S0|lra|].
    + rewrite Ep. cbn. lra.
    + intros w Hw. rewrite Ep in Hw. injection Hw as <-. exact B.
  - intros e A F3 F4. apply (ep_beyond p u); [rewrite Ep; reflexivity|exact F3|exact F4|exact A].
Qed.
Print Assumptions C18_perfectly_plastic.
(** Rejections. *)
Theorem C18_small_safety_factor_rejected : forall c fyk Es ftk epsuk g ge name,
  g < 1 -> g <> 0 -> name = "elasticplastic"%string \/ name = "elasticperfectlyplastic"%string ->
  reinf_init c fyk Es ftk epsuk (Some g) ge name = Err ValueError.
Proof.
  intros c fyk Es ftk epsuk g ge name Hg N Hn.
  assert (E : forall r, rf_gs r = Some g -> rf_fyd r = Err ValueError /\ rf_ftd r = Err ValueError).
  { intros r Hr. unfold rf_fyd, rf_ftd, code_fyd, gamma_s, py_or. rewrite Hr. destruct (Reqb_spec g 0); [contradiction|].
    destruct (Rltb_spec g 1); [|lra]. destruct (Rltb (rf_fyk r) 0), (Rltb (rf_ftk r) 0); auto. }
  unfold reinf_init. set (r := reinf_attrs _ _ _ _ _ _ _). destruct (E r eq_refl) as [E1 E2].
  unfold create_law, rf_methods. destruct Hn as [-> | ->]; cbn -[rf_fyd rf_ftd rf_epsud rf_epsyd]; rewrite ?E1, ?E2; reflexivity.
Qed.
Print Assumptions C18_small_safety_factor_rejected.
Theorem C18_zero_modulus_rejected : forall c fyk ftk epsuk gs ge name,
  exists x, reinf_init c fyk 0 ftk epsuk gs ge name = Err x.
Proof.
  intros c fyk ftk epsuk gs ge name. unfold reinf_init. set (r := reinf_attrs _ _ _ _ _ _ _).
  assert (Z : rf_Es r = 0) by apply Rabs_R0.
  destruct (create_law (rf_methods r) rf_build name) as [l|x] eqn:E; [|eexists; reflexivity]. exfalso.
  unfold create_law in E. destruct (dict_get _ _) as [lc|]; [|discriminate].
  destruct (rf_methods r _) as [k|] eqn:M; [|discriminate].
  assert (K : forall kw, k = Ok kw -> match kw with KElastic E => E = 0 | KPlastic E _ _ _ => E = 0 end).
  { unfold rf_methods in M. rewrite Z in M. destruct (String.eqb _ _); [injection M as <-; intros kw [= <-]; reflexivity|].
    destruct (String.eqb _ _).
    - injection M as <-. destruct (rf_fyd r); cbn [bind]; [|discriminate]. destruct (rf_epsud r); cbn [bind]; [|discriminate].
      intros kw [= <-]. reflexivity.
    - destruct (String.eqb _ _); [|discriminate]. injection M as <-.
      destruct (rf_ftd r); cbn [bind]; [|discriminate]. destruct (rf_fyd r); cbn [bind]; [|discriminate].
      destruct (rf_epsud r); cbn [bind]; [|discriminate]. destruct (rf_epsyd r); cbn [bind]; [|discriminate].
      destruct (Reqb _ _); [discriminate|]. intros kw [= <-]. reflexivity. }
  destruct k as [kw|]; [|discriminate]. specialize (K kw eq_refl). cbn [bind] in E. unfold rf_build in E.
  destruct lc, kw; try discriminate; subst; unfold elastic_init, ep_init in E.
  - destruct (Rleb_spec 0 0); [discriminate|lra].
  - destruct (Rltb_spec 0 0); [lra|discriminate].
Qed.
Print Assumptions C18_zero_modulus_rejected.
(** Inconsistent data are not rejected: an ultimate strain below the yield strain
    is accepted and gives a softening branch, and a tensile strength below the
    yield strength is accepted too. *)
Theorem C18_inconsistent_data_rejected_refuted :
  (exists r l, reinf_init ClsEC2_2004 500 200000 550 (1/1000) None None "elasticplastic" = Ok (r, RPlastic l) /\ ep_Eh l < 0) /\
  (exists r l, reinf_init ClsEC2_2004 500 200000 400 (5/100) None None "elasticplastic" = Ok (r, RPlastic l) /\ ep_Eh l < 0).
Proof.
  split; eval_reinf; eexists; eexists; (split; [reflexivity|]); cbn [ep_Eh].
  - match goal with |- ?a / ?b < 0 => assert (0 < a /\ b < 0) as [A B] by (split; lra); set (x := a) in *; set (z := b) in * end.
    unfold Rdiv. pose proof (Rinv_lt_0_compat _ B). nra.
  - match goal with |- ?a / ?b < 0 => assert (a < 0 /\ 0 < b) as [A B] by (split; lra); set (x := a) in *; set (z := b) in * end.
    unfold Rdiv. pose proof (Rinv_0_lt_compat _ B). nra.
Qed.
Print Assumptions C18_inconsistent_data_rejected_refuted.
(** A safety factor of 0 is silently replaced by the default. *)
Theorem C18_zero_factor_rejected_refuted : forall c fyk Es ftk epsuk ge name,
  rmap snd (reinf_init c fyk Es ftk epsuk (Some 0) ge name) = rmap snd (reinf_init c fyk Es ftk epsuk None ge name).
Proof.
  intros. unfold reinf_init.
  assert (E : rf_methods (reinf_attrs c fyk Es ftk epsuk (Some 0) ge) = rf_methods (reinf_attrs c fyk Es ftk epsuk None ge)).
  { unfold rf_methods, rf_epsyd, rf_ftd, rf_fyd, rf_epsud, gamma_s, gamma_eps, py_or. cbn -[Reqb]. destruct (Reqb_spec 0 0); [reflexivity|lra]. }
  rewrite E. destruct (create_law _ _ _); reflexivity.
Qed.
Print Assumptions C18_zero_factor_rejected_refuted.
(** Changing epsuk afterwards changes the design ultimate strain but not the law
    the object carries (the law is fixed at construction, set_epsuk touches only
    the attribute). *)
Theorem C18_law_follows_setter_refuted : exists r p u,
  reinf_init ClsEC2_2004 500 200000 550 (5/100) None None "elasticplastic" = Ok (r, RPlastic p) /\
  rf_epsud (set_epsuk (25/1000) r) = Ok u /\ ep_su p <> Some u.
Proof.
  eval_reinf; eexists; eexists; eexists; (split; [reflexivity|]);
    cbn [ep_su set_epsuk reinf_attrs rf_fyk rf_ftk rf_Es rf_epsuk rf_cls rf_gs rf_ge]; rewrite ?Rabs_pos_eq by lra; repeat (rsplit1; cbn [bind]; try lra).
  split; [reflexivity|]. intros [= H]. lra.
Qed.
Print Assumptions C18_law_follows_setter_refuted.
(** Ductility classes. *)
Theorem C18_ductility_classes : forall d fyk cl,
  let is c C := cl = c \/ cl = C in
  (is "a"%string "A"%string -> duct_props d fyk cl = Ok (25 / 1000, 105 / 100 * fyk)) /\
  (is "b"%string "B"%string -> duct_props d fyk cl = Ok (5 / 100, 108 / 100 * fyk)) /\
  (is "c"%string "C"%string -> duct_props d fyk cl = Ok (75 / 1000, 115 / 100 * fyk)) /\
  (is "d"%string "D"%string -> duct_props d fyk cl = if d then Ok (8 / 100, 125 / 100 * fyk) else Err ValueError) /\
  ((forall c, In c ["a"; "A"; "b"; "B"; "c"; "C"; "d"; "D"]%string -> cl <> c) -> duct_props d fyk cl = Err ValueError).
Proof.
  intros d fyk cl is. unfold is, duct_props. cbv zeta.
  split; [intros [-> | ->]; cbn; reflexivity|]. split; [intros [-> | ->]; cbn; reflexivity|]. split; [intros [-> | ->]; cbn; reflexivity|].
  split; [intros [-> | ->]; destruct d; reflexivity|].
  intros H. assert (U : upper cl = cl).
  { unfold upper. destruct cl as [|x cl]; [reflexivity|]. destruct cl as [|y cl].
    - destruct x as [[] [] [] [] [] [] [] []]; try reflexivity; exfalso; (eapply H; [|reflexivity]); cbn; tauto.
    - destruct x as [[] [] [] [] [] [] [] []]; reflexivity. }
  rewrite U. assert (E : forall c, In c ["A"; "B"; "C"; "D"]%string -> String.eqb cl c = false).
  { intros c I. apply String.eqb_neq. apply H. cbn in *. tauto. }
  rewrite !E by (cbn; tauto). rewrite andb_false_r. reflexivity.
Qed.
Print Assumptions C18_ductility_classes.
(** B500 with the default factors satisfies all hypotheses of the curve theorem. *)
Example C18_example : exists r l y u fy ft,
  reinf_init ClsMC2010 500 200000 550 (5/100) None None "elasticplastic" = Ok (r, l) /\
  rf_epsyd r = Ok y /\ rf_epsud r = Ok u /\ rf_fyd r = Ok fy /\ rf_ftd r = Ok ft /\ 0 < fy <= ft /\ y < u /\ far u y.
Proof.
  eval_reinf. 
  do 6 eexists. split; [reflexivity|]. cbn [rf_fyk rf_ftk rf_Es rf_epsuk reinf_attrs rf_cls rf_gs rf_ge].
  rewrite !(Rabs_pos_eq) by lra. repeat (rsplit1; cbn [bind]; try lra).
  repeat (split; [reflexivity|]). split; [lra|]. split; [lra|]. unfold far, tol. rnum.
Qed.
