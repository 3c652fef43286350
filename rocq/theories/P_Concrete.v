(** C42: concrete material objects. *)
From Coq Require Import String Lra Lia.
From Verif Require Import Base M_Laws S_Laws L_Laws L_LawsB L_LawsC P_Laws M_Registry M_Reinf M_Calc S_Calc L_Calc M_Conc S_Conc L_Conc P_Conc M_Crack L_Crack M_Concrete S_Concrete L_Concrete.
Open Scope R_scope.
Open Scope list_scope.

(** Which parameters the constructors take: exactly the acceptable ones, and only laws meant for concrete. *)
Theorem C42_checks : forall c fck ex a l,
  (acceptable c fck a -> for_concrete l = true -> exists o, concrete_init c fck ex a (LLaw l) = Ok (o, l)) /\
  (~ acceptable c fck a -> forall law, concrete_init c fck ex a law = Err ValueError) /\
  (for_concrete l = false -> concrete_init c fck ex a (LLaw l) = Err ValueError).
Proof.
  intros c fck ex a l. pose proof (post_init_spec c fck a) as [Y N]. split; [|split].
  - intros A F. exists (concrete_attrs c fck a). unfold concrete_init. cbn [base_init bind]. rewrite (Y A). cbn [bind]. rewrite F. reflexivity.
  - intros A law. unfold concrete_init. cbn [base_init bind]. rewrite (N A). reflexivity.
  - intros F. unfold concrete_init. cbn [base_init bind].
    destruct (post_init (concrete_attrs c fck a)) as [[]|x] eqn:P; cbn [bind].
    + rewrite F. reflexivity.
    + destruct (Classical_Prop.classic (acceptable c fck a)) as [A|A]; [specialize (Y A)|specialize (N A)]; congruence.
Qed.
Print Assumptions C42_checks.

(** Attributes: the magnitude of the user's value, else the code's value for |fck|. *)
Theorem C42_values : forall c fck ex a law o l, concrete_init c fck ex a law = Ok (o, l) ->
  c_fck o = Rabs fck /\
  chosen (a_fcm a) (Rabs fck + 8) (get_fcm o) /\ Rabs fck < get_fcm o /\
  chosen (a_fctm a) (match c with ClsEC2_2023 => e3_fctm fck | _ => mc_fctm fck end) (get_fctm o) /\
  chosen (a_ft_lo a) (7 / 10 * get_fctm o) (get_ft_lo o) /\ chosen (a_ft_hi a) (13 / 10 * get_fctm o) (get_ft_hi o) /\
  factor_or (a_gamma_c a) (15 / 10) (get_gamma_c o) /\
  (c <> ClsEC2_2023 -> factor_or (a_alpha_cc a) 1 (get_alpha_cc o)) /\
  chosen (a_eps_c2 a) (match c with ClsEC2_2023 => 2 / 1000 | _ => ec_eps_c2 fck end) (get_eps_c2 o) /\
  chosen (a_eps_cu2 a) (match c with ClsEC2_2023 => 35 / 10000 | _ => ec_eps_cu2 fck end) (get_eps_cu2 o) /\
  kept (a_n a) (match c with ClsEC2_2023 => 2 | _ => ec_n fck end) (get_n o) /\
  (c <> ClsEC2_2023 -> chosen (a_eps_c3 a) (ec_eps_c3 fck) (get_eps_c3 o) /\ chosen (a_eps_cu3 a) (ec_eps_cu2 fck) (get_eps_cu3 o)) /\
  (c = ClsMC2010 -> chosen (a_Gf a) (mc_Gf fck) (get_Gf o)).
Proof.
  intros c fck ex a law o l H. unfold concrete_init in H. cbn [base_init bind] in H.
  assert (A : acceptable c fck a).
  { destruct (post_init (concrete_attrs c fck a)) as [[]|x] eqn:P; [|discriminate H].
    assert (D : acceptable c fck a \/ ~ acceptable c fck a) by apply Classical_Prop.classic.
    destruct D as [D|D]; [exact D|]. rewrite (proj2 (post_init_spec c fck a) D) in P. discriminate. }
  rewrite (proj1 (post_init_spec c fck a) A) in H. cbn [bind] in H.
  apply bind_ok in H. destruct H as (l' & _ & H). apply bind_ok in H. destruct H as (? & _ & H). apply Ok_inj in H. injection H as <- <-.
  assert (AA : forall x, Rabs (Rabs x) = Rabs x) by (intros; apply Rabs_Rabsolu).
  assert (A8 : Rabs 8 = 8) by (apply Rabs_pos_eq; lra).
  assert (FT : 0 <= get_fctm (concrete_attrs c fck a)).
  { unfold get_fctm, concrete_attrs. cbn [c_a a_fctm c_cls c_fck]. destruct (a_fctm a) as [v|]; cbn [abs_arg option_map]; [apply Rabs_pos|].
    destruct c; unfold ec_fctm, mc_fctm, e3_fctm, mc_fcm; rewrite ?AA; destruct (Rleb_spec (Rabs fck) 50).
    all: try (apply Rmult_le_pos; [lra|apply pw_nonneg]).
    all: apply Rmult_le_pos; [lra|]; rewrite ?AA, A8; rewrite <- ln_1; apply Rlt_le, ln_increasing; [lra|pose proof (Rabs_pos fck); lra]. }
  split; [reflexivity|]. split; [|split; [|split; [|split; [|split; [|split; [|split; [|split; [|split; [|split; [|split]]]]]]]]]].
  - unfold chosen, get_fcm, concrete_attrs. cbn [c_a a_fcm c_cls c_fck]. destruct (a_fcm a); cbn [abs_arg option_map]; [reflexivity|].
    destruct c; unfold ec_fcm, e3_fcm, mc_fcm; rewrite ?AA, ?A8, ?AA, ?A8; reflexivity.
  - unfold get_fcm, concrete_attrs. cbn [c_a a_fcm c_cls c_fck]. destruct A as (A1 & _). destruct (a_fcm a) as [f|]; cbn [abs_arg option_map]; [exact (A1 f eq_refl)|].
    destruct c; unfold ec_fcm, e3_fcm, mc_fcm; rewrite ?AA, ?A8, ?AA, ?A8; lra.
  - unfold chosen, get_fctm, concrete_attrs. cbn [c_a a_fctm c_cls c_fck]. destruct (a_fctm a); cbn [abs_arg option_map]; [reflexivity|].
    destruct c; unfold ec_fctm, mc_fctm, e3_fctm, mc_fcm; rewrite ?AA; reflexivity.
  - unfold chosen, get_ft_lo at 1. unfold concrete_attrs at 1. cbn [c_a a_ft_lo c_cls]. destruct (a_ft_lo a); cbn [abs_arg option_map]; [reflexivity|].
    destruct c; cbn [c_cls concrete_attrs]; unfold ec_fctk_5, mc_fctkmin, e3_fctk_5; rewrite ?(Rabs_pos_eq _ FT); lra.
  - unfold chosen, get_ft_hi at 1. unfold concrete_attrs at 1. cbn [c_a a_ft_hi c_cls]. destruct (a_ft_hi a); cbn [abs_arg option_map]; [reflexivity|].
    destruct c; cbn [c_cls concrete_attrs]; unfold ec_fctk_95, mc_fctkmax, e3_fctk_95; rewrite ?(Rabs_pos_eq _ FT); lra.
  - apply py_or_factor. reflexivity.
  - intros _. apply py_or_factor. reflexivity.
  - unfold chosen, get_eps_c2, concrete_attrs. cbn [c_a a_eps_c2 c_cls c_fck]. destruct (a_eps_c2 a); cbn [abs_arg option_map]; [reflexivity|].
    destruct c; unfold ec_eps_c2, mc_eps_c2; cbv zeta; rewrite ?AA; reflexivity.
  - unfold chosen, get_eps_cu2, concrete_attrs. cbn [c_a a_eps_cu2 c_cls c_fck]. destruct (a_eps_cu2 a); cbn [abs_arg option_map]; [reflexivity|].
    destruct c; unfold ec_eps_cu2, mc_eps_cu2; cbv zeta; rewrite ?AA; reflexivity.
  - unfold kept, get_n, concrete_attrs. cbn [c_a a_n c_cls c_fck]. destruct (a_n a); [reflexivity|].
    destruct c; unfold ec_n, mc_n; cbv zeta; rewrite ?AA; reflexivity.
  - intros NC. split.
    + unfold chosen, get_eps_c3, concrete_attrs. cbn [c_a a_eps_c3 c_cls c_fck]. destruct (a_eps_c3 a); cbn [abs_arg option_map]; [reflexivity|].
      destruct c; unfold ec_eps_c3, mc_eps_c3; cbv zeta; rewrite ?AA; reflexivity.
    + unfold chosen, get_eps_cu3, concrete_attrs. cbn [c_a a_eps_cu3 c_cls c_fck]. destruct (a_eps_cu3 a); cbn [abs_arg option_map]; [reflexivity|].
      destruct c; unfold ec_eps_cu3, mc_eps_cu3, ec_eps_cu2, mc_eps_cu2; cbv zeta; rewrite ?AA; reflexivity.
  - intros ->. unfold chosen, get_Gf, concrete_attrs. cbn [c_a a_Gf c_cls c_fck]. destruct (a_Gf a); cbn [abs_arg option_map]; [reflexivity|].
    unfold mc_Gf, mc_fcm. rewrite ?AA. reflexivity.
Qed.
Print Assumptions C42_values.

(** Moduli and Sargin parameters, with the ranges in which the code's tables are defined. *)
Theorem C42_stiffness : forall c fck ex a law o l, concrete_init c fck ex a law = Ok (o, l) ->
  get_Em o = (match a_Em a with Some v => Ok (Rabs v) | None =>
    match c with ClsEC2_2004 => Ok (ec_Ecm (get_fcm o)) | ClsMC2010 => mc_Eci (get_fcm o) "quartzite"%string 21500 | ClsEC2_2023 => e3_Ecm (get_fcm o) (a_kE a) end end) /\
  get_eps_c1 o = (match a_eps_c1 a with Some v => Ok (Rabs v) | None =>
    match c with ClsEC2_2004 => Ok (ec_eps_c1 (get_fcm o)) | ClsMC2010 => mc_eps_c1 (Rabs fck) | ClsEC2_2023 => e3_eps_c1 (get_fcm o) end end) /\
  get_eps_cu1 o = (match a_eps_cu1 a with Some v => Ok (Rabs v) | None =>
    match c with ClsEC2_2004 => Ok (ec_eps_cu1 fck) | ClsMC2010 => mc_eps_cu1 (Rabs fck) | ClsEC2_2023 => e3_eps_cu1 (get_fcm o) end end) /\
  (forall k, a_k a = Some k -> get_k o = Ok k) /\
  (a_k a = None -> c = ClsMC2010 -> get_k o = mc_k_sargin (Rabs fck)) /\
  (a_k a = None -> c <> ClsMC2010 -> forall k E e, get_k o = Ok k -> get_Em o = Ok E -> get_eps_c1 o = Ok e -> k * get_fcm o = 105 / 100 * E * e).
Proof.
  intros c fck ex a law o l H. pose proof (C42_values c fck ex a law o l H) as V. destruct V as (_ & _ & FM & _).
  unfold concrete_init in H. cbn [base_init bind] in H. apply bind_ok in H. destruct H as (? & _ & H). apply bind_ok in H. destruct H as (? & _ & H). apply bind_ok in H. destruct H as (? & _ & H). apply Ok_inj in H. injection H as <- _.
  pose proof (Rabs_pos fck) as FP.
  split; [|split; [|split; [|split; [|split]]]].
  - unfold get_Em, concrete_attrs at 1. cbn [c_a a_Em c_cls]. destruct (a_Em a); reflexivity.
  - unfold get_eps_c1, concrete_attrs at 1. cbn [c_a a_eps_c1 c_cls]. destruct (a_eps_c1 a); reflexivity.
  - unfold get_eps_cu1, concrete_attrs at 1. cbn [c_a a_eps_cu1 c_cls]. destruct (a_eps_cu1 a); [reflexivity|]. destruct c; try reflexivity. cbn [abs_arg option_map or_else c_cls c_fck concrete_attrs]. unfold ec_eps_cu1. rewrite Rabs_Rabsolu. reflexivity.
  - intros k K. unfold get_k, concrete_attrs at 1. cbn [c_a a_k]. rewrite K. reflexivity.
  - intros K ->. unfold get_k, concrete_attrs at 1. cbn [c_a a_k]. rewrite K. reflexivity.
  - intros K N k E e Hk HE He. unfold get_k in Hk. set (o := concrete_attrs c fck a) in *. change (a_k (c_a o)) with (a_k a) in Hk. rewrite K in Hk. cbn [or_else] in Hk. rewrite HE, He in Hk.
    assert (EP : c = ClsEC2_2004 -> 0 <= e).
    { intros ->. unfold get_eps_c1, o, concrete_attrs in He. cbn [c_a a_eps_c1 c_cls] in He. destruct (a_eps_c1 a) as [v|]; cbn [abs_arg option_map or_else] in He; apply Ok_inj in He; subst e; [apply Rabs_pos|]. apply (proj1 C34_strain_order _ 30). }
    destruct c; [contradiction N; reflexivity| |]; cbn [c_cls o concrete_attrs bind] in Hk.
    + apply Ok_inj in Hk. subst k. unfold ec_k_sargin. rewrite (Rabs_pos_eq e) by (apply EP; reflexivity). field. fold o. lra.
    + unfold e3_k_sargin in Hk. revert Hk. destruct (Rleb E 0); [discriminate|]. destruct (Rltb _ 20); [discriminate|]. destruct (Rleb e 0); [discriminate|]. intros Hk. apply Ok_inj in Hk. subst k. field. fold o. lra.
Qed.
Print Assumptions C42_stiffness.

(** Signs of the strengths, moduli and strains do not matter. *)
Theorem C42_sign : forall c fck ex a law, concrete_init c (- fck) ex (negated a) law = concrete_init c fck ex a law.
Proof.
  intros. unfold concrete_init. assert (E : concrete_attrs c (- fck) (negated a) = concrete_attrs c fck a); [|rewrite E; reflexivity].
  assert (N : forall v, abs_arg (option_map Ropp v) = abs_arg v) by (intros [v|]; cbn; [rewrite Rabs_Ropp|]; reflexivity).
  unfold concrete_attrs, negated. cbn. rewrite Rabs_Ropp, !N. reflexivity.
Qed.
Print Assumptions C42_sign.

(** Design strength, EC2:2004 and Model Code 2010. *)
Theorem C42_fcd : forall c fck ex a law o l, c <> ClsEC2_2023 -> concrete_init c fck ex a law = Ok (o, l) ->
  exists f al g, get_fcd o = Ok f /\ factor_or (a_alpha_cc a) 1 al /\ factor_or (a_gamma_c a) (15 / 10) g /\ g <> 0 /\ f * Rabs g = Rabs al * Rabs fck /\ 0 <= f.
Proof.
  intros c fck ex a law o l N H. pose proof (C42_values c fck ex a law o l H) as (F & _ & _ & _ & _ & _ & G & A & _). specialize (A N).
  exists (mc_fcd fck (get_alpha_cc o) (get_gamma_c o)), (get_alpha_cc o), (get_gamma_c o).
  assert (G0 : get_gamma_c o <> 0). { destruct G as [[_ ->]|[(x & _ & X & ->)|[_ ->]]]; [lra|exact X|lra]. }
  destruct (C34_fcd fck (get_alpha_cc o) (get_gamma_c o) G0) as (_ & E & P & _).
  split; [|split; [exact A|split; [exact G|split; [exact G0|split; [exact E|exact P]]]]].
  assert (CC : c_cls o = c). { unfold concrete_init in H. cbn [base_init bind] in H. apply bind_ok in H. destruct H as (? & _ & H). apply bind_ok in H. destruct H as (? & _ & H). apply bind_ok in H. destruct H as (? & _ & H). apply Ok_inj in H. injection H as <- _. reflexivity. }
  unfold get_fcd. rewrite CC, F. unfold mc_fcd, ec_fcd. rewrite Rabs_Rabsolu. destruct c; try reflexivity. contradiction N; reflexivity.
Qed.
Print Assumptions C42_fcd.

(** Zero as partial safety factor is silently replaced by the default in EC2:2004 and Model Code 2010, and refused in EC2:2023. *)
Theorem C42_zero_gamma_refuted : forall c fck a l, a_gamma_c a = Some 0 -> for_concrete l = true -> acceptable ClsEC2_2004 fck a ->
  match c with
  | ClsEC2_2023 => concrete_init c fck false a (LLaw l) = Err ValueError
  | _ => exists o, concrete_init c fck false a (LLaw l) = Ok (o, l) /\ get_gamma_c o = 15 / 10
  end.
Proof.
  intros c fck a l G F (A1 & A2 & A3 & _).
  assert (OK : forall c, c <> ClsEC2_2023 -> exists o, concrete_init c fck false a (LLaw l) = Ok (o, l) /\ get_gamma_c o = 15 / 10).
  { intros d D. assert (A : acceptable d fck a) by (split; [exact A1|split; [exact A2|split; [exact A3|intros E; contradiction]]]).
    destruct (C42_checks d fck false a l) as (Y & _). destruct (Y A F) as (o & E). exists o. split; [exact E|].
    apply C42_values in E. destruct E as (_ & _ & _ & _ & _ & _ & [[X _]|[(x & X & X0 & _)|[_ ->]]] & _); [congruence| |reflexivity]. exfalso. apply X0. congruence. }
  destruct c; try (apply OK; discriminate).
  apply (proj1 (proj2 (C42_checks ClsEC2_2023 fck false a l))). intros (_ & _ & _ & D). destruct (D eq_refl) as [_ D2]. specialize (D2 _ G). lra.
Qed.
Print Assumptions C42_zero_gamma_refuted.

(** Existing concrete is documented as not implemented: the classes take it without a word. *)
Theorem C42_existing_refuted : base_init true = Err NotImplementedError /\ forall c fck a law, concrete_init c fck true a law = concrete_init c fck false a law.
Proof. split; reflexivity. Qed.
Print Assumptions C42_existing_refuted.

(** The bilinear law, open to EC2:2004 and Model Code 2010 concrete, does not exist for EC2:2023. *)
Theorem C42_no_bilinear_2023 : forall fck ex a, concrete_init ClsEC2_2023 fck ex a (LName "bilinearcompression") = Err ValueError.
Proof.
  intros. destruct (Classical_Prop.classic (acceptable ClsEC2_2023 fck a)) as [A|A].
  - rewrite init_law by exact A. reflexivity.
  - apply (proj1 (proj2 (C42_checks ClsEC2_2023 fck ex a (LOther true))) A).
Qed.
Print Assumptions C42_no_bilinear_2023.

(** Design strengths, EC2:2023. *)
Theorem C42_fcd_2023 : forall fck ex a law o l d w, concrete_init ClsEC2_2023 fck ex a law = Ok (o, l) -> In w (class_names d) -> written w (a_dev a) ->
  let g := get_gamma_c o in
  get_fcd o = fcd_2023 o 28 91 40 /\
  (forall tref t0 ref, 12 <= Rabs fck -> 1 <= g -> 0 <= tref -> 0 <= t0 -> 0 < ref -> exists f eta k, fcd_2023 o tref t0 ref = Ok f /\
     f * g = eta * k * Rabs fck /\ 0 < f <= Rabs fck /\ 0 < eta <= 1 /\ (Rabs fck <= ref -> eta = 1) /\ (ref < Rabs fck -> eta ^ 3 * Rabs fck = ref) /\
     k = (if Rle_dec tref (match d with slow => 56 | _ => 28 end) then if Rlt_dec 90 t0 then 1 else 85 / 100 else 85 / 100)) /\
  (forall tref t0 ref, Rabs fck < 12 \/ g < 1 \/ tref < 0 \/ t0 < 0 \/ ref <= 0 -> fcd_2023 o tref t0 ref = Err ValueError) /\
  (forall tref, 1 <= g -> 0 <= tref -> exists f, fctd_2023 o tref = Ok f /\
     f * g = (if Rle_dec tref (match d with slow => 56 | _ => 28 end) then 8 / 10 else 7 / 10) * get_ft_lo o) /\
  (forall tref, g < 1 \/ tref < 0 -> fctd_2023 o tref = Err ValueError).
Proof.
  intros fck ex a law o l d w H W1 W2 g. pose proof (C42_values _ _ _ _ _ _ _ H) as V. destruct V as (_ & _ & _ & FM & FL & _).
  assert (FLP : 0 <= get_ft_lo o).
  { rewrite FL. destruct (a_ft_lo a); [apply Rabs_pos|]. assert (0 <= get_fctm o); [|lra]. rewrite FM. destruct (a_fctm a); [apply Rabs_pos|].
    unfold e3_fctm. destruct (Rleb_spec (Rabs fck) 50); (apply Rmult_le_pos; [lra|apply pw_nonneg]). }
  apply init_ok in H. destruct H as [-> (_ & _ & _ & D)]. set (o := concrete_attrs ClsEC2_2023 fck a) in *.
  assert (KC : forall tref t0, e3_k_tc tref t0 (a_dev (c_a o)) = e3_k_tc tref t0 (a_dev a)) by (intros; apply k_tc_norm).
  assert (KT : forall tref, e3_k_tt tref (a_dev (c_a o)) = e3_k_tt tref (a_dev a)) by (intros; apply k_tt_norm).
  split; [reflexivity|]. split; [|split; [|split]].
  - intros tref t0 ref F G T T0 RF. destruct (C34_fctd_2023 tref (a_dev a) d w W1 W2) as (_ & _ & K). specialize (K t0 T T0).
    set (k := if Rle_dec _ _ then _ else _) in *.
    assert (E : exists eta, e3_eta_cc (Rabs fck) ref = Ok eta). { unfold e3_eta_cc. rewrite (proj2 (Rltb_false _ _)) by lra. rewrite (proj2 (Rleb_false _ _)) by lra. eauto. }
    destruct E as (eta & E). destruct (C34_fcd_2023 _ _ _ _ _ g _ _ E K) as (E1 & E2 & E3 & _ & E4 & _). destruct (E4 G) as (v & V1 & V2 & V3).
    exists v, eta, k. split; [|split; [exact V2|split; [exact V3|split; [exact E1|split; [exact E2|split; [exact E3|reflexivity]]]]]].
    unfold fcd_2023. change (c_fck o) with (Rabs fck). rewrite E. cbn [bind]. rewrite KC, K. cbn [bind]. exact V1.
  - intros tref t0 ref B. unfold fcd_2023. change (c_fck o) with (Rabs fck). rewrite KC. fold g.
    unfold e3_eta_cc. destruct (Rltb_spec (Rabs fck) 12) as [B1|B1]; [reflexivity|]. destruct (Rleb_spec ref 0) as [B2|B2]; [reflexivity|]. cbn [bind].
    destruct (e3_k_tc tref t0 (a_dev a)) as [k|x] eqn:K; cbn [bind].
    + unfold e3_k_tc in K. revert K. destruct (Rltb_spec tref 0) as [B3|B3]; [discriminate|]. destruct (Rltb_spec t0 0) as [B4|B4]; [discriminate|]. intros _.
      unfold e3_fcd. destruct (Rltb (Rabs fck) 12); [reflexivity|]. destruct (orb _ _); [reflexivity|]. rewrite (proj2 (Rltb_true _ _)) by lra. reflexivity.
    + unfold e3_k_tc in K. cbv zeta in K. revert K. repeat (match goal with |- (if ?b then _ else _) = _ -> _ => destruct b end; [intros K; first [injection K as <-; reflexivity|discriminate K]|]). discriminate.
  - intros tref G T. destruct (C34_fctd_2023 tref (a_dev a) d w W1 W2) as (_ & K & _). destruct (K T) as (k & K1 & K2 & K3). destruct (K3 (get_ft_lo o) g) as (_ & K4). destruct (K4 FLP G) as (v & V1 & V2 & _).
    exists v. rewrite <- K2. split; [|exact V2]. unfold fctd_2023. rewrite KT, K1. exact V1.
  - intros tref B. unfold fctd_2023. rewrite KT. fold g. destruct (C34_fctd_2023 tref (a_dev a) d w W1 W2) as (K0 & K & _).
    destruct (Rlt_dec tref 0) as [T|T]; [rewrite (K0 T); reflexivity|]. apply Rnot_lt_le in T. destruct (K T) as (k & K1 & _ & K3). rewrite K1. cbn [bind]. apply K3. lra.
Qed.
Print Assumptions C42_fcd_2023.

(** The laws built by name.  Parabola-rectangle: the plateau is the design strength. *)
Theorem C42_parabola : forall c fck ex a o law, concrete_init c fck ex a (LName "parabolarectangle") = Ok (o, law) ->
  exists f l, get_fcd o = Ok f /\ law = LParabola l /\ 0 <= f /\
    (get_eps_c2 o <> 0 -> get_eps_c2 o <= get_eps_cu2 o -> 0 < get_n o ->
       plateau f (get_eps_c2 o) (get_eps_cu2 o) (pr_stress l) /\
       forall e, settled (- get_eps_cu2 o, 100) e -> - get_eps_c2 o <= e <= 0 -> pr_stress l e = - f * (1 - pypow (1 - - e / get_eps_c2 o) (get_n o))).
Proof.
  intros c fck ex a o law H. pose proof (C42_values _ _ _ _ _ _ _ H) as V. destruct V as (_ & _ & _ & _ & _ & _ & _ & _ & V1 & V2 & _).
  apply init_name in H. cbn in H. apply bind_ok in H. destruct H as (k & HK & H). apply bind_ok in HK. destruct HK as (f & F & HK). apply Ok_inj in HK. subst k. cbn [c_build] in H. apply Ok_inj in H. subst law.
  exists f. eexists. split; [exact F|]. split; [reflexivity|].
  pose proof (fcd_nonneg _ _ F) as F0.
  split; [exact F0|]. intros N0 LE NP.
  assert (P1 : 0 <= get_eps_c2 o). { rewrite V1. destruct (a_eps_c2 a); [apply Rabs_pos|]. destruct c; [| |lra]; (unfold ec_eps_c2; cbv zeta; destruct (Rleb _ 50); [lra|]; pose proof (pw_nonneg (Rabs fck - 50) (53 / 100)); lra). }
  assert (P2 : 0 <= get_eps_cu2 o) by lra.
  split.
  - intros e. destruct (C07_pr_shape f (get_eps_c2 o) (get_eps_cu2 o) (get_n o) e N0) as (S1 & S2 & S3 & S4 & _); [rewrite !Rabs_pos_eq by lra; exact LE|exact NP|].
    rewrite (Rabs_pos_eq f) in * by exact F0. rewrite (Rabs_pos_eq (get_eps_c2 o)) in * by exact P1. rewrite (Rabs_pos_eq (get_eps_cu2 o)) in * by exact P2.
    split; [exact S1|]. split; [exact S2|]. split; [exact S3|exact S4].
  - intros e S B. unfold pr_stress, pr_init, pr_ult. cbn [pr_fc pr_e0 pr_eu pr_n]. rewrite (Rabs_pos_eq f), (Rabs_pos_eq (get_eps_c2 o)), (Rabs_pos_eq (get_eps_cu2 o)) by assumption.
    cbv zeta. rewrite settled_prep by exact S. rewrite (proj2 (Rleb_true (- get_eps_c2 o) e)) by lra. rewrite (proj2 (Rleb_true e 0)) by lra. cbn [andb].
    rewrite (proj2 (Rltb_false e (- get_eps_c2 o))) by lra. rewrite ?andb_false_r. replace (e / - get_eps_c2 o) with (- e / get_eps_c2 o) by (field; exact N0). reflexivity.
Qed.
Print Assumptions C42_parabola.

(** Bilinear: EC2:2004 and Model Code 2010. *)
Theorem C42_bilinear : forall c fck ex a o law, concrete_init c fck ex a (LName "bilinearcompression") = Ok (o, law) ->
  exists f l, get_fcd o = Ok f /\ law = LBilinear l /\ 0 <= f /\ 0 < get_eps_c3 o /\
    (get_eps_c3 o <= get_eps_cu3 o ->
       plateau f (get_eps_c3 o) (get_eps_cu3 o) (bil_stress l) /\
       forall e, settled (- get_eps_cu3 o, 100) e -> - get_eps_c3 o <= e <= 0 -> bil_stress l e = f / get_eps_c3 o * e).
Proof.
  intros c fck ex a o law H.
  assert (C : c <> ClsEC2_2023) by (intros ->; rewrite C42_no_bilinear_2023 in H; discriminate).
  pose proof (C42_values _ _ _ _ _ _ _ H) as V. destruct V as (_ & _ & _ & _ & _ & _ & _ & _ & _ & _ & _ & V & _). destruct (V C) as [V1 V2].
  pose proof (init_ok _ _ _ _ _ _ _ H) as [O _]. assert (CC : c_cls o = c) by (rewrite O; reflexivity).
  apply init_name in H. unfold create_law in H. change (dict_get constitutive_laws (lower "bilinearcompression")) with (Some CBilinear) in H. cbv iota in H.
  assert (M : c_methods o ("__" ++ "bilinearcompression" ++ "__") = Some (do fc <- get_fcd o; Ok (CKBilinear fc (get_eps_c3 o) (get_eps_cu3 o)))) by (cbn; rewrite CC; destruct c; [reflexivity|reflexivity|contradiction C; reflexivity]).
  rewrite M in H. apply bind_ok in H. destruct H as (k & HK & H). apply bind_ok in HK. destruct HK as (f & F & HK). apply Ok_inj in HK. subst k. cbn [c_build] in H. apply bind_ok in H. destruct H as (l & L & H). apply Ok_inj in H. subst law.
  exists f, l. split; [exact F|]. split; [reflexivity|]. pose proof (fcd_nonneg _ _ F) as F0. split; [exact F0|].
  assert (P1 : 0 <= get_eps_c3 o). { rewrite V1. destruct (a_eps_c3 a); [apply Rabs_pos|]. left. apply C34_strain_order. }
  assert (N1 : get_eps_c3 o <> 0). { unfold bil_init in L. destruct (Reqb_spec (get_eps_c3 o) 0); [discriminate|assumption]. }
  split; [lra|]. intros LE. assert (P2 : 0 <= get_eps_cu3 o) by lra.
  assert (SH := C07_bilinear_shape f (get_eps_c3 o) (get_eps_cu3 o) l). rewrite (Rabs_pos_eq f), (Rabs_pos_eq (get_eps_c3 o)), (Rabs_pos_eq (get_eps_cu3 o)) in SH by assumption.
  split; intros e; destruct (SH e L LE) as (S1 & S2 & S3 & S4 & S5).
  - split; [exact S1|]. split; [exact S2|]. split; [exact S3|exact S4].
  - exact S5.
Qed.
Print Assumptions C42_bilinear.

(** Sargin: the peak is the mean strength. *)
Theorem C42_sargin : forall c fck ex a o law, concrete_init c fck ex a (LName "sargin") = Ok (o, law) ->
  exists e1 eu k l, get_eps_c1 o = Ok e1 /\ get_eps_cu1 o = Ok eu /\ get_k o = Ok k /\ law = LSargin l /\
    (e1 <> 0 -> Rabs e1 <= Rabs eu -> 0 < 1 + (k - 2) * (Rabs eu / Rabs e1) ->
      (settled (- Rabs eu, 100) (- Rabs e1) -> sargin_stress l (- Rabs e1) = Ok (- get_fcm o)) /\
      (forall e, settled (- Rabs eu, 100) e -> - Rabs eu <= e <= 0 -> let x := - e / Rabs e1 in sargin_stress l e = Ok (- get_fcm o * (k * x - x ^ 2) / (1 + (k - 2) * x))) /\
      (forall e v, sargin_stress l e = Ok v -> - get_fcm o <= v /\ (far (- Rabs eu) e -> e < - Rabs eu \/ 0 < e -> v = 0))).
Proof.
  intros c fck ex a o law H. pose proof (C42_values _ _ _ _ _ _ _ H) as V. destruct V as (_ & _ & V & _). assert (FM : 0 <= get_fcm o) by (pose proof (Rabs_pos fck); lra).
  apply init_name in H. cbn in H. apply bind_ok in H. destruct H as (kw & HK & H). apply bind_ok in HK. destruct HK as (e1 & E1 & HK). apply bind_ok in HK. destruct HK as (eu & EU & HK). apply bind_ok in HK. destruct HK as (k & K & HK). apply Ok_inj in HK. subst kw. cbn [c_build] in H. apply Ok_inj in H. subst law.
  exists e1, eu, k. eexists. split; [exact E1|]. split; [exact EU|]. split; [exact K|]. split; [reflexivity|]. intros N LE D.
  assert (SH := fun e => C07_sargin_shape (get_fcm o) e1 eu k e N LE D). cbv zeta in SH. rewrite (Rabs_pos_eq (get_fcm o)) in SH by exact FM.
  split; [|split].
  - intros S. destruct (SH 0) as (_ & _ & S3). exact (S3 S).
  - intros e S B. destruct (SH e) as (_ & S2 & _). rewrite (S2 S B). assert (Rabs e1 <> 0) by (apply Rabs_no_R0; exact N). replace (e / - Rabs e1) with (- e / Rabs e1) by (field; assumption). reflexivity.
  - intros e v HV. destruct (SH e) as (S1 & _ & _). destruct (S1 v HV) as (A & _ & B). split; [exact A|exact B].
Qed.
Print Assumptions C42_sargin.

(** Popovics: the peak is the design strength, the initial slope the modulus. *)
Theorem C42_popovics : forall c fck ex a o law, concrete_init c fck ex a (LName "popovics") = Ok (o, law) ->
  exists f e1 eu E l, get_fcd o = Ok f /\ get_eps_c1 o = Ok e1 /\ get_eps_cu1 o = Ok eu /\ get_Em o = Ok E /\ law = LPopovics l /\ 0 < E /\ e1 <> 0 /\
    (0 < f -> eu <> 0 -> f / Rabs e1 < E ->
      (settled (- Rabs eu, 100) (- Rabs e1) -> Rabs e1 <= Rabs eu -> popovics_stress l (- Rabs e1) = - f) /\
      forall e, - f <= popovics_stress l e <= 0 /\ (0 < e -> far (- Rabs eu) e -> popovics_stress l e = 0) /\ (e < - Rabs eu -> far (- Rabs eu) e -> popovics_stress l e = 0)).
Proof.
  intros c fck ex a o law H. apply init_name in H. cbn in H. apply bind_ok in H. destruct H as (kw & HK & H). apply bind_ok in HK. destruct HK as (f & F & HK). apply bind_ok in HK. destruct HK as (e1 & E1 & HK). apply bind_ok in HK. destruct HK as (eu & EU & HK). apply bind_ok in HK. destruct HK as (E & EM & HK). apply Ok_inj in HK. subst kw. cbn [c_build] in H. apply bind_ok in H. destruct H as (l & L & H). apply Ok_inj in H. subst law.
  exists f, e1, eu, E, l. split; [exact F|]. split; [exact E1|]. split; [exact EU|]. split; [exact EM|]. split; [reflexivity|].
  assert (L' := L). unfold popovics_init in L'. cbv zeta in L'. revert L'. destruct (Rleb_spec E 0) as [X|X]; [discriminate|]. destruct (Reqb_spec e1 0) as [Y|Y]; [discriminate|]. intros _.
  split; [lra|]. split; [exact Y|]. intros F0 EU0 SEC.
  assert (SH := fun e => C07_popovics_shape f e1 eu (Some E) l e L). rewrite (Rabs_pos_eq f) in SH by lra.
  split.
  - intros S LE. destruct (SH 0) as (_ & _ & _ & S4); [lra|exact EU0|exact SEC|]. exact (S4 S LE).
  - intros e. destruct (SH e) as (S1 & S2 & S3 & _); [lra|exact EU0|exact SEC|]. split; [exact S1|split; [exact S2|exact S3]].
Qed.
Print Assumptions C42_popovics.

(** Elastic: the mean modulus, at every strain. *)
Theorem C42_elastic : forall c fck ex a o law, concrete_init c fck ex a (LName "elastic") = Ok (o, law) ->
  exists E l, get_Em o = Ok E /\ law = LElastic l /\ 0 < E /\ forall e, elastic_stress l e = E * e.
Proof.
  intros c fck ex a o law H. apply init_name in H. cbn in H. apply bind_ok in H. destruct H as (kw & HK & H). apply bind_ok in HK. destruct HK as (E & EM & HK). apply Ok_inj in HK. subst kw. cbn [c_build] in H. apply bind_ok in H. destruct H as (l & L & H). apply Ok_inj in H. subst law.
  exists E, l. destruct (C07_elastic_modulus_positive _ _ _ L) as [P Q]. split; [exact EM|]. split; [reflexivity|]. split; [exact P|]. intros e. unfold elastic_stress. rewrite Q. reflexivity.
Qed.
Print Assumptions C42_elastic.

(** An elastic material made from a concrete has the slope at zero strain of the concrete's law. *)
Theorem C42_from_material : forall c fck ex a n o law, concrete_init c fck ex a (LName n) = Ok (o, law) ->
  (n = "elastic"%string -> exists E l, get_Em o = Ok E /\ from_material law = Ok l /\ forall e, elastic_stress l e = E * e) /\
  (n = "parabolarectangle"%string -> exists f, get_fcd o = Ok f /\ (0 < f -> get_eps_c2 o <> 0 -> 0 < get_n o ->
     exists E l, from_material law = Ok l /\ E * get_eps_c2 o = get_n o * f /\ forall e, elastic_stress l e = E * e)) /\
  (n = "bilinearcompression"%string -> exists f, get_fcd o = Ok f /\ (0 < f -> exists E l, from_material law = Ok l /\ E * get_eps_c3 o = f /\ forall e, elastic_stress l e = E * e)) /\
  (n = "sargin"%string -> exists e1 k, get_eps_c1 o = Ok e1 /\ get_k o = Ok k /\ (e1 <> 0 -> 0 < k ->
     exists E l, from_material law = Ok l /\ E * Rabs e1 = k * get_fcm o /\ forall e, elastic_stress l e = E * e)) /\
  (n = "popovics"%string -> exists f e1 eu E, get_fcd o = Ok f /\ get_eps_c1 o = Ok e1 /\ get_eps_cu1 o = Ok eu /\ get_Em o = Ok E /\
     (0 < f -> eu <> 0 -> f / Rabs e1 < E -> far (- Rabs eu) 0 -> exists l, from_material law = Ok l /\ forall e, elastic_stress l e = E * e)).
Proof.
  intros c fck ex a n o law H.
  assert (MK : forall E, 0 < E -> elastic_material E None = Ok {| el_E := E; el_u := None |}).
  { intros E P. unfold elastic_material, elastic_init. rewrite (proj2 (Rleb_false _ _)) by lra. reflexivity. }
  split; [|split; [|split; [|split]]]; intros ->.
  - destruct (C42_elastic _ _ _ _ _ _ H) as (E & l & HE & -> & P & S). exists E, l. split; [exact HE|]. split; [|exact S].
    apply init_name in H. change (bind (bind (get_Em o) (fun E => Ok (CKElastic E))) (c_build CElastic) = Ok (LElastic l)) in H. rewrite HE in H. cbn [bind c_build] in H. unfold elastic_init in H. rewrite (proj2 (Rleb_false _ _)) in H by lra. cbn [bind] in H. apply Ok_inj in H. injection H as <-.
    unfold from_material. cbn [tangent_at_zero bind elastic_tangent el_E]. apply MK, P.
  - pose proof (C42_values _ _ _ _ _ _ _ H) as V. destruct V as (_ & _ & _ & _ & _ & _ & _ & _ & V1 & _).
    assert (P1 : 0 <= get_eps_c2 o). { rewrite V1. destruct (a_eps_c2 a); [apply Rabs_pos|]. destruct c; [| |lra]; (unfold ec_eps_c2; cbv zeta; destruct (Rleb _ 50); [lra|]; pose proof (pw_nonneg (Rabs fck - 50) (53 / 100)); lra). }
    apply init_name in H. cbn in H. apply bind_ok in H. destruct H as (k & HK & H). apply bind_ok in HK. destruct HK as (f & F & HK). apply Ok_inj in HK. subst k. cbn [c_build] in H. apply Ok_inj in H. subst law.
    exists f. split; [exact F|]. intros F0 E0 N0. exists (get_n o * f / get_eps_c2 o). eexists. split; [|split].
    + unfold from_material. cbn [tangent_at_zero bind]. unfold pr_tangent, pr_init. cbn [pr_fc pr_e0 pr_n]. rewrite (Rabs_pos_eq f) by lra. rewrite (Rabs_pos_eq (get_eps_c2 o)) by exact P1.
      rewrite (proj2 (Rleb_true _ _)) by lra. rewrite (proj2 (Rleb_true 0 0)) by lra. cbn [andb].
      replace (1 - 0 / - get_eps_c2 o) with 1 by (field; exact E0). rewrite pypow_1. replace (get_n o * - f / - get_eps_c2 o * 1) with (get_n o * f / get_eps_c2 o) by (field; exact E0).
      apply MK. apply Rdiv_lt_0_compat; [apply Rmult_lt_0_compat; assumption|lra].
    + field. exact E0.
    + reflexivity.
  - destruct (C42_bilinear _ _ _ _ _ _ H) as (f & l & F & -> & F0 & E0 & _). exists f. split; [exact F|]. intros FP.
    assert (C : c <> ClsEC2_2023) by (intros ->; rewrite C42_no_bilinear_2023 in H; discriminate).
    pose proof (init_ok _ _ _ _ _ _ _ H) as [O _]. assert (CC : c_cls o = c) by (rewrite O; reflexivity).
    apply init_name in H. unfold create_law in H. change (dict_get constitutive_laws (lower "bilinearcompression")) with (Some CBilinear) in H. cbv iota in H.
    assert (M : c_methods o ("__" ++ "bilinearcompression" ++ "__") = Some (do fc <- get_fcd o; Ok (CKBilinear fc (get_eps_c3 o) (get_eps_cu3 o)))) by (cbn; rewrite CC; destruct c; [reflexivity|reflexivity|contradiction C; reflexivity]).
    rewrite M, F in H. cbn [bind c_build] in H. unfold bil_init in H. destruct (Reqb_spec (get_eps_c3 o) 0); [lra|]. cbn [bind] in H. apply Ok_inj in H. injection H as <-.
    exists (f / get_eps_c3 o). eexists. split; [|split].
    + unfold from_material. cbn [tangent_at_zero bind]. unfold bil_tangent. cbn [bi_ec bi_E]. rewrite (Rabs_pos_eq f) by lra. rewrite (Rabs_pos_eq (get_eps_c3 o)) by lra.
      rewrite (proj2 (Rltb_true _ _)) by lra. rewrite (proj2 (Rleb_true 0 0)) by lra. cbn [andb]. replace (- f / - get_eps_c3 o) with (f / get_eps_c3 o) by (field; lra). apply MK. apply Rdiv_lt_0_compat; lra.
    + field. lra.
    + reflexivity.
  - pose proof (C42_values _ _ _ _ _ _ _ H) as V. destruct V as (_ & _ & V & _). assert (FM : 0 < get_fcm o) by (pose proof (Rabs_pos fck); lra).
    apply init_name in H. cbn in H. apply bind_ok in H. destruct H as (kw & HK & H). apply bind_ok in HK. destruct HK as (e1 & E1 & HK). apply bind_ok in HK. destruct HK as (eu & EU & HK). apply bind_ok in HK. destruct HK as (k & K & HK). apply Ok_inj in HK. subst kw. cbn [c_build] in H. apply Ok_inj in H. subst law.
    exists e1, k. split; [exact E1|]. split; [exact K|]. intros N KP. assert (A1 : 0 < Rabs e1) by (apply Rabs_pos_lt, N).
    exists (k * get_fcm o / Rabs e1). eexists. split; [|split].
    + unfold from_material. cbn [tangent_at_zero]. unfold sargin_tangent, sargin_init. cbn [sa_fc sa_ec1 sa_ecu1 sa_k].
      destruct (Reqb_spec (- Rabs e1) 0) as [X|X]; [exfalso; lra|]. replace (1 + (k - 2) * (0 / - Rabs e1)) with 1 by (field; lra). destruct (Reqb_spec 1 0) as [Y|Y]; [exfalso; lra|].
      rewrite (proj2 (Rltb_false 0 (- Rabs eu))) by (pose proof (Rabs_pos eu); lra). rewrite (proj2 (Rltb_false 0 0)) by lra. cbn [orb bind].
      unfold sargin_raw_tangent. cbn [sa_fc sa_ec1 sa_ecu1 sa_k]. cbv zeta. rewrite (Rabs_pos_eq (get_fcm o)) by lra.
      replace (- get_fcm o / - Rabs e1 * ((2 - k) * (0 / - Rabs e1) ^ 2 - 2 * (0 / - Rabs e1) + k) / (1 + (k - 2) * (0 / - Rabs e1)) ^ 2) with (k * get_fcm o / Rabs e1).
      * apply MK. apply Rdiv_lt_0_compat; [apply Rmult_lt_0_compat; assumption|exact A1].
      * replace (0 / - Rabs e1) with 0 by (field; lra). field. lra.
    + field. lra.
    + reflexivity.
  - destruct (C42_popovics _ _ _ _ _ _ H) as (f & e1 & eu & E & l & F & E1 & EU & EM & -> & EP & N & _). exists f, e1, eu, E. split; [exact F|]. split; [exact E1|]. split; [exact EU|]. split; [exact EM|].
    intros F0 EU0 SEC FAR. apply init_name in H. 
    change (bind (bind (get_fcd o) (fun fc => bind (get_eps_c1 o) (fun e => bind (get_eps_cu1 o) (fun u => bind (get_Em o) (fun E => Ok (CKPopovics fc e u E)))))) (c_build CPopovics) = Ok (LPopovics l)) in H.
    rewrite F, E1, EU, EM in H. cbn [bind c_build] in H. apply bind_ok in H. destruct H as (l' & L & H). apply Ok_inj in H. injection H as ->.
    assert (A1 : 0 < Rabs e1) by (apply Rabs_pos_lt, N).
    unfold popovics_init in L. cbv zeta in L. revert L. destruct (Rleb_spec E 0); [discriminate|]. destruct (Reqb_spec e1 0); [discriminate|]. destruct (Reqb_spec (E - - Rabs f / - Rabs e1) 0) as [Z|Z]; [discriminate|]. intros L. apply Ok_inj in L. subst l.
    eexists. split; [|].
    + unfold from_material. cbn [tangent_at_zero bind]. unfold popovics_tangent, popovics_ult, popovics_raw_tangent. cbn [po_fc po_ec po_ecu po_n]. cbv zeta.
      rewrite prep_far; cbn [fst snd]; [|unfold far, tol; rewrite (Rabs_left (0 - 100)) by lra; rewrite (Rabs_pos_eq 100) by lra; lra|exact FAR].
      rewrite (proj2 (Rltb_false 0 (- Rabs eu))) by (pose proof (Rabs_pos eu); lra). rewrite (proj2 (Rltb_false 0 0)) by lra. cbn [orb].
      replace (0 / - Rabs e1) with 0 by (field; lra). rewrite (Rabs_pos_eq f) in * by lra.
      assert (SP : 0 < f / Rabs e1) by (apply Rdiv_lt_0_compat; assumption).
      replace (- f / - Rabs e1) with (f / Rabs e1) in * by (field; lra).
      rewrite pypow_0 by (apply Rgt_not_eq; apply Rdiv_lt_0_compat; lra).
      replace ((1 - 0) / (E / (E - f / Rabs e1) - 1 + 0) ^ 2 * (E / (E - f / Rabs e1)) * (E / (E - f / Rabs e1) - 1) * - f / - Rabs e1) with E; [apply MK, EP|].
      set (s := f / Rabs e1) in *. replace f with (s * Rabs e1) by (unfold s; field; lra). field. repeat split; try lra.
    + reflexivity.
Qed.
Print Assumptions C42_from_material.

(** With the default options, for every usual grade and every code: the plateau of the parabola-rectangle law is
    the design strength fck/1.5 (EC2:2023: reduced above 40), between the code's strain limits. *)
Theorem C42_defaults : forall c fck, 12 <= fck <= 899 / 10 -> exists o l f,
  concrete_init c fck false plain (LName "parabolarectangle") = Ok (o, LParabola l) /\ get_fcd o = Ok f /\ 0 < f /\
  match c with ClsEC2_2023 => (fck <= 40 -> f * (3 / 2) = fck) /\ (40 < fck -> (f * (3 / 2)) ^ 3 = 40 * fck ^ 2) | _ => f * (3 / 2) = fck end /\
  plateau f (match c with ClsEC2_2023 => 2 / 1000 | _ => ec_eps_c2 fck end) (match c with ClsEC2_2023 => 35 / 10000 | _ => ec_eps_cu2 fck end) (pr_stress l).
Proof.
  intros c fck B. assert (FA : Rabs fck = fck) by (apply Rabs_pos_eq; lra).
  assert (A : acceptable c fck plain).
  { split; [discriminate|]. split; [discriminate|]. split; [discriminate|]. intros _. split; [|discriminate]. exists "CN"%string. split; [right; left; reflexivity|]. exists ""%string, "CN"%string, ""%string. repeat split. }
  set (o := concrete_attrs c fck plain).
  assert (F : exists f, get_fcd o = Ok f /\ 0 < f /\ match c with ClsEC2_2023 => (fck <= 40 -> f * (3 / 2) = fck) /\ (40 < fck -> (f * (3 / 2)) ^ 3 = 40 * fck ^ 2) | _ => f * (3 / 2) = fck end).
  { assert (NC : c <> ClsEC2_2023 -> exists f, get_fcd o = Ok f /\ 0 < f /\ f * (3 / 2) = fck).
    { intros N. destruct (C42_checks c fck false plain (LOther true)) as (Y & _). destruct (Y A eq_refl) as (o' & E). pose proof (init_ok _ _ _ _ _ _ _ E) as [-> _]. destruct (C42_fcd _ _ _ _ _ _ _ N E) as (f & al & g & F & AL & G & _ & V & _).
      exists f. split; [exact F|]. destruct AL as [[_ ->]|[(x & X & _)|[X _]]]; try discriminate. destruct G as [[_ ->]|[(x & X & _)|[X _]]]; try discriminate.
      rewrite FA, (Rabs_pos_eq 1), (Rabs_pos_eq (15 / 10)) in V by lra. split; lra. }
    destruct c; [apply NC; discriminate|apply NC; discriminate|]. clear NC.
    destruct (C42_checks ClsEC2_2023 fck false plain (LOther true)) as (Y & _). destruct (Y A eq_refl) as (o' & E). pose proof (init_ok _ _ _ _ _ _ _ E) as [-> _]. fold o in E.
    destruct (C42_fcd_2023 _ _ _ _ _ _ normal "CN"%string E) as (D & F & _); [left; reflexivity|exists ""%string, "CN"%string, ""%string; repeat split|].
    assert (G : get_gamma_c o = 15 / 10) by reflexivity. rewrite G, FA in F. destruct (F 28 91 40) as (f & eta & k & F1 & F2 & F3 & F4 & F5 & F6 & F7); try lra.
    rewrite <- D in F1. exists f. split; [exact F1|]. split; [lra|].
    assert (K1 : k = 1). { rewrite F7. destruct (Rle_dec 28 28); [|lra]. destruct (Rlt_dec 90 91); [reflexivity|lra]. } rewrite K1 in F2. split; intros L.
    - rewrite (F5 L) in F2. lra.
    - specialize (F6 L). replace (f * (3 / 2)) with (eta * fck) by lra. rewrite <- F6. ring. }
  destruct F as (f & F & FP & FV).
  assert (I : exists l, concrete_init c fck false plain (LName "parabolarectangle") = Ok (o, LParabola l)).
  { eexists. rewrite init_law by exact A. fold o. change (create_law (c_methods o) c_build "parabolarectangle") with (bind (bind (get_fcd o) (fun fc => Ok (CKParabola fc (get_eps_c2 o) (get_eps_cu2 o) (get_n o)))) (c_build CParabola)). rewrite F. reflexivity. }
  destruct I as (l & I). exists o, l, f. split; [exact I|]. split; [exact F|]. split; [exact FP|]. split; [exact FV|].
  pose proof (C42_values _ _ _ _ _ _ _ I) as (_ & _ & _ & _ & _ & _ & _ & _ & V1 & V2 & V3 & _). unfold chosen, kept in V1, V2, V3. cbn [plain a_eps_c2 a_eps_cu2 a_n] in V1, V2, V3.
  destruct (C42_parabola _ _ _ _ _ _ I) as (f' & l' & F' & L & _ & P). injection L as <-. rewrite F in F'. apply Ok_inj in F'. subst f'. rewrite V1, V2, V3 in P.
  apply P; destruct C34_strain_order as (_ & _ & O2 & _ & _ & _ & ON); destruct c; try lra.
  all: try (specialize (O2 fck ltac:(rewrite FA; lra)); lra). all: specialize (ON fck ltac:(rewrite FA; lra)); lra.
Qed.
Print Assumptions C42_defaults.

Example C42_plain_acceptable : acceptable ClsEC2_2004 (-30) plain /\ acceptable ClsEC2_2023 30 plain /\ ~ acceptable ClsEC2_2004 30 {| a_gamma_c := None; a_alpha_cc := None; a_kE := 9500; a_dev := "CN";
  a_fcm := Some (-30); a_fctm := None; a_ft_lo := None; a_ft_hi := None; a_Em := None; a_Gf := None;
  a_eps_c1 := None; a_eps_cu1 := None; a_k := None; a_eps_c2 := None; a_eps_cu2 := None; a_n := None; a_eps_c3 := None; a_eps_cu3 := None |}.
Proof.
  split; [|split].
  - split; [discriminate|]. split; [discriminate|]. split; [discriminate|]. intros E. discriminate E.
  - split; [discriminate|]. split; [discriminate|]. split; [discriminate|]. intros _. split; [|discriminate]. exists "CN"%string. split; [right; left; reflexivity|]. exists ""%string, "CN"%string, ""%string. repeat split.
  - intros (A & _). specialize (A (-30) eq_refl). rewrite (Rabs_left (-30)), (Rabs_pos_eq 30) in A by lra. lra.
Qed.

(** Model Code 2010 with the default options, for every tabulated grade: Sargin's curve has no pole, peaks at the
    mean strength fck + 8 at the tabulated strain, and stays above it everywhere. *)
Theorem C42_sargin_defaults : forall fck, 12 <= fck <= 120 -> exists o l e u,
  concrete_init ClsMC2010 fck false plain (LName "sargin") = Ok (o, LSargin l) /\ mc_eps_c1 fck = Ok e /\ mc_eps_cu1 fck = Ok u /\
  (forall x v, sargin_stress l x = Ok v -> - (fck + 8) <= v) /\
  (forall x, settled (u, 100) x -> u <= x <= 0 -> exists v, sargin_stress l x = Ok v) /\
  (fck <= 90 -> sargin_stress l e = Ok (- (fck + 8))).
Proof.
  intros fck B. assert (FA : Rabs fck = fck) by (apply Rabs_pos_eq; lra).
  destruct (mc_sargin_regular fck B) as (e & u & k & E & U & K & EN & EU & D).
  assert (A : acceptable ClsMC2010 fck plain) by (split; [discriminate|]; split; [discriminate|]; split; [discriminate|]; intros X; discriminate X).
  set (o := concrete_attrs ClsMC2010 fck plain).
  assert (HE : get_eps_c1 o = Ok e) by (change (get_eps_c1 o) with (mc_eps_c1 (Rabs fck)); rewrite FA; exact E).
  assert (HU : get_eps_cu1 o = Ok u) by (change (get_eps_cu1 o) with (mc_eps_cu1 (Rabs fck)); rewrite FA; exact U).
  assert (HK : get_k o = Ok k) by (change (get_k o) with (mc_k_sargin (Rabs fck)); rewrite FA; exact K).
  assert (I : exists l, concrete_init ClsMC2010 fck false plain (LName "sargin") = Ok (o, LSargin l)).
  { eexists. rewrite init_law by exact A. fold o. change (create_law (c_methods o) c_build "sargin") with (bind (bind (get_eps_c1 o) (fun e => bind (get_eps_cu1 o) (fun u => bind (get_k o) (fun k => Ok (CKSargin (get_fcm o) e u k))))) (c_build CSargin)). rewrite HE, HU, HK. reflexivity. }
  destruct I as (l & I). exists o, l, e, u. split; [exact I|]. split; [exact E|]. split; [exact U|].
  pose proof (C42_values _ _ _ _ _ _ _ I) as (_ & FM & _). unfold chosen in FM. cbn [plain a_fcm] in FM. rewrite FA in FM.
  destruct (C42_sargin _ _ _ _ _ _ I) as (e' & u' & k' & l' & E' & U' & K' & L' & H). rewrite HE in E'. rewrite HU in U'. rewrite HK in K'. apply Ok_inj in E', U', K'. subst e' u' k'. injection L' as <-.
  destruct (H ltac:(lra) EU D) as (H1 & H2 & H3). rewrite FM in *.
  assert (UN : u < 0). { rewrite (Rabs_left e EN) in EU. destruct (Rle_dec 0 u) as [N|N]; [|lra]. exfalso. destruct (C34_mc_tables fck) as (T & _). destruct (T B) as (? & u0 & ? & _ & U0 & _ & _ & _ & _ & X & _). rewrite U in U0. apply Ok_inj in U0. lra. }
  rewrite (Rabs_left e EN), (Rabs_left u UN), ?Ropp_involutive in *.
  split; [intros x v V; destruct (H3 x v V) as [Q _]; exact Q|]. split; [intros x S X; eexists; exact (H2 x S X)|].
  intros F9. apply H1. left. cbn [fst snd].
  assert (GAP : u <= - (30 / 10000) /\ - (35 / 10000) <= u /\ - (29 / 10000) <= e).
  { pose proof (C34_mc_tables_monotone fck 90 e _ u _ k _ F9 E e_90 U u_90 K k_90) as (Q1 & Q2 & _). split; [lra|]. split; [|lra].
    pose proof (C34_mc_tables_monotone 12 fck _ e _ u _ k ltac:(lra) e_12 E u_12 U k_12 K) as (_ & Q3 & _). lra. }
  unfold far, tol. rewrite (Rabs_left u), (Rabs_left (e - 100)), (Rabs_pos_eq 100) by lra. destruct GAP as (G1 & G2 & G3). split; [|lra].
  destruct (Rle_dec 0 (e - u)) as [W|W]; [rewrite (Rabs_pos_eq (e - u)) by exact W; lra|exfalso; lra].
Qed.
Print Assumptions C42_sargin_defaults.
