(** Lemmas for the concrete materials. *)
From Coq Require Import String Lra Lia.
From Verif Require Import Base M_Laws S_Laws M_Registry M_Reinf M_Calc S_Calc L_Calc M_Conc S_Conc L_Conc P_Conc M_Crack L_Crack M_Concrete S_Concrete.
Open Scope R_scope.
Open Scope list_scope.

Lemma py_or_factor a d v : py_or a d = v <-> factor_or a d v.
Proof.
  unfold py_or, factor_or. destruct a as [x|].
  - destruct (Reqb_spec x 0) as [E|E].
    + split; [intros <-; right; right; subst; auto|]. intros [[X _]|[(y & X & N & ->)|[X ->]]]; [discriminate| |reflexivity]. injection X as ->. contradiction.
    + split; [intros <-; right; left; exists x; auto|]. intros [[X _]|[(y & X & N & ->)|[X ->]]]; [discriminate|injection X as ->; reflexivity|]. injection X as ->. contradiction.
  - split; [intros <-; left; auto|]. intros [[_ ->]|[(y & X & _)|[X _]]]; [reflexivity|discriminate|discriminate].
Qed.
Lemma dev_ok s : one_of (lower (str_strip s)) ["cs"; "cn"; "cr"; "slow"; "normal"; "rapid"]%string = true <-> exists w, In w dev_classes /\ written w s.
Proof.
  rewrite <- lower_strip. rewrite one_of_lower by (repeat (apply Forall_cons; [split; reflexivity|]); apply Forall_nil).
  assert (W : forall v w, str_upper v = str_upper w -> written v s -> written w s).
  { intros v w E (a & u & b & -> & A & B & S). exists a, u, b. split; [reflexivity|]. split; [exact A|]. split; [exact B|]. apply same_word_upper in S. apply same_word_upper. congruence. }
  split; intros (w & I & H).
  - exists (str_upper w). split; [|apply (W w); [|exact H]].
    + cbn in I. repeat (destruct I as [<-|I]; [cbn; tauto|]). destruct I.
    + cbn in I. repeat (destruct I as [<-|I]; [reflexivity|]). destruct I.
  - exists (lower w). split; [|apply (W w); [|exact H]].
    + cbn in I. repeat (destruct I as [<-|I]; [cbn; tauto|]). destruct I.
    + rewrite upper_lower. reflexivity.
Qed.
Lemma given_and_spec p (P : R -> Prop) a : (forall x, p x = true <-> P x) -> given_and p a = true <-> exists x, a = Some x /\ P x.
Proof. intros H. destruct a as [x|]; cbn; [rewrite H; split; [intros Q; exists x; auto|intros (y & E & Q); injection E as ->; exact Q]|]. split; [discriminate|intros (y & E & _); discriminate]. Qed.
Lemma refuse_true c : c = true -> refuse c = Err ValueError.
Proof. intros ->. reflexivity. Qed.
Lemma not_true b : b <> true -> b = false.
Proof. destruct b; congruence. Qed.
Lemma post_init_spec c fck a : (acceptable c fck a -> post_init (concrete_attrs c fck a) = Ok tt) /\ (~ acceptable c fck a -> post_init (concrete_attrs c fck a) = Err ValueError).
Proof.
  pose proof (given_and_spec (fun f => Rleb f (Rabs fck)) (fun f => f <= Rabs fck) (abs_arg (a_fcm a)) (fun x => Rleb_true x (Rabs fck))) as G1.
  pose proof (given_and_spec (fun k => Rltb k 0) (fun k => k < 0) (a_k a) (fun x => Rltb_true x 0)) as G2.
  pose proof (given_and_spec (fun k => Rltb k 0) (fun k => k < 0) (a_n a) (fun x => Rltb_true x 0)) as G3.
  pose proof (given_and_spec (fun g => Rleb g 0) (fun g => g <= 0) (a_gamma_c a) (fun x => Rleb_true x 0)) as G4.
  pose proof (dev_ok (a_dev a)) as G5.
  unfold post_init, concrete_attrs, acceptable. cbn [c_a c_cls c_fck a_dev a_gamma_c a_fcm a_k a_n].
  set (b1 := given_and _ (abs_arg (a_fcm a))) in *. set (b2 := given_and _ (a_k a)) in *. set (b3 := given_and _ (a_n a)) in *. set (b4 := given_and _ (a_gamma_c a)) in *. set (b5 := one_of _ _) in *.
  assert (A1 : b1 = false <-> forall f, a_fcm a = Some f -> Rabs fck < Rabs f).
  { split.
    - intros E f F. apply Rnot_le_lt. intros L. assert (b1 = true) by (apply G1; exists (Rabs f); split; [unfold abs_arg; rewrite F; reflexivity|exact L]). congruence.
    - intros H. apply not_true. intros T. apply G1 in T. destruct T as (x & E & L). unfold abs_arg in E. destruct (a_fcm a) as [f|]; [|discriminate]. injection E as <-. specialize (H f eq_refl). lra. }
  assert (A2 : b2 = false <-> forall k, a_k a = Some k -> 0 <= k).
  { split; [intros E k F; apply Rnot_lt_le; intros L; assert (b2 = true) by (apply G2; exists k; auto); congruence|]. intros H. apply not_true. intros T. apply G2 in T. destruct T as (x & E & L). specialize (H _ E). lra. }
  assert (A3 : b3 = false <-> forall k, a_n a = Some k -> 0 <= k).
  { split; [intros E k F; apply Rnot_lt_le; intros L; assert (b3 = true) by (apply G3; exists k; auto); congruence|]. intros H. apply not_true. intros T. apply G3 in T. destruct T as (x & E & L). specialize (H _ E). lra. }
  assert (A4 : b4 = false <-> forall k, a_gamma_c a = Some k -> 0 < k).
  { split; [intros E k F; apply Rnot_le_lt; intros L; assert (b4 = true) by (apply G4; exists k; auto); congruence|]. intros H. apply not_true. intros T. apply G4 in T. destruct T as (x & E & L). specialize (H _ E). lra. }
  clear G1 G2 G3 G4. split.
  - intros (H1 & H2 & H3 & H4). apply A1 in H1. apply A2 in H2. apply A3 in H3. rewrite H1, H2, H3. destruct c; try reflexivity. destruct (H4 eq_refl) as [H5 H6]. apply G5 in H5. apply A4 in H6. rewrite H5, H6. reflexivity.
  - intros N. destruct c; try (destruct b1 eqn:B1; [reflexivity|]; destruct b2 eqn:B2; [reflexivity|]; destruct b3 eqn:B3; [reflexivity|]; exfalso; apply N; split; [apply A1; reflexivity|]; split; [apply A2; reflexivity|]; split; [apply A3; reflexivity|]; discriminate).
    destruct b5 eqn:B5; [|reflexivity]. destruct b4 eqn:B4; [reflexivity|]. destruct b1 eqn:B1; [reflexivity|]. destruct b2 eqn:B2; [reflexivity|]. destruct b3 eqn:B3; [reflexivity|]. exfalso. apply N. split; [apply A1; reflexivity|]. split; [apply A2; reflexivity|]. split; [apply A3; reflexivity|]. intros _. split; [apply G5; reflexivity|apply A4; reflexivity].
Qed.
Lemma init_law c fck ex a n : acceptable c fck a -> concrete_init c fck ex a (LName n) = (do l <- create_law (c_methods (concrete_attrs c fck a)) c_build n; do _ <- refuse (negb (for_concrete l)); Ok (concrete_attrs c fck a, l)).
Proof. intros A. unfold concrete_init. cbn [base_init bind]. rewrite (proj1 (post_init_spec c fck a) A). reflexivity. Qed.
Lemma bind_ok {A B} (x : result A) (f : A -> result B) y : bind x f = Ok y -> exists v, x = Ok v /\ f v = Ok y.
Proof. destruct x as [v|]; cbn; [eauto|discriminate]. Qed.

Lemma strip_strip s : str_strip (str_strip s) = str_strip s.
Proof. destruct (strip_split s) as (a & b & E & A & B). rewrite E at 2. symmetry. apply strip_blanks; assumption. Qed.
Lemma dev_norm s : str_strip (str_upper (lower (str_strip s))) = str_strip (str_upper s).
Proof. rewrite upper_lower, !upper_strip, strip_strip. reflexivity. Qed.
Lemma k_tc_norm t t0 s : e3_k_tc t t0 (lower (str_strip s)) = e3_k_tc t t0 s.
Proof. unfold e3_k_tc. cbv zeta. rewrite dev_norm. reflexivity. Qed.
Lemma k_tt_norm t s : e3_k_tt t (lower (str_strip s)) = e3_k_tt t s.
Proof. unfold e3_k_tt. cbv zeta. rewrite dev_norm. reflexivity. Qed.
Lemma init_ok c fck ex a law o l : concrete_init c fck ex a law = Ok (o, l) -> o = concrete_attrs c fck a /\ acceptable c fck a.
Proof.
  intros H. unfold concrete_init in H. cbn [base_init bind] in H. apply bind_ok in H. destruct H as (? & P & H). apply bind_ok in H. destruct H as (? & _ & H). apply bind_ok in H. destruct H as (? & _ & H). apply Ok_inj in H. injection H as <- _.
  split; [reflexivity|]. destruct (Classical_Prop.classic (acceptable c fck a)) as [A|A]; [exact A|]. pose proof (proj2 (post_init_spec c fck a) A). congruence.
Qed.

Lemma fcd_nonneg o f : get_fcd o = Ok f -> 0 <= f.
Proof.
  intros F. destruct (c_cls o) eqn:C; unfold get_fcd in F; rewrite C in F.
  - apply Ok_inj in F. subst f. unfold mc_fcd. apply Rmult_le_pos; [apply Rmult_le_pos; apply Rabs_pos|]. destruct (Req_dec (get_gamma_c o) 0) as [Z|Z]; [rewrite Z, Rabs_R0, Rinv_0; lra|]. left. apply Rinv_0_lt_compat, Rabs_pos_lt, Z.
  - apply Ok_inj in F. subst f. unfold ec_fcd. apply Rmult_le_pos; [apply Rmult_le_pos; apply Rabs_pos|]. destruct (Req_dec (get_gamma_c o) 0) as [Z|Z]; [rewrite Z, Rabs_R0, Rinv_0; lra|]. left. apply Rinv_0_lt_compat, Rabs_pos_lt, Z.
  - unfold fcd_2023 in F. apply bind_ok in F. destruct F as (eta & E & F). apply bind_ok in F. destruct F as (k & K & F).
    destruct (C34_fcd_2023 _ _ _ _ _ (get_gamma_c o) _ _ E K) as (_ & _ & _ & _ & E1 & E2). destruct (Rle_dec 1 (get_gamma_c o)) as [G|G].
    + destruct (E1 G) as (v & V & _ & P). rewrite V in F. apply Ok_inj in F. lra.
    + rewrite E2 in F by lra. discriminate.
Qed.
Lemma init_name c fck ex a n o l : concrete_init c fck ex a (LName n) = Ok (o, l) -> create_law (c_methods o) c_build n = Ok l.
Proof.
  intros H. pose proof (init_ok _ _ _ _ _ _ _ H) as [O A]. rewrite init_law in H by exact A. apply bind_ok in H. destruct H as (l' & H & H'). apply bind_ok in H'. destruct H' as (? & _ & H'). apply Ok_inj in H'. injection H' as _ <-. rewrite O. exact H.
Qed.
Ltac tabval := unfold mc_eps_c1, mc_eps_cu1, mc_eps_clim, mc_k_sargin, graded;
  repeat match goal with |- context [Rltb ?a ?b] => rewrite (proj2 (Rltb_false a b)) by lra end; cbn [orb];
  unfold np_interp, mc_eps_c1_table, mc_eps_clim_table, mc_k_table; cbn [interp_from fst snd];
  repeat match goal with
  | |- context [Rltb ?a ?b] => first [rewrite (proj2 (Rltb_false a b)) by lra|rewrite (proj2 (Rltb_true a b)) by lra]
  | |- context [Rleb ?a ?b] => first [rewrite (proj2 (Rleb_false a b)) by lra|rewrite (proj2 (Rleb_true a b)) by lra] end;
  f_equal; field.
Lemma k_30 : mc_k_sargin 30 = Ok (204 / 100). Proof. tabval. Qed.
Lemma e_30 : mc_eps_c1 30 = Ok (- (23 / 10000)). Proof. tabval. Qed.
Lemma u_30 : mc_eps_cu1 30 = Ok (- (35 / 10000)). Proof. tabval. Qed.
Lemma k_50 : mc_k_sargin 50 = Ok (166 / 100). Proof. tabval. Qed.
Lemma e_50 : mc_eps_c1 50 = Ok (- (26 / 10000)). Proof. tabval. Qed.
Lemma u_50 : mc_eps_cu1 50 = Ok (- (34 / 10000)). Proof. tabval. Qed.
Lemma k_80 : mc_k_sargin 80 = Ok (141 / 100). Proof. tabval. Qed.
Lemma e_80 : mc_eps_c1 80 = Ok (- (28 / 10000)). Proof. tabval. Qed.
Lemma u_80 : mc_eps_cu1 80 = Ok (- (31 / 10000)). Proof. tabval. Qed.
Lemma k_90 : mc_k_sargin 90 = Ok (136 / 100). Proof. tabval. Qed.
Lemma e_90 : mc_eps_c1 90 = Ok (- (29 / 10000)). Proof. tabval. Qed.
Lemma u_90 : mc_eps_cu1 90 = Ok (- (30 / 10000)). Proof. tabval. Qed.
Lemma k_12 : mc_k_sargin 12 = Ok (244 / 100). Proof. tabval. Qed.
Lemma e_12 : mc_eps_c1 12 = Ok (- (19 / 10000)). Proof. tabval. Qed.
Lemma u_12 : mc_eps_cu1 12 = Ok (- (35 / 10000)). Proof. tabval. Qed.
Lemma mc_sargin_regular fck : 12 <= fck <= 120 -> exists e u k, mc_eps_c1 fck = Ok e /\ mc_eps_cu1 fck = Ok u /\ mc_k_sargin fck = Ok k /\ e < 0 /\ Rabs e <= Rabs u /\ 0 < 1 + (k - 2) * (Rabs u / Rabs e).
Proof.
  intros B. destruct (C34_mc_tables fck) as (T & _). destruct (T B) as (e & u & k & E & U & K & _ & _ & TK & (E1 & E2) & K1). exists e, u, k. split; [exact E|]. split; [exact U|]. split; [exact K|]. split; [exact E2|].
  rewrite (Rabs_left e), (Rabs_left u) by lra. split; [lra|].
  assert (X : (2 - k) * - u < - e).
  { pose proof (fun a ca la ka H X1 X2 X3 => C34_mc_tables_monotone a fck ca e la u ka k H X1 E X2 U X3 K) as ML.
    pose proof (fun a ca la ka H X1 X2 X3 => C34_mc_tables_monotone fck a e ca u la k ka H E X1 U X2 K X3) as MR.
    destruct (Rle_dec fck 30) as [L|L]; [destruct (MR 30 _ _ _ L e_30 u_30 k_30) as (_ & _ & Q); apply Rle_lt_trans with 0; [|lra]; assert (0 <= (k - 2) * - u) by (apply Rmult_le_pos; lra); lra|].
    destruct (Rle_dec fck 50) as [L'|L']; [destruct (MR 50 _ _ _ L' e_50 u_50 k_50) as (_ & _ & Q); destruct (ML 30 _ _ _ ltac:(lra) e_30 u_30 k_30) as (Q1 & Q2 & _); nra|].
    destruct (Rle_dec fck 80) as [L2|L2]; [destruct (MR 80 _ _ _ L2 e_80 u_80 k_80) as (_ & _ & Q); destruct (ML 50 _ _ _ ltac:(lra) e_50 u_50 k_50) as (Q1 & Q2 & _); nra|].
    destruct (ML 80 _ _ _ ltac:(lra) e_80 u_80 k_80) as (Q1 & Q2 & _).
    assert (KL : 11 / 10 <= k) by (apply (table_bounds _ _ _ (11 / 10) 3) in TK; [lra|exact rising_k|intros p I; cbn in I; repeat (destruct I as [<-|I]; [cbn [snd]; lra|]); destruct I]). nra. }
  apply (Rmult_lt_reg_r (- e)); [lra|]. replace ((1 + (k - 2) * (- u / - e)) * - e) with (- e + (k - 2) * - u) by (field; lra). lra.
Qed.
