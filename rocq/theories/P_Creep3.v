(** C36: the notional size of EN 1992-1-1 and the whole creep coefficient of MC2010, put together from its parts as a caller does. *)
From Coq Require Import String ZArith Lra Lia.
From Verif Require Import Base S_Marin L_Marin M_Registry M_Calc S_Calc L_Calc M_Conc S_Conc L_Conc M_Creep S_Creep L_Creep P_Creep P_Creep2.
Open Scope R_scope.
Open Scope list_scope.

(** The notional size: twice the area over the drying perimeter. For a slab of thickness t drying on both faces it is t, for a square column of side b it is b / 2, and it scales as a length. *)
Theorem C36_ec_size :
  (forall Ac u, u <> 0 -> ec_h_0 Ac u * u = 2 * Ac) /\ (forall b t, 0 < b -> ec_h_0 (b * t) (2 * b) = t) /\
  (forall b, 0 < b -> ec_h_0 (b * b) (4 * b) = b / 2) /\ (forall Ac u k, u <> 0 -> k <> 0 -> ec_h_0 (k ^ 2 * Ac) (k * u) = k * ec_h_0 Ac u).
Proof. repeat split; intros; unfold ec_h_0; field; lra. Qed.
Print Assumptions C36_ec_size.

(** The size coefficient of MC2010: 1.5 h + 250 alpha up to the notional size 2500 alpha / 3, the constant 1500 alpha above it. *)
Theorem C36_mc_size : forall h a, 0 < a ->
  (3 * h <= 2500 * a -> 2 * mc_beta_h h a = 3 * h + 500 * a) /\ (2500 * a <= 3 * h -> mc_beta_h h a = 1500 * a) /\ never_falls (fun _ => True) (fun h => mc_beta_h h a).
Proof.
  intros h a P. repeat split; unfold mc_beta_h.
  - intros H. rewrite Rmin_left; lra.
  - intros H. rewrite Rmin_right; lra.
  - intros x y _ _ L. unfold Rmin. do 2 destruct (Rle_dec _ _); lra.
Qed.
Print Assumptions C36_mc_size.

(** The creep coefficient of MC2010 as a function of time, for a concrete, a humidity, a notional size and an age at loading: it is nothing at loading, always increases, has no bound (the basic part grows as a logarithm), its drying part never reaches the product of the three factors it develops, and its parts are the products the code writes. *)
Theorem C36_mc_total : forall fcm h rh r t0 ta, 0 < fcm -> 0 < h -> humidity rh r -> 0 < ta -> exists b, mc_beta_dc_RH rh h = Ok b /\
  let bc t := mc_phi_bc (mc_beta_bc_fcm fcm) (mc_beta_bc_t t t0 ta) in
  let dc t := mc_phi_dc (mc_beta_dc_fcm fcm) b (mc_beta_dc_t0 ta) (mc_beta_dc_t t t0 (mc_beta_h h (mc_alpha_fcm fcm)) (mc_gamma_t0 ta)) in
  let phi t := bc t + dc t in
  phi t0 = 0 /\ increases (fun t => t0 <= t) phi /\ (forall M, exists t, t0 <= t /\ M < phi t) /\
  (forall t, t0 <= t -> exp (bc t / mc_beta_bc_fcm fcm) = 1 + (30 / ta + 35 / 1000) ^ 2 * (t - t0)) /\
  (forall t, t0 <= t -> 0 <= dc t <= mc_beta_dc_fcm fcm * b * ec_beta_t0 ta) /\ settles dc (mc_beta_dc_fcm fcm * b * ec_beta_t0 ta) /\
  (forall t, t0 < t -> r < 1 -> ln (dc t / (mc_beta_dc_fcm fcm * b * ec_beta_t0 ta)) = mc_gamma_t0 ta * (ln (t - t0) - ln (mc_beta_h h (mc_alpha_fcm fcm) + (t - t0)))).
Proof.
  intros fcm h rh r t0 ta PF PH HR PT.
  destruct (C36_mc_humidity fcm PF) as (HU & _). destruct (HU rh r HR) as (_ & _ & HB). destruct (HB h PH) as (b & x & EB & PX & _ & EV & PB).
  exists b. split; [exact EB|]. intros bc dc phi.
  destruct (C36_mc_basic_creep t0 ta PT) as (B0 & BI & BU & BE & BF & DF).
  destruct (C36_mc_drying_creep t0 (mc_beta_h h (mc_alpha_fcm fcm)) ta) as (D0 & DR & DI & DS & _ & _ & _ & DL & _).
  { unfold mc_beta_h. assert (PS : 0 < mc_alpha_fcm fcm) by (apply sqrt_lt_R0, Rdiv_lt_0_compat; lra). unfold Rmin. destruct (Rle_dec _ _); lra. }
  { exact PT. }
  destruct (BF fcm PF) as (PBF & _). destruct (DF fcm PF) as (PDF & _). destruct C36_ec_phi0 as (_ & _ & _ & PT0 & _ & ET0). assert (PE : 0 < ec_beta_t0 ta) by (apply PT0; lra).
  set (w := mc_beta_dc_fcm fcm * b * ec_beta_t0 ta). set (g := fun t => mc_beta_dc_t t t0 (mc_beta_h h (mc_alpha_fcm fcm)) (mc_gamma_t0 ta)).
  assert (Ed : forall t, dc t = w * g t) by (intros t; unfold dc, mc_phi_dc; rewrite ET0; reflexivity).
  assert (Eb : forall t, bc t = mc_beta_bc_fcm fcm * mc_beta_bc_t t t0 ta) by (intros t; reflexivity).
  assert (PW : 0 <= w) by (unfold w; apply Rmult_le_pos; [apply Rmult_le_pos; lra|lra]).
  assert (DN : forall s t, t0 <= s -> s < t -> dc s <= dc t).
  { intros s t Ls L. rewrite !Ed. apply Rmult_le_compat_l; [exact PW|]. left. apply DI; lra. }
  repeat split.
  - unfold phi. rewrite Ed, Eb, B0. unfold g. cbv beta in D0. rewrite D0. ring.
  - intros s t Ls Lt L. unfold phi. rewrite !Eb. pose proof (Rmult_lt_compat_l _ _ _ PBF (BI s t Ls Lt L)). cbv beta in H. specialize (DN s t Ls L). lra.
  - intros M. destruct (BU (M / mc_beta_bc_fcm fcm)) as (t & Lt & LM). exists t. split; [exact Lt|]. unfold phi. rewrite Eb.
    assert (G : 0 <= dc t) by (rewrite Ed; apply Rmult_le_pos; [exact PW|apply DR, Lt]).
    apply (Rmult_lt_compat_l (mc_beta_bc_fcm fcm)) in LM; [|exact PBF]. replace (mc_beta_bc_fcm fcm * (M / mc_beta_bc_fcm fcm)) with M in LM by (field; lra). lra.
  - intros t Lt. rewrite <- (BE t Lt). f_equal. rewrite Eb. field. lra.
  - rewrite Ed. apply Rmult_le_pos; [exact PW|apply DR; assumption].
  - rewrite Ed. rewrite <- (Rmult_1_r w) at 2. apply Rmult_le_compat_l; [exact PW|]. left. apply DR; assumption.
  - intros e PEe. destruct (DS (e / (w + 1))) as (T & HT); [apply Rdiv_lt_0_compat; lra|]. exists T. intros t Lt. rewrite Ed. specialize (HT t Lt). fold (g t) in HT.
    replace (w * g t - w) with (w * (g t - 1)) by ring. rewrite Rabs_mult, (Rabs_right w) by lra.
    apply Rle_lt_trans with (w * (e / (w + 1))); [apply Rmult_le_compat_l; lra|].
    apply Rmult_lt_reg_r with (w + 1); [lra|]. replace (w * (e / (w + 1)) * (w + 1)) with (w * e) by (field; lra). nra.
  - intros t Lt Lr. rewrite <- (DL t Lt). f_equal. rewrite Ed. unfold g. field.
    assert (NB : 0 < b) by (destruct PB as [P|<-]; [exact P|lra]). apply Rgt_not_eq. unfold w. apply Rmult_lt_0_compat; [apply Rmult_lt_0_compat|]; lra.
Qed.
Print Assumptions C36_mc_total.

(** The hypotheses are met. *)
Example C36_total_case : exists b, mc_beta_dc_RH 50 200 = Ok b /\ 0 < b /\ 2 * mc_beta_h 200 1 = 1100 /\ mc_beta_h 1000 1 = 1500 /\ ec_h_0 90000 1200 = 150.
Proof.
  destruct (C36_mc_humidity 38 ltac:(lra)) as (HU & _). destruct (HU 50 (5 / 10)) as (_ & _ & HB); [unfold humidity; lra|]. destruct (HB 200 ltac:(lra)) as (b & x & EB & PX & _ & EV & PB).
  exists b. split; [exact EB|]. split; [destruct PB as [P|<-]; [exact P|lra]|].
  destruct (C36_mc_size 200 1 ltac:(lra)) as (A & _). destruct (C36_mc_size 1000 1 ltac:(lra)) as (_ & B & _).
  rewrite A, B by lra. repeat split; try lra. unfold ec_h_0. lra.
Qed.
