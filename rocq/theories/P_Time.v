(** C35: development of the concrete strength with time. *)
From Coq Require Import String ZArith Lra Lia.
From Verif Require Import Base S_Marin L_Marin M_Registry M_Calc S_Calc L_Calc M_Conc S_Conc L_Conc M_Creep L_Creep.
Open Scope R_scope.
Open Scope list_scope.

(** EC2:2004 beta_cc: ln beta = s (1 - x) with x^2 t = 28; 1 at 28 days, increasing,
    towards exp s. *)
Theorem C35_beta_cc : forall s, 0 < s ->
  ec_beta_cc 28 s = 1 /\ increases (fun t => 0 < t) (fun t => ec_beta_cc t s) /\ settles (fun t => ec_beta_cc t s) (exp s) /\
  forall t, 0 < t -> 0 < ec_beta_cc t s < exp s /\ exists x, 0 < x /\ x ^ 2 * t = 28 /\ ln (ec_beta_cc t s) = s * (1 - x).
Proof.
  intros s P. destruct (beta_cc_facts s P) as (A & B & C1 & D). split; [exact A|]. split; [exact B|]. split; [exact D|]. intros t T. split; [apply C1, T|].
  exists (sqrt (28 / t)). split; [apply sqrt_lt_R0, Rdiv_lt_0_compat; lra|]. split; [rewrite pow2_sqrt by (apply Rlt_le, Rdiv_lt_0_compat; lra); field; lra|]. apply ln_exp.
Qed.
Print Assumptions C35_beta_cc.
(** beta_ct: beta_cc before 28 days, its power 2/3 from then on; 1 at 28 days
    without a jump, increasing; the array form is the scalar form of each entry. *)
Theorem C35_beta_ct : forall s, 0 < s ->
  (forall t, t < 28 -> ec_beta_ct t s = ec_beta_cc t s) /\ (forall t, 28 <= t -> ec_beta_ct t s ^ 3 = ec_beta_cc t s ^ 2) /\
  ec_beta_ct 28 s = 1 /\ no_jump (fun t => ec_beta_ct t s) 28 /\ increases (fun t => 0 < t) (fun t => ec_beta_ct t s) /\
  (forall ts, ec_beta_ct_array ts s = map (fun t => ec_beta_ct t s) ts).
Proof.
  intros s P. destruct (beta_cc_facts s P) as (A & B & C1 & D).
  assert (LO : forall t, t < 28 -> ec_beta_ct t s = ec_beta_cc t s) by (intros t T; unfold ec_beta_ct; destruct (Rltb_spec t 28); [reflexivity|lra]).
  assert (HI : forall t, 28 <= t -> ec_beta_ct t s = pw (ec_beta_cc t s) (2 / 3)) by (intros t T; unfold ec_beta_ct; destruct (Rltb_spec t 28); [lra|reflexivity]).
  split; [exact LO|]. split; [intros t T; rewrite HI by exact T; apply two_thirds, Rlt_le, C1; lra|]. split; [rewrite HI, A, pw_1 by lra; reflexivity|]. split; [|split].
  - apply (no_jump_glue (fun t => ec_beta_cc t s) (fun t => pw (ec_beta_cc t s) (2 / 3))); [apply no_jump_cont, beta_cc_cont; lra|apply no_jump_pw; [apply no_jump_cont, beta_cc_cont; lra|rewrite A; lra]|rewrite A, pw_1; reflexivity|exact LO|exact HI].
  - intros x y HX HY H. destruct (Rlt_dec y 28) as [Y|Y]; [rewrite !LO by lra; apply B; assumption|]. rewrite (HI y) by lra.
    destruct (Rlt_dec x 28) as [X|X]; [|rewrite (HI x) by lra; apply pw_lt; [lra|]; split; [apply Rlt_le, C1; lra|apply B; assumption]].
    rewrite LO by exact X. apply Rlt_le_trans with 1; [rewrite <- A; apply B; lra|]. apply pw_ge_1; [lra|]. rewrite <- A. destruct (Req_dec y 28) as [-> | N]; [lra|]. apply Rlt_le, B; lra.
  - intros ts. unfold ec_beta_ct_array. cbv zeta. induction ts as [|t ts IH]; [reflexivity|]. cbn [map masked]. unfold masked in *. cbn [map combine] in *. rewrite IH. f_equal.
    unfold ec_beta_ct. destruct (Rleb_spec 28 t), (Rltb_spec t 28); try lra; reflexivity.
Qed.
Print Assumptions C35_beta_ct.
(** beta_E is the power 3/10 of beta_cc; the time-dependent modulus from the mean
    strengths agrees with it, the tension strength with beta_ct. *)
Theorem C35_time_values : forall s t fcm fctm Ecm, 0 < s -> 0 < t -> 0 < fcm ->
  ec_beta_E t s ^ 10 = ec_beta_cc t s ^ 3 /\
  ec_fcm_time fcm (ec_beta_cc 28 s) = fcm /\
  ec_Ecm_time fcm (ec_fcm_time fcm (ec_beta_cc t s)) Ecm = ec_beta_E t s * Ecm /\
  ec_fctm_time fctm (ec_beta_cc t s) (if Rlt_dec t 28 then 1 else 2 / 3) = ec_beta_ct t s * fctm /\
  0 < ec_fcm_time fcm (ec_beta_cc t s) < fcm * exp s.
Proof.
  intros s t fcm fctm Ecm PS PT PF. destruct (beta_cc_facts s PS) as (A & B & C1 & D). destruct (C1 t PT) as [P1 P2]. split; [|split; [|split; [|split]]].
  - unfold ec_beta_E. apply (pw_frac _ (3 / 10) 3 10); [lia|lra|]. cbn [Z.of_nat Pos.of_succ_nat Pos.succ]. lra.
  - unfold ec_fcm_time. rewrite A. ring.
  - unfold ec_Ecm_time, ec_fcm_time, ec_beta_E. replace (fcm * ec_beta_cc t s / fcm) with (ec_beta_cc t s) by (field; lra). reflexivity.
  - unfold ec_fctm_time, ec_beta_ct. destruct (Rlt_dec t 28), (Rltb_spec t 28); try lra. rewrite pw_id by lra. reflexivity.
  - unfold ec_fcm_time. split; [apply Rmult_lt_0_compat; assumption|apply Rmult_lt_compat_l; assumption].
Qed.
Print Assumptions C35_time_values.
(** The exponent: classes R, N, S in either case, blanks ignored; nothing else. *)
Theorem C35_cement_class : forall c,
  (written "R" c -> ec_s_time_development (Some c) = Ok (20 / 100)) /\ (written "N" c -> ec_s_time_development (Some c) = Ok (25 / 100)) /\
  (written "S" c -> ec_s_time_development (Some c) = Ok (38 / 100)) /\
  (~ written "R" c -> ~ written "N" c -> ~ written "S" c -> ec_s_time_development (Some c) = Err ValueError) /\ ec_s_time_development None = Err ValueError.
Proof.
  intros c. rewrite <- (written_upper "R" c), <- (written_upper "N" c), <- (written_upper "S" c) by reflexivity. unfold ec_s_time_development.
  split; [intros ->; reflexivity|]. split; [intros ->; reflexivity|]. split; [intros ->; reflexivity|]. split; [|reflexivity].
  intros NR NN NS. unfold ec_s_dict. cbn [dict_get].
  repeat match goal with |- context [String.eqb ?a ?b] => destruct (String.eqb_spec a b) as [E|_]; [exfalso; first [apply NR; rewrite <- E; reflexivity|apply NN; rewrite <- E; reflexivity|apply NS; rewrite <- E; reflexivity|apply NR; rewrite E; reflexivity|apply NN; rewrite E; reflexivity|apply NS; rewrite E; reflexivity]|] end. reflexivity.
Qed.
Print Assumptions C35_cement_class.
(** MC2010: the EC2 function with s = 0.2 above 60 MPa whatever the class (even an
    unknown one), else by class in either case (blanks not ignored), KeyError otherwise. *)
Theorem C35_mc2010 : forall t fcm cem,
  (60 < fcm -> mc_beta_cc t fcm cem = Ok (ec_beta_cc t (20 / 100))) /\
  (fcm <= 60 ->
    (forall w, In w ["42.5 R"; "52.5 N"; "52.5 R"]%string -> same_word w cem = true -> mc_beta_cc t fcm cem = Ok (ec_beta_cc t (20 / 100))) /\
    (forall w, In w ["32.5 R"; "42.5 N"]%string -> same_word w cem = true -> mc_beta_cc t fcm cem = Ok (ec_beta_cc t (25 / 100))) /\
    (same_word "32.5 N" cem = true -> mc_beta_cc t fcm cem = Ok (ec_beta_cc t (38 / 100))) /\
    ((forall w, In w ["32.5 N"; "32.5 R"; "42.5 N"; "42.5 R"; "52.5 N"; "52.5 R"]%string -> same_word w cem = false) -> mc_beta_cc t fcm cem = Err KeyError)).
Proof.
  intros t fcm cem. unfold mc_beta_cc, ec_beta_cc. destruct (Rltb_spec 60 fcm) as [L|L]; (split; intros H; [|]); try lra; [reflexivity|]. unfold dict_item.
  assert (W : forall w, same_word w cem = true -> str_upper cem = str_upper w) by (intros w E; apply word_upper, E).
  split; [|split; [|split]].
  - intros w I E. apply W in E. rewrite E. cbn [In] in I. repeat (destruct I as [<- | I]; [reflexivity|]). destruct I.
  - intros w I E. apply W in E. rewrite E. cbn [In] in I. repeat (destruct I as [<- | I]; [reflexivity|]). destruct I.
  - intros E. apply W in E. rewrite E. reflexivity.
  - intros N. assert (NE : forall w, In w ["32.5 N"; "32.5 R"; "42.5 N"; "42.5 R"; "52.5 N"; "52.5 R"]%string -> str_upper cem <> str_upper w).
    { intros w I E. specialize (N w I). apply word_upper in E. congruence. }
    unfold mc_s_cem. cbn [dict_get].
    repeat match goal with |- context [String.eqb ?a ?b] => destruct (String.eqb_spec a b) as [E|_]; [exfalso; match b with str_upper cem => apply (NE a); [cbn; tauto|exact (eq_sym E)] | _ => apply (NE b); [cbn; tauto|exact E] end|] end. reflexivity.
Qed.
Print Assumptions C35_mc2010.
(** MC2010 modulus: beta_e squared is beta_cc. *)
Theorem C35_mc2010_modulus : forall b E, 0 <= b -> mc_beta_e b ^ 2 = b /\ 0 <= mc_beta_e b /\ mc_Eci_t (mc_beta_e b) E ^ 2 = b * E ^ 2.
Proof. intros b E P. unfold mc_beta_e, mc_Eci_t. split; [apply pow2_sqrt, P|]. split; [apply sqrt_pos|]. rewrite Rpow_mult_distr, pow2_sqrt by exact P. reflexivity. Qed.
Print Assumptions C35_mc2010_modulus.
(** Cases. *)
Example C35_cases : written "R" " r " /\ ec_s_time_development (Some " r "%string) = Ok (20 / 100) /\ mc_beta_cc 28 38 "42.5 n" = Ok 1 /\ mc_beta_cc 28 70 "?" = Ok 1.
Proof.
  split; [exists " "%string, "r"%string, " "%string; cbn; unfold blank; cbn; tauto|]. split; [reflexivity|].
  assert (E : forall s, 0 < s -> ec_beta_cc 28 s = 1) by (intros s P; apply beta_cc_facts, P).
  split; [destruct (C35_mc2010 28 38 "42.5 n") as [_ A]; destruct (A ltac:(lra)) as (_ & B & _); rewrite (B "42.5 N"%string) by (reflexivity || (cbn; tauto)); rewrite E by lra; reflexivity|].
  destruct (C35_mc2010 28 70 "?") as [A _]. rewrite A, E by lra. reflexivity.
Qed.
