(** Lemmas for EC2:2023 steel and serviceability. *)
From Coq Require Import String Lra Lia.
From Verif Require Import Base M_Registry M_Calc S_Calc L_Calc M_Conc S_Conc L_Conc M_Crack L_Crack M_Creep L_Creep M_Sls S_Sls.
Open Scope R_scope.
Open Scope list_scope.

Definition bil (E fy fu eu e : R) : R := if Rleb e (fy / E) then e * E else fy + (fu - fy) / (eu - fy / E) * (e - fy / E).
Lemma yield_le E fy e : 0 < E -> e * E <= fy <-> e <= fy / E.
Proof. intros P. assert (X : fy / E * E = fy) by (field; lra). split; intros H; [apply Rmult_le_reg_r with E; lra|]. rewrite <- X. apply Rmult_le_compat_r; lra. Qed.
Lemma yield_lt E fy e : 0 < E -> e * E < fy <-> e < fy / E.
Proof. intros P. assert (X : fy / E * E = fy) by (field; lra). split; intros H; [apply Rmult_lt_reg_r with E; lra|]. rewrite <- X. apply Rmult_lt_compat_r; lra. Qed.
Lemma yield_gt E fy e : 0 < E -> fy < e * E <-> fy / E < e.
Proof. intros P. pose proof (yield_le E fy e P) as Q. split; intros H; apply Rnot_le_lt; intros L; [apply Q in L|apply Q in L]; lra. Qed.
Lemma slope_eq E fy fu eu : 0 < E -> fy <> eu * E -> (fu - fy) / (eu - fy / E) * (eu * E - fy) = (fu - fy) * E.
Proof. intros P N. field. split; [lra|]. intros Z. apply N. lra. Qed.
Lemma eu_ne E fy eu : 0 < E -> fy <> eu * E -> eu - fy / E <> 0.
Proof. intros P N Z. apply N. assert (X : fy / E * E = fy) by (field; lra). rewrite <- X. f_equal. lra. Qed.
Lemma bil_bilinear E fy fu eu : 0 < E -> fy <> eu * E -> bilinear E fy fu eu (bil E fy fu eu).
Proof.
  intros P N. pose proof (eu_ne _ _ _ P N) as Z. split; intros e H; unfold bil; destruct (Rleb_spec e (fy / E)) as [L|L].
  - reflexivity.
  - apply (yield_le E) in H; [lra|exact P].
  - apply (yield_le E) in L; [|exact P]. replace (e * E) with fy by lra. ring.
  - pose proof (slope_eq E fy fu eu P N) as Q. transitivity ((fu - fy) / (eu - fy / E) * (eu * E - fy) * (e - fy / E)); [ring|]. rewrite Q. field. lra.
Qed.
Lemma bilinear_fun E fy fu eu s e : 0 < E -> fy <> eu * E -> bilinear E fy fu eu s -> s e = bil E fy fu eu e.
Proof.
  intros P N [A B]. destruct (bil_bilinear E fy fu eu P N) as [A' B']. destruct (Rle_dec (e * E) fy) as [L|L].
  - rewrite A, A' by exact L. reflexivity.
  - assert (X : (s e - bil E fy fu eu e) * (eu * E - fy) = 0). { specialize (B e ltac:(lra)). specialize (B' e ltac:(lra)). lra. }
    apply Rmult_integral in X. destruct X; lra.
Qed.
Lemma bil_no_jump E fy fu eu x : 0 < E -> no_jump (bil E fy fu eu) x.
Proof.
  intros P. assert (F : forall x, no_jump (fun e => e * E) x) by (intros z; apply no_jump_cont; reg).
  assert (G : forall x, no_jump (fun e => fy + (fu - fy) / (eu - fy / E) * (e - fy / E)) x) by (intros z; apply no_jump_cont; reg).
  destruct (Rtotal_order x (fy / E)) as [L|[L|L]].
  - apply (no_jump_near _ (fun e => e * E) x (fy / E - x)); [lra| |apply F]. intros y Y. apply Rabs_def2 in Y. unfold bil. destruct (Rleb_spec y (fy / E)); [reflexivity|lra].
  - subst x. apply (no_jump_glue_r (fun e => e * E) (fun e => fy + (fu - fy) / (eu - fy / E) * (e - fy / E))); [apply F|apply G| | |].
    + replace (fy / E - fy / E) with 0 by ring. rewrite Rmult_0_r. field. lra.
    + intros y Y. unfold bil. destruct (Rleb_spec y (fy / E)); [reflexivity|lra].
    + intros y Y. unfold bil. destruct (Rleb_spec y (fy / E)); [lra|reflexivity].
  - apply (no_jump_near _ (fun e => fy + (fu - fy) / (eu - fy / E) * (e - fy / E)) x (x - fy / E)); [lra| |apply G]. intros y Y. apply Rabs_def2 in Y. unfold bil. destruct (Rleb_spec y (fy / E)); [lra|reflexivity].
Qed.
(** Hardening or flat: never falls. *)
Lemma bil_mono E fy fu eu : 0 < E -> fy < eu * E -> fy <= fu -> never_falls (fun _ => True) (bil E fy fu eu).
Proof.
  intros P N F x y _ _ L. assert (Z : 0 < eu - fy / E) by (apply (yield_gt E) in N; [lra|exact P]).
  assert (X : fy / E * E = fy) by (field; lra). assert (M : 0 <= (fu - fy) / (eu - fy / E)) by (apply Rmult_le_pos; [lra|left; apply Rinv_0_lt_compat; exact Z]).
  unfold bil. destruct (Rleb_spec x (fy / E)) as [A|A], (Rleb_spec y (fy / E)) as [B|B]; [nra| |lra|nra].
  apply (yield_le E) in A; [|exact P]. pose proof (Rmult_le_pos _ _ M (Rlt_le _ _ (Rlt_Rminus _ _ (Rnot_le_lt _ _ B)))). lra.
Qed.
Lemma params_find k c : st_params c (letter k) = match dict_get (steels k) (str_strip (str_upper c)) with Some v => Ok v | None => Err ValueError end.
Proof. destruct k; reflexivity. Qed.
