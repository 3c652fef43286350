(** C08: the default Marin form (laws that are not piecewise polynomial). *)
From Verif Require Import Base M_Laws M_Laws2 M_Section M_Discr S_Laws S_Discr L_Laws L_LawsB L_LawsC L_Discr L_Discr2.

(** ParabolaRectangle with an exponent other than 2: the Marin form is that of
    the polygon through the law's stresses at the tenths of the ultimate strain. *)
Theorem C08_parabolarectangle_general : forall fc p u n e0 e1,
  fc <> 0 -> p <> 0 -> Rabs p <= Rabs u -> 0 < n -> n <> 2 -> tol (Rabs u) < Rabs u / 10 ->
  let l := pr_init fc p u n in
  (exists f out, pr_marin l (e0, e1) = Ok out /\
     polygon_at_tenths (- Rabs u) (pr_stress l) f /\ describes (settled (- Rabs u, 0)) f e0 e1 out) /\
  (exists f out, pr_marin_tangent l (e0, e1) = Ok out /\
     slope_at_tenths (- Rabs u) (pr_stress l) f /\
     describes (fun e => settled (- Rabs u, 0) e /\ ~ tenth_of (- Rabs u) e) f e0 e1 out).
Proof.
  intros fc p u n e0 e1 F P U N N2 T l.
  assert (W : pr_wf l) by (apply pr_init_wf; assumption).
  unfold pr_marin, pr_marin_tangent. change (pr_n l) with n. destruct (Reqb_spec n 2); [congruence|].
  apply (pr_default l e0 e1 W); cbn [l pr_init pr_fc pr_eu].
  - assert (X := Rabs_pos_lt fc F). lra.
  - rewrite Ropp_involutive. unfold tol in *. rewrite Rabs_Ropp. exact T.
Qed.
Print Assumptions C08_parabolarectangle_general.
(** Exponent 2 uses the exact form of C08_parabolarectangle. *)
Theorem C08_parabolarectangle_exact : forall fc p u e0 e1, p <> 0 -> Rabs p <= Rabs u ->
  exists out, pr_marin (pr_init fc p u 2) (e0, e1) = Ok out /\
    describes (settled (- Rabs u, 100)) (pr_stress (pr_init fc p u 2)) e0 e1 out.
Proof.
  intros fc p u e0 e1 P U. unfold pr_marin. cbn [pr_init pr_n]. destruct (Reqb_spec 2 2); [|congruence].
  eexists. split; [reflexivity|]. eapply describes_weaken; [|apply pr_describes; [apply pr_init_wf; [exact P|exact U|lra]|reflexivity]].
  intros z. exact (settled_prep _ z).
Qed.
Print Assumptions C08_parabolarectangle_exact.
Theorem C08_popovics : forall fc ec ecu Ec l e0 e1, popovics_init fc ec ecu Ec = Ok l -> fc <> 0 -> ecu <> 0 ->
  Rabs fc / Rabs ec < (match Ec with None => 5000 * sqrt (Rabs fc) | Some m => m end) ->
  tol (Rabs ecu) < Rabs ecu / 10 ->
  (* not softened below one millionth of the strength *)
  Rabs fc <= Rabs (popovics_stress l (- Rabs ecu)) * 1000000 ->
  (exists f out, popovics_marin l (e0, e1) = Ok out /\
     polygon_at_tenths (- Rabs ecu) (popovics_stress l) f /\ describes (settled (- Rabs ecu, 0)) f e0 e1 out) /\
  (exists f out, popovics_marin_tangent l (e0, e1) = Ok out /\
     slope_at_tenths (- Rabs ecu) (popovics_stress l) f /\
     describes (fun e => settled (- Rabs ecu, 0) e /\ ~ tenth_of (- Rabs ecu) e) f e0 e1 out).
Proof.
  intros fc ec ecu Ec l e0 e1 H H1 H2 H3 T B.
  destruct (popovics_init_wf _ _ _ _ _ H H1 H2 H3) as (W & F & _ & U).
  unfold popovics_marin, popovics_marin_tangent. rewrite <- U in *.
  pose proof (popovics_bounds l (po_ecu l) W) as Bd.
  apply (popovics_default l e0 e1 W).
  - rewrite F. assert (X := Rabs_pos_lt fc H1). lra.
  - rewrite U, Ropp_involutive. unfold tol in *. rewrite Rabs_Ropp, Rabs_Rabsolu in *. exact T.
  - rewrite (Rabs_left1 (popovics_stress _ _)) in B by apply Bd. rewrite F, Ropp_involutive. exact B.
Qed.
Print Assumptions C08_popovics.
Theorem C08_sargin : forall fc e1 eu k a0 a1, fc <> 0 -> e1 <> 0 -> eu <> 0 ->
  0 < 1 + (k - 2) * (Rabs eu / Rabs e1) -> Rabs eu / Rabs e1 < k -> tol (Rabs eu) < Rabs eu / 10 ->
  let l := sargin_init fc e1 eu k in
  Rabs fc <= - val (sargin_stress l (- Rabs eu)) * 1000000 ->
  (exists f out, sargin_marin l (a0, a1) = Ok out /\
     polygon_at_tenths (- Rabs eu) (fun e => val (sargin_stress l e)) f /\ describes (settled (- Rabs eu, 0)) f a0 a1 out) /\
  (exists f out, sargin_marin_tangent l (a0, a1) = Ok out /\
     slope_at_tenths (- Rabs eu) (fun e => val (sargin_stress l e)) f /\
     describes (fun e => settled (- Rabs eu, 0) e /\ ~ tenth_of (- Rabs eu) e) f a0 a1 out).
Proof.
  intros fc e1 eu k a0 a1 F H1 H2 D K T l B.
  assert (W : sargin_wf l) by (apply sargin_init_wf; assumption).
  assert (U : 0 < Rabs eu) by (apply Rabs_pos_lt; exact H2).
  apply (sargin_default l a0 a1 W); cbn [l sargin_init sa_fc sa_ecu1].
  - assert (X := Rabs_pos_lt fc F). lra.
  - rewrite Ropp_involutive. unfold tol in *. rewrite Rabs_Ropp. exact T.
  - rewrite Ropp_involutive. rewrite (sargin_stress_in l (- Rabs eu) W) in B.
    + cbn [val] in B. rewrite settled_prep in B by (apply tol_settled; lra). exact B.
    + apply prep_in; cbn [l sargin_init sa_ecu1]; lra.
Qed.
Print Assumptions C08_sargin.
(** Between the tenths the Marin form is not the law itself: a curved law is
    integrated through its chords. *)
Theorem C08_default_form_refuted : exists l out, l = sargin_init 35 (2/1000) (35/10000) 2 /\
  sargin_marin l (0, 1) = Ok out /\
  ~ describes (settled (- (35/10000), 0)) (fun e => val (sargin_stress l e)) 0 1 out.
Proof.
  set (l := sargin_init 35 (2/1000) (35/10000) 2). exists l.
  assert (R1 : Rabs (2/1000) = 2/1000) by (apply Rabs_right; lra).
  assert (R2 : Rabs (35/10000) = 35/10000) by (apply Rabs_right; lra).
  assert (R3 : Rabs 35 = 35) by (apply Rabs_right; lra).
  assert (W : sargin_wf l) by (apply sargin_init_wf; rewrite ?R1, ?R2; lra).
  assert (Hv : forall e, settled (- (35/10000), 100) e -> - (35/10000) <= e <= 0 ->
     val (sargin_stress l e) = -35 * (2 * (e / - (2/1000)) - (e / - (2/1000)) ^ 2)).
  { intros e S0 E. rewrite (sargin_ok_compr l e W); [|unfold sargin_ult; cbn [l sargin_init sa_ecu1]; rewrite R2; exact S0|cbn [l sargin_init sa_ecu1]; rewrite R2; exact E].
    cbn [val]. unfold sargin_raw, l, sargin_init. cbn [sa_fc sa_ec1 sa_k]. rewrite R1, R3. cbv zeta. field. }
  assert (S1 : forall e, - (35/10000) + / 10000 <= e <= 0 -> settled (- (35/10000), 100) e).
  { intros e E. left. cbn [fst snd]. unfold far, tol. rewrite (Rabs_right 100), (Rabs_left (e - 100)) by lra.
    rewrite (Rabs_left (- (35 / 10000))) by lra. rewrite (Rabs_right (e - _)) by lra. lra. }
  destruct (proj1 (C08_sargin 35 (2/1000) (35/10000) 2 0 1 ltac:(lra) ltac:(lra) ltac:(lra)
    ltac:(rewrite R1, R2; lra) ltac:(rewrite R1, R2; lra)
    ltac:(unfold tol; rewrite !R2; lra)
    ltac:(rewrite R3, R2; fold l; rewrite Hv by (try (apply tol_settled; lra); lra); replace (- (35/10000) / - (2/1000)) with (7/4) by field; lra)))
    as (f & out & E & P & D).
  rewrite R2 in P, D. exists out. split; [reflexivity|]. split; [exact E|]. intros D'.
  set (e := - (35/10000) * ((INR 0 + /2) / 10)).
  assert (S0 : settled (- (35/10000), 0) (0 + 1 * e)).
  { left. unfold e, far, tol. cbn [fst snd INR]. rewrite Rabs_R0. rewrite (Rabs_left (- (35 / 10000))) by lra.
    rewrite Rabs_right by lra. rewrite Rabs_left by lra. lra. }
  pose proof (describes_unique _ _ _ _ _ _ e D D' S0) as Q. cbv beta in Q. replace (0 + 1 * e) with e in Q by ring.
  unfold e in Q at 1. rewrite (proj2 P 0%nat ltac:(lia) (/ 2) ltac:(lra)) in Q. fold l in Q.
  rewrite !Hv in Q; unfold e in *; cbn [INR] in *; try apply S1; try lra.
  revert Q. clear. intros Q. field_simplify in Q. lra.
Qed.
Print Assumptions C08_default_form_refuted.

(** The hypotheses are met by ordinary laws. *)
Example C08_pr_case : 14 <> 0 /\ Rabs (2/1000) <= Rabs (35/10000) /\ tol (Rabs (35/10000)) < Rabs (35/10000) / 10.
Proof.
  rewrite !Rabs_right by lra. unfold tol. rewrite Rabs_right by lra. lra.
Qed.
Example C08_popovics_case : exists l, popovics_init 30 (2/1000) (35/10000) (Some 30000) = Ok l /\
  Rabs 30 / Rabs (2/1000) < 30000 /\ tol (Rabs (35/10000)) < Rabs (35/10000) / 10 /\
  Rabs 30 <= Rabs (popovics_stress l (- Rabs (35/10000))) * 1000000.
Proof.
  assert (R1 : Rabs (2/1000) = 2/1000) by (apply Rabs_right; lra).
  assert (R2 : Rabs (35/10000) = 35/10000) by (apply Rabs_right; lra).
  assert (R3 : Rabs 30 = 30) by (apply Rabs_right; lra).
  unfold popovics_init. cbv zeta. destruct (Rleb_spec 30000 0); [exfalso; lra|].
  destruct (Reqb_spec (2/1000) 0); [exfalso; lra|]. rewrite R1, R2, R3.
  destruct (Reqb_spec (30000 - - (30) / - (2/1000)) 0) as [Q|_]; [exfalso; revert Q; replace (- (30) / - (2/1000)) with 15000 by field; lra|].
  eexists. split; [reflexivity|]. split; [lra|]. split; [unfold tol; rewrite R2; lra|].
  rewrite popovics_stress_raw. rewrite settled_prep by (apply tol_settled; cbn [po_ecu]; lra).
  unfold popovics_cut. cbn [po_ecu]. destruct (Rltb_spec (- (35/10000)) (- (35/10000))); [exfalso; lra|].
  destruct (Rltb_spec 0 (- (35/10000))); [exfalso; lra|]. cbn [orb].
  unfold popovics_raw. cbn [po_fc po_ec po_n]. cbv zeta.
  replace (30000 / (30000 - - (30) / - (2/1000))) with 2 by (field; lra).
  replace (- (35/10000) / - (2/1000)) with (7/4) by field.
  rewrite pypow_2 by lra. rewrite Rabs_left; [|lra]. lra.
Qed.

(** A user's own law (a subclass that inherits the default form) that bears tension and compression up to its limits. *)
Theorem C08_own_law : forall (arr : list R -> list R * list R) (s : R -> R) lo hi e0 e1,
  (forall eps, arr eps = (map s eps, prep_arr (lo, hi) eps)) ->
  lo < 0 -> 0 < hi <= 1 -> tol lo < - lo / 10 -> tol hi < hi / 9 -> s lo < 0 -> 0 < s hi ->
  (* not softened below one millionth of the strength *)
  (forall e, lo <= e <= 0 -> - s e <= - s lo * 1000000) -> (forall e, 0 <= e <= hi -> s e <= s hi * 1000000) ->
  (exists f out, default_marin arr (lo, hi) (e0, e1) = Ok out /\
     polygon_both lo hi s f /\ describes (settled (lo, hi)) f e0 e1 out) /\
  (exists f out, default_marin_tangent arr (lo, hi) (e0, e1) = Ok out /\
     slope_both lo hi s f /\ describes (fun e => settled (lo, hi) e /\ ~ tenth_of lo e /\ ~ ninth_of hi e) f e0 e1 out).
Proof. intros. split; [apply both_describes|apply both_describes_tangent]; assumption. Qed.
Print Assumptions C08_own_law.

(** Such as a law of cubic stress between -1 % and 2 %. *)
Example C08_own_law_case : let lo := - (1 / 100) in let hi := 2 / 100 in let s e := 10 ^ 9 * e ^ 3 + 200000 * e in
  lo < 0 /\ 0 < hi <= 1 /\ tol lo < - lo / 10 /\ tol hi < hi / 9 /\ s lo < 0 /\ 0 < s hi /\
  (forall e, lo <= e <= 0 -> - s e <= - s lo * 1000000) /\ (forall e, 0 <= e <= hi -> s e <= s hi * 1000000).
Proof.
  cbv zeta. unfold tol. rewrite Rabs_left, Rabs_right by lra.
  repeat match goal with |- _ /\ _ => split end; try lra; intros e H.
  - assert (0 <= (e + 1/100) * e ^ 2 /\ 0 <= - e * (e + 1/100)) by (split; [|]; nra). nra.
  - assert (0 <= (2/100 - e) * e ^ 2 /\ 0 <= e * (2/100 - e)) by (split; [|]; nra). nra.
Qed.
