From Coquelicot Require Import Coquelicot.
From Verif Require Import Base M_Laws S_Laws L_Laws L_LawsB.

Lemma settled_prep lim e : settled lim e -> prep lim e = e.
Proof.
  intros [[H1 H2]|[->|[-> Hs]]].
  - apply prep_far; assumption.
  - apply prep_max, near_refl.
  - apply prep_min; [exact Hs|apply near_refl].
Qed.

Lemma prep_idem lim e : far (snd lim) (fst lim) -> prep lim (prep lim e) = prep lim e.
Proof.
  intros Hs. apply settled_prep.
  destruct (near_or_far (snd lim) e) as [H|H]; [rewrite (prep_max _ _ H); right; left; reflexivity|].
  destruct (near_or_far (fst lim) e) as [H2|H2]; [rewrite (prep_min _ _ H H2)|rewrite (prep_far _ _ H H2)].
  - right; right; split; [reflexivity|exact Hs].
  - left; split; assumption.
Qed.

Lemma describes_weaken (ok ok' : R -> Prop) f e0 e1 out :
  (forall e, ok' e -> ok e) -> describes ok f e0 e1 out -> describes ok' f e0 e1 out.
Proof.
  intros H. unfold describes. destruct (fst out) as [rs|].
  - intros [L D]. split; [exact L|]. intros y Hy. exact (D y (H _ Hy)).
  - intros (c & E & D). exists c. split; [exact E|]. intros y Hy. exact (D y (H _ Hy)).
Qed.

(** *** From constructor arguments to well-formed objects *)
Lemma ep_init_inv E fy Eh su l : ep_init E fy Eh su = Ok l ->
  0 < E /\ l = {| ep_E := E; ep_fy := fy; ep_Eh := Eh; ep_su := su; ep_sy := fy / E |}.
Proof. unfold ep_init. destruct (Rltb_spec 0 E); [|discriminate]. intros [= <-]. split; [assumption|reflexivity]. Qed.

Lemma ep_init_wf E fy Eh su l : ep_init E fy Eh su = Ok l -> 0 < fy -> 0 <= Eh ->
  (forall u, su = Some u -> fy / E <= u) -> ep_wf l.
Proof.
  intros H Hf Hh Hu. apply ep_init_inv in H as [HE ->]. unfold ep_wf; cbn.
  repeat split; try assumption. destruct su as [u|]; [apply Hu; reflexivity|trivial].
Qed.

Lemma pr_init_wf fc e0 eu n : e0 <> 0 -> Rabs e0 <= Rabs eu -> 0 < n -> pr_wf (pr_init fc e0 eu n).
Proof.
  intros H0 Hu Hn. unfold pr_wf; cbn. assert (P := Rabs_pos fc). assert (Q := Rabs_pos_lt e0 H0). repeat split; lra.
Qed.

Lemma bil_init_wf2 fc ec u l : bil_init fc ec (Some u) = Ok l -> Rabs ec <= Rabs u -> bil_wf l.
Proof.
  intros H Hu. apply bil_init_wf in H as ((v & [= <-] & E1) & E2 & E3 & E4 & E5).
  unfold bil_wf. rewrite E1, E5, E2, E3 in *. assert (P := Rabs_pos fc). repeat split; lra.
Qed.

Lemma sargin_init_wf fc e1 eu k : e1 <> 0 -> eu <> 0 -> 0 < 1 + (k - 2) * (Rabs eu / Rabs e1) ->
  sargin_wf (sargin_init fc e1 eu k).
Proof.
  intros H1 Hu Hk. assert (P := Rabs_pos fc). assert (Q := Rabs_pos_lt e1 H1). assert (Q2 := Rabs_pos_lt eu Hu).
  unfold sargin_wf; cbn. replace (- Rabs eu / - Rabs e1) with (Rabs eu / Rabs e1) by (field; lra). repeat split; lra.
Qed.

(** *** Properties in terms of the public functions *)
Lemma ep_stress_settled l e : ep_wf l -> settled (ep_ult l) e -> ep_stress l e = ep_raw l e.
Proof. intros W S0. rewrite ep_stress_raw by exact W. rewrite settled_prep by exact S0. reflexivity. Qed.
Lemma ep_elastic_range l e : ep_wf l -> settled (ep_ult l) e -> Rabs e <= ep_sy l -> ep_stress l e = ep_E l * e.
Proof.
  intros W S0 H. rewrite ep_stress_settled by assumption. apply Rabs_le_between in H.
  destruct W as (HE & Hfy & HEh & Hsye & Hu). unfold ep_raw. destruct (ep_su l); rsplit.
Qed.
Lemma ep_plastic_range l e : ep_wf l -> settled (ep_ult l) e -> ep_sy l <= e ->
  (forall u, ep_su l = Some u -> e <= u) -> ep_stress l e = ep_fy l + ep_Eh l * (e - ep_sy l).
Proof.
  intros W S0 H Hu'. rewrite ep_stress_settled by assumption. assert (P := ep_sy_pos l W).
  destruct W as (HE & Hfy & HEh & Hsye & Hu).
  assert (HfyE : ep_fy l = ep_E l * ep_sy l) by (rewrite Hsye; field; lra).
  unfold ep_raw. destruct (ep_su l) as [u|].
  - specialize (Hu' u eq_refl). rsplit. assert (e = ep_sy l) by lra. subst e. lra.
  - rsplit. assert (e = ep_sy l) by lra. subst e. lra.
Qed.
Lemma ep_beyond l u e : ep_su l = Some u -> far u e -> far (- u) e -> u < Rabs e -> ep_stress l e = 0.
Proof.
  intros Eu F1 F2 H. unfold ep_stress. assert (Hult : ep_ult l = (- u, u)) by (unfold ep_ult; rewrite Eu; reflexivity).
  rewrite Hult, prep_far by assumption. rewrite Eu. cbv zeta.
  assert (X : u < e \/ e < - u). { unfold Rabs in H. destruct (Rcase_abs e); lra. }
  destruct (Rltb_spec u e); destruct (Rltb_spec e (- u)); cbn [orb]; lra.
Qed.
Lemma ep_lipschitz l a b : ep_wf l -> settled (ep_ult l) a -> settled (ep_ult l) b -> a <= b ->
  match ep_su l with None => True | Some u => - u <= a /\ b <= u end ->
  0 <= ep_stress l b - ep_stress l a <= Rmax (ep_E l) (ep_Eh l) * (b - a).
Proof. intros W Sa Sb Hab H. rewrite !ep_stress_settled by assumption. apply ep_raw_mono; assumption. Qed.

Lemma ult100 (e : R) (lim : R * R) : snd lim = 100 -> e <= 0 -> far (snd lim) e.
Proof. intros -> H. unfold far, tol. rewrite (Rabs_left (e - 100)) by lra. rewrite (Rabs_pos_eq 100) by lra. lra. Qed.

Lemma prep_tension lim e : snd lim = 100 -> fst lim <= 0 -> 0 < e -> far (fst lim) e -> 0 < prep lim e.
Proof.
  intros H1 H2 He Hf. unfold prep. apply isclose_far in Hf. rewrite Hf.
  destruct (isclose _ e (snd lim)); lra.
Qed.
Lemma prep_below lim e : snd lim = 100 -> fst lim <= 0 -> e < fst lim -> far (fst lim) e -> prep lim e = e.
Proof.
  intros H1 H2 He Hf. apply prep_far; [|exact Hf]. apply ult100; [exact H1|lra].
Qed.

Lemma pr_tension l e : pr_wf l -> 0 < e -> far (pr_eu l) e -> pr_stress l e = 0.
Proof.
  intros W He Hf. rewrite pr_stress_raw by exact W. destruct W as (H1 & H2 & H3 & H4).
  assert (P := prep_tension (pr_ult l) e eq_refl ltac:(cbn; lra) He Hf).
  unfold pr_raw. rsplit1; [reflexivity|lra].
Qed.
Lemma pr_crushed l e : pr_wf l -> e < pr_eu l -> far (pr_eu l) e -> pr_stress l e = 0.
Proof.
  intros W He Hf. rewrite pr_stress_raw by exact W. destruct W as (H1 & H2 & H3 & H4).
  rewrite (prep_below (pr_ult l) e eq_refl ltac:(cbn; lra) He Hf). unfold pr_raw. rsplit.
Qed.
Lemma pr_plateau l e : pr_wf l -> settled (pr_ult l) e -> pr_eu l <= e <= pr_e0 l -> pr_stress l e = pr_fc l.
Proof.
  intros W S0 He. rewrite pr_stress_raw by exact W. rewrite settled_prep by exact S0.
  destruct W as (H1 & H2 & H3 & H4). unfold pr_raw. rsplit.
  assert (e = pr_e0 l) by lra. subst e. replace (1 - pr_e0 l / pr_e0 l) with 0 by (field; lra).
  rewrite pypow_0 by lra. lra.
Qed.
Lemma pr_mono l a b : pr_wf l -> settled (pr_ult l) a -> settled (pr_ult l) b ->
  pr_eu l <= a -> a <= b -> b <= 0 -> pr_stress l a <= pr_stress l b.
Proof. intros W Sa Sb. rewrite !pr_stress_raw by exact W. rewrite !settled_prep by assumption. apply pr_raw_mono, W. Qed.
Lemma pr_zero l : pr_wf l -> far (pr_eu l) 0 -> pr_stress l 0 = 0.
Proof.
  intros W Hf. rewrite pr_stress_raw by exact W. destruct W as (H1 & H2 & H3 & H4).
  rewrite prep_far; [|apply ult100; cbn; lra|exact Hf]. unfold pr_raw. rsplit.
  replace (1 - 0 / pr_e0 l) with 1 by (field; lra). rewrite pypow_1. lra.
Qed.

Lemma bil_tension l e : bil_wf l -> 0 < e -> far (bi_ecu l) e -> bil_stress l e = 0.
Proof.
  intros W He Hf. rewrite bil_stress_raw by exact W. destruct W as (H1 & H2 & H3 & H4).
  assert (P := prep_tension (bil_ult l) e eq_refl ltac:(cbn; lra) He Hf).
  unfold bil_raw. rsplit1; [reflexivity|lra].
Qed.
Lemma bil_crushed l e : bil_wf l -> e < bi_ecu l -> far (bi_ecu l) e -> bil_stress l e = 0.
Proof.
  intros W He Hf. rewrite bil_stress_raw by exact W. destruct W as (H1 & H2 & H3 & H4).
  rewrite (prep_below (bil_ult l) e eq_refl ltac:(cbn; lra) He Hf). unfold bil_raw. rsplit.
Qed.
Lemma bil_plateau l e : bil_wf l -> settled (bil_ult l) e -> bi_ecu l <= e <= bi_ec l -> bil_stress l e = bi_fc l.
Proof.
  intros W S0 He. rewrite bil_stress_raw by exact W. rewrite settled_prep by exact S0.
  destruct (bil_E_props l W) as [HE Hfc]. destruct W as (H1 & H2 & H3 & H4). unfold bil_raw. rsplit.
  assert (e = bi_ec l) by lra. subst e. lra.
Qed.
Lemma bil_line l e : bil_wf l -> settled (bil_ult l) e -> bi_ec l <= e <= 0 -> bil_stress l e = bi_fc l / bi_ec l * e.
Proof.
  intros W S0 He. rewrite bil_stress_raw by exact W. rewrite settled_prep by exact S0.
  destruct W as (H1 & H2 & H3 & H4). unfold bil_raw. rewrite <- H4. rsplit.
Qed.
Lemma bil_mono l a b : bil_wf l -> settled (bil_ult l) a -> settled (bil_ult l) b ->
  bi_ecu l <= a -> a <= b -> b <= 0 -> bil_stress l a <= bil_stress l b.
Proof. intros W Sa Sb. rewrite !bil_stress_raw by exact W. rewrite !settled_prep by assumption. apply bil_raw_mono, W. Qed.

Lemma popovics_tension l e : popovics_wf l -> 0 < e -> far (po_ecu l) e -> popovics_stress l e = 0.
Proof.
  intros (H1 & H2 & H3 & H4) He Hf. unfold popovics_stress. cbv zeta.
  assert (P := prep_tension (popovics_ult l) e eq_refl ltac:(cbn; lra) He Hf).
  destruct (Rltb_spec 0 (prep (popovics_ult l) e)); [|lra]. rewrite orb_true_r. reflexivity.
Qed.
Lemma popovics_crushed l e : popovics_wf l -> e < po_ecu l -> far (po_ecu l) e -> popovics_stress l e = 0.
Proof.
  intros (H1 & H2 & H3 & H4) He Hf. unfold popovics_stress. cbv zeta.
  rewrite (prep_below (popovics_ult l) e eq_refl ltac:(cbn; lra) He Hf).
  destruct (Rltb_spec e (po_ecu l)); [reflexivity|lra].
Qed.
Lemma popovics_at_peak l : popovics_wf l -> settled (popovics_ult l) (po_ec l) -> po_ecu l <= po_ec l ->
  popovics_stress l (po_ec l) = po_fc l.
Proof.
  intros W S0 H. unfold popovics_stress. cbv zeta. rewrite settled_prep by exact S0.
  rewrite popovics_peak by exact W. destruct W as (H1 & H2 & H3 & H4).
  destruct (Rltb_spec (po_ec l) (po_ecu l)); [lra|]. destruct (Rltb_spec 0 (po_ec l)); [lra|]. reflexivity.
Qed.

Lemma sargin_ok_compr l e : sargin_wf l -> settled (sargin_ult l) e -> sa_ecu1 l <= e <= 0 ->
  sargin_stress l e = Ok (sa_fc l * (sa_k l * (e / sa_ec1 l) - (e / sa_ec1 l) ^ 2) / (1 + (sa_k l - 2) * (e / sa_ec1 l))).
Proof.
  intros W S0 He. rewrite sargin_stress_in; rewrite ?settled_prep by exact S0; [reflexivity|exact W|exact He].
Qed.
Lemma sargin_at_peak l : sargin_wf l -> settled (sargin_ult l) (sa_ec1 l) -> sa_ecu1 l <= sa_ec1 l ->
  sargin_stress l (sa_ec1 l) = Ok (sa_fc l).
Proof.
  intros W S0 H. assert (W' := W). destruct W' as (H1 & H2 & H3 & H4).
  rewrite sargin_stress_in; rewrite ?settled_prep by exact S0; [|exact W|lra].
  rewrite sargin_peak; [reflexivity|exact W|]. assert (D := sargin_den l (sa_ec1 l) W ltac:(lra)).
  replace (sa_ec1 l / sa_ec1 l) with 1 in D by (field; lra). lra.
Qed.
Lemma sargin_outside l e v : sargin_wf l -> far (sa_ecu1 l) e -> e < sa_ecu1 l \/ 0 < e ->
  sargin_stress l e = Ok v -> v = 0.
Proof.
  intros (H1 & H2 & H3 & H4) Hf Ho Hv. apply sargin_stress_cases in Hv. subst v.
  destruct Ho as [Ho|Ho].
  - rewrite (prep_below (sargin_ult l) e eq_refl ltac:(cbn; lra) Ho Hf).
    destruct (Rltb_spec e (sa_ecu1 l)); [reflexivity|lra].
  - assert (P := prep_tension (sargin_ult l) e eq_refl ltac:(cbn; lra) Ho Hf).
    destruct (Rltb_spec 0 (prep (sargin_ult l) e)); [|lra]. rewrite orb_true_r. reflexivity.
Qed.

Lemma ult_separated lim : snd lim = 100 -> fst lim <= 0 -> separated lim.
Proof.
  intros H1 H2. unfold separated, far, tol. rewrite H1.
  rewrite (Rabs_left1 (fst lim)) by lra. rewrite Rabs_pos_eq by lra. lra.
Qed.
Lemma ep_separated l : ep_wf l -> / 1000000 < snd (ep_ult l) -> separated (ep_ult l).
Proof.
  intros W H. rewrite ep_ult_sym. unfold separated, far, tol. cbn [fst snd].
  rewrite Rabs_Ropp, Rabs_pos_eq by lra. rewrite Rabs_pos_eq by lra. lra.
Qed.

(** Decide closed real arithmetic with |.| and comparisons. *)
Ltac rnum :=
  unfold isclose, Rabs in *;
  repeat (match goal with
          | |- context [Rcase_abs ?a] => destruct (Rcase_abs a); try lra
          end);
  repeat (rsplit1; cbn [andb orb negb]; try lra).
