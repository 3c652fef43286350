(** Property C60, concluded: the curved laws answer arrays as they answer numbers, and an example. *)
From Coquelicot Require Import Coquelicot.
From Coq Require Import FunctionalExtensionality Lra Lia.
From Verif Require Import Base S_Marin M_Marin M_Laws S_Laws L_Laws L_LawsB L_LawsC P_Laws M_Laws2 S_Laws2 L_Laws2 L_Laws3 L_Laws4 L_Laws5 M_Section M_Discr S_Discr L_Discr M_Fiber S_Fiber M_MarinInt S_MarinInt L_MarinInt4 S_Frame P_Frame S_Section S_Gross S_Exact M_Fields S_Fields L_Fields L_Fields2 L_Fields3 P_Exact P_Fields
  L_Cracked7 L_Marin S_Mesh L_Mesh L_Mesh2 P_Mesh P_Mesh3 S_Curved L_Curved2 P_Curved P_Curved3.

Lemma sargin_batched l : sargin_wf l -> sa_ecu1 l < 0 -> batched (sargin_law l).
Proof.
  intros W U. assert (E1 : sa_ec1 l <> 0) by (destruct W; lra). split; intros eps; cbn [sargin_law lw_stress_arr lw_tangent_arr lw_stress lw_tangent fst].
  - rewrite sargin_arr1_map by (apply ult_separated; [reflexivity|cbn; lra]). apply map_ext. intros e. unfold sargin_arr1, sargin_stress. cbv zeta.
    set (x := prep (sargin_ult l) e). destruct (Reqb_spec (sa_ec1 l) 0); [contradiction|].
    destruct (Rltb_spec 0 x) as [P|P]; destruct (Rltb_spec x (sa_ecu1 l)) as [Q|Q]; cbn [orb];
      destruct (Reqb_spec (1 + (sa_k l - 2) * (x / sa_ec1 l)) 0) as [Z|Z]; cbn [or_zero]; try reflexivity.
    exfalso. pose proof (sargin_den l x W ltac:(lra)). lra.
  - unfold sargin_tangent_arr. cbv zeta. arr_norm. apply map_ext. intros e. unfold sargin_tangent.
    destruct (Reqb_spec (sa_ec1 l) 0); [contradiction|].
    destruct (Rltb_spec 0 e) as [P|P]; destruct (Rltb_spec e (sa_ecu1 l)) as [Q|Q]; cbn [orb];
      destruct (Reqb_spec (1 + (sa_k l - 2) * (e / sa_ec1 l)) 0) as [Z|Z]; cbn [or_zero]; try reflexivity.
    exfalso. pose proof (sargin_den l e W ltac:(lra)). lra.
Qed.

(** The curved laws give arrays and single numbers the same stresses and tangents. *)
Theorem C60_batched :
  (forall fc e1 eu k, fc <> 0 -> e1 <> 0 -> eu <> 0 -> 0 < 1 + (k - 2) * (Rabs eu / Rabs e1) -> batched (sargin_law (sargin_init fc e1 eu k))) /\
  (forall fc p u n, p <> 0 -> Rabs p <= Rabs u -> 0 < n -> batched (pr_law_n (pr_init fc p u n))) /\
  (forall fc ec ecu Ec l, popovics_init fc ec ecu Ec = Ok l -> batched (popovics_law l)).
Proof.
  repeat apply conj.
  - intros fc e1 eu k F H1 H2 D. apply sargin_batched; [now apply sargin_init_wf|]. cbn [sargin_init sa_ecu1]. pose proof (Rabs_pos_lt _ H2). lra.
  - intros fc p u n P PU N. split; intros eps; cbn [pr_law_n lw_stress_arr lw_tangent_arr lw_stress lw_tangent fst]; apply C05_parabolarectangle_arrays; assumption.
  - intros fc ec ecu Ec l H. split; intros eps; cbn [popovics_law lw_stress_arr lw_tangent_arr lw_stress lw_tangent fst]; apply (C05_popovics_arrays _ _ _ _ _ eps H).
Qed.
Print Assumptions C60_batched.

(** Sargin concrete in a rectangular section bent about both axes: N within 0.54 of the
    integral over the exact curve (its stresses go up to 35). *)
Example C60_example : exists F data,
  let laws := fun _ : nat => sargin_law (sargin_init 35 (2/1000) (35/10000) 2) in
  marin_forces laws plate (-1/1000, 1/1000, 0) None = Ok (F, data) /\
  forces_near (54/100) (/ 2) 1 F (area_forces (fun _ => in_compression (- (35/10000)) (sargin_curve 35 (2/1000) 2)) laws plate (-1/1000, 1/1000, 0)).
Proof.
  set (l := sargin_init 35 (2/1000) (35/10000) 2).
  assert (R1 : Rabs (2/1000) = 2/1000) by (apply Rabs_right; lra). assert (R2 : Rabs (35/10000) = 35/10000) by (apply Rabs_right; lra).
  assert (R3 : Rabs 35 = 35) by (apply Rabs_right; lra).
  assert (W : sargin_wf l) by (apply sargin_init_wf; rewrite ?R1, ?R2; lra).
  assert (SQ : 0 < sqrt (0 ^ 2 + (1/1000) ^ 2)) by (apply sqrt_lt_R0; lra).
  assert (AR : surface_integral (fun _ _ => 1) {| sf_ext := rect (- / 2) (/ 2) (-1) 1; sf_ints := []; sf_law := 0 |} = 2).
  { transitivity (surface_integral (fun y z => 1 + 0 * y + 0 * z) {| sf_ext := rect (- / 2) (/ 2) (-1) 1; sf_ints := []; sf_law := 0 |}); [f_equal; apply functional_extensionality; intros y; apply functional_extensionality; intros z; ring|].
    rewrite (surface_triangles _ _ _ (field2_affine 1 0 0) (diagonal_triangulates _ (or_introl eq_refl))). cbn [diagonal map]. rewrite !lsum_cons, !tri_affine, !fan_area. unfold shoelace, lsum, cross. cbn. field. }
  destruct (C60_sargin 35 (2/1000) (35/10000) 2 ltac:(lra) ltac:(lra) ltac:(lra) ltac:(rewrite R1, R2; lra) ltac:(rewrite R1, R2; lra) ltac:(unfold tol; rewrite !R2; lra))
    as (f & t & R0 & CT & _ & WI).
  { cbn [sargin_law lw_stress]. fold l. rewrite R2, R3. rewrite (sargin_ok_compr l _ W); [|unfold sargin_ult; cbn [l sargin_init sa_ecu1]; rewrite R2; apply tol_settled; lra|cbn [l sargin_init sa_ecu1]; rewrite R2; lra].
    cbn [or_zero]. unfold l, sargin_init. cbn [sa_fc sa_ec1 sa_k]. rewrite R1, R3. cbv zeta. replace (- (35/10000) / - (2/1000)) with (7/4) by field. lra. }
  fold l in R0. rewrite R1, R2, R3 in *.
  destruct (C60_forces (fun _ => sargin_law l) (fun _ => f) (fun _ => in_compression (- (35/10000)) (sargin_curve 35 (2/1000) 2)) (fun s => diagonal s 0) plate (-1/1000) (1/1000) 0
    (fun _ => 27/100) (fun _ => - (35/10000)) (fun _ => 0) (/ 2) 1) as (F & data & MF & NR).
  - intros _. apply sargin_batched; [exact W|]. unfold l. cbn [sargin_init sa_ecu1]. lra.
  - exact plate_drawn.
  - intros s I. clear - R0 SQ. set (r := sqrt (0 ^ 2 + (1/1000) ^ 2)) in *. destruct (R0 (-1/1000) r (Rlt_le _ _ SQ) (fun Z : r = 0 => False_ind _ ltac:(lra))) as (FO & _). exact FO.
  - intros s I. split; [exact CT|]. intros e E. eapply Rle_trans; [apply (WI 0 e E)|].
    replace (1 + (2 - 2) * (35 / 10000 / (2 / 1000))) with 1 by field. rewrite Rmin_left by lra. lra.
  - intros s I. split; [apply diagonal_triangulates, I|]. intros t0 v HT V. destruct I as [<- | []].
    destruct HT as [<- | [<- | []]]; cbn [corner] in V; destruct V as [-> | [-> | ->]]; unfold plane_strain; cbn [fst snd]; repeat split; try (apply Rabs_le); lra.
  - exists F, data. cbv zeta. split; [exact MF|]. unfold over_area in NR. cbn [cg_surf plate map] in NR. rewrite lsum_cons in NR. cbv beta in NR. rewrite AR in NR. unfold lsum in NR. cbn [fold_left] in NR.
    replace (27 / 100 * 2 + 0) with (54/100) in NR by lra. exact NR.
Qed.
