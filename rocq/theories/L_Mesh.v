(** Lemmas for C55: integrals over triangles. *)
From Coquelicot Require Import Coquelicot.
From Coq Require Import FunctionalExtensionality Lra Lia Permutation.
From Verif Require Import Base M_Marin S_Marin L_Marin M_Laws S_Laws M_Laws2 S_Laws2 M_Fiber S_Fiber L_Fiber M_MarinInt S_MarinInt L_MarinInt L_MarinInt2 L_Frame L_Frame4 S_Mesh.

Lemma gfun_head m g p q s t : gfun m g p (seg p q s) t = s * gfun m g p q (s * t + 0).
Proof.
  unfold gfun, seg. cbn [fst snd]. replace ((1 - t) * snd p + t * ((1 - s) * snd p + s * snd q)) with ((1 - (s * t + 0)) * snd p + (s * t + 0) * snd q) by ring.
  replace ((1 - t) * fst p + t * ((1 - s) * fst p + s * fst q)) with ((1 - (s * t + 0)) * fst p + (s * t + 0) * fst q) by ring. ring.
Qed.
Lemma gfun_tail m g p q s t : gfun m g (seg p q s) q t = (1 - s) * gfun m g p q ((1 - s) * t + s).
Proof.
  unfold gfun, seg. cbn [fst snd]. replace ((1 - t) * ((1 - s) * snd p + s * snd q) + t * snd q) with ((1 - ((1 - s) * t + s)) * snd p + ((1 - s) * t + s) * snd q) by ring.
  replace ((1 - t) * ((1 - s) * fst p + s * fst q) + t * fst q) with ((1 - ((1 - s) * t + s)) * fst p + ((1 - s) * t + s) * fst q) by ring. ring.
Qed.
Lemma gedge_split m g p q s : eint g -> 0 <= s <= 1 -> gedge m g p q = gedge m g p (seg p q s) + gedge m g (seg p q s) q.
Proof.
  intros E S01. pose proof (E m p q) as X.
  assert (X1 : ex_RInt (gfun m g p q) 0 s) by (apply (ex_RInt_Chasles_1 (V := R_CompleteNormedModule) _ 0 s 1); assumption).
  assert (X2 : ex_RInt (gfun m g p q) s 1) by (apply (ex_RInt_Chasles_2 (V := R_CompleteNormedModule) _ 0 s 1); assumption).
  unfold gedge. pose proof (RInt_Chasles (V := R_CompleteNormedModule) (gfun m g p q) 0 s 1 X1 X2) as C. change (plus ?a ?b) with (a + b) in C. rewrite <- C. f_equal.
  - replace (RInt (gfun m g p q) 0 s) with (RInt (gfun m g p q) (s * 0 + 0) (s * 1 + 0)) by (f_equal; ring).
    rewrite <- (RInt_comp_lin (V := R_CompleteNormedModule) (gfun m g p q) s 0 0 1).
    + apply RInt_ext. intros t _. rewrite gfun_head. reflexivity.
    + replace (s * 0 + 0) with 0 by ring. replace (s * 1 + 0) with s by ring. exact X1.
  - replace (RInt (gfun m g p q) s 1) with (RInt (gfun m g p q) ((1 - s) * 0 + s) ((1 - s) * 1 + s)) by (f_equal; ring).
    rewrite <- (RInt_comp_lin (V := R_CompleteNormedModule) (gfun m g p q) (1 - s) s 0 1).
    + apply RInt_ext. intros t _. rewrite gfun_tail. reflexivity.
    + replace ((1 - s) * 0 + s) with s by ring. replace ((1 - s) * 1 + s) with 1 by ring. exact X2.
Qed.

Section Positive.
Variables g0 g1 : R -> R.
Hypothesis E0 : eint g0.
Hypothesis E1 : eint g1.
Definition ed (p q : R * R) : R := gedge 0 g0 p q + gedge 1 g1 p q.
Lemma ed_rev p q : ed q p = - ed p q.
Proof. unfold ed. rewrite (gedge_rev 0 g0 p q E0), (gedge_rev 1 g1 p q E1). ring. Qed.
Lemma ed_split p q s : 0 <= s <= 1 -> ed p q = ed p (seg p q s) + ed (seg p q s) q.
Proof. intros H. unfold ed. rewrite (gedge_split 0 g0 p q s E0 H), (gedge_split 1 g1 p q s E1 H). ring. Qed.
Lemma ed_flat p q : snd p = snd q -> ed p q = 0.
Proof. intros H. unfold ed. rewrite !gedge_horizontal by exact H. ring. Qed.
Lemma ed_left p q p' q' : snd p = snd p' -> snd q = snd q' -> snd p <= snd q -> fst p <= fst p' -> fst q <= fst q' ->
  (forall t, 0 <= t <= 1 -> let z := (1 - t) * snd p + t * snd q in let y := (1 - t) * (fst p + fst p') / 2 + t * (fst q + fst q') / 2 in 0 <= g0 z + g1 z * y) ->
  ed p q <= ed p' q'.
Proof.
  intros ZP ZQ ZZ YP YQ H. unfold ed, gedge. rewrite <- (RInt_plus' (gfun 0 g0 p q) (gfun 1 g1 p q) 0 1 (E0 _ _ _) (E1 _ _ _)), <- (RInt_plus' (gfun 0 g0 p' q') (gfun 1 g1 p' q') 0 1 (E0 _ _ _) (E1 _ _ _)).
  apply RInt_le; [lra|exact (ex_RInt_plus (V := R_NormedModule) _ _ 0 1 (E0 0%nat p q) (E1 1%nat p q))|exact (ex_RInt_plus (V := R_NormedModule) _ _ 0 1 (E0 0%nat p' q') (E1 1%nat p' q'))|].
  intros t T. specialize (H t ltac:(lra)). cbv zeta in H. unfold gfun, seg. cbn [fst snd Nat.add INR pow]. rewrite <- ZP, <- ZQ.
  set (z := (1 - t) * snd p + t * snd q) in *. set (a := (1 - t) * fst p + t * fst q). set (b := (1 - t) * fst p' + t * fst q').
  assert (AB : a <= b) by (unfold a, b; apply Rplus_le_compat; apply Rmult_le_compat_l; lra).
  replace ((1 - t) * (fst p + fst p') / 2 + t * (fst q + fst q') / 2) with ((a + b) / 2) in H by (unfold a, b; field).
  assert (0 <= (b - a) * (g0 z + g1 z * ((a + b) / 2)) * (snd q - snd p)) by (repeat apply Rmult_le_pos; lra).
  match goal with |- ?u <= ?v => assert (v - u = (b - a) * (g0 z + g1 z * ((a + b) / 2)) * (snd q - snd p)) by (fold a b; field) end. lra.
Qed.

Definition good (v : R * R) : Prop := 0 <= g0 (snd v) + g1 (snd v) * fst v.
Definition turn3 (p q r : R * R) : R := (fst q - fst p) * (snd r - snd p) - (snd q - snd p) * (fst r - fst p).
(** p lowest *)
Lemma tri_low p q r : 0 <= turn3 p q r -> snd p <= snd q -> snd p <= snd r -> (forall v, in_tri (p, q, r) v -> good v) ->
  0 <= ed p q + ed q r + ed r p.
Proof.
  intros TC PQ PR H.
  destruct (Req_dec (snd p) (snd q)) as [ZQ|NQ], (Req_dec (snd p) (snd r)) as [ZR|NR].
  - rewrite !ed_flat by congruence. lra.
  - (* p q level, r above *)
    rewrite (ed_flat p q ZQ), (ed_rev p r). assert (YQ : fst p <= fst q). { unfold turn3 in TC. rewrite <- ZQ in TC. assert (0 < snd r - snd p) by lra. apply Rnot_lt_le. intros L. nra. }
    assert (ed p r <= ed q r); [|lra]. apply ed_left; try lra. intros t T. cbv zeta.
    assert (G : good ((1 - t) * (fst p + fst q) / 2 + t * (fst r + fst r) / 2, (1 - t) * snd p + t * snd r)); [|exact G].
    apply H. exists ((1 - t) / 2), ((1 - t) / 2), t. repeat split; try lra. unfold mix. f_equal; [field|rewrite <- ZQ; field].
  - (* p r level, q above *)
    rewrite (ed_flat r p) by congruence. assert (YR : fst r <= fst p). { unfold turn3 in TC. rewrite <- ZR in TC. assert (0 < snd q - snd p) by lra. apply Rnot_lt_le. intros L. nra. }
    rewrite (ed_rev r q). assert (ed r q <= ed p q); [|lra]. apply ed_left; try lra. intros t T. cbv zeta.
    assert (G : good ((1 - t) * (fst r + fst p) / 2 + t * (fst q + fst q) / 2, (1 - t) * snd r + t * snd q)); [|exact G].
    apply H. exists ((1 - t) / 2), t, ((1 - t) / 2). repeat split; try lra. unfold mix. f_equal; [field|rewrite <- ZR; field].
  - destruct (Rle_dec (snd q) (snd r)) as [QR|QR].
    + (* split p r at the level of q *)
      set (s := (snd q - snd p) / (snd r - snd p)).
      assert (S01 : 0 <= s <= 1). { unfold s. split; [apply Rmult_le_pos; [lra|left; apply Rinv_0_lt_compat; lra]|]. apply (Rmult_le_reg_r (snd r - snd p)); [lra|]. replace ((snd q - snd p) / (snd r - snd p) * (snd r - snd p)) with (snd q - snd p) by (field; lra). lra. }
      set (m := seg p r s). assert (ZM : snd m = snd q) by (unfold m, seg, s; cbn [snd]; field; lra).
      assert (YM : fst m <= fst q).
      { assert (E : (fst q - fst m) * (snd r - snd p) = turn3 p q r) by (unfold m, seg, s, turn3; cbn [fst]; field; lra). apply Rnot_lt_le. intros L. assert (0 < snd r - snd p) by lra. nra. }
      rewrite (ed_rev p r), (ed_split p r s S01). fold m.
      assert (A1 : ed p m <= ed p q).
      { apply ed_left; try lra. intros t T. cbv zeta.
        assert (G : good ((1 - t) * (fst p + fst p) / 2 + t * (fst m + fst q) / 2, (1 - t) * snd p + t * snd m)); [|exact G].
        apply H. exists ((1 - t) + t * (1 - s) / 2), (t / 2), (t * s / 2). split; [assert (0 <= t * (1 - s)) by (apply Rmult_le_pos; lra); lra|]. split; [lra|]. split; [assert (0 <= t * s) by (apply Rmult_le_pos; lra); lra|]. split; [field|].
        unfold mix. f_equal; [unfold m, seg; cbn [fst]; field|]. 
        transitivity ((1 - t) * snd p + t * ((snd m + snd q) / 2)); [rewrite ZM; field|unfold m, seg; cbn [snd]; field]. }
      assert (A2 : ed m r <= ed q r).
      { apply ed_left; try lra. intros t T. cbv zeta.
        assert (G : good ((1 - t) * (fst m + fst q) / 2 + t * (fst r + fst r) / 2, (1 - t) * snd m + t * snd r)); [|exact G].
        apply H. exists ((1 - t) * (1 - s) / 2), ((1 - t) / 2), ((1 - t) * s / 2 + t). split; [assert (0 <= (1 - t) * (1 - s)) by (apply Rmult_le_pos; lra); lra|]. split; [lra|]. split; [assert (0 <= (1 - t) * s) by (apply Rmult_le_pos; lra); lra|]. split; [field|].
        unfold mix. f_equal; [unfold m, seg; cbn [fst]; field|].
        transitivity ((1 - t) * ((snd m + snd q) / 2) + t * snd r); [rewrite ZM; field|unfold m, seg; cbn [snd]; field]. }
      lra.
    + (* split p q at the level of r *)
      set (s := (snd r - snd p) / (snd q - snd p)).
      assert (S01 : 0 <= s <= 1). { unfold s. split; [apply Rmult_le_pos; [lra|left; apply Rinv_0_lt_compat; lra]|]. apply (Rmult_le_reg_r (snd q - snd p)); [lra|]. replace ((snd r - snd p) / (snd q - snd p) * (snd q - snd p)) with (snd r - snd p) by (field; lra). lra. }
      set (m := seg p q s). assert (ZM : snd m = snd r) by (unfold m, seg, s; cbn [snd]; field; lra).
      assert (YM : fst r <= fst m).
      { assert (E : (fst m - fst r) * (snd q - snd p) = turn3 p q r) by (unfold m, seg, s, turn3; cbn [fst]; field; lra). apply Rnot_lt_le. intros L. assert (0 < snd q - snd p) by lra. nra. }
      rewrite (ed_split p q s S01). fold m. rewrite (ed_rev p r), (ed_rev r q).
      assert (A1 : ed p r <= ed p m).
      { apply ed_left; try lra. intros t T. cbv zeta.
        assert (G : good ((1 - t) * (fst p + fst p) / 2 + t * (fst r + fst m) / 2, (1 - t) * snd p + t * snd r)); [|exact G].
        apply H. exists ((1 - t) + t * (1 - s) / 2), (t * s / 2), (t / 2). split; [assert (0 <= t * (1 - s)) by (apply Rmult_le_pos; lra); lra|]. split; [assert (0 <= t * s) by (apply Rmult_le_pos; lra); lra|]. split; [lra|]. split; [field|].
        unfold mix. f_equal; [unfold m, seg; cbn [fst]; field|].
        transitivity ((1 - t) * snd p + t * ((snd m + snd r) / 2)); [rewrite ZM; field|unfold m, seg; cbn [snd]; field]. }
      assert (A2 : ed r q <= ed m q).
      { apply ed_left; try lra. intros t T. cbv zeta.
        assert (G : good ((1 - t) * (fst r + fst m) / 2 + t * (fst q + fst q) / 2, (1 - t) * snd r + t * snd q)); [|exact G].
        apply H. exists ((1 - t) * (1 - s) / 2), ((1 - t) * s / 2 + t), ((1 - t) / 2). split; [assert (0 <= (1 - t) * (1 - s)) by (apply Rmult_le_pos; lra); lra|]. split; [assert (0 <= (1 - t) * s) by (apply Rmult_le_pos; lra); lra|]. split; [lra|]. split; [field|].
        unfold mix. f_equal; [unfold m, seg; cbn [fst]; field|].
        transitivity ((1 - t) * ((snd m + snd r) / 2) + t * snd q); [rewrite ZM; field|unfold m, seg; cbn [snd]; field]. }
      lra.
Qed.
Lemma in_tri_cycle p q r v : in_tri (q, r, p) v -> in_tri (p, q, r) v.
Proof. intros (a & b & c & A & B & C & E & ->). exists c, a, b. repeat split; try lra. unfold mix. f_equal; ring. Qed.
Lemma tri_positive p q r : 0 <= turn3 p q r -> (forall v, in_tri (p, q, r) v -> good v) -> 0 <= ed p q + ed q r + ed r p.
Proof.
  intros TC H.
  assert (C1 : turn3 q r p = turn3 p q r) by (unfold turn3; ring). assert (C2 : turn3 r p q = turn3 p q r) by (unfold turn3; ring).
  destruct (Rle_dec (snd p) (snd q)) as [A|A]; [destruct (Rle_dec (snd p) (snd r)) as [B|B]|destruct (Rle_dec (snd q) (snd r)) as [B|B]].
  - apply tri_low; assumption.
  - pose proof (tri_low r p q ltac:(lra) ltac:(lra) ltac:(lra)) as X. specialize (X (fun v V => H v (in_tri_cycle _ _ _ _ (in_tri_cycle _ _ _ _ V)))). lra.
  - pose proof (tri_low q r p ltac:(lra) ltac:(lra) ltac:(lra)) as X. specialize (X (fun v V => H v (in_tri_cycle _ _ _ _ V))). lra.
  - pose proof (tri_low r p q ltac:(lra) ltac:(lra) ltac:(lra)) as X. specialize (X (fun v V => H v (in_tri_cycle _ _ _ _ (in_tri_cycle _ _ _ _ V)))). lra.
Qed.
End Positive.
