From Verif Require Import Base M_Marin M_Laws M_Laws2 M_Fiber M_MarinInt S_Fiber M_Section S_Section L_Section3 M_Domain S_Domain.
From Coq Require Import Lra Lia.

(** * Numbers *)
Lemma attempt_spec num k : (0 <= num)%Z -> (0 <= k)%Z -> (35 * attempt num k <= num * k < 35 * attempt num k + 35)%Z.
Proof.
  intros H K. unfold attempt. rewrite Z.quot_div_nonneg by lia.
  pose proof (Z.div_mod (num * k) 35 ltac:(lia)). pose proof (Z.mod_pos_bound (num * k) 35 ltac:(lia)). lia.
Qed.
Lemma linspace_length a b n e : length (linspace a b n e) = n.
Proof. unfold linspace. rewrite map_length, seq_length. reflexivity. Qed.
Lemma geomspace_length a b n e l : geomspace a b n e = Ok l -> length l = n.
Proof. unfold geomspace. destruct (orb _ _); intros H; inversion H. rewrite map_length, seq_length. reflexivity. Qed.
Lemma np_space_length a b n ty e l : np_space a b n ty e = Ok l -> (0 <= n)%Z /\ length l = Z.to_nat n.
Proof.
  unfold np_space. destruct (Z.ltb_spec n 0); [discriminate|]. destruct ty.
  - intros E. inversion E. split; [lia|apply linspace_length].
  - destruct (andb _ _); [intros E; split; [lia|exact (geomspace_length _ _ _ _ _ E)]|].
    destruct (Z.eqb_spec n 0); [discriminate|]. destruct (Reqb b 0).
    + destruct (geomspace a _ _ e) eqn:E; cbn [bind]; [|discriminate]. intros E'. inversion E'. split; [lia|].
      rewrite app_length, (geomspace_length _ _ _ _ _ E). cbn [length]. lia.
    + destruct (geomspace _ b _ e) eqn:E; cbn [bind]; [|discriminate]. intros E'. inversion E'. split; [lia|].
      cbn [length]. rewrite (geomspace_length _ _ _ _ _ E). lia.
  - intros E. inversion E. split; [lia|]. rewrite rev_length, map_length. apply linspace_length.
  - discriminate.
Qed.
Lemma field_pairs_length f rc epb enb epy eny yn yp h l : field_pairs f rc epb enb epy eny yn yp h = Ok l ->
  (forall n, In n (wanted f) -> (0 <= n)%Z) /\ (1 <= fd_n6 f)%Z /\ Z.of_nat (length l) = sumZ (wanted f).
Proof.
  unfold field_pairs.
  destruct (np_space epb 0 (fd_n1 f) _ _) as [f1|] eqn:E1; cbn [bind]; [|discriminate].
  destruct (np_space 0 enb (fd_n2 f) _ _) as [f2|] eqn:E2; cbn [bind]; [|discriminate].
  destruct (np_space epb epy (fd_n3 f) _ _) as [f3|] eqn:E3; cbn [bind]; [|discriminate].
  destruct (np_space epy 0 (fd_n4 f) _ _) as [f4|] eqn:E4; cbn [bind]; [|discriminate].
  destruct (np_space 0 _ (fd_n5 f) _ _) as [f5|] eqn:E5; cbn [bind]; [|discriminate].
  destruct (np_space _ _ (fd_n6 f - 1) _ _) as [f6|] eqn:E6; cbn [bind]; [|discriminate].
  intros E. inversion E. clear E H0.
  apply np_space_length in E1, E2, E3, E4, E5, E6.
  split; [|split; [lia|]].
  - intros n I. cbn in I. destruct I as [<-|[<-|[<-|[<-|[<-|[<-|[]]]]]]]; lia.
  - rewrite !app_length, !map_length, app_length. cbn [length]. unfold sumZ, wanted. cbn [fold_right]. lia.
Qed.

(** * Values *)
Lemma between_seg a b e : between a b e <-> exists s, 0 <= s <= 1 /\ e = a + s * (b - a).
Proof.
  unfold between. split.
  - intros H. destruct (Req_dec a b) as [-> |N].
    + exists 0. split; [lra|]. rewrite Rmin_left, Rmax_left in H by lra. lra.
    + exists ((e - a) / (b - a)). split; [|field; lra].
      destruct (Rlt_le_dec a b).
      * rewrite Rmin_left, Rmax_right in H by lra. split.
        -- apply Rmult_le_reg_r with (b - a); [lra|]. unfold Rdiv. rewrite Rmult_assoc, Rinv_l by lra. lra.
        -- apply Rmult_le_reg_r with (b - a); [lra|]. unfold Rdiv. rewrite Rmult_assoc, Rinv_l by lra. lra.
      * rewrite Rmin_right, Rmax_left in H by lra. replace ((e - a) / (b - a)) with ((a - e) / (a - b)) by (field; lra). split.
        -- apply Rmult_le_reg_r with (a - b); [lra|]. unfold Rdiv. rewrite Rmult_assoc, Rinv_l by lra. lra.
        -- apply Rmult_le_reg_r with (a - b); [lra|]. unfold Rdiv. rewrite Rmult_assoc, Rinv_l by lra. lra.
  - intros (s & H & ->). destruct (Rle_dec a b).
    + rewrite Rmin_left, Rmax_right by lra. nra.
    + rewrite Rmin_right, Rmax_left by lra. nra.
Qed.
Lemma frac_unit i n : (i < n)%nat -> 0 <= INR i / INR n <= 1.
Proof.
  intros H. assert (0 < INR n) by (apply (lt_INR 0); lia). pose proof (pos_INR i). pose proof (lt_INR _ _ H). split.
  - apply Rmult_le_pos; [lra|]. left. apply Rinv_0_lt_compat. lra.
  - apply Rmult_le_reg_r with (INR n); [lra|]. unfold Rdiv. rewrite Rmult_assoc, Rinv_l by lra. lra.
Qed.
Lemma linspace_between a b n : forall e, In e (linspace a b n false) -> between a b e.
Proof.
  intros e I. unfold linspace in I. apply in_map_iff in I. destruct I as (i & <- & I). apply in_seq in I. cbn [andb].
  apply between_seg. exists (INR i / INR n). split; [apply frac_unit; lia|].
  assert (0 < INR n) by (apply (lt_INR 0); lia). field. lra.
Qed.
Lemma rpower_between r x : 0 < r -> 0 <= x <= 1 -> between 1 r (Rpower r x).
Proof.
  intros R H. assert (E0 : Rpower r 0 = 1) by (apply Rpower_O; exact R). assert (E1 : Rpower r 1 = r) by (apply Rpower_1; exact R).
  unfold between. destruct (Rle_dec 1 r) as [L|L].
  - rewrite Rmin_left, Rmax_right by lra. assert (X : Rpower r 0 <= Rpower r x <= Rpower r 1) by (split; apply Rle_Rpower; lra). rewrite E0, E1 in X. exact X.
  - rewrite Rmin_right, Rmax_left by lra.
    assert (I : forall y, Rpower r y = / Rpower (/ r) y).
    { intros y. unfold Rpower. rewrite ln_Rinv by lra. rewrite <- exp_Ropp. f_equal. ring. }
    assert (R' : 1 <= / r) by (rewrite <- Rinv_1; apply Rinv_le_contravar; lra).
    assert (P : forall y, 0 < Rpower (/ r) y) by (intros y; unfold Rpower; apply exp_pos). split.
    + apply Rle_trans with (Rpower r 1); [rewrite E1; lra|]. rewrite (I 1), (I x). apply Rinv_le_contravar; [apply P|apply Rle_Rpower; lra].
    + apply Rle_trans with (Rpower r 0); [|rewrite E0; lra]. rewrite (I 0), (I x). apply Rinv_le_contravar; [apply P|apply Rle_Rpower; lra].
Qed.
Lemma geomspace_between a b n l : 0 < a * b -> geomspace a b n false = Ok l -> forall e, In e l -> between a b e.
Proof.
  intros P E e I. unfold geomspace in E. destruct (orb _ _); [discriminate|]. inversion E. subst l. clear E.
  apply in_map_iff in I. destruct I as (i & <- & I). apply in_seq in I. cbn [andb].
  assert (NZ : a <> 0) by (intros ->; lra).
  assert (Q : 0 < b / a). { replace (b / a) with (a * b * / (a * a)) by (field; exact NZ). apply Rmult_lt_0_compat; [exact P|]. apply Rinv_0_lt_compat. nra. }
  destruct (proj1 (between_seg _ _ _) (rpower_between (b / a) (INR i / INR n) Q (frac_unit i n ltac:(lia)))) as (s & S1 & ->).
  apply between_seg. exists s. split; [exact S1|]. field. exact NZ.
Qed.
Lemma between_trans a b c e : between a b c -> between a c e -> between a b e.
Proof.
  rewrite !between_seg. intros (s & S1 & ->) (r & S2 & ->). exists (r * s). split; [nra|]. ring.
Qed.
Lemma between_sym a b e : between a b e -> between b a e.
Proof. unfold between. rewrite Rmin_comm, Rmax_comm. tauto. Qed.
Lemma between_l a b : between a b a.
Proof. apply between_seg. exists 0. split; [lra|ring]. Qed.
Lemma between_r a b : between a b b.
Proof. apply between_sym, between_l. Qed.
Lemma np_space_between a b n ty l : spaceable ty a b -> np_space a b n ty false = Ok l -> forall e, In e l -> between a b e.
Proof.
  unfold np_space. intros SP. destruct (n <? 0)%Z; [discriminate|]. destruct ty.
  - intros E. inversion E. apply linspace_between.
  - specialize (SP eq_refl). assert (P10 : 0 < / 10 ^ 10) by (apply Rinv_0_lt_compat; apply pow_lt; lra). revert SP P10. generalize (/ 10 ^ 10). intros q SP P10.
    destruct (Reqb_spec b 0) as [-> |NB]; cbn [negb andb].
    + destruct (n =? 0)%Z; [discriminate|]. destruct (geomspace a (q * sgn a) (Z.to_nat (n - 1)) false) as [l'|] eqn:E; cbn [bind]; [|discriminate].
      intros E'. inversion E'. subst l. clear E'. intros e I. apply in_app_or in I. destruct I as [I|[<-|[]]]; [|apply between_r].
      assert (SA : between a 0 (q * sgn a) /\ 0 < a * (q * sgn a)).
      { destruct SP as [H|[[_ H]|[-> H]]].
        - exfalso. lra.
        - unfold sgn. destruct (Rltb_spec 0 a).
          + rewrite Rabs_pos_eq in H by lra. split; [|nra]. unfold between. rewrite Rmin_right, Rmax_left by lra. lra.
          + destruct (Rltb_spec a 0); [|exfalso; assert (a = 0) by lra; subst a; rewrite Rabs_R0 in H; lra].
            rewrite Rabs_left in H by lra. split; [|nra]. unfold between. rewrite Rmin_left, Rmax_right by lra. lra.
        - exfalso. rewrite Rabs_R0 in H. lra. }
      destruct SA as [SA SB]. exact (between_trans _ _ _ _ SA (geomspace_between _ _ _ _ SB E e I)).
    + destruct (Reqb_spec a 0) as [-> |NA]; cbn [negb].
      * destruct (n =? 0)%Z; [discriminate|]. destruct (geomspace (q * sgn b) b (Z.to_nat (n - 1)) false) as [l'|] eqn:E; cbn [bind]; [|discriminate].
        intros E'. inversion E'. subst l. clear E'. intros e [<-|I]; [apply between_l|].
        assert (SA : between b 0 (q * sgn b) /\ 0 < (q * sgn b) * b).
        { destruct SP as [H|[[-> H]|[_ H]]].
          - exfalso. lra.
          - lra.
          - unfold sgn. destruct (Rltb_spec 0 b).
            + rewrite Rabs_pos_eq in H by lra. split; [|nra]. unfold between. rewrite Rmin_right, Rmax_left by lra. lra.
            + destruct (Rltb_spec b 0); [|exfalso; lra].
              rewrite Rabs_left in H by lra. split; [|nra]. unfold between. rewrite Rmin_left, Rmax_right by lra. lra. }
        destruct SA as [SA SB]. apply between_sym. apply (between_trans _ _ _ _ SA). apply between_sym. exact (geomspace_between _ _ _ _ SB E e I).
      * intros E. apply (geomspace_between _ _ _ _ ltac:(destruct SP as [H|[[H _]|[H _]]]; [exact H|contradiction|contradiction]) E).
  - intros E. inversion E. subst l. clear E. intros e I. apply in_rev, in_map_iff in I. destruct I as (x & <- & I).
    assert (X : 0 <= x <= 1).
    { unfold linspace in I. apply in_map_iff in I. destruct I as (i & <- & I). apply in_seq in I. cbn [andb].
      destruct ((i =? Z.to_nat n - 1)%nat && (1 <? Z.to_nat n)%nat)%bool eqn:C; [lra|].
      apply Bool.andb_false_iff in C. destruct C as [C|C].
      - apply Nat.eqb_neq in C. assert (H : (i < Z.to_nat n - 1)%nat) by lia.
        assert (EN : INR (Z.to_nat n) - 1 = INR (Z.to_nat n - 1)) by (rewrite minus_INR by lia; reflexivity). rewrite EN.
        pose proof (frac_unit _ _ H). replace (0 + INR i * ((1 - 0) / INR (Z.to_nat n - 1))) with (INR i / INR (Z.to_nat n - 1)) by (unfold Rdiv; ring). lra.
      - apply Nat.ltb_ge in C. assert (i = 0)%nat by lia. subst i. cbn [INR]. lra. }
    apply between_sym, between_seg. exists (x ^ 2). split; [nra|ring].
  - discriminate.
Qed.
Lemma np_space_first a b n ty l : np_space a b n ty false = Ok l -> (ty = Linear /\ 1 <= n \/ 2 <= n)%Z -> exists l', l = a :: l'.
Proof.
  unfold np_space. destruct (Z.ltb_spec n 0); [discriminate|]. intros E N.
  assert (G : forall x y k r, geomspace x y (S k) false = Ok r -> exists r', r = x :: r').
  { intros x y k r. unfold geomspace. destruct (Reqb_spec x 0); [discriminate|]. destruct (Reqb_spec y 0); [discriminate|]. cbn [orb]. intros H'. inversion H'.
    cbn [seq map andb]. eexists. f_equal. cbn [INR]. unfold Rdiv at 2. rewrite Rmult_0_l. unfold Rpower. rewrite Rmult_0_l, exp_0. ring. }
  destruct ty.
  - inversion E. destruct (Z.to_nat n) as [|k] eqn:K; [lia|]. unfold linspace. cbn [seq map andb]. eexists. f_equal. cbn [INR]. ring.
  - destruct N as [[X _]|N]; [discriminate|]. destruct (Reqb_spec b 0) as [-> |NB]; cbn [negb andb] in E.
    + destruct (Z.eqb_spec n 0); [lia|]. destruct (geomspace a _ (Z.to_nat (n - 1)) false) as [r|] eqn:Q; cbn [bind] in E; [|discriminate].
      destruct (Z.to_nat (n - 1)) as [|k] eqn:K; [lia|]. destruct (G _ _ _ _ Q) as (r' & ->). inversion E. eexists. reflexivity.
    + destruct (Reqb_spec a 0) as [-> |NA]; cbn [negb] in E.
      * destruct (Z.eqb_spec n 0); [lia|]. destruct (geomspace _ b (Z.to_nat (n - 1)) false) as [r|] eqn:Q; cbn [bind] in E; [|discriminate]. inversion E. eexists. reflexivity.
      * destruct (Z.to_nat n) as [|k] eqn:K; [lia|]. exact (G _ _ _ _ E).
  - destruct N as [[X _]|N]; [discriminate|]. inversion E. destruct (Z.to_nat n) as [|k] eqn:K; [lia|].
    exists (rev (map (fun x => x ^ 2 * (a - b) + b) (removelast (linspace 0 1 (S k) true)))).
    unfold linspace. rewrite seq_S, !map_app, rev_app_distr. cbn [map rev app]. rewrite removelast_last. f_equal.
    replace (0 + k =? S k - 1)%nat with true by (symmetry; apply Nat.eqb_eq; lia). replace (1 <? S k)%nat with true by (symmetry; apply Nat.ltb_lt; lia). cbn [andb]. ring.
  - discriminate.
Qed.

(** * Profiles *)
Lemma pair_strain theta yn yp x y z : yp < yn ->
  strain_in (pair_profile theta yn yp x) y z =
  fst x * ((turned theta y z - yp) / (yn - yp)) + snd x * ((yn - turned theta y z) / (yn - yp)).
Proof. intros H. unfold strain_in, pair_profile, plane_strain, turned. cbn [fst snd]. field. lra. Qed.
Lemma seg_within lo hi A B s : lo <= A <= hi -> lo <= B <= hi -> 0 <= s <= 1 -> lo <= A + s * (B - A) <= hi.
Proof. intros. nra. Qed.
Lemma between_within lo hi a b e : lo <= a <= hi -> lo <= b <= hi -> between a b e -> lo <= e <= hi.
Proof. intros H1 H2 H. apply between_seg in H. destruct H as (s & S1 & ->). now apply seg_within. Qed.

Lemma field_pairs_within f rc epb enb epy eny yn yp h l :
  field_pairs f rc epb enb epy eny yn yp h = Ok l ->
  enb < 0 <= epb -> 0 <= epy <= epb -> yp < yn -> yn - yp <= h ->
  (rc = true -> yn - (1 - eny / enb) * h <> yp) ->
  spaceable (fd_t1 f) epb 0 -> spaceable (fd_t2 f) 0 enb -> spaceable (fd_t3 f) epb epy -> spaceable (fd_t4 f) epy 0 ->
  spaceable (fd_t5 f) 0 (enb * (h - (yn - yp)) / h) -> spaceable (fd_t6 f) (enb * (h - (yn - yp)) / h) (if rc then eny else enb) ->
  forall x, In x l -> forall lo hi w,
    lo <= enb * w + epb * (1 - w) <= hi -> lo <= epb <= hi -> lo <= enb <= hi -> (rc = true -> lo <= eny <= hi) ->
    lo <= fst x * w + snd x * (1 - w) <= hi.
Proof.
  intros E LN LY YY HH RC S1 S2 S3 S4 S5 S6 x I lo hi w HB HP HN HY. unfold field_pairs in E. set (lim := enb * (h - (yn - yp)) / h) in *.
  assert (LIM : enb <= lim <= 0).
  { unfold lim. replace (enb * (h - (yn - yp)) / h) with (enb * ((h - (yn - yp)) / h)) by (field; lra).
    assert (0 <= (h - (yn - yp)) / h <= 1).
    { split; [apply Rmult_le_pos; [lra|left; apply Rinv_0_lt_compat; lra]|]. apply Rmult_le_reg_r with h; [lra|]. unfold Rdiv. rewrite Rmult_assoc, Rinv_l by lra. lra. }
    nra. }
  destruct (np_space epb 0 (fd_n1 f) _ _) as [f1|] eqn:E1; cbn [bind] in E; [|discriminate].
  destruct (np_space 0 enb (fd_n2 f) _ _) as [f2|] eqn:E2; cbn [bind] in E; [|discriminate].
  destruct (np_space epb epy (fd_n3 f) _ _) as [f3|] eqn:E3; cbn [bind] in E; [|discriminate].
  destruct (np_space epy 0 (fd_n4 f) _ _) as [f4|] eqn:E4; cbn [bind] in E; [|discriminate].
  destruct (np_space 0 lim (fd_n5 f) _ _) as [f5|] eqn:E5; cbn [bind] in E; [|discriminate].
  destruct (np_space lim _ (fd_n6 f - 1) _ _) as [f6|] eqn:E6; cbn [bind] in E; [|discriminate].
  pose proof (np_space_between _ _ _ _ _ S1 E1) as B1. pose proof (np_space_between _ _ _ _ _ S2 E2) as B2.
  pose proof (np_space_between _ _ _ _ _ S3 E3) as B3. pose proof (np_space_between _ _ _ _ _ S4 E4) as B4.
  pose proof (np_space_between _ _ _ _ _ S5 E5) as B5. pose proof (np_space_between _ _ _ _ _ S6 E6) as B6.
  injection E as E. clear E1 E2 E3 E4 E5 E6.
  assert (W12 : forall e, enb <= e <= epb -> lo <= e * w + epb * (1 - w) <= hi).
  { intros e H. assert (BT : between epb enb e) by (unfold between; rewrite Rmin_right, Rmax_left by lra; lra).
    apply between_seg in BT. destruct BT as (s & HS & ->).
    replace ((epb + s * (enb - epb)) * w + epb * (1 - w)) with (epb + s * (enb * w + epb * (1 - w) - epb)) by ring. now apply seg_within. }
  assert (W35 : forall e, enb <= e <= epb -> lo <= enb * w + e * (1 - w) <= hi).
  { intros e H. assert (BT : between enb epb e) by (unfold between; rewrite Rmin_left, Rmax_right by lra; lra).
    apply between_seg in BT. destruct BT as (s & HS & ->).
    replace (enb * w + (enb + s * (epb - enb)) * (1 - w)) with (enb + s * (enb * w + epb * (1 - w) - enb)) by ring. now apply seg_within. }
  rewrite <- E in I. clear E. repeat (apply in_app_or in I; destruct I as [I|I]); apply in_map_iff in I; destruct I as (e & <- & I); cbn [fst snd].
  - apply W12. specialize (B1 _ I). eapply between_within; [| |exact B1]; lra.
  - apply W12. specialize (B2 _ I). eapply between_within; [| |exact B2]; lra.
  - apply W35. specialize (B3 _ I). eapply between_within; [| |exact B3]; lra.
  - apply W35. specialize (B4 _ I). eapply between_within; [| |exact B4]; lra.
  - apply W35. specialize (B5 _ I). eapply between_within; [| |exact B5]; lra.
  - destruct rc.
    + specialize (RC eq_refl). specialize (HY eq_refl).
      assert (BT : between lim eny e) by (apply in_app_or in I; destruct I as [I|[<-|[]]]; [exact (B6 _ I)|apply between_r]).
      apply between_seg in BT. destruct BT as (s & HS & ->). set (zp := yn - (1 - eny / enb) * h) in *.
      assert (EF : - (eny - (lim + s * (eny - lim))) * (zp - yn) / (zp - yp) + eny = enb + s * (eny - enb)).
      { assert (EL : eny - lim = enb / h * (zp - yp)) by (unfold lim, zp; field; lra).
        replace (eny - (lim + s * (eny - lim))) with ((1 - s) * (eny - lim)) by ring. rewrite EL.
        replace (- ((1 - s) * (enb / h * (zp - yp))) * (zp - yn) / (zp - yp) + eny) with (- ((1 - s) * (enb / h)) * (zp - yn) + eny) by (field; split; [lra|intros X; apply RC; lra]).
        unfold zp. field. lra. }
      rewrite EF. specialize (W35 lim ltac:(lra)).
      replace ((enb + s * (eny - enb)) * w + (lim + s * (eny - lim)) * (1 - w)) with (enb * w + lim * (1 - w) + s * (eny - (enb * w + lim * (1 - w)))) by ring.
      now apply seg_within.
    + apply W35. apply in_app_or in I. destruct I as [I|[<-|[]]]; [|lra]. specialize (B6 _ I). eapply between_within; [| |exact B6]; lra.
Qed.
