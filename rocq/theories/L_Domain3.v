(** Values of the sampled fields. *)
From Verif Require Import Base M_Marin M_Laws M_Laws2 M_Fiber M_MarinInt S_Fiber M_Section L_Section3 M_Domain S_Domain L_Domain.
From Coq Require Import Lra Lia.
Lemma Ok_inj {A} (a b : A) : Ok a = Ok b -> a = b.
Proof. congruence. Qed.

Lemma min_y_spec theta g m : lowest theta g m -> m <= 10 ^ 16 -> (forall s, In s (cg_surf g) -> sf_ext s <> []) ->
  min_y (rotate_geo (- theta) g) = m.
Proof.
  intros [LB (s0 & v0 & S0 & V0 & E0)] M NEX.
  assert (Z : forall v, snd (rot (- theta) v) = turned theta (fst v) (snd v)).
  { intros [y z]. unfold rot, turned. cbn [fst snd]. rewrite cos_neg, sin_neg. ring. }
  unfold min_y, rotate_geo. cbn [cg_surf].
  assert (A : forall l x, m <= x -> (forall s, In s l -> In s (cg_surf g)) -> m <= fold_left (fun m s => Rmin m (ring_min (sf_ext s))) (map (rotate_surface (- theta)) l) x).
  { induction l as [|s l IH]; intros x X I; cbn [map fold_left]; [exact X|]. apply IH; [|intros; apply I; now right].
    apply Rmin_glb; [exact X|]. cbn [rotate_surface sf_ext].
    destruct (ring_min_in (map (rot (- theta)) (sf_ext s))) as (v & Hv & <-).
    { specialize (NEX s (I s (or_introl eq_refl))). destruct (sf_ext s); [contradiction|discriminate]. }
    apply in_map_iff in Hv. destruct Hv as (w & <- & Hw). rewrite Z. apply (LB s w); [apply I; now left|exact Hw]. }
  assert (D : forall l x, fold_left (fun m s => Rmin m (ring_min (sf_ext s))) (map (rotate_surface (- theta)) l) x <= x).
  { induction l as [|s l IH]; intros x; cbn [map fold_left]; [lra|]. eapply Rle_trans; [apply IH|apply Rmin_l]. }
  assert (B : forall l x, In s0 l -> fold_left (fun m s => Rmin m (ring_min (sf_ext s))) (map (rotate_surface (- theta)) l) x <= m).
  { induction l as [|s l IH]; intros x I; cbn [map fold_left]; [destruct I|]. destruct I as [-> |I]; [|now apply IH].
    eapply Rle_trans; [apply D|]. eapply Rle_trans; [apply Rmin_r|]. rewrite <- E0, <- Z. apply ring_min_spec. cbn [rotate_surface sf_ext]. now apply in_map. }
  apply Rle_antisym; [now apply B|now apply A].
Qed.

Lemma map_seq_nth {A} (F : nat -> A) n i : (i < n)%nat -> nth_error (map F (seq 0 n)) i = Some (F i).
Proof.
  intros H. rewrite nth_error_map. assert (E : nth_error (seq 0 n) i = Some i).
  { rewrite (nth_error_nth' _ 0%nat) by (rewrite seq_length; exact H). now rewrite seq_nth by exact H. }
  now rewrite E.
Qed.
Lemma geom_nth a b n i l : geomspace a b n false = Ok l -> (i < n)%nat -> a <> 0 /\ b <> 0 /\ nth_error l i = Some (a * Rpower (b / a) (INR i / INR n)).
Proof.
  unfold geomspace. destruct (Reqb_spec a 0); [discriminate|]. destruct (Reqb_spec b 0); [discriminate|]. cbn [orb]. intros E I. apply Ok_inj in E. subst l.
  split; [assumption|]. split; [assumption|]. rewrite (map_seq_nth _ n i I). reflexivity.
Qed.
Lemma sgn_abs x : x <> 0 -> sgn x = x / Rabs x.
Proof.
  intros H. unfold sgn. destruct (Rltb_spec 0 x); [rewrite Rabs_pos_eq by lra; field; lra|]. destruct (Rltb_spec x 0); [|lra].
  rewrite Rabs_left by lra. field. lra.
Qed.
Lemma sgn_0 : sgn 0 = 0.
Proof. unfold sgn. destruct (Rltb_spec 0 0); [lra|]. destruct (Rltb_spec 0 0); [lra|reflexivity]. Qed.

Lemma np_space_values a b n ty l : np_space a b n ty false = Ok l ->
  forall i, (i < Z.to_nat n)%nat -> exists e, nth_error l i = Some e /\ spaced ty a b (Z.to_nat n) i e.
Proof.
  unfold np_space. destruct (Z.ltb_spec n 0); [discriminate|]. intros E i I.
  assert (IN : INR (Z.to_nat n) <> 0) by (apply not_0_INR; lia).
  destruct ty.
  - apply Ok_inj in E. subst l. unfold linspace. cbn [andb]. rewrite (map_seq_nth _ _ _ I). eexists. split; [reflexivity|]. cbn [spaced]. field. exact IN.
  - destruct (Reqb_spec b 0) as [-> |NB]; cbn [negb andb] in E.
    + destruct (Z.eqb_spec n 0); [lia|]. destruct (geomspace a _ (Z.to_nat (n - 1)) false) as [r|] eqn:Q; cbn [bind] in E; [|discriminate]. apply Ok_inj in E. subst l.
      pose proof (geomspace_length _ _ _ _ _ Q) as LR.
      assert (NA : a <> 0) by (unfold geomspace in Q; destruct (Reqb_spec a 0); [discriminate|assumption]).
      assert (EN : INR (Z.to_nat (n - 1)) = INR (Z.to_nat n) - 1) by (replace (Z.to_nat n) with (S (Z.to_nat (n - 1))) by lia; rewrite S_INR; ring).
      destruct (Nat.lt_ge_cases i (Z.to_nat (n - 1))) as [J|J].
      * destruct (geom_nth _ _ _ _ _ Q J) as (_ & _ & V). exists (a * Rpower (/ 10 ^ 10 * sgn a / a) (INR i / INR (Z.to_nat (n - 1)))).
        split; [rewrite nth_error_app1 by lia; exact V|]. cbn [spaced].
        split; [intros X; exfalso; lra|]. split; [|split; [intros X; contradiction|now left]].
        intros _ _. split; [intros X; lia|]. intros _. rewrite EN. f_equal. f_equal. rewrite (sgn_abs a NA). unfold Rdiv.
        rewrite !Rmult_assoc. f_equal. rewrite Rmult_comm, Rmult_assoc, Rinv_l by exact NA. ring.
      * exists 0. split; [rewrite nth_error_app2 by lia; replace (i - length r)%nat with 0%nat by lia; reflexivity|]. cbn [spaced].
        split; [intros X; exfalso; lra|]. split; [|split; [intros X; contradiction|now left]]. intros _ _. split; [reflexivity|]. intros X. lia.
    + destruct (Reqb_spec a 0) as [-> |NA]; cbn [negb] in E.
      * destruct (Z.eqb_spec n 0); [lia|]. destruct (geomspace _ b (Z.to_nat (n - 1)) false) as [r|] eqn:Q; cbn [bind] in E; [|discriminate]. apply Ok_inj in E. subst l.
        pose proof (geomspace_length _ _ _ _ _ Q) as LR.
        assert (EN : INR (Z.to_nat (n - 1)) = INR (Z.to_nat n) - 1) by (replace (Z.to_nat n) with (S (Z.to_nat (n - 1))) by lia; rewrite S_INR; ring).
        assert (T : 10 ^ 10 <> 0) by (apply pow_nonzero; lra). unfold spaced. revert Q T. generalize (10 ^ 10). intros tn Q T.
        destruct i as [|j].
        -- exists 0. split; [reflexivity|]. split; [intros X; exfalso; lra|]. split; [intros X; contradiction|]. split; [|now right]. intros _ _. split; [reflexivity|]. intros j X. discriminate.
        -- assert (J : (j < Z.to_nat (n - 1))%nat) by lia. destruct (geom_nth _ _ _ _ _ Q J) as (_ & _ & V). eexists. split; [exact V|].
           split; [intros X; exfalso; lra|]. split; [intros X; contradiction|]. split; [|now right]. intros _ _. split; [intros X; discriminate|].
           intros k X. injection X as <-. rewrite EN, (sgn_abs b NB).
           assert (RB : Rabs b <> 0) by (now apply Rabs_no_R0).
           replace (b / (/ tn * (b / Rabs b))) with (tn * Rabs b) by (field; repeat split; assumption). field. now split.
      * destruct (geom_nth _ _ _ _ _ E I) as (_ & _ & V). eexists. split; [exact V|]. cbn [spaced]. split; [reflexivity|]. split; [intros _ X; contradiction|]. split; [intros X; contradiction|now left].
  - apply Ok_inj in E. subst l. set (N := Z.to_nat n) in *.
    assert (L : length (map (fun x => x ^ 2 * (a - b) + b) (linspace 0 1 N true)) = N) by now rewrite map_length, linspace_length.
    eexists. split.
    { rewrite (nth_error_nth' _ 0) by (rewrite rev_length, L; exact I). rewrite rev_nth by (rewrite L; exact I). rewrite L.
      rewrite (nth_error_nth (map (fun x => x ^ 2 * (a - b) + b) (linspace 0 1 N true)) (N - S i) 0
        (x := (fun x => x ^ 2 * (a - b) + b) (if true && ((N - S i =? N - 1)%nat && (1 <? N)%nat) then 1 else 0 + INR (N - S i) * ((1 - 0) / (if true then INR N - 1 else INR N)))));
        [reflexivity|]. rewrite nth_error_map. unfold linspace. rewrite (map_seq_nth _ N (N - S i)) by lia. reflexivity. }
    cbn [spaced andb]. split.
    + intros ->. cbn [Nat.sub Nat.ltb Nat.leb andb]. replace (1 - S i)%nat with 0%nat by lia. cbn [Nat.eqb andb INR]. ring.
    + destruct ((N - S i =? N - 1)%nat && (1 <? N)%nat)%bool eqn:C.
      * apply Bool.andb_true_iff in C. destruct C as [C _]. apply Nat.eqb_eq in C. assert (i = 0%nat) by lia. subst i. cbn [INR]. ring.
      * apply Bool.andb_false_iff in C. rewrite minus_INR by lia. rewrite S_INR. destruct C as [C|C].
        -- apply Nat.eqb_neq in C. assert (INR N - 1 <> 0) by (replace (INR N - 1) with (INR (N - 1)) by (rewrite minus_INR by lia; reflexivity); apply not_0_INR; lia). field. assumption.
        -- apply Nat.ltb_ge in C. assert (N = 1%nat) by lia. assert (i = 0%nat) by lia. subst i. rewrite H0. cbn [INR]. ring.
  - discriminate.
Qed.
Lemma nth_map_block {A B} (F : A -> B) pre l post i x : nth_error l i = Some x -> nth_error (pre ++ map F l ++ post) (length pre + i) = Some (F x).
Proof.
  intros H. rewrite nth_error_app2 by lia. replace (length pre + i - length pre)%nat with i by lia.
  assert (i < length l)%nat by (apply nth_error_Some; congruence). rewrite nth_error_app1 by (rewrite map_length; lia). rewrite nth_error_map, H. reflexivity.
Qed.
Lemma nth_repeat_block {A} (k : A) pre n post i : (i < n)%nat -> nth_error (pre ++ repeat k n ++ post) (length pre + i) = Some k.
Proof.
  intros H. rewrite nth_error_app2 by lia. replace (length pre + i - length pre)%nat with i by lia.
  rewrite nth_error_app1 by (rewrite repeat_length; lia). now apply nth_error_repeat.
Qed.
Lemma pair_at theta yn yp x : yp < yn -> has_at theta (pair_profile theta yn yp x) yn (fst x) /\ has_at theta (pair_profile theta yn yp x) yp (snd x).
Proof. intros H. split; intros y z E; rewrite pair_strain by exact H; rewrite E; field; lra. Qed.
Lemma inner_rev_spec {A} (a b : A) m : inner_rev (a :: m ++ [b]) = rev m.
Proof. unfold inner_rev. change (a :: m ++ [b]) with ((a :: m) ++ [b]). rewrite removelast_last. reflexivity. Qed.
Lemma round_angles n : (1 <= n)%nat -> forall i, (i < n)%nat -> exists a, nth_error (linspace 0 (PI * 2) n true) i = Some a /\ round_angle n i a.
Proof.
  intros N i I. unfold linspace. rewrite (map_seq_nth _ n i I). eexists. split; [reflexivity|]. cbv beta iota. cbn [andb]. unfold round_angle.
  set (q := (PI * 2 - 0) / (INR n - 1)). 
  destruct (Nat.eqb_spec i (n - 1)) as [J|J], (Nat.ltb_spec 1 n) as [K|K]; cbn [andb]; (split; [intros N1|]).
  - lia.
  - replace (INR i) with (INR n - 1) by (rewrite J, minus_INR by lia; reflexivity). ring.
  - clearbody q. replace i with 0%nat by lia. cbn [INR]. ring.
  - assert (n = 1%nat) by lia. subst n. assert (i = 0%nat) by lia. subst i. clearbody q. cbn [INR Nat.sub]. ring.
  - lia.
  - assert (INR n - 1 <> 0) by (replace (INR n - 1) with (INR (n - 1)) by (rewrite minus_INR by lia; reflexivity); apply not_0_INR; lia). unfold q. field. assumption.
  - lia.
  - lia.
Qed.
