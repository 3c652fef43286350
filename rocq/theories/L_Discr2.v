(** The default Marin form of a law that bears tension and compression. *)
From Verif Require Import Base M_Laws M_Laws2 M_Section M_Discr S_Laws S_Laws2 S_Discr L_Laws L_Laws2 L_Laws4 L_Laws5 L_LawsB L_LawsC S_Discr L_Discr.

Definition knot (lo hi : R) (i : nat) : R := if (i <? 10)%nat then lo * (INR (10 - i) / 10) else hi * (INR (i - 10) / 9).
Definition knots (lo hi : R) : list R := map (knot lo hi) (seq 0 20).
Lemma knots_nth lo hi i : (i < 20)%nat -> nth i (knots lo hi) 0 = knot lo hi i.
Proof.
  intros H. unfold knots. rewrite (nth_indep _ 0 (knot lo hi 0%nat)) by (rewrite map_length, seq_length; exact H).
  rewrite map_nth, seq_nth by exact H. reflexivity.
Qed.
Lemma knots_ynth lo hi s i : (i < 20)%nat -> nth i (map s (knots lo hi)) 0 = s (knot lo hi i).
Proof.
  intros H. rewrite (nth_indep _ 0 (s 0)) by (rewrite map_length; unfold knots; rewrite map_length, seq_length; exact H).
  rewrite map_nth. f_equal. apply knots_nth. exact H.
Qed.
Lemma knots_length lo hi : List.length (knots lo hi) = 20%nat.
Proof. reflexivity. Qed.
Lemma knot_lo lo hi k : (k <= 10)%nat -> knot lo hi (10 - k) = lo * (INR k / 10).
Proof.
  intros K. unfold knot. destruct (Nat.ltb_spec (10 - k) 10).
  - replace (10 - (10 - k))%nat with k by lia. reflexivity.
  - assert (k = 0)%nat by lia. subst k. cbn [Nat.sub INR]. lra.
Qed.
Lemma knot_hi lo hi k : knot lo hi (10 + k) = hi * (INR k / 9).
Proof. unfold knot. destruct (Nat.ltb_spec (10 + k) 10); [lia|]. replace (10 + k - 10)%nat with k by lia. reflexivity. Qed.
Lemma knot_step lo hi i : lo < 0 -> 0 < hi -> knot lo hi i < knot lo hi (S i).
Proof.
  intros L H. destruct (Nat.le_gt_cases 10 i).
  - replace i with (10 + (i - 10))%nat by lia. replace (S (10 + (i - 10))) with (10 + S (i - 10))%nat by lia. rewrite !knot_hi, S_INR. nra.
  - replace i with (10 - S (9 - i))%nat at 1 by lia. replace (S i) with (10 - (9 - i))%nat by lia. rewrite !knot_lo by lia. rewrite S_INR. nra.
Qed.
Lemma knot_mono lo hi i j : lo < 0 -> 0 < hi -> (i < j)%nat -> knot lo hi i < knot lo hi j.
Proof. intros L H. induction 1; [apply knot_step; assumption|]. eapply Rlt_trans; [exact IHle|apply knot_step; assumption]. Qed.
Lemma knots_increasing lo hi : lo < 0 -> 0 < hi -> increasing (knots lo hi).
Proof. intros L H i j I. rewrite knots_length in I. rewrite !knots_nth by lia. apply knot_mono; [assumption..|lia]. Qed.
Lemma knots_last lo hi : last (knots lo hi) 0 = hi.
Proof. cbn -[knot]. change 19%nat with (10 + 9)%nat. rewrite knot_hi. cbn [INR]. lra. Qed.
Lemma knots_first lo hi : nth 0 (knots lo hi) 0 = lo.
Proof. rewrite knots_nth by lia. change 0%nat with (10 - 10)%nat. rewrite knot_lo by lia. cbn [INR]. lra. Qed.
Lemma knots_eq lo hi : linspace (- - lo) 0 10 false ++ linspace 0 hi 10 true = knots lo hi.
Proof.
  unfold knots. change 20%nat with (10 + 10)%nat. rewrite seq_app, map_app. f_equal.
  - unfold linspace. apply map_ext_in. intros i I. apply in_seq in I. cbn [andb]. unfold knot. destruct (Nat.ltb_spec i 10); [|lia].
    rewrite minus_INR by lia. rewrite (INR_IZR_INZ 10). cbn [Z.of_nat Pos.of_succ_nat Pos.succ]. field.
  - unfold linspace. change (seq (0 + 10) 10) with (seq (10 + 0) 10). rewrite <- (map_id (seq 0 10)) at 1.
    replace (seq (10 + 0) 10) with (map (fun i => (10 + i)%nat) (seq 0 10)) by reflexivity. rewrite !map_map. apply map_ext_in. intros i I. apply in_seq in I. cbn [andb]. rewrite knot_hi.
    change (1 <? 10)%nat with true. rewrite andb_true_r. change (10 - 1)%nat with 9%nat.
    destruct (Nat.eqb_spec i 9).
    + subst i. cbn [INR]. lra.
    + rewrite (INR_IZR_INZ 10). cbn [Z.of_nat Pos.of_succ_nat Pos.succ]. field.
Qed.

Section Both.
Variables (arr : list R -> list R * list R) (s : R -> R) (lo hi : R).
Hypothesis Harr : forall eps, arr eps = (map s eps, prep_arr (lo, hi) eps).
Hypothesis Hlo : lo < 0.
Hypothesis Hhi : 0 < hi <= 1.
Hypothesis Htl : tol lo < - lo / 10.
Hypothesis Hth : tol hi < hi / 9.
Hypothesis Hend : s lo < 0.
Hypothesis Hend' : 0 < s hi.
Hypothesis Hcut : forall e, lo <= e <= 0 -> - s e <= - s lo * 1000000.
Hypothesis Hcut' : forall e, 0 <= e <= hi -> s e <= s hi * 1000000.

Lemma far_hi e : e <= hi * (8 / 9) -> far hi e.
Proof. intros H. unfold far. rewrite Rabs_left by lra. lra. Qed.
Lemma far_lo e : lo * (9 / 10) <= e -> far lo e.
Proof. intros H. unfold far. rewrite Rabs_right by lra. lra. Qed.
Lemma sep2 : separated (lo, hi).
Proof. unfold separated. cbn [fst snd]. apply far_lo. lra. Qed.
Lemma near_self x : near x x.
Proof. unfold near. replace (x - x) with 0 by ring. rewrite Rabs_R0. unfold tol. pose proof (Rabs_pos x). lra. Qed.
Lemma prep_lo : prep (lo, hi) lo = lo.
Proof. apply prep_min; cbn [fst snd]; [apply far_hi; lra|apply near_self]. Qed.
Lemma prep_hi : prep (lo, hi) hi = hi.
Proof. apply prep_max. cbn [fst snd]. apply near_self. Qed.
Lemma knots_fixed : prep_arr (lo, hi) (knots lo hi) = knots lo hi.
Proof.
  rewrite prep_arr_map by exact sep2. rewrite <- (map_id (knots lo hi)) at 2. apply map_ext_in. intros e I.
  unfold knots in I. apply in_map_iff in I. destruct I as (i & <- & J). apply in_seq in J.
  destruct (Nat.eq_dec i 0) as [->|N0].
  { replace (knot lo hi 0) with lo by (change 0%nat with (10 - 10)%nat; rewrite knot_lo by lia; cbn [INR]; lra). apply prep_lo. }
  destruct (Nat.eq_dec i 19) as [->|N1].
  { replace (knot lo hi 19) with hi by (change 19%nat with (10 + 9)%nat; rewrite knot_hi; cbn [INR]; lra). apply prep_hi. }
  assert (A : knot lo hi 1 <= knot lo hi i <= knot lo hi 18).
  { split; [destruct (Nat.eq_dec i 1) as [->|]; [lra|]|destruct (Nat.eq_dec i 18) as [->|]; [lra|]]; left; apply knot_mono; lra || lia. }
  pose proof (knot_hi lo hi 8) as K8. pose proof (knot_lo lo hi 9 ltac:(lia)) as K9. change (10 + 8)%nat with 18%nat in K8. change (10 - 9)%nat with 1%nat in K9. rewrite K8, K9 in A.
  replace (INR 9) with 9 in A by (cbn; lra). replace (INR 8) with 8 in A by (cbn; lra).
  apply prep_far; cbn [fst snd]; [apply far_hi|apply far_lo]; lra.
Qed.
Lemma discretize_both : exists l, discretize arr (lo, hi) = Ok l /\
  ud_x l = knots lo hi /\ ud_y l = map s (knots lo hi) /\ ud_ult l = (lo, hi).
Proof.
  unfold discretize. rewrite Rmin_left by lra.
  assert (N : (2 <= Z.to_nat 10000)%nat) by lia. set (n := Z.to_nat 10000) in *. clearbody n.
  rewrite !Harr. cbv beta zeta iota.
  assert (G : forall e, In e (linspace 0 lo n true) -> lo <= e <= 0).
  { intros e J. destruct (linspace_range _ _ _ N J) as (w & W & ->). nra. }
  assert (G' : forall e, In e (linspace 0 hi n true) -> 0 <= e <= hi).
  { intros e J. destruct (linspace_range _ _ _ N J) as (w & W & ->). nra. }
  destruct (linspace_snoc lo n ltac:(lia)) as (l0 & E0). rewrite E0 in G |- *.
  destruct (linspace_snoc hi n ltac:(lia)) as (l1 & E1). rewrite E1 in G' |- *.
  rewrite (prep_arr_map (lo, hi) (l0 ++ [lo]) sep2), (prep_arr_map (lo, hi) (l1 ++ [hi]) sep2). rewrite !map_app. cbn [map].
  rewrite prep_lo, prep_hi. unfold cut_small. cbv zeta. rewrite !map_app. cbn [map].
  assert (M : np_max (map Ropp (map s l0) ++ [- s lo]) <= - s lo * 1000000).
  { apply np_max_le. { destruct (map Ropp (map s l0)); discriminate. }
    intros b I. apply in_app_or in I. destruct I as [I | [<- | []]]; [|lra].
    apply in_map_iff in I. destruct I as (c & <- & I). apply in_map_iff in I. destruct I as (e & <- & I).
    apply Hcut. apply G. apply in_or_app. left. exact I. }
  assert (M' : np_max (map s l1 ++ [s hi]) <= s hi * 1000000).
  { apply np_max_le. { destruct (map s l1); discriminate. }
    intros b I. apply in_app_or in I. destruct I as [I | [<- | []]]; [|lra].
    apply in_map_iff in I. destruct I as (e & <- & I).
    apply Hcut'. apply G'. apply in_or_app. left. exact I. }
  destruct (Rltb_spec (- s lo) (np_max (map Ropp (map s l0) ++ [- s lo]) * / 1000000)); [exfalso; lra|].
  destruct (Rltb_spec (s hi) (np_max (map s l1 ++ [s hi]) * / 1000000)); [exfalso; lra|].
  rewrite find_last; [|rewrite !map_length; reflexivity|lra].
  rewrite find_last; [|rewrite !map_length; reflexivity|lra].
  rewrite <- map_app, knots_eq, knots_fixed.
  assert (Z : (exists a, In a (knots lo hi) /\ a < 0)).
  { exists lo. split; [rewrite <- (knots_first lo hi) at 1; apply nth_In; rewrite knots_length; lia|exact Hlo]. }
  unfold ud_init. rewrite map_length, Nat.eqb_refl. cbn [negb]. rewrite (ud_base_neg _ _ Z).
  change (3 <? 0)%nat with false. cbv iota. destruct (knots lo hi) as [|a0 nr] eqn:E; [discriminate E|]. cbn [ud_extend bind].
  eexists. split; [reflexivity|]. cbn [ud_x ud_y fst snd]. split; [reflexivity|]. split; [reflexivity|].
  unfold ud_ult. cbn [ud_un ud_up]. rewrite <- E, knots_last. f_equal. pose proof (knots_first lo hi) as F. rewrite E in F. exact F.
Qed.

Lemma seg_interp i w : (i < 19)%nat -> 0 <= w <= 1 ->
  interp (knots lo hi) (map s (knots lo hi)) (knot lo hi i + w * (knot lo hi (S i) - knot lo hi i)) = (1 - w) * s (knot lo hi i) + w * s (knot lo hi (S i)).
Proof.
  intros I W. pose proof (knot_step lo hi i Hlo (proj1 Hhi)).
  rewrite (interp_seg _ _ i); [|rewrite map_length; reflexivity|apply knots_increasing; tauto|rewrite knots_length; lia|rewrite !knots_nth by lia; nra].
  unfold chord. rewrite !knots_nth, !knots_ynth by lia. field. lra.
Qed.
Lemma poly_both : polygon_both lo hi s (interp (knots lo hi) (map s (knots lo hi))).
Proof.
  split; [|split].
  - intros e [H | H].
    + apply interp_left. rewrite knots_first. exact H.
    + apply interp_right; [rewrite map_length; reflexivity|apply knots_increasing; tauto|rewrite knots_last; exact H].
  - intros k K w W. pose proof (seg_interp (10 - S k) (1 - w) ltac:(lia) ltac:(lra)) as E.
    replace (S (10 - S k)) with (10 - k)%nat in E by lia. rewrite !knot_lo in E by lia.
    replace (lo * (INR (S k) / 10) + (1 - w) * (lo * (INR k / 10) - lo * (INR (S k) / 10))) with (lo * (INR k / 10) + w * (lo * (INR (S k) / 10) - lo * (INR k / 10))) in E by ring.
    rewrite E. ring.
  - intros k K w W. pose proof (seg_interp (10 + k) w ltac:(lia) W) as E. replace (S (10 + k)) with (10 + S k)%nat in E by lia. rewrite !knot_hi in E. exact E.
Qed.
Lemma both_describes e0 e1 : exists f out, default_marin arr (lo, hi) (e0, e1) = Ok out /\
  polygon_both lo hi s f /\ describes (settled (lo, hi)) f e0 e1 out.
Proof.
  destruct discretize_both as (l & E & X & Y & U). unfold default_marin. rewrite E. cbn [bind].
  exists (interp (knots lo hi) (map s (knots lo hi))). eexists. split; [reflexivity|]. split; [exact poly_both|].
  assert (D : describes (settled (ud_ult l)) (ud_stress l) e0 e1 (snd (ud_marin l (e0, e1)))).
  { apply describes_stored; rewrite ?X, ?Y; [apply knots_increasing; tauto|rewrite map_length; reflexivity|rewrite knots_length; lia]. }
  rewrite U in D. revert D. unfold describes. destruct (fst _) as [rs|].
  - intros [L D]. split; [exact L|]. intros y S0. destruct (D y S0) as [D1 D2].
    rewrite ud_stress_settled in D1, D2 by (rewrite U; exact S0). rewrite X, Y in D1, D2. split; assumption.
  - intros (c & L & D). exists c. split; [exact L|]. intros y S0. specialize (D y S0).
    rewrite ud_stress_settled in D by (rewrite U; exact S0). rewrite X, Y in D. exact D.
Qed.
Lemma both_describes_tangent e0 e1 : exists f out, default_marin_tangent arr (lo, hi) (e0, e1) = Ok out /\
  slope_both lo hi s f /\ describes (fun e => settled (lo, hi) e /\ ~ tenth_of lo e /\ ~ ninth_of hi e) f e0 e1 out.
Proof.
  destruct discretize_both as (l & E & X & Y & U). unfold default_marin_tangent. rewrite E. cbn [bind].
  exists (ud_tangent l). eexists. split; [reflexivity|].
  assert (SEG : forall i e, (i < 19)%nat -> knot lo hi i < e < knot lo hi (S i) -> ud_tangent l e = (s (knot lo hi (S i)) - s (knot lo hi i)) / (knot lo hi (S i) - knot lo hi i)).
  { intros i e I B. rewrite (ud_tangent_seg l i); rewrite ?X, ?Y;
        [|apply knots_increasing; tauto|rewrite map_length; reflexivity|rewrite knots_length; lia|rewrite (knots_nth lo hi i), (knots_nth lo hi (S i)) by lia; lra].
    rewrite (knots_nth lo hi i), (knots_nth lo hi (S i)), !knots_ynth by lia. reflexivity. }
  split.
  - split; [|split].
    + intros e H. apply ud_tangent_out. rewrite X, knots_last, knots_first. exact H.
    + intros k K w W. pose proof (knot_step lo hi (10 - S k) Hlo (proj1 Hhi)) as ST. replace (S (10 - S k)) with (10 - k)%nat in ST by lia.
      pose proof (fun e => SEG (10 - S k)%nat e ltac:(lia)) as E'. replace (S (10 - S k)) with (10 - k)%nat in E' by lia. rewrite !knot_lo in E', ST by lia.
      rewrite E' by nra. field. lra.
    + intros k K w W. pose proof (knot_step lo hi (10 + k) Hlo (proj1 Hhi)) as ST. replace (S (10 + k)) with (10 + S k)%nat in ST by lia.
      pose proof (fun e => SEG (10 + k)%nat e ltac:(lia)) as E'. replace (S (10 + k)) with (10 + S k)%nat in E' by lia. rewrite !knot_hi in E', ST.
      rewrite E' by nra. reflexivity.
  - eapply describes_weaken; [|apply ud_describes_tangent; rewrite ?X, ?Y; [apply knots_increasing; tauto|rewrite map_length; reflexivity|rewrite knots_length; lia]].
    intros e (S0 & N & N'). rewrite U, X. split; [exact S0|]. intros I. unfold knots in I. apply in_map_iff in I.
    destruct I as (i & <- & J). apply in_seq in J. destruct (Nat.le_gt_cases 10 i).
    + apply N'. exists (i - 10)%nat. split; [lia|]. rewrite <- (knot_hi lo). f_equal. lia.
    + apply N. exists (10 - i)%nat. split; [lia|]. rewrite <- (knot_lo _ hi) by lia. f_equal. lia.
Qed.
End Both.
