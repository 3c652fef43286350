(** Parallel: merging of piecewise polynomials. *)
From Coq Require Import Sorting.Sorted.
From Verif Require Import Base M_Laws S_Laws L_Laws L_LawsC M_Laws2 S_Laws2.

(** ** Sums of coefficient lists *)
Lemma poly_add_into t c y : (length c <= length t)%nat -> poly (add_into t c) y = poly t y + poly c y.
Proof.
  revert c; induction t as [|a t IH]; intros [|b c] H; cbn in *; try lra; [lia|].
  rewrite IH by lia. lra.
Qed.
Lemma add_into_length t c : length (add_into t c) = length t.
Proof. revert c; induction t as [|a t IH]; intros [|b c]; cbn; try reflexivity. rewrite IH; reflexivity. Qed.
Lemma poly_fold_add cs : forall t y, (forall c, In c cs -> (length c <= length t)%nat) ->
  poly (fold_left add_into cs t) y = poly t y + lsum (map (fun c => poly c y) cs).
Proof.
  induction cs as [|c cs IH]; intros t y H; cbn [fold_left map]; [rewrite lsum_nil; lra|].
  rewrite IH, poly_add_into, lsum_cons; [lra|apply H; left; reflexivity|].
  intros c' Hc'. rewrite add_into_length. apply H. right; exact Hc'.
Qed.
Lemma poly_repeat0 n y : poly (repeat 0 n) y = 0.
Proof. induction n as [|n IH]; cbn; [reflexivity|]. rewrite IH; lra. Qed.
Lemma poly_scal w c y : poly (map (Rmult w) c) y = w * poly c y.
Proof. induction c as [|a c IH]; cbn; [lra|]. rewrite IH; lra. Qed.
Lemma max_len_ge (cs : list (list R)) c : In c cs ->
  (length c <= fold_right (fun c m => Nat.max (length c) m) O cs)%nat.
Proof. induction cs as [|a cs IH]; intros []; cbn; [subst; lia|]. specialize (IH H). lia. Qed.

Lemma mapM_Forall2 {A B} (f : A -> result B) l r : mapM f l = Ok r -> Forall2 (fun a b => f a = Ok b) l r.
Proof.
  revert r; induction l as [|a l IH]; intros r; cbn.
  - intros [= <-]; constructor.
  - destruct (f a) as [b|] eqn:E; cbn; [|discriminate]. destruct (mapM f l) as [bs|]; cbn; [|discriminate].
    intros [= <-]. constructor; [exact E|apply IH; reflexivity].
Qed.
Lemma mapM_ok {A B} (f : A -> result B) l : (forall a, In a l -> exists b, f a = Ok b) -> exists r, mapM f l = Ok r.
Proof.
  induction l as [|a l IH]; intros H; cbn; [eexists; reflexivity|].
  destruct (H a (or_introl eq_refl)) as [b ->]. destruct IH as [r ->]; [intros; apply H; right; assumption|].
  cbn. eexists; reflexivity.
Qed.

(** ** Breakpoints *)
Lemma insert_uniq_in x l y : In y (insert_uniq x l) <-> y = x \/ In y l.
Proof.
  induction l as [|a l IH]; cbn; [intuition|].
  destruct (Reqb_spec x a) as [->|N]; cbn; [intuition|]. destruct (Rltb_spec x a); cbn; [intuition|].
  rewrite IH. intuition.
Qed.
Lemma insert_uniq_sorted x l : StronglySorted Rlt l -> StronglySorted Rlt (insert_uniq x l).
Proof.
  induction 1 as [|a l Hs IH Hf]; cbn; [constructor; constructor|].
  destruct (Reqb_spec x a) as [->|N]; [constructor; assumption|].
  destruct (Rltb_spec x a) as [L|L].
  - constructor; [constructor; assumption|]. constructor; [exact L|].
    rewrite Forall_forall in *. intros y Hy. specialize (Hf y Hy). lra.
  - constructor; [exact IH|]. rewrite Forall_forall in *. intros y Hy. apply insert_uniq_in in Hy as [->|Hy]; [lra|exact (Hf y Hy)].
Qed.
Lemma breakpoints_sorted outs : StronglySorted Rlt (breakpoints outs).
Proof.
  unfold breakpoints. match goal with |- StronglySorted _ (fold_right _ _ ?q) => induction q as [|a q0 IH] end; cbn; [constructor|]. apply insert_uniq_sorted, IH.
Qed.
Lemma fold_insert_in l y : In y (fold_right insert_uniq [] l) <-> In y l.
Proof. induction l as [|a l IH]; cbn; [tauto|]. rewrite insert_uniq_in, IH. intuition. Qed.
Lemma breakpoints_in outs e : In e (breakpoints outs) <-> is_break outs e.
Proof.
  unfold breakpoints, is_break. rewrite fold_insert_in, in_flat_map. split.
  - intros (o & Ho & He). destruct (fst o) as [rs|] eqn:E; [|destruct He].
    apply in_flat_map in He as (r & Hr & He). exists o, rs, r. cbn in He. intuition.
  - intros (o & rs & r & Ho & E & Hr & He). exists o. split; [exact Ho|]. rewrite E. apply in_flat_map.
    exists r. split; [exact Hr|]. cbn. intuition.
Qed.

(** ** Refined ranges *)
Lemma refine_cons a b t : refine (a :: b :: t) = (a, b) :: refine (b :: t).
Proof. reflexivity. Qed.
Lemma refine_in bp a b : StronglySorted Rlt bp -> In (a, b) (refine bp) ->
  a < b /\ In a bp /\ In b bp /\ (forall c, In c bp -> c <= a \/ b <= c).
Proof.
  induction bp as [|x [|y t] IH]; intros Hs Hin; [destruct Hin..|].
  rewrite refine_cons in Hin. inversion Hs as [|? ? Hs' Hf]; subst. inversion Hf as [|? ? Hxy Hf']; subst.
  destruct Hin as [[= <- <-]|Hin].
  - split; [exact Hxy|]. split; [left; reflexivity|]. split; [right; left; reflexivity|].
    intros c [<-|Hc]; [left; lra|right]. destruct Hc as [<-|Hc]; [lra|].
    inversion Hs' as [|? ? ? Hf2]; subst. rewrite Forall_forall in Hf2. left; exact (Hf2 c Hc).
  - destruct (IH Hs' Hin) as (A & B & C & D). split; [exact A|]. split; [right; exact B|]. split; [right; exact C|].
    intros c [<-|Hc]; [|exact (D c Hc)]. left. rewrite Forall_forall in Hf. left. exact (Hf a B).
Qed.
Lemma refine_sorted bp : StronglySorted Rlt bp -> StronglySorted (fun p q : R * R => snd p < snd q) (refine bp).
Proof.
  induction bp as [|x [|y t] IH]; intros Hs; [constructor..|].
  rewrite refine_cons. inversion Hs as [|? ? Hs' Hf]; subst. constructor; [apply IH, Hs'|].
  rewrite Forall_forall. intros [a b] Hin. cbn. destruct (refine_in _ _ _ Hs' Hin) as (A & B & _).
  destruct B as [<-|B]; [exact A|]. inversion Hs' as [|? ? ? Hf2]; subst. rewrite Forall_forall in Hf2. specialize (Hf2 a B). lra.
Qed.
(** A strain strictly between the extreme breakpoints, not a breakpoint itself,
    is inside a refined range. *)
Lemma refine_cover bp : forall e p q, StronglySorted Rlt bp -> In p bp -> In q bp -> p <= e <= q -> ~ In e bp ->
  exists a b, In (a, b) (refine bp) /\ a <= e <= b.
Proof.
  induction bp as [|x [|y t] IH]; intros e p q Hs Hp Hq He Hn.
  - destruct Hp.
  - destruct Hp as [<-|[]]. destruct Hq as [<-|[]]. exfalso. apply Hn. left. lra.
  - rewrite refine_cons. inversion Hs as [|? ? Hs' Hf]; subst. inversion Hf as [|? ? Hxy Hf']; subst.
    destruct (Rle_lt_dec e y) as [L|L].
    + exists x, y. split; [left; reflexivity|]. split; [|exact L].
      destruct Hp as [<-|Hp]; [lra|]. rewrite Forall_forall in Hf. specialize (Hf p Hp). lra.
    + destruct (IH e y q Hs') as (a & b & Hin & Hab).
      * left; reflexivity.
      * destruct Hq as [<-|Hq]; [lra|exact Hq].
      * lra.
      * intros H; apply Hn; right; exact H.
      * exists a, b. split; [right; exact Hin|exact Hab].
Qed.

(** ** Sorted, tidy (range, coeff) lists *)
Notation rc := ((R * R) * list R)%type.
Definition disj (p q : rc) : Prop := snd (fst p) <= fst (fst q) \/ snd (fst q) <= fst (fst p).
Definition before (p q : rc) : Prop := fst (fst p) <= fst (fst q) /\ disj p q.
Lemma insert_rc_in x l y : In y (insert_rc x l) <-> y = x \/ In y l.
Proof.
  induction l as [|a l IH]; cbn; [intuition|]. destruct (Rleb (fst (fst x)) (fst (fst a))); cbn; [intuition|].
  rewrite IH. intuition.
Qed.
Lemma insert_rc_sorted x l : (forall y, In y l -> disj x y) -> StronglySorted before l -> StronglySorted before (insert_rc x l).
Proof.
  intros Hd Hs. induction Hs as [|a l Hs IH Hf]; cbn; [constructor; constructor|].
  destruct (Rleb_spec (fst (fst x)) (fst (fst a))) as [L|L].
  - constructor; [constructor; assumption|]. rewrite Forall_forall in *. intros y Hy. split; [|apply Hd; exact Hy].
    destruct Hy as [<-|Hy]; [exact L|]. destruct (Hf y Hy) as [B _]. lra.
  - constructor; [apply IH; intros; apply Hd; right; assumption|]. rewrite Forall_forall in *. intros y Hy.
    apply insert_rc_in in Hy as [->|Hy]; [|exact (Hf y Hy)]. split; [lra|]. destruct (Hd a (or_introl eq_refl)) as [D|D]; [right|left]; exact D.
Qed.
Lemma sort_rc_in l y : In y (sort_rc l) <-> In y l.
Proof. induction l as [|a l IH]; cbn; [tauto|]. rewrite insert_rc_in, IH. intuition. Qed.
Lemma sort_rc_sorted l : ForallOrdPairs disj l -> StronglySorted before (sort_rc l).
Proof.
  induction 1 as [|a l Hf Ho IH]; cbn; [constructor|]. apply insert_rc_sorted; [|exact IH].
  intros y Hy. rewrite Forall_forall in Hf. apply Hf. apply sort_rc_in, Hy.
Qed.
Lemma tidy_pairs rs : forall cs, length rs = length cs -> tidy rs -> ForallOrdPairs disj (combine rs cs).
Proof.
  induction rs as [|r rs IH]; intros [|c cs] Hl [Ht1 Ht2]; cbn in Hl; try lia; [constructor|].
  cbn [combine]. constructor.
  - rewrite Forall_forall. intros [r' c'] Hin. apply in_combine_l in Hin.
    destruct (In_nth _ _ (0,0) Hin) as (k & Hk & E).
    destruct (Ht2 O (S k)) as [D|D]; cbn in *; try lia; rewrite E in D; [left|right]; exact D.
  - apply IH; [lia|]. split; [intros; apply Ht1; right; assumption|].
    intros i j Hi Hj Hij. apply (Ht2 (S i) (S j)); cbn; lia.
Qed.

Lemma advance_split eps1 l : exists d, l = d ++ advance eps1 l /\ (forall p, In p d -> snd (fst p) < eps1) /\
  match advance eps1 l with [] => True | p :: _ => eps1 <= snd (fst p) end.
Proof.
  induction l as [|a l IH]; cbn; [exists []; repeat split; intros ? []|].
  destruct (Rltb_spec (snd (fst a)) eps1) as [L|L].
  - destruct IH as (d & E & H1 & H2). exists (a :: d). split; [cbn; f_equal; exact E|]. split; [|exact H2].
    intros p [<-|Hp]; [exact L|exact (H1 p Hp)].
  - exists []. split; [reflexivity|]. split; [intros ? []|lra].
Qed.

Lemma sorted_app_r {A} (R0 : A -> A -> Prop) l1 l2 : StronglySorted R0 (l1 ++ l2) -> StronglySorted R0 l2.
Proof. induction l1 as [|a l1 IH]; cbn; [trivial|]. inversion 1; auto. Qed.

Definition picks (L : list rc) (ab : R * R) (c : list R) : Prop :=
  (exists r, In (r, c) L /\ fst r <= fst ab /\ snd ab <= snd r) \/
  (c = [] /\ forall r c', In (r, c') L -> ~ (fst r <= fst ab /\ snd ab <= snd r)).

Lemma map_ranges_spec refined : forall L dropped l, StronglySorted before L -> L = dropped ++ l ->
  (forall ab, In ab refined -> fst ab < snd ab) ->
  StronglySorted (fun p q : R * R => snd p < snd q) refined ->
  (forall p ab, In p dropped -> In ab refined -> snd (fst p) < snd ab) ->
  Forall2 (picks L) refined (map_ranges l refined).
Proof.
  induction refined as [|[a b] rest IH]; intros L dropped l Hs EL Hab Hsr Hd; cbn [map_ranges]; [constructor|].
  destruct (advance_split b l) as (d & El & Hd2 & Hh).
  assert (a < b) by (apply (Hab (a, b)); left; reflexivity).
  inversion Hsr as [|? ? Hsr' Hf]; subst. rewrite Forall_forall in Hf.
  constructor.
  - assert (Skip : forall r c', In (r, c') (dropped ++ l) -> snd r < b \/ In (r, c') (advance b l)).
    { intros r c' Hin. rewrite El in Hin. apply in_app_or in Hin as [Hin|Hin].
      - left. apply (Hd (r, c') (a, b) Hin). left; reflexivity.
      - apply in_app_or in Hin as [Hin|Hin]; [left; exact (Hd2 _ Hin)|right; exact Hin]. }
    destruct (advance b l) as [|[r c] l'] eqn:Ea.
    + right. split; [reflexivity|]. intros r c' Hin [H1 H2]. cbn in *. destruct (Skip r c' Hin) as [K|[]]. lra.
    + destruct (andb (Rleb (fst r) a) (Rleb b (snd r))) eqn:Hc.
      * left; exists r. apply andb_true_iff in Hc as [C1 C2]. apply Rleb_true in C1. apply Rleb_true in C2.
        split; [|cbn; lra]. rewrite El. apply in_or_app; right; apply in_or_app; right; left; reflexivity.
      * right; split; [reflexivity|]. intros r' c' Hin [H1 H2]. cbn in H1, H2, Hh.
        destruct (Skip r' c' Hin) as [K|K]; [lra|]. destruct K as [K|K].
        { injection K as <- <-. apply andb_false_iff in Hc as [C|C]; apply Rleb_false in C; lra. }
        rewrite El, app_assoc in Hs. apply sorted_app_r in Hs. inversion Hs as [|? ? _ Hfs]; subst.
        rewrite Forall_forall in Hfs. destruct (Hfs (r', c') K) as [B [D|D]]; cbn in B, D; lra.
  - apply (IH (dropped ++ l) (dropped ++ d) (advance b l)).
    + exact Hs.
    + rewrite El at 1. rewrite app_assoc. reflexivity.
    + intros; apply Hab; right; assumption.
    + exact Hsr'.
    + intros p ab Hp Hin. specialize (Hf ab Hin). cbn in Hf. apply in_app_or in Hp as [Hp|Hp].
      * apply Hd; [exact Hp|right; exact Hin].
      * specialize (Hd2 p Hp). lra.
Qed.

(** ** One law on the refined ranges *)
Lemma law_map_poly ok f e0 e1 outs o m y : In o outs -> describes ok f e0 e1 o -> (forall rs, fst o = Some rs -> tidy rs) ->
  law_map (refine (breakpoints outs)) o = Ok m ->
  ok (e0 + e1 * y) -> ~ is_break outs (e0 + e1 * y) ->
  Forall2 (fun ab c => fst ab <= e0 + e1 * y <= snd ab -> poly c y = f (e0 + e1 * y))
    (refine (breakpoints outs)) (match refine (breakpoints outs) with [] => [] | _ => m end) /\
  (fst o = None -> refine (breakpoints outs) = [] -> exists c, m = [c] /\ poly c y = f (e0 + e1 * y)).
Proof.
  intros Ho Hd Ht Hm Hok Hnb. set (e := e0 + e1 * y) in *. set (rf := refine (breakpoints outs)) in *.
  assert (Bs := breakpoints_sorted outs).
  unfold law_map in Hm. unfold describes in Hd. destruct (fst o) as [rs|] eqn:Eo.
  - destruct Hd as [Hl Hd]. specialize (Hd y Hok). fold e in Hd. destruct Hd as [Hin Hout].
    assert (Hm' : m = map_ranges (sort_rc (combine rs (snd o))) rf) by (destruct (combine rs (snd o)); [discriminate|injection Hm as <-; reflexivity]).
    rewrite Hm'. clear Hm Hm'. split; [|discriminate].
    assert (P := map_ranges_spec rf (sort_rc (combine rs (snd o))) [] (sort_rc (combine rs (snd o)))).
    assert (F : Forall2 (picks (sort_rc (combine rs (snd o)))) rf (map_ranges (sort_rc (combine rs (snd o))) rf)).
    { apply P.
      - apply sort_rc_sorted, tidy_pairs; [exact Hl|apply Ht; reflexivity].
      - reflexivity.
      - intros [a b] Hab. apply (refine_in _ a b Bs Hab).
      - apply refine_sorted, Bs.
      - intros p ab []. }
    clear P.
    assert (G : Forall2 (fun ab c => fst ab <= e <= snd ab -> poly c y = f e) rf (map_ranges (sort_rc (combine rs (snd o))) rf)).
    { assert (Hsub : forall ab, In ab rf -> In ab rf) by trivial. revert Hsub.
      generalize (map_ranges (sort_rc (combine rs (snd o))) rf) F. generalize rf at 1 2 4.
      intros l1 l2 F2. induction F2 as [|[a b] c l1 l2 Hp F2 IH]; intros Hsub; constructor.
      - cbn. intros Hab. assert (Hrf : In (a, b) rf) by (apply Hsub; left; reflexivity).
        destruct (refine_in _ a b Bs Hrf) as (A1 & A2 & A3 & A4).
        assert (N1 : e <> a). { intros E. apply Hnb. apply breakpoints_in. rewrite E; exact A2. }
        assert (N2 : e <> b). { intros E. apply Hnb. apply breakpoints_in. rewrite E; exact A3. }
        destruct Hp as [(r & Hr & H1 & H2)|[-> Hno]].
        + apply (Hin r c); [apply sort_rc_in; exact Hr|cbn in *; lra].
        + cbn. symmetry. apply Hout. intros r Hr [H1 H2].
          destruct (In_nth _ _ (0,0) Hr) as (k & Hk & Ek).
          assert (Hc : In (r, nth k (snd o) []) (combine rs (snd o))).
          { rewrite <- Ek, <- (combine_nth rs (snd o) k (0,0) []) by exact Hl. apply nth_In.
            rewrite combine_length, <- Hl, Nat.min_id. exact Hk. }
          apply (Hno r (nth k (snd o) [])); [apply sort_rc_in; exact Hc|]. cbn.
          assert (B1 : In (fst r) (breakpoints outs)). { apply breakpoints_in. exists o, rs, r. auto. }
          assert (B2 : In (snd r) (breakpoints outs)). { apply breakpoints_in. exists o, rs, r. auto. }
          destruct (A4 _ B1); destruct (A4 _ B2); lra.
      - apply IH. intros; apply Hsub; right; assumption. }
    destruct rf; [constructor|exact G].
  - destruct Hd as (c & Ec & Hd). specialize (Hd y Hok). fold e in Hd. rewrite Ec in Hm.
    split.
    + destruct rf as [|p rf']; [constructor|]. injection Hm as <-.
      assert (G : forall q, Forall2 (fun (ab : R * R) c0 => fst ab <= e <= snd ab -> poly c0 y = f e) q (map (fun _ => c) q)).
      { induction q as [|x q IH]; cbn; constructor; [intros; exact Hd|exact IH]. }
      exact (G (p :: rf')).
    + intros _ Er. rewrite Er in Hm. injection Hm as <-. exists c. split; [reflexivity|exact Hd].
Qed.

Lemma sum_coeffs_poly ws maps i out y : sum_coeffs ws maps i = Ok out ->
  poly out y = lsum (map (fun wm => fst wm * poly (nth i (snd wm) []) y) (combine ws maps)) /\
  (forall wm, In wm (combine ws maps) -> (i < length (snd wm))%nat).
Proof.
  unfold sum_coeffs. destruct (mapM _ (combine ws maps)) as [cs|] eqn:E; cbn [bind]; [|discriminate].
  intros [= <-]. apply mapM_Forall2 in E. rewrite poly_fold_add, poly_repeat0.
  - split.
    + rewrite Rplus_0_l. f_equal. induction E as [|[w m] c l1 l2 H E IH]; cbn; [reflexivity|].
      cbn in H. destruct (nth_error m i) as [cc|] eqn:En; [|discriminate]. injection H as <-.
      rewrite IH. f_equal. rewrite poly_scal. f_equal. f_equal. symmetry. apply nth_error_nth. exact En.
    + intros wm Hin. induction E as [|[w m] c l1 l2 H E IH]; [destruct Hin|]. destruct Hin as [<-|Hin]; [|exact (IH Hin)].
      cbn in *. apply nth_error_Some. destruct (nth_error m i); [discriminate|]. discriminate.
  - intros c Hc. rewrite repeat_length. apply max_len_ge, Hc.
Qed.

(** ** The whole merge *)
Lemma wsum_lsum ws fs e : wsum ws fs e = lsum (map (fun wf => fst wf * snd wf e) (combine ws fs)).
Proof.
  revert fs; induction ws as [|w ws IH]; intros [|f fs]; cbn [wsum combine map]; rewrite ?lsum_nil, ?lsum_cons; try reflexivity.
  rewrite IH. reflexivity.
Qed.

Lemma split_sum ws fs maps i y e (P : (R -> R) -> list (list R) -> Prop) :
  Forall2 (fun f m => poly (nth i m []) y = f e) fs maps ->
  lsum (map (fun wm => fst wm * poly (nth i (snd wm) []) y) (combine ws maps)) = wsum ws fs e.
Proof.
  intros F. revert ws. induction F as [|f m fs maps H F IH]; intros ws.
  - destruct ws; reflexivity.
  - destruct ws as [|w ws]; [reflexivity|]. cbn [combine map wsum]. rewrite lsum_cons, IH. cbn. rewrite H. reflexivity.
Qed.

Lemma Forall2_nth_pair {A B} (Q : A -> B -> Prop) l1 l2 i a0 b0 : Forall2 Q l1 l2 -> (i < length l1)%nat ->
  Q (nth i l1 a0) (nth i l2 b0).
Proof.
  intros F. revert i. induction F as [|a b l1 l2 H F IH]; intros i Hi; cbn in Hi; [lia|].
  destruct i; cbn; [exact H|apply IH; lia].
Qed.

Lemma Forall2_len {A B} (Q : A -> B -> Prop) l1 l2 : Forall2 Q l1 l2 -> length l1 = length l2.
Proof. induction 1; cbn; congruence. Qed.
Lemma mapM_seq_nth {B} (f : nat -> result B) n r b0 i : mapM f (seq 0 n) = Ok r -> (i < n)%nat ->
  length r = n /\ f i = Ok (nth i r b0).
Proof.
  intros H Hi. apply mapM_Forall2 in H. assert (L := Forall2_len _ _ _ H). rewrite seq_length in L. split; [lia|].
  assert (X := Forall2_nth_pair _ _ _ i O b0 H). rewrite seq_length, seq_nth in X by lia. apply X. exact Hi.
Qed.

Lemma maps_poly (ok : R -> Prop) outs e0 e1 y os fs maps :
  (forall o, In o os -> In o outs) ->
  (forall o rs, In o outs -> fst o = Some rs -> tidy rs) ->
  ok (e0 + e1 * y) -> ~ is_break outs (e0 + e1 * y) ->
  Forall2 (fun f o => describes ok f e0 e1 o) fs os ->
  Forall2 (fun o m => law_map (refine (breakpoints outs)) o = Ok m) os maps ->
  Forall2 (fun f m => Forall2 (fun ab c => fst ab <= e0 + e1 * y <= snd ab -> poly c y = f (e0 + e1 * y))
     (refine (breakpoints outs)) (match refine (breakpoints outs) with [] => [] | _ => m end)) fs maps.
Proof.
  intros Hsub Ht Hok Hnb Hd. revert maps. induction Hd as [|f o fs os Hfo Hd IH]; intros maps Em.
  - inversion Em; subst. constructor.
  - inversion Em as [|? m ? ms Hm Em']; subst. constructor.
    + apply (law_map_poly ok f e0 e1 outs o m y); try assumption; [apply Hsub; left; reflexivity|].
      intros rs. apply Ht, Hsub. left; reflexivity.
    + apply IH; [intros; apply Hsub; right; assumption|exact Em'].
Qed.
Lemma maps_poly_none (ok : R -> Prop) outs e0 e1 y os fs maps :
  (forall o, In o os -> In o outs) -> (forall o, In o outs -> fst o = None) ->
  ok (e0 + e1 * y) -> refine (breakpoints outs) = [] ->
  Forall2 (fun f o => describes ok f e0 e1 o) fs os ->
  Forall2 (fun o m => law_map (refine (breakpoints outs)) o = Ok m) os maps ->
  Forall2 (fun f m => poly (nth 0 m []) y = f (e0 + e1 * y)) fs maps.
Proof.
  intros Hsub Hn Hok Hr Hd. revert maps. induction Hd as [|f o fs os Hfo Hd IH]; intros maps Em.
  - inversion Em; subst. constructor.
  - inversion Em as [|? m ? ms Hm Em']; subst. constructor; [|apply IH; [intros; apply Hsub; right; assumption|exact Em']].
    assert (No : fst o = None) by (apply Hn, Hsub; left; reflexivity).
    unfold describes in Hfo. unfold law_map in Hm. rewrite No in *. rewrite Hr in Hm.
    destruct Hfo as (c & Ec & Hc). rewrite Ec in Hm. injection Hm as <-. cbn. apply Hc, Hok.
Qed.
Lemma all_none_no_breaks outs : (forall o, In o outs -> fst o = None) -> breakpoints outs = [].
Proof.
  intros H. destruct (breakpoints outs) as [|b l] eqn:E; [reflexivity|]. exfalso.
  assert (B : In b (breakpoints outs)) by (rewrite E; left; reflexivity).
  apply breakpoints_in in B as (o & rs & r & Ho & E2 & _). rewrite (H o Ho) in E2. discriminate.
Qed.

Lemma split_describes ok ws fs outs e0 e1 out :
  Forall2 (fun f o => describes ok f e0 e1 o) fs outs ->
  (forall o rs, In o outs -> fst o = Some rs -> tidy rs) ->
  (forall o o', In o outs -> In o' outs -> fst o = None -> fst o' = None) ->
  split_marin ws outs = Ok out ->
  describes (fun e => ok e /\ ~ is_break outs e) (wsum ws fs) e0 e1 out.
Proof.
  intros Hd Ht Hh. unfold split_marin. cbv zeta. set (rf := refine (breakpoints outs)).
  destruct (mapM (law_map rf) outs) as [maps|] eqn:Em; cbn [bind]; [|discriminate].
  destruct (mapM (sum_coeffs ws maps) (seq 0 (Nat.max (length rf) 1))) as [coeffs|] eqn:Ec; cbn [bind]; [|discriminate].
  intros [= <-]. apply mapM_Forall2 in Em.
  assert (Bs := breakpoints_sorted outs).
  destruct rf as [|p rf'] eqn:Er; subst rf.
  - (* no refined ranges *)
    cbn [length Nat.max] in Ec. unfold describes. cbn [fst snd].
    destruct (mapM_seq_nth _ 1 coeffs [] 0 Ec ltac:(lia)) as [Lc H0].
    destruct coeffs as [|c [|? ?]]; cbn in Lc; try lia. exists c. split; [reflexivity|].
    intros y [Hok Hnb]. cbn [nth] in H0. destruct (sum_coeffs_poly _ _ _ _ y H0) as [-> Hlen].
    destruct (existsb (fun o : marin_out => match fst o with Some _ => true | None => false end) outs) eqn:En.
    2:{ assert (An : forall o, In o outs -> fst o = None).
      { intros o Ho. destruct (fst o) eqn:E; [|reflexivity]. exfalso.
        assert (T : existsb (fun o : marin_out => match fst o with Some _ => true | None => false end) outs = true).
        { apply existsb_exists. exists o. rewrite E. auto. } congruence. }
      apply (split_sum ws fs maps 0 y (e0 + e1 * y) (fun _ _ => True)).
      rewrite <- Er in Em. eapply maps_poly_none; try eassumption. trivial. }
    { apply existsb_exists in En as (o & Ho & Hno').
      assert (Hno : fst o <> None) by (destruct (fst o); congruence).
      (* every law has ranges; an empty refinement makes law_map [] and the code raises *)
      assert (Lm : Forall (fun m => m = []) maps).
      { assert (Hs : Forall (fun o : marin_out => fst o <> None) outs).
        { rewrite Forall_forall. intros o' Ho' E. apply Hno. exact (Hh o' o Ho' Ho E). }
        clear -Em Hs. induction Em as [|o m os ms Hm Em IH]; constructor.
        - inversion Hs; subst. unfold law_map in Hm. destruct (fst o) as [rs|]; [|congruence].
          destruct (combine rs (snd o)); [discriminate|]. injection Hm as <-. reflexivity.
        - inversion Hs; subst. apply IH; assumption. }
      assert (Hcomb : combine ws maps = []).
      { destruct (combine ws maps) as [|[w m] t] eqn:E; [reflexivity|]. exfalso.
        assert (Hin : In (w, m) (combine ws maps)) by (rewrite E; left; reflexivity).
        assert (A := Hlen (w, m) ltac:(rewrite <- E; exact Hin)). apply in_combine_r in Hin.
        rewrite Forall_forall in Lm. rewrite (Lm m Hin) in A. cbn in A. lia. }
      rewrite Hcomb. cbn [map]. rewrite lsum_nil.
      destruct ws as [|w ws]; [reflexivity|]. destruct maps as [|m maps]; [|discriminate].
      inversion Em; subst. inversion Hd; subst. reflexivity. }
  - (* refined ranges *)
    set (rf := p :: rf') in *. unfold describes. cbn [fst snd].
    replace (Nat.max (length rf) 1) with (length rf) in Ec by (unfold rf; cbn; lia).
    assert (Lc : length coeffs = length rf). { apply (mapM_seq_nth _ (length rf) coeffs [] 0 Ec). unfold rf; cbn; lia. }
    split; [symmetry; exact Lc|]. intros y [Hok Hnb].
    rewrite <- Er in Em.
    assert (K := maps_poly ok outs e0 e1 y outs fs maps ltac:(trivial) Ht Hok Hnb Hd Em). rewrite Er in K.
    split.
    + intros ab c Hin Hab.
      destruct (In_nth _ _ (p, []) Hin) as (i & Hi & Ei). rewrite combine_length, Lc, Nat.min_id in Hi.
      rewrite combine_nth in Ei by (symmetry; exact Lc). injection Ei as Ei1 Ei2.
      destruct (mapM_seq_nth _ _ coeffs [] i Ec Hi) as [_ Hs]. rewrite Ei2 in Hs.
      destruct (sum_coeffs_poly _ _ _ _ y Hs) as [-> _].
      apply (split_sum ws fs maps i y (e0 + e1 * y) (fun _ _ => True)).
      change (nth i rf p = ab) in Ei1. clear -K Hi Ei1 Hab. induction K as [|f m fs maps H K IH]; constructor; [|exact IH].
      assert (X := Forall2_nth_pair _ rf _ i p [] H Hi). cbv beta in X. rewrite Ei1 in X. apply X, Hab.
    + intros Hout.
      assert (Some_all : forall o, In o outs -> exists rs, fst o = Some rs).
      { intros o Ho. destruct (fst o) as [rs|] eqn:E; [exists rs; reflexivity|].
        assert (Z : breakpoints outs = []) by (apply all_none_no_breaks; intros o' Ho'; exact (Hh o o' Ho Ho' E)).
        rewrite Z in Er. discriminate. }
      assert (Z : Forall (fun f => f (e0 + e1 * y) = 0) fs).
      { assert (Hsub : forall o, In o outs -> In o outs) by trivial.
        assert (G : forall os, Forall2 (fun f o => describes ok f e0 e1 o) fs os -> (forall o, In o os -> In o outs) -> Forall (fun f => f (e0 + e1 * y) = 0) fs).
        { intros os Hd' Hs. clear Hd K Em Ec. induction Hd' as [|f o fs' os' Hfo Hd' IH]; constructor.
          - destruct (Some_all o ltac:(apply Hs; left; reflexivity)) as [rs Ers].
            unfold describes in Hfo. rewrite Ers in Hfo. destruct Hfo as [_ Hfo]. destruct (Hfo y Hok) as [_ Ho]. apply Ho.
            intros r Hr Hre.
            assert (B1 : In (fst r) (breakpoints outs)). { apply breakpoints_in. exists o, rs, r. repeat split; auto. apply Hs; left; reflexivity. }
            assert (B2 : In (snd r) (breakpoints outs)). { apply breakpoints_in. exists o, rs, r. repeat split; auto. apply Hs; left; reflexivity. }
            destruct (refine_cover (breakpoints outs) (e0 + e1 * y) _ _ Bs B1 B2 Hre) as (a & b & Hin & Hab).
            + intros Hb. apply Hnb. apply breakpoints_in, Hb.
            + rewrite Er in Hin. exact (Hout (a, b) Hin Hab).
          - apply IH. intros; apply Hs; right; assumption. }
        exact (G outs Hd Hsub). }
      clear -Z. revert ws. induction Z as [|f fs H Z IH]; intros [|w ws]; cbn; try reflexivity. rewrite IH, H. lra.
Qed.

(** Success of the merge. *)
Lemma law_map_length rf o m : law_map rf o = Ok m -> rf <> [] -> length m = length rf.
Proof.
  unfold law_map. intros H N. destruct (fst o) as [rs|].
  - destruct (combine rs (snd o)); [discriminate|]. injection H as <-. 
    match goal with |- length (map_ranges ?l rf) = _ => generalize l end. clear N.
    induction rf as [|[a b] rf IH]; intros l0; cbn; [reflexivity|]. rewrite IH. reflexivity.
  - destruct (snd o); [discriminate|]. destruct rf; [congruence|]. injection H as <-. cbn. rewrite map_length. reflexivity.
Qed.
Lemma split_ok ws outs :
  (forall o, In o outs -> match fst o with None => snd o <> [] | Some rs => combine rs (snd o) <> [] end) ->
  (exists o rs r, In o outs /\ fst o = Some rs /\ In r rs /\ fst r < snd r) ->
  exists out, split_marin ws outs = Ok out.
Proof.
  intros Hne (o & rs & r & Ho & E & Hr & Hlt). unfold split_marin. cbv zeta. set (rf := refine (breakpoints outs)).
  assert (Nrf : rf <> []).
  { intros Z. assert (B1 : In (fst r) (breakpoints outs)) by (apply breakpoints_in; exists o, rs, r; auto).
    assert (B2 : In (snd r) (breakpoints outs)) by (apply breakpoints_in; exists o, rs, r; auto).
    unfold rf in Z. destruct (breakpoints outs) as [|x [|y t]]; [destruct B1| |discriminate].
    destruct B1 as [B1|[]]. destruct B2 as [B2|[]]. lra. }
  destruct (mapM_ok (law_map rf) outs) as [maps Em].
  { intros o' Ho'. specialize (Hne o' Ho'). unfold law_map. destruct (fst o') as [rs'|].
    - destruct (combine rs' (snd o')); [congruence|]. eexists; reflexivity.
    - destruct (snd o'); [congruence|]. destruct rf; eexists; reflexivity. }
  rewrite Em. cbn [bind]. apply mapM_Forall2 in Em.
  destruct (mapM_ok (sum_coeffs ws maps) (seq 0 (Nat.max (length rf) 1))) as [cs Ecs].
  { intros i Hi. apply in_seq in Hi. assert (Hi' : (i < length rf)%nat) by (destruct rf; [congruence|cbn in *; lia]).
    unfold sum_coeffs.
    match goal with |- context [mapM ?g (combine ws maps)] => destruct (mapM_ok g (combine ws maps)) as [q Eq] end.
    - intros [w m] Hin. apply in_combine_r in Hin. cbn.
      assert (Lm : length m = length rf).
      { clearbody rf. clear -Em Hin Nrf. induction Em as [|o m' os ms Hm Em IH]; [destruct Hin|]. destruct Hin as [->|Hin]; [exact (law_map_length _ _ _ Hm Nrf)|exact (IH Hin)]. }
      destruct (nth_error m i) eqn:En; [eexists; reflexivity|]. apply nth_error_None in En. lia.
    - rewrite Eq. cbn [bind]. eexists; reflexivity. }
  rewrite Ecs. cbn [bind]. eexists; reflexivity.
Qed.
