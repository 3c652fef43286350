(** Lemmas for C59: balanced failure of a section assembled from pieces. *)
From Coq Require Import Permutation FunctionalExtensionality Lra Lia.
From Verif Require Import Base M_Marin S_Marin M_Laws M_Laws2 M_Fiber M_MarinInt S_MarinInt L_MarinInt3 S_Mesh M_Section M_Domain S_Exact S_Turn L_Turn L_Turn2 L_Turn3 L_Turn4 S_Move L_Move L_Move2 L_Move3 L_Move4 L_Move6 S_Pieces L_Pieces L_Pieces2.

Definition pair_cand (rc y : bool) (i j : item) : cand :=
  let u := fst (im_ult j (if orb (andb rc (im_conc j)) (negb rc) then y else false)) in
  let v := snd (im_ult i y) in
  if Rleb (im_hi j) (im_lo i) then None else
  let chi := - (v - u) / (im_lo i - im_hi j) in
  if Rltb chi (10 ^ 10) then Some (chi, u + chi * im_hi j, im_hi j, im_lo i) else None.
Definition small (c : cand) : Prop := match c with Some x => chi_of x < 10 ^ 10 | None => True end.
Lemma pair_small rc y i j : small (pair_cand rc y i j).
Proof. unfold pair_cand. cbv zeta. destruct (Rleb _ _); [exact Logic.I|]. destruct (Rltb_spec (- (snd (im_ult i y) - fst (im_ult j (if (rc && im_conc j || negb rc)%bool then y else false))) / (im_lo i - im_hi j)) (10 ^ 10)); [exact r|exact Logic.I]. Qed.
Lemma step_pick rc y acc i j : small acc -> pair_step rc y acc (i, j) = pick2 acc (pair_cand rc y i j) /\ small (pair_step rc y acc (i, j)).
Proof.
  intros S. assert (E : pair_step rc y acc (i, j) = pick2 acc (pair_cand rc y i j)).
  - unfold pair_step, pair_cand. cbv zeta. set (v := snd (im_ult i y)). set (u := fst (im_ult j _)). destruct (Rleb _ _); [destruct acc; reflexivity|].
    set (chi := - (v - u) / (im_lo i - im_hi j)). destruct acc as [[[[c e] yn] yp]|]; cbn [small chi_of fst] in S.
    + destruct (Rltb_spec chi (10 ^ 10)); cbn [pick2 chi_of fst].
      * reflexivity.
      * destruct (Rltb_spec chi c); [lra|reflexivity].
    + destruct (Rltb_spec chi (10 ^ 10)); reflexivity.
  - split; [exact E|]. rewrite E. pose proof (pair_small rc y i j) as T. destruct acc as [x|], (pair_cand rc y i j) as [z|]; cbn [pick2]; try assumption. destruct (Rltb _ _); assumption.
Qed.
Lemma fold_pick rc y l : forall acc, small acc -> fold_left (pair_step rc y) l acc = fold_left pick2 (map (fun x => pair_cand rc y (fst x) (snd x)) l) acc.
Proof.
  induction l as [|[i j] l IH]; intros acc S; [reflexivity|]. cbn [fold_left map fst snd]. destruct (step_pick rc y acc i j S) as (E & T). rewrite <- E. apply IH, T.
Qed.
Lemma prod_best rc y l m : best (map (fun x => pair_cand rc y (fst x) (snd x)) (list_prod l m)) = best (map (fun i => best (map (pair_cand rc y i) m)) l).
Proof.
  induction l as [|i l IH]; [reflexivity|]. cbn [list_prod map]. rewrite map_app, best_app, best_cons, IH. f_equal. rewrite map_map. reflexivity.
Qed.
(** The items of the pieces of one surface. *)
Definition splits (i : item) (b : list item) : Prop :=
  (forall j, In j b -> im_ult j = im_ult i /\ im_conc j = im_conc i /\ im_lo i <= im_lo j /\ im_hi j <= im_hi i) /\
  (exists j, In j b /\ im_lo j = im_lo i) /\ (exists j, In j b /\ im_hi j = im_hi i).
Section Rows.
Variables (rc y : bool).
(** Ultimate strains with the smaller one first. *)
Definition two (i j : item) : Prop := forall u v, fst (im_ult j u) < snd (im_ult i v).
Lemma high_ahead i j k : two i j -> im_ult k = im_ult j -> im_conc k = im_conc j -> im_hi k < im_hi j ->
  pair_cand rc y i k = pair_cand rc y i j \/ ahead (pair_cand rc y i j) (pair_cand rc y i k).
Proof.
  intros T U C H. unfold pair_cand. rewrite U, C. cbv zeta. set (use := if orb _ _ then y else false). set (u := fst (im_ult j use)). set (v := snd (im_ult i y)).
  assert (UV : u < v) by apply T. destruct (Rleb_spec (im_hi j) (im_lo i)) as [A|A].
  { destruct (Rleb_spec (im_hi k) (im_lo i)); [left; reflexivity|lra]. }
  destruct (Rleb_spec (im_hi k) (im_lo i)) as [B|B].
  { destruct (Rltb _ _); [right; exact Logic.I|left; reflexivity]. }
  assert (X : - (v - u) / (im_lo i - im_hi j) < - (v - u) / (im_lo i - im_hi k)).
  { replace (- (v - u) / (im_lo i - im_hi j)) with ((v - u) * / (im_hi j - im_lo i)) by (field; lra). replace (- (v - u) / (im_lo i - im_hi k)) with ((v - u) * / (im_hi k - im_lo i)) by (field; lra).
    apply Rmult_lt_compat_l; [lra|]. apply Rinv_lt_contravar; [apply Rmult_lt_0_compat; lra|lra]. }
  destruct (Rltb_spec (- (v - u) / (im_lo i - im_hi k)) (10 ^ 10)) as [P|P]; destruct (Rltb_spec (- (v - u) / (im_lo i - im_hi j)) (10 ^ 10)) as [Q|Q].
  - right; exact X.
  - exfalso; lra.
  - right; exact Logic.I.
  - left; reflexivity.
Qed.
Lemma low_ahead i j k : two i j -> im_ult k = im_ult i -> im_lo i < im_lo k ->
  pair_cand rc y k j = None \/ ahead (pair_cand rc y i j) (pair_cand rc y k j).
Proof.
  intros T U H. unfold pair_cand. rewrite U. cbv zeta. set (use := if orb _ _ then y else false). set (u := fst (im_ult j use)). set (v := snd (im_ult i y)).
  assert (UV : u < v) by apply T. destruct (Rleb_spec (im_hi j) (im_lo k)) as [A|A]; [left; reflexivity|].
  destruct (Rleb_spec (im_hi j) (im_lo i)) as [B|B]; [lra|].
  assert (X : - (v - u) / (im_lo i - im_hi j) < - (v - u) / (im_lo k - im_hi j)).
  { replace (- (v - u) / (im_lo i - im_hi j)) with ((v - u) * / (im_hi j - im_lo i)) by (field; lra). replace (- (v - u) / (im_lo k - im_hi j)) with ((v - u) * / (im_hi j - im_lo k)) by (field; lra).
    apply Rmult_lt_compat_l; [lra|]. apply Rinv_lt_contravar; [apply Rmult_lt_0_compat; lra|lra]. }
  destruct (Rltb_spec (- (v - u) / (im_lo k - im_hi j)) (10 ^ 10)); [|left; reflexivity]. destruct (Rltb_spec (- (v - u) / (im_lo i - im_hi j)) (10 ^ 10)); cbn [ahead chi_of fst]; [right; exact X|lra].
Qed.
Lemma block_row i j b : two i j -> splits j b -> best (map (pair_cand rc y i) b) = pair_cand rc y i j.
Proof.
  intros T (H & _ & (m & Im & Em)).
  assert (SM : forall k, In k b -> im_hi k = im_hi j -> pair_cand rc y i k = pair_cand rc y i j).
  { intros k I E. destruct (H k I) as (U & C & _). unfold pair_cand. rewrite U, C, E. reflexivity. }
  apply best_absorb.
  - rewrite <- (SM m Im Em). now apply in_map.
  - intros x I. apply in_map_iff in I. destruct I as (k & <- & I). destruct (H k I) as (U & C & _ & L). destruct (Rle_lt_or_eq_dec _ _ L) as [Q|Q]; [exact (high_ahead i j k T U C Q)|left; exact (SM k I Q)].
Qed.
Lemma Forall2_best (js : list item) bs i : Forall2 splits js bs -> (forall j, In j js -> two i j) -> best (map (pair_cand rc y i) (concat bs)) = best (map (pair_cand rc y i) js).
Proof.
  intros F T. rewrite concat_map, best_concat. f_equal. rewrite map_map. induction F as [|j b js bs S F IH]; [reflexivity|]. cbn [map]. f_equal.
  - exact (block_row i j b (T j (or_introl eq_refl)) S).
  - apply IH. intros k I. exact (T k (or_intror I)).
Qed.
Lemma block_rows js i b : (forall j, In j js -> two i j) -> splits i b -> best (map (fun k => best (map (pair_cand rc y k) js)) b) = best (map (pair_cand rc y i) js).
Proof.
  intros T (H & (m & Im & Em) & _).
  assert (SM : forall k, In k b -> im_lo k = im_lo i -> map (pair_cand rc y k) js = map (pair_cand rc y i) js).
  { intros k I E. apply map_ext. intros j. destruct (H k I) as (U & _). unfold pair_cand. rewrite U, E. reflexivity. }
  apply best_absorb.
  - apply in_map_iff. exists m. split; [rewrite (SM m Im Em); reflexivity|exact Im].
  - intros x I. apply in_map_iff in I. destruct I as (k & <- & I). destruct (H k I) as (U & _ & L & _). destruct (Rle_lt_or_eq_dec _ _ L) as [Q|Q]; [|left; rewrite (SM k I (eq_sym Q)); reflexivity].
    destruct (best_in (map (pair_cand rc y k) js)) as [Z|J].
    + rewrite Z. destruct (best (map (pair_cand rc y i) js)); [right; exact Logic.I|left; reflexivity].
    + apply in_map_iff in J. destruct J as (j & E & J). destruct (low_ahead i j k (T j J) U Q) as [Z|A].
      * rewrite <- E, Z. destruct (best (map (pair_cand rc y i) js)); [right; exact Logic.I|left; reflexivity].
      * right. rewrite <- E. pose proof (best_not_behind (map (pair_cand rc y i) js) (pair_cand rc y i j) (in_map _ _ _ J)) as NB.
        destruct (pair_cand rc y i j) as [a|]; [|contradiction]. destruct (best (map (pair_cand rc y i) js)) as [c|]; [|contradiction]. destruct (pair_cand rc y k j) as [d|]; cbn [ahead] in A |- *; [lra|exact Logic.I].
Qed.
Lemma balanced_blocks is bs : Forall2 splits is bs -> (forall i j, In i is -> In j is -> two i j) -> balanced rc y (concat bs) = balanced rc y is.
Proof.
  intros F T. unfold balanced. rewrite !(fold_pick rc y _ None Logic.I). change (fold_left pick2 ?l None) with (best l). rewrite !prod_best.
  assert (E : best (map (fun i => best (map (pair_cand rc y i) (concat bs))) (concat bs)) = best (map (fun i => best (map (pair_cand rc y i) is)) is)); [|rewrite E; reflexivity].
  transitivity (best (map (fun i => best (map (pair_cand rc y i) is)) (concat bs))).
  - f_equal. apply map_ext_in. intros k I. apply Forall2_best; [exact F|]. apply in_concat in I. destruct I as (b & J & K). destruct (Forall2_in _ _ _ b F J) as (i & Ii & (H & _)). destruct (H k K) as (U & _).
    intros j Ij u v. rewrite U. exact (T i j Ii Ij u v).
  - rewrite concat_map, best_concat, map_map. f_equal.
    assert (G : forall js, (forall i j, In i is -> In j js -> two i j) -> map (fun x => best (map (fun i => best (map (pair_cand rc y i) js)) x)) bs = map (fun i => best (map (pair_cand rc y i) js)) is).
    { clear T. intros js. revert js. induction F as [|i b is bs S F IH]; intros js TJ; [reflexivity|]. cbn [map]. f_equal; [exact (block_rows js i b (fun j J => TJ i j (or_introl eq_refl) J) S)|]. apply IH. intros k j I J. exact (TJ k j (or_intror I) J). }
    apply G, T.
Qed.
End Rows.
Lemma items_pieces t g g' : assembled g g' -> exists bs, Forall2 splits (items_of t g) bs /\ items_of t g' = concat bs.
Proof.
  intros (ls & F & E & B). unfold items_of. rewrite E, B.
  set (f := fun s => {| im_lo := ring_min (sf_ext s); im_hi := ring_max (sf_ext s); im_ult := tr_ult t (sf_law s); im_conc := tr_conc t (sf_law s) |}).
  set (h := fun b => {| im_lo := br_z b; im_hi := br_z b; im_ult := tr_ult t (br_law b); im_conc := false |}).
  exists (map (map f) ls ++ map (fun b => [h b]) (cg_bars g)). split.
  - apply Forall2_app.
    + clear E B. induction F as [|s l ss ls O F IH]; [constructor|]. cbn [map]. constructor; [|exact IH]. split; [|split].
      * intros j I. apply in_map_iff in I. destruct I as (p & <- & I). destruct (piece_heights s l p O I) as (H1 & H2). pose proof (proj1 (proj1 O p I)) as L. unfold f. cbn [im_ult im_conc im_lo im_hi]. rewrite L. repeat split; assumption.
      * destruct (piece_extremes s l O) as ((p & I & Ep) & _). exists (f p). split; [now apply in_map|exact Ep].
      * destruct (piece_extremes s l O) as (_ & (p & I & Ep)). exists (f p). split; [now apply in_map|exact Ep].
    + clear. induction (cg_bars g) as [|b l IH]; [constructor|]. cbn [map]. constructor; [|exact IH]. split; [|split].
      * intros j [<-|[]]. repeat split; lra.
      * exists (h b). split; [left; reflexivity|reflexivity].
      * exists (h b). split; [left; reflexivity|reflexivity].
  - rewrite concat_app, <- concat_map. f_equal. clear. induction (cg_bars g) as [|b l IH]; [reflexivity|]. exact (f_equal (cons (h b)) IH).
Qed.
Lemma balanced_pieces t g g' y : assembled g g' -> two_sided t g -> balanced (tr_rc t) y (items_of t g') = balanced (tr_rc t) y (items_of t g).
Proof.
  intros A T. destruct (items_pieces t g g' A) as (bs & F & ->). apply (balanced_blocks (tr_rc t) y _ _ F).
  assert (X : forall i, In i (items_of t g) -> forall u, fst (im_ult i u) < 0 < snd (im_ult i u)).
  { intros i I u. unfold items_of in I. apply in_app_iff in I. destruct I as [I|I]; apply in_map_iff in I; destruct I as (s & <- & I); cbn [im_ult]; apply T; [left|right]; exists s; split; trivial. }
  intros i j I J u v. destruct (X i I v). destruct (X j J u). lra.
Qed.
Lemma two_rot t a g : two_sided t g -> two_sided t (rotate_geo a g).
Proof.
  intros T k y [(s & I & <-)|(b & I & <-)]; cbn [rotate_geo cg_surf cg_bars] in I; apply in_map_iff in I; destruct I as (s0 & <- & I); apply T; [left|right]; exists s0; split; trivial.
Qed.
