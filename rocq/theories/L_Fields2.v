From Coq Require Import Sorting.Sorted.
From Coquelicot Require Import Coquelicot.
From Verif Require Import Base M_Laws S_Laws L_Laws L_LawsB L_LawsC M_Laws2 S_Laws2 L_Laws2 L_Laws3 L_Laws4 L_Laws5 M_Section M_Discr S_Discr L_Discr L_Discr2 M_Fiber S_Fiber M_MarinInt S_MarinInt L_MarinInt4 M_Fields S_Fields L_Fields.

(** * Discretised laws *)
Definition compr (arr : list R -> list R * list R) (s : R -> R) (u : R) : Prop :=
  (forall eps, arr eps = (map s eps, prep_arr (u, 100) eps)) /\ u < 0 /\ tol u < - u / 10 /\
  (forall e, 0 <= e <= 1 -> s e = 0) /\ s u < 0 /\ (forall e, u <= e <= 0 -> - s e <= - s u * 1000000).
Lemma compr_field arr s u : compr arr s u -> exists f t, polygon_at_tenths u s f /\ slope_of f t /\
  (forall e0 r, 0 <= r -> (r = 0 -> settled (u, 0) e0) ->
     field_of (by_default ud_marin arr (u, 100) (e0, r)) f e0 r /\ field_of (by_default ud_marin_tangent arr (u, 100) (e0, r)) t e0 r) /\
  (forall e0 r, 0 < r ->
    (exists rs q, fst (snd (by_default ud_marin arr (u, 100) (e0, r))) = Some rs /\ In q rs /\ fst q < snd q) /\
    (exists rs q, fst (snd (by_default ud_marin_tangent arr (u, 100) (e0, r))) = Some rs /\ In q rs /\ fst q < snd q)).
Proof.
  intros (A & U & T & P & Q & B). destruct (discretize_ok arr s u A U T P Q B) as (l & E & X & Y & Z).
  assert (I : increasing (ud_x l)) by (rewrite X; apply nodes_increasing; exact U).
  assert (L : length (ud_x l) = length (ud_y l)) by (rewrite X, Y, map_length; reflexivity).
  assert (G : (2 <= length (ud_x l))%nat) by (rewrite X, nodes_length; lia).
  exists (interp (ud_x l) (ud_y l)), (ud_tangent l). split; [rewrite X, Y; apply poly_interp; assumption|].
  split; [apply interp_slope; assumption|]. unfold by_default. rewrite E. split.
  - intros e0 r Hr Hs. apply ud_field; try assumption. rewrite Z. exact Hs.
  - apply ud_pieces; assumption.
Qed.
Lemma pr_compr l : pr_wf l -> pr_fc l < 0 -> tol (pr_eu l) < - pr_eu l / 10 ->
  compr (fun a => (pr_stress_arr l a, prep_arr (pr_ult l) a)) (pr_stress l) (pr_eu l).
Proof.
  intros W F T. assert (U : pr_eu l < 0) by (destruct W as (? & ? & ? & ?); lra).
  assert (Q : pr_stress l (pr_eu l) = pr_fc l).
  { apply pr_plateau; [exact W|apply tol_settled; exact U|destruct W as (? & ? & ? & ?); lra]. }
  repeat split.
  - intros eps. unfold pr_ult. rewrite pr_stress_arr_map; [reflexivity|exact W|apply (sep (pr_eu l)); assumption].
  - exact U.
  - exact T.
  - intros e E. destruct (Req_dec e 0) as [-> | N]; [apply pr_zero; [exact W|apply tol_far; lra]|].
    apply pr_tension; [exact W|lra|apply tol_far; lra].
  - rewrite Q. exact F.
  - intros e _. rewrite Q, pr_stress_raw by exact W. destruct (pr_raw_bounds l (prep (pr_ult l) e) W). lra.
Qed.
Lemma popovics_compr l : popovics_wf l -> po_fc l < 0 -> tol (po_ecu l) < - po_ecu l / 10 ->
  - po_fc l <= - popovics_stress l (po_ecu l) * 1000000 ->
  compr (fun a => (popovics_stress_arr l a, prep_arr (popovics_ult l) a)) (popovics_stress l) (po_ecu l).
Proof.
  intros W F T Cc. assert (U : po_ecu l < 0) by apply W. repeat split.
  - intros eps. unfold popovics_ult. rewrite popovics_stress_arr_map; [reflexivity|apply (sep (po_ecu l)); assumption].
  - exact U.
  - exact T.
  - intros e E. destruct (Req_dec e 0) as [-> | N]; [|apply popovics_tension; [exact W|lra|apply tol_far; lra]].
    rewrite popovics_stress_raw. rewrite prep_far; cbn [popovics_ult fst snd].
    + unfold popovics_cut. destruct (orb _ _); [reflexivity|]. unfold popovics_raw. unfold Rdiv. rewrite Rmult_0_l, Rmult_0_r, !Rmult_0_l. reflexivity.
    + unfold far, tol. rewrite (Rabs_right 100), (Rabs_left (0 - 100)) by lra. lra.
    + apply tol_far; lra.
  - lra.
  - intros e _. destruct (popovics_bounds l e W). lra.
Qed.
Lemma sargin_compr l : sargin_wf l -> sa_fc l < 0 -> tol (sa_ecu1 l) < - sa_ecu1 l / 10 ->
  - sa_fc l <= - sargin_raw l (sa_ecu1 l) * 1000000 ->
  compr (fun a => (sargin_stress_arr l a, prep_arr (sargin_ult l) a)) (sargin_arr1 l) (sa_ecu1 l) /\
  (forall e, sa_ecu1 l <= e <= 0 -> sargin_arr1 l e = or_zero (sargin_stress l e)).
Proof.
  intros W F T Cc. assert (U : sa_ecu1 l < 0) by apply W.
  assert (V : forall e, sa_ecu1 l <= e <= 0 -> sargin_arr1 l e = or_zero (sargin_stress l e) /\
              sargin_stress l e = Ok (sargin_raw l (prep (sargin_ult l) e))).
  { intros e E. apply sargin_arr1_val; [exact W|]. apply prep_in; assumption. }
  assert (Q : sargin_arr1 l (sa_ecu1 l) = sargin_raw l (sa_ecu1 l)).
  { destruct (V (sa_ecu1 l) ltac:(lra)) as [-> ->]. cbn [or_zero]. f_equal. apply settled_prep. apply tol_settled. exact U. }
  split; [repeat split|intros e E; apply V; exact E].
  - intros eps. unfold sargin_ult. rewrite sargin_arr1_map; [reflexivity|apply (sep (sa_ecu1 l)); assumption].
  - exact U.
  - exact T.
  - intros e E. unfold sargin_arr1, sargin_ult. cbv zeta. rewrite prep_far; cbn [fst snd].
    + destruct (Rltb_spec 0 e); [reflexivity|]. destruct (Rltb_spec e (sa_ecu1 l)); [reflexivity|].
      replace e with 0 by lra. unfold sargin_raw. cbv zeta. unfold Rdiv. rewrite !Rmult_0_l. ring.
    + unfold far, tol. rewrite (Rabs_right 100), (Rabs_left (e - 100)) by lra. lra.
    + apply tol_far; lra.
  - rewrite Q. lra.
  - intros e E. rewrite Q. destruct (V e E) as [-> Hv]. rewrite Hv. cbn [or_zero]. destruct (sargin_bounds l e _ W Hv). lra.
Qed.

(** * BilinearCompression: slope and own stress *)
Lemma bil_slope fc p u l : bil_init fc p (Some u) = Ok l -> Rabs p <= Rabs u -> slope_of (bil_curve (Rabs fc) (Rabs p) (Rabs u)) (bil_tangent l).
Proof.
  intros H U. unfold bil_init in H. destruct (Reqb_spec p 0) as [|Np]; [discriminate|]. injection H as <-.
  assert (P : 0 < Rabs p) by (apply Rabs_pos_lt; exact Np).
  assert (K : - Rabs fc / - Rabs p = Rabs fc / Rabs p) by (field; lra).
  unfold bil_tangent. cbn [bi_fc bi_ec bi_ecu bi_E]. rewrite K.
  set (F := Rabs fc) in *. set (q := Rabs p) in *. set (v := Rabs u) in *. set (k := F / q) in *.
  exists [- v; - q; 0]. intros e He.
  assert (N1 : e <> - v) by (intros X; apply He; rewrite X; cbn; auto).
  assert (N2 : e <> - q) by (intros X; apply He; rewrite X; cbn; auto).
  assert (N3 : e <> 0) by (intros X; apply He; rewrite X; cbn; auto).
  assert (C : e < - v \/ - v < e < - q \/ - q < e < 0 \/ 0 < e) by lra.
  rsplit; cbn [andb]; try lra; destruct C as [C|[C|[C|C]]]; try lra.
  - apply (is_derive_local _ (fun t => k * t + 0) e k (- q) 0); [lra| |apply affine_deriv].
    intros t Ht. unfold bil_curve; fold k; rdec; try lra; ring.
  - apply (is_derive_local _ (fun _ => 0) e 0 0 (e + 1)); [lra| |apply @is_derive_const]. intros t Ht. unfold bil_curve; rdec; lra.
  - apply (is_derive_local _ (fun _ => 0) e 0 (e - 1) (- v)); [lra| |apply @is_derive_const]. intros t Ht. unfold bil_curve; rdec; lra.
  - apply (is_derive_local _ (fun _ => - F) e 0 (- v) (- q)); [lra| |apply @is_derive_const]. intros t Ht. unfold bil_curve; rdec; lra.
Qed.
Lemma bil_own fc p u l : bil_init fc p (Some u) = Ok l -> Rabs p <= Rabs u ->
  own_curve (bil_law l) (settled (- Rabs u, 100)) (bil_curve (Rabs fc) (Rabs p) (Rabs u)).
Proof.
  intros H U e S0. unfold bil_init in H. destruct (Reqb_spec p 0) as [|Np]; [discriminate|]. injection H as <-.
  assert (P : 0 < Rabs p) by (apply Rabs_pos_lt; exact Np).
  assert (K : - Rabs fc / - Rabs p = Rabs fc / Rabs p) by (field; lra).
  cbn [bil_law lw_stress]. unfold bil_stress, bil_ult. cbn [bi_fc bi_ec bi_ecu bi_E]. rewrite K, (settled_prep _ _ S0). cbv zeta.
  assert (Pf := Rabs_pos fc).
  set (F := Rabs fc) in *. set (q := Rabs p) in *. set (v := Rabs u) in *.
  assert (Kp : 0 <= F / q) by (apply Rmult_le_pos; [exact Pf|apply Rlt_le, Rinv_0_lt_compat, P]).
  assert (KQ : F = F / q * q) by (field; lra). set (k := F / q) in *.
  unfold bil_curve; fold k; rsplit; cbn [orb]; rdec; try lra.
  - apply Rmax_left. rewrite KQ. nra.
  - apply Rmax_right. rewrite KQ. nra.
Qed.

(** * Parallel *)
Lemma sorted_nth {A} (Q : A -> A -> Prop) l d : StronglySorted Q l -> forall i j, (i < j < length l)%nat -> Q (nth i l d) (nth j l d).
Proof.
  induction 1 as [|a l S IH F]; intros i j H; cbn [length] in *; [lia|].
  destruct j as [|j]; [lia|]. destruct i as [|i]; cbn [nth].
  - rewrite Forall_forall in F. apply F. apply nth_In. lia.
  - apply IH. lia.
Qed.
Lemma refine_tidy bp : StronglySorted Rlt bp -> tidy (refine bp).
Proof.
  intros S0. assert (S1 := refine_sorted bp S0). split.
  - intros [a b] H. destruct (refine_in bp a b S0 H) as (L & _). cbn. lra.
  - assert (W : forall i j, (i < j < length (refine bp))%nat -> snd (nth i (refine bp) (0, 0)) <= fst (nth j (refine bp) (0, 0))).
    { intros i j H. assert (A := sorted_nth _ _ (0, 0) S1 i j H). cbv beta in A.
      destruct (nth i (refine bp) (0, 0)) as [a b] eqn:Ei. destruct (nth j (refine bp) (0, 0)) as [c d] eqn:Ej. cbn in *.
      assert (Hi : In (a, b) (refine bp)) by (rewrite <- Ei; apply nth_In; lia).
      assert (Hj : In (c, d) (refine bp)) by (rewrite <- Ej; apply nth_In; lia).
      destruct (refine_in bp a b S0 Hi) as (_ & _ & Hb & _). destruct (refine_in bp c d S0 Hj) as (_ & _ & _ & Hd).
      destruct (Hd b Hb); lra. }
    intros i j Hi Hj D. destruct (Nat.lt_total i j) as [A|[A|A]]; [left|lia|right]; apply W; lia.
Qed.
Lemma F2_impl {A B} (P Q : A -> B -> Prop) l1 l2 : (forall a b, P a b -> Q a b) -> Forall2 P l1 l2 -> Forall2 Q l1 l2.
Proof. intros H F. induction F; constructor; auto. Qed.
Lemma fields_describe outs : forall fs e0 r, Forall2 (fun o f => field_of (e0, o) f e0 r) outs fs ->
  exists bad, Forall2 (fun f o => describes (fun e => ~ In e bad) f e0 r o) fs outs.
Proof.
  intros fs e0 r F. induction F as [|o f outs fs H F (bad & IH)]; [exists []; constructor|].
  destruct H as [_ H]. cbn [fst snd] in H.
  assert (Hd : exists b, describes (fun e => ~ In e b) f e0 r o).
  { destruct (fst o) as [rs|]; [destruct H as (_ & _ & b & H); exists b; exact H|]. exists []. eapply describes_weaken; [|exact H]. intros; exact I. }
  destruct Hd as (b & Hd). exists (b ++ bad). constructor.
  - eapply describes_weaken; [|exact Hd]. intros e He X. apply He. apply in_or_app. left; exact X.
  - eapply F2_impl; [|exact IH]. intros f' o' D. eapply describes_weaken; [|exact D]. intros e He X. apply He. apply in_or_app. right; exact X.
Qed.
Lemma mapM_exact {A B} (f : A -> result B) (g : A -> B) l : (forall a, In a l -> f a = Ok (g a)) -> M_Laws2.mapM f l = Ok (map g l).
Proof.
  induction l as [|a l IH]; intros H; [reflexivity|]. cbn [M_Laws2.mapM map]. rewrite H by (left; reflexivity). cbn [bind].
  rewrite IH by (intros; apply H; right; assumption). reflexivity.
Qed.
Lemma split_none ws outs : (forall o, In o outs -> exists c, o = (None, [c])) -> exists c, split_marin ws outs = Ok (None, [c]).
Proof.
  intros H. assert (N : breakpoints outs = []). { apply all_none_no_breaks. intros o Ho. destruct (H o Ho) as (c & ->). reflexivity. }
  unfold split_marin. rewrite N. cbn [refine]. cbv zeta.
  rewrite (mapM_exact (law_map []) (fun o : marin_out => snd o)) by (intros o Ho; destruct (H o Ho) as (c & ->); reflexivity). cbn [bind].
  cbn [length Nat.max seq M_Laws2.mapM]. unfold sum_coeffs.
  rewrite (mapM_exact _ (fun wm => map (Rmult (fst wm)) (nth 0 (snd wm) []))).
  - cbn [bind]. eexists. reflexivity.
  - intros [w m] Hm. apply in_combine_r in Hm. apply in_map_iff in Hm as (o & <- & Ho). destruct (H o Ho) as (c & ->). reflexivity.
Qed.
Lemma par_field (outs : list marin_out) ws fs e0 r : Forall2 (fun o f => field_of (e0, o) f e0 r) outs fs ->
  ((forall o, In o outs -> fst o = None) \/
   (outs <> [] /\ forall o, In o outs -> exists rs q, fst o = Some rs /\ In q rs /\ fst q < snd q)) ->
  exists out, split_marin ws outs = Ok out /\ field_of (e0, out) (wsum ws fs) e0 r.
Proof.
  intros F [N|[NE P]].
  - destruct (split_none ws outs) as (c & E).
    { intros o Ho. specialize (N o Ho). clear -F Ho N. induction F as [|o' f outs fs H F IH]; [destruct Ho|].
      destruct Ho as [->|Ho]; [|exact (IH Ho)]. destruct H as [_ H]. cbn [fst snd] in H. rewrite N in H. unfold describes in H. rewrite N in H.
      destruct H as (c & E & _). exists c. destruct o as [a b]. cbn in *. subst. reflexivity. }
    exists (None, [c]). split; [exact E|]. split; [reflexivity|]. cbn [fst snd].
    assert (D : describes (fun e => True /\ ~ is_break outs e) (wsum ws fs) e0 r (None, [c])).
    { eapply split_describes; [| | |exact E].
      - clear -F N. induction F as [|o f outs fs H F IH]; constructor.
        + destruct H as [_ H]. cbn [fst snd] in H. rewrite (N o) in H by (left; reflexivity). exact H.
        + apply IH. intros o' Ho'. apply N. right; exact Ho'.
      - intros o rs Ho X. rewrite (N o Ho) in X. discriminate.
      - intros o o' _ Ho' _. exact (N o' Ho'). }
    eapply describes_weaken; [|exact D]. intros e _. split; [exact I|]. intros (o & rs & q & Ho & X & _). rewrite (N o Ho) in X. discriminate.
  - destruct (fields_describe _ _ _ _ F) as (bad & D).
    assert (K : forall o, In o outs -> exists f, field_of (e0, o) f e0 r).
    { intros o Ho. clear -F Ho. induction F as [|o' f outs fs H F IH]; [destruct Ho|]. destruct Ho as [->|Ho]; [exists f; exact H|exact (IH Ho)]. }
    assert (T : forall o rs, In o outs -> fst o = Some rs -> tidy rs /\ length rs = length (snd o) /\ 0 < r).
    { intros o rs Ho X. destruct (K o Ho) as (f & _ & H). cbn [fst snd] in H. rewrite X in H. destruct H as (H1 & H2 & b & H3).
      unfold describes in H3. rewrite X in H3. tauto. }
    destruct (split_ok ws outs) as (out & E).
    { intros o Ho. destruct (P o Ho) as (rs & q & X & Hq & _). rewrite X. destruct (T o rs Ho X) as (_ & L & _).
      destruct rs as [|r0 rs]; [destruct Hq|]. destruct (snd o) as [|c cs]; [discriminate|]. discriminate. }
    { destruct outs as [|o outs]; [congruence|]. destruct (P o (or_introl eq_refl)) as (rs & q & X & Hq & Q).
      exists o, rs, q. split; [left; reflexivity|]. auto. }
    exists out. split; [exact E|]. split; [reflexivity|]. cbn [fst snd].
    assert (D2 : describes (fun e => ~ In e bad /\ ~ is_break outs e) (wsum ws fs) e0 r out).
    { eapply split_describes; [exact D| | |exact E].
      - intros o rs Ho X. exact (proj1 (T o rs Ho X)).
      - intros o o' Ho _ X. destruct (P o Ho) as (rs & q & Y & _). congruence. }
    assert (Rf : fst out = match refine (breakpoints outs) with [] => None | _ => Some (refine (breakpoints outs)) end).
    { unfold split_marin in E. cbv zeta in E. destruct (M_Laws2.mapM (law_map _) outs) as [m|]; cbn [bind] in E; [|discriminate].
      destruct (M_Laws2.mapM (sum_coeffs _ _) _) as [m'|]; cbn [bind] in E; [|discriminate]. injection E as <-. reflexivity. }
    assert (D3 : describes (fun e => ~ In e (bad ++ breakpoints outs)) (wsum ws fs) e0 r out).
    { eapply describes_weaken; [|exact D2]. intros e He. split; intros X; apply He; apply in_or_app; [left; exact X|right; apply breakpoints_in; exact X]. }
    destruct outs as [|o outs]; [congruence|]. destruct (P o (or_introl eq_refl)) as (rs & q & X & Hq & Q).
    assert (Pr : 0 < r) by (apply (T o rs (or_introl eq_refl) X)).
    assert (NR : refine (breakpoints (o :: outs)) <> []).
    { assert (B1 : In (fst q) (breakpoints (o :: outs))) by (apply breakpoints_in; exists o, rs, q; repeat split; auto; left; reflexivity).
      assert (B2 : In (snd q) (breakpoints (o :: outs))) by (apply breakpoints_in; exists o, rs, q; repeat split; auto; left; reflexivity).
      destruct (breakpoints (o :: outs)) as [|a [|b t]]; [destruct B1| |discriminate].
      destruct B1 as [->|[]]. destruct B2 as [B2|[]]. exfalso. lra. }
    rewrite Rf. destruct (refine (breakpoints (o :: outs))) as [|p0 ps] eqn:Er; [congruence|].
    split; [exact Pr|]. split; [rewrite <- Er; apply refine_tidy; apply breakpoints_sorted|]. eexists. exact D3.
Qed.
