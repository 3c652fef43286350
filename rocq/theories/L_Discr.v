(** Lemmas on the default discretisation. *)
From Verif Require Import Base M_Laws M_Laws2 M_Section M_Discr S_Laws S_Laws2 S_Discr L_Laws L_Laws2 L_Laws4 L_Laws5 L_LawsB L_LawsC.

Lemma np_max_zero n : np_max (map (fun _ : nat => 0) (seq 0 n)) = 0.
Proof.
  destruct n; [reflexivity|]. cbn [seq map np_max]. generalize (seq 1 n). intros l.
  induction l as [|a l IH]; [reflexivity|]. cbn [map fold_left]. rewrite Rmax_left by lra. exact IH.
Qed.
Lemma np_max_all_zero l : (forall a, In a l -> a = 0) -> np_max l = 0.
Proof.
  destruct l as [|a l]; [reflexivity|]. intros H. cbn [np_max]. rewrite (H a) by (left; reflexivity).
  assert (H' : forall b, In b l -> b = 0) by (intros; apply H; right; assumption). clear H.
  induction l as [|b l IH]; [reflexivity|]. cbn [fold_left]. rewrite (H' b) by (left; reflexivity).
  rewrite Rmax_left by lra. apply IH. intros; apply H'; right; assumption.
Qed.
Lemma fold_max_le l : forall a m, a <= m -> (forall b, In b l -> b <= m) -> fold_left Rmax l a <= m.
Proof.
  induction l as [|b l IH]; intros a m Ha H; [exact Ha|]. cbn [fold_left]. apply IH.
  - apply Rmax_lub; [exact Ha|]. apply H. left; reflexivity.
  - intros; apply H; right; assumption.
Qed.
Lemma np_max_le l m : l <> [] -> (forall b, In b l -> b <= m) -> np_max l <= m.
Proof.
  destruct l as [|a l]; [congruence|]. intros _ H. apply fold_max_le; [apply H; left; reflexivity|].
  intros; apply H; right; assumption.
Qed.
Lemma find_zero x y : (forall a, In a y -> a = 0) -> find_x_lim x y = None.
Proof.
  intros H. unfold find_x_lim. replace (filter _ _) with (@nil (R * R)); [reflexivity|].
  revert y H. induction x as [|a x IH]; intros y H; [reflexivity|]. destruct y as [|b y]; [reflexivity|].
  cbn [combine filter snd]. rewrite (H b) by (left; reflexivity). destruct (Reqb_spec 0 0); [|congruence]. cbn [negb].
  apply IH. intros; apply H; right; assumption.
Qed.
Lemma filter_app_last {A} (p : A -> bool) l a : p a = true -> filter p (l ++ [a]) = filter p l ++ [a].
Proof. intros H. rewrite filter_app. cbn [filter]. rewrite H. reflexivity. Qed.
Lemma combine_app1 {A B} (x : list A) : forall (y : list B) a b, List.length x = List.length y ->
  combine (x ++ [a]) (y ++ [b]) = combine x y ++ [(a, b)].
Proof.
  induction x as [|c x IH]; intros [|d y] a b L; try discriminate L; [reflexivity|].
  cbn [app combine]. f_equal. apply IH. injection L. auto.
Qed.
Lemma find_last x y a b : List.length x = List.length y -> b <> 0 -> find_x_lim (x ++ [a]) (y ++ [b]) = Some a.
Proof.
  intros L N. unfold find_x_lim. rewrite combine_app1 by exact L. rewrite filter_app_last.
  2:{ cbn [snd]. destruct (Reqb_spec b 0); [congruence|reflexivity]. }
  destruct (filter _ _ ++ [(a, b)]) eqn:E. { destruct (filter _ _); discriminate E. }
  rewrite <- E, last_last. reflexivity.
Qed.

Lemma cut_zero l : (forall a, In a l -> a = 0) -> forall a, In a (cut_small l) -> a = 0.
Proof.
  intros H a I. unfold cut_small in I. cbv zeta in I. apply in_map_iff in I. destruct I as (b & <- & J).
  destruct (Rltb _ _); [reflexivity|apply H; exact J].
Qed.
Lemma linspace_range b n e : (2 <= n)%nat -> In e (linspace 0 b n true) -> exists w, 0 <= w <= 1 /\ e = b * w.
Proof.
  intros N I. unfold linspace in I. apply in_map_iff in I. destruct I as (i & <- & J). apply in_seq in J.
  assert (I1 : 1 <= INR (n - 1)) by (apply (le_INR 1); lia).
  assert (I2 : INR n - 1 = INR (n - 1)) by (rewrite minus_INR by lia; reflexivity).
  assert (I3 : 0 <= INR i <= INR (n - 1)) by (split; [apply pos_INR|apply le_INR; lia]).
  destruct (andb _ _). { exists 1. lra. }
  exists (INR i / INR (n - 1)). rewrite I2. split; [|field; lra].
  split; [apply Rmult_le_pos; [lra|left; apply Rinv_0_lt_compat; lra]|].
  apply Rmult_le_reg_r with (INR (n - 1)); [lra|]. unfold Rdiv. rewrite Rmult_assoc, Rinv_l by lra. lra.
Qed.
Lemma linspace_snoc b n : (1 < n)%nat -> exists l, linspace 0 b n true = l ++ [b].
Proof.
  intros N. destruct n as [|n]; [lia|]. unfold linspace. rewrite seq_S, map_app. cbn [map].
  replace (0 + n =? S n - 1)%nat with true by (symmetry; apply Nat.eqb_eq; lia).
  replace (1 <? S n)%nat with true by (symmetry; apply Nat.ltb_lt; lia). cbn [andb]. eexists. reflexivity.
Qed.

(** The eleven nodes. *)
Definition nodes (u : R) : list R := map (fun i => u * (INR (10 - i) / 10)) (seq 0 11).
Lemma nodes_nth u i : (i < 11)%nat -> nth i (nodes u) 0 = u * (INR (10 - i) / 10).
Proof.
  intros H. unfold nodes. rewrite (nth_indep _ 0 ((fun i => u * (INR (10 - i) / 10)) 0%nat)) by (rewrite map_length, seq_length; exact H).
  rewrite (map_nth (fun i => u * (INR (10 - i) / 10))), seq_nth by exact H. reflexivity.
Qed.
Lemma nodes_ynth u s i : (i < 11)%nat -> nth i (map s (nodes u)) 0 = s (u * (INR (10 - i) / 10)).
Proof.
  intros H. rewrite (nth_indep _ 0 (s 0)) by (rewrite map_length; unfold nodes; rewrite map_length, seq_length; exact H).
  rewrite map_nth. f_equal. apply nodes_nth. exact H.
Qed.
Lemma nodes_length u : List.length (nodes u) = 11%nat.
Proof. reflexivity. Qed.
Lemma nodes_increasing u : u < 0 -> increasing (nodes u).
Proof.
  intros U i j H. rewrite nodes_length in H. rewrite !nodes_nth by lia.
  assert (INR (10 - j) < INR (10 - i)) by (apply lt_INR; lia). nra.
Qed.
Lemma nodes_last u : last (nodes u) 0 = 0.
Proof. cbn. lra. Qed.
Lemma nodes_eq u : linspace (- - u) 0 10 false ++ [0] = nodes u.
Proof.
  unfold linspace, nodes. rewrite (seq_S 10 0), map_app. f_equal; [|cbn; f_equal; lra].
  apply map_ext_in. intros i I. apply in_seq in I. cbn [andb]. rewrite minus_INR by lia. rewrite Ropp_involutive.
  change (INR 10) with (IZR (Z.of_nat 10)) || rewrite INR_IZR_INZ with (n := 10%nat). cbn [Z.of_nat Pos.of_succ_nat Pos.succ]. field.
Qed.

Section Compression.
Variables (arr : list R -> list R * list R) (s : R -> R) (u : R).
Hypothesis Harr : forall eps, arr eps = (map s eps, prep_arr (u, 100) eps).
Hypothesis Hu : u < 0.
Hypothesis Htol : tol u < - u / 10.
Hypothesis Hpos : forall e, 0 <= e <= 1 -> s e = 0.
Hypothesis Hend : s u < 0.
Hypothesis Hcut : forall e, u <= e <= 0 -> - s e <= - s u * 1000000.

Lemma sep : separated (u, 100).
Proof.
  unfold separated, far. cbn [fst snd]. assert (T := Htol). unfold tol in *. rewrite (Rabs_left u) in * by lra. rewrite Rabs_right by lra. lra.
Qed.
Lemma node_fixed : prep_arr (u, 100) (nodes u) = nodes u.
Proof.
  rewrite prep_arr_map by exact sep. rewrite <- (map_id (nodes u)) at 2. apply map_ext_in. intros e I.
  unfold nodes in I. apply in_map_iff in I. destruct I as (i & <- & J). apply in_seq in J.
  assert (F1 : forall x, x <= 0 -> far 100 x).
  { intros x Hx. unfold far, tol. rewrite (Rabs_right 100), (Rabs_left (x - 100)) by lra. lra. }
  assert (I0 : 0 <= INR (10 - i) <= 10).
  { split; [apply pos_INR|]. replace 10 with (INR 10) by (cbn; lra). apply le_INR. lia. }
  destruct i as [|i].
  - replace (u * (INR (10 - 0) / 10)) with u by (cbn; lra). apply prep_min; cbn [fst snd]; [apply F1; lra|].
    unfold near. replace (u - u) with 0 by ring. rewrite Rabs_R0. unfold tol. pose proof (Rabs_pos u). lra.
  - apply prep_far; cbn [fst snd]; [apply F1; nra|].
    unfold far. assert (I1 : INR (10 - S i) <= 9).
    { replace 9 with (INR 9) by (cbn; lra). apply le_INR. lia. }
    rewrite Rabs_right; nra.
Qed.
Lemma discretize_ok : exists l, discretize arr (u, 100) = Ok l /\
  ud_x l = nodes u /\ ud_y l = map s (nodes u) /\ ud_ult l = (u, 0).
Proof.
  unfold discretize. rewrite Rmin_right by lra.
  assert (N : (2 <= Z.to_nat 10000)%nat) by lia. set (n := Z.to_nat 10000) in *. clearbody n.
  rewrite !Harr. cbv beta zeta iota.
  rewrite (find_zero (prep_arr (u, 100) (linspace 0 1 n true))).
  2:{ apply cut_zero. intros a I. apply in_map_iff in I. destruct I as (e & <- & J).
      destruct (linspace_range _ _ _ N J) as (w & W & ->). apply Hpos. lra. }
  replace (linspace 0 (- u) 1 true) with [0] by (unfold linspace; cbn [seq map andb Nat.eqb Nat.ltb Nat.leb Nat.sub INR]; rewrite Rmult_0_l, Rplus_0_r; reflexivity).
  assert (G : forall e, In e (linspace 0 u n true) -> u <= e <= 0).
  { intros e J. destruct (linspace_range _ _ _ N J) as (w & W & ->). nra. }
  destruct (linspace_snoc u n ltac:(lia)) as (l0 & E0). rewrite E0 in G |- *.
  rewrite (prep_arr_map (u, 100) (l0 ++ [u]) sep). rewrite !map_app. cbn [map].
  assert (P : prep (u, 100) u = u).
  { apply prep_min; cbn [fst snd].
    - unfold far, tol. rewrite (Rabs_right 100), (Rabs_left (u - 100)) by lra. lra.
    - unfold near. replace (u - u) with 0 by ring. rewrite Rabs_R0. unfold tol. pose proof (Rabs_pos u). lra. }
  rewrite P. unfold cut_small. cbv zeta. rewrite map_app. cbn [map].
  assert (M : np_max (map Ropp (map s l0) ++ [- s u]) <= - s u * 1000000).
  { apply np_max_le. { destruct (map Ropp (map s l0)); discriminate. }
    intros b I. apply in_app_or in I. destruct I as [I | [<- | []]]; [|lra].
    apply in_map_iff in I. destruct I as (c & <- & I). apply in_map_iff in I. destruct I as (e & <- & I).
    apply Hcut. apply G. apply in_or_app. left. exact I. }
  destruct (Rltb_spec (- s u) (np_max (map Ropp (map s l0) ++ [- s u]) * / 1000000)); [exfalso; lra|].
  rewrite find_last; [|rewrite !map_length; reflexivity|lra].
  
  change [s 0] with (map s [0]). rewrite <- map_app. rewrite nodes_eq, node_fixed.
  assert (Z : (exists a, In a (nodes u) /\ a < 0)).
  { exists u. split; [left; cbn; lra|exact Hu]. }
  unfold ud_init. rewrite map_length, Nat.eqb_refl. cbn [negb]. rewrite (ud_base_neg _ _ Z).
  change (3 <? 0)%nat with false. cbv iota. destruct (nodes u) as [|a0 nr] eqn:E; [discriminate E|]. cbn [ud_extend bind].
  eexists. split; [reflexivity|]. cbn [ud_x ud_y fst snd]. split; [reflexivity|]. split; [reflexivity|].
  unfold ud_ult. cbn [ud_un ud_up]. rewrite <- E, nodes_last. f_equal. unfold nodes in E. injection E as E _. rewrite <- E. cbn. lra.
Qed.

Lemma poly_interp : polygon_at_tenths u s (interp (nodes u) (map s (nodes u))).
Proof.
  split.
  - intros e [H | H].
    + apply interp_left. rewrite nodes_nth by lia. replace (u * (INR (10 - 0) / 10)) with u by (cbn; lra). exact H.
    + apply interp_right; [rewrite map_length; reflexivity|apply nodes_increasing; exact Hu|rewrite nodes_last; exact H].
  - intros k K w W. rewrite S_INR.
    assert (A1 : nth (9 - k) (nodes u) 0 = u * ((INR k + 1) / 10)).
    { rewrite nodes_nth by lia. replace (10 - (9 - k))%nat with (S k) by lia. rewrite S_INR. reflexivity. }
    assert (A2 : nth (S (9 - k)) (nodes u) 0 = u * (INR k / 10)).
    { rewrite nodes_nth by lia. replace (10 - S (9 - k))%nat with k by lia. reflexivity. }
    rewrite (interp_seg _ _ (9 - k)); [|rewrite map_length; reflexivity|apply nodes_increasing; exact Hu|rewrite nodes_length; lia|rewrite A1, A2; nra].
    unfold chord. rewrite A1, A2. rewrite !nodes_ynth by lia.
    replace (10 - (9 - k))%nat with (S k) by lia. replace (10 - S (9 - k))%nat with k by lia. rewrite S_INR. field. lra.
Qed.
Lemma default_describes e0 e1 : exists f out, default_marin arr (u, 100) (e0, e1) = Ok out /\
  polygon_at_tenths u s f /\ describes (settled (u, 0)) f e0 e1 out.
Proof.
  destruct discretize_ok as (l & E & X & Y & U). unfold default_marin. rewrite E. cbn [bind].
  exists (interp (nodes u) (map s (nodes u))). eexists. split; [reflexivity|]. split; [exact poly_interp|].
  assert (D : describes (settled (ud_ult l)) (ud_stress l) e0 e1 (snd (ud_marin l (e0, e1)))).
  { apply describes_stored; rewrite ?X, ?Y; [apply nodes_increasing; exact Hu|rewrite map_length; reflexivity|rewrite nodes_length; lia]. }
  rewrite U in D. revert D. unfold describes. destruct (fst _) as [rs|].
  - intros [L D]. split; [exact L|]. intros y S0. destruct (D y S0) as [D1 D2].
    rewrite ud_stress_settled in D1, D2 by (rewrite U; exact S0). rewrite X, Y in D1, D2. split; assumption.
  - intros (c & L & D). exists c. split; [exact L|]. intros y S0. specialize (D y S0).
    rewrite ud_stress_settled in D by (rewrite U; exact S0). rewrite X, Y in D. exact D.
Qed.

Lemma between_tenths e : ~ In e (nodes u) -> u < e < 0 ->
  exists i, (i < 10)%nat /\ nth i (nodes u) 0 < e < nth (S i) (nodes u) 0.
Proof.
  intros N H. destruct (locate (nodes u) e) as (i & I & B).
  - apply nodes_increasing. exact Hu.
  - rewrite nodes_last, nodes_nth by lia. replace (u * (INR (10 - 0) / 10)) with u by (cbn; lra). lra.
  - rewrite nodes_length. lia.
  - exists i. rewrite nodes_length in I. split; [lia|]. split.
    + destruct (proj1 B) as [?|Q]; [assumption|]. exfalso. apply N. rewrite <- Q. apply nth_In. rewrite nodes_length. lia.
    + destruct (proj2 B) as [?|Q]; [assumption|]. exfalso. apply N. rewrite Q. apply nth_In. rewrite nodes_length. lia.
Qed.
Lemma default_describes_tangent e0 e1 : exists f out, default_marin_tangent arr (u, 100) (e0, e1) = Ok out /\
  slope_at_tenths u s f /\ describes (fun e => settled (u, 0) e /\ ~ tenth_of u e) f e0 e1 out.
Proof.
  destruct discretize_ok as (l & E & X & Y & U). unfold default_marin_tangent. rewrite E. cbn [bind].
  exists (ud_tangent l). eexists. split; [reflexivity|]. split.
  - split.
    + intros e H. apply ud_tangent_out. rewrite X, nodes_last, nodes_nth by lia.
      replace (u * (INR (10 - 0) / 10)) with u by (cbn; lra). exact H.
    + intros k K w W.
      assert (A1 : nth (9 - k) (nodes u) 0 = u * ((INR k + 1) / 10)).
      { rewrite nodes_nth by lia. replace (10 - (9 - k))%nat with (S k) by lia. rewrite S_INR. reflexivity. }
      assert (A2 : nth (S (9 - k)) (nodes u) 0 = u * (INR k / 10)).
      { rewrite nodes_nth by lia. replace (10 - S (9 - k))%nat with k by lia. reflexivity. }
      rewrite (ud_tangent_seg l (9 - k)); rewrite ?X, ?Y;
        [|apply nodes_increasing; exact Hu|rewrite map_length; reflexivity|rewrite nodes_length; lia|rewrite A1, A2; nra].
      rewrite A1, A2. rewrite !nodes_ynth by lia.
      replace (10 - (9 - k))%nat with (S k) by lia. replace (10 - S (9 - k))%nat with k by lia. field. split; lra.
  - eapply describes_weaken; [|apply ud_describes_tangent; rewrite ?X, ?Y; [apply nodes_increasing; exact Hu|rewrite map_length; reflexivity|rewrite nodes_length; lia]].
    intros e [S0 N]. rewrite U, X. split; [exact S0|]. intros I. apply N. unfold nodes in I. apply in_map_iff in I.
    destruct I as (i & <- & J). apply in_seq in J. exists (10 - i)%nat. split; [lia|reflexivity].
Qed.
End Compression.

Lemma polygon_ext u s s' f : (forall k, (k <= 10)%nat -> s (u * (INR k / 10)) = s' (u * (INR k / 10))) ->
  polygon_at_tenths u s f -> polygon_at_tenths u s' f.
Proof.
  intros H [P1 P2]. split; [exact P1|]. intros k K w W. rewrite (P2 k K w W), !H by lia. reflexivity.
Qed.
Lemma slope_ext u s s' f : (forall k, (k <= 10)%nat -> s (u * (INR k / 10)) = s' (u * (INR k / 10))) ->
  slope_at_tenths u s f -> slope_at_tenths u s' f.
Proof.
  intros H [P1 P2]. split; [exact P1|]. intros k K w W. rewrite (P2 k K w W), !H by lia. reflexivity.
Qed.


Lemma tol_far u e : u < 0 -> tol u < - u / 10 -> 0 <= e -> far u e.
Proof. intros H T E. unfold far. rewrite Rabs_right by lra. lra. Qed.
Lemma tol_settled u : u < 0 -> settled (u, 100) u.
Proof.
  intros H. right. right. cbn [fst snd]. split; [reflexivity|]. unfold far, tol. rewrite (Rabs_right 100), (Rabs_left (u - 100)) by lra. lra.
Qed.
Lemma pr_default l e0 e1 : pr_wf l -> pr_fc l < 0 -> tol (pr_eu l) < - pr_eu l / 10 ->
  let arr := fun a => (pr_stress_arr l a, prep_arr (pr_ult l) a) in
  (exists f out, default_marin arr (pr_ult l) (e0, e1) = Ok out /\
     polygon_at_tenths (pr_eu l) (pr_stress l) f /\ describes (settled (pr_eu l, 0)) f e0 e1 out) /\
  (exists f out, default_marin_tangent arr (pr_ult l) (e0, e1) = Ok out /\
     slope_at_tenths (pr_eu l) (pr_stress l) f /\
     describes (fun e => settled (pr_eu l, 0) e /\ ~ tenth_of (pr_eu l) e) f e0 e1 out).
Proof.
  intros W F T arr. unfold pr_ult in *. assert (U : pr_eu l < 0) by (destruct W as (? & ? & ? & ?); lra).
  assert (A : forall eps, arr eps = (map (pr_stress l) eps, prep_arr (pr_eu l, 100) eps)).
  { intros eps. unfold arr, pr_ult. rewrite pr_stress_arr_map; [reflexivity|exact W|apply sep; assumption]. }
  assert (P : forall e, 0 <= e <= 1 -> pr_stress l e = 0).
  { intros e E. destruct (Req_dec e 0) as [-> | N]; [apply pr_zero; [exact W|apply tol_far; lra]|].
    apply pr_tension; [exact W|lra|apply tol_far; lra]. }
  assert (Q : pr_stress l (pr_eu l) = pr_fc l).
  { apply pr_plateau; [exact W|apply tol_settled; exact U|destruct W as (? & ? & ? & ?); lra]. }
  assert (B : forall e, - pr_stress l e <= - pr_stress l (pr_eu l) * 1000000).
  { intros e. rewrite Q, pr_stress_raw by exact W. destruct (pr_raw_bounds l (prep (pr_ult l) e) W). lra. }
  split; [apply default_describes|apply default_describes_tangent]; try assumption; try (rewrite Q; exact F); intros; apply B.
Qed.
Lemma popovics_default l e0 e1 : popovics_wf l -> po_fc l < 0 -> tol (po_ecu l) < - po_ecu l / 10 ->
  - po_fc l <= - popovics_stress l (po_ecu l) * 1000000 ->
  let arr := fun a => (popovics_stress_arr l a, prep_arr (popovics_ult l) a) in
  (exists f out, default_marin arr (popovics_ult l) (e0, e1) = Ok out /\
     polygon_at_tenths (po_ecu l) (popovics_stress l) f /\ describes (settled (po_ecu l, 0)) f e0 e1 out) /\
  (exists f out, default_marin_tangent arr (popovics_ult l) (e0, e1) = Ok out /\
     slope_at_tenths (po_ecu l) (popovics_stress l) f /\
     describes (fun e => settled (po_ecu l, 0) e /\ ~ tenth_of (po_ecu l) e) f e0 e1 out).
Proof.
  intros W F T Cc arr. unfold popovics_ult in *. assert (U : po_ecu l < 0) by apply W.
  assert (A : forall eps, arr eps = (map (popovics_stress l) eps, prep_arr (po_ecu l, 100) eps)).
  { intros eps. unfold arr, popovics_ult. rewrite popovics_stress_arr_map; [reflexivity|apply sep; assumption]. }
  assert (P : forall e, 0 <= e <= 1 -> popovics_stress l e = 0).
  { intros e E. destruct (Req_dec e 0) as [-> | N]; [|apply popovics_tension; [exact W|lra|apply tol_far; lra]].
    rewrite popovics_stress_raw. rewrite prep_far; cbn [popovics_ult fst snd].
    - unfold popovics_cut. destruct (orb _ _); [reflexivity|]. unfold popovics_raw. unfold Rdiv. rewrite Rmult_0_l, Rmult_0_r, !Rmult_0_l. reflexivity.
    - unfold far, tol. rewrite (Rabs_right 100), (Rabs_left (0 - 100)) by lra. lra.
    - apply tol_far; lra. }
  assert (B : forall e, - popovics_stress l e <= - popovics_stress l (po_ecu l) * 1000000).
  { intros e. destruct (popovics_bounds l e W). lra. }
  assert (Q : popovics_stress l (po_ecu l) < 0) by lra.
  split; [apply default_describes|apply default_describes_tangent]; try assumption; intros; apply B.
Qed.
Definition sargin_arr1 (l : sargin) (e : R) : R :=
  let x := prep (sargin_ult l) e in if Rltb 0 x then 0 else if Rltb x (sa_ecu1 l) then 0 else sargin_raw l x.
Lemma sargin_arr1_map l eps : separated (sargin_ult l) -> sargin_stress_arr l eps = map (sargin_arr1 l) eps.
Proof.
  intros Hs. unfold sargin_stress_arr. rewrite (prep_arr_map _ _ Hs). cbv zeta. arr_norm. apply map_ext. intros e.
  unfold sargin_arr1. cbv zeta. destruct (Rltb 0 _); [reflexivity|]. destruct (Rltb _ _); reflexivity.
Qed.
Lemma sargin_arr1_val l e : sargin_wf l -> sa_ecu1 l <= prep (sargin_ult l) e <= 0 ->
  sargin_arr1 l e = val (sargin_stress l e) /\ sargin_stress l e = Ok (sargin_raw l (prep (sargin_ult l) e)).
Proof.
  intros W H. rewrite (sargin_stress_in _ _ W H). cbn [val]. split; [|reflexivity]. unfold sargin_arr1. cbv zeta.
  destruct (Rltb_spec 0 (prep (sargin_ult l) e)); [exfalso; lra|]. destruct (Rltb_spec (prep (sargin_ult l) e) (sa_ecu1 l)); [exfalso; lra|reflexivity].
Qed.
Lemma prep_in u e : u < 0 -> u <= e <= 0 -> u <= prep (u, 100) e <= 0.
Proof.
  intros U E. assert (F : far 100 e) by (unfold far, tol; rewrite (Rabs_right 100), (Rabs_left (e - 100)) by lra; lra).
  destruct (Rle_or_lt (Rabs (e - u)) (tol u)) as [N | N].
  - rewrite prep_min by assumption. cbn [fst]. lra.
  - rewrite prep_far by assumption. exact E.
Qed.
Lemma sargin_default l e0 e1 : sargin_wf l -> sa_fc l < 0 -> tol (sa_ecu1 l) < - sa_ecu1 l / 10 ->
  - sa_fc l <= - sargin_raw l (sa_ecu1 l) * 1000000 ->
  let arr := fun a => (sargin_stress_arr l a, prep_arr (sargin_ult l) a) in
  (exists f out, default_marin arr (sargin_ult l) (e0, e1) = Ok out /\
     polygon_at_tenths (sa_ecu1 l) (fun e => val (sargin_stress l e)) f /\ describes (settled (sa_ecu1 l, 0)) f e0 e1 out) /\
  (exists f out, default_marin_tangent arr (sargin_ult l) (e0, e1) = Ok out /\
     slope_at_tenths (sa_ecu1 l) (fun e => val (sargin_stress l e)) f /\
     describes (fun e => settled (sa_ecu1 l, 0) e /\ ~ tenth_of (sa_ecu1 l) e) f e0 e1 out).
Proof.
  intros W F T Cc arr. unfold sargin_ult in *. assert (U : sa_ecu1 l < 0) by apply W.
  assert (A : forall eps, arr eps = (map (sargin_arr1 l) eps, prep_arr (sa_ecu1 l, 100) eps)).
  { intros eps. unfold arr, sargin_ult. rewrite sargin_arr1_map; [reflexivity|apply sep; assumption]. }
  assert (P : forall e, 0 <= e <= 1 -> sargin_arr1 l e = 0).
  { intros e E. unfold sargin_arr1, sargin_ult. cbv zeta. rewrite prep_far; cbn [fst snd].
    - destruct (Rltb_spec 0 e); [reflexivity|]. destruct (Rltb_spec e (sa_ecu1 l)); [reflexivity|].
      replace e with 0 by lra. unfold sargin_raw. cbv zeta. unfold Rdiv. rewrite !Rmult_0_l. ring.
    - unfold far, tol. rewrite (Rabs_right 100), (Rabs_left (e - 100)) by lra. lra.
    - apply tol_far; lra. }
  assert (V : forall e, sa_ecu1 l <= e <= 0 -> sargin_arr1 l e = val (sargin_stress l e) /\
              sargin_stress l e = Ok (sargin_raw l (prep (sargin_ult l) e))).
  { intros e E. apply sargin_arr1_val; [exact W|]. apply prep_in; assumption. }
  assert (Q : sargin_arr1 l (sa_ecu1 l) = sargin_raw l (sa_ecu1 l)).
  { destruct (V (sa_ecu1 l) ltac:(lra)) as [-> ->]. cbn [val]. f_equal. apply settled_prep. apply tol_settled. exact U. }
  assert (B : forall e, sa_ecu1 l <= e <= 0 -> - sargin_arr1 l e <= - sargin_arr1 l (sa_ecu1 l) * 1000000).
  { intros e E. rewrite Q. destruct (V e E) as [-> Hv]. rewrite Hv. cbn [val]. destruct (sargin_bounds l e _ W Hv). lra. }
  assert (X : forall k, (k <= 10)%nat -> sargin_arr1 l (sa_ecu1 l * (INR k / 10)) = (fun e => val (sargin_stress l e)) (sa_ecu1 l * (INR k / 10))).
  { intros k K. apply V. assert (0 <= INR k <= 10). { split; [apply pos_INR|]. replace 10 with (INR 10) by (cbn; lra). apply le_INR. lia. } nra. }
  assert (Q0 : sargin_arr1 l (sa_ecu1 l) < 0) by (rewrite Q; lra).
  split.
  - destruct (default_describes arr (sargin_arr1 l) (sa_ecu1 l) A U T P Q0 B e0 e1) as (f & out & E1 & E2 & E3).
    exists f, out. split; [exact E1|]. split; [|exact E3]. eapply polygon_ext; [exact X|exact E2].
  - destruct (default_describes_tangent arr (sargin_arr1 l) (sa_ecu1 l) A U T P Q0 B e0 e1) as (f & out & E1 & E2 & E3).
    exists f, out. split; [exact E1|]. split; [|exact E3]. eapply slope_ext; [exact X|exact E2].
Qed.
Lemma classic_range (rs : list (R * R)) e : (exists r, In r rs /\ fst r <= e <= snd r) \/ (forall r, In r rs -> ~ (fst r <= e <= snd r)).
Proof.
  induction rs as [|r rs IH]; [right; intros ? []|].
  destruct (Rle_or_lt (fst r) e) as [A | A]; [destruct (Rle_or_lt e (snd r)) as [B | B]|].
  - left. exists r. split; [left; reflexivity|lra].
  - destruct IH as [(q & I & H) | N]; [left; exists q; split; [right; exact I|exact H]|].
    right. intros q [<- | I]; [lra|apply N; exact I].
  - destruct IH as [(q & I & H) | N]; [left; exists q; split; [right; exact I|exact H]|].
    right. intros q [<- | I]; [lra|apply N; exact I].
Qed.
Lemma describes_unique ok f g e0 e1 out y : describes ok f e0 e1 out -> describes ok g e0 e1 out ->
  ok (e0 + e1 * y) -> f (e0 + e1 * y) = g (e0 + e1 * y).
Proof.
  unfold describes. destruct (fst out) as [rs|].
  - intros [L A] [_ B] K. destruct (A y K) as [A1 A2]. destruct (B y K) as [B1 B2].
    destruct (classic_range rs (e0 + e1 * y)) as [(r & I & H) | N].
    + destruct (In_nth rs r (0, 0) I) as (i & Hi & Hn).
      assert (J : In (r, nth i (snd out) []) (combine rs (snd out))).
      { rewrite <- Hn. rewrite <- combine_nth by exact L. apply nth_In. rewrite combine_length, <- L, Nat.min_id. exact Hi. }
      rewrite <- (A1 _ _ J H). apply (B1 _ _ J H).
    + rewrite A2, B2 by exact N. reflexivity.
  - intros (c & Ec & A) (c' & Ec' & B) K. rewrite Ec in Ec'. injection Ec' as <-. rewrite <- A by exact K. apply B. exact K.
Qed.
