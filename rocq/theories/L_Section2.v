From Coq Require Import FunctionalExtensionality.
From Verif Require Import Base M_Marin S_Marin L_Marin M_Laws M_Laws2 M_Fiber S_Fiber L_Fiber M_MarinInt S_MarinInt L_MarinInt3 M_Section S_Section L_Section.

Lemma total_eq f h : total f h -> f = fun x => Ok (h x).
Proof. intros T. apply functional_extensionality. exact T. Qed.

(** * Where the searches go wrong *)
(** Without a change of sign ahead, the bisection runs to its far end. *)
Lemma bisect_runaway k : forall fuel f h n xa xb last L, (k < fuel)%nat -> total f h ->
  (forall x, Rmin xa xb <= x <= Rmax xa xb -> Rabs (h x - h xb) <= L * Rabs (x - xb)) ->
  (forall x y, Rmin xa xb <= x <= Rmax xa xb -> Rmin xa xb <= y <= Rmax xa xb -> 0 <= (h x - n) * (h y - n)) ->
  (last = None -> 1/100 < Rabs ((h xa - n) - (h xb - n))) -> (last = None \/ last = Some xa) ->
  L * Rabs (xa - xb) <= 2 ^ k / 100 ->
  exists c, bisect fuel f n xa (h xa - n) xb (h xb - n) last = Ok c /\ Rabs (h c - h xb) <= 1/100.
Proof.
  induction k as [|k IH]; intros fuel f h n xa xb last L HF T LP SG NL HL W; (destruct fuel as [|fuel]; [lia|]).
  - cbn [bisect]. destruct (Rltb_spec (1/100) (Rabs (h xa - n - (h xb - n)))) as [Q|Q].
    + exfalso. assert (IA : Rmin xa xb <= xa <= Rmax xa xb) by (unfold Rmin, Rmax; destruct (Rle_dec xa xb); lra).
      pose proof (LP xa IA) as X. replace (h xa - n - (h xb - n)) with (h xa - h xb) in Q by ring. cbn in W. lra.
    + destruct HL as [-> | ->]; [exfalso; apply Q, NL; reflexivity|]. exists xa. split; [reflexivity|].
      replace (h xa - h xb) with (h xa - n - (h xb - n)) by ring. lra.
  - cbn [bisect]. destruct (Rltb_spec (1/100) (Rabs (h xa - n - (h xb - n)))) as [Q|Q].
    + rewrite (T ((xa + xb) / 2)). cbn [bind]. set (xc := (xa + xb) / 2).
      assert (IN : Rmin xa xb <= xc <= Rmax xa xb) by (unfold xc, Rmin, Rmax; destruct (Rle_dec xa xb); lra).
      assert (IA : Rmin xa xb <= xa <= Rmax xa xb) by (unfold Rmin, Rmax; destruct (Rle_dec xa xb); lra).
      pose proof (SG xc xa IN IA) as X. destruct (Rltb_spec ((h xc - n) * (h xa - n)) 0) as [M|M]; [lra|].
      apply (IH fuel f h n xc xb (Some xc) L); [lia|exact T| | |discriminate|now right|].
      { intros x Hx. apply LP. unfold xc, Rmin, Rmax in *. destruct (Rle_dec xa xb), (Rle_dec ((xa + xb) / 2) xb); lra. }
      { intros x y Hx Hy. apply SG.
        - unfold xc, Rmin, Rmax in *. destruct (Rle_dec xa xb), (Rle_dec ((xa + xb) / 2) xb); lra.
        - unfold xc, Rmin, Rmax in *. destruct (Rle_dec xa xb), (Rle_dec ((xa + xb) / 2) xb); lra. }
      replace (xc - xb) with ((xa - xb) / 2) by (unfold xc; field). unfold Rdiv at 1. rewrite Rabs_mult, (Rabs_pos_eq (/ 2)) by lra.
      change (2 ^ S k) with (2 * 2 ^ k) in W. lra.
    + destruct HL as [-> | ->]; [exfalso; apply Q, NL; reflexivity|]. exists xa. split; [reflexivity|].
      replace (h xa - h xb) with (h xa - n - (h xb - n)) by ring. lra.
Qed.

Section Diverge.
Variables (f : R -> result R) (h : R -> R) (n a : R).
Hypothesis T : total f h.
Let da := h a - n.
Let sg := if Rltb 0 da then -1 else 1.
Hypothesis AWAY : forall d, 0 < d <= 3 -> 0 <= da * (h (a + sg * d) - n) /\ Rabs da < Rabs (h (a + sg * d) - n).
Lemma prefind_cycle j : forall k it rst delta ds b, (ds + j = 10)%nat -> (it + j < 20)%nat -> (rst < 20)%nat -> 0 < delta ->
  delta * 2 ^ (it + j) <= 3 ->
  let probe := a + sg * delta * 2 ^ (it + j) in
  prefind (S j + k) f n a da it rst delta ds b = prefind k f n a da 1 (S rst) (delta / 2) 0 (probe, h probe - n).
Proof.
  induction j as [|j IH]; intros k it rst delta ds b DS IT RS DL UP probe.
  - cbn [plus prefind]. destruct (Nat.ltb_spec it 20); [|lia]. destruct (Nat.ltb_spec rst 20); [|lia]. cbn [andb].
    fold sg. rewrite T. cbn [bind].
    assert (P : 0 < delta * 2 ^ it) by (apply Rmult_lt_0_compat; [exact DL|apply pow_lt; lra]).
    rewrite Nat.add_0_r in UP.
    destruct (AWAY _ (conj P UP)) as (X & Y). unfold probe. rewrite Nat.add_0_r.
    replace (sg * (delta * 2 ^ it)) with (sg * delta * 2 ^ it) in * by ring.
    destruct (Rltb_spec (da * (h (a + sg * delta * 2 ^ it) - n)) 0); [lra|].
    destruct (Rltb_spec (Rabs da) (Rabs (h (a + sg * delta * 2 ^ it) - n))); [|lra].
    destruct (Nat.ltb_spec 10 (S ds)); [reflexivity|lia].
  - change (S (S j) + k)%nat with (S (S j + k))%nat. cbn [prefind].
    destruct (Nat.ltb_spec it 20); [|lia]. destruct (Nat.ltb_spec rst 20); [|lia]. cbn [andb].
    fold sg. rewrite T. cbn [bind].
    assert (P : 0 < delta * 2 ^ it) by (apply Rmult_lt_0_compat; [exact DL|apply pow_lt; lra]).
    assert (UP' : delta * 2 ^ it <= 3).
    { apply Rle_trans with (2 := UP). apply Rmult_le_compat_l; [lra|]. apply Rle_pow; [lra|lia]. }
    destruct (AWAY _ (conj P UP')) as (X & Y).
    replace (sg * (delta * 2 ^ it)) with (sg * delta * 2 ^ it) in * by ring.
    destruct (Rltb_spec (da * (h (a + sg * delta * 2 ^ it) - n)) 0); [lra|].
    destruct (Rltb_spec (Rabs da) (Rabs (h (a + sg * delta * 2 ^ it) - n))); [|lra].
    destruct (Nat.ltb_spec 10 (S ds)); [lia|].
    rewrite (IH k (S it) rst delta (S ds)); [|lia|lia|assumption|assumption|replace (S it + j)%nat with (it + S j)%nat by lia; exact UP].
    replace (S it + j)%nat with (it + S j)%nat by lia. reflexivity.
Qed.
Lemma prefind_restarts r : forall k rst delta b, (rst + S r = 20)%nat -> 0 < delta -> delta * 2048 <= 3 ->
  let probe := a + sg * (delta / 2 ^ r) * 2 ^ 11 in
  prefind (11 * S r + S k) f n a da 1 rst delta 0 b = Ok (probe, h probe - n).
Proof.
  induction r as [|r IH]; intros k rst delta b RS DL UP probe.
  - change (11 * 1 + S k)%nat with (S 10 + S k)%nat. rewrite prefind_cycle; [|lia|lia|lia|assumption|cbn; lra].
    assert (rst = 19)%nat by lia. subst rst. change (1 + 10)%nat with 11%nat.
    unfold probe. replace (delta / 2 ^ 0) with delta by (cbn [pow]; field). reflexivity.
  - replace (11 * S (S r) + S k)%nat with (S 10 + (11 * S r + S k))%nat by lia.
    rewrite prefind_cycle; [|lia|lia|lia|assumption|cbn; lra]. rewrite (IH k (S rst) (delta / 2)); [|lia|lra|lra].
    unfold probe. replace (delta / 2 / 2 ^ r) with (delta / 2 ^ S r); [reflexivity|].
    cbn [pow]. field. apply pow_nonzero. lra.
Qed.
Lemma prefind_lost : let probe := a + sg * (1/1000 / 2 ^ 19) * 2 ^ 11 in
  prefind 500 f n a da 0 0 (1/1000) 0 (0, 0) = Ok (probe, h probe - n).
Proof.
  intros probe. replace 500%nat with (S 10 + (11 * S 18 + S 279))%nat by reflexivity.
  rewrite prefind_cycle; [|lia|lia|lia|lra|cbn; lra]. rewrite (prefind_restarts 18 279 1); [|lia|lra|lra].
  unfold probe. replace (1 / 1000 / 2 / 2 ^ 18) with (1 / 1000 / 2 ^ 19); [reflexivity|]. cbn [pow]. field.
Qed.
End Diverge.

(** * Fixed pivot *)
Lemma solve_pivot_through f n yn yp eps0 chi n0 e c : solve_pivot f n yn yp eps0 chi n0 = Ok (e, c) ->
  e + c * yp = eps0 + chi * yp \/ e + c * yn = eps0 + chi * yn.
Proof.
  unfold solve_pivot. destruct (Rleb (Rabs (n0 - n)) (1/100)); [intros H; inversion H; subst; now left|].
  destruct (Rltb n0 n).
  - destruct (f _ _); [|discriminate]. cbn [bind]. destruct (bisect _ _ _ _ _ _ _ _); [|discriminate]. cbn [bind].
    intros H. inversion H; subst. left. ring.
  - destruct (f _ _); [|discriminate]. cbn [bind]. destruct (bisect _ _ _ _ _ _ _ _); [|discriminate]. cbn [bind].
    intros H. inversion H; subst. right. ring.
Qed.
(** The pivot chosen for a balanced force n0, and the profiles through it. *)
Definition pivot_of (n yn yp n0 : R) : R := if Rltb n0 n then yp else yn.
Definition pivot_gen (M : nat) (f : R -> R -> result R) (n yn yp eps0 chi n0 : R) : result (R * R) :=
  let pv := pivot_of n yn yp n0 in
  let sp := eps0 + chi * pv in
  if Rleb (Rabs (n0 - n)) (1/100) then Ok (eps0, chi)
  else
    let g := fun c => f (sp - c * pv) c in
    do nb <- g (- / 10 ^ 13);
    do c <- bisect M g n chi (n0 - n) (- / 10 ^ 13) (nb - n) None;
    Ok (sp - c * pv, c).
Lemma pivot_gen_eq f n yn yp eps0 chi n0 : solve_pivot f n yn yp eps0 chi n0 = pivot_gen 100 f n yn yp eps0 chi n0.
Proof. unfold solve_pivot, pivot_gen, pivot_of. destruct (Rltb n0 n); reflexivity. Qed.
Lemma pivot_gen_sound M f h n yn yp eps0 chi n0 e c : let pv := pivot_of n yn yp n0 in
  (forall x, f (eps0 + chi * pv - x * pv) x = Ok (h x)) -> n0 = h chi ->
  (h chi - n) * (h (- / 10 ^ 13) - n) < 0 ->
  (forall x, grid chi (- / 10 ^ 13 - chi) x -> h x <> n) ->
  pivot_gen M f n yn yp eps0 chi n0 = Ok (e, c) -> e = eps0 + chi * pv - c * pv /\ balances n (h c).
Proof.
  intros pv T -> S0 NZ E. unfold pivot_gen in E. fold pv in E.
  destruct (Rleb_spec (Rabs (h chi - n)) (1/100)) as [L|L].
  { inversion E; subst. split; [ring|exact L]. }
  cbv zeta in E. rewrite T in E. cbn [bind] in E.
  destruct (bisect M _ n chi (h chi - n) (- / 10 ^ 13) (h (- / 10 ^ 13) - n) None) as [x|] eqn:B; [|discriminate].
  cbn [bind] in E. inversion E; subst. split; [reflexivity|].
  assert (HA : (fun c => f (eps0 + chi * pv - c * pv) c) chi = Ok (h chi - n + n)) by (cbv beta; rewrite T; f_equal; lra).
  assert (HB : (fun c => f (eps0 + chi * pv - c * pv) c) (- / 10 ^ 13) = Ok (h (- / 10 ^ 13) - n + n)) by (cbv beta; rewrite T; f_equal; lra).
  assert (GB : grid chi (- / 10 ^ 13 - chi) (- / 10 ^ 13)) by (replace (- / 10 ^ 13) with (chi + (- / 10 ^ 13 - chi)) at 2 by ring; apply grid_step).
  assert (NZ' : forall x v, grid chi (- / 10 ^ 13 - chi) x -> (fun c => f (eps0 + chi * pv - c * pv) c) x = Ok v -> v <> n).
  { intros x v G Y. cbv beta in Y. rewrite T in Y. inversion Y; subst. now apply NZ. }
  destruct (bisect_sound M (grid chi (- / 10 ^ 13 - chi)) (grid_mid _ _) _ n _ _ _ _ _ _ (grid_start _ _) GB NZ' HA HB S0 (or_introl eq_refl) B) as (v & Y & BB).
  cbv beta in Y. rewrite T in Y. inversion Y; subst. exact BB.
Qed.
Lemma pivot_gen_finds f h n yn yp eps0 chi n0 L : let pv := pivot_of n yn yp n0 in
  (forall x, f (eps0 + chi * pv - x * pv) x = Ok (h x)) -> n0 = h chi -> lipschitz L h ->
  L * Rabs (chi - - / 10 ^ 13) <= 10 ^ 27 ->
  (h chi - n) * (h (- / 10 ^ 13) - n) < 0 ->
  (forall x, grid chi (- / 10 ^ 13 - chi) x -> h x <> n) ->
  exists e c, pivot_gen 100 f n yn yp eps0 chi n0 = Ok (e, c).
Proof.
  intros pv T -> LP LB S0 NZ. unfold pivot_gen. fold pv.
  destruct (Rleb_spec (Rabs (h chi - n)) (1/100)) as [Q|Q]; [do 2 eexists; reflexivity|].
  cbv zeta. rewrite T. cbn [bind].
  assert (GB : grid chi (- / 10 ^ 13 - chi) (- / 10 ^ 13)) by (replace (- / 10 ^ 13) with (chi + (- / 10 ^ 13 - chi)) at 2 by ring; apply grid_step).
  destruct (bisect_converges 99 (grid chi (- / 10 ^ 13 - chi)) (grid_mid _ _) (fun c => f (eps0 + chi * pv - c * pv) c) h n chi (- / 10 ^ 13) None L) as (c & E).
  - exact T.
  - exact LP.
  - apply grid_start.
  - exact GB.
  - exact NZ.
  - exact S0.
  - intros _. rewrite abs_gap by assumption. pose proof (Rabs_pos (h (- / 10 ^ 13) - n)). lra.
  - eapply Rle_trans; [exact LB|]. assert (2 ^ 99 = 633825300114114700748351602688) by (cbn [pow]; lra). rewrite H. cbn [pow]. lra.
  - rewrite E. cbn [bind]. do 2 eexists. reflexivity.
Qed.

(** * The integrators are safe to reuse *)
Lemma fiber_reuse_safe laws mesher g : reuse_safe (fiber_integ laws mesher) g.
Proof.
  split; [|reflexivity]. intros p m F d. cbn. unfold fiber_forces, prepare_input.
  destruct (triangulate mesher g _) as [gs|]; [|discriminate]. cbn [bind].
  destruct (prepare_groups laws IStress p gs) as [v|] eqn:E; [|discriminate]. cbn [bind].
  destruct gs as [|x gs]; [discriminate|]. cbn. intros H. inversion H; subst. cbn [bind]. rewrite E. reflexivity.
Qed.
Lemma marin_reuse_safe laws g : (forall k, batched (laws k)) -> reuse_safe (marin_integ laws) g.
Proof.
  intros B. split; [|reflexivity]. intros p m F d. cbn. intros H. rewrite (forces_data _ _ _ _ _ H), forces_reuse, H by assumption. reflexivity.
Qed.

(** The first integration of an analysis, seen through the state it leaves. *)
Lemma forces_k_state ig g p m s F s' : reuse_safe ig g -> forces_k ig g p m s = (Ok F, s') ->
  st_data s' <> None /\ (exists d, st_data s' = Some d /\ rmap fst (ig_forces ig g p (Some d) None) = Ok F) /\
  axial_fun ig g s' p = Ok (fst (fst F)) /\ st_lim s' = st_lim s.
Proof.
  intros (RS & MI). unfold forces_k. destruct (ig_forces ig g p (st_data s) m) as [[F0 d]|] eqn:E; [|discriminate].
  intros H. inversion H; subst F0 s'. clear H.
  assert (Z : exists d', st_data (keep_data d s) = Some d' /\ rmap fst (ig_forces ig g p (Some d') None) = Ok F).
  { unfold keep_data. destruct (st_data s) as [d0|] eqn:D0.
    - exists d0. cbn. try rewrite D0. split; [reflexivity|]. rewrite <- (MI p d0 m None), E. reflexivity.
    - exists d. cbn. try rewrite D0. split; [reflexivity|]. exact (RS p m F d E). }
  destruct Z as (d' & Z1 & Z2). split; [rewrite Z1; discriminate|]. split; [exists d'; split; assumption|]. split; [|reflexivity].
  unfold axial_fun. rewrite Z1. destruct (ig_forces ig g p (Some d') None) as [[F1 d1]|]; [|discriminate].
  cbn in Z2. inversion Z2. reflexivity.
Qed.

(** Monotone fibre sections. *)
Definition areas_nonneg (d : list group) : Prop := forall gr x, In gr d -> In x (gr_fibres gr) -> 0 <= fb_a x.
Definition group_axial (laws : nat -> law) (d : list group) (p : profile) : R :=
  lsum (map (fun gr => lsum (map (fun x => lw_stress (laws (gr_law gr)) (fibre_strain p x) * fb_a x) (gr_fibres gr))) d).
Lemma fiber_axial laws mesher g s d p : (forall k, batched (laws k)) -> st_data s = Some d -> d <> [] ->
  axial_fun (fiber_integ laws mesher) g s p = Ok (group_axial laws d p).
Proof.
  intros B D NE. unfold axial_fun. cbn. rewrite D. unfold fiber_forces, prepare_input. cbn [bind].
  rewrite prepare_groups_ok by (assumption || discriminate). cbn [bind]. destruct d as [|x d]; [contradiction|].
  cbn [bind rmap fst snd f_integrate_stress]. f_equal. unfold group_axial. rewrite lsum_flat.
  apply lsum_map_ext. intros gr _. rewrite map_map. reflexivity.
Qed.
Lemma lsum_le {A} (f g : A -> R) l : (forall x, In x l -> f x <= g x) -> lsum (map f l) <= lsum (map g l).
Proof.
  induction l as [|x l IH]; intros H; cbn [map]; rewrite ?lsum_nil, ?lsum_cons; [lra|].
  pose proof (H x (or_introl eq_refl)). assert (lsum (map f l) <= lsum (map g l)) by (apply IH; intros; apply H; now right). lra.
Qed.
Lemma group_axial_mono laws d curv : (forall k, nondecreasing (lw_stress (laws k))) -> areas_nonneg d ->
  nondecreasing (fun e => group_axial laws d (e, curv, 0)).
Proof.
  intros MO AN x y XY. unfold group_axial. apply lsum_le. intros gr Hg. apply lsum_le. intros fb Hf.
  apply Rmult_le_compat_r; [exact (AN gr fb Hg Hf)|]. apply MO. unfold fibre_strain, p_e0, p_ky, p_kz. cbn. lra.
Qed.
Lemma triangulate_areas mesher g ms d : (forall b, In b (cg_bars g) -> 0 <= br_area b) -> triangulate mesher g ms = Ok d -> areas_nonneg d.
Proof.
  intros HB. unfold triangulate. destruct (Rleb ms 0 || Rltb 1 ms)%bool; [discriminate|]. intros H. inversion H; subst. clear H.
  intros gr x Hg Hx. apply in_app_or in Hg. destruct Hg as [Hg|Hg].
  - apply in_map_iff in Hg. destruct Hg as (s & <- & _). cbn in Hx. apply in_map_iff in Hx. destruct Hx as (((p & q) & r) & <- & _).
    cbn. pose proof (Rabs_pos (fst p * snd q - snd p * fst q + (fst q * snd r - snd q * fst r) + (fst r * snd p - snd r * fst p))). lra.
  - unfold bar_groups in Hg. apply in_map_iff in Hg. destruct Hg as ((k & fs) & <- & Hk). cbn in Hx.
    assert (G : forall bs acc, (forall b, In b bs -> 0 <= br_area b) -> (forall k fs x, In (k, fs) acc -> In x fs -> 0 <= fb_a x) ->
      forall k fs x, In (k, fs) (fold_left (fun d b => add_bar d (br_law b) (fibre_of_bar b)) bs acc) -> In x fs -> 0 <= fb_a x).
    { clear. induction bs as [|b bs IH]; intros acc HB HA k fs x; [apply HA|]. cbn [fold_left]. apply IH; [intros; apply HB; now right|].
      clear k fs x. intros k fs x. pose proof (HB b (or_introl eq_refl)) as Hb. clear - HA Hb. revert HA. 
      induction acc as [|(k' & fs') acc IH]; intros HA; cbn [add_bar].
      - intros [H|[]]. inversion H; subst. intros [<-|[]]. exact Hb.
      - destruct (k' =? br_law b)%nat.
        + intros [H|H]; [|intros Hx; eapply HA; [right; exact H|exact Hx]].
          inversion H; subst. intros Hx. apply in_app_or in Hx. destruct Hx as [Hx|[<-|[]]]; [|exact Hb].
          eapply HA; [left; reflexivity|exact Hx].
        + intros [H|H]; [intros Hx; eapply HA; [left; exact H|exact Hx]|]. apply IH; [|exact H].
          intros. eapply HA; [right; eassumption|assumption]. }
    eapply (G (cg_bars g) []); [exact HB|intros ? ? ? []|exact Hk|exact Hx].
Qed.

(** * Newton *)
Lemma solve3_ok K v d : solve3 K v = Ok d -> mul3 K d = v.
Proof.
  unfold solve3. destruct (Reqb_spec (det3 K) 0) as [|N]; [discriminate|]. intros H. inversion H; subst. clear H.
  destruct v as [[a b] c]. unfold mul3, mat_vec.
  assert (X : forall A B C A' B' C' : R, A = A' -> B = B' -> C = C' -> (A, B, C) = (A', B', C')) by (intros; subst; reflexivity).
  apply X; unfold det3 in *; cbn [put_col Nat.eqb fst snd]; unfold put_col; cbn [Nat.eqb fst snd]; field; exact N.
Qed.
Lemma solve3_err K v e : solve3 K v = Err e -> e = LinAlgError /\ det3 K = 0.
Proof. unfold solve3. destruct (Reqb_spec (det3 K) 0); [|discriminate]. intros H. inversion H. split; [reflexivity|assumption]. Qed.
Lemma solve3_unique K v d d' : det3 K <> 0 -> mul3 K d = v -> mul3 K d' = v -> d = d'.
Proof.
  intros N. destruct d as [[x y] z], d' as [[x' y'] z']. intros E1 E2. rewrite <- E2 in E1. clear E2.
  unfold mul3, mat_vec in E1. injection E1 as A B C.
  assert (Q : forall u v w, K 0%nat 0%nat * u + K 0%nat 1%nat * v + K 0%nat 2%nat * w = 0 ->
     K 1%nat 0%nat * u + K 1%nat 1%nat * v + K 1%nat 2%nat * w = 0 -> K 2%nat 0%nat * u + K 2%nat 1%nat * v + K 2%nat 2%nat * w = 0 ->
     u = 0 /\ v = 0 /\ w = 0).
  { intros u v0 w H1 H2 H3.
    assert (U : det3 K * u = 0).
    { unfold det3. replace 0 with ((K 0%nat 0%nat * u + K 0%nat 1%nat * v0 + K 0%nat 2%nat * w) * (K 1%nat 1%nat * K 2%nat 2%nat - K 1%nat 2%nat * K 2%nat 1%nat)
        + (K 1%nat 0%nat * u + K 1%nat 1%nat * v0 + K 1%nat 2%nat * w) * (K 0%nat 2%nat * K 2%nat 1%nat - K 0%nat 1%nat * K 2%nat 2%nat)
        + (K 2%nat 0%nat * u + K 2%nat 1%nat * v0 + K 2%nat 2%nat * w) * (K 0%nat 1%nat * K 1%nat 2%nat - K 0%nat 2%nat * K 1%nat 1%nat)) by (rewrite H1, H2, H3; ring). ring. }
    assert (V : det3 K * v0 = 0).
    { unfold det3. replace 0 with ((K 0%nat 0%nat * u + K 0%nat 1%nat * v0 + K 0%nat 2%nat * w) * (K 1%nat 2%nat * K 2%nat 0%nat - K 1%nat 0%nat * K 2%nat 2%nat)
        + (K 1%nat 0%nat * u + K 1%nat 1%nat * v0 + K 1%nat 2%nat * w) * (K 0%nat 0%nat * K 2%nat 2%nat - K 0%nat 2%nat * K 2%nat 0%nat)
        + (K 2%nat 0%nat * u + K 2%nat 1%nat * v0 + K 2%nat 2%nat * w) * (K 0%nat 2%nat * K 1%nat 0%nat - K 0%nat 0%nat * K 1%nat 2%nat)) by (rewrite H1, H2, H3; ring). ring. }
    assert (W : det3 K * w = 0).
    { unfold det3. replace 0 with ((K 0%nat 0%nat * u + K 0%nat 1%nat * v0 + K 0%nat 2%nat * w) * (K 1%nat 0%nat * K 2%nat 1%nat - K 1%nat 1%nat * K 2%nat 0%nat)
        + (K 1%nat 0%nat * u + K 1%nat 1%nat * v0 + K 1%nat 2%nat * w) * (K 0%nat 1%nat * K 2%nat 0%nat - K 0%nat 0%nat * K 2%nat 1%nat)
        + (K 2%nat 0%nat * u + K 2%nat 1%nat * v0 + K 2%nat 2%nat * w) * (K 0%nat 0%nat * K 1%nat 1%nat - K 0%nat 1%nat * K 1%nat 0%nat)) by (rewrite H1, H2, H3; ring). ring. }
    apply Rmult_integral in U, V, W. repeat split; destruct U, V, W; (assumption || contradiction). }
  destruct (Q (x - x') (y - y') (z - z')) as (P1 & P2 & P3); [lra|lra|lra|].
  replace x with x' by lra. replace y with y' by lra. replace z with z' by lra. reflexivity.
Qed.
Lemma mul3_add K u v : mul3 K (add3 u v) = add3 (mul3 K u) (mul3 K v).
Proof. destruct u as [[a b] c], v as [[a' b'] c']. unfold mul3, add3, mat_vec. cbn [fst snd]. f_equal; [f_equal|]; ring. Qed.

(** Whatever is returned was reached by a last step within the tolerance. *)
Lemma newton_last fuel : forall ig ms g loads tol K0 num mx strain s p s', (num + fuel = S mx)%nat ->
  newton_loop fuel ig ms g loads tol K0 num mx strain s = (Ok p, s') ->
  exists prev d F K sa sb, integrate_profile ig ms g prev sa = (Ok F, sb) /\
    (match K0 with Some K' => K = K' | None => exists e, ig_modulus ig g prev (st_data sb) None = Ok (K, e) end) /\
    mul3 K d = sub3 loads F /\ norm3 d < tol /\ p = add3 prev d.
Proof.
  induction fuel as [|k IH]; intros ig ms g loads tol K0 num mx strain s p s' HN E; cbn [newton_loop] in E.
  { destruct (Nat.leb_spec mx num); [discriminate|lia]. }
  unfold abind in E. destruct (integrate_profile ig ms g strain s) as [[F|e] sb] eqn:EF; [|discriminate].
  destruct (match K0 with Some K => aret K | None => _ end sb) as [[K|e] sc] eqn:EK; [|discriminate].
  unfold alift in E. destruct (solve3 K (sub3 loads F)) as [d|] eqn:SV; [|discriminate].
  destruct (Rltb_spec (norm3 d) tol) as [L|L].
  - exists strain, d, F, K, s, sb. split; [exact EF|]. split.
    { destruct K0; [now inversion EK|]. destruct (ig_modulus ig g strain (st_data sb) None) as [[K' e']|]; [|discriminate]. inversion EK; subst. eexists; reflexivity. }
    split; [exact (solve3_ok _ _ _ SV)|]. split; [exact L|]. destruct (mx <=? S num)%nat; [discriminate|]. now inversion E.
  - apply (IH ig ms g loads tol K0 (S num) mx (add3 strain d) sc p s'); [lia|exact E].
Qed.
Lemma norm3_zero d : norm3 d = 0 <-> d = (0, 0, 0).
Proof.
  destruct d as [[a b] c]. unfold norm3. cbn [fst snd]. split; intros H.
  - assert (a ^ 2 + b ^ 2 + c ^ 2 = 0). { apply sqrt_eq_0; [nra|exact H]. }
    assert (a = 0) by nra. assert (b = 0) by nra. assert (c = 0) by nra. subst; reflexivity.
  - inversion H; subst. replace (0 ^ 2 + 0 ^ 2 + 0 ^ 2) with 0 by ring. apply sqrt_0.
Qed.

(** Linear responses: two steps. *)
Lemma newton_linear ig ms g loads tol (K0 : option (nat -> nat -> R)) K mx s : det3 K <> 0 -> 0 < tol ->
  (forall p, fst (integrate_profile ig ms g p s) = Ok (mul3 K p) /\ snd (integrate_profile ig ms g p s) = s) ->
  (forall p, exists e, ig_modulus ig g p (st_data s) None = Ok (K, e)) -> (K0 = None \/ K0 = Some K) ->
  match newton_loop (S mx) ig ms g loads tol K0 0 mx (0, 0, 0) s with
  | (Ok p, _) => mul3 K p = loads
  | (Err e, _) => e = StopIteration /\ (mx <= 2)%nat
  end.
Proof.
  intros N TP RF RM HK.
  assert (ST : forall fuel num strain, newton_loop (S fuel) ig ms g loads tol K0 num mx strain s =
     match solve3 K (sub3 loads (mul3 K strain)) with
     | Ok d => let strain' := add3 strain d in
               if Rltb (norm3 d) tol then (if (mx <=? S num)%nat then afail StopIteration else aret strain') s
               else newton_loop fuel ig ms g loads tol K0 (S num) mx strain' s
     | Err e => (Err e, s) end).
  { intros fuel num strain. cbn [newton_loop]. unfold abind. destruct (RF strain) as (R1 & R2).
    destruct (integrate_profile ig ms g strain s) as [r s1]; cbn [fst snd] in R1, R2. subst r s1.
    destruct HK as [-> | ->].
    - destruct (RM strain) as (e & ->). unfold alift. destruct (solve3 K _); [cbv zeta; destruct (Rltb _ tol); reflexivity|reflexivity].
    - unfold aret at 1. unfold alift. destruct (solve3 K _); [cbv zeta; destruct (Rltb _ tol); reflexivity|reflexivity]. }
  assert (SV : forall v, exists d, solve3 K v = Ok d).
  { intros v. destruct (solve3 K v) eqn:E; [eexists; reflexivity|]. apply solve3_err in E. tauto. }
  rewrite ST. destruct (SV (sub3 loads (mul3 K (0, 0, 0)))) as (d & E). rewrite E.
  assert (M0 : mul3 K (0, 0, 0) = (0, 0, 0)) by (unfold mul3, mat_vec; f_equal; [f_equal|]; ring).
  assert (MD : mul3 K (add3 (0, 0, 0) d) = loads).
  { rewrite mul3_add, (solve3_ok _ _ _ E), M0. destruct loads as [[a b] c]. unfold add3, sub3. cbn. f_equal; [f_equal|]; ring. }
  cbv zeta. destruct (Rltb (norm3 d) tol).
  { destruct (Nat.leb_spec mx 1); unfold afail, aret; [split; [reflexivity|lia]|exact MD]. }
  destruct mx as [|mx].
  { cbn [newton_loop]. cbn [Nat.leb]. unfold afail. split; [reflexivity|lia]. }
  rewrite ST. rewrite MD. assert (Z : sub3 loads loads = (0, 0, 0)) by (destruct loads as [[a b] c]; unfold sub3; cbn; f_equal; [f_equal|]; ring).
  rewrite Z. destruct (SV (0, 0, 0)) as (d2 & E2). rewrite E2.
  assert (D2 : d2 = (0, 0, 0)) by (apply (solve3_unique K (0, 0, 0)); [exact N|exact (solve3_ok _ _ _ E2)|exact M0]).
  subst d2. cbv zeta. destruct (Rltb_spec (norm3 (0, 0, 0)) tol) as [L|L].
  2:{ exfalso. apply L. rewrite (proj2 (norm3_zero (0, 0, 0)) eq_refl). exact TP. }
  destruct (Nat.leb_spec (S mx) 2); unfold afail, aret; [split; [reflexivity|lia]|].
  rewrite mul3_add, M0, MD. destruct loads as [[a b] c]. unfold add3. cbn. f_equal; [f_equal|]; ring.
Qed.
Lemma newton_err ig ms g loads tol K0 mx : forall fuel num strain s e s', 
  (forall p s e s', integrate_profile ig ms g p s <> (Err e, s')) -> (forall p d e, ig_modulus ig g p d None <> Err e) ->
  newton_loop fuel ig ms g loads tol K0 num mx strain s = (Err e, s') -> e = StopIteration \/ e = LinAlgError.
Proof.
  induction fuel as [|k IH]; intros num strain s e s' TF TM E; cbn [newton_loop] in E.
  { destruct (mx <=? num)%nat; [inversion E; now left|discriminate]. }
  unfold abind in E. destruct (integrate_profile ig ms g strain s) as [[F|x] sb] eqn:EF; [|exfalso; eapply TF; exact EF].
  assert (X : exists K sc, (match K0 with Some K => aret K | None => fun s => match ig_modulus ig g strain (st_data s) None with
                                | Ok (K, _) => (Ok K, s) | Err e => (Err e, s) end end) sb = (Ok K, sc)).
  { destruct K0 as [K|]; [do 2 eexists; reflexivity|].
    destruct (ig_modulus ig g strain (st_data sb) None) as [[K u]|x] eqn:EM; [do 2 eexists; reflexivity|]. exfalso. eapply TM. exact EM. }
  destruct X as (K & sc & X). rewrite X in E. unfold alift in E.
  destruct (solve3 K (sub3 loads F)) as [d|x] eqn:SV.
  - destruct (Rltb (norm3 d) tol).
    + destruct (mx <=? S num)%nat; [inversion E; now left|discriminate].
    + eapply IH; eassumption.
  - inversion E; subst. right. exact (proj1 (solve3_err _ _ _ SV)).
Qed.
