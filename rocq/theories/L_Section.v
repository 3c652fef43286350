From Verif Require Import Base M_Marin M_Laws M_Laws2 M_Fiber S_Fiber L_Fiber M_MarinInt M_Section S_Section.

(** * Bisection *)
Lemma sign_swap a b c : ~ c * a < 0 -> c <> 0 -> a * b < 0 -> c * b < 0.
Proof.
  intros M NZ S0. assert (a <> 0) by nra.
  assert (0 < c * a) by (assert (c * a <> 0) by (apply Rmult_integral_contrapositive_currified; assumption); lra).
  nra.
Qed.
Lemma abs_gap a b : a * b < 0 -> Rabs (a - b) = Rabs a + Rabs b.
Proof. intros S0. unfold Rabs. destruct (Rcase_abs (a - b)), (Rcase_abs a), (Rcase_abs b); nra. Qed.
Lemma bisect_sound fuel (P : R -> Prop) : (forall x y, P x -> P y -> P ((x + y) / 2)) ->
  forall f n xa da xb db last c, P xa -> P xb ->
  (forall x v, P x -> f x = Ok v -> v <> n) ->
  f xa = Ok (da + n) -> f xb = Ok (db + n) -> da * db < 0 ->
  (last = None \/ last = Some xa \/ last = Some xb) ->
  bisect fuel f n xa da xb db last = Ok c ->
  exists v, f c = Ok v /\ balances n v.
Proof.
  intros MID.
  induction fuel as [|k IH]; intros f n xa da xb db last c PA PB NZ Ha Hb S0 HL E; [discriminate|].
  cbn [bisect] in E. destruct (Rltb_spec (1/100) (Rabs (da - db))) as [L|L].
  - destruct (f ((xa + xb) / 2)) as [nc|] eqn:Ec; [|discriminate]. cbn [bind] in E.
    assert (PC := MID _ _ PA PB). assert (NZc := NZ _ _ PC Ec).
    destruct (Rltb_spec ((nc - n) * da) 0) as [M|M].
    + eapply (IH f n xa da); [exact PA|exact PC|exact NZ|exact Ha| |rewrite Rmult_comm; exact M|right; right; reflexivity|exact E].
      rewrite Ec. f_equal. lra.
    + eapply (IH f n _ _ xb db); [exact PC|exact PB|exact NZ| |exact Hb| |right; left; reflexivity|exact E].
      * rewrite Ec. f_equal. lra.
      * assert (nc - n <> 0) by lra.
        eapply sign_swap; eassumption.
  - assert (D : Rabs da <= 1/100 /\ Rabs db <= 1/100).
    { assert (Rabs (da - db) <= 1/100) by lra.
      unfold Rabs in *. destruct (Rcase_abs (da - db)), (Rcase_abs da), (Rcase_abs db); split; try lra; nra. }
    destruct HL as [-> | [-> | ->]]; [discriminate| |]; inversion E; subst; [exists (da + n)|exists (db + n)]; (split; [assumption|]);
      unfold balances; [replace (da + n - n) with da by ring|replace (db + n - n) with db by ring]; tauto.
Qed.

(** Errors of the bisection. *)
Lemma bisect_err fuel : forall f h n xa da xb db last e, total f h ->
  (last = None -> 1/100 < Rabs (da - db)) ->
  bisect fuel f n xa da xb db last = Err e -> e = ValueError.
Proof.
  induction fuel as [|k IH]; intros f h n xa da xb db last e T NL E; [now inversion E|].
  cbn [bisect] in E. destruct (Rltb_spec (1/100) (Rabs (da - db))) as [L|L].
  - rewrite (T ((xa + xb) / 2)) in E. cbn [bind] in E.
    destruct (Rltb_spec ((h ((xa + xb) / 2) - n) * da) 0); (eapply IH; [exact T| |exact E]); discriminate.
  - destruct last; [discriminate|]. exfalso. apply L, NL. reflexivity.
Qed.

(** A jump of the response across the load: the search gives up with ValueError. *)
Lemma bisect_jump fuel : forall f h n xa da xb db last, total f h ->
  (forall x, 1/200 < Rabs (h x - n)) -> da * db < 0 -> 1/200 < Rabs da -> 1/200 < Rabs db ->
  bisect fuel f n xa da xb db last = Err ValueError.
Proof.
  induction fuel as [|k IH]; intros f h n xa da xb db last T J S0 Ha Hb; [reflexivity|].
  cbn [bisect]. destruct (Rltb_spec (1/100) (Rabs (da - db))) as [L|L].
  - rewrite (T ((xa + xb) / 2)). cbn [bind]. assert (Jc := J ((xa + xb) / 2)).
    set (dc := h ((xa + xb) / 2) - n) in *.
    assert (dc <> 0) by (intros X; rewrite X, Rabs_R0 in Jc; lra).
    destruct (Rltb_spec (dc * da) 0); eapply IH; eauto; [lra|eapply sign_swap; eassumption].
  - exfalso. apply L. rewrite abs_gap by assumption. lra.
Qed.

(** Convergence for Lipschitz responses. *)
Lemma bisect_converges k (P : R -> Prop) : (forall x y, P x -> P y -> P ((x + y) / 2)) ->
  forall f h n xa xb last L, total f h -> lipschitz L h -> P xa -> P xb ->
  (forall x, P x -> h x <> n) -> (h xa - n) * (h xb - n) < 0 ->
  (last = None -> 1/100 < Rabs ((h xa - n) - (h xb - n))) ->
  L * Rabs (xa - xb) <= 2 ^ k / 100 ->
  exists c, bisect (S k) f n xa (h xa - n) xb (h xb - n) last = Ok c.
Proof.
  intros MID.
  induction k as [|k IH]; intros f h n xa xb last L T LP PA PB NZ S0 NL W.
  - cbn [bisect]. destruct (Rltb_spec (1/100) (Rabs (h xa - n - (h xb - n)))) as [Q|Q].
    + exfalso. pose proof (LP xa xb) as X. replace (h xa - n - (h xb - n)) with (h xa - h xb) in Q by ring. cbn in W. lra.
    + destruct last as [c|]; [exists c; reflexivity|]. exfalso. apply Q, NL. reflexivity.
  - change (bisect (S (S k)) f n xa (h xa - n) xb (h xb - n) last) with
      (if Rltb (1/100) (Rabs (h xa - n - (h xb - n))) then
        let xc := (xa + xb) / 2 in do nc <- f xc; let dc := nc - n in
        if Rltb (dc * (h xa - n)) 0 then bisect (S k) f n xa (h xa - n) xc dc (Some xc)
        else bisect (S k) f n xc dc xb (h xb - n) (Some xc)
       else match last with None => Err UnboundLocalError | Some x => Ok x end).
    destruct (Rltb_spec (1/100) (Rabs (h xa - n - (h xb - n)))) as [Q|Q].
    + cbv zeta. rewrite (T ((xa + xb) / 2)). cbn [bind]. set (xc := (xa + xb) / 2).
      assert (PC : P xc) by (apply MID; assumption). assert (NZc := NZ xc PC). assert (LP0 : 0 <= L).
      { pose proof (LP 0 1) as X. assert (Y : Rabs (0 - 1) = 1) by (unfold Rabs; destruct (Rcase_abs _); lra). rewrite Y in X.
        pose proof (Rabs_pos (h 0 - h 1)). lra. }
      assert (W2 : 2 ^ S k = 2 * 2 ^ k) by reflexivity. rewrite W2 in W.
      destruct (Rltb_spec ((h xc - n) * (h xa - n)) 0) as [M|M].
      * apply (IH f h n xa xc (Some xc) L T LP PA PC NZ); [lra|discriminate|].
        replace (xa - xc) with ((xa - xb) / 2) by (unfold xc; field). unfold Rdiv at 1. rewrite Rabs_mult, (Rabs_pos_eq (/ 2)) by lra. lra.
      * apply (IH f h n xc xb (Some xc) L T LP PC PB NZ); [|discriminate|].
        { assert (h xc - n <> 0) by lra. eapply sign_swap; eassumption. }
        replace (xc - xb) with ((xa - xb) / 2) by (unfold xc; field). unfold Rdiv at 1. rewrite Rabs_mult, (Rabs_pos_eq (/ 2)) by lra. lra.
    + destruct last as [c|]; [exists c; reflexivity|]. exfalso. apply Q, NL. reflexivity.
Qed.

(** * Search of the initial range *)
Lemma prefind_value fuel : forall f n a da it rst delta ds b0 b,
  (it = O \/ f (fst b0) = Ok (snd b0 + n)) -> (it = O -> rst = O) ->
  prefind fuel f n a da it rst delta ds b0 = Ok b -> f (fst b) = Ok (snd b + n).
Proof.
  induction fuel as [|k IH]; intros f n a da it rst delta ds b0 b H0 H1 E; [discriminate|].
  cbn [prefind] in E. destruct (andb (it <? 20)%nat (rst <? 20)%nat) eqn:G.
  - destruct (f _) as [nb|] eqn:Ef in E; [|discriminate]. cbn [bind] in E.
    set (xb := a + (if Rltb 0 da then -1 else 1) * delta * 2 ^ it) in *.
    assert (X : f (fst (xb, nb - n)) = Ok (snd (xb, nb - n) + n)) by (cbn [fst snd]; rewrite Ef; f_equal; lra).
    destruct (Rltb_spec (da * (nb - n)) 0).
    + inversion E; subst. exact X.
    + destruct (Rltb_spec (Rabs da) (Rabs (nb - n))).
      * destruct (10 <? S ds)%nat; (eapply IH; [right; exact X| |exact E]); discriminate.
      * (eapply IH; [right; exact X| |exact E]); discriminate.
  - destruct (20 <=? it)%nat eqn:I; [discriminate|]. inversion E; subst b0.
    destruct H0 as [->|H0]; [|exact H0]. rewrite (H1 eq_refl) in G. discriminate.
Qed.

(** The fuel never runs out: the loop ends within its own limits. *)
Lemma prefind_fuel fuel : forall f h n a da it rst delta ds b0, total f h ->
  (it <= 20)%nat -> (rst <= 20)%nat -> ((20 - rst) * 20 + (20 - it) < fuel)%nat ->
  prefind fuel f n a da it rst delta ds b0 <> Err RuntimeError.
Proof.
  induction fuel as [|k IH]; intros f h n a da it rst delta ds b0 T Hi Hr F; [lia|].
  cbn [prefind]. destruct (Nat.ltb_spec it 20) as [I|I]; cbn [andb].
  - destruct (Nat.ltb_spec rst 20) as [J|J].
    + rewrite T. cbn [bind]. destruct (Rltb _ 0); [discriminate|].
      destruct (Rltb (Rabs da) _).
      * destruct (10 <? S ds)%nat; apply (IH f h); try assumption; lia.
      * apply (IH f h); try assumption; lia.
    + destruct (Nat.leb_spec 20 it); [lia|discriminate].
  - destruct (Nat.leb_spec 20 it); [discriminate|lia].
Qed.

(** Monotone responses that reach the load within the search range are bracketed. *)
Lemma prefind_monotone fuel : forall f h n a it ds b0, total f h -> nondecreasing h ->
  let da := h a - n in
  da <> 0 -> (it < 20)%nat -> (20 - it < fuel)%nat ->
  (0 < da -> h (a - 1/1000 * 2 ^ 19) < n) -> (da < 0 -> n < h (a + 1/1000 * 2 ^ 19)) ->
  exists b db, prefind fuel f n a da it 0 (1/1000) ds b0 = Ok (b, db) /\ db = h b - n /\ da * db < 0 /\
    exists j, (j < 20)%nat /\ (b = a + 1/1000 * 2 ^ j \/ b = a - 1/1000 * 2 ^ j).
Proof.
  induction fuel as [|k IH]; intros f h n a it ds b0 T MO da NZ I F U D; [lia|].
  cbn [prefind]. destruct (Nat.ltb_spec it 20); [|lia]. cbn [andb]. rewrite T. cbn [bind].
  set (xb := a + (if Rltb 0 da then -1 else 1) * (1/1000) * 2 ^ it).
  assert (P : 0 < 2 ^ it) by (apply pow_lt; lra).
  assert (PM : 2 ^ it <= 2 ^ 19) by (apply Rle_pow; [lra|lia]).
  destruct (Rltb_spec (da * (h xb - n)) 0) as [S0|S0].
  - exists xb, (h xb - n). split; [reflexivity|]. split; [reflexivity|]. split; [exact S0|].
    exists it. split; [assumption|]. unfold xb. destruct (Rltb 0 da); [right|left]; ring.
  - assert (Q : Rabs (h xb - n) <= Rabs da).
    { unfold xb in *. destruct (Rltb_spec 0 da) as [L|L].
      - assert (h (a + -1 * (1/1000) * 2 ^ it) <= h a) by (apply MO; lra).
        rewrite !Rabs_pos_eq; unfold da in *; try lra; nra.
      - assert (h a <= h (a + 1 * (1/1000) * 2 ^ it)) by (apply MO; lra).
        assert (da < 0) by lra. rewrite !Rabs_left1; unfold da in *; try lra; nra. }
    destruct (Rltb_spec (Rabs da) (Rabs (h xb - n))); [lra|].
    destruct (Nat.eq_dec it 19) as [->|NE].
    + exfalso. apply S0. unfold xb. destruct (Rltb_spec 0 da) as [L|L].
      * specialize (U L). replace (a + -1 * (1/1000) * 2 ^ 19) with (a - 1/1000 * 2 ^ 19) by ring. nra.
      * assert (L' : da < 0) by lra. specialize (D L'). replace (a + 1 * (1/1000) * 2 ^ 19) with (a + 1/1000 * 2 ^ 19) by ring. nra.
    + apply IH; try assumption; lia.
Qed.

(** Monotone responses: the range search either brackets the load or raises ValueError. *)
Lemma prefind_dich fuel : forall f h n a it ds b0, total f h -> nondecreasing h ->
  let da := h a - n in
  da <> 0 -> (it <= 20)%nat -> (20 - it < fuel)%nat ->
  prefind fuel f n a da it 0 (1/1000) ds b0 = Err ValueError \/
  exists b db, prefind fuel f n a da it 0 (1/1000) ds b0 = Ok (b, db) /\ db = h b - n /\ da * db < 0 /\
    exists j, (j < 20)%nat /\ (b = a + 1/1000 * 2 ^ j \/ b = a - 1/1000 * 2 ^ j).
Proof.
  induction fuel as [|k IH]; intros f h n a it ds b0 T MO da NZ I F; [lia|].
  remember (prefind (S k) f n a da it 0 (1/1000) ds b0) as r eqn:ER. cbn [prefind] in ER. destruct (Nat.ltb_spec it 20).
  2:{ left. rewrite ER. cbn [andb]. destruct (Nat.leb_spec 20 it); [reflexivity|lia]. }
  cbn [andb Nat.ltb Nat.leb] in ER. rewrite T in ER. cbn [bind] in ER.

  set (xb := a + (if Rltb 0 da then -1 else 1) * (1/1000) * 2 ^ it) in *.
  assert (P : 0 < 2 ^ it) by (apply pow_lt; lra).
  destruct (Rltb_spec (da * (h xb - n)) 0) as [S0|S0].
  - right. exists xb, (h xb - n). split; [exact ER|]. split; [reflexivity|]. split; [exact S0|].
    exists it. split; [assumption|]. unfold xb. destruct (Rltb 0 da); [right|left]; ring.
  - assert (Q : Rabs (h xb - n) <= Rabs da).
    { unfold xb in *. destruct (Rltb_spec 0 da) as [L|L].
      - assert (h (a + -1 * (1/1000) * 2 ^ it) <= h a) by (apply MO; lra).
        rewrite !Rabs_pos_eq; unfold da in *; try lra; nra.
      - assert (h a <= h (a + 1 * (1/1000) * 2 ^ it)) by (apply MO; lra).
        assert (da < 0) by lra. rewrite !Rabs_left1; unfold da in *; try lra; nra. }
    destruct (Rltb_spec (Rabs da) (Rabs (h xb - n))); [lra|].
    rewrite ER. apply IH; try assumption; lia.
Qed.

(** * The halving grid *)
Lemma grid_mid a d x y : grid a d x -> grid a d y -> grid a d ((x + y) / 2).
Proof.
  intros (m & i & ->) (p & j & ->). exists (m * 2 ^ Z.of_nat j + p * 2 ^ Z.of_nat i)%Z, (i + j + 1)%nat.
  rewrite plus_IZR, !mult_IZR, <- !pow_IZR, !pow_add. field. split; apply pow_nonzero; lra.
Qed.
Lemma grid_start a d : grid a d a.
Proof. exists 0%Z, 0%nat. cbn. field. Qed.
Lemma grid_step a d : grid a d (a + d).
Proof. exists 1%Z, 0%nat. cbn. field. Qed.
Lemma grid_up a d j : grid a d (a + d * 2 ^ j).
Proof. exists (2 ^ Z.of_nat j)%Z, 0%nat. rewrite <- pow_IZR. cbn [pow]. field. Qed.
Lemma grid_down a d j : grid a d (a - d * 2 ^ j).
Proof. exists (- 2 ^ Z.of_nat j)%Z, 0%nat. rewrite opp_IZR, <- pow_IZR. cbn [pow]. field. Qed.

(** * Fixed curvature *)
(** The same function with the iteration limits as parameters. *)
Definition solve_gen (K M : nat) (f : R -> result R) (n eps0 n0 : R) : result R :=
  let da := n0 - n in
  if Rleb (Rabs da) (1/100) then Ok eps0
  else
    do b <- prefind K f n eps0 da 0 0 (1/1000) 0 (0, 0);
    bisect M f n eps0 da (fst b) (snd b) None.
Lemma solve_gen_eq : solve_curvature = solve_gen 500 100.
Proof. reflexivity. Qed.
Lemma solve_gen_sound K M f h n eps0 e  : (20 < K)%nat -> total f h -> nondecreasing h ->
  (forall x, grid eps0 (1/1000) x -> h x <> n) ->
  solve_gen K M f n eps0 (h eps0) = Ok e -> balances n (h e).
Proof.
  intros HK T MO NZ E. unfold solve_gen in E.
  destruct (Rleb_spec (Rabs (h eps0 - n)) (1/100)) as [L|L]; [inversion E; subst; exact L|].
  assert (N0 : h eps0 - n <> 0) by (intros X; rewrite X, Rabs_R0 in L; lra).
  destruct (prefind_dich K f h n eps0 0 0 (0, 0) T MO N0) as [X|(b & db & X & -> & S0 & j & _ & J)]; [lia|lia| |].
  { rewrite X in E. discriminate. }
  rewrite X in E. cbn [bind fst snd] in E.
  assert (GB : grid eps0 (1/1000) b) by (destruct J as [-> | ->]; [apply grid_up|apply grid_down]).
  assert (NZ' : forall x v, grid eps0 (1/1000) x -> f x = Ok v -> v <> n) by (intros x v G Y; rewrite T in Y; inversion Y; subst; now apply NZ).
  assert (HA : f eps0 = Ok (h eps0 - n + n)) by (rewrite T; f_equal; lra).
  assert (HB : f b = Ok (h b - n + n)) by (rewrite T; f_equal; lra).
  destruct (bisect_sound M (grid eps0 (1/1000)) (grid_mid _ _) f n _ _ _ _ _ _ (grid_start _ _) GB NZ' HA HB S0 (or_introl eq_refl) E) as (v & Y & B).
  rewrite T in Y. inversion Y; subst. exact B.
Qed.
Lemma solve_gen_err K M f h n eps0 x  : (20 < K)%nat -> total f h -> nondecreasing h ->
  solve_gen K M f n eps0 (h eps0) = Err x -> x = ValueError.
Proof.
  intros HK T MO E. unfold solve_gen in E.
  destruct (Rleb_spec (Rabs (h eps0 - n)) (1/100)) as [L|L]; [discriminate|].
  assert (N0 : h eps0 - n <> 0) by (intros X; rewrite X, Rabs_R0 in L; lra).
  destruct (prefind_dich K f h n eps0 0 0 (0, 0) T MO N0) as [X|(b & db & X & -> & S0 & j & _ & J)]; [lia|lia| |].
  { rewrite X in E. now inversion E. }
  rewrite X in E. cbn [bind fst snd] in E. eapply bisect_err; [exact T| |exact E].
  intros _. rewrite abs_gap by assumption. pose proof (Rabs_pos (h b - n)). lra.
Qed.
Lemma solve_gen_finds K f h n eps0 L  : (20 < K)%nat -> total f h -> nondecreasing h -> lipschitz L h -> L <= 10 ^ 24 ->
  (forall x, grid eps0 (1/1000) x -> h x <> n) ->
  h (eps0 - 1/1000 * 2 ^ 19) < n < h (eps0 + 1/1000 * 2 ^ 19) ->
  exists e, solve_gen K 100 f n eps0 (h eps0) = Ok e.
Proof.
  intros HK T MO LP LB NZ C. unfold solve_gen.
  destruct (Rleb_spec (Rabs (h eps0 - n)) (1/100)) as [Q|Q]; [eexists; reflexivity|].
  assert (N0 : h eps0 - n <> 0) by (intros X; rewrite X, Rabs_R0 in Q; lra).
  destruct (prefind_monotone K f h n eps0 0 0 (0, 0) T MO N0) as (b & db & X & -> & S0 & j & J1 & J); [lia|lia|tauto|tauto|].
  rewrite X. cbn [bind fst snd].
  apply (bisect_converges 99 (grid eps0 (1/1000)) (grid_mid _ _) f h n eps0 b None L T LP (grid_start _ _)).
  - destruct J as [-> | ->]; [apply grid_up|apply grid_down].
  - exact NZ.
  - exact S0.
  - intros _. rewrite abs_gap by assumption. pose proof (Rabs_pos (h b - n)). lra.
  - assert (P : 0 < 2 ^ j) by (apply pow_lt; lra).
    assert (PM : 2 ^ j <= 2 ^ 19) by (apply Rle_pow; [lra|lia]).
    assert (A : Rabs (eps0 - b) <= 1/1000 * 2 ^ 19).
    { destruct J as [-> | ->]; [replace (eps0 - (eps0 + 1/1000 * 2 ^ j)) with (- (1/1000 * 2 ^ j)) by ring; rewrite Rabs_Ropp
        |replace (eps0 - (eps0 - 1/1000 * 2 ^ j)) with (1/1000 * 2 ^ j) by ring]; rewrite Rabs_pos_eq; lra. }
    apply Rle_trans with (10 ^ 24 * (1/1000 * 2 ^ 19)).
    { apply Rmult_le_compat; try apply Rabs_pos; try assumption.
      pose proof (LP 0 1) as Y. assert (Z : Rabs (0 - 1) = 1) by (unfold Rabs; destruct (Rcase_abs _); lra). rewrite Z in Y.
      pose proof (Rabs_pos (h 0 - h 1)). lra. }
    clear. assert (2 ^ 99 = 633825300114114700748351602688) by (cbn [pow]; lra). rewrite H. cbn [pow]. lra.
Qed.
Lemma solve_gen_jump K M f h n eps0  : (20 < K)%nat -> total f h -> nondecreasing h ->
  (forall x, 1/100 < Rabs (h x - n)) -> solve_gen K M f n eps0 (h eps0) = Err ValueError.
Proof.
  intros HK T MO J. unfold solve_gen. pose proof (J eps0) as L.
  destruct (Rleb_spec (Rabs (h eps0 - n)) (1/100)) as [Q|Q]; [lra|].
  assert (N0 : h eps0 - n <> 0) by (intros X; rewrite X, Rabs_R0 in L; lra).
  destruct (prefind_dich K f h n eps0 0 0 (0, 0) T MO N0) as [X|(b & db & X & -> & S0 & j & _ & _)]; [lia|lia| |].
  { now rewrite X. }
  rewrite X. cbn [bind fst snd]. eapply bisect_jump; [exact T| |exact S0| |]; [intros x; specialize (J x); lra|lra|specialize (J b); lra].
Qed.

Lemma solve_curvature_sound f h n eps0 e : total f h -> nondecreasing h ->
  (forall x, grid eps0 (1/1000) x -> h x <> n) ->
  solve_curvature f n eps0 (h eps0) = Ok e -> balances n (h e).
Proof. rewrite solve_gen_eq. apply solve_gen_sound. lia. Qed.
Lemma solve_curvature_err f h n eps0 x : total f h -> nondecreasing h ->
  solve_curvature f n eps0 (h eps0) = Err x -> x = ValueError.
Proof. rewrite solve_gen_eq. apply solve_gen_err. lia. Qed.
Lemma solve_curvature_finds f h n eps0 L : total f h -> nondecreasing h -> lipschitz L h -> L <= 10 ^ 24 ->
  (forall x, grid eps0 (1/1000) x -> h x <> n) ->
  h (eps0 - 1/1000 * 2 ^ 19) < n < h (eps0 + 1/1000 * 2 ^ 19) ->
  exists e, solve_curvature f n eps0 (h eps0) = Ok e.
Proof. rewrite solve_gen_eq. apply solve_gen_finds. lia. Qed.
Lemma solve_curvature_jump f h n eps0 : total f h -> nondecreasing h ->
  (forall x, 1/100 < Rabs (h x - n)) -> solve_curvature f n eps0 (h eps0) = Err ValueError.
Proof. rewrite solve_gen_eq. apply solve_gen_jump. lia. Qed.
