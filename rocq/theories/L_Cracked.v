(** Lemmas for C50: local root search and integrals of functions of the height. *)
From Coquelicot Require Import Coquelicot.
From Verif Require Import Base M_Marin S_Marin L_Marin M_Laws S_Laws L_Laws M_Laws2 S_Laws2 M_Fiber S_Fiber M_MarinInt S_MarinInt L_MarinInt L_MarinInt2 L_MarinInt3 L_MarinInt4 M_Section S_Section L_Section.
From Coq Require Import Lra Lia.

(** ** The search only looks at the response near the start *)
Lemma bisect_local lo hi fuel : forall f h n xa da xb db last,
  (forall x, lo <= x <= hi -> f x = Ok (h x)) -> lo <= xa <= hi -> lo <= xb <= hi ->
  bisect fuel f n xa da xb db last = bisect fuel (fun x => Ok (h x)) n xa da xb db last.
Proof.
  induction fuel as [|k IH]; intros f h n xa da xb db last F A B; [reflexivity|]. cbn [bisect].
  destruct (Rltb (1/100) (Rabs (da - db))); [|reflexivity].
  assert (X : lo <= (xa + xb) / 2 <= hi) by lra. rewrite (F _ X). cbn [bind].
  destruct (Rltb _ 0); apply IH; auto.
Qed.
Lemma prefind_local K fuel : forall f h n a it ds b0, (K < 20)%nat ->
  (forall x, a - 1/1000 * 2 ^ K <= x <= a + 1/1000 * 2 ^ K -> f x = Ok (h x)) -> nondecreasing h ->
  let da := h a - n in
  da <> 0 -> (it <= K)%nat -> (20 - it < fuel)%nat ->
  (0 < da -> h (a - 1/1000 * 2 ^ K) < n) -> (da < 0 -> n < h (a + 1/1000 * 2 ^ K)) ->
  exists b db, prefind fuel f n a da it 0 (1/1000) ds b0 = Ok (b, db) /\ prefind fuel (fun x => Ok (h x)) n a da it 0 (1/1000) ds b0 = Ok (b, db) /\
    db = h b - n /\ da * db < 0 /\
    exists j, (j <= K)%nat /\ (b = a + 1/1000 * 2 ^ j \/ b = a - 1/1000 * 2 ^ j).
Proof.
  induction fuel as [|k IH]; intros f h n a it ds b0 K20 T MO da NZ I F U D; [lia|].
  cbn [prefind]. destruct (Nat.ltb_spec it 20); [|lia]. cbn [andb]. cbn [Nat.ltb Nat.leb].
  set (xb := a + (if Rltb 0 da then -1 else 1) * (1/1000) * 2 ^ it).
  assert (P : 0 < 2 ^ it) by (apply pow_lt; lra).
  assert (PM : 2 ^ it <= 2 ^ K) by (apply Rle_pow; [lra|lia]).
  assert (XB : a - 1/1000 * 2 ^ K <= xb <= a + 1/1000 * 2 ^ K) by (unfold xb; destruct (Rltb 0 da); lra).
  rewrite (T _ XB). cbn [bind].
  destruct (Rltb_spec (da * (h xb - n)) 0) as [S0|S0].
  - exists xb, (h xb - n). do 3 (split; [reflexivity|]). split; [exact S0|].
    exists it. split; [assumption|]. unfold xb. destruct (Rltb 0 da); [right|left]; ring.
  - assert (Q : Rabs (h xb - n) <= Rabs da).
    { unfold xb in *. destruct (Rltb_spec 0 da) as [L|L].
      - assert (h (a + -1 * (1/1000) * 2 ^ it) <= h a) by (apply MO; lra).
        rewrite !Rabs_pos_eq; unfold da in *; try lra; nra.
      - assert (h a <= h (a + 1 * (1/1000) * 2 ^ it)) by (apply MO; lra).
        assert (da < 0) by lra. rewrite !Rabs_left1; unfold da in *; try lra; nra. }
    destruct (Rltb_spec (Rabs da) (Rabs (h xb - n))); [lra|].
    destruct (Nat.eq_dec it K) as [->|NE].
    + exfalso. apply S0. unfold xb. destruct (Rltb_spec 0 da) as [L|L].
      * specialize (U L). replace (a + -1 * (1/1000) * 2 ^ K) with (a - 1/1000 * 2 ^ K) by ring. nra.
      * assert (L' : da < 0) by lra. specialize (D L'). replace (a + 1 * (1/1000) * 2 ^ K) with (a + 1/1000 * 2 ^ K) by ring. nra.
    + apply IH; try assumption; lia.
Qed.
(** Only the response within 1/1000 * 2^K of the start matters. *)
Lemma solve_local_gen K N B f h n a : (K < 20)%nat -> (20 < N)%nat ->
  (forall x, a - 1/1000 * 2 ^ K <= x <= a + 1/1000 * 2 ^ K -> f x = Ok (h x)) -> nondecreasing h ->
  h (a - 1/1000 * 2 ^ K) < n < h (a + 1/1000 * 2 ^ K) ->
  solve_gen N B f n a (h a) = solve_gen N B (fun x => Ok (h x)) n a (h a).
Proof.
  intros K20 HN T MO C. unfold solve_gen.
  destruct (Rleb_spec (Rabs (h a - n)) (1/100)) as [Q|Q]; [reflexivity|].
  assert (N0 : h a - n <> 0) by (intros X; rewrite X, Rabs_R0 in Q; lra).
  destruct (prefind_local K N f h n a 0 0 (0, 0) K20 T MO N0) as (b & db & X & Y & -> & S0 & j & J1 & J); [lia|lia|tauto|tauto|].
  rewrite X, Y. cbn [bind fst snd].
  assert (P : 0 < 2 ^ j) by (apply pow_lt; lra).
  assert (PK : 0 < 2 ^ K) by (apply pow_lt; lra).
  assert (PM : 2 ^ j <= 2 ^ K) by (apply Rle_pow; [lra|lia]).
  apply (bisect_local _ _ B f h n a _ b _ None T); lra.
Qed.
Lemma solve_local K f h n a : (K < 20)%nat ->
  (forall x, a - 1/1000 * 2 ^ K <= x <= a + 1/1000 * 2 ^ K -> f x = Ok (h x)) -> nondecreasing h ->
  h (a - 1/1000 * 2 ^ K) < n < h (a + 1/1000 * 2 ^ K) ->
  solve_curvature f n a (h a) = solve_curvature (fun x => Ok (h x)) n a (h a).
Proof. intros K20. rewrite solve_gen_eq. apply solve_local_gen; [assumption|lia]. Qed.

(** ** Integrals of functions of the height only *)
Lemma region_field F ring : region_integral (fun _ z => F z) ring = gfield 0 F ring.
Proof.
  unfold region_integral, gfield. apply lsum_map_ext. intros e _. unfold gedge. apply RInt_ext. intros t _.
  unfold gfun. rewrite RInt_const. change (scal ?a ?b) with (a * b). cbn [Nat.add INR pow]. toR. field.
Qed.
Definition sfield (F : R -> R) (s : surface) : R :=
  gfield 0 F (ccw_ring (sf_ext s)) + lsum (map (fun r => gfield 0 F (cw_ring r)) (sf_ints s)).
Lemma surface_field F s : surface_integral (fun _ z => F z) s = sfield F s.
Proof. unfold surface_integral, sfield. rewrite region_field. f_equal. apply lsum_map_ext. intros r _. apply region_field. Qed.
Lemma sfield_plus F G s : eint F -> eint G -> sfield (fun z => F z + G z) s = sfield F s + sfield G s.
Proof.
  intros A B. unfold sfield. rewrite gfield_plus by assumption.
  rewrite (lsum_map_ext _ (fun r => gfield 0 F (cw_ring r) + gfield 0 G (cw_ring r))).
  2:{ intros. now apply gfield_plus. }
  rewrite lsum_map_plus. lra.
Qed.
Lemma sfield_scal k F s : eint F -> sfield (fun z => k * F z) s = k * sfield F s.
Proof.
  intros A. unfold sfield. rewrite gfield_scal by assumption.
  rewrite (lsum_map_ext _ (fun r => k * gfield 0 F (cw_ring r))). 2:{ intros. now apply gfield_scal. }
  rewrite lsum_map_scal. lra.
Qed.
Lemma eint_continuity F : (forall z, continuity_pt F z) -> eint F.
Proof. intros H. apply eint_cont. intros z. apply continuity_pt_filterlim. apply H. Qed.

(** Only heights between those of the vertices matter. *)
Definition in_band (lo hi : R) (s : surface) : Prop :=
  (forall v, In v (sf_ext s) -> lo <= snd v <= hi) /\ (forall r v, In r (sf_ints s) -> In v r -> lo <= snd v <= hi).
Lemma edges_in l p q : In (p, q) (edges l) -> In p l /\ In q l.
Proof.
  induction l as [|a [|b l] IH]; cbn [edges]; intros H; [contradiction|contradiction|].
  destruct H as [E|H]; [injection E as <- <-; cbn; auto|]. destruct (IH H). split; right; assumption.
Qed.
Lemma gfield_band lo hi F G ring : (forall v, In v ring -> lo <= snd v <= hi) -> (forall z, lo <= z <= hi -> F z = G z) ->
  gfield 0 F ring = gfield 0 G ring.
Proof.
  intros V E. unfold gfield. apply lsum_map_ext. intros [p q] I. apply edges_in in I. destruct I as [I J].
  unfold gedge. apply RInt_ext. intros t T. rewrite Rmin_left, Rmax_right in T by lra. unfold gfun. f_equal. f_equal. apply E.
  specialize (V p I) as V1. specialize (V q J) as V2. unfold seg. cbn [fst snd] in *. nra.
Qed.
Lemma ccw_in r v : In v (ccw_ring r) -> In v r.
Proof. unfold ccw_ring. destruct (Rlt_dec _ _); [apply in_rev|auto]. Qed.
Lemma cw_in r v : In v (cw_ring r) -> In v r.
Proof. unfold cw_ring. destruct (Rlt_dec _ _); [apply in_rev|auto]. Qed.
Lemma sfield_band lo hi F G s : in_band lo hi s -> (forall z, lo <= z <= hi -> F z = G z) -> sfield F s = sfield G s.
Proof.
  intros [V W] E. unfold sfield. f_equal.
  - apply (gfield_band lo hi); [|exact E]. intros v I. apply V. now apply ccw_in.
  - apply lsum_map_ext. intros r I. apply (gfield_band lo hi); [|exact E]. intros v J. apply (W r v I). now apply cw_in.
Qed.
Lemma sfield_ext F G s : (forall z, F z = G z) -> sfield F s = sfield G s.
Proof.
  intros E. unfold sfield. f_equal; [now apply gfield_ext|]. apply lsum_map_ext. intros. now apply gfield_ext.
Qed.
(** Turning by half a turn. *)
Lemma gfield_half a F ring : cos a = -1 -> sin a = 0 -> gfield 0 F (map (turn a) ring) = gfield 0 (fun z => F (- z)) ring.
Proof.
  intros Cs Sn. unfold gfield. rewrite edges_turn, map_map. apply lsum_map_ext. intros [p q] _. unfold gedge. cbn [fst snd].
  apply RInt_ext. intros t _. unfold gfun, seg, turn. cbn [fst snd]. rewrite Cs, Sn. cbn [Nat.add INR pow].
  replace ((1 - t) * (0 * fst p + -1 * snd p) + t * (0 * fst q + -1 * snd q)) with (- ((1 - t) * snd p + t * snd q)) by ring.
  toR. field.
Qed.
Lemma sfield_half a F s : cos a = -1 -> sin a = 0 -> sfield F (turned a s) = sfield (fun z => F (- z)) s.
Proof.
  intros Cs Sn. unfold sfield, turned. cbn [sf_ext sf_ints]. rewrite map_map. f_equal.
  - unfold ccw_ring. rewrite turned_area. destruct (Rlt_dec _ _); [rewrite <- map_rev|]; now apply gfield_half.
  - apply lsum_map_ext. intros r _. unfold cw_ring. rewrite turned_area. destruct (Rlt_dec _ _); [rewrite <- map_rev|]; now apply gfield_half.
Qed.
