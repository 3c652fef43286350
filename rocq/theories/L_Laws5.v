(** UserDefined: behaviour through the constructor. *)
From Coquelicot Require Import Coquelicot.
From Verif Require Import Base M_Laws S_Laws L_Laws L_LawsB L_LawsC M_Laws2 S_Laws2 L_Laws2 L_Laws3 L_Laws4.

Lemma two_sided_len x : increasing x -> nth 0 x 0 < 0 -> 0 < last x 0 -> (2 <= length x)%nat.
Proof.
  intros _ A B. destruct x as [|a [|b t]]; cbn in *; try lra; lia.
Qed.

(** The stored points: data or data with two extra points. *)
Lemma extend_shape flag x y X Y : ud_extend flag x y = Ok (X, Y) -> length x = length y -> (2 <= length x)%nat ->
  (flag = 0%nat /\ X = x /\ Y = y) \/
  (flag <> 0%nat /\ exists ya yb, X = nth 0 x 0 * 100 :: x ++ [last x 0 * 100] /\ Y = ya :: y ++ [yb]).
Proof.
  intros H L L2. unfold ud_extend in H.
  destruct flag as [|[|[|[|f]]]].
  - left. injection H as <- <-. auto.
  - right. injection H as <- <-. split; [discriminate|]. eauto.
  - right. destruct (Nat.ltb_spec (length x) 2); [lia|]. injection H as <- <-. split; [discriminate|]. eauto.
  - right. injection H as <- <-. split; [discriminate|]. eauto.
  - discriminate.
Qed.

Lemma extend_increasing flag x y X Y : ud_extend flag x y = Ok (X, Y) -> length x = length y ->
  increasing x -> nth 0 x 0 < 0 -> 0 < last x 0 ->
  increasing X /\ length X = length Y /\ (2 <= length X)%nat.
Proof.
  intros H L I A B. pose proof (two_sided_len x I A B) as L2.
  destruct (extend_shape _ _ _ _ _ H L L2) as [(_ & -> & ->)|(_ & ya & yb & -> & ->)].
  - auto.
  - split; [apply ext_increasing; auto; try lra; lia|]. rewrite !ext_length. lia.
Qed.

Lemma extend_mid flag x y X Y i e : ud_extend flag x y = Ok (X, Y) -> length x = length y ->
  increasing x -> nth 0 x 0 < 0 -> 0 < last x 0 -> (S i < length x)%nat ->
  nth i x 0 <= e <= nth (S i) x 0 -> interp X Y e = chord x y i e.
Proof.
  intros H L I A B Hi He. pose proof (two_sided_len x I A B) as L2.
  pose proof (extend_increasing _ _ _ _ _ H L I A B) as (IX & LX & LX2).
  destruct (extend_shape _ _ _ _ _ H L L2) as [(_ & -> & ->)|(_ & ya & yb & -> & ->)].
  - apply interp_seg; auto.
  - rewrite (interp_seg _ _ (S i)); auto.
    + unfold chord. rewrite !ext_nth_mid by lia. reflexivity.
    + rewrite ext_length. lia.
    + rewrite !ext_nth_mid by lia. exact He.
Qed.

Lemma extend_right flag x y X Y e : ud_extend flag x y = Ok (X, Y) -> length x = length y ->
  increasing x -> nth 0 x 0 < 0 -> 0 < last x 0 -> last x 0 < e <= 100 * last x 0 ->
  interp X Y e = beyond_right flag x y e.
Proof.
  intros H L I A B He. pose proof (two_sided_len x I A B) as L2.
  pose proof (extend_increasing _ _ _ _ _ H L I A B) as (IX & LX & LX2).
  assert (LN : last x 0 = nth (length x - 1) x 0) by apply last_nth.
  assert (LNy : last y 0 = nth (length x - 1) y 0) by (rewrite L; apply last_nth).
  assert (Ext : forall ya yb, increasing (nth 0 x 0 * 100 :: x ++ [last x 0 * 100]) ->
    interp (nth 0 x 0 * 100 :: x ++ [last x 0 * 100]) (ya :: y ++ [yb]) e =
    last y 0 + (yb - last y 0) / (last x 0 * 100 - last x 0) * (e - last x 0)).
  { intros ya yb IX'. rewrite (interp_seg _ _ (length x)); [|rewrite !ext_length; lia|exact IX'|rewrite ext_length; lia|].
    - unfold chord. rewrite ext_nth_end. replace (S (length x)) with (S (length y)) by lia. rewrite (ext_nth_end y).
      replace (length x) with (S (length x - 1)) by lia. rewrite !ext_nth_mid by lia. rewrite LN, LNy. reflexivity.
    - rewrite ext_nth_end. replace (length x) with (S (length x - 1)) at 1 by lia. rewrite ext_nth_mid by lia. rewrite <- LN. lra. }
  unfold ud_extend in H. destruct flag as [|[|[|[|f]]]].
  - injection H as <- <-. cbn. apply interp_right; auto; lra.
  - injection H as <- <-. rewrite Ext by exact IX. cbn. field. lra.
  - destruct (Nat.ltb_spec (length x) 2); [lia|]. injection H as <- <-. rewrite Ext by exact IX.
    cbn [beyond_right]. unfold chord. replace (S (length x - 2)) with (length x - 1)%nat by lia.
    rewrite <- LN, <- LNy. assert (Hn : nth (length x - 2) x 0 < last x 0) by (rewrite LN; apply I; lia). field. lra.
  - injection H as <- <-. rewrite Ext by exact IX. cbn [beyond_right]. field. lra.
  - discriminate.
Qed.

Lemma extend_left flag x y X Y e : ud_extend flag x y = Ok (X, Y) -> length x = length y ->
  increasing x -> nth 0 x 0 < 0 -> 0 < last x 0 -> 100 * nth 0 x 0 <= e < nth 0 x 0 ->
  interp X Y e = beyond_left flag x y e.
Proof.
  intros H L I A B He. pose proof (two_sided_len x I A B) as L2.
  pose proof (extend_increasing _ _ _ _ _ H L I A B) as (IX & LX & LX2).
  assert (Ext : forall ya yb, increasing (nth 0 x 0 * 100 :: x ++ [last x 0 * 100]) ->
    interp (nth 0 x 0 * 100 :: x ++ [last x 0 * 100]) (ya :: y ++ [yb]) e =
    ya + (nth 0 y 0 - ya) / (nth 0 x 0 - nth 0 x 0 * 100) * (e - nth 0 x 0 * 100)).
  { intros ya yb IX'. rewrite (interp_seg _ _ 0%nat); [|rewrite !ext_length; lia|exact IX'|rewrite ext_length; lia|].
    - unfold chord. rewrite !ext_nth_mid by lia. reflexivity.
    - rewrite ext_nth_mid by lia. cbn [nth]. lra. }
  unfold ud_extend in H. destruct flag as [|[|[|[|f]]]].
  - injection H as <- <-. cbn. apply interp_left; lra.
  - injection H as <- <-. rewrite Ext by exact IX. cbn. field. lra.
  - destruct (Nat.ltb_spec (length x) 2); [lia|]. injection H as <- <-. rewrite Ext by exact IX.
    cbn [beyond_left]. unfold chord. assert (Hn : nth 0 x 0 < nth 1 x 0) by (apply I; lia). field. lra.
  - injection H as <- <-. rewrite Ext by exact IX. cbn [beyond_left]. field. lra.
  - discriminate.
Qed.

Lemma two_sided_init x y u flag l : nth 0 x 0 < 0 -> ud_init x y u flag = Ok l ->
  length x = length y /\ (flag <= 3)%nat /\ ud_extend flag x y = Ok (ud_x l, ud_y l) /\
  match u with None => ud_ult l = (nth 0 x 0, last x 0) | Some a => set_ultimate a = Ok (ud_ult l) end.
Proof.
  intros A H. assert (E : ud_base x y = (x, y)).
  { apply ud_base_neg. exists (nth 0 x 0). split; [|exact A]. destruct x; cbn in *; [lra|auto]. }
  destruct (ud_init_inv _ _ _ _ _ _ _ E H) as (? & ? & _ & ? & ?). auto.
Qed.

Lemma ud_stress_settled l e : settled (ud_ult l) e -> ud_stress l e = interp (ud_x l) (ud_y l) e.
Proof. intros H. unfold ud_stress. rewrite (settled_prep _ _ H). reflexivity. Qed.

Lemma describes_stored l e0 e1 : increasing (ud_x l) -> length (ud_x l) = length (ud_y l) -> (2 <= length (ud_x l))%nat ->
  describes (settled (ud_ult l)) (ud_stress l) e0 e1 (snd (ud_marin l (e0, e1))).
Proof.
  intros. eapply describes_weaken; [|apply ud_describes; assumption]. intros e Hs. exact (settled_prep _ _ Hs).
Qed.

(** tangent polynomials *)
Lemma ud_find_t_find xs : forall ys e0, match ud_find xs ys e0 1 with
  | Some c => exists k, ud_find_t xs ys e0 = Some [nth 1 c 0] /\ k = nth 1 c 0 | None => ud_find_t xs ys e0 = None end.
Proof.
  induction xs as [|x0 [|x1 xs] IH]; intros [|y0 [|y1 ys]] e0; try reflexivity.
  rewrite ud_find_cons. cbn [ud_find_t]. fold (ud_find_t (x1 :: xs) (y1 :: ys) e0).
  destruct (andb _ _).
  - eexists. split; [|reflexivity]. cbn. f_equal. f_equal. lra.
  - apply IH.
Qed.

Lemma branches_t_in xs : forall ys r c, In (r, c) (ud_branches_t xs ys) ->
  exists i, (S i < length xs)%nat /\ (S i < length ys)%nat /\ r = (nth i xs 0, nth (S i) xs 0) /\
  c = [ (nth (S i) ys 0 - nth i ys 0) / (nth (S i) xs 0 - nth i xs 0) ].
Proof.
  induction xs as [|x0 [|x1 xs] IH]; intros [|y0 [|y1 ys]] r c H; cbn [ud_branches_t] in H; try contradiction.
  change (((x0, x1), [(y1 - y0) / (x1 - x0)]) = (r, c) \/ In (r, c) (ud_branches_t (x1 :: xs) (y1 :: ys))) in H.
  destruct H as [H|H].
  - injection H as <- <-. exists 0%nat. cbn. repeat split; lia.
  - apply IH in H as (i & A & B & C & D). exists (S i). cbn [length] in *. repeat split; [lia|lia|exact C|exact D].
Qed.
Lemma branches_t_cover xs : forall ys i, (S i < length xs)%nat -> length xs = length ys ->
  In (nth i xs 0, nth (S i) xs 0) (map fst (ud_branches_t xs ys)).
Proof.
  induction xs as [|x0 [|x1 xs] IH]; intros [|y0 [|y1 ys]] i Hi L; cbn [length] in *; try lia.
  change (map fst (ud_branches_t (x0 :: x1 :: xs) (y0 :: y1 :: ys))) with
    ((x0, x1) :: map fst (ud_branches_t (x1 :: xs) (y1 :: ys))).
  destruct i as [|i]; [left; reflexivity|right]. apply IH; cbn [length]; lia.
Qed.

Lemma ud_describes_tangent l e0 e1 : increasing (ud_x l) -> length (ud_x l) = length (ud_y l) -> (2 <= length (ud_x l))%nat ->
  describes (fun e => settled (ud_ult l) e /\ ~ In e (ud_x l)) (ud_tangent l) e0 e1 (snd (ud_marin_tangent l (e0, e1))).
Proof.
  intros I L L2. unfold ud_marin_tangent.
  assert (Sl : forall i e, (S i < length (ud_x l))%nat -> nth i (ud_x l) 0 <= e <= nth (S i) (ud_x l) 0 -> ~ In e (ud_x l) ->
    ud_tangent l e = (nth (S i) (ud_y l) 0 - nth i (ud_y l) 0) / (nth (S i) (ud_x l) 0 - nth i (ud_x l) 0)).
  { intros i e Hi He N. apply ud_tangent_seg; auto. destruct (Req_dec (nth i (ud_x l) 0) e) as [E|E]; [|lra].
    exfalso. apply N. rewrite <- E. apply nth_In. lia. }
  destruct (Reqb_spec e1 0) as [->|Hn].
  - pose proof (find_spec (ud_x l) (ud_y l) (prep (ud_ult l) e0) 1 L) as F.
    pose proof (ud_find_t_find (ud_x l) (ud_y l) (prep (ud_ult l) e0)) as G.
    destruct (ud_find (ud_x l) (ud_y l) (prep (ud_ult l) e0) 1) as [c|].
    + destruct F as (i & Hi & He & ->). destruct G as (k & -> & _). cbn. eexists. split; [reflexivity|].
      intros y [Sy N]. replace (e0 + 0 * y) with e0 in * by lra. cbn [poly]. rewrite (settled_prep _ _ Sy) in He.
      rewrite (Sl i e0 Hi He N). lra.
    + rewrite G. cbn. eexists. split; [reflexivity|]. intros y [Sy N]. replace (e0 + 0 * y) with e0 in * by lra.
      cbn [poly]. rewrite (settled_prep _ _ Sy) in F.
      rewrite ud_tangent_out; [lra|]. destruct (Rlt_dec e0 (nth 0 (ud_x l) 0)); [auto|].
      destruct (Rlt_dec (last (ud_x l) 0) e0); [auto|].
      destruct (locate (ud_x l) e0 I ltac:(lra) L2) as (i & Hi & He). exfalso. exact (F i Hi He).
  - cbn [snd]. unfold describes. cbn [fst snd]. rewrite !map_length. split; [reflexivity|].
    intros y [Sy N]. rewrite combine_fst_snd. split.
    + intros r c Hin Hr. apply branches_t_in in Hin as (i & Hi & _ & -> & ->). cbn [fst snd] in Hr. cbn [poly].
      rewrite (Sl i _ Hi Hr N). lra.
    + intros Hout. apply ud_tangent_out. set (e := e0 + e1 * y) in *. clearbody e.
      destruct (Rlt_dec e (nth 0 (ud_x l) 0)); [auto|].
      destruct (Rlt_dec (last (ud_x l) 0) e); [auto|].
      destruct (locate (ud_x l) e I ltac:(lra) L2) as (i & Hi & He). exfalso.
      exact (Hout _ (branches_t_cover _ (ud_y l) i Hi L) He).
Qed.
