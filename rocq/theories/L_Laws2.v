From Coquelicot Require Import Coquelicot.
From Verif Require Import Base M_Laws S_Laws L_Laws L_LawsB L_LawsC M_Laws2 S_Laws2.

Lemma increasing_tl x xs : increasing (x :: xs) -> increasing xs.
Proof. intros H i j Hij. apply (H (S i) (S j)). cbn. lia. Qed.
Lemma increasing_hd x xs y : increasing (x :: xs) -> In y xs -> x < y.
Proof.
  intros H Hy. destruct (In_nth _ _ 0 Hy) as (k & Hk & <-). apply (H O (S k)). cbn. lia.
Qed.
Lemma increasing_cons x xs : increasing xs -> (forall y, In y xs -> x < y) -> increasing (x :: xs).
Proof.
  intros H Hx [|i] [|j] Hij; cbn in *; try lia.
  - apply Hx, nth_In. lia.
  - apply H. lia.
Qed.

Lemma interp_go_seg xs : forall ys x0 y0 i e, length xs = length ys ->
  increasing (x0 :: xs) -> (S i < length (x0 :: xs))%nat ->
  nth i (x0 :: xs) 0 <= e <= nth (S i) (x0 :: xs) 0 ->
  interp_go x0 y0 xs ys e = chord (x0 :: xs) (y0 :: ys) i e.
Proof.
  induction xs as [|x1 xs IH]; intros [|y1 ys] x0 y0 i e Hl Hi Hn He; cbn in Hl, Hn; try lia.
  assert (H01 : x0 < x1) by (apply (Hi O 1%nat); cbn; lia).
  cbn [interp_go]. destruct i as [|i].
  - cbn in He. destruct (Rltb_spec e x1) as [L|L].
    + unfold chord; cbn. destruct (Reqb_spec e x0) as [->|N]; [|lra].
      replace (x0 - x0) with 0 by lra. lra.
    + assert (e = x1) by lra. subst e. clear He.
      assert (E : interp_go x1 y1 xs ys x1 = y1).
      { destruct xs as [|x2 xs]; [destruct ys; cbn; destruct (Reqb_spec x1 x1); [reflexivity|lra..]|].
        destruct ys as [|y2 ys]; [cbn in Hl; lia|]. cbn.
        assert (x1 < x2) by (apply (Hi 1%nat 2%nat); cbn; lia).
        destruct (Rltb_spec x1 x2); [|lra]. destruct (Reqb_spec x1 x1); [reflexivity|lra]. }
      rewrite E. unfold chord; cbn. field. lra.
  - assert (Hx1 : x1 <= nth i (x1 :: xs) 0).
    { destruct i as [|i]; [cbn; lra|]. left. apply (Hi 1%nat (S (S i))). cbn. lia. }
    change (nth (S i) (x0 :: x1 :: xs) 0) with (nth i (x1 :: xs) 0) in He.
    change (nth (S (S i)) (x0 :: x1 :: xs) 0) with (nth (S i) (x1 :: xs) 0) in He.
    destruct (Rltb_spec e x1); [lra|].
    rewrite (IH ys x1 y1 i e); [reflexivity|lia|exact (increasing_tl _ _ Hi)|cbn; lia|exact He].
Qed.

Lemma interp_seg xs ys i e : length xs = length ys -> increasing xs -> (S i < length xs)%nat ->
  nth i xs 0 <= e <= nth (S i) xs 0 -> interp xs ys e = chord xs ys i e.
Proof.
  destruct xs as [|x0 xs]; [cbn; lia|]. destruct ys as [|y0 ys]; [cbn; lia|].
  intros Hl Hi Hn He. cbn [interp].
  assert (x0 <= nth i (x0 :: xs) 0).
  { destruct i as [|i]; [cbn; lra|]. left. apply (Hi O (S i)). cbn in *; lia. }
  destruct (Rltb_spec e x0); [lra|]. apply interp_go_seg; try assumption. cbn in Hl; lia.
Qed.

Lemma interp_left xs ys e : e < nth 0 xs 0 -> interp xs ys e = 0.
Proof. destruct xs as [|x0 xs]; [reflexivity|]. destruct ys; [reflexivity|]. cbn. intros H. destruct (Rltb_spec e x0); lra. Qed.

Lemma last_cons2 (x y : R) l : last (x :: y :: l) 0 = last (y :: l) 0.
Proof. reflexivity. Qed.
Lemma increasing_last x xs : increasing (x :: xs) -> x <= last (x :: xs) 0.
Proof.
  revert x; induction xs as [|y xs IH]; intros x H; [cbn; lra|].
  rewrite last_cons2. assert (x < y) by (apply (H O 1%nat); cbn; lia).
  assert (A := IH y (increasing_tl _ _ H)). lra.
Qed.
Lemma interp_go_right xs : forall ys x0 y0 e, length xs = length ys -> increasing (x0 :: xs) ->
  last (x0 :: xs) 0 < e -> interp_go x0 y0 xs ys e = 0.
Proof.
  induction xs as [|x1 xs IH]; intros [|y1 ys] x0 y0 e Hl Hi He; cbn in Hl; try lia.
  - cbn in *. destruct (Reqb_spec e x0); lra.
  - rewrite last_cons2 in He. cbn [interp_go]. assert (A := increasing_last _ _ (increasing_tl _ _ Hi)).
    destruct (Rltb_spec e x1); [lra|]. apply IH; [lia|exact (increasing_tl _ _ Hi)|exact He].
Qed.
Lemma interp_right xs ys e : length xs = length ys -> increasing xs -> last xs 0 < e -> interp xs ys e = 0.
Proof.
  destruct xs as [|x0 xs]; [reflexivity|]. destruct ys as [|y0 ys]; [reflexivity|].
  intros Hl Hi He. cbn [interp]. destruct (Rltb_spec e x0); [reflexivity|].
  apply interp_go_right; try assumption. cbn in Hl; lia.
Qed.
Lemma interp_single x y e : interp [x] [y] e = if Reqb e x then y else 0.
Proof. cbn. destruct (Rltb_spec e x); [|reflexivity]. destruct (Reqb_spec e x); [lra|reflexivity]. Qed.

Lemma interp_node xs ys i : length xs = length ys -> increasing xs -> (i < length xs)%nat ->
  interp xs ys (nth i xs 0) = nth i ys 0.
Proof.
  intros Hl Hi Hn. destruct (Nat.eq_dec (length xs) 1) as [H1|H1].
  - destruct xs as [|x [|]]; cbn in *; try lia. destruct ys as [|y [|]]; cbn in *; try lia.
    assert (i = 0)%nat by lia; subst i. destruct (Rltb_spec x x); [lra|]. destruct (Reqb_spec x x); [reflexivity|lra].
  - destruct (Nat.eq_dec (S i) (length xs)) as [E|E].
    + destruct i as [|i]; [lia|].
      assert (nth i xs 0 < nth (S i) xs 0) by (apply Hi; lia).
      rewrite (interp_seg xs ys i) by (try assumption; try lia; lra).
      unfold chord. field. lra.
    + assert (nth i xs 0 < nth (S i) xs 0) by (apply Hi; lia).
      rewrite (interp_seg xs ys i) by (try assumption; try lia; lra).
      unfold chord. field. lra.
Qed.

(** every strain inside the data lies on some segment *)
Lemma locate xs e : increasing xs -> nth 0 xs 0 <= e <= last xs 0 -> (2 <= length xs)%nat ->
  exists i, (S i < length xs)%nat /\ nth i xs 0 <= e <= nth (S i) xs 0.
Proof.
  induction xs as [|x0 [|x1 xs] IH]; intros Hi He Hn; cbn [length] in Hn; try lia.
  destruct (Rle_lt_dec e x1) as [L|L].
  - exists O. cbn in *. split; [lia|lra].
  - destruct xs as [|x2 xs].
    + cbn in He. lra.
    + destruct IH as (i & Hi' & Hei).
      * exact (increasing_tl _ _ Hi).
      * rewrite last_cons2 in He. cbn [nth]. lra.
      * cbn. lia.
      * exists (S i). cbn [length] in *. split; [lia|]. exact Hei.
Qed.

(** Branch lists. *)
Lemma in_branches xs : forall ys e0 e1 r c, In (r, c) (ud_branches xs ys e0 e1) ->
  exists i, (S i < length xs)%nat /\ (S i < length ys)%nat /\ r = (nth i xs 0, nth (S i) xs 0) /\
  c = [ (nth (S i) ys 0 - nth i ys 0) / (nth (S i) xs 0 - nth i xs 0) * (e0 - nth i xs 0) + nth i ys 0;
        (nth (S i) ys 0 - nth i ys 0) / (nth (S i) xs 0 - nth i xs 0) * e1 ].
Proof.
  induction xs as [|x0 [|x1 xs] IH]; intros ys e0 e1 r c; [intros []|destruct ys as [|y0 [|y1 ys]]; intros []|].
  destruct ys as [|y0 [|y1 ys]]; [intros []..|].
  cbn [ud_branches]. intros [H|H].
  - injection H as <- <-. exists O. cbn. repeat split; lia.
  - destruct (IH (y1 :: ys) e0 e1 r c H) as (i & A & B & C & D). exists (S i). cbn [length] in *.
    repeat split; try lia; [exact C|exact D].
Qed.
Lemma branches_in xs : forall ys e0 e1 i, (S i < length xs)%nat -> length xs = length ys ->
  In (nth i xs 0, nth (S i) xs 0) (map fst (ud_branches xs ys e0 e1)).
Proof.
  induction xs as [|x0 [|x1 xs] IH]; intros [|y0 [|y1 ys]] e0 e1 i Hi Hl; cbn [length] in *; try lia.
  destruct i as [|i]; [left; reflexivity|right].
  apply (IH (y1 :: ys) e0 e1 i); cbn [length]; lia.
Qed.
Lemma combine_fst_snd {A B} (l : list (A * B)) : combine (map fst l) (map snd l) = l.
Proof. induction l as [|[a b] l IH]; cbn; [reflexivity|]. rewrite IH. reflexivity. Qed.

Lemma interp_describes xs ys e0 e1 : increasing xs -> length xs = length ys -> (2 <= length xs)%nat ->
  describes (fun _ => True) (interp xs ys) e0 e1
    (Some (map fst (ud_branches xs ys e0 e1)), map snd (ud_branches xs ys e0 e1)).
Proof.
  intros Hi Hl H2. unfold describes. cbn [fst snd]. split; [rewrite !map_length; reflexivity|].
  intros y _. rewrite combine_fst_snd. split.
  - intros r c Hin Hr. destruct (in_branches _ _ _ _ _ _ Hin) as (i & A & B & -> & ->). cbn [fst snd] in Hr.
    rewrite (interp_seg xs ys i); [|assumption..]. unfold chord. cbn [poly]. ring.
  - intros Hno. set (e := e0 + e1 * y) in *.
    destruct (Rlt_le_dec e (nth 0 xs 0)) as [L|L]; [apply interp_left, L|].
    destruct (Rlt_le_dec (last xs 0) e) as [L2|L2]; [apply interp_right; assumption|].
    destruct (locate xs e Hi (conj L L2) H2) as (i & Hn & He). exfalso.
    exact (Hno _ (branches_in xs ys e0 e1 i Hn Hl) He).
Qed.

Lemma ud_find_cons x0 x1 xs y0 y1 ys e0 e1 : ud_find (x0 :: x1 :: xs) (y0 :: y1 :: ys) e0 e1 =
  if andb (Rleb x0 e0) (Rleb e0 x1)
  then Some [(y1 - y0) / (x1 - x0) * (e0 - x0) + y0; (y1 - y0) / (x1 - x0) * e1]
  else ud_find (x1 :: xs) (y1 :: ys) e0 e1.
Proof. reflexivity. Qed.
Lemma find_spec xs : forall ys e0 e1, length xs = length ys ->
  match ud_find xs ys e0 e1 with
  | Some c => exists i, (S i < length xs)%nat /\ nth i xs 0 <= e0 <= nth (S i) xs 0 /\
       c = [ (nth (S i) ys 0 - nth i ys 0) / (nth (S i) xs 0 - nth i xs 0) * (e0 - nth i xs 0) + nth i ys 0;
             (nth (S i) ys 0 - nth i ys 0) / (nth (S i) xs 0 - nth i xs 0) * e1 ]
  | None => forall i, (S i < length xs)%nat -> ~ (nth i xs 0 <= e0 <= nth (S i) xs 0)
  end.
Proof.
  induction xs as [|x0 [|x1 xs] IH]; intros [|y0 [|y1 ys]] e0 e1 Hl; cbn [length] in *; try lia.
  - cbn. intros; lia.
  - cbn. intros; lia.
  - rewrite ud_find_cons. destruct (Rleb_spec x0 e0) as [A|A]; destruct (Rleb_spec e0 x1) as [B|B]; cbn [andb].
    1: exists O; cbn; repeat split; try lia; lra.
    all: specialize (IH (y1 :: ys) e0 e1 ltac:(cbn; lia)); revert IH; destruct (ud_find (x1 :: xs) (y1 :: ys) e0 e1) as [c|]; intros IH;
      [destruct IH as (i & C & D & F); exists (S i); cbn [length] in *; repeat split; [lia|apply D..|exact F]
      |intros [|i] Hi; cbn in *; [lra|apply (IH i); lia]].
Qed.

Lemma ud_describes l e0 e1 : increasing (ud_x l) -> length (ud_x l) = length (ud_y l) -> (2 <= length (ud_x l))%nat ->
  describes (unsnapped (ud_ult l)) (ud_stress l) e0 e1 (snd (ud_marin l (e0, e1))).
Proof.
  intros Hi Hl H2. unfold ud_marin. cbv beta iota zeta.
  destruct (Reqb_spec e1 0) as [->|N].
  - cbn [snd]. set (x := prep (ud_ult l) e0).
    assert (F := find_spec (ud_x l) (ud_y l) x 0 Hl). revert F.
    destruct (ud_find (ud_x l) (ud_y l) x 0) as [c|]; intros F.
    + destruct F as (i & A & B & ->). unfold describes. cbn [fst snd]. eexists. split; [reflexivity|].
      intros y Hy. replace (e0 + 0 * y) with e0 in * by ring. unfold ud_stress. fold x.
      rewrite (interp_seg _ _ i) by assumption. unfold chord. cbn [poly]. ring.
    + unfold describes. cbn [fst snd]. eexists. split; [reflexivity|].
      intros y Hy. replace (e0 + 0 * y) with e0 in * by ring. unfold ud_stress. fold x. cbn [poly].
      destruct (Rlt_le_dec x (nth 0 (ud_x l) 0)) as [L|L]; [rewrite interp_left by exact L; ring|].
      destruct (Rlt_le_dec (last (ud_x l) 0) x) as [L2|L2]; [rewrite interp_right by assumption; ring|].
      destruct (locate _ x Hi (conj L L2) H2) as (i & Hn & He). exfalso. exact (F i Hn He).
  - cbn [snd].
    assert (D := interp_describes (ud_x l) (ud_y l) e0 e1 Hi Hl H2). unfold describes in *. cbn [fst snd] in *.
    destruct D as [D1 D2]. split; [exact D1|]. intros y Hy. specialize (D2 y I).
    unfold ud_stress. unfold unsnapped in Hy. rewrite Hy. exact D2.
Qed.

(** Slopes and tangent. *)
Lemma slopes_cons x0 x1 xs y0 y1 ys :
  slopes (x0 :: x1 :: xs) (y0 :: y1 :: ys) = (y1 - y0) / (x1 - x0) :: slopes (x1 :: xs) (y1 :: ys).
Proof. reflexivity. Qed.
Lemma slopes_length xs : forall ys, length xs = length ys -> length (slopes xs ys) = (length xs - 1)%nat.
Proof.
  induction xs as [|x0 [|x1 xs] IH]; intros [|y0 [|y1 ys]] H; cbn [length] in *; try lia; try reflexivity.
  rewrite slopes_cons. cbn [length]. rewrite IH by (cbn; lia). cbn; lia.
Qed.
Lemma slopes_nth xs : forall ys i, length xs = length ys -> (S i < length xs)%nat ->
  nth i (slopes xs ys) 0 = (nth (S i) ys 0 - nth i ys 0) / (nth (S i) xs 0 - nth i xs 0).
Proof.
  induction xs as [|x0 [|x1 xs] IH]; intros [|y0 [|y1 ys]] i H Hi; cbn [length] in *; try lia.
  destruct i as [|i]; [reflexivity|]. rewrite slopes_cons.
  change (nth (S i) ((y1 - y0) / (x1 - x0) :: slopes (x1 :: xs) (y1 :: ys)) 0) with (nth i (slopes (x1 :: xs) (y1 :: ys)) 0).
  rewrite IH by (cbn [length]; lia). reflexivity.
Qed.
Lemma searchsorted_seg xs : forall i e, increasing xs -> (S i < length xs)%nat ->
  nth i xs 0 < e <= nth (S i) xs 0 -> searchsorted xs e = S i.
Proof.
  induction xs as [|x0 xs IH]; intros i e Hi Hn He; cbn [length] in Hn; [lia|].
  cbn [searchsorted].
  assert (x0 <= nth i (x0 :: xs) 0).
  { destruct i as [|i]; [cbn; lra|]. left. apply (Hi O (S i)). cbn; lia. }
  destruct (Rltb_spec x0 e); [|lra]. f_equal. destruct i as [|i].
  - destruct xs as [|x1 xs]; [cbn in Hn; lia|]. cbn in *. destruct (Rltb_spec x1 e); [lra|reflexivity].
  - apply IH; [exact (increasing_tl _ _ Hi)|lia|exact He].
Qed.
Lemma nth_le_last xs i : increasing xs -> (i < length xs)%nat -> nth i xs 0 <= last xs 0.
Proof.
  revert i; induction xs as [|x0 xs IH]; intros i Hi Hn; cbn [length] in Hn; [lia|].
  destruct i as [|i]; [apply increasing_last, Hi|].
  destruct xs as [|x1 xs]; [cbn in Hn; lia|]. rewrite last_cons2. cbn [nth]. apply IH; [exact (increasing_tl _ _ Hi)|cbn in *; lia].
Qed.
Lemma nth0_le xs i : increasing xs -> (i < length xs)%nat -> nth 0 xs 0 <= nth i xs 0.
Proof. intros Hi Hn. destruct i as [|i]; [lra|]. left. apply Hi. lia. Qed.

Lemma ud_tangent_seg l i e : increasing (ud_x l) -> length (ud_x l) = length (ud_y l) ->
  (S i < length (ud_x l))%nat -> nth i (ud_x l) 0 < e <= nth (S i) (ud_x l) 0 ->
  ud_tangent l e = (nth (S i) (ud_y l) 0 - nth i (ud_y l) 0) / (nth (S i) (ud_x l) 0 - nth i (ud_x l) 0).
Proof.
  intros Hi Hl Hn He. unfold ud_tangent. cbv zeta.
  rewrite (searchsorted_seg _ i) by assumption.
  assert (A := nth0_le (ud_x l) i Hi ltac:(lia)). assert (B := nth_le_last (ud_x l) (S i) Hi Hn).
  destruct (Rltb_spec e (nth 0 (ud_x l) 0)); [lra|]. destruct (Rltb_spec (last (ud_x l) 0) e); [lra|]. cbn [orb].
  rewrite slopes_length by exact Hl. replace (Nat.min (S i - 1) (length (ud_x l) - 1 - 1)) with i by lia.
  apply slopes_nth; assumption.
Qed.
Lemma ud_tangent_out l e : e < nth 0 (ud_x l) 0 \/ last (ud_x l) 0 < e -> ud_tangent l e = 0.
Proof.
  intros H. unfold ud_tangent. cbv zeta. destruct (Rltb_spec e (nth 0 (ud_x l) 0)); [reflexivity|].
  destruct (Rltb_spec (last (ud_x l) 0) e); [reflexivity|lra].
Qed.
Lemma ud_tangent_first l : increasing (ud_x l) -> length (ud_x l) = length (ud_y l) -> (2 <= length (ud_x l))%nat ->
  ud_tangent l (nth 0 (ud_x l) 0) = (nth 1 (ud_y l) 0 - nth 0 (ud_y l) 0) / (nth 1 (ud_x l) 0 - nth 0 (ud_x l) 0).
Proof.
  intros Hi Hl Hn. unfold ud_tangent. cbv zeta.
  assert (S0 : searchsorted (ud_x l) (nth 0 (ud_x l) 0) = O).
  { destruct (ud_x l) as [|x0 xs]; [reflexivity|]. cbn. destruct (Rltb_spec x0 x0); [lra|reflexivity]. }
  rewrite S0. assert (B := nth_le_last (ud_x l) 0 Hi ltac:(lia)).
  destruct (Rltb_spec (nth 0 (ud_x l) 0) (nth 0 (ud_x l) 0)); [lra|]. destruct (Rltb_spec (last (ud_x l) 0) (nth 0 (ud_x l) 0)); [lra|].
  cbn [orb]. change (Nat.min (0 - 1) (length (slopes (ud_x l) (ud_y l)) - 1)) with O.
  apply slopes_nth; [exact Hl|lia].
Qed.
Lemma ud_tangent_arr_map l eps : ud_tangent_arr l eps = map (ud_tangent l) eps.
Proof.
  unfold ud_tangent_arr, ud_tangent. cbv zeta. arr_norm. apply map_ext. intros e.
  destruct (Rltb _ e); destruct (Rltb e _); reflexivity.
Qed.
Lemma ud_stress_arr_map l eps : separated (ud_ult l) -> ud_stress_arr l eps = map (ud_stress l) eps.
Proof. intros H. unfold ud_stress_arr. rewrite (prep_arr_map _ _ H), map_map. reflexivity. Qed.

Lemma ud_deriv l i e : increasing (ud_x l) -> length (ud_x l) = length (ud_y l) ->
  (S i < length (ud_x l))%nat -> nth i (ud_x l) 0 < e < nth (S i) (ud_x l) 0 ->
  far (fst (ud_ult l)) e -> far (snd (ud_ult l)) e ->
  is_derive (ud_stress l) e (ud_tangent l e).
Proof.
  intros Hi Hl Hn He F1 F2. rewrite (ud_tangent_seg l i) by (try assumption; lra).
  set (k := (nth (S i) (ud_y l) 0 - nth i (ud_y l) 0) / (nth (S i) (ud_x l) 0 - nth i (ud_x l) 0)).
  apply (deriv_prep (ud_ult l) (ud_stress l) (interp (ud_x l) (ud_y l))
          (fun t => k * t + (nth i (ud_y l) 0 - k * nth i (ud_x l) 0)) e k (nth i (ud_x l) 0) (nth (S i) (ud_x l) 0));
    try assumption; [reflexivity| |apply affine_deriv].
  intros t Ht. rewrite (interp_seg _ _ i) by (try assumption; lra). unfold chord. fold k. ring.
Qed.
