From Coquelicot Require Import Coquelicot.
From Verif Require Import Base M_Laws S_Laws L_Laws L_LawsB L_LawsC M_Laws2 S_Laws2 L_Laws2 L_Laws5 M_Fiber S_Fiber M_MarinInt S_MarinInt L_MarinInt4 M_Fields S_Fields.

(** * UserDefined *)
Lemma branches_cons x0 x1 xs y0 y1 ys e0 e1 : ud_branches (x0 :: x1 :: xs) (y0 :: y1 :: ys) e0 e1 =
  ((x0, x1), [(y1 - y0) / (x1 - x0) * (e0 - x0) + y0; (y1 - y0) / (x1 - x0) * e1]) :: ud_branches (x1 :: xs) (y1 :: ys) e0 e1.
Proof. reflexivity. Qed.
Lemma branches_t_cons x0 x1 xs y0 y1 ys : ud_branches_t (x0 :: x1 :: xs) (y0 :: y1 :: ys) =
  ((x0, x1), [(y1 - y0) / (x1 - x0)]) :: ud_branches_t (x1 :: xs) (y1 :: ys).
Proof. reflexivity. Qed.
Lemma branches_fst xs : forall ys e0 e1, map fst (ud_branches xs ys e0 e1) = map fst (ud_branches_t xs ys).
Proof.
  induction xs as [|x0 xs IH]; intros [|y0 ys] e0 e1; try reflexivity; destruct xs as [|x1 xs]; try reflexivity; destruct ys as [|y1 ys]; try reflexivity.
  rewrite branches_cons, branches_t_cons. cbn [map fst]. f_equal. apply IH.
Qed.
Lemma branches_t_nth xs : forall ys i, length xs = length ys -> (S i < length xs)%nat ->
  nth i (map fst (ud_branches_t xs ys)) (0, 0) = (nth i xs 0, nth (S i) xs 0).
Proof.
  induction xs as [|x0 xs IH]; intros [|y0 ys] i L I; cbn [length] in *; try lia.
  destruct xs as [|x1 xs]; cbn [length] in *; [lia|]. destruct ys as [|y1 ys]; cbn [length] in *; [lia|].
  rewrite branches_t_cons. destruct i as [|i]; [reflexivity|]. cbn [map fst]. change (nth (S i) (?a :: ?b) ?d) with (nth i b d).
  rewrite IH; [reflexivity|cbn; lia|cbn; lia].
Qed.
Lemma branches_t_length xs : forall ys, length xs = length ys -> length (ud_branches_t xs ys) = (length xs - 1)%nat.
Proof.
  induction xs as [|x0 xs IH]; intros [|y0 ys] L; cbn [length] in *; try lia; try reflexivity.
  destruct xs as [|x1 xs]; cbn [length] in *; [destruct ys; reflexivity|]. destruct ys as [|y1 ys]; cbn [length] in *; [lia|].
  rewrite branches_t_cons. cbn [length]. rewrite IH by (cbn; lia). cbn. lia.
Qed.
Lemma pieces_tidy xs ys : increasing xs -> length xs = length ys -> tidy (map fst (ud_branches_t xs ys)).
Proof.
  intros I L. assert (N : forall i, (i < length (map fst (ud_branches_t xs ys)))%nat -> (S i < length xs)%nat).
  { intros i Hi. rewrite map_length, branches_t_length in Hi by exact L. lia. }
  split.
  - intros r Hr. destruct (In_nth _ _ (0, 0) Hr) as (i & Hi & <-). rewrite branches_t_nth by (auto; apply N; exact Hi).
    cbn. apply Rlt_le, I. specialize (N i Hi). lia.
  - intros i j Hi Hj D. rewrite !branches_t_nth by auto. cbn. pose proof (N i Hi) as Ni. pose proof (N j Hj) as Nj.
    destruct (Nat.lt_total i j) as [A|[A|A]]; [left|lia|right].
    + destruct (Nat.eq_dec (S i) j) as [->|B]; [lra|]. apply Rlt_le, I. lia.
    + destruct (Nat.eq_dec (S j) i) as [->|B]; [lra|]. apply Rlt_le, I. lia.
Qed.
Lemma find_t_cons x0 x1 xs y0 y1 ys e0 : ud_find_t (x0 :: x1 :: xs) (y0 :: y1 :: ys) e0 =
  if andb (Rleb x0 e0) (Rleb e0 x1) then Some [(y1 - y0) / (x1 - x0)] else ud_find_t (x1 :: xs) (y1 :: ys) e0.
Proof. reflexivity. Qed.
Lemma find_t_spec xs : forall ys e, length xs = length ys ->
  match ud_find_t xs ys e with
  | Some c => exists i, (S i < length xs)%nat /\ nth i xs 0 <= e <= nth (S i) xs 0 /\
       (forall j, (j < i)%nat -> ~ (nth j xs 0 <= e <= nth (S j) xs 0)) /\
       c = [ (nth (S i) ys 0 - nth i ys 0) / (nth (S i) xs 0 - nth i xs 0) ]
  | None => forall i, (S i < length xs)%nat -> ~ (nth i xs 0 <= e <= nth (S i) xs 0)
  end.
Proof.
  induction xs as [|x0 xs IH]; intros [|y0 ys] e L; cbn [length] in *; try lia; [cbn; intros; lia|].
  destruct xs as [|x1 xs]; cbn [length] in *; [destruct ys; cbn; intros; lia|]. destruct ys as [|y1 ys]; cbn [length] in *; [lia|].
  rewrite find_t_cons. destruct (Rleb_spec x0 e) as [A|A]; cbn [andb].
  - destruct (Rleb_spec e x1) as [B|B].
    + exists 0%nat. split; [lia|]. split; [cbn; lra|]. split; [intros j Hj; lia|]. reflexivity.
    + specialize (IH (y1 :: ys) e ltac:(cbn; lia)). destruct (ud_find_t (x1 :: xs) (y1 :: ys) e) as [c|].
      * destruct IH as (i & H1 & H2 & H3 & H4). exists (S i). cbn [length] in *. split; [lia|]. split; [exact H2|]. split; [|exact H4].
        intros [|j] Hj; [cbn; lra|]. apply H3. lia.
      * intros [|i] Hi; [cbn; lra|]. apply IH. cbn [length]. lia.
  - specialize (IH (y1 :: ys) e ltac:(cbn; lia)). destruct (ud_find_t (x1 :: xs) (y1 :: ys) e) as [c|].
    + destruct IH as (i & H1 & H2 & H3 & H4). exists (S i). cbn [length] in *. split; [lia|]. split; [exact H2|]. split; [|exact H4].
      intros [|j] Hj; [cbn; lra|]. apply H3. lia.
    + intros [|i] Hi; [cbn; lra|]. apply IH. cbn [length]. lia.
Qed.
Lemma outside_all xs e : increasing xs -> (2 <= length xs)%nat ->
  (forall i, (S i < length xs)%nat -> ~ (nth i xs 0 <= e <= nth (S i) xs 0)) -> e < nth 0 xs 0 \/ last xs 0 < e.
Proof.
  intros I L H. destruct (Rlt_le_dec e (nth 0 xs 0)); [now left|]. destruct (Rlt_le_dec (last xs 0) e); [now right|].
  destruct (locate xs e I (conj r r0) L) as (i & A & B). exfalso. exact (H i A B).
Qed.
Lemma ud_field l e0 r : increasing (ud_x l) -> length (ud_x l) = length (ud_y l) -> (2 <= length (ud_x l))%nat ->
  0 <= r -> (r = 0 -> settled (ud_ult l) e0) ->
  field_of (ud_marin l (e0, r)) (interp (ud_x l) (ud_y l)) e0 r /\ field_of (ud_marin_tangent l (e0, r)) (ud_tangent l) e0 r.
Proof.
  intros I L G Hr Hs. unfold ud_marin, ud_marin_tangent. destruct (Reqb_spec r 0) as [Z|N].
  - rewrite (settled_prep _ _ (Hs Z)). subst r. split; (split; [reflexivity|]); cbn [fst snd].
    + assert (F := find_spec (ud_x l) (ud_y l) e0 0 L). destruct (ud_find (ud_x l) (ud_y l) e0 0) as [c|]; cbn [fst snd];
        unfold describes; cbn [fst snd]; (eexists; split; [reflexivity|]); intros y _; replace (e0 + 0 * y) with e0 by ring.
      * destruct F as (i & A & B & ->). rewrite (interp_seg _ _ i e0 L I A B). cbn [poly]. unfold chord. ring.
      * cbn [poly]. destruct (outside_all _ _ I G F) as [O|O]; [rewrite interp_left by exact O|rewrite interp_right by auto]; ring.
    + assert (F := find_t_spec (ud_x l) (ud_y l) e0 L). destruct (ud_find_t (ud_x l) (ud_y l) e0) as [c|]; cbn [fst snd];
        unfold describes; cbn [fst snd]; (eexists; split; [reflexivity|]); intros y _; replace (e0 + 0 * y) with e0 by ring.
      * destruct F as (i & A & B & C & ->). cbn [poly].
        destruct (Req_dec (nth i (ud_x l) 0) e0) as [Q|Q].
        { destruct i as [|i].
          - rewrite <- Q. rewrite ud_tangent_first by assumption. ring.
          - exfalso. apply (C i); [lia|]. assert (X := I i (S i) ltac:(lia)). lra. }
        { rewrite (ud_tangent_seg l i e0 I L A) by lra. ring. }
      * cbn [poly]. rewrite ud_tangent_out by exact (outside_all _ _ I G F). ring.
  - assert (P : 0 < r) by lra. split; (split; [reflexivity|]); cbn [fst snd]; (split; [exact P|]).
    + split; [rewrite branches_fst; apply pieces_tidy; assumption|]. exists [].
      apply (describes_weaken (fun _ => True)); [intros; exact Logic.I|apply interp_describes; assumption].
    + split; [apply pieces_tidy; assumption|]. exists (ud_x l). unfold describes. cbn [fst snd]. split; [now rewrite !map_length|].
      intros y Hy. split.
      * intros q c. rewrite combine_fst_snd. intros Hc H. destruct (branches_t_in _ _ _ _ Hc) as (i & A & _ & -> & ->). cbn [fst snd poly] in *.
        assert (N1 : nth i (ud_x l) 0 <> e0 + r * y). { intros X. apply Hy. rewrite <- X. apply nth_In. lia. }
        rewrite (ud_tangent_seg l i _ I L A) by lra. ring.
      * intros H. apply ud_tangent_out. apply (outside_all _ _ I G). intros i Hi X.
        apply (H _ (branches_t_cover _ (ud_y l) i Hi L)). exact X.
Qed.
Lemma interp_slope l : increasing (ud_x l) -> length (ud_x l) = length (ud_y l) -> (2 <= length (ud_x l))%nat ->
  slope_of (interp (ud_x l) (ud_y l)) (ud_tangent l).
Proof.
  intros I L G. exists (ud_x l). intros e He.
  destruct (Rlt_le_dec e (nth 0 (ud_x l) 0)) as [A|A].
  { rewrite ud_tangent_out by now left. apply (is_derive_local _ (fun _ => 0) e 0 (e - 1) (nth 0 (ud_x l) 0)); [lra| |apply @is_derive_const].
    intros t Ht. apply interp_left. lra. }
  destruct (Rlt_le_dec (last (ud_x l) 0) e) as [B|B].
  { rewrite ud_tangent_out by now right. apply (is_derive_local _ (fun _ => 0) e 0 (last (ud_x l) 0) (e + 1)); [lra| |apply @is_derive_const].
    intros t Ht. apply interp_right; [assumption..|lra]. }
  destruct (locate _ e I (conj A B) G) as (i & Hi & H).
  assert (N1 : nth i (ud_x l) 0 <> e). { intros X. apply He. rewrite <- X. apply nth_In. lia. }
  assert (N2 : nth (S i) (ud_x l) 0 <> e). { intros X. apply He. rewrite <- X. apply nth_In. lia. }
  rewrite (ud_tangent_seg l i e I L Hi) by lra.
  set (k := _ / _).
  apply (is_derive_local _ (fun t => k * t + (nth i (ud_y l) 0 - k * nth i (ud_x l) 0)) e k (nth i (ud_x l) 0) (nth (S i) (ud_x l) 0)); [lra| |apply affine_deriv].
  intros t Ht. rewrite (interp_seg _ _ i t L I Hi) by lra. unfold chord. fold k. ring.
Qed.
Lemma ud_pieces l : increasing (ud_x l) -> length (ud_x l) = length (ud_y l) -> (2 <= length (ud_x l))%nat ->
  forall e0 r, 0 < r ->
  (exists rs q, fst (snd (ud_marin l (e0, r))) = Some rs /\ In q rs /\ fst q < snd q) /\
  (exists rs q, fst (snd (ud_marin_tangent l (e0, r))) = Some rs /\ In q rs /\ fst q < snd q).
Proof.
  intros I L G e0 r P. unfold ud_marin, ud_marin_tangent. destruct (Reqb_spec r 0); [exfalso; lra|]. cbn [fst snd].
  split; (eexists; exists (nth 0 (ud_x l) 0, nth 1 (ud_x l) 0); split; [reflexivity|]; split; [|cbn; apply I; lia]).
  - apply branches_in; [lia|exact L].
  - apply branches_t_cover; [lia|exact L].
Qed.

(** * BilinearCompression *)
Lemma bil_field fc p u l e0 r : bil_init fc p (Some u) = Ok l -> Rabs p <= Rabs u ->
  0 <= r -> (r = 0 -> settled (- Rabs u, 100) e0) ->
  field_of (bil_marin l (e0, r)) (bil_curve (Rabs fc) (Rabs p) (Rabs u)) e0 r /\
  field_of (bil_marin_tangent l (e0, r)) (bil_tangent l) e0 r.
Proof.
  intros H U Hr Hs. unfold bil_init in H. destruct (Reqb_spec p 0) as [|Np]; [discriminate|]. injection H as <-.
  assert (P : 0 < Rabs p) by (apply Rabs_pos_lt; exact Np).
  assert (K : - Rabs fc / - Rabs p = Rabs fc / Rabs p) by (field; lra).
  unfold bil_marin, bil_marin_tangent, bil_tangent, bil_ult. cbn [bi_fc bi_ec bi_ecu bi_E]. rewrite K.
  set (F := Rabs fc) in *. set (q := Rabs p) in *. set (v := Rabs u) in *. set (k := F / q) in *.
  assert (KQ : F = k * q) by (unfold k; field; lra).
  destruct (Reqb_spec r 0) as [Z|N].
  - rewrite (settled_prep _ _ (Hs Z)). subst r. split; (split; [reflexivity|]); cbn [fst snd];
    rsplit; cbn [fst snd andb]; unfold describes; cbn [fst snd]; (eexists; split; [reflexivity|]); intros y _; cbn [poly];
      replace (e0 + 0 * y) with e0 by ring; unfold bil_curve; fold k; rsplit; cbn [andb]; rdec; try lra; try ring.
    assert (X : e0 = - q) by lra. rewrite X, KQ. ring.
  - assert (P1 : 0 < r) by lra. split; (split; [reflexivity|]); cbn [fst snd]; (split; [exact P1|]).
    + split.
      { split; [intros x [<-|[<-|[]]]; cbn; lra|]. intros [|[|i]] [|[|j]]; cbn; intros; try lia; lra. }
      exists [- q; - v; 0]. unfold describes. cbn [fst snd length combine]. split; [reflexivity|]. intros y Hy. split.
      { intros x c [[= <- <-]|[[= <- <-]|[]]]; cbn [fst snd poly]; intros [A B];
        (assert (N1 : e0 + r * y <> - q) by (intros X; apply Hy; rewrite X; cbn; auto));
        unfold bil_curve; fold k; rdec; try lra; ring. }
      { intros Hn. assert (A1 := Hn (- q, 0) ltac:(cbn; auto)). assert (A2 := Hn (- v, - q) ltac:(cbn; auto)). cbn [fst snd] in *.
        unfold bil_curve; rdec; try lra; exfalso; ((apply A1; lra) || (apply A2; lra)). }
    + split.
      { split; [intros x [<-|[<-|[]]]; cbn; lra|]. intros [|[|i]] [|[|j]]; cbn; intros; try lia; lra. }
      exists [- q; - v; 0]. unfold describes. cbn [fst snd length combine]. split; [reflexivity|]. intros y Hy. split.
      { intros x c [[= <- <-]|[[= <- <-]|[]]]; cbn [fst snd poly]; intros [A B];
        (assert (N1 : e0 + r * y <> - q) by (intros X; apply Hy; rewrite X; cbn; auto));
        rsplit; cbn [andb]; try lra; ring. }
      { intros Hn. assert (A1 := Hn (- q, 0) ltac:(cbn; auto)). assert (A2 := Hn (- v, - q) ltac:(cbn; auto)). cbn [fst snd] in *.
        rsplit; cbn [andb]; try lra; exfalso; ((apply A1; lra) || (apply A2; lra)). }
Qed.
