(** Lemmas for C58: analyses of a section and of the moved section. *)
From Coq Require Import Permutation FunctionalExtensionality Lra Lia.
From Verif Require Import Base M_Marin S_Marin M_Laws M_Laws2 M_Fiber S_Fiber L_Fiber M_MarinInt S_MarinInt L_MarinInt3 L_Frame4 M_Section S_Section L_Section M_Domain S_History L_History S_Frame S_Turn L_Turn L_Turn2 S_Move L_Move L_Move2 L_Move3.

(** Heights of outlines. *)
Definition lowest (m : R) (r : list (R * R)) : Prop := (exists p, In p r /\ snd p = m) /\ forall p, In p r -> m <= snd p.
Definition highest (m : R) (r : list (R * R)) : Prop := (exists p, In p r /\ snd p = m) /\ forall p, In p r -> snd p <= m.
Lemma lowest_unique m n r r' : (forall p, In p r <-> In p r') -> lowest m r -> lowest n r' -> m = n.
Proof.
  intros E ((p & Ip & <-) & L) ((q & Iq & <-) & L'). apply Rle_antisym; [apply L, E, Iq|apply L', E, Ip].
Qed.
Lemma fold_min : forall q x, let m := fold_left (fun m (v : R * R) => Rmin m (snd v)) q x in m <= x /\ (forall p, In p q -> m <= snd p) /\ (m = x \/ exists p, In p q /\ snd p = m).
Proof.
  induction q as [|v q IH]; intros x; cbn [fold_left]; cbv zeta; [repeat split; [lra|intros p []|now left]|].
  destruct (IH (Rmin x (snd v))) as (A & B & C). cbv zeta in *. set (m := fold_left _ _ _) in *.
  assert (X : m <= x) by (eapply Rle_trans; [exact A|apply Rmin_l]). assert (Y : m <= snd v) by (eapply Rle_trans; [exact A|apply Rmin_r]).
  split; [exact X|]. split; [intros p [<-|I]; [exact Y|exact (B p I)]|]. destruct C as [C|(p & I & E)]; [|right; exists p; split; [now right|exact E]].
  unfold Rmin in C. destruct (Rle_dec x (snd v)); [left; exact C|right; exists v; split; [now left|congruence]].
Qed.
Lemma fold_max : forall q x, let m := fold_left (fun m (v : R * R) => Rmax m (snd v)) q x in x <= m /\ (forall p, In p q -> snd p <= m) /\ (m = x \/ exists p, In p q /\ snd p = m).
Proof.
  induction q as [|v q IH]; intros x; cbn [fold_left]; cbv zeta; [repeat split; [lra|intros p []|now left]|].
  destruct (IH (Rmax x (snd v))) as (A & B & C). cbv zeta in *. set (m := fold_left _ _ _) in *.
  assert (X : x <= m) by (eapply Rle_trans; [apply Rmax_l|exact A]). assert (Y : snd v <= m) by (eapply Rle_trans; [apply Rmax_r|exact A]).
  split; [exact X|]. split; [intros p [<-|I]; [exact Y|exact (B p I)]|]. destruct C as [C|(p & I & E)]; [|right; exists p; split; [now right|exact E]].
  unfold Rmax in C. destruct (Rle_dec x (snd v)); [right; exists v; split; [now left|congruence]|left; exact C].
Qed.
Lemma ring_min_lowest r : r <> [] -> lowest (ring_min r) r.
Proof.
  destruct r as [|p q]; [congruence|]. intros _. unfold ring_min. destruct (fold_min q (snd p)) as (A & B & C). cbv zeta in *. split.
  - destruct C as [->|(v & I & E)]; [exists p; split; [now left|reflexivity]|exists v; split; [now right|exact E]].
  - intros v [<-|I]; [exact A|exact (B v I)].
Qed.
Lemma ring_max_highest r : r <> [] -> highest (ring_max r) r.
Proof.
  destruct r as [|p q]; [congruence|]. intros _. unfold ring_max. destruct (fold_max q (snd p)) as (A & B & C). cbv zeta in *. split.
  - destruct C as [->|(v & I & E)]; [exists p; split; [now left|reflexivity]|exists v; split; [now right|exact E]].
  - intros v [<-|I]; [exact A|exact (B v I)].
Qed.
Lemma edge_vertices r p : edges r <> [] -> (In p r <-> exists e, In e (edges r) /\ (p = fst e \/ p = snd e)).
Proof.
  induction r as [|x r IH]; [cbn; congruence|]. destruct r as [|y r]; [cbn; congruence|]. intros _.
  change (edges (x :: y :: r)) with ((x, y) :: edges (y :: r)). destruct (edges (y :: r)) as [|e0 l] eqn:E.
  - destruct r as [|z r]; [|discriminate]. split.
    + intros [<-|[<-|[]]]; exists (x, y); (split; [now left|]); [now left|now right].
    + intros (e & [<-|[]] & [->| ->]); [now left|right; now left].
  - specialize (IH ltac:(discriminate)). split.
    + intros [<-|I]; [exists (x, y); split; [now left|now left]|]. apply IH in I. destruct I as (e & I & H). exists e. split; [now right|exact H].
    + intros (e & [<-|I] & H); [destruct H as [->| ->]; [now left|right; now left]|right; apply IH; exists e; split; assumption].
Qed.
Lemma outline_vertices T r r' : same_outline T r r' -> r <> [] /\ r' <> [] /\ forall p, In p r' <-> In p (map T r).
Proof.
  intros O. destruct (outline_sign T r r' O) as (k & K). pose proof (proj1 O) as NZ.
  assert (ER : edges r <> []) by (intros Z; apply NZ; unfold shoelace; rewrite Z; reflexivity).
  assert (ET : edges (map T r) <> []) by (rewrite edges_map; intros Z; apply map_eq_nil in Z; contradiction).
  assert (IN : forall u v, In (u, v) (edges r') -> In (u, v) (edges (map T r)) \/ In (v, u) (edges (map T r))).
  { intros u v I. destruct K as [[_ P]|[_ P]]; apply (Permutation_in _ P) in I; [now left|right]. apply in_map_iff in I. destruct I as ([a b] & E & I). injection E as <- <-. exact I. }
  assert (NI : forall u v, In (u, v) (edges (map T r)) -> In (u, v) (edges r') \/ In (v, u) (edges r')).
  { intros u v I. destruct K as [[_ P]|[_ P]]; [left; exact (Permutation_in _ (Permutation_sym P) I)|right]. apply (Permutation_in _ (Permutation_sym P)). apply in_map_iff. exists (u, v). split; [reflexivity|exact I]. }
  assert (ER' : edges r' <> []).
  { intros Z. destruct (edges (map T r)) as [|[u v] l]; [congruence|]. destruct (NI u v (or_introl eq_refl)) as [I|I]; rewrite Z in I; destruct I. }
  split; [intros ->; apply ER; reflexivity|]. split; [intros ->; apply ER'; reflexivity|]. intros p. rewrite (edge_vertices r' p ER'), (edge_vertices _ p ET). split.
  - intros ([u v] & I & H). cbn [fst snd] in H. destruct (IN u v I) as [J|J]; [exists (u, v)|exists (v, u)]; (split; [exact J|]); cbn [fst snd]; tauto.
  - intros ([u v] & I & H). cbn [fst snd] in H. destruct (NI u v I) as [J|J]; [exists (u, v)|exists (v, u)]; (split; [exact J|]); cbn [fst snd]; tauto.
Qed.
Lemma outline_heights sg a b r r' : same_outline (place sg a b) r r' -> ring_min r' = ring_min r + b /\ ring_max r' = ring_max r + b.
Proof.
  intros O. destruct (outline_vertices _ _ _ O) as (NR & NR' & V).
  destruct (ring_min_lowest r NR) as ((p & Ip & Ep) & Lp). destruct (ring_max_highest r NR) as ((q & Iq & Eq) & Lq).
  destruct (ring_min_lowest r' NR') as ((p' & Ip' & Ep') & Lp'). destruct (ring_max_highest r' NR') as ((q' & Iq' & Eq') & Lq').
  split; apply Rle_antisym.
  - rewrite <- Ep. apply (Lp' (place sg a b p)). apply V, in_map, Ip.
  - rewrite <- Ep'. apply V, in_map_iff in Ip'. destruct Ip' as (x & <- & Ix). cbn [place snd]. specialize (Lp x Ix). lra.
  - rewrite <- Eq'. apply V, in_map_iff in Iq'. destruct Iq' as (x & <- & Ix). cbn [place snd]. specialize (Lq x Ix). lra.
  - rewrite <- Eq. apply (Lq' (place sg a b q)). apply V, in_map, Iq.
Qed.
(** Balanced failure. *)
Definition lifted (b : R) (i : item) : item := {| im_lo := im_lo i + b; im_hi := im_hi i + b; im_ult := im_ult i; im_conc := im_conc i |}.
Lemma items_moved t sg a b g g' : moved sg a b g g' -> items_of t g' = map (lifted b) (items_of t g).
Proof.
  intros (F & B). unfold items_of. rewrite map_app. f_equal.
  - induction F as [|s s' l l' X F IH]; [reflexivity|]. cbn [map]. rewrite IH. f_equal. unfold lifted. cbn [im_lo im_hi im_ult im_conc].
    destruct X as (L & O & _). destruct (outline_heights _ _ _ _ _ O) as (-> & ->). rewrite L. reflexivity.
  - rewrite (bars_placed sg a b _ _ B), !map_map. apply map_ext. intros x. reflexivity.
Qed.
Definition lift_acc (b : R) (acc : option (R * R * R * R)) : option (R * R * R * R) :=
  option_map (fun x => let '(chi, e, yn, yp) := x in (chi, e + chi * b, yn + b, yp + b)) acc.
Lemma pair_lifted rc y b acc i j : pair_step rc y (lift_acc b acc) (lifted b i, lifted b j) = lift_acc b (pair_step rc y acc (i, j)).
Proof.
  unfold pair_step, lifted. cbn [im_lo im_hi im_ult im_conc].
  assert (L : Rleb (im_hi j + b) (im_lo i + b) = Rleb (im_hi j) (im_lo i)) by (destruct (Rleb_spec (im_hi j + b) (im_lo i + b)), (Rleb_spec (im_hi j) (im_lo i)); try reflexivity; lra).
  rewrite L. clear L. destruct (Rleb (im_hi j) (im_lo i)); [reflexivity|]. replace (im_lo i + b - (im_hi j + b)) with (im_lo i - im_hi j) by ring.
  set (u := fst _). set (v := snd _). set (chi := - (v - u) / (im_lo i - im_hi j)).
  assert (A : (match lift_acc b acc with Some (c, _, _, _) => c | None => 10 ^ 10 end) = match acc with Some (c, _, _, _) => c | None => 10 ^ 10 end) by (destruct acc as [[[[c e] yn] yp]|]; reflexivity).
  cbv zeta. rewrite A. destruct (Rltb _ _); [|reflexivity]. cbn [lift_acc option_map]. f_equal. apply f_equal2; [apply f_equal2; [apply f_equal2; [reflexivity|]|reflexivity]|reflexivity]. ring.
Qed.
Lemma balanced_moved t sg a b g g' y : moved sg a b g g' -> balanced (tr_rc t) y (items_of t g') =
  rmap (fun x => let '(yn, yp, p) := x in (yn + b, yp + b, (p_e0 p - p_ky p * b, p_ky p, p_kz p))) (balanced (tr_rc t) y (items_of t g)) /\
  (forall yn yp p, balanced (tr_rc t) y (items_of t g) = Ok (yn, yp, p) -> p_kz p = 0).
Proof.
  intros M. rewrite (items_moved t sg a b g g' M). unfold balanced.
  assert (LP : forall l m : list item, list_prod (map (lifted b) l) (map (lifted b) m) = map (fun x => (lifted b (fst x), lifted b (snd x))) (list_prod l m)).
  { induction l as [|x l IH]; intros m; [reflexivity|]. cbn [map list_prod]. rewrite map_app, IH. f_equal. rewrite !map_map. reflexivity. }
  assert (FL : forall l acc, fold_left (pair_step (tr_rc t) y) (map (fun x => (lifted b (fst x), lifted b (snd x))) l) (lift_acc b acc) = lift_acc b (fold_left (pair_step (tr_rc t) y) l acc)).
  { induction l as [|[i j] l IH]; intros acc; [reflexivity|]. cbn [map fold_left fst snd]. rewrite pair_lifted. apply IH. }
  rewrite LP. pose proof (FL (list_prod (items_of t g) (items_of t g)) None) as X. change (lift_acc b None) with (@None (R * R * R * R)) in X. rewrite X. clear.
  destruct (fold_left _ _ None) as [[[[chi e] yn] yp]|]; cbn [lift_acc option_map rmap]; (split; [|intros ? ? ? E; try discriminate]).
  - unfold p_e0, p_ky, p_kz. cbn [fst snd]. apply f_equal, f_equal2; [reflexivity|apply pair3; ring].
  - injection E as _ _ <-. reflexivity.
  - reflexivity.
Qed.
(** Root searches. *)
Lemma pivot_moved f f' b n yn yp e c n0 : (forall e c, f' (e - c * b) c = f e c) ->
  solve_pivot f' n (yn + b) (yp + b) (e - c * b) c n0 = rmap (fun x => (fst x - snd x * b, snd x)) (solve_pivot f n yn yp e c n0).
Proof.
  intros H. unfold solve_pivot. replace (e - c * b + c * (yp + b)) with (e + c * yp) by ring. replace (e - c * b + c * (yn + b)) with (e + c * yn) by ring.
  destruct (Rleb _ _); [reflexivity|].
  assert (K : forall sp pv, bind (f' (sp - - / 10 ^ 13 * (pv + b)) (- / 10 ^ 13)) (fun nb => bind (bisect 100 (fun c0 => f' (sp - c0 * (pv + b)) c0) n c (n0 - n) (- / 10 ^ 13) (nb - n) None) (fun c0 => Ok (sp - c0 * (pv + b), c0))) =
    rmap (fun x => (fst x - snd x * b, snd x)) (bind (f (sp - - / 10 ^ 13 * pv) (- / 10 ^ 13)) (fun nb => bind (bisect 100 (fun c0 => f (sp - c0 * pv) c0) n c (n0 - n) (- / 10 ^ 13) (nb - n) None) (fun c0 => Ok (sp - c0 * pv, c0))))).
  { intros sp pv. assert (X : (fun c0 => f' (sp - c0 * (pv + b)) c0) = (fun c0 => f (sp - c0 * pv) c0)).
    { apply functional_extensionality. intros x. rewrite <- H. f_equal. ring. }
    rewrite X. pose proof (f_equal (fun h => h (- / 10 ^ 13)) X) as Y. cbv beta in Y. rewrite Y.
    destruct (f _ _) as [nb|]; cbn [bind rmap]; [|reflexivity]. destruct (bisect _ _ _ _ _ _ _ _) as [x|]; cbn [bind rmap]; [|reflexivity]. cbn [fst snd]. f_equal. f_equal. ring. }
  destruct (Rltb n0 n); apply K.
Qed.
