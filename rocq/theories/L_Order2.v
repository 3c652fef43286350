(** Lemmas for C61: forces, stiffness, balanced failure and lowest ordinate of a reordered section. *)
From Coq Require Import Permutation FunctionalExtensionality Lra Lia.
From Verif Require Import Base M_Marin S_Marin M_Laws M_Laws2 M_Fiber S_Fiber M_MarinInt S_MarinInt L_MarinInt2 L_MarinInt3 M_Section S_Section M_Domain S_Exact S_Turn S_Move L_Move S_Pieces L_Pieces2 L_Pieces3 S_Order L_Order.

(** ** Groups of fibres in another order *)
Definition same_group (x y : group) : Prop := gr_law y = gr_law x /\ Permutation (gr_fibres x) (gr_fibres y).
Definition gperm (d d' : list group) : Prop := exists e, Permutation d e /\ Forall2 same_group e d'.
Lemma same_group_refl l : Forall2 same_group l l.
Proof. induction l; constructor; [split; reflexivity|assumption]. Qed.
Lemma gperm_perm d d' : Permutation d d' -> gperm d d'.
Proof. intros P. exists d'. split; [exact P|apply same_group_refl]. Qed.
Lemma gperm_app a b c d : gperm a b -> gperm c d -> gperm (a ++ c) (b ++ d).
Proof. intros (e & P & Q) (f & U & V). exists (e ++ f). split; [now apply Permutation_app|now apply Forall2_app]. Qed.
Lemma gperm_nil d d' : gperm d d' -> d = [] <-> d' = [].
Proof.
  intros (e & P & Q). split; intros ->.
  - apply Permutation_nil in P. subst e. inversion Q. reflexivity.
  - inversion Q. subst e. apply Permutation_sym in P. now apply Permutation_nil in P.
Qed.
Lemma gperm_rotate a d d' : gperm d d' -> gperm (map (rotate_group a) d) (map (rotate_group a) d').
Proof.
  intros (e & P & Q). exists (map (rotate_group a) e). split; [now apply Permutation_map|]. clear P. induction Q as [|x y l l' (L & F) Q IH]; constructor; [|exact IH].
  split; [exact L|]. cbn [rotate_group gr_fibres]. now apply Permutation_map.
Qed.
(** Any sum over groups. *)
Lemma gperm_flat {A} (f : group -> list A) d d' : (forall x y, same_group x y -> Permutation (f x) (f y)) -> gperm d d' -> Permutation (flat_map f d) (flat_map f d').
Proof.
  intros H (e & P & Q). apply Permutation_trans with (flat_map f e); [now apply Permutation_flat_map|]. clear P.
  induction Q as [|x y l l' S0 Q IH]; [reflexivity|]. cbn [flat_map]. apply Permutation_app; [now apply H|exact IH].
Qed.
Lemma homogeneous_all gs : homogeneous gs = true <-> forall x y, In x gs -> In y gs -> length (gr_fibres x) = length (gr_fibres y).
Proof.
  unfold homogeneous. destruct gs as [|g gs]; [split; [intros _ x y []|reflexivity]|]. rewrite forallb_forall. split.
  - intros H. assert (E : forall x, In x (g :: gs) -> length (gr_fibres x) = length (gr_fibres g)) by (intros x [<- | I]; [reflexivity|apply Nat.eqb_eq, H, I]).
    intros x y I J. rewrite (E x I), (E y J). reflexivity.
  - intros H x I. apply Nat.eqb_eq. apply H; [right; exact I|left; reflexivity].
Qed.
Lemma gperm_homogeneous d d' : gperm d d' -> homogeneous d' = homogeneous d.
Proof.
  intros (e & P & Q). apply Bool.eq_true_iff_eq. rewrite !homogeneous_all.
  assert (E : forall y, In y d' -> exists x, In x d /\ length (gr_fibres x) = length (gr_fibres y)).
  { intros y I. assert (X : exists x, In x e /\ same_group x y) by (clear P; induction Q as [|u v l l' S0 Q IH]; [destruct I|destruct I as [<- | I]; [exists u; split; [left; reflexivity|exact S0]|destruct (IH I) as (x & J & K); exists x; split; [right; exact J|exact K]]]).
    destruct X as (x & J & _ & F). exists x. split; [apply Permutation_in with e; [now apply Permutation_sym|exact J]|now apply Permutation_length]. }
  assert (E' : forall x, In x d -> exists y, In y d' /\ length (gr_fibres x) = length (gr_fibres y)).
  { intros x I. apply (Permutation_in _ P) in I. clear P E. induction Q as [|u v l l' S0 Q IH]; [destruct I|]. destruct I as [<- | I].
    - exists v. split; [left; reflexivity|apply Permutation_length, S0].
    - destruct (IH I) as (y & J & K). exists y. split; [right; exact J|exact K]. }
  split; intros H x y I J.
  - destruct (E' x I) as (u & U1 & ->), (E' y J) as (v & V1 & ->). now apply H.
  - destruct (E x I) as (u & U1 & <-), (E y J) as (v & V1 & <-). now apply H.
Qed.

(** ** Bars, grouped by law *)
Definition of_law (k : nat) (bs : list bar) : list fibre := map fibre_of_bar (filter (fun b => (br_law b =? k)%nat) bs).
Lemma add_bar_keys d k f : NoDup (map fst d) -> NoDup (map fst (add_bar d k f)) /\ (forall j, In j (map fst (add_bar d k f)) <-> j = k \/ In j (map fst d)).
Proof.
  induction d as [|[j fs] d IH]; intros N; cbn [add_bar map fst].
  - split; [constructor; [intros []|constructor]|]. intros j. cbn. intuition congruence.
  - cbn [map fst] in N. inversion N as [|? ? N1 N2]; subst. destruct (Nat.eqb_spec j k) as [-> | D]; cbn [map fst].
    + split; [exact N|]. intros i. cbn [In]. intuition congruence.
    + destruct (IH N2) as (A & B). split; [constructor; [|exact A]|]. 
      * intros I. apply B in I. destruct I as [-> | I]; [congruence|contradiction].
      * intros i. cbn [In]. rewrite B. clear. intuition congruence.
Qed.
Lemma add_bar_values d k f : NoDup (map fst d) -> forall j fs, In (j, fs) (add_bar d k f) <->
  (if (j =? k)%nat then exists old, fs = old ++ [f] /\ (In (k, old) d \/ (old = [] /\ ~ In k (map fst d))) else In (j, fs) d).
Proof.
  induction d as [|[i gs] d IH]; intros N j fs; cbn [add_bar].
  - destruct (Nat.eqb_spec j k) as [-> | D].
    + split.
      * intros [[= <-] | []]. exists []. split; [reflexivity|]. right. split; [reflexivity|intros []].
      * intros (old & -> & [[] | (-> & _)]). left. reflexivity.
    + split; [intros [[= -> <-] | []]; congruence|intros []].
  - cbn [map fst] in N. inversion N as [|? ? N1 N2]; subst. destruct (Nat.eqb_spec i k) as [-> | D].
    + destruct (Nat.eqb_spec j k) as [-> | D2].
      * split.
        { intros [[= <-] | I]; [exists gs; split; [reflexivity|left; left; reflexivity]|]. destruct N1. change k with (fst (k, fs)). now apply in_map. }
        { intros (old & -> & [[[= <-] | I] | (-> & NI)]); [left; reflexivity|destruct N1; change k with (fst (k, old)); now apply in_map|destruct NI; left; reflexivity]. }
      * cbn [In]. split; (intros [[= <- <-] | I]; [congruence|right; exact I]).
    + cbn [In]. rewrite (IH N2 j fs). destruct (Nat.eqb_spec j k) as [-> | D2].
      * split.
        { intros [[= -> _] | (old & E & H)]; [congruence|]. exists old. split; [exact E|]. destruct H as [H | (Z & H)]; [left; right; exact H|right; split; [exact Z|]].
          cbn [map fst In]. intros [X | X]; [congruence|contradiction]. }
        { intros (old & E & [[[= -> _] | H] | (Z & H)]); [congruence|right; exists old; auto|right; exists old; split; [exact E|right; split; [exact Z|]]]. intros X. apply H. right. exact X. }
      * tauto.
Qed.
Lemma group_bars_spec bs : NoDup (map fst (group_bars bs)) /\ forall k fs, In (k, fs) (group_bars bs) <-> (fs = of_law k bs /\ In k (map br_law bs)).
Proof.
  unfold group_bars. induction bs as [|b bs IH] using rev_ind; [split; [constructor|intros k fs; split; [intros []|intros (_ & [])]]|].
  rewrite fold_left_app. cbn [fold_left]. destruct IH as (N & H). set (d := fold_left _ bs []) in *.
  assert (KD : forall k, In k (map fst d) <-> In k (map br_law bs)).
  { intros k. split.
    - intros I. apply in_map_iff in I as ([j fs] & <- & I). apply H in I. apply I.
    - intros I. change k with (fst (k, of_law k bs)). apply in_map. apply H. split; [reflexivity|exact I]. }
  split; [apply add_bar_keys, N|]. intros k fs. rewrite (add_bar_values d (br_law b) (fibre_of_bar b) N). unfold of_law.
  rewrite filter_app, !map_app, in_app_iff. cbn [filter map In]. destruct (Nat.eqb_spec k (br_law b)) as [-> | D].
  - rewrite Nat.eqb_refl. cbn [map]. split.
    + intros (old & -> & [I | (-> & NI)]).
      * apply H in I. destruct I as (-> & I). split; [reflexivity|tauto].
      * split; [|tauto]. rewrite KD in NI. replace (filter _ bs) with (@nil bar); [reflexivity|]. symmetry. clear - NI. induction bs as [|x bs IH]; [reflexivity|]. cbn [filter map In] in *.
        destruct (Nat.eqb_spec (br_law x) (br_law b)) as [E|E]; [tauto|]. apply IH. tauto.
    + intros (-> & _). exists (of_law (br_law b) bs). split; [reflexivity|]. destruct (in_dec Nat.eq_dec (br_law b) (map fst d)) as [I|I].
      * left. apply H. split; [reflexivity|now apply KD].
      * right. split; [|exact I]. unfold of_law. rewrite KD in I. replace (filter _ bs) with (@nil bar); [reflexivity|]. symmetry. clear - I. induction bs as [|x bs IH]; [reflexivity|]. cbn [filter map In] in *.
        destruct (Nat.eqb_spec (br_law x) (br_law b)) as [E|E]; [tauto|]. apply IH. tauto.
  - destruct (Nat.eqb_spec (br_law b) k) as [E|_]; [congruence|]. cbn [map]. rewrite app_nil_r, H. unfold of_law. split; [intros (-> & I); auto|intros (-> & [I | [X | []]]); [auto|congruence]].
Qed.
Lemma nodup_pairs (d : list (nat * list fibre)) : NoDup (map fst d) -> NoDup d.
Proof. apply NoDup_map_inv. Qed.
Lemma bar_groups_perm bs bs' : Permutation bs bs' -> gperm (bar_groups bs) (bar_groups bs').
Proof.
  intros P. destruct (group_bars_spec bs) as (N & H), (group_bars_spec bs') as (N' & H').
  set (mk := fun kv : nat * list fibre => {| gr_fibres := snd kv; gr_scalar := (length (snd kv) =? 1)%nat; gr_law := fst kv |}).
  set (re := fun kv : nat * list fibre => (fst kv, of_law (fst kv) bs)).
  exists (map mk (map re (group_bars bs'))). split.
  - unfold bar_groups. fold mk. apply Permutation_map. apply NoDup_Permutation.
    + apply nodup_pairs, N.
    + apply nodup_pairs. rewrite map_map. cbn [re fst]. exact N'.
    + intros [k fs]. rewrite H, (in_map_iff re). split.
      * intros (-> & I). exists (k, of_law k bs'). split; [reflexivity|]. apply H'. split; [reflexivity|]. apply Permutation_in with (map br_law bs); [now apply Permutation_map|exact I].
      * intros ([j gs] & [= -> <-] & I). apply H' in I. split; [reflexivity|]. apply Permutation_in with (map br_law bs'); [apply Permutation_sym; now apply Permutation_map|apply I].
  - unfold bar_groups. fold mk. rewrite map_map.
    assert (G : forall kv, In kv (group_bars bs') -> same_group (mk (re kv)) (mk kv)).
    { intros [k fs] I. apply H' in I. destruct I as (-> & _). split; [reflexivity|]. cbn [re mk fst snd gr_fibres]. unfold of_law. apply Permutation_map. clear - P.
      induction P as [|x l l' P IH|x y l|l l' l'' P1 IH1 P2 IH2]; cbn [filter].
      - reflexivity.
      - destruct (_ =? _)%nat; [now constructor|exact IH].
      - destruct (br_law y =? k)%nat, (br_law x =? k)%nat; [apply perm_swap|reflexivity|reflexivity|reflexivity].
      - etransitivity; eassumption. }
    clear - G. induction (group_bars bs') as [|kv l IH]; constructor; [apply G; left; reflexivity|]. apply IH. intros x I. apply G. right. exact I.
Qed.
