(** Lemmas on the catalogue. *)
From Coq Require Import String DecimalString Lra Lia.
From Verif Require Import Base M_ProfileTable M_Catalog S_Catalog.
Open Scope R_scope.
Open Scope list_scope.

Definition raw (f : family) (row : list Z) : dict := combine (keys f) (map tenths row).
Definition full (f : family) (row : list Z) : dict := match completed f (raw f row) with Ok d => d | Err _ => raw f row end.
Lemma row_lengths : forall f name row, In (name, row) (rows f) -> List.length row = List.length (keys f).
Proof.
  assert (C : forall f, forallb (fun r => Nat.eqb (List.length (snd r)) (List.length (keys f))) (rows f) = true) by (intros []; vm_compute; reflexivity).
  intros f name row I. specialize (C f). rewrite forallb_forall in C. specialize (C _ I). now apply Nat.eqb_eq in C.
Qed.
Fixpoint nodupb (l : list string) : bool := match l with [] => true | x :: l' => negb (existsb (String.eqb x) l') && nodupb l' end.
Lemma nodupb_spec l : nodupb l = true -> NoDup l.
Proof.
  induction l as [|x l IH]; cbn [nodupb]; intros H; [constructor|]. apply Bool.andb_true_iff in H. destruct H as [H1 H2]. constructor; [|now apply IH].
  intros I. apply Bool.negb_true_iff in H1. assert (X : existsb (String.eqb x) l = true) by (apply existsb_exists; exists x; split; [exact I|apply String.eqb_refl]). congruence.
Qed.
Lemma names_unique f : NoDup (map fst (rows f)).
Proof. apply nodupb_spec. destruct f; vm_compute; reflexivity. Qed.

Ltac take_row row L :=
  destruct row as [|? row]; cbn in L; [discriminate|]; repeat (destruct row as [|? row]; cbn in L; try discriminate).
Definition basis (f : family) (d : dict) (row : list Z) : Prop := d = raw f row \/ d = full f row.

Lemma completed_basis f row d : List.length row = List.length (keys f) -> basis f d row -> completed f d = Ok (full f row).
Proof.
  intros L B. unfold basis, full, raw in *. destruct f; cbn [keys] in *; take_row row L; destruct B as [-> | ->]; cbn [map combine completed item dget dset String.eqb Ascii.eqb Bool.eqb bind];
    try reflexivity; cbn; try (destruct (Rleb _ 300) eqn:E); cbn; rewrite ?E; reflexivity.
Qed.
Lemma drawn_full f row : List.length row = List.length (keys f) -> exists s, drawn f (full f row) = Ok s.
Proof.
  intros L. unfold full, raw. destruct f; cbn [keys] in *; take_row row L; cbn; try (destruct (Rleb _ 300)); cbn; eexists; reflexivity.
Qed.

(** * What is drawn *)
Definition dim_of (f : family) (row : list Z) (k : string) : R := match dget k (raw f row) with Some v => v | None => 0 end.
Lemma dim_measure f name row k : In (name, row) (rows f) -> In k (keys f) -> measure f name k (dim_of f row k).
Proof.
  intros I K. pose proof (row_lengths f name row I) as L.
  assert (G : forall ks vs, List.length vs = List.length ks -> In k ks ->
     exists i z, nth_error ks i = Some k /\ nth_error vs i = Some z /\ dget k (combine ks (map tenths vs)) = Some (tenths z)).
  { induction ks as [|a ks IH]; intros vs E Ik; [destruct Ik|]. destruct vs as [|v vs]; [discriminate|]. cbn [map combine dget].
    destruct (String.eqb_spec k a) as [<-|N].
    - exists 0%nat, v. repeat split.
    - destruct Ik as [<-|Ik]; [contradiction|]. destruct (IH vs ltac:(now injection E) Ik) as (i & z & H1 & H2 & H3). exists (S i), z. repeat split; assumption. }
  destruct (G (keys f) row L K) as (i & z & H1 & H2 & H3). exists row, i, z. split; [exact I|]. split; [exact H1|]. split; [exact H2|].
  unfold dim_of, raw. rewrite H3. unfold tenths. field.
Qed.
Definition shape_of (f : family) (row : list Z) : shape :=
  let m := dim_of f row in
  match f with
  | UPE => ShParallelU (m "h") (m "b") (m "tw") (m "tf") (m "r")
  | IPN => ShTaperI (m "h") (m "b") (m "tw") (m "tf") (m "r1") (m "r2") (14 / 100)
  | Uf => ShTaperU (m "h") (m "b") (m "tw") (m "tf") (m "r1") (m "r2") (8 / 100) (m "b" / 2)
  | UPN => if Rleb (m "h") 300 then ShTaperU (m "h") (m "b") (m "tw") (m "tf") (m "r1") (m "r2") (8 / 100) (m "b" / 2)
           else ShTaperU (m "h") (m "b") (m "tw") (m "tf") (m "r1") (m "r2") (5 / 100) ((m "b" - m "tw") / 2)
  | Lf | LI => ShL (m "h") (m "b") (m "t") (m "t") (m "r1") (m "r2")
  | _ => ShI (m "h") (m "b") (m "tw") (m "tf") (m "r")
  end%string.
Lemma drawn_shape f row : List.length row = List.length (keys f) -> drawn f (full f row) = Ok (shape_of f row).
Proof.
  intros L. unfold full, raw, shape_of, dim_of, raw. destruct f; cbn [keys] in *; take_row row L; cbn; try (destruct (Rleb _ 300)); cbn; reflexivity.
Qed.
Definition public (f : family) : list string := filter (fun k => negb (String.eqb k "d")) (keys f).
Lemma create_basis f row name n t d : List.length row = List.length (keys f) -> find f n t = Ok (name, d) -> basis f d row ->
  create f n t = Ok {| st_dims := map (fun k => (k, dim_of f row k)) (public f); st_shape := shape_of f row |}.
Proof.
  intros L F B. unfold create. rewrite F. cbn [bind snd]. unfold basis, full, raw, shape_of, dim_of, raw, public in *.
  destruct f; cbn [keys] in *; take_row row L; destruct B as [-> | ->]; cbn; try (destruct (Rleb _ 300) eqn:E); cbn; rewrite ?E; reflexivity.
Qed.
Lemma shape_drawing f name row : In (name, row) (rows f) -> drawing f name (shape_of f row).
Proof.
  intros I. pose proof (fun k => dim_measure f name row k I) as M. unfold drawing, shape_of.
  set (m := dim_of f row) in *.
  destruct f; cbn [keys] in M;
    first [ exists (m "h"%string), (m "b"%string), (m "tw"%string), (m "tf"%string), (m "r1"%string), (m "r2"%string); do 6 (split; [apply M; cbn; tauto|])
          | exists (m "h"%string), (m "b"%string), (m "tw"%string), (m "tf"%string), (m "r"%string); do 5 (split; [apply M; cbn; tauto|])
          | exists (m "h"%string), (m "b"%string), (m "t"%string), (m "r1"%string), (m "r2"%string); do 5 (split; [apply M; cbn; tauto|]) ]; try reflexivity.
  split; intros H; destruct (Rleb_spec (m "h"%string) 300); try reflexivity; lra.
Qed.

(** * The class tables along a history *)
Definition state_ok (t : tables) : Prop :=
  forall f, Forall2 (fun r e => fst e = fst r /\ basis f (snd e) (snd r)) (rows f) (t f).
Lemma state_imported : state_ok imported.
Proof.
  intros f. unfold imported. induction (rows f) as [|r l IH]; cbn [map]; [constructor|]. constructor; [|exact IH]. split; [reflexivity|]. now left.
Qed.
Lemma state_names t f : state_ok t -> map fst (t f) = map fst (rows f).
Proof. intros H. specialize (H f). induction H as [|r e l m [H1 _] _ IH]; [reflexivity|]. cbn [map]. now rewrite H1, IH. Qed.
Lemma state_get t f k : state_ok t ->
  (forall row, In (k, row) (rows f) -> exists d, dget k (t f) = Some d /\ basis f d row) /\ (~ listed f k -> dget k (t f) = None).
Proof.
  intros H. specialize (H f). unfold listed. pose proof (names_unique f) as ND. revert ND.
  induction H as [|r e l m [H1 H2] _ IH]; intros ND.
  - split; [intros row []|reflexivity].
  - cbn [map] in ND. inversion ND as [|x y NI ND']; subst. destruct (IH ND') as [A B]. destruct e as [k' d]. destruct r as [k0 row0]. cbn [fst snd] in *. subst k'. cbn [dget].
    destruct (String.eqb_spec k k0) as [-> |N].
    + split; [|intros X; exfalso; apply X; exists row0; now left].
      intros row [E|I]; [injection E as <-; exists d; now split|]. exfalso. apply NI. change k0 with (fst (k0, row)). now apply in_map.
    + split; [|intros X; apply B; intros (row & I); apply X; exists row; now right].
      intros row [E|I]; [congruence|]. exact (A row I).
Qed.
Lemma state_set f k row0 : In (k, row0) (rows f) -> forall m,
  Forall2 (fun r e => fst e = fst r /\ basis f (snd e) (snd r)) (rows f) m ->
  Forall2 (fun r e => fst e = fst r /\ basis f (snd e) (snd r)) (rows f) (dset k (full f row0) m).
Proof.
  intros I m H. pose proof (names_unique f) as ND. revert I ND.
  induction H as [|r e l m' [H1 H2] HT IH]; intros I ND; [destruct I|].
  cbn [map] in ND. inversion ND as [|x y NI ND']; subst. destruct e as [k' d]. destruct r as [k0 row]. cbn [fst snd] in *. subst k'. cbn [dset].
  destruct (String.eqb_spec k k0) as [-> |N].
  - destruct I as [E|I]; [injection E as <-|exfalso; apply NI; change k0 with (fst (k0, row0)); now apply in_map].
    constructor; [|exact HT]. split; [reflexivity|]. now right.
  - destruct I as [E|I]; [congruence|]. constructor; [now split|]. now apply IH.
Qed.
Lemma same_family_spec f g : same_family f g = true <-> f = g.
Proof. split; [destruct f, g; cbn; congruence|intros ->; destruct g; reflexivity]. Qed.
Lemma find_spec t f n : state_ok t ->
  (forall name row, asked f n name -> In (name, row) (rows f) -> exists d, find f n t = Ok (name, d) /\ basis f d row) /\
  ((forall name, asked f n name -> ~ listed f name) -> find f n t = Err ValueError).
Proof.
  intros H. unfold find, asked. split.
  - intros name row A I.
    assert (K : key_of f n = Some name).
    { destruct A as [-> |(z & p & -> & P & ->)]; [reflexivity|]. unfold key_of. destruct f; cbn [by_number] in P; try discriminate; injection P as <-; reflexivity. }
    rewrite K. destruct (proj1 (state_get t f name H) row I) as (d & -> & B). exists d. now split.
  - intros A. destruct (key_of f n) as [k|] eqn:K; [|reflexivity].
    assert (X : ~ listed f k).
    { apply A. destruct n as [s|z]; cbn [key_of] in K; [left; congruence|]. right.
      destruct f; try discriminate; injection K as <-; eexists z, _; (split; [reflexivity|]; split; [reflexivity|reflexivity]). }
    rewrite (proj2 (state_get t f k H) X). reflexivity.
Qed.
Lemma find_listed t f n k d : state_ok t -> find f n t = Ok (k, d) -> exists row, In (k, row) (rows f) /\ basis f d row.
Proof.
  intros H F. unfold find in F. destruct (key_of f n) as [k'|]; [|discriminate]. destruct (dget k' (t f)) as [d'|] eqn:G; [|discriminate]. injection F as -> ->.
  assert (D : {row | In (k, row) (rows f)} + {forall row, ~ In (k, row) (rows f)}).
  { clear. induction (rows f) as [|[k' row] l IH]; [right; intros row []|]. destruct (String.eqb_spec k' k) as [-> |N]; [left; exists row; now left|].
    destruct IH as [[r I]|NI]; [left; exists r; now right|right]. intros r [E|I]; [congruence|exact (NI r I)]. }
  destruct D as [[row I]|NI].
  - destruct (proj1 (state_get t f k H) row I) as (d' & G' & B). rewrite G in G'. injection G' as <-. exists row. now split.
  - exfalso. rewrite (proj2 (state_get t f k H)) in G; [discriminate|]. intros (row & I). exact (NI row I).
Qed.
Lemma state_polygon t f n : state_ok t -> state_ok (snd (get_polygon f n t)).
Proof.
  intros H. unfold get_polygon. destruct (find f n t) as [[k d]|e] eqn:F; [|exact H].
  destruct (find_listed t f n k d H F) as (row & I & B). rewrite (completed_basis f row d (row_lengths f k row I) B). cbn [snd].
  assert (S : state_ok (store t f k (full f row))).
  { intros g. unfold store. destruct (same_family f g) eqn:E; [|apply H]. apply same_family_spec in E. subst g. apply state_set; [exact I|apply H]. }
  destruct f; assumption.
Qed.
Lemma state_after l : forall t, state_ok t -> state_ok (after l t).
Proof.
  induction l as [|q l IH]; intros t H; [exact H|]. cbn [after]. apply IH. destruct q; cbn [ask snd]; try exact H.
  destruct (get_polygon f n t) as [r t'] eqn:E. cbn [snd]. change t' with (snd (r, t')). rewrite <- E. now apply state_polygon.
Qed.
