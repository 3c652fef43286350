(** Lemmas for C64: every triangulation can be refined. *)
From Coq Require Import Permutation Lra Lia.
From Coquelicot Require Import Coquelicot.
From Verif Require Import Base M_Marin S_Marin L_Marin M_Laws M_Laws2 M_Fiber S_Fiber L_Fiber M_MarinInt S_MarinInt L_MarinInt2 M_Section S_Mesh L_Mesh L_Mesh2.

Definition quarter (t : tri) : list tri :=
  let '(p, q, r) := t in let a := seg p q (1/2) in let b := seg q r (1/2) in let c := seg r p (1/2) in
  [(p, a, c); (a, q, b); (c, b, r); (a, b, c)].
Fixpoint refine (n : nat) (ts : list tri) : list tri := match n with O => ts | S n => flat_map quarter (refine n ts) end.

Lemma sb_tail k l m : same_boundary l m -> same_boundary (l ++ k) (m ++ k).
Proof.
  induction 1.
  - apply sb_perm. now apply Permutation_app_tail.
  - apply sb_cancel.
  - apply (sb_join p q t (l ++ k)). assumption.
  - now apply sb_sym.
  - eapply sb_trans; eassumption.
Qed.
Lemma sb_app l l' m m' : same_boundary l l' -> same_boundary m m' -> same_boundary (l ++ m) (l' ++ m').
Proof.
  intros A B. apply sb_trans with (l' ++ m); [apply sb_tail, A|].
  apply sb_trans with (m ++ l'); [apply sb_perm, Permutation_app_comm|].
  apply sb_trans with (m' ++ l'); [apply sb_tail, B|]. apply sb_perm, Permutation_app_comm.
Qed.
Lemma sb_head e l m : same_boundary l m -> same_boundary (e :: l) (e :: m).
Proof. intros H. apply (sb_app [e] [e]); [apply sb_perm; reflexivity|exact H]. Qed.
Lemma quarter_edges t : same_boundary (flat_map tri_edges (quarter t)) (tri_edges t).
Proof.
  destruct t as [[p q] r]. unfold quarter, tri_edges. cbn [flat_map app].
  set (a := seg p q (1/2)). set (b := seg q r (1/2)). set (c := seg r p (1/2)).
  apply sb_trans with ((a, c) :: (c, a) :: (b, a) :: (a, b) :: (c, b) :: (b, c) :: (p, a) :: (a, q) :: (q, b) :: (b, r) :: (r, c) :: (c, p) :: []).
  { apply sb_perm.
    transitivity ([(p, a); (a, c); (c, p)] ++ [(a, q); (q, b); (b, a)] ++ [(c, b); (b, r); (r, c)] ++ [(a, b); (b, c); (c, a)]); [reflexivity|].
    apply Permutation_sym.
    change (Permutation ([(a, c); (c, a); (b, a); (a, b); (c, b); (b, c); (p, a); (a, q); (q, b); (b, r); (r, c); (c, p)])
      [(p, a); (a, c); (c, p); (a, q); (q, b); (b, a); (c, b); (b, r); (r, c); (a, b); (b, c); (c, a)]).
    apply (Permutation_cons_app [(p, a)]). cbn [app].
    apply (Permutation_cons_app [(p, a); (c, p); (a, q); (q, b); (b, a); (c, b); (b, r); (r, c); (a, b); (b, c)] []). cbn [app].
    apply (Permutation_cons_app [(p, a); (c, p); (a, q); (q, b)]). cbn [app].
    apply (Permutation_cons_app [(p, a); (c, p); (a, q); (q, b); (c, b); (b, r); (r, c)]). cbn [app].
    apply (Permutation_cons_app [(p, a); (c, p); (a, q); (q, b)]). cbn [app].
    apply (Permutation_cons_app [(p, a); (c, p); (a, q); (q, b); (b, r); (r, c)] []). cbn [app].
    apply perm_skip. apply (Permutation_cons_app [(c, p)]). cbn [app]. apply (Permutation_cons_app [(c, p)]). cbn [app].
    apply (Permutation_cons_app [(c, p)]). cbn [app]. apply (Permutation_cons_app [(c, p)]). cbn [app]. reflexivity. }
  eapply sb_trans; [apply sb_cancel|]. eapply sb_trans; [apply sb_cancel|]. eapply sb_trans; [apply sb_cancel|].
  eapply sb_trans; [apply (sb_join p q (1/2)); lra|]. apply sb_head.
  eapply sb_trans; [apply (sb_join q r (1/2)); lra|]. apply sb_head.
  apply (sb_join r p (1/2)); lra.
Qed.
Lemma edges_refined ts : same_boundary (flat_map tri_edges (flat_map quarter ts)) (flat_map tri_edges ts).
Proof.
  induction ts as [|t ts IH]; [apply sb_perm; reflexivity|]. cbn [flat_map]. rewrite flat_map_app. apply sb_app; [apply quarter_edges|exact IH].
Qed.
Lemma quarter_ccw t t' : ccw t -> In t' (quarter t) -> ccw t'.
Proof.
  destruct t as [[p q] r]. intros C I. pose proof (turn3_area (p, q, r)) as A. cbn beta iota in A. unfold ccw in C |- *.
  assert (T : 0 <= turn3 p q r) by (rewrite A; lra).
  cbn [quarter] in I. destruct I as [<-|[<-|[<-|[<-|[]]]]];
  match goal with |- 0 <= fan_moment 0 0 (tri_ring (?x, ?y, ?z)) => pose proof (turn3_area (x, y, z)) as B; cbn beta iota in B;
    assert (E : turn3 x y z = turn3 p q r / 4) by (unfold turn3, seg; cbn [fst snd]; field); lra end.
Qed.
Lemma triangulates_quarter ts s : triangulates ts s -> triangulates (flat_map quarter ts) s.
Proof.
  intros (C & B). split.
  - intros t' I. apply in_flat_map in I as (t & I & I'). exact (quarter_ccw t t' (C t I) I').
  - eapply sb_trans; [apply edges_refined|exact B].
Qed.
Lemma triangulates_refine n ts s : triangulates ts s -> triangulates (refine n ts) s.
Proof. intros T. induction n as [|n IH]; [exact T|]. cbn [refine]. now apply triangulates_quarter. Qed.

(** Bounds on the corners stay. *)
Definition midway (P : R * R -> Prop) : Prop := forall u v, P u -> P v -> P (seg u v (1/2)).
Lemma corners_quarter P t : midway P -> (forall v, corner t v -> P v) -> forall t' v, In t' (quarter t) -> corner t' v -> P v.
Proof.
  destruct t as [[p q] r]. intros M H. assert (P1 : P p) by (apply H; cbn; auto). assert (P2 : P q) by (apply H; cbn; auto). assert (P3 : P r) by (apply H; cbn; auto).
  intros t' v I V. cbn [quarter] in I. destruct I as [<-|[<-|[<-|[<-|[]]]]]; cbn [corner] in V; destruct V as [-> | [-> | ->]]; try assumption; apply M; assumption.
Qed.
Lemma corners_refine P n ts : midway P -> (forall t v, In t ts -> corner t v -> P v) -> forall t v, In t (refine n ts) -> corner t v -> P v.
Proof.
  intros M H. induction n as [|n IH]; [exact H|]. intros t v I V. cbn [refine] in I. apply in_flat_map in I as (t0 & I0 & I).
  exact (corners_quarter P t0 M (fun v0 => IH t0 v0 I0) t v I V).
Qed.
Lemma size_quarter h t t' : tri_size h t -> In t' (quarter t) -> tri_size (h / 2) t'.
Proof.
  destruct t as [[p q] r]. intros (A1 & A2 & A3 & B1 & B2 & B3) I.
  apply Rabs_le_between in A1, A2, A3, B1, B2, B3.
  cbn [quarter] in I. destruct I as [<-|[<-|[<-|[<-|[]]]]]; unfold tri_size, seg; cbn [fst snd]; repeat apply conj; apply Rabs_le; lra.
Qed.
Lemma size_refine h n ts : (forall t, In t ts -> tri_size h t) -> forall t, In t (refine n ts) -> tri_size (h / 2 ^ n) t.
Proof.
  intros H. induction n as [|n IH].
  - cbn [refine pow]. intros t I. replace (h / 1) with h by field. auto.
  - intros t I. cbn [refine] in I. apply in_flat_map in I as (t0 & I0 & I).
    replace (h / 2 ^ S n) with (h / 2 ^ n / 2) by (cbn [pow]; field; apply pow_nonzero; lra). exact (size_quarter _ t0 t (IH t0 I0) I).
Qed.
Lemma size_corners Y Z t : (forall v, corner t v -> Rabs (fst v) <= Y /\ Rabs (snd v) <= Z) -> tri_size (2 * (Y + Z)) t.
Proof.
  destruct t as [[p q] r]. intros H. assert (0 <= Y /\ 0 <= Z) as (PY & PZ).
  { destruct (H p) as (A & B); [cbn; auto|]. pose proof (Rabs_pos (fst p)). pose proof (Rabs_pos (snd p)). lra. }
  destruct (H p) as (A1 & A2); [cbn; auto|]. destruct (H q) as (B1 & B2); [cbn; auto|]. destruct (H r) as (C1 & C2); [cbn; auto|].
  apply Rabs_le_between in A1, A2, B1, B2, C1, C2.
  unfold tri_size. repeat apply conj; apply Rabs_le; lra.
Qed.
(** Small errors. *)
Lemma small_enough a b C : 0 <= C -> (forall n : nat, a <= b + C / 2 ^ n) -> a <= b.
Proof.
  intros HC H. destruct (Rle_lt_dec a b) as [L|L]; [exact L|]. exfalso.
  destruct (Req_dec C 0) as [->|NC]. { specialize (H 0%nat). cbn in H. lra. }
  destruct (archimed (C / (a - b))) as (A & _). set (k := Z.to_nat (up (C / (a - b)))).
  assert (K : C / (a - b) < 2 ^ k).
  { apply Rlt_le_trans with (INR k).
    - unfold k. rewrite INR_IZR_INZ, Z2Nat.id; [exact A|]. apply le_IZR. apply Rle_trans with (C / (a - b)); [|lra].
      apply Rdiv_le_0_compat; lra.
    - clear. induction k as [|k IH]; [cbn; lra|]. rewrite S_INR. cbn [pow]. assert (1 <= 2 ^ k) by (apply pow_R1_Rle; lra). lra. }
  specialize (H k). assert (P : 0 < 2 ^ k) by (apply pow_lt; lra).
  assert (C / 2 ^ k < a - b). { apply (Rmult_lt_reg_r (2 ^ k)); [exact P|]. unfold Rdiv. rewrite Rmult_assoc, Rinv_l, Rmult_1_r by lra.
    apply (Rmult_lt_compat_r (a - b)) in K; [|lra]. unfold Rdiv in K. rewrite Rmult_assoc, Rinv_l, Rmult_1_r in K by lra. lra. }
  lra.
Qed.
