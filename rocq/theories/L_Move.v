(** Lemmas for C58: moments of moved outlines. *)
From Coquelicot Require Import Coquelicot.
From Coq Require Import Permutation Lra Lia.
From Verif Require Import Base M_Marin S_Marin L_Marin M_Laws S_Laws M_Laws2 S_Laws2 M_Fiber S_Fiber L_Fiber M_MarinInt S_MarinInt L_MarinInt L_MarinInt2 L_MarinInt4 L_Frame L_Frame4 L_Mesh2 M_Section S_Move.

Definition moments_move (sg a b : R) (M M' : nat -> nat -> R) : Prop :=
  M' 0%nat 0%nat = M 0%nat 0%nat /\ M' 1%nat 0%nat = sg * M 1%nat 0%nat + a * M 0%nat 0%nat /\
  M' 0%nat 1%nat = M 0%nat 1%nat + b * M 0%nat 0%nat /\
  M' 2%nat 0%nat = M 2%nat 0%nat + 2 * sg * a * M 1%nat 0%nat + a ^ 2 * M 0%nat 0%nat /\
  M' 1%nat 1%nat = sg * M 1%nat 1%nat + sg * b * M 1%nat 0%nat + a * M 0%nat 1%nat + a * b * M 0%nat 0%nat /\
  M' 0%nat 2%nat = M 0%nat 2%nat + 2 * b * M 0%nat 1%nat + b ^ 2 * M 0%nat 0%nat.

Lemma lsum_perm (l m : list R) : Permutation l m -> lsum l = lsum m.
Proof.
  induction 1 as [|x l m P IH|x y l|l m n P1 IH1 P2 IH2]; [reflexivity|rewrite !lsum_cons, IH; reflexivity|rewrite !lsum_cons; ring|congruence].
Qed.

Lemma lsum_scal {A} (k : R) (f : A -> R) l : lsum (map (fun x => k * f x) l) = k * lsum (map f l).
Proof.
  induction l as [|x l IH]; cbn [map]; [change (lsum []) with 0; ring|]. rewrite !lsum_cons, IH. ring.
Qed.
(** Integral of g dz along an edge. *)
Definition dz_edge (g : R -> R) (e : (R * R) * (R * R)) : R := prim g (snd (snd e)) - prim g (snd (fst e)).
Lemma dz_is g p q : everywhere g -> is_RInt (fun t => g (snd (seg p q t)) * (snd q - snd p)) 0 1 (dz_edge g (p, q)).
Proof.
  intros E. unfold dz_edge. cbn [fst snd]. rewrite prim_diff by exact E.
  apply (is_RInt_ext (fun t => scal (snd q - snd p) (g ((snd q - snd p) * t + snd p)))).
  { intros t _. unfold scal; cbn; unfold mult; cbn. replace ((snd q - snd p) * t + snd p) with ((1 - t) * snd p + t * snd q) by ring. ring. }
  apply (is_RInt_comp_lin (V := R_NormedModule) g (snd q - snd p) (snd p) 0 1).
  replace ((snd q - snd p) * 0 + snd p) with (snd p) by ring. replace ((snd q - snd p) * 1 + snd p) with (snd q) by ring.
  apply (RInt_correct (V := R_CompleteNormedModule)), E.
Qed.
Lemma place_seg sg a b p q t : seg (place sg a b p) (place sg a b q) t = place sg a b (seg p q t).
Proof. unfold seg, place. cbn [fst snd]. f_equal; ring. Qed.

Section Edge.
Variables (sg a b : R) (g g' : R -> R).
Hypothesis SG : sg = 1 \/ sg = -1.
Hypothesis EG : eint g.
Hypothesis GG : forall z, g' (z + b) = g z.
Let T := place sg a b.
Lemma gfun_place m p q t : gfun m g' (T p) (T q) t = (sg * fst (seg p q t) + a) ^ (m + 1) / INR (m + 1) * g (snd (seg p q t)) * (snd q - snd p).
Proof. unfold gfun, T. rewrite place_seg. unfold place at 1 2 3 4. cbn [fst snd]. rewrite GG. f_equal. ring. Qed.
Lemma gedge_place0 p q : gedge 0 g' (T p) (T q) = sg * gedge 0 g p q + a * dz_edge g (p, q).
Proof.
  unfold gedge at 1. apply RIntU.
  apply (is_RInt_ext (fun t => plus (scal sg (gfun 0 g p q t)) (scal a (g (snd (seg p q t)) * (snd q - snd p))))).
  { intros t _. rewrite gfun_place. unfold gfun, plus, scal; cbn; unfold mult; cbn. field. }
  apply (is_RInt_plus (V := R_NormedModule)); apply (is_RInt_scal (V := R_NormedModule)); [apply gedge_correct, EG|apply dz_is, eint_everywhere, EG].
Qed.
Lemma gedge_place1 p q : gedge 1 g' (T p) (T q) = gedge 1 g p q + sg * a * gedge 0 g p q + a ^ 2 / 2 * dz_edge g (p, q).
Proof.
  unfold gedge at 1. apply RIntU.
  apply (is_RInt_ext (fun t => plus (plus (gfun 1 g p q t) (scal (sg * a) (gfun 0 g p q t))) (scal (a ^ 2 / 2) (g (snd (seg p q t)) * (snd q - snd p))))).
  { intros t _. rewrite gfun_place. unfold gfun, plus, scal; cbn; unfold mult; cbn. 
    set (X := fst (seg p q t)). set (G := g (snd (seg p q t))). set (D := snd q - snd p).
    destruct SG as [Z|Z]; rewrite Z; field. }
  apply (is_RInt_plus (V := R_NormedModule)); [apply (is_RInt_plus (V := R_NormedModule)); [apply gedge_correct, EG|apply (is_RInt_scal (V := R_NormedModule)), gedge_correct, EG]|].
  apply (is_RInt_scal (V := R_NormedModule)), dz_is, eint_everywhere, EG.
Qed.
Lemma gedge_place2 p q : gedge 2 g' (T p) (T q) = sg * gedge 2 g p q + 2 * a * gedge 1 g p q + sg * a ^ 2 * gedge 0 g p q + a ^ 3 / 3 * dz_edge g (p, q).
Proof.
  unfold gedge at 1. apply RIntU.
  apply (is_RInt_ext (fun t => plus (plus (plus (scal sg (gfun 2 g p q t)) (scal (2 * a) (gfun 1 g p q t))) (scal (sg * a ^ 2) (gfun 0 g p q t))) (scal (a ^ 3 / 3) (g (snd (seg p q t)) * (snd q - snd p))))).
  { intros t _. rewrite gfun_place. unfold gfun, plus, scal; cbn; unfold mult; cbn.
    set (X := fst (seg p q t)). set (G := g (snd (seg p q t))). set (D := snd q - snd p).
    destruct SG as [Z|Z]; rewrite Z; field. }
  apply (is_RInt_plus (V := R_NormedModule)); [|apply (is_RInt_scal (V := R_NormedModule)), dz_is, eint_everywhere, EG].
  apply (is_RInt_plus (V := R_NormedModule)); [|apply (is_RInt_scal (V := R_NormedModule)), gedge_correct, EG].
  apply (is_RInt_plus (V := R_NormedModule)); apply (is_RInt_scal (V := R_NormedModule)), gedge_correct, EG.
Qed.
Lemma dz_closed ring : closed ring -> lsum (map (fun e => dz_edge g e) (edges ring)) = 0.
Proof. intros C. exact (telescope_closed (fun p => prim g (snd p)) ring C). Qed.
Lemma gfield_place ring : closed ring ->
  gfield 0 g' (map T ring) = sg * gfield 0 g ring /\ gfield 1 g' (map T ring) = gfield 1 g ring + sg * a * gfield 0 g ring /\
  gfield 2 g' (map T ring) = sg * gfield 2 g ring + 2 * a * gfield 1 g ring + sg * a ^ 2 * gfield 0 g ring.
Proof.
  intros C. pose proof (dz_closed ring C) as Z. unfold gfield. rewrite !edges_map, !map_map. cbn [fst snd].
  assert (Z2 : forall k, lsum (map (fun e => k * dz_edge g e) (edges ring)) = 0) by (intros k; transitivity (k * lsum (map (fun e => dz_edge g e) (edges ring))); [exact (lsum_scal k (fun e => dz_edge g e) _)|rewrite Z; ring]).
  split; [|split].
  - rewrite (lsum_map_ext _ (fun e => sg * gedge 0 g (fst e) (snd e) + a * dz_edge g e)) by (intros [p q] _; apply gedge_place0).
    rewrite lsum_map_plus, Z2, ?lsum_scal. ring.
  - rewrite (lsum_map_ext _ (fun e => (gedge 1 g (fst e) (snd e) + sg * a * gedge 0 g (fst e) (snd e)) + a ^ 2 / 2 * dz_edge g e)) by (intros [p q] _; apply gedge_place1).
    rewrite !lsum_map_plus, Z2, ?lsum_scal. ring.
  - rewrite (lsum_map_ext _ (fun e => ((sg * gedge 2 g (fst e) (snd e) + 2 * a * gedge 1 g (fst e) (snd e)) + sg * a ^ 2 * gedge 0 g (fst e) (snd e)) + a ^ 3 / 3 * dz_edge g e)) by (intros [p q] _; apply gedge_place2).
    rewrite !lsum_map_plus, Z2, ?lsum_scal. ring.
Qed.
End Edge.

(** Moments of a field of the strain over one ring. *)
Definition mom (f : R -> R) (e0 r : R) (ring : list (R * R)) (m off : nat) : R := gfield m (fun z => f (e0 + r * z) * z ^ off) ring.
Section Ring.
Variables (sg a b : R) (f : R -> R) (e0 r : R).
Hypothesis SG : sg = 1 \/ sg = -1.
Hypothesis EF : forall off, eint (fun z => f (e0 + r * z) * z ^ off).
Let T := place sg a b.
Let G (off : nat) (z : R) : R := f (e0 + r * z) * (z + b) ^ off.
Lemma G_fields m ring : gfield m (G 0) ring = mom f e0 r ring m 0 /\ gfield m (G 1) ring = mom f e0 r ring m 1 + b * mom f e0 r ring m 0 /\
  gfield m (G 2) ring = mom f e0 r ring m 2 + 2 * b * mom f e0 r ring m 1 + b ^ 2 * mom f e0 r ring m 0.
Proof.
  unfold mom. split; [reflexivity|].
  pose (h := fun off z => f (e0 + r * z) * z ^ off).
  assert (H : forall off, eint (h off)) by exact EF.
  split.
  - transitivity (gfield m (fun z => h 1%nat z + b * h 0%nat z) ring).
    { apply gfield_ext. intros z. unfold G, h. cbn [pow]. ring. }
    pose proof (gfield_plus m (h 1%nat) (fun z => b * h 0%nat z) ring (H 1%nat) (eint_mult b _ (H 0%nat))) as P.
    pose proof (gfield_scal m b (h 0%nat) ring (H 0%nat)) as Q. rewrite P, Q. reflexivity.
  - transitivity (gfield m (fun z => h 2%nat z + (2 * b * h 1%nat z + b ^ 2 * h 0%nat z)) ring).
    { apply gfield_ext. intros z. unfold G, h. cbn [pow]. ring. }
    pose proof (gfield_plus m (h 2%nat) (fun z => 2 * b * h 1%nat z + b ^ 2 * h 0%nat z) ring (H 2%nat) (eint_plus _ _ (eint_mult (2 * b) _ (H 1%nat)) (eint_mult (b ^ 2) _ (H 0%nat)))) as P.
    pose proof (gfield_plus m (fun z => 2 * b * h 1%nat z) (fun z => b ^ 2 * h 0%nat z) ring (eint_mult (2 * b) _ (H 1%nat)) (eint_mult (b ^ 2) _ (H 0%nat))) as P2.
    pose proof (gfield_scal m (2 * b) (h 1%nat) ring (H 1%nat)) as Q. pose proof (gfield_scal m (b ^ 2) (h 0%nat) ring (H 0%nat)) as Q2.
    rewrite P, P2, Q, Q2. unfold h. ring.
Qed.
Lemma G_eint off : (off <= 2)%nat -> eint (G off).
Proof.
  intros L. destruct off as [|[|[|off]]]; [apply (EF 0)| | |lia].
  - apply (eint_finite (fun z => f (e0 + r * z) * z ^ 1 + b * (f (e0 + r * z) * z ^ 0)) _ []); [intros z _; unfold G; cbn [pow]; ring|].
    apply eint_plus; [apply EF|apply eint_mult, EF].
  - apply (eint_finite (fun z => f (e0 + r * z) * z ^ 2 + (2 * b * (f (e0 + r * z) * z ^ 1) + b ^ 2 * (f (e0 + r * z) * z ^ 0))) _ []); [intros z _; unfold G; cbn [pow]; ring|].
    apply eint_plus; [apply EF|apply eint_plus; apply eint_mult, EF].
Qed.
Lemma moved_G off z : f (e0 - r * b + r * (z + b)) * (z + b) ^ off = G off z.
Proof. unfold G. f_equal. f_equal. ring. Qed.
Lemma mom_place ring : closed ring -> moments_move sg a b (mom f e0 r ring) (fun m off => sg * mom f (e0 - r * b) r (map T ring) m off).
Proof.
  intros C.
  assert (P : forall off, (off <= 2)%nat -> let g' := fun z => f (e0 - r * b + r * z) * z ^ off in
    gfield 0 g' (map T ring) = sg * gfield 0 (G off) ring /\ gfield 1 g' (map T ring) = gfield 1 (G off) ring + sg * a * gfield 0 (G off) ring /\
    gfield 2 g' (map T ring) = sg * gfield 2 (G off) ring + 2 * a * gfield 1 (G off) ring + sg * a ^ 2 * gfield 0 (G off) ring).
  { intros off L g'. apply (gfield_place sg a b (G off) g' SG (G_eint off L)); [|exact C]. intros z. apply moved_G. }
  assert (S2 : sg * sg = 1) by (destruct SG as [Z|Z]; rewrite Z; ring).
  destruct (P 0%nat ltac:(lia)) as (P00 & P10 & P20). destruct (P 1%nat ltac:(lia)) as (P01 & P11 & _). destruct (P 2%nat ltac:(lia)) as (P02 & _ & _).
  destruct (G_fields 0 ring) as (Q00 & Q01 & Q02). destruct (G_fields 1 ring) as (Q10 & Q11 & _). destruct (G_fields 2 ring) as (Q20 & _ & _).
  rewrite ?Q00, ?Q01, ?Q02, ?Q10, ?Q11, ?Q20 in *. clear Q00 Q01 Q02 Q10 Q11 Q20 P.
  unfold moments_move. unfold mom at 1 3 6 9 13 18. rewrite P00, P10, P01, P20, P11, P02. clear P00 P10 P01 P20 P11 P02.
  repeat split; ring [S2].
Qed.
End Ring.

(** Outlines with the placed edges. *)
Definition placed_edge (T : R * R -> R * R) (e : (R * R) * (R * R)) : (R * R) * (R * R) := (T (fst e), T (snd e)).
Definition turnsign (T : R * R -> R * R) (r r' : list (R * R)) (k : R) : Prop :=
  (k = 1 /\ Permutation (edges r') (edges (map T r))) \/ (k = -1 /\ Permutation (edges r') (map (fun e => (snd e, fst e)) (edges (map T r)))).
Lemma outline_sign T r r' : same_outline T r r' -> exists k, turnsign T r r' k.
Proof.
  intros (_ & [P|P]); [exists 1; left|exists (-1); right]; (split; [reflexivity|]); rewrite edges_map; [exact P|].
  rewrite map_map. exact P.
Qed.
Lemma outline_sum T r r' k (h : (R * R) * (R * R) -> R) : (forall p q, h (q, p) = - h (p, q)) -> turnsign T r r' k ->
  lsum (map h (edges r')) = k * lsum (map h (edges (map T r))).
Proof.
  intros O [[-> P]|[-> P]]; rewrite (lsum_perm _ _ (Permutation_map h P)); [ring|]. rewrite map_map.
  rewrite (lsum_map_ext _ (fun e => (-1) * h e)) by (intros [p q] _; cbn [fst snd]; rewrite O; ring). exact (lsum_scal (-1) h _).
Qed.
Lemma outline_gfield m g T r r' k : eint g -> turnsign T r r' k -> gfield m g r' = k * gfield m g (map T r).
Proof.
  intros E K. unfold gfield. apply (outline_sum T r r' k (fun e => gedge m g (fst e) (snd e))); [|exact K]. intros p q. cbn [fst snd]. exact (gedge_rev m g p q E).
Qed.
Lemma outline_shoelace T r r' k : turnsign T r r' k -> shoelace r' = k * shoelace (map T r).
Proof.
  intros K. unfold shoelace. apply (outline_sum T r r' k (fun e => cross (fst e) (snd e) / 2)); [|exact K]. intros p q. unfold cross. cbn [fst snd]. field.
Qed.
Lemma place_shoelace sg a b r : closed r -> shoelace (map (place sg a b) r) = sg * shoelace r.
Proof.
  intros C. unfold shoelace. rewrite edges_map, map_map.
  rewrite (lsum_map_ext _ (fun e => sg * (cross (fst e) (snd e) / 2) + ((a * snd (snd e) - sg * b * fst (snd e)) / 2 - (a * snd (fst e) - sg * b * fst (fst e)) / 2))).
  2:{ intros [p q] _. unfold cross, place. cbn [fst snd]. field. }
  rewrite lsum_map_plus, lsum_scal. rewrite (telescope_closed (fun p => (a * snd p - sg * b * fst p) / 2) r C). ring.
Qed.
Lemma last_map {A B} (T : A -> B) l d : last (map T l) (T d) = T (last l d).
Proof. induction l as [|x [|y l] IH]; [reflexivity..|]. exact IH. Qed.
Lemma outline_closed T r r' k : closed r -> turnsign T r r' k -> closed r'.
Proof.
  intros C K. destruct r' as [|p l]; [exact Logic.I|]. unfold closed.
  pose (Psi := fun q : R * R => if Req_EM_T (fst q) (fst p) then if Req_EM_T (snd q) (snd p) then 1 else 0 else 0).
  pose proof (outline_sum T r (p :: l) k (fun e => Psi (snd e) - Psi (fst e)) ltac:(intros; cbn [fst snd]; ring) K) as S1.
  assert (CT : closed (map T r)).
  { destruct r as [|q m]; [exact Logic.I|]. unfold closed in *. exact (eq_trans (last_map T (q :: m) q) (f_equal T C)). }
  rewrite (telescope Psi l p), (telescope_closed Psi _ CT) in S1. replace (k * 0) with 0 in S1 by ring.
  assert (P1 : Psi p = 1) by (unfold Psi; destruct (Req_EM_T (fst p) (fst p)); [|congruence]; destruct (Req_EM_T (snd p) (snd p)); congruence).
  assert (P2 : Psi (last (p :: l) p) = 1) by lra.
  destruct (last (p :: l) p) as [u v], p as [u' v']. unfold Psi in P2. cbn [fst snd] in P2. destruct (Req_EM_T u u') as [->|]; [|lra]. destruct (Req_EM_T v v') as [->|]; [reflexivity|lra].
Qed.

Lemma gfield_rev m g r : eint g -> gfield m g (rev r) = - gfield m g r.
Proof.
  intros E. assert (K : turnsign (fun p => p) r (rev r) (-1)).
  { right. split; [reflexivity|]. rewrite map_id, edges_rev. apply Permutation_sym, Permutation_rev. }
  rewrite (outline_gfield m g _ r (rev r) (-1) E K), map_id. ring.
Qed.
Definition ext_sign (r : list (R * R)) : R := if Rltb (shoe r) 0 then -1 else 1.
Definition int_sign (r : list (R * R)) : R := if Rltb 0 (shoe r) then -1 else 1.
Lemma gfield_ext_sign m g r : eint g -> gfield m g (orient_ext r) = ext_sign r * gfield m g r.
Proof. intros E. unfold orient_ext, ext_sign. destruct (Rltb _ _); [rewrite gfield_rev by exact E|]; ring. Qed.
Lemma gfield_int_sign m g r : eint g -> gfield m g (orient_int r) = int_sign r * gfield m g r.
Proof. intros E. unfold orient_int, int_sign. destruct (Rltb _ _); [rewrite gfield_rev by exact E|]; ring. Qed.
Lemma sign_place sg a b r r' k : sg = 1 \/ sg = -1 -> closed r -> shoelace r <> 0 -> turnsign (place sg a b) r r' k ->
  ext_sign r' * k = ext_sign r * sg /\ int_sign r' * k = int_sign r * sg.
Proof.
  intros SG C NZ K. pose proof (outline_shoelace _ _ _ _ K) as S1. rewrite (place_shoelace sg a b r C) in S1.
  unfold ext_sign, int_sign. rewrite !shoe_shoelace, S1. clear S1.
  assert (KV : k = 1 \/ k = -1) by (destruct K as [[-> _]|[-> _]]; [now left|now right]).
  destruct SG as [Z|Z], KV as [Y|Y]; rewrite Z, Y; 
    (destruct (Rltb_spec (shoelace r) 0), (Rltb_spec 0 (shoelace r)); try lra); 
    repeat match goal with |- context [Rltb ?x ?y] => destruct (Rltb_spec x y); try lra end; split; ring.
Qed.
Lemma moments_move_scal sg a b M M' k : moments_move sg a b M M' -> moments_move sg a b (fun i j => k * M i j) (fun i j => k * M' i j).
Proof. unfold moments_move. intros (A & B & C & D & E & F). rewrite A, B, C, D, E, F. repeat split; ring. Qed.
Lemma moments_move_plus sg a b M M' N N' : moments_move sg a b M M' -> moments_move sg a b N N' -> moments_move sg a b (fun i j => M i j + N i j) (fun i j => M' i j + N' i j).
Proof. unfold moments_move. intros (A & B & C & D & E & F) (A2 & B2 & C2 & D2 & E2 & F2). rewrite A, B, C, D, E, F, A2, B2, C2, D2, E2, F2. repeat split; ring. Qed.
Lemma moments_move_zero sg a b : moments_move sg a b (fun _ _ => 0) (fun _ _ => 0).
Proof. unfold moments_move. repeat split; ring. Qed.
Lemma moments_move_ext sg a b M M' N N' : (forall i j, M i j = N i j) -> (forall i j, M' i j = N' i j) -> moments_move sg a b N N' -> moments_move sg a b M M'.
Proof. intros H H'. unfold moments_move. rewrite !H, !H'. exact (fun x => x). Qed.
Section Outline.
Variables (sg a b : R) (f : R -> R) (e0 r : R).
Hypothesis SG : sg = 1 \/ sg = -1.
Hypothesis EF : forall off, eint (fun z => f (e0 + r * z) * z ^ off).
Hypothesis EF' : forall off, eint (fun z => f (e0 - r * b + r * z) * z ^ off).
Lemma mom_outline q q' : closed q -> same_outline (place sg a b) q q' ->
  moments_move sg a b (mom f e0 r (orient_ext q)) (mom f (e0 - r * b) r (orient_ext q')) /\
  moments_move sg a b (mom f e0 r (orient_int q)) (mom f (e0 - r * b) r (orient_int q')).
Proof.
  intros C O. destruct (outline_sign _ _ _ O) as (k & K). destruct (sign_place sg a b q q' k SG C (proj1 O) K) as (SE & SI).
  pose proof (mom_place sg a b f e0 r SG EF q C) as M.
  split.
  - apply (moments_move_ext sg a b _ _ (fun i j => ext_sign q * mom f e0 r q i j) (fun i j => ext_sign q * (sg * mom f (e0 - r * b) r (map (place sg a b) q) i j))).
    + intros i j. apply gfield_ext_sign, EF.
    + intros i j. unfold mom. rewrite gfield_ext_sign by apply EF'. rewrite (outline_gfield i _ _ q q' k (EF' j) K). rewrite <- !Rmult_assoc, SE. reflexivity.
    + apply moments_move_scal, M.
  - apply (moments_move_ext sg a b _ _ (fun i j => int_sign q * mom f e0 r q i j) (fun i j => int_sign q * (sg * mom f (e0 - r * b) r (map (place sg a b) q) i j))).
    + intros i j. apply gfield_int_sign, EF.
    + intros i j. unfold mom. rewrite gfield_int_sign by apply EF'. rewrite (outline_gfield i _ _ q q' k (EF' j) K). rewrite <- !Rmult_assoc, SI. reflexivity.
    + apply moments_move_scal, M.
Qed.
Lemma jm_surface s s' : closed (sf_ext s) -> (forall q, In q (sf_ints s) -> closed q) -> same_surface (place sg a b) s s' ->
  moments_move sg a b (fun i j => jm i j f e0 r (oriented s)) (fun i j => jm i j f (e0 - r * b) r (oriented s')).
Proof.
  intros C CI (_ & O & holes & P & H). unfold jm, oriented. cbn [map].
  apply (moments_move_ext sg a b _ _ (fun i j => mom f e0 r (orient_ext (sf_ext s)) i j + lsum (map (fun q => mom f e0 r (orient_int q) i j) (sf_ints s)))
    (fun i j => mom f (e0 - r * b) r (orient_ext (sf_ext s')) i j + lsum (map (fun q => mom f (e0 - r * b) r (orient_int q) i j) holes))).
  - intros i j. rewrite lsum_cons, map_map. reflexivity.
  - intros i j. rewrite lsum_cons, map_map. f_equal. apply lsum_perm, Permutation_sym, Permutation_map, P.
  - apply moments_move_plus; [exact (proj1 (mom_outline _ _ C O))|]. clear P C O.
    induction H as [|q q' l l' O H IH]; [apply moments_move_zero|]. 
    apply (moments_move_ext sg a b _ _ (fun i j => mom f e0 r (orient_int q) i j + lsum (map (fun q => mom f e0 r (orient_int q) i j) l))
      (fun i j => mom f (e0 - r * b) r (orient_int q') i j + lsum (map (fun q => mom f (e0 - r * b) r (orient_int q) i j) l')));
      [intros i j; cbn [map]; apply lsum_cons..|].
    apply moments_move_plus; [exact (proj2 (mom_outline _ _ (CI q (or_introl eq_refl)) O))|apply IH]. intros x Hx. exact (CI x (or_intror Hx)).
Qed.
End Outline.
Lemma surface_closed sg a b s s' : closed (sf_ext s) -> (forall q, In q (sf_ints s) -> closed q) -> same_surface (place sg a b) s s' ->
  closed (sf_ext s') /\ (forall q, In q (sf_ints s') -> closed q).
Proof.
  intros C CI (_ & O & holes & P & H). split.
  - destruct (outline_sign _ _ _ O) as (k & K). exact (outline_closed _ _ _ k C K).
  - intros q Hq. apply (Permutation_in q (Permutation_sym P)) in Hq. clear P O C. induction H as [|x x' l l' O H IH]; [destruct Hq|].
    destruct Hq as [<-|Hq]; [|apply IH; [intros y Hy; exact (CI y (or_intror Hy))|exact Hq]].
    destruct (outline_sign _ _ _ O) as (k & K). exact (outline_closed _ _ _ k (CI x (or_introl eq_refl)) K).
Qed.
