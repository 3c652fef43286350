(** Lemmas for C59: the integrator, the heights and the balanced failure. *)
From Coq Require Import Permutation FunctionalExtensionality Lra Lia.
From Verif Require Import Base M_Marin S_Marin M_Laws M_Laws2 M_Fiber M_MarinInt S_MarinInt L_MarinInt3 S_Mesh M_Section M_Domain S_Exact S_Turn L_Turn L_Turn2 L_Turn3 L_Turn4 S_Move L_Move L_Move2 L_Move3 L_Move4 L_Move6 S_Pieces L_Pieces.

Section Forces.
Variables (laws : nat -> law) (fs ts : nat -> R -> R) (g g' : compound).
Hypothesis AS : assembled g g'.
Hypothesis ST : steady laws g.
Hypothesis RP : repeats laws g.
Hypothesis CL : closed_rings g.
Hypothesis CL' : closed_rings g'.
Lemma good_assembled what cs : what <> IOther -> (forall s e r, In s (cg_surf g) -> 0 < r -> field_of (ask what (laws (sf_law s)) (e, r)) (cs (sf_law s)) e r) ->
  good_laws laws what cs (cg_surf g) /\ good_laws laws what cs (cg_surf g') /\ (forall s, In s (cg_surf g) -> again laws what s).
Proof.
  intros W FO.
  assert (U : forall s e, In s (cg_surf g) -> uniform_output (ask what (laws (sf_law s)) (e, 0))).
  { intros s e I. destruct (ST s e I) as (A & B). destruct what; [exact A|exact B|contradiction]. }
  split; [|split].
  - intros s I. destruct (CL s I) as (C & CI). split; [exact C|]. split; [exact CI|]. split; [intros e r P; exact (FO s e r I P)|intros e; exact (U s e I)].
  - intros p I. destruct (CL' p I) as (C & CI). destruct AS as (ls & F & E & _).
    assert (X : exists s, In s (cg_surf g) /\ sf_law p = sf_law s).
    { rewrite E in I. apply in_concat in I. destruct I as (l & J & K). destruct (Forall2_in _ _ _ l F J) as (s & Is & O). exists s. split; [exact Is|]. exact (proj1 (proj1 O p K)). }
    destruct X as (s & Is & L). split; [exact C|]. split; [exact CI|]. rewrite L. split; [intros e r P; exact (FO s e r Is P)|intros e; exact (U s e Is)].
  - intros s I e. destruct (RP s e I) as (A & B). destruct what; [exact A|exact B|contradiction].
Qed.
Lemma good_rot what cs a ss : good_laws laws what cs ss -> good_laws laws what cs (map (rotate_surface a) ss).
Proof.
  intros G s I. apply in_map_iff in I. destruct I as (s0 & <- & I). destruct (G s0 I) as (C & CI & X). split; [exact (closed_rot a _ C)|]. split; [|exact X].
  cbn [rotate_surface sf_ints]. intros q Hq. apply in_map_iff in Hq. destruct Hq as (q0 & <- & Hq). exact (closed_rot a _ (CI q0 Hq)).
Qed.
Lemma prepare_pieces what cs p d : what <> IOther -> (forall s e r, In s (cg_surf g) -> 0 < r -> field_of (ask what (laws (sf_law s)) (e, r)) (cs (sf_law s)) e r) ->
  match m_prepare laws g p what d, m_prepare laws g' p what d with
  | Ok (phi, es, bs, gs), Ok (phi', es', bs', gs') => phi' = phi /\ bs' = bs /\ gs' = gs /\ forall i j, es_moment es' i j = es_moment es i j
  | Err e, Err e' => e = e' | _, _ => False end.
Proof.
  intros W FO. destruct (good_assembled what cs W FO) as (G & G' & AG). unfold m_prepare. set (a := - atan2 (p_kz p) (p_ky p)). set (r := sqrt _).
  destruct (assembled_rot a g g' AS) as (ls & F & E & B). cbn [rotate_geo cg_surf cg_bars] in F, E, B.
  assert (G2 : good_laws laws what cs (concat ls)) by (rewrite <- E; exact (good_rot what cs a _ G')).
  assert (AG2 : forall s, In s (map (rotate_surface a) (cg_surf g)) -> again laws what s).
  { intros s I. apply in_map_iff in I. destruct I as (s0 & <- & I). exact (AG s0 I). }
  destruct (entries_pieces laws what cs W _ ls (p_e0 p) r (good_rot what cs a _ G) G2 AG2 F (sqrt_pos _)) as (e1 & es & es' & E1 & E2 & M).
  rewrite E1, E, E2, B. cbn [bind fst snd]. destruct (bars_entries laws what e1 r _) as [bs|]; cbn [bind]; [|reflexivity]. destruct (homogeneous _); [|reflexivity].
  split; [reflexivity|]. split; [reflexivity|]. split; [reflexivity|exact M].
Qed.
Lemma pieces_forces p d : (forall s e r, In s (cg_surf g) -> 0 < r -> field_of (lw_marin (laws (sf_law s)) (e, r)) (fs (sf_law s)) e r) ->
  marin_forces laws g' p d = marin_forces laws g p d.
Proof.
  intros FO. pose proof (prepare_pieces IStress fs p d ltac:(discriminate) FO) as P. unfold marin_forces.
  destruct (m_prepare laws g p IStress d) as [[[[phi es] bs] gs]|e], (m_prepare laws g' p IStress d) as [[[[phi' es'] bs'] gs']|e']; try contradiction; cbn [bind]; [|congruence].
  destruct P as (-> & -> & -> & M). do 2 f_equal. rewrite !stress_frame. cbv zeta. rewrite !M. reflexivity.
Qed.
Lemma pieces_stiffness p d : (forall s e r, In s (cg_surf g) -> 0 < r -> field_of (lw_marin_tangent (laws (sf_law s)) (e, r)) (ts (sf_law s)) e r) ->
  marin_stiffness laws g' p d = marin_stiffness laws g p d.
Proof.
  intros FO. pose proof (prepare_pieces IModulus ts p d ltac:(discriminate) FO) as P. unfold marin_stiffness.
  destruct (m_prepare laws g p IModulus d) as [[[[phi es] bs] gs]|e], (m_prepare laws g' p IModulus d) as [[[[phi' es'] bs'] gs']|e']; try contradiction; cbn [bind]; [|congruence].
  destruct P as (-> & -> & -> & M). do 2 f_equal. unfold m_integrate_modulus.
  assert (K : m_stiff_rot es' bs = m_stiff_rot es bs); [|now rewrite K].
  apply functional_extensionality. intros i. apply functional_extensionality. intros j.
  pose proof (M 0%nat 0%nat) as M1. pose proof (M 0%nat 1%nat) as M2. pose proof (M 1%nat 0%nat) as M3. pose proof (M 0%nat 2%nat) as M4. pose proof (M 1%nat 1%nat) as M5. pose proof (M 2%nat 0%nat) as M6.
  unfold es_moment in M1, M2, M3, M4, M5, M6. unfold m_stiff_rot. rewrite M1, M2, M3, M4, M5, M6. reflexivity.
Qed.
End Forces.

(** Heights. *)
Lemma hull_heights l p : l <> [] -> in_hull l p -> ring_min l <= snd p <= ring_max l.
Proof.
  intros N. destruct (ring_min_lowest l N) as (_ & A). destruct (ring_max_highest l N) as (_ & B).
  induction 1 as [p I|p q t T _ IH1 _ IH2]; [split; [exact (A p I)|exact (B p I)]|]. unfold seg. cbn [snd]. nra.
Qed.
Lemma piece_heights s l p : pieces_of s l -> In p l -> ring_min (sf_ext s) <= ring_min (sf_ext p) /\ ring_max (sf_ext p) <= ring_max (sf_ext s).
Proof.
  intros (A & _ & C & _) I. destruct (A p I) as (_ & N & H). destruct (ring_min_lowest _ N) as ((v & Iv & Ev) & _). destruct (ring_max_highest _ N) as ((w & Iw & Ew) & _).
  rewrite <- Ev, <- Ew. split; [exact (proj1 (hull_heights _ v C (H v Iv)))|exact (proj2 (hull_heights _ w C (H w Iw)))].
Qed.
Lemma piece_extremes s l : pieces_of s l -> (exists p, In p l /\ ring_min (sf_ext p) = ring_min (sf_ext s)) /\ (exists p, In p l /\ ring_max (sf_ext p) = ring_max (sf_ext s)).
Proof.
  intros O. pose proof O as (A & B & C & _). destruct (ring_min_lowest _ C) as ((v & Iv & Ev) & _). destruct (ring_max_highest _ C) as ((w & Iw & Ew) & _). split.
  - destruct (B v Iv) as (p & I & J). exists p. split; [exact I|]. apply Rle_antisym; [|exact (proj1 (piece_heights s l p O I))]. rewrite <- Ev. exact (proj2 (ring_min_lowest _ (proj1 (proj2 (A p I)))) v J).
  - destruct (B w Iw) as (p & I & J). exists p. split; [exact I|]. apply Rle_antisym; [exact (proj2 (piece_heights s l p O I))|]. rewrite <- Ew. exact (proj2 (ring_max_highest _ (proj1 (proj2 (A p I)))) w J).
Qed.
Lemma min_y_pieces g g' : assembled g g' -> min_y g' = min_y g.
Proof.
  intros (ls & F & E & _). unfold min_y. rewrite E.
  destruct (fold_least (cg_surf g) (10 ^ 16)) as (A & B & C). destruct (fold_least (concat ls) (10 ^ 16)) as (A' & B' & C'). cbv zeta in A, B, C, A', B', C'.
  apply Rle_antisym.
  - destruct C as [C|(s & I & C)]; [rewrite C; exact A'|]. destruct (Forall2_in_l _ _ _ s F I) as (l & J & O). destruct (piece_extremes s l O) as ((p & K & Ep) & _).
    rewrite <- C, <- Ep. apply B'. apply in_concat. exists l. split; assumption.
  - destruct C' as [C'|(p & I & C')]; [rewrite C'; exact A|]. apply in_concat in I. destruct I as (l & J & K). destruct (Forall2_in _ _ _ l F J) as (s & Is & O).
    rewrite <- C'. apply Rle_trans with (ring_min (sf_ext s)); [exact (B s Is)|exact (proj1 (piece_heights s l p O K))].
Qed.

(** Balanced failure: the first pair with the smallest curvature. *)
Definition cand : Type := option (R * R * R * R).
Definition chi_of (c : R * R * R * R) : R := fst (fst (fst c)).
Definition pick2 (a b : cand) : cand :=
  match a, b with None, _ => b | _, None => a | Some x, Some y => if Rltb (chi_of y) (chi_of x) then b else a end.
(** a is strictly preferred to b. *)
Definition ahead (a b : cand) : Prop := match a, b with Some x, Some y => chi_of x < chi_of y | Some _, None => True | None, _ => False end.
Lemma pick2_none a : pick2 a None = a.
Proof. destruct a; reflexivity. Qed.
Lemma pick2_assoc a b c : pick2 a (pick2 b c) = pick2 (pick2 a b) c.
Proof.
  destruct a as [x|], b as [y|], c as [z|]; cbn [pick2]; try reflexivity; [|destruct (Rltb _ _); reflexivity].
  destruct (Rltb_spec (chi_of z) (chi_of y)); destruct (Rltb_spec (chi_of y) (chi_of x)); cbn [pick2]; destruct (Rltb_spec (chi_of z) (chi_of x)); destruct (Rltb_spec (chi_of z) (chi_of y)); destruct (Rltb_spec (chi_of y) (chi_of x)); try reflexivity; lra.
Qed.
Definition best (l : list cand) : cand := fold_left pick2 l None.
Lemma best_acc l : forall a, fold_left pick2 l a = pick2 a (best l).
Proof.
  unfold best. induction l as [|x l IH]; intros a; cbn [fold_left]; [symmetry; apply pick2_none|]. rewrite (IH (pick2 a x)), (IH (pick2 None x)). cbn [pick2]. symmetry. apply pick2_assoc.
Qed.
Lemma best_cons x l : best (x :: l) = pick2 x (best l).
Proof. unfold best at 1. cbn [fold_left pick2]. apply best_acc. Qed.
Lemma best_app l m : best (l ++ m) = pick2 (best l) (best m).
Proof. unfold best at 1. rewrite fold_left_app. exact (best_acc m _). Qed.
Lemma best_concat ls : best (concat ls) = best (map best ls).
Proof. induction ls as [|l ls IH]; [reflexivity|]. cbn [concat map]. rewrite best_app, best_cons, IH. reflexivity. Qed.
Lemma pick2_ahead a b : ahead a b -> pick2 a b = a /\ pick2 b a = a.
Proof.
  destruct a as [x|], b as [y|]; cbn [ahead pick2]; try contradiction; [|split; reflexivity]. intros H.
  destruct (Rltb_spec (chi_of y) (chi_of x)); destruct (Rltb_spec (chi_of x) (chi_of y)); try lra; split; reflexivity.
Qed.
Lemma pick2_same a : pick2 a a = a.
Proof. destruct a as [x|]; [|reflexivity]. cbn [pick2]. destruct (Rltb _ _); reflexivity. Qed.
(** One candidate occurs and is preferred to all the others. *)
Lemma best_absorb c l : In c l -> (forall x, In x l -> x = c \/ ahead c x) -> best l = c.
Proof.
  intros I H.
  assert (P : forall l, (forall x, In x l -> x = c \/ ahead c x) -> pick2 c (best l) = c /\ (In c l -> best l = c)).
  { clear. induction l as [|x l IH]; intros H; [split; [apply pick2_none|intros []]|].
    destruct (IH (fun y I => H y (or_intror I))) as (P & Q). rewrite best_cons. destruct (H x (or_introl eq_refl)) as [->|A].
    - split; [rewrite pick2_assoc, pick2_same; exact P|intros _; exact P].
    - destruct (pick2_ahead c x A) as (A1 & A2). split; [rewrite pick2_assoc, A1; exact P|]. intros [->|J]; [exact P|]. rewrite (Q J). exact A2. }
  exact (proj2 (P l H) I).
Qed.
Lemma best_in l : best l = None \/ In (best l) l.
Proof.
  induction l as [|x l IH]; [left; reflexivity|]. rewrite best_cons. destruct x as [x|]; cbn [pick2].
  - destruct (best l) as [y|] eqn:B; [|right; left; reflexivity]. destruct (Rltb _ _); right; [right|left; reflexivity]. destruct IH as [IH|IH]; [discriminate|exact IH].
  - destruct IH as [IH|IH]; [left; exact IH|right; right; exact IH].
Qed.
(** The best is not behind any of them. *)
Lemma best_not_behind l c : In c l -> match best l, c with Some x, Some y => chi_of x <= chi_of y | None, Some _ => False | _, None => True end.
Proof.
  induction l as [|x l IH]; intros I; [destruct I|]. rewrite best_cons. destruct I as [->|I].
  - destruct c as [y|]; [|destruct (pick2 _ _); exact Logic.I]. cbn [pick2]. destruct (best l) as [z|]; [|lra]. destruct (Rltb_spec (chi_of z) (chi_of y)); lra.
  - specialize (IH I). destruct c as [y|]; [|destruct (pick2 _ _); exact Logic.I]. destruct (best l) as [z|]; [|contradiction]. destruct x as [x|]; cbn [pick2]; [|exact IH]. destruct (Rltb_spec (chi_of z) (chi_of x)); lra.
Qed.
