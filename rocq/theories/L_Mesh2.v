(** Lemmas for C55: fields linear in y, area integrals over triangulated surfaces. *)
From Coquelicot Require Import Coquelicot.
From Coq Require Import FunctionalExtensionality Lra Lia Permutation.
From Verif Require Import Base M_Marin S_Marin L_Marin M_Laws S_Laws M_Laws2 S_Laws2 M_Fiber S_Fiber L_Fiber M_MarinInt S_MarinInt L_MarinInt L_MarinInt2 L_MarinInt4 L_Frame L_Frame4 S_Mesh L_Mesh.

Definition field2 (phi : R -> R -> R) : Prop := exists g0 g1, eint g0 /\ eint g1 /\ forall y z, phi y z = g0 z + y * g1 z.
Lemma eint_mult k g : eint g -> eint (fun z => k * g z).
Proof.
  intros E m p q. apply (ex_RInt_ext (fun t => scal k (gfun m g p q t))).
  { intros t _. rewrite scal_R. unfold gfun. toR. ring. }
  apply (ex_RInt_scal (V := R_NormedModule)). apply E.
Qed.
Lemma region_poly1 phi g0 g1 ring : (forall y z, phi y z = g0 z + y * g1 z) -> eint g0 -> eint g1 -> region_integral phi ring = gfield 0 g0 ring + gfield 1 g1 ring.
Proof.
  intros H E0 E1. rewrite (region_poly phi g0 g1 (fun _ => 0) ring); [rewrite gfield_zero; ring| |exact E0|exact E1|exact eint_zero].
  intros y z. rewrite H. ring.
Qed.
Lemma field2_plus phi psi : field2 phi -> field2 psi -> field2 (fun y z => phi y z + psi y z).
Proof.
  intros (g0 & g1 & A & B & C) (h0 & h1 & A' & B' & C'). exists (fun z => g0 z + h0 z), (fun z => g1 z + h1 z).
  split; [now apply eint_plus|]. split; [now apply eint_plus|]. intros y z. rewrite C, C'. ring.
Qed.
Lemma field2_scal k phi : field2 phi -> field2 (fun y z => k * phi y z).
Proof.
  intros (g0 & g1 & A & B & C). exists (fun z => k * g0 z), (fun z => k * g1 z).
  split; [now apply eint_mult|]. split; [now apply eint_mult|]. intros y z. rewrite C. ring.
Qed.
Lemma region_plus phi psi ring : field2 phi -> field2 psi -> region_integral (fun y z => phi y z + psi y z) ring = region_integral phi ring + region_integral psi ring.
Proof.
  intros (g0 & g1 & A & B & C) (h0 & h1 & A' & B' & C').
  rewrite (region_poly1 _ (fun z => g0 z + h0 z) (fun z => g1 z + h1 z)); [|intros; rewrite C, C'; ring|now apply eint_plus|now apply eint_plus].
  rewrite (region_poly1 phi g0 g1), (region_poly1 psi h0 h1) by assumption. rewrite !gfield_plus by assumption. ring.
Qed.
Lemma region_scal k phi ring : field2 phi -> region_integral (fun y z => k * phi y z) ring = k * region_integral phi ring.
Proof.
  intros (g0 & g1 & A & B & C).
  rewrite (region_poly1 _ (fun z => k * g0 z) (fun z => k * g1 z)); [|intros; rewrite C; ring|now apply eint_mult|now apply eint_mult].
  rewrite (region_poly1 phi g0 g1) by assumption. rewrite !gfield_scal by assumption. ring.
Qed.
Lemma field2_affine ca cb cc : field2 (fun y z => ca + cb * y + cc * z).
Proof.
  exists (fun z => ca + cc * z), (fun _ => cb). split; [|split; [|intros; ring]].
  - apply eint_cont. intros z. apply (ex_derive_continuous (K := R_AbsRing) (V := R_NormedModule)). auto_derive. exact I.
  - apply eint_cont. intros z. apply continuous_const.
Qed.
Lemma field2_times F ca cb cc : (forall off, eint (fun z => F z * z ^ off)) -> field2 (fun y z => F z * (ca + cb * y + cc * z)).
Proof.
  intros E. exists (fun z => ca * (F z * z ^ 0) + cc * (F z * z ^ 1)), (fun z => cb * (F z * z ^ 0)).
  split; [apply (eint_plus (fun z => ca * (F z * z ^ 0)) (fun z => cc * (F z * z ^ 1))); apply (eint_mult _ (fun z => F z * z ^ _)), E|].
  split; [apply (eint_mult _ (fun z => F z * z ^ _)), E|]. intros. ring.
Qed.

Definition esum (g0 g1 : R -> R) (l : list ((R * R) * (R * R))) : R := lsum (map (fun e => ed g0 g1 (fst e) (snd e)) l).
Lemma esum_app g0 g1 l m : esum g0 g1 (l ++ m) = esum g0 g1 l + esum g0 g1 m.
Proof. unfold esum. now rewrite map_app, lsum_app. Qed.
Lemma esum_flat {X} g0 g1 (f : X -> list ((R * R) * (R * R))) l : esum g0 g1 (flat_map f l) = lsum (map (fun x => esum g0 g1 (f x)) l).
Proof. induction l as [|x l IH]; [reflexivity|]. cbn [flat_map map]. rewrite esum_app, IH, lsum_cons. reflexivity. Qed.
Lemma region_edges phi g0 g1 ring : (forall y z, phi y z = g0 z + y * g1 z) -> eint g0 -> eint g1 -> region_integral phi ring = esum g0 g1 (edges ring).
Proof. intros H A B. rewrite (region_poly1 phi g0 g1) by assumption. unfold gfield, esum, ed. rewrite <- lsum_map_plus. reflexivity. Qed.
Lemma surface_region phi g0 g1 s : (forall y z, phi y z = g0 z + y * g1 z) -> eint g0 -> eint g1 -> surface_integral phi s = esum g0 g1 (surface_edges s).
Proof.
  intros H A B. unfold surface_integral, surface_edges. rewrite esum_app, esum_flat, (region_edges phi g0 g1) by assumption.
  f_equal. apply lsum_map_ext. intros r _. now apply region_edges.
Qed.
Lemma esum_same g0 g1 l m : eint g0 -> eint g1 -> same_boundary l m -> esum g0 g1 l = esum g0 g1 m.
Proof.
  intros A B. induction 1 as [l m P|p q l|p q t l T|l m _ IH|l m n _ IH1 _ IH2].
  - unfold esum. induction P; cbn [map]; rewrite ?lsum_cons; lra.
  - unfold esum. cbn [map fst snd]. rewrite !lsum_cons, (ed_rev g0 g1 A B p q). lra.
  - unfold esum. cbn [map fst snd]. rewrite !lsum_cons, (ed_split g0 g1 A B p q t T). lra.
  - now symmetry.
  - congruence.
Qed.
Definition pair_map (T : R * R -> R * R) (e : (R * R) * (R * R)) : (R * R) * (R * R) := (T (fst e), T (snd e)).
Lemma turn_seg a p q t : turn a (seg p q t) = seg (turn a p) (turn a q) t.
Proof. unfold turn, seg. cbn [fst snd]. f_equal; ring. Qed.
Lemma same_turn a l m : same_boundary l m -> same_boundary (map (pair_map (turn a)) l) (map (pair_map (turn a)) m).
Proof.
  induction 1 as [l m P|p q l|p q t l T|l m _ IH|l m n _ IH1 _ IH2].
  - apply sb_perm. now apply Permutation_map.
  - cbn. apply sb_cancel.
  - cbn [map]. unfold pair_map at 1 2 4. cbn [fst snd]. rewrite turn_seg. now apply sb_join.
  - now apply sb_sym.
  - now apply sb_trans with (map (pair_map (turn a)) m).
Qed.
Definition tturn (a : R) (t : tri) : tri := let '(p, q, r) := t in (turn a p, turn a q, turn a r).
Lemma tri_edges_turn a t : tri_edges (tturn a t) = map (pair_map (turn a)) (tri_edges t).
Proof. destruct t as [[p q] r]. reflexivity. Qed.
Lemma tri_ring_turn a t : tri_ring (tturn a t) = map (turn a) (tri_ring t).
Proof. destruct t as [[p q] r]. reflexivity. Qed.
Lemma surface_edges_turn a s : surface_edges (turned a s) = map (pair_map (turn a)) (surface_edges s).
Proof.
  unfold surface_edges, turned. cbn [sf_ext sf_ints]. rewrite map_app, turn_ccw, edges_map. f_equal.
  induction (sf_ints s) as [|r l IH]; cbn; [reflexivity|]. rewrite map_app, <- IH, turn_cw, edges_map. reflexivity.
Qed.
Lemma turn3_area t : let '(p, q, r) := t in turn3 p q r = 2 * fan_moment 0 0 (tri_ring t).
Proof. destruct t as [[p q] r]. rewrite fan_area. unfold shoelace, turn3, cross. cbn. unfold cross. field. Qed.
Lemma ccw_turn a t : ccw t -> ccw (tturn a t).
Proof. unfold ccw. rewrite tri_ring_turn, !fan_area, turned_area. trivial. Qed.
Lemma triangulates_turn a ts s : triangulates ts s -> triangulates (map (tturn a) ts) (turned a s).
Proof.
  intros (C & B). split.
  - intros t I. apply in_map_iff in I. destruct I as (t0 & <- & I). now apply ccw_turn, C.
  - rewrite surface_edges_turn. apply (same_turn a) in B. replace (flat_map tri_edges (map (tturn a) ts)) with (map (pair_map (turn a)) (flat_map tri_edges ts)); [exact B|].
    clear. induction ts as [|t l IH]; [reflexivity|]. cbn [flat_map map]. rewrite map_app, IH, tri_edges_turn. reflexivity.
Qed.
(** An area integral over a triangulated surface is the sum over the triangles. *)
Lemma surface_triangles phi ts s : field2 phi -> triangulates ts s -> surface_integral phi s = lsum (map (fun t => region_integral phi (tri_ring t)) ts).
Proof.
  intros (g0 & g1 & A & B & C) (_ & SB). rewrite (surface_region phi g0 g1) by assumption. rewrite <- (esum_same g0 g1 _ _ A B SB), esum_flat.
  apply lsum_map_ext. intros t _. rewrite (region_edges phi g0 g1) by assumption. destruct t as [[p q] r]. reflexivity.
Qed.
Lemma tri_nonneg phi t : field2 phi -> ccw t -> (forall v, in_tri t v -> 0 <= phi (fst v) (snd v)) -> 0 <= region_integral phi (tri_ring t).
Proof.
  intros (g0 & g1 & A & B & C) W H. rewrite (region_edges phi g0 g1) by assumption. pose proof (turn3_area t) as TA. unfold ccw in W. destruct t as [[p q] r].
  unfold esum. cbn [tri_ring edges map lsum fst snd]. pose proof (tri_positive g0 g1 A B p q r ltac:(lra)) as X.
  assert (0 <= ed g0 g1 p q + ed g0 g1 q r + ed g0 g1 r p); [|cbn; lra]. apply X. intros v V. unfold good. specialize (H v V). rewrite C in H. lra.
Qed.
Lemma tri_le phi psi t : field2 phi -> field2 psi -> ccw t -> (forall v, in_tri t v -> phi (fst v) (snd v) <= psi (fst v) (snd v)) ->
  region_integral phi (tri_ring t) <= region_integral psi (tri_ring t).
Proof.
  intros A B W H. pose proof (tri_nonneg (fun y z => psi y z + -1 * phi y z) t) as X.
  rewrite (region_plus psi (fun y z => -1 * phi y z)), (region_scal (-1) phi) in X; [|assumption|assumption|now apply field2_scal].
  assert (0 <= region_integral psi (tri_ring t) + -1 * region_integral phi (tri_ring t)); [|lra]. apply X; [|assumption|].
  - apply (field2_plus psi (fun y z => -1 * phi y z)); [assumption|now apply field2_scal].
  - intros v V. specialize (H v V). lra.
Qed.
Lemma tri_affine ca cb cc t : region_integral (fun y z => ca + cb * y + cc * z) (tri_ring t) = fan_moment 0 0 (tri_ring t) * (ca + cb * tri_cy t + cc * tri_cz t).
Proof.
  rewrite (region_ext _ (quadratic ca cb cc 0 0 0)) by (intros; unfold quadratic; ring).
  rewrite region_quadratic. 2:{ destruct t as [[p q] r]. reflexivity. }
  pose proof (tri_moments t) as M. cbv zeta in M |- *. destruct M as (M1 & M2 & _). rewrite M1, M2. ring.
Qed.
(** Midpoint rule on one triangle. *)
Lemma tri_midpoint F ca cb cc Fc K t : (forall off, eint (fun z => F z * z ^ off)) -> ccw t ->
  (forall v, in_tri t v -> Rabs ((F (snd v) - Fc) * (ca + cb * fst v + cc * snd v)) <= K) ->
  Rabs (region_integral (fun y z => F z * (ca + cb * y + cc * z)) (tri_ring t) - fan_moment 0 0 (tri_ring t) * (Fc * (ca + cb * tri_cy t + cc * tri_cz t)))
    <= fan_moment 0 0 (tri_ring t) * K.
Proof.
  intros E W H.
  pose proof (field2_times F ca cb cc E) as E1. pose proof (field2_affine ca cb cc) as E2.
  assert (A1 : forall k, region_integral (fun y z => k + Fc * (ca + cb * y + cc * z)) (tri_ring t) = fan_moment 0 0 (tri_ring t) * (k + Fc * (ca + cb * tri_cy t + cc * tri_cz t))).
  { intros k. rewrite (region_ext _ (fun y z => (k + Fc * ca) + (Fc * cb) * y + (Fc * cc) * z)) by (intros; ring). rewrite tri_affine. ring. }
  assert (A2 : forall k, field2 (fun y z => k + Fc * (ca + cb * y + cc * z))).
  { intros k. destruct (field2_affine (k + Fc * ca) (Fc * cb) (Fc * cc)) as (g0 & g1 & X & Y & Z). exists g0, g1. split; [exact X|]. split; [exact Y|]. intros y z. rewrite <- Z. ring. }
  pose proof (tri_le _ _ t E1 (A2 K) W) as U. pose proof (tri_le _ _ t (A2 (- K)) E1 W) as L. rewrite A1 in U, L.
  apply Rabs_le. split.
  - assert (fan_moment 0 0 (tri_ring t) * (- K + Fc * (ca + cb * tri_cy t + cc * tri_cz t)) <= region_integral (fun y z => F z * (ca + cb * y + cc * z)) (tri_ring t)); [|lra].
    apply L. intros v V. specialize (H v V). apply Rabs_le_between in H. lra.
  - assert (region_integral (fun y z => F z * (ca + cb * y + cc * z)) (tri_ring t) <= fan_moment 0 0 (tri_ring t) * (K + Fc * (ca + cb * tri_cy t + cc * tri_cz t))); [|lra].
    apply U. intros v V. specialize (H v V). apply Rabs_le_between in H. lra.
Qed.
