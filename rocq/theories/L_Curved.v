(** Lemmas for C60: forces under two curves that are close. *)
From Coquelicot Require Import Coquelicot.
From Coq Require Import FunctionalExtensionality Lra Lia Permutation.
From Verif Require Import Base M_Marin S_Marin L_Marin M_Laws S_Laws L_Laws M_Laws2 S_Laws2 L_LawsC M_Fiber S_Fiber L_Fiber M_MarinInt L_MarinInt L_MarinInt2 L_MarinInt3 L_MarinInt4
  L_Frame L_Frame2 L_Frame3 L_Frame4 L_Frame5 S_Cracked S_MarinInt S_Frame S_Mesh L_Mesh L_Mesh2 L_Mesh3 L_Mesh4 M_Section S_Curved.

Lemma tri_close F H ca cb cc K t : (forall off, eint (fun z => F z * z ^ off)) -> (forall off, eint (fun z => H z * z ^ off)) -> ccw t ->
  (forall v, in_tri t v -> Rabs ((F (snd v) - H (snd v)) * (ca + cb * fst v + cc * snd v)) <= K) ->
  Rabs (region_integral (fun y z => F z * (ca + cb * y + cc * z)) (tri_ring t) - region_integral (fun y z => H z * (ca + cb * y + cc * z)) (tri_ring t))
    <= K * fan_moment 0 0 (tri_ring t).
Proof.
  intros EF EH C B.
  pose proof (field2_times F ca cb cc EF) as F2. pose proof (field2_times H ca cb cc EH) as H2. pose proof (field2_scal (-1) _ H2) as H3. cbv beta in H3.
  assert (D2 : field2 (fun y z => F z * (ca + cb * y + cc * z) + -1 * (H z * (ca + cb * y + cc * z)))) by (apply field2_plus; assumption).
  assert (Q : region_integral (fun y z => F z * (ca + cb * y + cc * z)) (tri_ring t) - region_integral (fun y z => H z * (ca + cb * y + cc * z)) (tri_ring t) =
    region_integral (fun y z => F z * (ca + cb * y + cc * z) + -1 * (H z * (ca + cb * y + cc * z))) (tri_ring t)).
  { rewrite (region_plus _ _ _ F2 H3). rewrite (region_scal (-1) _ _ H2). ring. }
  rewrite Q. apply Rabs_le. 
  assert (TA : forall k, region_integral (fun y z => k + 0 * y + 0 * z) (tri_ring t) = k * fan_moment 0 0 (tri_ring t)) by (intros k; rewrite tri_affine; ring).
  split.
  - replace (- (K * fan_moment 0 0 (tri_ring t))) with ((- K) * fan_moment 0 0 (tri_ring t)) by ring. rewrite <- TA. apply tri_le; [apply field2_affine|exact D2|exact C|].
    intros v V. pose proof (B v V) as X. apply Rabs_le_between in X. lra.
  - rewrite <- TA. apply tri_le; [exact D2|apply field2_affine|exact C|]. intros v V. pose proof (B v V) as X. apply Rabs_le_between in X. lra.
Qed.

Section Close.
Variables (f h : R -> R) (e0 r a ky kz : R).
Hypothesis EF : forall off, eint (fun z => f (e0 + r * z) * z ^ off).
Hypothesis EH : forall off, eint (fun z => h (e0 + r * z) * z ^ off).
Hypothesis TF : r <> 0 -> tame f.
Hypothesis TH : r <> 0 -> tame h.
Hypothesis KY : r * cos a = ky.
Hypothesis KZ : r * sin a = - kz.
Variables (ca cb cc : R).
Variables (d W lo hi : R) (ts : list tri) (s : surface).
Hypothesis TR : triangulates ts s.
Hypothesis CL : closed (sf_ext s) /\ (forall q, In q (sf_ints s) -> closed q).
Hypothesis CW : forall t v, In t ts -> corner t v -> Rabs (ca + cb * fst v + cc * snd v) <= W.
Hypothesis CS : forall t v, In t ts -> corner t v -> lo <= plane_strain e0 ky kz (fst v) (snd v) <= hi.
Hypothesis NEAR : within d lo hi f h.
Lemma split_up k : (forall off, eint (fun z => k (e0 + r * z) * z ^ off)) -> (r <> 0 -> tame k) ->
  surface_integral (fun y z => k (plane_strain e0 ky kz y z) * (ca + cb * y + cc * z)) s =
    lsum (map (fun t => region_integral (fun y z => k (e0 + r * z) * (ca + (cb * cos a - cc * sin a) * y + (cb * sin a + cc * cos a) * z)) (tri_ring (tturn a t))) ts).
Proof.
  intros EI TM.
  transitivity (surface_integral (fun y z => k (plane_strain e0 ky kz y z) * quadratic ca cb cc 0 0 0 y z) s).
  { f_equal. apply functional_extensionality. intros y. apply functional_extensionality. intros z. unfold quadratic. ring. }
  rewrite <- (surface_frames k e0 r a ky kz ca cb cc 0 0 0 s TM KY KZ (proj1 CL) (proj2 CL)).
  transitivity (surface_integral (fun y z => k (e0 + r * z) * (ca + (cb * cos a - cc * sin a) * y + (cb * sin a + cc * cos a) * z)) (turned a s)).
  { f_equal. apply functional_extensionality. intros y. apply functional_extensionality. intros z. rewrite (strain_back e0 r a ky kz KY KZ). f_equal. unfold quadratic, back_y, back_z. ring. }
  rewrite (surface_triangles _ (map (tturn a) ts)); [now rewrite map_map|apply (field2_times (fun z => k (e0 + r * z))); exact EI|now apply triangulates_turn].
Qed.
Lemma surface_close :
  Rabs (surface_integral (fun y z => f (plane_strain e0 ky kz y z) * (ca + cb * y + cc * z)) s
    - surface_integral (fun y z => h (plane_strain e0 ky kz y z) * (ca + cb * y + cc * z)) s)
  <= d * W * surface_integral (fun _ _ => 1) s.
Proof.
  assert (QA : surface_integral (fun _ _ => 1) s = lsum (map (fun t => fan_moment 0 0 (tri_ring t)) ts)).
  { transitivity (surface_integral (fun y z => 1 + 0 * y + 0 * z) s); [f_equal; apply functional_extensionality; intros y; apply functional_extensionality; intros z; ring|].
    rewrite (surface_triangles _ ts); [|apply field2_affine|exact TR]. apply lsum_map_ext. intros t _. rewrite tri_affine. ring. }
  rewrite (split_up f EF TF), (split_up h EH TH), QA, <- lsum_map_scal. apply lsum_abs. intros t I. destruct TR as (WC & _). specialize (WC t I).
  assert (AR : fan_moment 0 0 (tri_ring (tturn a t)) = fan_moment 0 0 (tri_ring t)) by (rewrite tri_ring_turn, !fan_area; apply turned_area).
  assert (TW : forall v, ca + (cb * cos a - cc * sin a) * fst (turn a v) + (cb * sin a + cc * cos a) * snd (turn a v) = ca + cb * fst v + cc * snd v).
  { intros v. destruct (back_turn a v) as (BY & BZ). transitivity (ca + cb * back_y a (fst (turn a v)) (snd (turn a v)) + cc * back_z a (fst (turn a v)) (snd (turn a v))); [unfold back_y, back_z; ring|rewrite BY, BZ; reflexivity]. }
  pose proof (tri_close (fun z => f (e0 + r * z)) (fun z => h (e0 + r * z)) ca (cb * cos a - cc * sin a) (cb * sin a + cc * cos a) (d * W) (tturn a t) EF EH (ccw_turn a t WC)) as M.
  rewrite AR in M. apply M. intros v V. apply in_tri_turn in V. destruct V as (v0 & V & ->). rewrite TW, (strain_turn e0 r a ky kz KY KZ), Rabs_mult.
  apply Rmult_le_compat; [apply Rabs_pos|apply Rabs_pos| |].
  - apply NEAR. exact (in_strain e0 ky kz lo hi ts CS t v0 I V).
  - exact (in_weight ca cb cc W ts CW t v0 I V).
Qed.
End Close.
