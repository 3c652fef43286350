(** Lemmas for C55: two meshes of one surface; curves that are Lipschitz on a range. *)
From Coquelicot Require Import Coquelicot.
From Coq Require Import FunctionalExtensionality Lra Lia Permutation.
From Verif Require Import Base M_Marin S_Marin L_Marin M_Laws S_Laws L_Laws M_Laws2 S_Laws2 L_LawsC M_Fiber S_Fiber L_Fiber M_MarinInt L_MarinInt L_MarinInt2 L_MarinInt3 L_MarinInt4
  L_Frame L_Frame2 L_Frame3 L_Frame4 L_Frame5 S_Cracked S_MarinInt S_Frame S_Mesh L_Mesh L_Mesh2 L_Mesh3.

Definition clamp (lo hi e : R) : R := Rmax lo (Rmin hi e).
Lemma clamp_in lo hi e : lo <= e <= hi -> clamp lo hi e = e.
Proof. intros H. unfold clamp. rewrite Rmin_right, Rmax_right; lra. Qed.
Lemma clamp_range lo hi e : lo <= hi -> lo <= clamp lo hi e <= hi.
Proof. intros H. unfold clamp, Rmax, Rmin. destruct (Rle_dec hi e); destruct (Rle_dec lo _); lra. Qed.
Lemma clamp_lip lo hi e e' : Rabs (clamp lo hi e - clamp lo hi e') <= Rabs (e - e').
Proof.
  assert (M : forall a x y, Rabs (Rmax a x - Rmax a y) <= Rabs (x - y)). { intros. unfold Rmax. destruct (Rle_dec a x), (Rle_dec a y); unfold Rabs; repeat destruct (Rcase_abs _); lra. }
  assert (N : forall a x y, Rabs (Rmin a x - Rmin a y) <= Rabs (x - y)). { intros. unfold Rmin. destruct (Rle_dec a x), (Rle_dec a y); unfold Rabs; repeat destruct (Rcase_abs _); lra. }
  unfold clamp. eapply Rle_trans; [apply M|apply N].
Qed.
Lemma lip_continuous (f : R -> R) L : 0 <= L -> (forall e e', Rabs (f e - f e') <= L * Rabs (e - e')) -> forall x, continuous f x.
Proof.
  intros L0 H x. apply continuity_pt_filterlim. intros eps E. exists (eps / (L + 1)). split; [apply Rdiv_lt_0_compat; lra|].
  intros y (_ & D). unfold Base, dist in *. cbn in *. unfold R_dist in *. eapply Rle_lt_trans; [apply H|].
  apply Rle_lt_trans with ((L + 1) * Rabs (y - x)); [apply Rmult_le_compat_r; [apply Rabs_pos|lra]|].
  apply (Rmult_lt_compat_l (L + 1)) in D; [|lra]. replace ((L + 1) * (eps / (L + 1))) with eps in D by (field; lra). exact D.
Qed.
Lemma clamped_continuous (f : R -> R) L lo hi : 0 <= L ->
  (forall e e', lo <= e <= hi -> lo <= e' <= hi -> Rabs (f e - f e') <= L * Rabs (e - e')) -> forall x, continuous (fun e => f (clamp lo hi e)) x.
Proof.
  intros L0 H. apply (lip_continuous _ L L0). intros e e'. destruct (Rle_dec lo hi) as [LH|LH].
  - eapply Rle_trans; [apply H; now apply clamp_range|]. apply Rmult_le_compat_l; [exact L0|apply clamp_lip].
  - assert (X : forall e, clamp lo hi e = lo). { intros x. unfold clamp. pose proof (Rmin_l hi x). apply Rmax_left. lra. }
    rewrite !X, Rminus_eq_0, Rabs_R0. apply Rmult_le_pos; [exact L0|apply Rabs_pos].
Qed.
Lemma continuous_eint (f : R -> R) e0 r : (forall x, continuous f x) -> forall off, eint (fun z => f (e0 + r * z) * z ^ off).
Proof.
  intros C off. apply eint_cont. intros z. apply (continuous_mult (fun z => f (e0 + r * z)) (fun z => z ^ off)).
  - apply (continuous_comp (fun z => e0 + r * z) f); [|apply C]. apply derive_continuous. auto_derive. exact I.
  - apply derive_continuous. auto_derive. exact I.
Qed.
(** A triangulated surface has no negative part. *)
Lemma triangulated_solid ts s a : triangulates ts s -> solid (turned a s).
Proof.
  intros T f C P. assert (F2 : field2 (fun _ z => f z)).
  { exists f, (fun _ => 0). split; [apply eint_cont; intros z; apply continuity_pt_filterlim, C|]. split; [exact eint_zero|intros; ring]. }
  apply (triangulates_turn a) in T. rewrite (surface_triangles _ _ _ F2 T). apply lsum_nonneg. intros t I. apply tri_nonneg; [exact F2|apply (proj1 T), I|]. intros v _. apply P.
Qed.
