(** Lemmas for C61, continued: balanced failure of a reordered section. *)
From Coq Require Import Permutation FunctionalExtensionality Lra Lia.
From Verif Require Import Base M_Marin S_Marin M_Laws M_Laws2 M_Fiber S_Fiber M_MarinInt S_MarinInt M_Section S_Section M_Domain P_Section L_Pieces2 L_Pieces3 S_Order L_Order3.

(** All balanced failures have the same strain profile. *)
Lemma failure_profile t g y p zn zp p' zn' zp' : at_failure t g y p zn zp -> at_failure t g y p' zn' zp' -> p' = p.
Proof.
  intros (K & Z & L & H & AP & AN) (K' & Z' & L' & H' & AP' & AN').
  pose proof (L' _ _ AP) as A1. pose proof (H' _ _ AN) as A2. pose proof (L _ _ AP') as A3. pose proof (H _ _ AN') as A4.
  destruct p as [[e ky] kz], p' as [[e' ky'] kz']. unfold strain_at, p_e0, p_ky, p_kz in *. cbn [fst snd] in *. subst kz kz'.
  assert (E : ky' = ky) by nra. subst ky'. assert (e' = e) by lra. subst e'. reflexivity.
Qed.
Lemma lengthens_perm t g g' y z u : reordered g g' -> lengthens t g y z u -> lengthens t g' y z u.
Proof.
  intros (P1 & P2) [(s & v & I & V) | (b & I & V)]; [left; exists s, v|right; exists b]; (split; [|exact V]); eapply Permutation_in; eassumption.
Qed.
Lemma shortens_perm t g g' y z u : reordered g g' -> shortens t g y z u -> shortens t g' y z u.
Proof.
  intros (P1 & P2) [(s & v & I & V) | (b & I & V)]; [left; exists s, v|right; exists b]; (split; [|exact V]); eapply Permutation_in; eassumption.
Qed.
Lemma reordered_sym g g' : reordered g g' -> reordered g' g.
Proof. intros (P1 & P2). split; now apply Permutation_sym. Qed.
Lemma failure_perm t g g' y p zn zp : reordered g g' -> at_failure t g y p zn zp -> at_failure t g' y p zn zp.
Proof.
  intros R (K & Z & L & H & AP & AN). pose proof (reordered_sym _ _ R) as R'. repeat apply conj; try assumption.
  - intros z u X. apply L. eapply lengthens_perm; eassumption.
  - intros z u X. apply H. eapply shortens_perm; eassumption.
  - eapply lengthens_perm; eassumption.
  - eapply shortens_perm; eassumption.
Qed.
(** What the library computes is a balanced failure. *)
Definition drawn_surfaces (g : compound) : Prop := forall s, In s (cg_surf g) -> sf_ext s <> [].
Lemma balanced_failure t g y yn yp p : around_zero t -> drawn_surfaces g -> balanced (tr_rc t) y (items_of t g) = Ok (yn, yp, p) -> at_failure t g y p yn yp.
Proof.
  intros U D E. destruct (C27_within_limits t g y yn yp p U D E) as (W & WB & K & K2 & Z). destruct (C27_attained t g y yn yp p U D E) as (AP & AN).
  repeat apply conj; try assumption.
  - intros z u [(s & v & I & V & <- & ->) | (b & I & <- & ->)]; [apply (W s (snd v) I)|apply (WB b I)]. exists v, v. split; [exact V|]. split; [exact V|lra].
  - intros z u [(s & v & I & V & <- & ->) | (b & I & <- & ->)]; [apply (W s (snd v) I)|apply (WB b I)]. exists v, v. split; [exact V|]. split; [exact V|lra].
Qed.
Lemma balanced_none rc y its : (exists e, balanced rc y its = Err e) <-> forall i j, In i its -> In j its -> pair_cand rc y i j = None.
Proof.
  unfold balanced. rewrite fold_pick by exact Logic.I. set (l := map _ (list_prod its its)). change (fold_left pick2 l None) with (best l). split.
  - intros (e & H) i j I J. assert (B : best l = None) by (destruct (best l) as [[[[c e0] yn] yp]|]; [discriminate|reflexivity]).
    assert (IL : In (pair_cand rc y i j) l) by (apply in_map_iff; exists (i, j); split; [reflexivity|now apply in_prod]).
    pose proof (best_not_behind l _ IL) as N. rewrite B in N. destruct (pair_cand rc y i j); [contradiction|reflexivity].
  - intros H. destruct (best_in l) as [B | B]; [rewrite B; eauto|]. apply in_map_iff in B as ([i j] & E & I). apply in_prod_iff in I as (I & J). cbn [fst snd] in E. pose proof (H i j I J) as Q. cbv beta iota in E. rewrite <- E. match goal with |- context [match ?X with _ => _ end] => replace X with (@None (R * R * R * R)) by (symmetry; exact Q) end. eauto.
Qed.
Lemma items_perm t g g' : reordered g g' -> Permutation (items_of t g) (items_of t g').
Proof. intros (P1 & P2). unfold items_of. apply Permutation_app; now apply Permutation_map. Qed.
Lemma balanced_error rc y its e : balanced rc y its = Err e -> e = UnboundLocalError.
Proof. unfold balanced. destruct (fold_left _ _ _) as [[[[c e0] yn] yp]|]; [discriminate|congruence]. Qed.
(** The profile is the same in any order; so are the heights, if they are determined. *)
Lemma balanced_reordered t g g' y : around_zero t -> drawn_surfaces g -> reordered g g' ->
  match balanced (tr_rc t) y (items_of t g), balanced (tr_rc t) y (items_of t g') with
  | Ok (yn, yp, p), Ok (yn', yp', p') => p' = p /\ at_failure t g y p yn yp /\ at_failure t g y p yn' yp'
  | Err e, Err e' => e' = e | _, _ => False end.
Proof.
  intros U D R. assert (D' : drawn_surfaces g') by (intros s I; apply D; apply Permutation_in with (2 := I); apply Permutation_sym, R).
  assert (N : (exists e, balanced (tr_rc t) y (items_of t g) = Err e) <-> (exists e, balanced (tr_rc t) y (items_of t g') = Err e)).
  { rewrite !balanced_none. pose proof (items_perm t g g' R) as PI.
    split; intros H i j I J; apply H; eapply Permutation_in; try eassumption; now apply Permutation_sym. }
  destruct (balanced (tr_rc t) y (items_of t g)) as [[[yn yp] p]|e] eqn:E1, (balanced (tr_rc t) y (items_of t g')) as [[[yn' yp'] p']|e'] eqn:E2.
  - pose proof (balanced_failure t g y yn yp p U D E1) as A1. pose proof (failure_perm t g' g y p' yn' yp' (reordered_sym _ _ R) (balanced_failure t g' y yn' yp' p' U D' E2)) as A2.
    pose proof (failure_profile t g y p yn yp p' yn' yp' A1 A2) as Q. subst p'. auto.
  - destruct (proj2 N (ex_intro _ e' eq_refl)). discriminate.
  - destruct (proj1 N (ex_intro _ e eq_refl)). discriminate.
  - apply balanced_error in E1, E2. congruence.
Qed.
Lemma drawn_rotate a g : drawn_surfaces g -> drawn_surfaces (rotate_geo a g).
Proof. intros D s I. cbn [rotate_geo cg_surf] in I. apply in_map_iff in I as (s0 & <- & I). cbn [rotate_surface sf_ext]. specialize (D s0 I). destruct (sf_ext s0); [congruence|discriminate]. Qed.
Lemma balanced_order t g g' a y : around_zero t -> drawn_surfaces g -> reordered g g' -> one_failure t g ->
  balanced (tr_rc t) y (items_of t (rotate_geo a g')) = balanced (tr_rc t) y (items_of t (rotate_geo a g)).
Proof.
  intros U D R O. pose proof (balanced_reordered t _ _ y U (drawn_rotate a g D) (reordered_rotate a g g' R)) as H.
  destruct (balanced (tr_rc t) y (items_of t (rotate_geo a g))) as [[[yn yp] p]|e], (balanced (tr_rc t) y (items_of t (rotate_geo a g'))) as [[[yn' yp'] p']|e']; try contradiction; [|now rewrite H].
  destruct H as (-> & A1 & A2). destruct (O a y p yn yp yn' yp' A1 A2) as (-> & ->). reflexivity.
Qed.
