(** Area integrals of a field of the strain do not depend on the axes. *)
From Coquelicot Require Import Coquelicot.
From Coq Require Import FunctionalExtensionality Lra Lia.
From Verif Require Import Base M_Marin S_Marin L_Marin M_Laws S_Laws M_Laws2 S_Laws2 M_Fiber S_Fiber L_Fiber M_MarinInt S_MarinInt L_MarinInt.

(** * Integration by parts against a function that is merely integrable *)
Definition everywhere (g : R -> R) : Prop := forall a b, ex_RInt g a b.
Definition prim (g : R -> R) (x : R) : R := RInt g 0 x.
Lemma prim_diff g x y : everywhere g -> prim g y - prim g x = RInt g x y.
Proof.
  intros H. unfold prim. pose proof (RInt_Chasles (V := R_CompleteNormedModule) g 0 x y (H 0 x) (H x y)) as E. rewrite <- E.
  change (plus (RInt g 0 x) (RInt g x y)) with (RInt g 0 x + RInt g x y). toR. ring.
Qed.
Lemma prim_continuous g x : everywhere g -> continuous (prim g) x.
Proof.
  intros H. apply (continuous_RInt_1 (V := R_NormedModule) g 0 x (prim g)). exists (mkposreal 1 Rlt_0_1). intros z _. apply (RInt_correct (V := R_CompleteNormedModule)). apply H.
Qed.
Lemma prim_bound g M x y : everywhere g -> x <= y -> (forall t, x <= t <= y -> Rabs (g t) <= M) -> Rabs (RInt g x y) <= (y - x) * M.
Proof.
  intros H XY B. apply (norm_RInt_le_const (V := R_NormedModule) g x y (RInt g x y) M XY B). apply (RInt_correct (V := R_CompleteNormedModule)). apply H.
Qed.
Lemma everywhere_continuous g : (forall x, continuous g x) -> everywhere g.
Proof. intros H a b. apply (ex_RInt_continuous (V := R_CompleteNormedModule)). intros; apply H. Qed.
Lemma squeeze_zero (H : R -> R) C : 0 <= C -> (forall x y, 0 <= x <= y -> y <= 1 -> Rabs (H y - H x) <= C * (y - x) ^ 2) -> H 1 = H 0.
Proof.
  intros PC B. assert (D : forall n, (0 < n)%nat -> Rabs (H 1 - H 0) <= C / INR n).
  { intros n N. assert (PN : 0 < INR n) by (apply lt_0_INR; exact N).
    assert (S : forall k, (k <= n)%nat -> Rabs (H (INR k / INR n) - H 0) <= INR k * (C * (/ INR n) ^ 2)).
    { induction k as [|k IH]; intros K.
      - cbn [INR]. replace (0 / INR n) with 0 by (field; lra). rewrite Rminus_diag_eq by reflexivity. rewrite Rabs_R0. lra.
      - assert (KN : INR k / INR n <= INR (S k) / INR n) by (apply Rmult_le_compat_r; [left; apply Rinv_0_lt_compat; exact PN|apply le_INR; lia]).
        assert (K0 : 0 <= INR k / INR n) by (apply Rmult_le_pos; [apply pos_INR|left; apply Rinv_0_lt_compat, PN]).
        assert (K1 : INR (S k) / INR n <= 1) by (apply (Rmult_le_reg_r (INR n)); [exact PN|]; replace (INR (S k) / INR n * INR n) with (INR (S k)) by (field; lra); rewrite Rmult_1_l; apply le_INR; exact K).
        pose proof (B _ _ (conj K0 KN) K1) as B1. replace (INR (S k) / INR n - INR k / INR n) with (/ INR n) in B1 by (rewrite S_INR; field; lra).
        specialize (IH ltac:(lia)). replace (H (INR (S k) / INR n) - H 0) with ((H (INR (S k) / INR n) - H (INR k / INR n)) + (H (INR k / INR n) - H 0)) by ring.
        pose proof (Rabs_triang (H (INR (S k) / INR n) - H (INR k / INR n)) (H (INR k / INR n) - H 0)). replace (INR (S k) * (C * (/ INR n) ^ 2)) with (INR k * (C * (/ INR n) ^ 2) + C * (/ INR n) ^ 2) by (rewrite S_INR; ring). lra. }
    specialize (S n (le_n n)). replace (INR n / INR n) with 1 in S by (field; lra). replace (INR n * (C * (/ INR n) ^ 2)) with (C / INR n) in S by (field; lra). exact S. }
  destruct (Req_dec (H 1) (H 0)) as [|N]; [assumption|exfalso].
  assert (P : 0 < Rabs (H 1 - H 0)) by (apply Rabs_pos_lt; lra).
  destruct (archimed_cor1 (Rabs (H 1 - H 0) / (C + 1))) as (n & N1 & N2). { apply Rdiv_lt_0_compat; lra. }
  specialize (D n N2). assert (PN : 0 < INR n) by (apply lt_0_INR; exact N2).
  assert (C / INR n <= (C + 1) * / INR n) by (unfold Rdiv; apply Rmult_le_compat_r; [left; apply Rinv_0_lt_compat, PN|lra]).
  assert ((C + 1) * / INR n < (C + 1) * (Rabs (H 1 - H 0) / (C + 1))) by (apply Rmult_lt_compat_l; lra).
  replace ((C + 1) * (Rabs (H 1 - H 0) / (C + 1))) with (Rabs (H 1 - H 0)) in * by (field; lra). lra.
Qed.
Lemma RInt_minus' f g a b : ex_RInt f a b -> ex_RInt g a b -> RInt (fun x => f x - g x) a b = RInt f a b - RInt g a b.
Proof. intros A B. exact (RInt_minus (V := R_CompleteNormedModule) f g a b A B). Qed.
Lemma RInt_plus' f g a b : ex_RInt f a b -> ex_RInt g a b -> RInt (fun x => f x + g x) a b = RInt f a b + RInt g a b.
Proof. intros A B. exact (RInt_plus (V := R_CompleteNormedModule) f g a b A B). Qed.
Lemma RInt_scal' f k a b : ex_RInt f a b -> RInt (fun x => k * f x) a b = k * RInt f a b.
Proof. intros A. exact (RInt_scal (V := R_CompleteNormedModule) f a b k A). Qed.
Lemma everywhere_minus f g : everywhere f -> everywhere g -> everywhere (fun x => f x - g x).
Proof. intros A B a b. exact (ex_RInt_minus (V := R_NormedModule) f g a b (A a b) (B a b)). Qed.
Lemma everywhere_plus f g : everywhere f -> everywhere g -> everywhere (fun x => f x + g x).
Proof. intros A B a b. exact (ex_RInt_plus (V := R_NormedModule) f g a b (A a b) (B a b)). Qed.
Lemma everywhere_scal f k : everywhere f -> everywhere (fun x => k * f x).
Proof. intros A a b. exact (ex_RInt_scal (V := R_NormedModule) f a b k (A a b)). Qed.
Lemma everywhere_ext f g : (forall x, f x = g x) -> everywhere f -> everywhere g.
Proof. intros E A. replace g with f by (extensionality x; apply E). exact A. Qed.

Lemma by_parts g phi dphi : everywhere g -> everywhere (fun t => phi t * g t) ->
  (forall t, is_derive phi t (dphi t)) -> (forall t, continuous dphi t) ->
  RInt (fun t => phi t * g t) 0 1 = phi 1 * prim g 1 - RInt (fun t => dphi t * prim g t) 0 1.
Proof.
  intros EG EP DP CD.
  assert (ED : everywhere dphi) by (apply everywhere_continuous; exact CD).
  assert (CP : forall t, continuous phi t) by (intros t; apply (ex_derive_continuous (K := R_AbsRing) (V := R_NormedModule)); eexists; apply DP).
  assert (CDG : forall t, continuous (fun t => dphi t * prim g t) t) by (intros t; apply (continuous_mult dphi (prim g)); [apply CD|apply prim_continuous, EG]).
  assert (EDG : everywhere (fun t => dphi t * prim g t)) by (apply everywhere_continuous; exact CDG).
  destruct (ex_RInt_ub (V := R_NormedModule) g 0 1 (EG 0 1)) as (M & BM). rewrite Rmin_left, Rmax_right in BM by lra. change (forall t, 0 <= t <= 1 -> Rabs (g t) <= M) in BM.
  destruct (ex_RInt_ub (V := R_NormedModule) dphi 0 1 (ED 0 1)) as (L & BL). rewrite Rmin_left, Rmax_right in BL by lra. change (forall t, 0 <= t <= 1 -> Rabs (dphi t) <= L) in BL.
  assert (M0 : 0 <= M) by (pose proof (BM 0 ltac:(lra)); pose proof (Rabs_pos (g 0)); lra).
  assert (L0 : 0 <= L) by (pose proof (BL 0 ltac:(lra)); pose proof (Rabs_pos (dphi 0)); lra).
  assert (FT : forall x y, phi y - phi x = RInt dphi x y).
  { intros x y. symmetry. apply RIntU. apply (is_RInt_derive (V := R_CompleteNormedModule) phi dphi); intros; [apply DP|apply CD]. }
  set (H := fun x => prim (fun t => phi t * g t) x - phi x * prim g x + prim (fun t => dphi t * prim g t) x).
  assert (HZ : H 1 = H 0).
  { apply (squeeze_zero H (2 * (L * M))); [assert (0 <= L * M) by (apply Rmult_le_pos; assumption); lra|].
    intros x y XY Y1.
    assert (E : H y - H x = RInt (fun t => (phi t - phi x) * g t) x y - RInt (fun t => dphi t * (prim g y - prim g t)) x y).
    { unfold H.
      replace (RInt (fun t => (phi t - phi x) * g t) x y) with (RInt (fun t => phi t * g t) x y - phi x * RInt g x y).
      2:{ rewrite <- RInt_scal' by apply EG. rewrite <- RInt_minus' by (apply EP || (apply everywhere_scal; exact EG)). apply RInt_ext. intros t _. toR. ring. }
      replace (RInt (fun t => dphi t * (prim g y - prim g t)) x y) with (prim g y * RInt dphi x y - RInt (fun t => dphi t * prim g t) x y).
      2:{ rewrite <- RInt_scal' by apply ED. rewrite <- RInt_minus' by (apply EDG || (apply everywhere_scal; exact ED)). apply RInt_ext. intros t _. toR. ring. }
      rewrite <- (prim_diff _ x y EP), <- (prim_diff _ x y EDG), <- (prim_diff _ x y EG), <- FT. ring. }
    rewrite E. 
    assert (B1 : Rabs (RInt (fun t => (phi t - phi x) * g t) x y) <= (y - x) * (L * (y - x) * M)).
    { apply prim_bound; [|lra|].
      - apply (everywhere_ext (fun t => phi t * g t - phi x * g t)); [intros; ring|]. apply everywhere_minus; [exact EP|apply everywhere_scal; exact EG].
      - intros t T. rewrite Rabs_mult. apply Rmult_le_compat; try apply Rabs_pos; [|apply BM; lra].
        rewrite FT. apply Rle_trans with ((t - x) * L); [apply prim_bound; [exact ED|lra|intros; apply BL; lra]|]. rewrite (Rmult_comm L). apply Rmult_le_compat_r; lra. }
    assert (B2 : Rabs (RInt (fun t => dphi t * (prim g y - prim g t)) x y) <= (y - x) * (L * ((y - x) * M))).
    { apply prim_bound; [|lra|].
      - apply (everywhere_ext (fun t => prim g y * dphi t - dphi t * prim g t)); [intros; ring|]. apply everywhere_minus; [apply everywhere_scal; exact ED|exact EDG].
      - intros t T. rewrite Rabs_mult. apply Rmult_le_compat; try apply Rabs_pos; [apply BL; lra|].
        rewrite (prim_diff g t y EG). apply Rle_trans with ((y - t) * M); [apply prim_bound; [exact EG|lra|intros; apply BM; lra]|]. apply Rmult_le_compat_r; lra. }
    pose proof (Rabs_triang (RInt (fun t => (phi t - phi x) * g t) x y) (- RInt (fun t => dphi t * (prim g y - prim g t)) x y)) as TR. rewrite Rabs_Ropp in TR.
    unfold Rminus at 1. apply Rle_trans with (1 := TR). replace (2 * (L * M) * (y - x) ^ 2) with ((y - x) * (L * (y - x) * M) + (y - x) * (L * ((y - x) * M))) by ring. lra. }
  assert (Z : forall k, prim k 0 = 0) by (intros k; unfold prim; apply (RInt_point (V := R_CompleteNormedModule))).
  unfold H in HZ. rewrite !Z in HZ. change (RInt (fun t => phi t * g t) 0 1) with (prim (fun t => phi t * g t) 1).
  change (RInt (fun t => dphi t * prim g t) 0 1) with (prim (fun t => dphi t * prim g t) 1). lra.
Qed.
