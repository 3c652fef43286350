(** Lemmas for C65. *)
From Coq Require Import FunctionalExtensionality Lra Lia.
From Verif Require Import Base M_Marin S_Marin M_Laws M_Laws2 M_Fiber S_Fiber L_Fiber M_MarinInt S_MarinInt L_MarinInt2 L_MarinInt3 M_Section S_Section L_Section M_Domain S_History L_History S_Frame S_Turn L_Turn L_Turn2 L_Turn3 L_Move5 L_Move7 S_Odd.

Lemma opp_sub x y : sub3 (opposite x) (opposite y) = opposite (sub3 x y).
Proof. destruct x as [[? ?] ?], y as [[? ?] ?]. unfold sub3, opposite. cbn [fst snd]. apply pair3; ring. Qed.
Lemma opp_add x y : add3 (opposite x) (opposite y) = opposite (add3 x y).
Proof. destruct x as [[? ?] ?], y as [[? ?] ?]. unfold add3, opposite. cbn [fst snd]. apply pair3; ring. Qed.
Lemma opp_length x : norm3 (opposite x) = norm3 x.
Proof. destruct x as [[x y] z]. unfold norm3, opposite. cbn [fst snd]. f_equal. ring. Qed.
Lemma opp_twice x : opposite (opposite x) = x.
Proof. destruct x as [[? ?] ?]. unfold opposite. cbn [fst snd]. apply pair3; ring. Qed.
Lemma opp_zero : opposite (0, 0, 0) = (0, 0, 0).
Proof. unfold opposite. cbn [fst snd]. apply pair3; ring. Qed.
Lemma solve_opp K L v : eq3 L K -> solve3 L (opposite v) = rmap opposite (solve3 K v).
Proof.
  intros H. rewrite (solve_eq _ _ _ H). unfold solve3. destruct (Reqb_spec (det3 K) 0) as [|N]; [reflexivity|]. cbn [rmap]. f_equal.
  destruct v as [[x y] z]. unfold opposite, det3, put_col. cbn [Nat.eqb fst snd]. apply pair3; field; exact N.
Qed.

Section Odd.
Variables (ig : integ) (t : traits) (ms : R) (g : compound) (D : list group).
Hypothesis CO : coherent ig g (Some ms) D.
Hypothesis PF : forall p m, rmap fst (ig_forces ig g (opposite p) (Some D) m) = rmap opposite (rmap fst (ig_forces ig g p (Some D) m)).
Hypothesis PK : forall p m, match ig_modulus ig g p (Some D) m, ig_modulus ig g (opposite p) (Some D) m with
  | Ok (K, _), Ok (K', _) => eq3 K' K | Err e, Err e' => e = e' | _, _ => False end.
Let c0 : sstate := {| st_data := Some D; st_lim := None |}.
Lemma twin_opp p m : twin (pairs D D) (pairs D D) (forces_k ig g p m) (forces_k ig g (opposite p) m) opposite.
Proof.
  intros s s' H. destruct H as ((d & DS & X) & (d' & DS' & X')).
  pose proof (co_forces _ _ _ _ CO g p d D m m X) as E1. pose proof (co_forces _ _ _ _ CO g (opposite p) d' D m m X') as E2. pose proof (PF p m) as P. rewrite <- E1, <- E2 in P.
  unfold forces_k. rewrite DS, DS'.
  destruct (ig_forces ig g p (Some d) m) as [[F e]|e], (ig_forces ig g (opposite p) (Some d') m) as [[F' e']|e']; cbn [rmap fst] in P; try discriminate; cbn [fst snd rmap].
  - assert (HS : has D s) by (exists d; split; assumption). assert (HS' : has D s') by (exists d'; split; assumption).
    rewrite (keep_has D), (keep_has D) by assumption. split; [congruence|]. intros _ _. split; assumption.
  - split; [congruence|discriminate].
Qed.
Lemma opp_newton loads tol mx K0 K0' : match K0, K0' with None, None => True | Some K, Some K' => eq3 K' K | _, _ => False end ->
  forall fuel num strain, twin (pairs D D) (pairs D D)
   (newton_loop fuel ig ms g loads tol K0 num mx strain) (newton_loop fuel ig ms g (opposite loads) tol K0' num mx (opposite strain)) opposite.
Proof.
  intros HK. induction fuel as [|k IH]; intros num strain; cbn [newton_loop].
  { destruct (mx <=? num)%nat; [intros s s' H; split; [reflexivity|discriminate]|apply twin_ret; reflexivity]. }
  unfold integrate_profile.
  eapply twin_bind; [exact (twin_opp strain (Some ms))|]. intros F.
  assert (REST : forall K K', eq3 K' K -> twin (pairs D D) (pairs D D)
    (abind (alift (solve3 K (sub3 loads F))) (fun d => if Rltb (norm3 d) tol then if (mx <=? S num)%nat then afail StopIteration else aret (add3 strain d) else newton_loop k ig ms g loads tol K0 (S num) mx (add3 strain d)))
    (abind (alift (solve3 K' (sub3 (opposite loads) (opposite F)))) (fun d => if Rltb (norm3 d) tol then if (mx <=? S num)%nat then afail StopIteration else aret (add3 (opposite strain) d) else newton_loop k ig ms g (opposite loads) tol K0' (S num) mx (add3 (opposite strain) d))) opposite).
  { intros K K' EK. apply (twin_bind (pairs D D) (pairs D D) _ _ _ opposite); [apply twin_lift; rewrite opp_sub; exact (solve_opp K K' _ EK)|].
    intros d. cbv beta. rewrite opp_add, (opp_length d). destruct (Rltb (norm3 d) tol); [|apply IH].
    destruct (mx <=? S num)%nat; [intros s s' H; split; [reflexivity|discriminate]|apply twin_ret; reflexivity]. }
  destruct K0 as [K|], K0' as [K'|]; try contradiction; [exact (REST K K' HK)|].
  apply twin_start. intros s s' ((d & DS & X) & (d' & DS' & X')). pose proof (PK strain None) as TT.
  pose proof (co_modulus _ _ _ _ CO g strain d D None None X) as E1. pose proof (co_modulus _ _ _ _ CO g (opposite strain) d' D None None X') as E2.
  rewrite DS, DS'.
  destruct (ig_modulus ig g strain (Some D) None) as [[K u]|e], (ig_modulus ig g (opposite strain) (Some D) None) as [[K' u']|e']; try contradiction;
  destruct (ig_modulus ig g strain (Some d) None) as [[L w]|x], (ig_modulus ig g (opposite strain) (Some d') None) as [[L' w']|x']; cbn [rmap fst] in E1, E2; try discriminate.
  - assert (L = K) by congruence. assert (L' = K') by congruence. subst. left. exists K, K'. split; [reflexivity|]. split; [reflexivity|]. exact (REST K K' TT).
  - right. exists e. split; congruence.
Qed.
Lemma opp_strain loads i mx tol :
  fst (strain_profile ig ms g (opposite loads) i mx tol c0) = rmap opposite (fst (strain_profile ig ms g loads i mx tol c0)).
Proof.
  unfold strain_profile, c0. cbn [st_data].
  pose proof (PK (0, 0, 0) None) as TT. rewrite opp_zero in TT.
  destruct (ig_modulus ig g (0, 0, 0) (Some D) None) as [[K u]|e]; [|reflexivity].
  pose proof (opp_newton loads tol mx (if i then Some K else None) (if i then Some K else None) ltac:(destruct i; [intros a b _ _; reflexivity|exact Logic.I]) (S mx) 0%nat (0, 0, 0)) as T.
  rewrite opp_zero in T. apply (T (keep_data u _) (keep_data u _)).
  rewrite (keep_has D); [split|]; (eexists; split; [reflexivity|apply eqd_refl]).
Qed.
Lemma opp_limits u yn yp b : balanced (tr_rc t) false (items_of t g) = Ok (yn, yp, b) -> p_e0 b + p_ky b * yn = - u -> p_e0 b + p_ky b * yp = u ->
  forall lo hi, fst (limits ig t ms g c0) = Ok (lo, hi) -> lo = - hi.
Proof.
  intros BA E1 E2 lo hi. unfold limits, limit_load, abind, alift, c0. cbn [st_lim]. rewrite BA. cbn [st_data]. rewrite E1, E2.
  pose proof (PF (u, 0, 0) None) as P. unfold opposite at 1 in P. cbn [fst snd] in P. rewrite Ropp_0 in P.
  pose proof (co_forces _ _ _ _ CO g (- u, 0, 0) D D (Some ms) None (eqd_refl D)) as Q.
  destruct (ig_forces ig g (- u, 0, 0) (Some D) (Some ms)) as [[F1 d1]|e] eqn:X1; cbn [fst]; [|discriminate].
  pose proof (co_data _ _ _ _ CO g (- u, 0, 0) D (Some ms) F1 d1 X1) as DD.
  pose proof (co_forces _ _ _ _ CO g (u, 0, 0) d1 D None None DD) as W.
  destruct (ig_forces ig g (u, 0, 0) (Some d1) None) as [[F2 d2]|e] eqn:X2; cbn [fst]; [|discriminate].
  intros [= <- <-]. cbn [rmap fst] in Q, W. rewrite <- Q, <- W in P. cbn [rmap] in P. injection P as P. rewrite P. destruct F2 as [[? ?] ?]. reflexivity.
Qed.
End Odd.
