(** Area integrals of a field of the strain in two frames: edge by edge. *)
From Coquelicot Require Import Coquelicot.
From Coq Require Import FunctionalExtensionality Lra Lia.
From Verif Require Import Base M_Marin S_Marin L_Marin M_Laws S_Laws M_Laws2 S_Laws2 M_Fiber S_Fiber L_Fiber M_MarinInt S_MarinInt L_MarinInt L_Frame.

(** A curve all of whose moments are integrable. *)
Definition tame (f : R -> R) : Prop := forall n, everywhere (fun x => x ^ n * f x).
Lemma tame_everywhere f : tame f -> everywhere f.
Proof. intros T. apply (everywhere_ext (fun x => x ^ 0 * f x)); [intros; cbn [pow]; ring|apply T]. Qed.
Lemma tame_poly f c0 c1 c2 c3 : tame f -> everywhere (fun x => (c0 + c1 * x + c2 * x ^ 2 + c3 * x ^ 3) * f x).
Proof.
  intros T. apply (everywhere_ext (fun x => (c0 * (x ^ 0 * f x) + c1 * (x ^ 1 * f x)) + (c2 * (x ^ 2 * f x) + c3 * (x ^ 3 * f x)))); [intros; ring|].
  apply everywhere_plus; apply everywhere_plus; apply everywhere_scal; apply T.
Qed.
Lemma everywhere_line g al be : everywhere g -> everywhere (fun t => be * g (al + be * t)).
Proof.
  intros H a b. apply (ex_RInt_ext (fun t => scal be (g (be * t + al)))).
  { intros t _. rewrite (Rplus_comm al). reflexivity. }
  apply (ex_RInt_comp_lin (V := R_NormedModule) g be al a b). apply H.
Qed.
Lemma tame_line f c0 c1 c2 c3 al be : tame f -> everywhere (fun t => (c0 + c1 * t + c2 * t ^ 2 + c3 * t ^ 3) * (be * f (al + be * t))).
Proof.
  intros T. destruct (Req_dec be 0) as [-> |N].
  - apply (everywhere_ext (fun _ => 0)); [intros; ring|]. apply everywhere_continuous. intros. apply continuous_const.
  - set (k := - al / be). set (j := / be).
    apply (everywhere_ext (fun t => be * ((fun x => ((c0 + c1 * k + c2 * k ^ 2 + c3 * k ^ 3) + (c1 * j + 2 * c2 * k * j + 3 * c3 * k ^ 2 * j) * x + (c2 * j ^ 2 + 3 * c3 * k * j ^ 2) * x ^ 2 + c3 * j ^ 3 * x ^ 3) * f x) (al + be * t)))).
    + intros t. cbv beta. unfold k, j. field. exact N.
    + apply (everywhere_line (fun x => ((c0 + c1 * k + c2 * k ^ 2 + c3 * k ^ 3) + (c1 * j + 2 * c2 * k * j + 3 * c3 * k ^ 2 * j) * x + (c2 * j ^ 2 + 3 * c3 * k * j ^ 2) * x ^ 2 + c3 * j ^ 3 * x ^ 3) * f x)). apply tame_poly. exact T.
Qed.
Lemma prim_line f al be x : everywhere f -> prim (fun t => be * f (al + be * t)) x = prim f (al + be * x) - prim f al.
Proof.
  intros H. rewrite (prim_diff f al (al + be * x) H). unfold prim.
  replace (RInt f al (al + be * x)) with (RInt f (be * 0 + al) (be * x + al)) by (f_equal; ring).
  rewrite <- (RInt_comp_lin (V := R_CompleteNormedModule) f be al 0 x) by apply H.
  apply RInt_ext. intros t _. rewrite (Rplus_comm al). reflexivity.
Qed.
Lemma prim_derive g x : (forall y, continuous g y) -> is_derive (prim g) x (g x).
Proof.
  intros C. apply (is_derive_RInt (V := R_NormedModule) g (prim g) 0 x); [|apply C].
  exists (mkposreal 1 Rlt_0_1). intros z _. apply (RInt_correct (V := R_CompleteNormedModule)). apply everywhere_continuous. exact C.
Qed.
Lemma prim_smooth g x : (forall y, continuous g y) -> continuous (prim g) x.
Proof. intros C. apply prim_continuous. apply everywhere_continuous. exact C. Qed.

Section Curve.
Variable f : R -> R.
Hypothesis T : tame f.
Let F1 := prim f.
Let F2 := prim F1.
Let F3 := prim F2.
Lemma F1_cont x : continuous F1 x. Proof. apply prim_continuous, tame_everywhere, T. Qed.
Lemma F2_cont x : continuous F2 x. Proof. apply prim_smooth, F1_cont. Qed.
Lemma F3_cont x : continuous F3 x. Proof. apply prim_smooth, F2_cont. Qed.
Lemma F2_der x : is_derive F2 x (F1 x). Proof. apply prim_derive, F1_cont. Qed.
Lemma F3_der x : is_derive F3 x (F2 x). Proof. apply prim_derive, F2_cont. Qed.
Lemma lin_cont (al be t : R) : continuous (fun t => al + be * t) t.
Proof. apply (ex_derive_continuous (K := R_AbsRing) (V := R_NormedModule)). auto_derive. exact I. Qed.
Lemma along (G : R -> R) (al be t : R) : (forall x, continuous G x) -> continuous (fun t => G (al + be * t)) t.
Proof. intros C. apply (continuous_comp (fun t => al + be * t) G); [apply lin_cont|apply C]. Qed.
Lemma poly_cont (c0 c1 c2 c3 t : R) : continuous (fun t => c0 + c1 * t + c2 * t ^ 2 + c3 * t ^ 3) t.
Proof. apply (ex_derive_continuous (K := R_AbsRing) (V := R_NormedModule)). auto_derive. exact I. Qed.
(** cubic weight against the field along a line *)
Lemma line_parts c0 c1 c2 c3 al be :
  RInt (fun t => (c0 + c1 * t + c2 * t ^ 2 + c3 * t ^ 3) * (be * f (al + be * t))) 0 1 =
  (c0 + c1 + c2 + c3) * F1 (al + be) - c0 * F1 al - RInt (fun t => (c1 + 2 * c2 * t + 3 * c3 * t ^ 2) * F1 (al + be * t)) 0 1.
Proof.
  pose proof (tame_everywhere f T) as EF.
  rewrite (by_parts (fun t => be * f (al + be * t)) (fun t => c0 + c1 * t + c2 * t ^ 2 + c3 * t ^ 3) (fun t => c1 + 2 * c2 * t + 3 * c3 * t ^ 2)).
  - assert (C1 : forall t, continuous (fun t => (c1 + 2 * c2 * t + 3 * c3 * t ^ 2) * F1 (al + be * t)) t).
    { intros t. apply (continuous_mult (fun t => c1 + 2 * c2 * t + 3 * c3 * t ^ 2) (fun t => F1 (al + be * t))); [|apply along; apply F1_cont].
      apply (ex_derive_continuous (K := R_AbsRing) (V := R_NormedModule)). auto_derive. exact I. }
    assert (C2 : forall t, continuous (fun t => c1 + 2 * c2 * t + 3 * c3 * t ^ 2) t) by (intros t; apply (ex_derive_continuous (K := R_AbsRing) (V := R_NormedModule)); auto_derive; exact I).
    replace (RInt (fun t => (c1 + 2 * c2 * t + 3 * c3 * t ^ 2) * prim (fun t0 => be * f (al + be * t0)) t) 0 1) with
      (RInt (fun t => (c1 + 2 * c2 * t + 3 * c3 * t ^ 2) * F1 (al + be * t)) 0 1 - F1 al * (c1 + c2 + c3)).
    + rewrite (prim_line f al be 1 EF). fold F1. cbv beta. replace (al + be * 1) with (al + be) by ring. toR. ring.
    + replace (c1 + c2 + c3) with (RInt (fun t => c1 + 2 * c2 * t + 3 * c3 * t ^ 2) 0 1).
      * rewrite <- RInt_scal' by (apply everywhere_continuous; exact C2). rewrite <- RInt_minus'.
        -- apply RInt_ext. intros t _. rewrite (prim_line f al be t EF). fold F1. toR. ring.
        -- apply everywhere_continuous. exact C1.
        -- apply everywhere_scal, everywhere_continuous. exact C2.
      * apply RIntU. replace (c1 + c2 + c3) with (minus (c1 * 1 + c2 * 1 ^ 2 + c3 * 1 ^ 3) (c1 * 0 + c2 * 0 ^ 2 + c3 * 0 ^ 3)) by (unfold minus, plus, opp; cbn; ring).
        apply (is_RInt_derive (V := R_CompleteNormedModule) (fun t => c1 * t + c2 * t ^ 2 + c3 * t ^ 3)); intros t _; [|apply C2].
        auto_derive; [exact I|]. toR. ring.
  - apply everywhere_line. exact EF.
  - apply tame_line. exact T.
  - intros t. auto_derive; [exact I|]. toR. ring.
  - intros t. apply (ex_derive_continuous (K := R_AbsRing) (V := R_NormedModule)). auto_derive. exact I.
Qed.
End Curve.
