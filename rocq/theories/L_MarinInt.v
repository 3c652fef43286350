From Coquelicot Require Import Coquelicot.
From Verif Require Import Base M_Marin S_Marin L_Marin M_Laws S_Laws M_Laws2 S_Laws2 M_Fiber S_Fiber L_Fiber M_MarinInt S_MarinInt.

Ltac toR := match goal with |- ?a = ?b => change (@eq R a b) end.

(** * Boundary form of the integral of y^m g(z) *)
Definition gfun (m : nat) (g : R -> R) (p q : R * R) (t : R) : R :=
  fst (seg p q t) ^ (m + 1) / INR (m + 1) * g (snd (seg p q t)) * (snd q - snd p).
Definition gedge (m : nat) (g : R -> R) (p q : R * R) : R := RInt (gfun m g p q) 0 1.
Definition gfield (m : nat) (g : R -> R) (ring : list (R * R)) : R :=
  lsum (map (fun e => gedge m g (fst e) (snd e)) (edges ring)).
(** integrable along every segment *)
Definition eint (g : R -> R) : Prop := forall m p q, ex_RInt (gfun m g p q) 0 1.

Lemma gfield_cons2 m g p q l : gfield m g (p :: q :: l) = gedge m g p q + gfield m g (q :: l).
Proof. unfold gfield. cbn [edges map fst snd]. now rewrite lsum_cons. Qed.
Lemma gfield_single m g p : gfield m g [p] = 0.
Proof. reflexivity. Qed.
Lemma gfield_nil m g : gfield m g [] = 0.
Proof. reflexivity. Qed.
Lemma gfield_snoc m g l d x : l <> [] -> gfield m g (l ++ [x]) = gfield m g l + gedge m g (last l d) x.
Proof.
  induction l as [|p l IH]; intros H; [congruence|]. destruct l as [|q l].
  - cbn [app last]. rewrite gfield_cons2, !gfield_single. ring.
  - change ((p :: q :: l) ++ [x]) with (p :: q :: (l ++ [x])). rewrite !gfield_cons2.
    change (q :: l ++ [x]) with ((q :: l) ++ [x]). rewrite IH by discriminate.
    change (last (p :: q :: l) d) with (last (q :: l) d). ring.
Qed.

Lemma is_RInt_zero a b (f : R -> R) : (forall t, Rmin a b < t < Rmax a b -> f t = 0) -> is_RInt f a b 0.
Proof.
  intros H. apply (is_RInt_ext (fun _ => 0)). { intros t T. symmetry. now apply H. }
  pose proof (is_RInt_const (V:=R_NormedModule) a b 0) as K.
  replace (scal (b - a) (0 : R_NormedModule)) with (0 : R) in K; [exact K|].
  unfold scal; cbn; unfold mult; cbn. ring.
Qed.
Lemma gedge_horizontal m g p q : snd p = snd q -> gedge m g p q = 0.
Proof.
  intros H. unfold gedge. apply RIntU, is_RInt_zero. intros t _. unfold gfun. rewrite H. ring.
Qed.

Lemma gfun_rev m g p q t : gfun m g q p t = - gfun m g p q (1 - t).
Proof.
  unfold gfun, seg; cbn [fst snd]. replace (1 - (1 - t)) with t by ring.
  rewrite (Rplus_comm ((1 - t) * fst q)), (Rplus_comm ((1 - t) * snd q)). ring.
Qed.
Lemma gedge_rev_is m g p q v : is_RInt (gfun m g p q) 0 1 v -> is_RInt (gfun m g q p) 0 1 (- v).
Proof.
  intros H.
  apply (is_RInt_ext (fun t => scal (-1) (gfun m g p q (-1 * t + 1)))).
  { intros t _. rewrite (gfun_rev m g p q t). unfold scal; cbn; unfold mult; cbn. replace (-1 * t + 1) with (1 - t) by ring.
    toR. ring. }
  apply (is_RInt_comp_lin (gfun m g p q) (-1) 1 0 1 (- v)).
  replace (-1 * 0 + 1) with 1 by ring. replace (-1 * 1 + 1) with 0 by ring.
  apply (is_RInt_swap (V:=R_NormedModule)). exact H.
Qed.
Lemma gedge_rev m g p q : eint g -> gedge m g q p = - gedge m g p q.
Proof.
  intros E. unfold gedge at 1. apply RIntU. apply gedge_rev_is. unfold gedge.
  apply (RInt_correct (V:=R_CompleteNormedModule)), E.
Qed.

(** * Half planes *)
Definition keep (sg c : R) (g : R -> R) (z : R) : R := if Rle_dec (sg * z) (sg * c) then g z else 0.

Lemma inside_true sg c p : inside sg c p = true <-> sg * snd p <= sg * c.
Proof. apply Rleb_true. Qed.
Lemma inside_false sg c p : inside sg c p = false <-> sg * c < sg * snd p.
Proof. apply Rleb_false. Qed.

Lemma seg_between sg c p q t : 0 < t < 1 -> sg * snd p <= sg * c -> sg * snd q <= sg * c -> sg * snd (seg p q t) <= sg * c.
Proof. intros T A B. unfold seg; cbn [snd]. nra. Qed.
Lemma seg_outside sg c p q t : 0 < t < 1 -> sg * c < sg * snd p -> sg * c < sg * snd q -> sg * c < sg * snd (seg p q t).
Proof. intros T A B. unfold seg; cbn [snd]. nra. Qed.

Lemma keep_in sg c m g p q v : sg * snd p <= sg * c -> sg * snd q <= sg * c ->
  is_RInt (gfun m g p q) 0 1 v -> is_RInt (gfun m (keep sg c g) p q) 0 1 v.
Proof.
  intros A B. apply is_RInt_ext. intros t T. rewrite Rmin_left, Rmax_right in T by lra.
  unfold gfun, keep. destruct (Rle_dec _ _) as [|N]; [reflexivity|]. exfalso. apply N. now apply seg_between.
Qed.
Lemma keep_out sg c m g p q : sg * c < sg * snd p -> sg * c < sg * snd q ->
  is_RInt (gfun m (keep sg c g) p q) 0 1 0.
Proof.
  intros A B. apply is_RInt_zero. intros t T. rewrite Rmin_left, Rmax_right in T by lra.
  unfold gfun, keep. destruct (Rle_dec _ _) as [N|]; [|ring]. exfalso.
  pose proof (seg_outside sg c p q t T A B). lra.
Qed.
Definition cutpar (c : R) (p q : R * R) : R := (c - snd p) / (snd q - snd p).
Lemma cut_point_seg c p q : snd p <> snd q -> cut_point c p q = seg p q (cutpar c p q).
Proof. intros H. unfold cut_point, seg, cutpar. f_equal; field; lra. Qed.
Lemma cut_point_snd c p q : snd (cut_point c p q) = c.
Proof. reflexivity. Qed.
Lemma cut_point_sym c p q : snd p <> snd q -> cut_point c q p = cut_point c p q.
Proof. intros H. unfold cut_point. f_equal; field; lra. Qed.

Lemma sg_cases sg : sg = 1 \/ sg = -1 -> forall x y, sg * x <= sg * y -> (sg = 1 /\ x <= y) \/ (sg = -1 /\ y <= x).
Proof. intros [->| ->] x y H; [left|right]; lra. Qed.

(** leaving the half plane *)
Lemma keep_leave sg c m g p q v : sg = 1 \/ sg = -1 -> eint g ->
  sg * snd p <= sg * c -> sg * c < sg * snd q ->
  is_RInt (gfun m g p (cut_point c p q)) 0 1 v -> is_RInt (gfun m (keep sg c g) p q) 0 1 v.
Proof.
  intros HS E A B H.
  assert (NE : snd p <> snd q) by (intros Q; rewrite Q in A; lra).
  set (s := cutpar c p q). pose proof (cut_point_seg c p q NE) as CS. fold s in CS.
  assert (Hs : 0 <= s < 1 /\ forall t, snd (seg p q t) - c = (t - s) * (snd q - snd p)).
  { split.
    - unfold s, cutpar. destruct HS as [-> | ->].
      + split; [apply Rmult_le_pos; [lra|left; apply Rinv_0_lt_compat; lra]|].
        apply Rmult_lt_reg_r with (snd q - snd p); [lra|]. unfold Rdiv. rewrite Rmult_assoc, Rinv_l by lra. lra.
      + replace ((c - snd p) / (snd q - snd p)) with ((snd p - c) / (snd p - snd q)) by (field; lra).
        split; [apply Rmult_le_pos; [lra|left; apply Rinv_0_lt_compat; lra]|].
        apply Rmult_lt_reg_r with (snd p - snd q); [lra|]. unfold Rdiv. rewrite Rmult_assoc, Rinv_l by lra. lra.
    - intros t. unfold s, cutpar, seg; cbn [snd]. field. lra. }
  destruct Hs as [[S0 S1] Hz].
  replace v with (plus v (0 : R)) by (unfold plus; cbn; ring).
  apply (is_RInt_Chasles (V:=R_NormedModule)) with s.
  - (* [0, s] *)
    destruct (Req_dec s 0) as [Z|NZ].
    + rewrite Z.
      assert (v = 0).
      { apply (is_RInt_unique (V:=R_CompleteNormedModule)) in H. rewrite <- H.
        change (gedge m g p (cut_point c p q) = 0). apply gedge_horizontal.
        rewrite CS, Z. unfold seg; cbn [snd]. ring. }
      subst v. apply (is_RInt_point (V:=R_NormedModule)).
    + assert (SP : 0 < s) by lra.
      apply (is_RInt_ext (gfun m g p q)).
      { intros t T. rewrite Rmin_left, Rmax_right in T by lra. unfold gfun, keep.
        destruct (Rle_dec _ _) as [|N]; [reflexivity|]. exfalso. apply N. specialize (Hz t).
        destruct HS as [-> | ->]; nra. }
      (* from the cut edge by scaling *)
      assert (SC : forall u, gfun m g p (cut_point c p q) u = s * gfun m g p q (s * u)).
      { intros u. rewrite CS. unfold gfun, seg; cbn [fst snd].
        replace ((1 - u) * fst p + u * ((1 - s) * fst p + s * fst q)) with ((1 - s * u) * fst p + s * u * fst q) by ring.
        replace ((1 - u) * snd p + u * ((1 - s) * snd p + s * snd q)) with ((1 - s * u) * snd p + s * u * snd q) by ring.
        ring. }
      assert (X : ex_RInt (gfun m g p q) 0 s).
      { apply (ex_RInt_Chasles_1 (V:=R_CompleteNormedModule)) with 1; [lra|apply E]. }
      pose proof (RInt_correct (V:=R_CompleteNormedModule) _ _ _ X) as RC.
      assert (V : is_RInt (gfun m g p (cut_point c p q)) 0 1 (RInt (gfun m g p q) 0 s)).
      { apply (is_RInt_ext (fun u => scal s (gfun m g p q (s * u + 0)))).
        { intros u _. rewrite SC, Rplus_0_r. reflexivity. }
        apply (is_RInt_comp_lin (gfun m g p q) s 0 0 1). rewrite Rmult_0_r, Rmult_1_r, !Rplus_0_r. exact RC. }
      rewrite <- (is_RInt_unique (V:=R_CompleteNormedModule) _ _ _ _ H).
      rewrite (is_RInt_unique (V:=R_CompleteNormedModule) _ _ _ _ V). exact RC.
  - apply is_RInt_zero. intros t T. rewrite Rmin_left, Rmax_right in T by lra.
    unfold gfun, keep. destruct (Rle_dec _ _) as [N|]; [|ring]. exfalso. specialize (Hz t).
    destruct HS as [-> | ->]; nra.
Qed.

Lemma keep_enter sg c m g p q v : sg = 1 \/ sg = -1 -> eint g ->
  sg * c < sg * snd p -> sg * snd q <= sg * c ->
  is_RInt (gfun m g (cut_point c p q) q) 0 1 v -> is_RInt (gfun m (keep sg c g) p q) 0 1 v.
Proof.
  intros HS E A B H.
  assert (NE : snd q <> snd p) by (intros Q; rewrite Q in *; lra).
  apply gedge_rev_is in H. rewrite cut_point_sym in H by assumption.
  apply (keep_leave sg c m g q p _ HS E B A) in H. apply gedge_rev_is in H. now rewrite Ropp_involutive in H.
Qed.

Lemma keep_eint sg c g : sg = 1 \/ sg = -1 -> eint g -> eint (keep sg c g).
Proof.
  intros HS E m p q.
  destruct (Rle_dec (sg * snd p) (sg * c)) as [A|A]; destruct (Rle_dec (sg * snd q) (sg * c)) as [B|B].
  - eexists. eapply keep_in; eauto. apply (RInt_correct (V:=R_CompleteNormedModule)), E.
  - eexists. eapply keep_leave; eauto; [lra|]. apply (RInt_correct (V:=R_CompleteNormedModule)), E.
  - eexists. eapply keep_enter; eauto; [lra|]. apply (RInt_correct (V:=R_CompleteNormedModule)), E.
  - eexists. apply keep_out; lra.
Qed.

Lemma gedge_correct m g p q : eint g -> is_RInt (gfun m g p q) 0 1 (gedge m g p q).
Proof. intros E. apply (RInt_correct (V:=R_CompleteNormedModule)), E. Qed.

(** * Clipping *)
Definition tail_of (sg c : R) (e : R * R) : list (R * R) := if inside sg c e then [e] else [].
Lemma clip_path_spec sg c m g : sg = 1 \/ sg = -1 -> eint g -> forall l p d,
  let E := clip_path sg c (p :: l) in
  let e := last (p :: l) d in
  let W := E ++ tail_of sg c e in
  gfield m g W = gfield m (keep sg c g) (p :: l) /\
  (inside sg c p = true -> exists W', W = p :: W') /\
  (inside sg c p = false -> W = [] \/ exists h W', W = h :: W' /\ snd h = c) /\
  (inside sg c e = false -> E = [] \/ snd (last E d) = c).
Proof.
  intros HS G l. induction l as [|q l IH]; intros p d E e W.
  - unfold W, E, e, tail_of. cbn [clip_path last app]. rewrite gfield_single.
    destruct (inside sg c p) eqn:I.
    + rewrite gfield_single. split; [reflexivity|]. split; [eauto|]. split; intros; discriminate.
    + rewrite gfield_nil. split; [reflexivity|]. split; [intros; discriminate|]. auto.
  - specialize (IH q d). cbv zeta in IH. destruct IH as (V & Hin & Hout & Hlast).
    assert (EE : E = emit sg c p q ++ clip_path sg c (q :: l)) by reflexivity.
    assert (Ee : e = last (q :: l) d) by reflexivity.
    set (E' := clip_path sg c (q :: l)) in *. set (W1 := E' ++ tail_of sg c e) in *. rewrite <- Ee in *.
    fold W1 in V, Hin, Hout.
    assert (WW : W = emit sg c p q ++ W1) by (unfold W, W1; rewrite EE, app_assoc; reflexivity).
    rewrite gfield_cons2, <- V, WW. unfold emit in EE |- *.
    clearbody E'.
    destruct (inside sg c p) eqn:Ip; destruct (inside sg c q) eqn:Iq; cbn [Bool.eqb app] in *.
    + (* in, in *)
      destruct (Hin eq_refl) as [W' HW]. rewrite HW. rewrite gfield_cons2.
      apply inside_true in Ip, Iq.
      split.
      * rewrite <- HW. f_equal. unfold gedge at 2. symmetry. apply RIntU. apply keep_in; auto using gedge_correct.
      * split; [eauto|]. split; [intros; discriminate|].
        intros O. right. rewrite EE. destruct E' as [|x E2] eqn:EQ.
        { unfold W1, tail_of in HW. rewrite O in HW. discriminate. }
        cbn [last]. destruct (Hlast O) as [|H0]; [discriminate|exact H0].
    + (* in, out *)
      pose proof (proj1 (inside_true _ _ _) Ip) as Ap. pose proof (proj1 (inside_false _ _ _) Iq) as Aq.
      rewrite gfield_cons2.
      assert (VX : gfield m g (cut_point c p q :: W1) = gfield m g W1).
      { destruct (Hout eq_refl) as [->|(h & W' & -> & Hh)]; [reflexivity|].
        rewrite gfield_cons2, gedge_horizontal; [ring|]. rewrite cut_point_snd. now rewrite Hh. }
      rewrite VX. split.
      * f_equal. unfold gedge at 2. symmetry. apply RIntU. apply keep_leave; auto using gedge_correct.
      * split; [eauto|]. split; [intros; discriminate|].
        intros O. right. rewrite EE. cbn [last]. destruct E' as [|x E2] eqn:EQ; [reflexivity|].
        destruct (Hlast O) as [|H0]; [discriminate|]. exact H0.
    + (* out, in *)
      pose proof (proj1 (inside_false _ _ _) Ip) as Ap. pose proof (proj1 (inside_true _ _ _) Iq) as Aq.
      destruct (Hin eq_refl) as [W' HW]. rewrite HW, gfield_cons2, <- HW. split.
      * f_equal. unfold gedge at 2. symmetry. apply RIntU. apply keep_enter; auto using gedge_correct.
      * split; [intros; discriminate|]. split; [right; eauto|].
        intros O. right. rewrite EE. cbn [last]. destruct E' as [|x E2] eqn:EQ; [reflexivity|].
        destruct (Hlast O) as [|H0]; [discriminate|]. exact H0.
    + (* out, out *)
      pose proof (proj1 (inside_false _ _ _) Ip) as Ap. pose proof (proj1 (inside_false _ _ _) Iq) as Aq.
      split.
      * replace (gedge m (keep sg c g) p q) with 0; [ring|].
        symmetry. apply RIntU. now apply keep_out.
      * split; [intros; discriminate|]. split; [auto|]. intros O. rewrite EE. auto.
Qed.

Lemma clip_closed sg c ring : closed (clip sg c ring).
Proof.
  unfold clip. destruct (clip_path sg c ring) as [|h l]; [exact I|]. unfold closed. cbn [app].
  change (h :: l ++ [h]) with ((h :: l) ++ [h]). apply last_last.
Qed.

Lemma clip_field sg c m g ring : sg = 1 \/ sg = -1 -> eint g -> closed ring ->
  gfield m g (clip sg c ring) = gfield m (keep sg c g) ring.
Proof.
  intros HS E C. destruct ring as [|p l]; [reflexivity|].
  pose proof (clip_path_spec sg c m g HS E l p p) as H. cbv zeta in H. unfold closed in C. rewrite C in H.
  destruct H as (V & Hin & Hout & Hlast). rewrite <- V. unfold clip.
  destruct (clip_path sg c (p :: l)) as [|h E'] eqn:EQ.
  - unfold tail_of. cbn [app]. destruct (inside sg c p); reflexivity.
  - unfold tail_of in *. destruct (inside sg c p) eqn:Ip.
    + destruct (Hin eq_refl) as [W' HW]. cbn [app] in HW. inversion HW; subst. reflexivity.
    + rewrite app_nil_r in *. destruct (Hout eq_refl) as [|(h' & W' & HW & Hc)]; [discriminate|].
      inversion HW; subst h' W'. rewrite (gfield_snoc m g (h :: E') p h) by discriminate.
      rewrite gedge_horizontal; [ring|]. destruct (Hlast eq_refl) as [|L]; [discriminate|]. now rewrite L, Hc.
Qed.

(** * Integrals do not see finitely many points *)
Lemma is_RInt_finite (L : list R) : forall (f g : R -> R) a b v, a <= b ->
  (forall t, a < t < b -> ~ In t L -> f t = g t) -> is_RInt f a b v -> is_RInt g a b v.
Proof.
  induction L as [|x L IH]; intros f g a b v AB H I.
  - apply (is_RInt_ext f); [|exact I]. intros t T. rewrite Rmin_left, Rmax_right in T by lra. apply H; auto.
  - destruct (Rlt_dec a x) as [Ax|Ax]; [destruct (Rlt_dec x b) as [Bx|Bx]|].
    + assert (E1 : ex_RInt f a x) by (apply (ex_RInt_Chasles_1 (V:=R_CompleteNormedModule)) with b; [lra|now exists v]).
      assert (E2 : ex_RInt f x b) by (apply (ex_RInt_Chasles_2 (V:=R_CompleteNormedModule)) with a; [lra|now exists v]).
      pose proof (RInt_correct (V:=R_CompleteNormedModule) _ _ _ E1) as C1.
      pose proof (RInt_correct (V:=R_CompleteNormedModule) _ _ _ E2) as C2.
      pose proof (is_RInt_Chasles (V:=R_NormedModule) _ _ _ _ _ _ C1 C2) as C3.
      rewrite <- (is_RInt_unique (V:=R_CompleteNormedModule) _ _ _ _ I).
      rewrite (is_RInt_unique (V:=R_CompleteNormedModule) _ _ _ _ C3).
      apply (is_RInt_Chasles (V:=R_NormedModule)) with x.
      * apply (IH f); [lra| |exact C1]. intros t T N. apply H; [lra|]. intros [->|]; [lra|contradiction].
      * apply (IH f); [lra| |exact C2]. intros t T N. apply H; [lra|]. intros [->|]; [lra|contradiction].
    + apply (IH f); [lra| |exact I]. intros t T N. apply H; [lra|]. intros [->|]; [lra|contradiction].
    + apply (IH f); [lra| |exact I]. intros t T N. apply H; [lra|]. intros [->|]; [lra|contradiction].
Qed.

(** Functions equal up to finitely many arguments have the same field. *)
Lemma gedge_finite m g h p q (L : list R) v : (forall z, ~ In z L -> g z = h z) ->
  is_RInt (gfun m g p q) 0 1 v -> is_RInt (gfun m h p q) 0 1 v.
Proof.
  intros H I. destruct (Req_dec (snd p) (snd q)) as [E|E].
  - apply (is_RInt_ext (gfun m g p q)); [|exact I]. intros t _. unfold gfun. rewrite E. toR. ring.
  - apply (is_RInt_finite (map (fun z => (z - snd p) / (snd q - snd p)) L) (gfun m g p q)); [lra| |exact I].
    intros t _ N. unfold gfun. rewrite (H (snd (seg p q t))); [reflexivity|].
    intros J. apply N. apply in_map_iff. exists (snd (seg p q t)). split; [|exact J].
    unfold seg; cbn [snd]. field. lra.
Qed.
Lemma eint_finite g h (L : list R) : (forall z, ~ In z L -> g z = h z) -> eint g -> eint h.
Proof. intros H E m p q. destruct (E m p q) as [v I]. exists v. exact (gedge_finite m g h p q L v H I). Qed.
Lemma gfield_finite m g h (L : list R) ring : (forall z, ~ In z L -> g z = h z) -> eint g -> gfield m h ring = gfield m g ring.
Proof.
  intros H E. unfold gfield. apply lsum_map_ext. intros e _. unfold gedge at 1. apply RIntU.
  apply (gedge_finite m g h _ _ L _ H). now apply gedge_correct.
Qed.
Lemma gfield_ext m g h ring : (forall z, g z = h z) -> gfield m g ring = gfield m h ring.
Proof.
  intros H. unfold gfield. apply lsum_map_ext. intros e _. unfold gedge. apply RInt_ext. intros t _. unfold gfun. now rewrite H.
Qed.

(** * Linear operations *)
Lemma scal_R (k x : R) : scal k (x : R_NormedModule) = k * x.
Proof. reflexivity. Qed.
Lemma eint_plus g h : eint g -> eint h -> eint (fun z => g z + h z).
Proof.
  intros A B m p q. apply (ex_RInt_ext (fun t => plus (gfun m g p q t) (gfun m h p q t))).
  { intros t _. unfold gfun, plus; cbn. ring. }
  apply (ex_RInt_plus (V:=R_NormedModule)); [apply A|apply B].
Qed.
Lemma gfield_plus m g h ring : eint g -> eint h -> gfield m (fun z => g z + h z) ring = gfield m g ring + gfield m h ring.
Proof.
  intros A B. unfold gfield. rewrite <- lsum_map_plus. apply lsum_map_ext. intros e _. unfold gedge at 1. apply RIntU.
  apply (is_RInt_ext (fun t => plus (gfun m g (fst e) (snd e) t) (gfun m h (fst e) (snd e) t))).
  { intros t _. unfold gfun, plus; cbn. ring. }
  apply (is_RInt_plus (V:=R_NormedModule)); now apply gedge_correct.
Qed.
Lemma eint_cont g : (forall z, continuous g z) -> eint g.
Proof.
  intros H m p q. apply (ex_RInt_continuous (V:=R_CompleteNormedModule)). intros t _. unfold gfun.
  apply (continuous_mult (fun t => fst (seg p q t) ^ (m + 1) / INR (m + 1) * g (snd (seg p q t)))
     (fun _ => snd q - snd p)).
  - apply (continuous_mult (fun t => fst (seg p q t) ^ (m + 1) / INR (m + 1)) (fun t => g (snd (seg p q t)))).
    + apply (ex_derive_continuous (V:=R_NormedModule)). unfold seg; cbn [fst]. auto_derive. exact I.
    + apply (continuous_comp (fun t => snd (seg p q t)) g); [|apply H].
      apply (ex_derive_continuous (V:=R_NormedModule)). unfold seg; cbn [snd]. auto_derive. exact I.
  - apply continuous_const.
Qed.
Lemma eint_zero : eint (fun _ => 0).
Proof. apply eint_cont. intros; apply continuous_const. Qed.
Lemma gfield_zero m ring : gfield m (fun _ => 0) ring = 0.
Proof.
  unfold gfield. rewrite (lsum_map_ext _ (fun _ => 0)).
  - induction (edges ring); cbn [map]; rewrite ?lsum_cons; [reflexivity|]. rewrite IHl. ring.
  - intros e _. unfold gedge. apply RIntU, is_RInt_zero. intros; unfold gfun; ring.
Qed.
Lemma poly_derive c z : ex_derive (poly c) z.
Proof.
  induction c as [|a c IH]; cbn [poly].
  - apply (ex_derive_const (V:=R_NormedModule)).
  - apply (ex_derive_plus (V:=R_NormedModule) (fun _ => a) (fun y => y * poly c y)); [apply (ex_derive_const (V:=R_NormedModule))|].
    apply (ex_derive_mult (fun y => y) (poly c)); [apply (ex_derive_id)|exact IH].
Qed.
Lemma pz_cont c off z : continuous (fun z => poly c z * z ^ off) z.
Proof.
  apply (continuous_mult (poly c) (fun z => z ^ off)).
  - apply (ex_derive_continuous (V:=R_NormedModule)), poly_derive.
  - apply (ex_derive_continuous (V:=R_NormedModule)). auto_derive. exact I.
Qed.
Lemma eint_poly c off : eint (fun z => poly c z * z ^ off).
Proof. apply eint_cont, pz_cont. Qed.

(** * Coefficient sums *)
Lemma moment_of_green ring m n : closed ring -> moment_of ring m n = gfield m (fun z => z ^ n) ring.
Proof.
  intros C. unfold moment_of. rewrite ring_moment_fan, <- green_fan by assumption. reflexivity.
Qed.
Lemma gfield_scal m k g ring : eint g -> gfield m (fun z => k * g z) ring = k * gfield m g ring.
Proof.
  intros E. unfold gfield. rewrite <- lsum_map_scal. apply lsum_map_ext. intros e _. unfold gedge at 1. apply RIntU.
  apply (is_RInt_ext (fun t => scal k (gfun m g (fst e) (snd e) t))).
  { intros t _. rewrite scal_R. unfold gfun. toR. ring. }
  apply (is_RInt_scal (V:=R_NormedModule)). now apply gedge_correct.
Qed.
Lemma eint_pow n : eint (fun z => z ^ n).
Proof. apply eint_cont. intros z. apply (ex_derive_continuous (V:=R_NormedModule)). auto_derive. exact I. Qed.
Lemma coeff_sum_field c ring m off : closed ring -> coeff_sum (c, ring) m off = gfield m (fun z => poly c z * z ^ off) ring.
Proof.
  intros C. unfold coeff_sum. cbn [fst snd].
  assert (G : forall j, lsum (map (fun k => nth k c 0 * moment_of ring m (j + k + off)) (seq 0 (length c))) =
     gfield m (fun z => poly c z * z ^ (j + off)) ring).
  { induction c as [|a c IH]; intros j; cbn [length seq map poly].
    - rewrite lsum_nil. rewrite (gfield_ext m _ (fun _ => 0)) by (intros; ring). now rewrite gfield_zero.
    - rewrite lsum_cons. rewrite <- seq_shift, map_map. cbn [nth].
      rewrite (lsum_map_ext _ (fun k => nth k c 0 * moment_of ring m (S j + k + off))).
      2:{ intros k _. f_equal. f_equal. lia. }
      rewrite IH. rewrite moment_of_green by assumption.
      rewrite <- gfield_scal by apply eint_pow. rewrite <- gfield_plus.
      + apply gfield_ext. intros z. replace (j + 0 + off)%nat with (j + off)%nat by lia.
        replace (S j + off)%nat with (S (j + off)) by lia. cbn [pow]. ring.
      + apply (eint_cont). intros z. apply (ex_derive_continuous (V:=R_NormedModule)). auto_derive. exact I.
      + apply eint_poly. }
  exact (G 0%nat).
Qed.

(** * Strips *)
Lemma strip_closed y0 y1 ring : closed (strip y0 y1 ring).
Proof. apply clip_closed. Qed.
Definition between (y0 y1 : R) (g : R -> R) (z : R) : R := if Rle_dec y0 z then if Rle_dec z y1 then g z else 0 else 0.
Lemma between_keep y0 y1 g z : keep 1 y1 (keep (-1) y0 g) z = between y0 y1 g z.
Proof.
  unfold keep, between. destruct (Rle_dec y0 z), (Rle_dec z y1), (Rle_dec (1 * z) (1 * y1)), (Rle_dec (-1 * z) (-1 * y0)); try lra; reflexivity.
Qed.
Lemma strip_field m y0 y1 g ring : eint g -> closed ring -> gfield m g (strip y0 y1 ring) = gfield m (between y0 y1 g) ring.
Proof.
  intros E C. unfold strip. rewrite clip_field by (auto using clip_closed).
  rewrite clip_field by (auto using keep_eint). apply gfield_ext. intros; apply between_keep.
Qed.
Lemma eint_between y0 y1 g : eint g -> eint (between y0 y1 g).
Proof.
  intros E. apply (eint_finite (keep 1 y1 (keep (-1) y0 g)) _ []). { intros z _. apply between_keep. }
  auto using keep_eint.
Qed.

(** * All strips of one geometry *)
Definition piece (e0 e1 : R) (off : nat) (rc : (R * R) * list R) (z : R) : R :=
  if Rle_dec (fst (fst rc)) (e0 + e1 * z) then
    if Rle_dec (e0 + e1 * z) (snd (fst rc)) then poly (snd rc) z * z ^ off else 0 else 0.
Definition pieces (e0 e1 : R) (off : nat) (l : list ((R * R) * list R)) (z : R) : R :=
  lsum (map (fun rc => piece e0 e1 off rc z) l).
Lemma piece_between e0 e1 off rc z : 0 < e1 ->
  piece e0 e1 off rc z = between (- (e0 - fst (fst rc)) / e1) (- (e0 - snd (fst rc)) / e1) (fun z => poly (snd rc) z * z ^ off) z.
Proof.
  intros P. unfold piece, between.
  assert (A : - (e0 - fst (fst rc)) / e1 <= z <-> fst (fst rc) <= e0 + e1 * z).
  { split; intros H.
    - apply Rmult_le_compat_l with (r := e1) in H; [|lra]. replace (e1 * (- (e0 - fst (fst rc)) / e1)) with (fst (fst rc) - e0) in H by (field; lra). lra.
    - apply Rmult_le_reg_l with e1; [lra|]. replace (e1 * (- (e0 - fst (fst rc)) / e1)) with (fst (fst rc) - e0) by (field; lra). lra. }
  assert (B : z <= - (e0 - snd (fst rc)) / e1 <-> e0 + e1 * z <= snd (fst rc)).
  { split; intros H.
    - apply Rmult_le_compat_l with (r := e1) in H; [|lra]. replace (e1 * (- (e0 - snd (fst rc)) / e1)) with (snd (fst rc) - e0) in H by (field; lra). lra.
    - apply Rmult_le_reg_l with e1; [lra|]. replace (e1 * (- (e0 - snd (fst rc)) / e1)) with (snd (fst rc) - e0) by (field; lra). lra. }
  destruct (Rle_dec (fst (fst rc)) (e0 + e1 * z)), (Rle_dec (e0 + e1 * z) (snd (fst rc))),
    (Rle_dec (- (e0 - fst (fst rc)) / e1) z), (Rle_dec z (- (e0 - snd (fst rc)) / e1)); try reflexivity; exfalso; tauto.
Qed.
Lemma eint_piece e0 e1 off rc : 0 < e1 -> eint (piece e0 e1 off rc).
Proof.
  intros P. apply (eint_finite (between (- (e0 - fst (fst rc)) / e1) (- (e0 - snd (fst rc)) / e1) (fun z => poly (snd rc) z * z ^ off)) _ []).
  { intros z _. symmetry. now apply piece_between. }
  apply eint_between, eint_poly.
Qed.
Lemma eint_pieces e0 e1 off l : 0 < e1 -> eint (pieces e0 e1 off l).
Proof.
  intros P. unfold pieces. induction l as [|rc l IH].
  - apply eint_zero.
  - apply (eint_finite (fun z => piece e0 e1 off rc z + lsum (map (fun rc => piece e0 e1 off rc z) l)) _ []).
    { intros z _. cbn [map]. now rewrite lsum_cons. }
    apply eint_plus; [now apply eint_piece|exact IH].
Qed.

Lemma range_entries_ok e0 e1 rings rs : forall cs, 0 < e1 -> length rs = length cs ->
  (forall r, In r rs -> fst r <= snd r) -> (forall ring, In ring rings -> closed ring) ->
  exists es, range_entries e0 e1 rings rs cs = Ok es /\
  forall m off, lsum (map (fun e => coeff_sum e m off) es) =
     lsum (map (fun ring => gfield m (pieces e0 e1 off (combine rs cs)) ring) rings).
Proof.
  induction rs as [|r rs IH]; intros cs P L O C.
  - exists []. split; [reflexivity|]. intros m off. cbn [map]. rewrite lsum_nil. symmetry.
    rewrite (lsum_map_ext _ (fun _ => 0)). { clear. induction rings; cbn [map]; rewrite ?lsum_cons; [reflexivity|]. rewrite IHrings; ring. }
    intros ring _. unfold pieces. cbn [combine map]. rewrite (gfield_ext m _ (fun _ => 0)) by reflexivity. apply gfield_zero.
  - destruct cs as [|c cs]; [discriminate|]. cbn [length] in L.
    destruct (IH cs P ltac:(lia) (fun r H => O r (or_intror H)) C) as (es & E & V).
    cbn [range_entries]. destruct (Reqb_spec e1 0); [lra|].
    assert (ORD : - (e0 - fst r) / e1 <= - (e0 - snd r) / e1).
    { apply Rmult_le_compat_r; [left; now apply Rinv_0_lt_compat|]. specialize (O r (or_introl eq_refl)). lra. }
    destruct (Rltb_spec (- (e0 - snd r) / e1) (- (e0 - fst r) / e1)); [lra|].
    rewrite E. cbn [bind]. eexists. split; [reflexivity|].
    intros m off. rewrite map_app, lsum_app, V, map_map, <- lsum_map_plus. apply lsum_map_ext. intros ring Hr.
    rewrite coeff_sum_field by apply strip_closed. rewrite strip_field by (try apply eint_poly; now apply C).
    rewrite <- gfield_plus; [|apply eint_between, eint_poly|apply eint_pieces; exact P].
    apply gfield_ext. intros z. unfold pieces. cbn [combine map]. rewrite lsum_cons. f_equal.
    symmetry. exact (piece_between e0 e1 off (r, c) z P).
Qed.

(** * Ranges that describe a stress field *)
Lemma lsum_one (l : list R) i : (i < length l)%nat -> (forall j, (j < length l)%nat -> j <> i -> nth j l 0 = 0) -> lsum l = nth i l 0.
Proof.
  revert i. induction l as [|x l IH]; intros i H K; [cbn in H; lia|]. rewrite lsum_cons. destruct i as [|i].
  - cbn [nth]. assert (Z : lsum l = 0).
    { assert (G : forall j, (j < length l)%nat -> nth j l 0 = 0).
      { intros j Hj. apply (K (S j)); [cbn; lia|lia]. }
      clear - G. induction l as [|y l IH]; [reflexivity|]. rewrite lsum_cons.
      pose proof (G 0%nat ltac:(cbn; lia)) as G0. cbn in G0. subst y.
      rewrite IH; [ring|]. intros j Hj. apply (G (S j)). cbn; lia. }
    rewrite Z. ring.
  - cbn [nth]. pose proof (K 0%nat ltac:(cbn; lia) ltac:(lia)) as K0. cbn in K0. subst x.
    rewrite (IH i); [ring|cbn in H; lia|]. intros j Hj N. apply (K (S j)); [cbn; lia|lia].
Qed.
Lemma lsum_all0 (l : list R) : (forall x, In x l -> x = 0) -> lsum l = 0.
Proof.
  induction l as [|x l IH]; intros H; [reflexivity|]. rewrite lsum_cons, (H x (or_introl eq_refl)), IH; [ring|].
  intros y Hy. apply H. now right.
Qed.

Lemma pieces_describe (bad : list R) f e0 e1 rs cs z off : 0 < e1 ->
  describes (fun e => ~ In e bad) f e0 e1 (Some rs, cs) -> tidy rs ->
  ~ In (e0 + e1 * z) (bad ++ map fst rs ++ map snd rs) ->
  pieces e0 e1 off (combine rs cs) z = f (e0 + e1 * z) * z ^ off.
Proof.
  intros P [L D] [T1 T2] N. cbn [fst snd] in L, D.
  rewrite !in_app_iff in N.
  destruct (D z) as [D1 D2]; [tauto|].
  set (s := e0 + e1 * z) in *.
  assert (LC : length (combine rs cs) = length rs) by (rewrite combine_length, L; lia).
  destruct (List.Exists_dec (fun r : R * R => fst r <= s <= snd r) rs) as [X|X].
  { intros r. destruct (Rle_dec (fst r) s), (Rle_dec s (snd r)); [left; lra|right; lra|right; lra|right; lra]. }
  - apply List.Exists_exists in X. destruct X as (r & Ir & Hr).
    apply (In_nth _ _ (0, 0)) in Ir. destruct Ir as (i & Hi & Ei).
    unfold pieces.
    rewrite (lsum_one _ i).
    + rewrite (nth_indep _ 0 (piece e0 e1 off ((0,0),[]) z)) by (rewrite map_length; lia).
      rewrite (map_nth (fun rc => piece e0 e1 off rc z)). rewrite combine_nth by assumption. rewrite Ei.
      unfold piece. cbn [fst snd]. fold s.
      destruct (Rle_dec (fst r) s); [|lra]. destruct (Rle_dec s (snd r)); [|lra].
      f_equal. apply (D1 r (nth i cs [])); [|exact Hr].
      rewrite <- Ei. rewrite <- combine_nth by assumption. apply nth_In. lia.
    + rewrite map_length. lia.
    + rewrite map_length, LC. intros j Hj Nj.
      rewrite (nth_indep _ 0 (piece e0 e1 off ((0,0),[]) z)) by (rewrite map_length; lia).
      rewrite (map_nth (fun rc => piece e0 e1 off rc z)). rewrite combine_nth by assumption.
      unfold piece. cbn [fst snd]. fold s.
      destruct (Rle_dec (fst (nth j rs (0,0))) s); [|reflexivity].
      destruct (Rle_dec s (snd (nth j rs (0,0)))); [|reflexivity]. exfalso.
      assert (Ij : In (nth j rs (0,0)) rs) by now apply nth_In.
      assert (Ii : In r rs) by (rewrite <- Ei; now apply nth_In).
      destruct (T2 j i Hj Hi Nj) as [Q|Q]; rewrite Ei in Q.
      * apply N. right. left. apply in_map_iff. exists r. split; [lra|exact Ii].
      * apply N. right. right. apply in_map_iff. exists r. split; [lra|exact Ii].
  - assert (Z : forall r, In r rs -> ~ (fst r <= s <= snd r)).
    { intros r Ir Hr. apply X. apply List.Exists_exists. eauto. }
    rewrite (D2 Z). rewrite Rmult_0_l. unfold pieces. apply lsum_all0. intros x Hx.
    apply in_map_iff in Hx. destruct Hx as ([r c] & <- & Hrc). apply in_combine_l in Hrc.
    unfold piece. cbn [fst snd]. fold s. specialize (Z r Hrc).
    destruct (Rle_dec (fst r) s); [|reflexivity]. destruct (Rle_dec s (snd r)); [|reflexivity]. exfalso. lra.
Qed.
