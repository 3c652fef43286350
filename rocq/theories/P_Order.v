(** C61: the order of the surfaces and bars does not matter. *)
From Coq Require Import Permutation FunctionalExtensionality Lra Lia.
From Verif Require Import Base M_Marin S_Marin M_Laws M_Laws2 M_Fiber S_Fiber M_MarinInt S_MarinInt M_Section S_Section M_Domain S_History S_Exact S_Turn S_Move S_Pieces L_Pieces L_Pieces3 S_Order L_Order L_Order2 L_Order3 L_Order4 P_Section L_Cracked7 L_Section4 P_Exact P_Turn P_Move P_Pieces.

(** * The balanced failure *)
Theorem C61_failure : forall t g g' y, around_zero t -> drawn_surfaces g -> reordered g g' ->
  (forall yn yp p, balanced (tr_rc t) y (items_of t g) = Ok (yn, yp, p) -> at_failure t g y p yn yp /\
     (forall p' zn zp, at_failure t g y p' zn zp -> p' = p) /\
     exists yn' yp', balanced (tr_rc t) y (items_of t g') = Ok (yn', yp', p)) /\
  (forall e, balanced (tr_rc t) y (items_of t g) = Err e -> balanced (tr_rc t) y (items_of t g') = Err e).
Proof.
  intros t g g' y U D R. pose proof (balanced_reordered t g g' y U D R) as H. split.
  - intros yn yp p E. rewrite E in H. pose proof (balanced_failure t g y yn yp p U D E) as A. split; [exact A|]. split.
    + intros p' zn zp A'. exact (failure_profile t g y p yn yp p' zn zp A A').
    + destruct (balanced (tr_rc t) y (items_of t g')) as [[[yn' yp'] p']|e']; [|contradiction]. destruct H as (-> & _). eauto.
  - intros e E. rewrite E in H. destruct (balanced (tr_rc t) y (items_of t g')) as [[[yn' yp'] p']|e']; [contradiction|]. now rewrite H.
Qed.
Print Assumptions C61_failure.
Lemma turn_zero g : rotate_geo 0 g = g.
Proof.
  assert (Z : forall p, rot 0 p = p) by (intros [y z]; unfold rot; cbn [fst snd]; rewrite cos_0, sin_0; f_equal; ring).
  assert (ZM : forall l, map (rot 0) l = l) by (intros l; rewrite <- (map_id l) at 2; apply map_ext; exact Z).
  destruct g as [ss bs]. unfold rotate_geo. cbn [cg_surf cg_bars]. f_equal.
  - rewrite <- (map_id ss) at 2. apply map_ext. intros [x i k]. unfold rotate_surface. cbn [sf_ext sf_ints sf_law]. rewrite ZM. f_equal.
    rewrite <- (map_id i) at 2. apply map_ext. exact ZM.
  - rewrite <- (map_id bs) at 2. apply map_ext. intros [y z a k]. unfold rotate_bar. cbn [br_y br_z br_area br_law]. rewrite Z. reflexivity.
Qed.
(** After the same history of analyses the next one answers the same. *)
Lemma same_answers ig (rel : list group -> list group -> Prop) t ms g g' : (forall a d d', rel d d' -> rel (map (rotate_group a) d) (map (rotate_group a) d')) ->
  (forall a, kin_forces ig rel (rotate_geo a g) (rotate_geo a g')) -> kin_modulus ig rel g g' ->
  reordered g g' -> around_zero t -> drawn_surfaces g -> one_failure t g ->
  forall ops s s', history ig t ms g ops s -> history ig t ms g' ops s' -> forall o, fst (run ig t ms g' o s') = fst (run ig t ms g o s).
Proof.
  intros RR F M R U D O ops s s' H H' o.
  assert (F0 : kin_forces ig rel g g') by (rewrite <- (turn_zero g), <- (turn_zero g'); apply F).
  assert (B : forall a y, balanced (tr_rc t) y (items_of t (rotate_geo a g')) = balanced (tr_rc t) y (items_of t (rotate_geo a g))).
  { intros a y. exact (balanced_order t g g' a y U D R O). }
  assert (B0 : forall y, balanced (tr_rc t) y (items_of t g') = balanced (tr_rc t) y (items_of t g)).
  { intros y. rewrite <- (turn_zero g), <- (turn_zero g'). apply B. }
  assert (Y : forall a, min_y (rotate_geo a g') = min_y (rotate_geo a g)) by (intros a; exact (min_y_perm _ _ (reordered_rotate a g g' R))).
  destruct (kin_history ig rel t ms g g' RR F0 F M B0 B Y ops s H) as (u & HU & K). pose proof (history_unique ig t ms g' ops s' H' u HU) as Q. subst u.
  exact (proj1 (kin_run ig rel t ms g g' RR F0 F M B0 B Y o s s' K)).
Qed.
(** The histories themselves are the same. *)
Lemma same_histories ig (rel : list group -> list group -> Prop) t ms g g' : (forall a d d', rel d d' -> rel (map (rotate_group a) d) (map (rotate_group a) d')) ->
  (forall a, kin_forces ig rel (rotate_geo a g) (rotate_geo a g')) -> kin_modulus ig rel g g' ->
  reordered g g' -> around_zero t -> drawn_surfaces g -> one_failure t g ->
  forall ops s, history ig t ms g ops s -> exists s', history ig t ms g' ops s'.
Proof.
  intros RR F M R U D O ops s H.
  assert (F0 : kin_forces ig rel g g') by (rewrite <- (turn_zero g), <- (turn_zero g'); apply F).
  assert (B : forall a y, balanced (tr_rc t) y (items_of t (rotate_geo a g')) = balanced (tr_rc t) y (items_of t (rotate_geo a g))).
  { intros a y. exact (balanced_order t g g' a y U D R O). }
  assert (B0 : forall y, balanced (tr_rc t) y (items_of t g') = balanced (tr_rc t) y (items_of t g)).
  { intros y. rewrite <- (turn_zero g), <- (turn_zero g'). apply B. }
  assert (Y : forall a, min_y (rotate_geo a g') = min_y (rotate_geo a g)) by (intros a; exact (min_y_perm _ _ (reordered_rotate a g g' R))).
  destruct (kin_history ig rel t ms g g' RR F0 F M B0 B Y ops s H) as (u & HU & K). eauto.
Qed.

(** * The fibre integrator *)
Theorem C61_fiber : forall laws mesher t ms g g', (forall k, batched (laws k)) ->
  reordered g g' -> around_zero t -> drawn_surfaces g -> one_failure t g ->
  (forall ops s, history (fiber_integ laws mesher) t ms g ops s -> exists s', history (fiber_integ laws mesher) t ms g' ops s') /\
  forall ops s s', history (fiber_integ laws mesher) t ms g ops s -> history (fiber_integ laws mesher) t ms g' ops s' ->
    forall o, fst (run (fiber_integ laws mesher) t ms g' o s') = fst (run (fiber_integ laws mesher) t ms g o s).
Proof.
  intros laws mesher t ms g g' BA R U D O.
  assert (F : forall a, kin_forces (fiber_integ laws mesher) gperm (rotate_geo a g) (rotate_geo a g')).
  { intros a. exact (fiber_kin_forces laws BA _ _ (reordered_rotate a g g' R) mesher). }
  pose proof (fiber_kin_modulus laws BA g g' R mesher) as M. split.
  - exact (same_histories _ gperm t ms g g' gperm_rotate F M R U D O).
  - exact (same_answers _ gperm t ms g g' gperm_rotate F M R U D O).
Qed.
Print Assumptions C61_fiber.
(** * The Marin integrator *)
Theorem C61_marin : forall laws fs ts t ms g g', (forall k, batched (laws k)) ->
  reordered g g' -> around_zero t -> drawn_surfaces g -> one_failure t g ->
  closed_rings g -> follows laws fs g -> follows_tangent laws ts g -> steady laws g -> repeats laws g -> write_alike laws g ->
  (forall ops s, history (marin_integ laws) t ms g ops s -> exists s', history (marin_integ laws) t ms g' ops s') /\
  forall ops s s', history (marin_integ laws) t ms g ops s -> history (marin_integ laws) t ms g' ops s' ->
    forall o, fst (run (marin_integ laws) t ms g' o s') = fst (run (marin_integ laws) t ms g o s).
Proof.
  intros laws fs ts t ms g g' BA R U D O CR FO FT ST RP WA.
  assert (F : forall a, kin_forces (marin_integ laws) gperm (rotate_geo a g) (rotate_geo a g')).
  { intros a. apply (marin_kin_forces laws BA _ _ (reordered_rotate a g g' R) fs). intros x I. cbn [rotate_geo cg_surf] in I. apply in_map_iff in I as (x0 & <- & I).
    cbn [ask rotate_surface sf_law sf_ext sf_ints]. destruct (CR x0 I) as (C1 & C2). split; [|split; [|split; [|split; [|split]]]].
    - intros e r P. exact (FO x0 e r I P).
    - intros e. exact (proj1 (ST x0 e I)).
    - intros e. exact (proj1 (RP x0 e I)).
    - intros s' e J. cbn [rotate_geo cg_surf] in J. apply in_map_iff in J as (x1 & <- & J). exact (proj1 (WA x0 x1 e I J)).
    - exact (closed_rot a _ C1).
    - intros q J. apply in_map_iff in J as (q0 & <- & J). exact (closed_rot a _ (C2 q0 J)). }
  assert (M : kin_modulus (marin_integ laws) gperm g g').
  { apply (marin_kin_modulus laws BA g g' R ts). intros x I. cbn [ask]. destruct (CR x I) as (C1 & C2). split; [|split; [|split; [|split; [|split; [exact C1|exact C2]]]]].
    - intros e r P. exact (FT x e r I P).
    - intros e. exact (proj2 (ST x e I)).
    - intros e. exact (proj2 (RP x e I)).
    - intros s' e J. exact (proj2 (WA x s' e I J)). }
  split.
  - exact (same_histories _ gperm t ms g g' gperm_rotate F M R U D O).
  - exact (same_answers _ gperm t ms g g' gperm_rotate F M R U D O).
Qed.
Print Assumptions C61_marin.
(** * Sections whose materials have the same ultimate strains have one balanced failure. *)
Theorem C61_one_material : forall t g un up, tr_rc t = false -> (forall y, un y < up y) ->
  (forall s, In s (cg_surf g) -> forall y, tr_ult t (sf_law s) y = (un y, up y)) -> (forall b, In b (cg_bars g) -> forall y, tr_ult t (br_law b) y = (un y, up y)) ->
  one_failure t g.
Proof.
  intros t g un up RC L US UB a y p zn zp zn' zp' (K & Z & _ & _ & AP & AN) (_ & Z' & _ & _ & AP' & AN').
  assert (XP : forall z u, lengthens t (rotate_geo a g) y z u -> u = up y).
  { intros z u [(s & v & I & _ & _ & ->) | (b & I & _ & ->)]; cbn [rotate_geo cg_surf cg_bars] in I; apply in_map_iff in I as (x & <- & I); cbn [rotate_surface rotate_bar sf_law br_law].
    - rewrite (US x I). reflexivity.
    - rewrite (UB x I). reflexivity. }
  assert (XN : forall z u, shortens t (rotate_geo a g) y z u -> u = un y).
  { unfold shortens. rewrite RC. intros z u [(s & v & I & _ & _ & ->) | (b & I & _ & ->)]; cbn [rotate_geo cg_surf cg_bars] in I; apply in_map_iff in I as (x & <- & I); cbn [rotate_surface rotate_bar sf_law br_law].
    - rewrite (US x I). reflexivity.
    - rewrite (UB x I). reflexivity. }
  apply XP in AP, AP'. apply XN in AN, AN'. specialize (L y). unfold strain_at in *. split; nra.
Qed.
Print Assumptions C61_one_material.
(** * A plate of two pieces, listed from the top: all hypotheses hold *)
Definition plate_listed : compound := {| cg_surf := rev (cg_surf plate_cut); cg_bars := [] |}.
Example C61_example : let ig := marin_integ (stiff_laws 1000) in let t := sym_traits (1/1000) in
  (exists s, limits ig t (1/10) plate_listed st_init = (Ok (-2, 2), s)) /\
  forall ops s s', history ig t (1/10) plate_cut ops s -> history ig t (1/10) plate_listed ops s' ->
    forall o, fst (run ig t (1/10) plate_listed o s') = fst (run ig t (1/10) plate_cut o s).
Proof.
  intros ig t.
  assert (X : (forall ops s, history ig t (1/10) plate_cut ops s -> exists s', history ig t (1/10) plate_listed ops s') /\
    forall ops s s', history ig t (1/10) plate_cut ops s -> history ig t (1/10) plate_listed ops s' ->
    forall o, fst (run ig t (1/10) plate_listed o s') = fst (run ig t (1/10) plate_cut o s)).
  { apply (C61_marin (stiff_laws 1000) hooke (fun _ _ => 1000)).
    - exact (stiff_batched 1000).
    - split; [|apply Permutation_refl]. apply Permutation_rev.
    - intros k y. cbn. lra.
    - intros s [<-|[<-|[]]]; discriminate.
    - apply (C61_one_material t plate_cut (fun _ => - (1/1000)) (fun _ => 1/1000)); [reflexivity|intros; lra|reflexivity..].
    - exact (proj2 cut_closed).
    - intros s e r _ _. apply hooke_field.
    - intros s e r _ _. apply hooke_tangent.
    - intros s e [<-|[<-|[]]]; exact (plate_steady _ e (or_introl eq_refl)).
    - intros s e _. destruct (C59_laws_repeat e) as (H & _). apply H.
    - intros s s' e [<-|[<-|[]]] [<-|[<-|[]]]; split; reflexivity. }
  split; [|exact (proj2 X)].
  destruct C59_example as ((s1 & L) & _). pose proof (proj2 X [] st_init st_init (h_new _ _ _ _) (h_new _ _ _ _) OLimits) as Y.
  cbn [run] in Y. unfold amap in Y. fold ig t in L. rewrite L in Y. cbn [fst snd rmap] in Y.
  destruct (limits ig t (1 / 10) plate_listed st_init) as [[l|e] u]; cbn [fst snd rmap] in Y; [|discriminate]. injection Y as ->. eauto.
Qed.
(** * Reinforced sections: one concrete, with the tension limit U, and one reinforcing steel. *)
Definition height (a : R) (p : R * R) : R := sin a * fst p + cos a * snd p.
(** In each direction some bar lies so deep below some outer point that the concrete
    cannot be lengthened by U, and no bar sticks out. *)
Definition reinforced (uc us U : R) (g : compound) : Prop := forall a,
  (exists b s t, In b (cg_bars g) /\ In s (cg_surf g) /\ In t (sf_ext s) /\ forall s' v, In s' (cg_surf g) -> In v (sf_ext s') ->
     (us + uc) * (height a (br_y b, br_z b) - height a v) < (U - us) * (height a t - height a (br_y b, br_z b))) /\
  (forall b, In b (cg_bars g) -> exists s t, In s (cg_surf g) /\ In t (sf_ext s) /\ height a (br_y b, br_z b) <= height a t).
Theorem C61_reinforced : forall t g uc us U, tr_rc t = true ->
  (forall s, In s (cg_surf g) -> tr_conc t (sf_law s) = true /\ forall y, tr_ult t (sf_law s) y = (- uc y, U)) ->
  (forall b, In b (cg_bars g) -> forall y, tr_ult t (br_law b) y = (- us y, us y)) ->
  (forall y, 0 < uc y < us false /\ 0 < us y < U /\ reinforced (uc y) (us y) U g) -> one_failure t g.
Proof.
  intros t g uc us U RC SU BU LIM a y p zn zp zn' zp' A A'. destruct (LIM y) as (L1 & L2 & RF). destruct (RF a) as ((b0 & s0 & t0 & IB & IS & IT & DEEP) & OUT).
  assert (HT : forall v, snd (rot a v) = height a v) by reflexivity.
  assert (IN : forall s, In s (cg_surf g) -> In (rotate_surface a s) (cg_surf (rotate_geo a g))) by (intros; now apply in_map).
  assert (INB : forall b, In b (cg_bars g) -> In (rotate_bar a b) (cg_bars (rotate_geo a g))) by (intros; now apply in_map).
  assert (ONE : forall zn zp, at_failure t (rotate_geo a g) y p zn zp -> strain_at p zp = us y /\ strain_at p zn = - uc y /\ zp < zn).
  { clear zn zp zn' zp' A A'. intros zn zp (K & Z & LO & SO & AP & AN).
    assert (HC : forall s v, In s (cg_surf g) -> In v (sf_ext s) -> - uc y <= strain_at p (height a v)).
    { intros s v I J. apply SO. left. exists (rotate_surface a s), (rot a v). split; [now apply IN|]. split; [now apply in_map|]. split; [reflexivity|].
      rewrite RC. cbn [rotate_surface sf_law]. destruct (SU s I) as (-> & E). rewrite andb_true_r, E. reflexivity. }
    assert (HS : forall b, In b (cg_bars g) -> strain_at p (height a (br_y b, br_z b)) <= us y).
    { intros b I. apply LO. right. exists (rotate_bar a b). split; [now apply INB|]. split; [reflexivity|]. cbn [rotate_bar br_law]. rewrite (BU b I). reflexivity. }
    assert (TN : forall u, lengthens t (rotate_geo a g) y zp u -> u = us y \/ (u = U /\ exists s v, In s (cg_surf g) /\ In v (sf_ext s) /\ zp = height a v)).
    { intros u [(s & v & I & J & E & ->) | (b & I & E & ->)]; cbn [rotate_geo cg_surf cg_bars] in I; apply in_map_iff in I as (x & <- & I); cbn [rotate_surface rotate_bar sf_law br_law].
      - right. rewrite (proj2 (SU x I)). split; [reflexivity|]. cbn [rotate_surface sf_ext] in J. apply in_map_iff in J as (w & <- & J). exists x, w. auto.
      - left. rewrite (BU x I). reflexivity. }
    assert (CN : forall u, shortens t (rotate_geo a g) y zn u -> u = - uc y \/ (u = - us false /\ exists b, In b (cg_bars g) /\ zn = height a (br_y b, br_z b))).
    { intros u [(s & v & I & J & E & ->) | (b & I & E & ->)]; cbn [rotate_geo cg_surf cg_bars] in I; apply in_map_iff in I as (x & <- & I); cbn [rotate_surface rotate_bar sf_law br_law] in *; rewrite RC.
      - left. destruct (SU x I) as (-> & E2). rewrite andb_true_r, E2. reflexivity.
      - right. rewrite (BU x I). split; [reflexivity|]. exists x. auto. }
    apply TN in AP. apply CN in AN. destruct p as [[e ky] kz]. unfold strain_at, p_e0, p_ky, p_kz in *. cbn [fst snd] in *. subst kz.
    assert (DN : ky < 0).
    { assert (0 < e + ky * zp) by (destruct AP as [->|(-> & _)]; lra). assert (e + ky * zn < 0) by (destruct AN as [->|(-> & _)]; lra). nra. }
    assert (P1 : e + ky * zp = us y).
    { destruct AP as [->|(E & s & v & I & J & ->)]; [reflexivity|]. exfalso. specialize (DEEP s v I J). pose proof (HS b0 IB) as Q1. pose proof (HC s0 t0 IS IT) as Q2.
      set (zb := height a (br_y b0, br_z b0)) in *. set (zt := height a t0) in *. set (zv := height a v) in *.
      assert (W : U - us y <= - ky * (zb - zv)) by lra. assert (X : 0 < zb - zv) by nra. assert (V : - ky * (zt - zb) <= us y + uc y) by lra.
      destruct (Rle_lt_dec (zt - zb) 0); [nra|]. assert ((U - us y) * (zt - zb) <= - ky * (zb - zv) * (zt - zb)) by nra. nra. }
    split; [exact P1|]. split; [|exact Z]. destruct AN as [->|(E & b & I & ->)]; [reflexivity|]. exfalso.
    destruct (OUT b I) as (s & v & I2 & J & H). pose proof (HC s v I2 J). nra. }
  destruct (ONE _ _ A) as (E1 & E2 & Z1). destruct (ONE _ _ A') as (E3 & E4 & Z2). destruct p as [[e ky] kz]. unfold strain_at, p_e0, p_ky in *. cbn [fst snd] in *.
  assert (ky <> 0) by (intros ->; lra). split; apply Rmult_eq_reg_l with ky; lra.
Qed.
Print Assumptions C61_reinforced.
(** A square of concrete with a bar in the middle. *)
Example C61_reinforced_example : reinforced (35/10000) (5/100) 100
  {| cg_surf := [ {| sf_ext := rect (-1) 1 (-1) 1; sf_ints := []; sf_law := 0 |} ]; cg_bars := [ {| br_y := 0; br_z := 0; br_area := 1/10; br_law := 1 |} ] |}.
Proof.
  intros a. cbn [cg_surf cg_bars]. pose proof (sin2_cos2 a) as Q. unfold Rsqr in Q. unfold height.
  assert (B1 : -1 <= sin a <= 1) by apply SIN_bound. assert (B2 : -1 <= cos a <= 1) by apply COS_bound.
  assert (T : exists t, In t (rect (-1) 1 (-1) 1) /\ 1 <= sin a * fst t + cos a * snd t).
  { destruct (Rle_lt_dec 0 (sin a)), (Rle_lt_dec 0 (cos a)).
    - exists (1, 1). split; [cbn; tauto|]. cbn [fst snd]. nra.
    - exists (1, -1). split; [cbn; tauto|]. cbn [fst snd]. nra.
    - exists (-1, 1). split; [cbn; tauto|]. cbn [fst snd]. nra.
    - exists (-1, -1). split; [cbn; tauto|]. cbn [fst snd]. nra. }
  destruct T as (t & I & H). split.
  - eexists. eexists. exists t. split; [left; reflexivity|]. split; [left; reflexivity|]. split; [exact I|]. intros s' v [<-|[]] J. cbn [sf_ext br_y br_z fst snd] in *.
    assert (-2 <= sin a * fst v + cos a * snd v); [|lra]. unfold rect in J. cbn [In] in J. repeat (destruct J as [<-|J]; [cbn [fst snd]; lra|]). contradiction J.
  - intros b [<-|[]]. eexists. exists t. split; [left; reflexivity|]. split; [exact I|]. cbn [br_y br_z fst snd]. lra.
Qed.
