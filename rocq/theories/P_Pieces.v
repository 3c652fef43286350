(** C59: a section assembled from pieces gives the same result in every analysis. *)
From Coq Require Import Permutation FunctionalExtensionality Lra Lia.
From Verif Require Import Base M_Marin S_Marin M_Laws S_Laws L_LawsC M_Laws2 M_Fiber M_MarinInt S_MarinInt S_Mesh M_Section S_Section L_Section4 L_Cracked7 M_Domain S_History P_Exact P_Turn P_Move S_Exact S_Turn S_Move L_Move4 S_Pieces L_Pieces L_Pieces2 L_Pieces3 L_Pieces4.

(** Marin integrator: whatever the state of the calculator, the reply (also the error)
    and the state after it are the same for both sections. *)
Theorem C59_marin : forall laws fs ts t ms g g', assembled g g' -> closed_rings g -> closed_rings g' ->
  follows laws fs g -> follows_tangent laws ts g -> steady laws g -> repeats laws g -> two_sided t g ->
  forall o s, run (marin_integ laws) t ms g' o s = run (marin_integ laws) t ms g o s.
Proof.
  intros laws fs ts t ms g g' A C C' FO FT ST RP TS o s.
  assert (RO : forall a, assembled (rotate_geo a g) (rotate_geo a g') /\ closed_rings (rotate_geo a g) /\ closed_rings (rotate_geo a g') /\
    follows laws fs (rotate_geo a g) /\ steady laws (rotate_geo a g) /\ repeats laws (rotate_geo a g)).
  { intros a.
    assert (CR : forall k, closed_rings k -> closed_rings (rotate_geo a k)).
    { intros k H x I. cbn [rotate_geo cg_surf] in I. apply in_map_iff in I. destruct I as (x0 & <- & I). destruct (H x0 I) as (P & Q). split; [exact (closed_rot a _ P)|].
      cbn [rotate_surface sf_ints]. intros q J. apply in_map_iff in J. destruct J as (q0 & <- & J). exact (closed_rot a _ (Q q0 J)). }
    split; [exact (assembled_rot a g g' A)|]. split; [exact (CR g C)|]. split; [exact (CR g' C')|].
    split; [|split]; [intros x e r I P|intros x e I|intros x e I]; cbn [rotate_geo cg_surf] in I; apply in_map_iff in I; destruct I as (x0 & <- & I).
    - exact (FO x0 e r I P).
    - exact (ST x0 e I).
    - exact (RP x0 e I). }
  rewrite (same_run (marin_integ laws) t ms g g'); [reflexivity|..].
  - intros p d m. exact (pieces_forces laws fs g g' A ST RP C C' p d (fun x e r I P => FO x e r I P)).
  - intros a p d m. destruct (RO a) as (A1 & C1 & C2 & F1 & S1 & R1). exact (pieces_forces laws fs _ _ A1 S1 R1 C1 C2 p d (fun x e r I P => F1 x e r I P)).
  - intros p d m. exact (pieces_stiffness laws ts g g' A ST RP C C' p d (fun x e r I P => FT x e r I P)).
  - intros y. exact (balanced_pieces t g g' y A TS).
  - intros a y. exact (balanced_pieces t _ _ y (proj1 (RO a)) (two_rot t a g TS)).
  - intros a. exact (min_y_pieces _ _ (proj1 (RO a))).
Qed.
Print Assumptions C59_marin.
(** Hence the same histories. *)
Theorem C59_histories : forall laws fs ts t ms g g', assembled g g' -> closed_rings g -> closed_rings g' ->
  follows laws fs g -> follows_tangent laws ts g -> steady laws g -> repeats laws g -> two_sided t g ->
  forall ops s, history (marin_integ laws) t ms g' ops s <-> history (marin_integ laws) t ms g ops s.
Proof.
  intros laws fs ts t ms g g' A C C' FO FT ST RP TS ops s. pose proof (C59_marin laws fs ts t ms g g' A C C' FO FT ST RP TS) as E.
  split; intros H; (induction H; [constructor|eapply h_next; [eassumption|]|eapply h_raised; [eassumption| |eassumption]]).
  1, 2: rewrite <- E; eassumption. all: rewrite E; eassumption.
Qed.
Print Assumptions C59_histories.
(** The laws that write back the strain of a uniform request. *)
Theorem C59_laws_repeat : forall e,
  (forall l, let w := elastic_law l in lw_marin w (fst (lw_marin w (e, 0)), 0) = lw_marin w (e, 0) /\ lw_marin_tangent w (fst (lw_marin_tangent w (e, 0)), 0) = lw_marin_tangent w (e, 0)) /\
  (forall l, far (snd (ep_ult l)) (fst (ep_ult l)) -> let w := ep_law l in lw_marin w (fst (lw_marin w (e, 0)), 0) = lw_marin w (e, 0) /\ lw_marin_tangent w (fst (lw_marin_tangent w (e, 0)), 0) = lw_marin_tangent w (e, 0)) /\
  (forall l, far (snd (pr_ult l)) (fst (pr_ult l)) -> let w := pr_law l in lw_marin w (fst (lw_marin w (e, 0)), 0) = lw_marin w (e, 0) /\ lw_marin_tangent w (fst (lw_marin_tangent w (e, 0)), 0) = lw_marin_tangent w (e, 0)) /\
  (forall l, far (snd (ud_ult l)) (fst (ud_ult l)) -> let w := ud_law l in lw_marin w (fst (lw_marin w (e, 0)), 0) = lw_marin w (e, 0) /\ lw_marin_tangent w (fst (lw_marin_tangent w (e, 0)), 0) = lw_marin_tangent w (e, 0)).
Proof.
  intros e. assert (Z : Reqb 0 0 = true) by (apply Reqb_true; reflexivity).
  split; [|split; [|split]]; cbn [lw_marin lw_marin_tangent elastic_law ep_law pr_law ud_law]; intros l; [|intros S..]; split.
  - reflexivity.
  - reflexivity.
  - unfold ep_marin. destruct (ep_yield l), (ep_ult l) as [a b]. rewrite Z. cbv zeta. cbn [fst]. rewrite (prep_idem (a, b)) by exact S. reflexivity.
  - unfold ep_marin_tangent. destruct (ep_yield l), (ep_ult l) as [a b]. rewrite Z. cbv zeta. cbn [fst]. rewrite (prep_idem (a, b)) by exact S. reflexivity.
  - unfold pr_marin2. rewrite Z. cbv zeta. cbn [fst]. rewrite prep_idem by exact S. reflexivity.
  - unfold pr_marin_tangent2. rewrite Z. cbv zeta. cbn [fst]. rewrite prep_idem by exact S. reflexivity.
  - unfold ud_marin. rewrite Z. cbv zeta. cbn [fst]. rewrite prep_idem by exact S. reflexivity.
  - unfold ud_marin_tangent. rewrite Z. cbv zeta. cbn [fst]. rewrite prep_idem by exact S. reflexivity.
Qed.
Print Assumptions C59_laws_repeat.

(** * The hypotheses are met *)
(** The plate of C54, cut into two halves. *)
Definition plate_cut : compound :=
  {| cg_surf := [ {| sf_ext := rect (- / 2) (/ 2) (-1) 0; sf_ints := []; sf_law := 0 |}; {| sf_ext := rect (- / 2) (/ 2) 0 1; sf_ints := []; sf_law := 0 |} ]; cg_bars := [] |}.
Lemma rect_ccw y z0 z1 : 0 < y -> z0 < z1 -> ccw_ring (rect (- y) y z0 z1) = rect (- y) y z0 z1.
Proof.
  intros Y Z. unfold ccw_ring. destruct (Rlt_dec _ 0) as [N|_]; [|reflexivity]. exfalso. revert N.
  assert (X : shoelace (rect (- y) y z0 z1) = 2 * y * (z1 - z0)) by (unfold shoelace, rect, lsum, cross; cbn; field). rewrite X.
  assert (0 < 2 * y * (z1 - z0)) by (apply Rmult_lt_0_compat; lra). lra.
Qed.
Lemma plate_assembled : assembled plate plate_cut.
Proof.
  exists [cg_surf plate_cut]. split; [|split; reflexivity]. constructor; [|constructor]. 
  assert (M : ((/ 2, 0) : R * R) = seg (/ 2, -1) (/ 2, 1) (/ 2)) by (unfold seg; cbn [fst snd]; f_equal; field).
  assert (L : ((- / 2, 0) : R * R) = seg (- / 2, 1) (- / 2, -1) (/ 2)) by (unfold seg; cbn [fst snd]; f_equal; field).
  assert (HM : in_hull (rect (- / 2) (/ 2) (-1) 1) (/ 2, 0)) by (rewrite M; apply hull_between; [lra|apply hull_vertex; cbn; tauto..]).
  assert (HL : in_hull (rect (- / 2) (/ 2) (-1) 1) (- / 2, 0)) by (rewrite L; apply hull_between; [lra|apply hull_vertex; cbn; tauto..]).
  split; [|split; [|split]].
  - intros p I. destruct I as [<-|[<-|[]]]; (split; [reflexivity|]; split; [discriminate|]); cbn [sf_ext]; intros v J; unfold rect in J; cbn [In] in J;
      repeat (destruct J as [<-|J]; [first [exact HM|exact HL|apply hull_vertex; cbn; tauto]|]); contradiction J.
  - cbn [sf_ext]. intros v J. unfold rect in J. cbn [In] in J. cbn [plate_cut cg_surf].
    repeat (destruct J as [<-|J]; [first [eexists; split; [left; reflexivity|cbn; tauto]|eexists; split; [right; left; reflexivity|cbn; tauto]]|]). contradiction J.
  - discriminate.
  - unfold surface_edges. cbn [plate_cut cg_surf flat_map sf_ext sf_ints app]. rewrite !rect_ccw by lra. cbn [rect edges app].
    set (A := (- / 2, -1)). set (B := (/ 2, -1)). set (C := (/ 2, 1)). set (D := (- / 2, 1)). fold B C in M. fold D A in L. 
    set (m := (/ 2, 0)) in *. set (l := (- / 2, 0)) in *.
    eapply sb_trans; [apply (sb_perm _ ((m, l) :: (l, m) :: (A, B) :: (B, m) :: (l, A) :: (m, C) :: (C, D) :: (D, l) :: []))|].
    { apply Permutation_sym. change [(A, B); (B, m); (m, l); (l, A); (l, m); (m, C); (C, D); (D, l)] with ([(A, B); (B, m)] ++ (m, l) :: [(l, A); (l, m); (m, C); (C, D); (D, l)]).
      apply Permutation_cons_app. change ([(A, B); (B, m)] ++ [(l, A); (l, m); (m, C); (C, D); (D, l)]) with ([(A, B); (B, m); (l, A)] ++ (l, m) :: [(m, C); (C, D); (D, l)]).
      apply Permutation_cons_app. apply Permutation_refl. }
    eapply sb_trans; [apply sb_cancel|].
    eapply sb_trans; [apply (sb_perm _ ((B, m) :: (m, C) :: (A, B) :: (l, A) :: (C, D) :: (D, l) :: []))|].
    { apply Permutation_sym. change [(A, B); (B, m); (l, A); (m, C); (C, D); (D, l)] with ([(A, B)] ++ (B, m) :: [(l, A); (m, C); (C, D); (D, l)]).
      apply Permutation_cons_app. change ([(A, B)] ++ [(l, A); (m, C); (C, D); (D, l)]) with ([(A, B); (l, A)] ++ (m, C) :: [(C, D); (D, l)]).
      apply Permutation_cons_app. apply Permutation_refl. }
    eapply sb_trans; [rewrite M; apply sb_join; lra|].
    eapply sb_trans; [apply (sb_perm _ ((D, l) :: (l, A) :: (B, C) :: (A, B) :: (C, D) :: []))|].
    { apply Permutation_sym. change [(B, C); (A, B); (l, A); (C, D); (D, l)] with ([(B, C); (A, B); (l, A); (C, D)] ++ (D, l) :: []).
      apply Permutation_cons_app. change ([(B, C); (A, B); (l, A); (C, D)] ++ []) with ([(B, C); (A, B)] ++ (l, A) :: [(C, D)]).
      apply Permutation_cons_app. apply Permutation_refl. }
    eapply sb_trans; [rewrite L; apply sb_join; lra|].
    apply sb_perm. change [(A, B); (B, C); (C, D); (D, A)] with ([(A, B); (B, C); (C, D)] ++ (D, A) :: []). apply Permutation_cons_app. 
    cbn [app]. eapply perm_trans; [apply perm_swap|]. apply Permutation_refl.
Qed.
Lemma cut_closed : closed_rings plate /\ closed_rings plate_cut.
Proof. split; intros s I; [destruct I as [<-|[]]|destruct I as [<-|[<-|[]]]]; (split; [reflexivity|intros q []]). Qed.
Lemma stiff_repeats : repeats (stiff_laws 1000) plate.
Proof. intros s e _. destruct (C59_laws_repeat e) as (H & _). apply H. Qed.
Lemma plate_two_sided : two_sided (sym_traits (1/1000)) plate.
Proof. intros k y _. cbn [sym_traits tr_ult fst snd]. lra. Qed.
Example C59_example : let ig := marin_integ (stiff_laws 1000) in let t := sym_traits (1/1000) in
  (exists s, limits ig t (1/10) plate_cut st_init = (Ok (-2, 2), s)) /\
  exists r s, bending_strength ig t (1/10) plate_cut 0 ((2 - 2 / 10 ^ 10) / 3) st_init = (Ok r, s) /\ balances ((2 - 2 / 10 ^ 10) / 3) (rs_n r).
Proof.
  intros ig t. pose proof (C59_marin (stiff_laws 1000) hooke (fun _ _ => 1000) t (1/10) plate plate_cut plate_assembled (proj1 cut_closed) (proj2 cut_closed)
    plate_follows plate_follows_tangent plate_steady stiff_repeats plate_two_sided) as E.
  split.
  - destruct plate_limits as (s1 & L). exists s1. fold ig t in L. pose proof (E OLimits st_init) as X. cbn [run] in X. unfold amap in X. fold ig in X. rewrite L in X. cbn [fst snd rmap] in X.
    destruct (limits ig t (1 / 10) plate_cut st_init) as [[l|e] u]; cbn [fst snd rmap] in X; [|discriminate]. injection X as -> ->. reflexivity.
  - destruct C54_example as (r & s1 & c & L & B & _). fold ig t in L. exists r, s1. split; [|exact B]. set (n := (2 - 2 / 10 ^ 10) / 3) in *.
    pose proof (E (OStrength 0 n) st_init) as X. cbn [run] in X. unfold amap in X. fold ig in X. rewrite L in X. cbn [fst snd rmap] in X.
    destruct (bending_strength ig t (1 / 10) plate_cut 0 n st_init) as [[l|e] u]; cbn [fst snd rmap] in X; [|discriminate]. injection X as -> ->. reflexivity.
Qed.
