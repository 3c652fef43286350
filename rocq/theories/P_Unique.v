(** C64: forces and strain profiles determine each other. *)
From Coquelicot Require Import Coquelicot.
From Coq Require Import FunctionalExtensionality Lra Lia.
From Verif Require Import Base M_Marin S_Marin L_Marin M_Laws S_Laws M_Laws2 S_Laws2 M_Fiber S_Fiber L_Fiber P_Fiber M_MarinInt L_MarinInt3 P_MarinInt M_Section S_Section M_Gross S_Gross L_Gross L_Cracked3 S_MarinInt S_Exact L_Exact P_Exact S_Frame P_Frame S_Mesh L_Mesh2 S_Curved S_Unique L_Refine L_Unique.

(** * Both integrators: the work of the difference of the forces is bounded by the slopes of the curves *)
Theorem C64_fiber_work : forall laws mesher g p q ms (m L lo hi : nat -> R),
  let mesh := fun s => mesher s (surface_area s * ms) in
  (forall k, batched (laws k)) -> 0 < ms <= 1 -> cg_surf g <> [] \/ cg_bars g <> [] -> (forall b, In b (cg_bars g) -> 0 <= br_area b) ->
  (forall k, in_use g k -> rises (m k) (L k) (lo k) (hi k) (lw_stress (laws k))) ->
  centroids_kept mesh g p lo hi -> centroids_kept mesh g q lo hi -> bars_kept g p lo hi -> bars_kept g q lo hi ->
  exists F G d d', fiber_forces laws mesher g p None (Some ms) = Ok (F, d) /\ fiber_forces laws mesher g q None (Some ms) = Ok (G, d') /\
    lumped m mesh (apart p q) g <= work p q F G <= lumped L mesh (apart p q) g.
Proof.
  intros laws mesher g p q ms m L lo hi mesh B MS NE A RI CP CQ BP BQ.
  destruct p as [[e ky] kz] eqn:Ep, q as [[e' ky'] kz'] eqn:Eq.
  destruct (C19_forces laws mesher g e ky kz ms B MS NE) as (d & E1 & _). destruct (C19_forces laws mesher g e' ky' kz' ms B MS NE) as (d' & E2 & _).
  eexists _, _, d, d'. split; [exact E1|]. split; [exact E2|].
  fold mesh.
  pose proof (fibre_work (section_fibres laws mesh g) (e, ky, kz) (e', ky', kz')) as W. unfold resultants in W. cbn [fst snd] in W. rewrite W.
  apply (section_work laws mesh g (e, ky, kz) (e', ky', kz') m L lo hi); try assumption.
  - intros s I. apply RI. left. exists s. tauto.
  - intros b I. split; [exact (A b I)|]. apply RI. right. exists b. tauto.
Qed.
Print Assumptions C64_fiber_work.

Lemma rises_lip f m L lo hi : rises m L lo hi f -> forall e e', lo <= e <= hi -> lo <= e' <= hi -> Rabs (f e - f e') <= (Rabs m + Rabs L) * Rabs (e - e').
Proof.
  intros H e e' He He'. assert (G : forall x y, lo <= x -> x <= y -> y <= hi -> Rabs (f y - f x) <= (Rabs m + Rabs L) * (y - x)).
  { intros x y X O Yy. destruct (H x y X O Yy) as (H1 & H2). pose proof (Rle_abs L). pose proof (Rle_abs (- m)) as Hm. rewrite Rabs_Ropp in Hm. pose proof (Rabs_pos m). pose proof (Rabs_pos L).
    assert (0 <= y - x) by lra.
    assert (L * (y - x) <= Rabs L * (y - x)) by (apply Rmult_le_compat_r; lra). assert (- m * (y - x) <= Rabs m * (y - x)) by (apply Rmult_le_compat_r; lra).
    assert (0 <= Rabs L * (y - x)) by (apply Rmult_le_pos; lra). assert (0 <= Rabs m * (y - x)) by (apply Rmult_le_pos; lra).
    apply Rabs_le. lra. }
  destruct (Rle_dec e e').
  - rewrite (Rabs_minus_sym (f e)), (Rabs_minus_sym e), (Rabs_pos_eq (e' - e)) by lra. apply G; lra.
  - rewrite (Rabs_pos_eq (e - e')) by lra. apply G; lra.
Qed.
Lemma surfaces_work fs mesh g p q (m L lo hi : nat -> R) Y Z : rings_closed g ->
  (forall s, In s (cg_surf g) -> regular (fs (sf_law s)) p /\ regular (fs (sf_law s)) q) ->
  kept_in mesh g p lo hi Y Z -> kept_in mesh g q lo hi Y Z ->
  (forall s, In s (cg_surf g) -> rises (m (sf_law s)) (L (sf_law s)) (lo (sf_law s)) (hi (sf_law s)) (fs (sf_law s))) ->
  weighted m (apart p q) (bare g) <= work p q (surface_forces fs g p) (surface_forces fs g q) <= weighted L (apart p q) (bare g).
Proof.
  intros CL RE KP KQ RI.
  destruct (work_limit fs mesh g p q (fun k => Rabs (m k) + Rabs (L k)) lo hi Y Z CL RE KP KQ) as (C & C0 & HC).
  { intros s I. split; [pose proof (Rabs_pos (m (sf_law s))); pose proof (Rabs_pos (L (sf_law s))); lra|]. apply rises_lip, RI, I. }
  destruct (spread_limit m mesh g p q lo hi Y Z CL KP) as (D & D0 & HD). destruct (spread_limit L mesh g p q lo hi Y Z CL KP) as (U & U0 & HU).
  assert (SW : forall n, lumped m (fine mesh n) (apart p q) (bare g) <= lsum (map (works p q) (section_fibres (fun k => curve_law (fs k)) (fine mesh n) (bare g))) <= lumped L (fine mesh n) (apart p q) (bare g)).
  { intros n. apply (section_work _ _ _ _ _ m L lo hi).
    - exact RI.
    - intros b [].
    - exact (centroids_fine mesh g p lo hi Y Z KP n).
    - exact (centroids_fine mesh g q lo hi Y Z KQ n).
    - intros b [].
    - intros b []. }
  split.
  - apply (small_enough _ _ (C + D)); [lra|]. intros n. specialize (HC n). specialize (HD n). destruct (SW n) as (S1 & _).
    apply Rabs_le_between in HC, HD. unfold Rdiv in *. lra.
  - apply (small_enough _ _ (C + U)); [lra|]. intros n. specialize (HC n). specialize (HU n). destruct (SW n) as (_ & S2).
    apply Rabs_le_between in HC, HU. unfold Rdiv in *. lra.
Qed.
Lemma area_parts fs laws g p : area_forces fs laws g p =
  (fst (fst (surface_forces fs g p)) + fst (fst (resultants (bar_fibres laws g) p)), snd (fst (surface_forces fs g p)) + snd (fst (resultants (bar_fibres laws g) p)), snd (surface_forces fs g p) + snd (resultants (bar_fibres laws g) p)).
Proof. destruct p as [[e ky] kz]. reflexivity. Qed.
Theorem C64_marin_work : forall laws fs mesh g p q (m L lo hi : nat -> R) Y Z,
  (forall k, batched (laws k)) -> drawn g -> (forall b, In b (cg_bars g) -> 0 <= br_area b) ->
  (forall s, In s (cg_surf g) -> rises (m (sf_law s)) (L (sf_law s)) (lo (sf_law s)) (hi (sf_law s)) (fs (sf_law s))) ->
  (forall b, In b (cg_bars g) -> rises (m (br_law b)) (L (br_law b)) (lo (br_law b)) (hi (br_law b)) (lw_stress (laws (br_law b)))) ->
  (forall r, r = p \/ r = q -> kept_in mesh g r lo hi Y Z /\ bars_kept g r lo hi /\
     forall s, In s (cg_surf g) -> field_of (lw_marin (laws (sf_law s)) (fst (fst r), sqrt (snd r ^ 2 + snd (fst r) ^ 2))) (fs (sf_law s)) (fst (fst r)) (sqrt (snd r ^ 2 + snd (fst r) ^ 2))) ->
  exists F G d d', marin_forces laws g p None = Ok (F, d) /\ marin_forces laws g q None = Ok (G, d') /\
    weighted m (apart p q) g <= work p q F G <= weighted L (apart p q) g.
Proof.
  intros laws fs mesh g p q m L lo hi Y Z B DR A RS RB H. destruct DR as (CL & BC).
  destruct (H p ltac:(auto)) as (KP & BP & FP). destruct (H q ltac:(auto)) as (KQ & BQ & FQ).
  assert (MF : forall r, r = p \/ r = q -> exists d, marin_forces laws g r None = Ok (area_forces fs laws g r, d)).
  { intros r HR. destruct (H r HR) as (_ & _ & FR). destruct r as [[e ky] kz]. cbn [fst snd] in FR. apply (C21_forces_area laws fs g e ky kz B); [|exact BC].
    intros s I. destruct (CL s I) as (C1 & C2). split; [exact C1|]. split; [exact C2|]. exact (FR s I). }
  destruct (MF p ltac:(auto)) as (d & E1). destruct (MF q ltac:(auto)) as (d' & E2).
  eexists _, _, d, d'. split; [exact E1|]. split; [exact E2|]. rewrite !area_parts.
  assert (RE : forall s, In s (cg_surf g) -> regular (fs (sf_law s)) p /\ regular (fs (sf_law s)) q).
  { intros s I. destruct (CL s I) as (C1 & C2). split; [apply (field_regular _ _ s p (FP s I) C1 C2)|apply (field_regular _ _ s q (FQ s I) C1 C2)]. }
  pose proof (surfaces_work fs mesh g p q m L lo hi Y Z CL RE KP KQ RS) as WS.
  pose proof (fibre_work (bar_fibres laws g) p q) as WB.
  assert (BB : lsum (map (fun b => m (br_law b) * (br_area b * apart p q (br_y b) (br_z b))) (cg_bars g)) <= lsum (map (works p q) (bar_fibres laws g))
    <= lsum (map (fun b => L (br_law b) * (br_area b * apart p q (br_y b) (br_z b))) (cg_bars g))).
  { unfold bar_fibres. rewrite map_map. unfold works, apart. cbn [mfibre_at m_sigma m_a m_y m_z].
    split; apply lsum_le; intros b I; apply (rises_works _ _ _ _ _ _ _ _ (RB b I) (A b I) (BP b I) (BQ b I)). }
  set (Sp := surface_forces fs g p) in *. set (Sq := surface_forces fs g q) in *. set (Rp := resultants (bar_fibres laws g) p) in *. set (Rq := resultants (bar_fibres laws g) q) in *.
  replace (work p q _ _) with (work p q Sp Sq + work p q Rp Rq) by (unfold work; cbn [fst snd]; ring). rewrite WB.
  unfold weighted in WS |- *. cbn [bare cg_surf cg_bars map] in WS. rewrite lsum_nil in WS. lra.
Qed.
Print Assumptions C64_marin_work.
