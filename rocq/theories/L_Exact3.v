(** Monotonicity of the exact axial force (C54). *)
From Coquelicot Require Import Coquelicot.
From Coq Require Import FunctionalExtensionality Lra.
From Verif Require Import Base M_Marin S_Marin L_Marin M_Laws S_Laws L_Laws M_Laws2 S_Laws2 L_LawsC M_Fiber S_Fiber L_Fiber M_MarinInt S_MarinInt L_MarinInt L_MarinInt2 L_MarinInt3 L_MarinInt4
  M_Section S_Section L_Section L_Section2 M_Gross M_Geo M_Cracked S_Cracked L_Gross L_Cracked L_Cracked5 S_Exact L_Exact.

Lemma turned_strain (f : R -> R) theta e c s :
  surface_integral (fun y z => f (plane_strain e (cos theta * c) (sin theta * c) (back_y (- theta) y z) (back_z (- theta) y z)) * 1) (turned (- theta) s) =
  surface_integral (fun _ z => f (e + c * z)) (turned (- theta) s).
Proof.
  f_equal. apply functional_extensionality. intros y. apply functional_extensionality. intros z. rewrite Rmult_1_r. f_equal.
  unfold plane_strain, back_y, back_z. rewrite cos_neg, sin_neg. pose proof (cs2 theta) as T.
  transitivity (e + c * ((sin theta * sin theta + cos theta * cos theta) * z)); [ring|rewrite T; ring].
Qed.
Lemma shifted_continuous f e c z : (forall x, continuity_pt f x) -> continuity_pt (fun z => f (e + c * z)) z.
Proof. intros C. apply (continuity_pt_comp (fun z => e + c * z) f); [apply derivable_continuous_pt; reg|apply C]. Qed.
Lemma solid_mono f g s : solid s -> (forall z, continuity_pt f z) -> (forall z, continuity_pt g z) -> (forall z, f z <= g z) ->
  surface_integral (fun _ z => f z) s <= surface_integral (fun _ z => g z) s.
Proof.
  intros SO CF CG LE. assert (H : 0 <= surface_integral (fun _ z => g z + (-1) * f z) s).
  { apply SO; [|intros z; specialize (LE z); lra]. intros z. apply continuity_pt_plus; [apply CG|]. apply continuity_pt_mult; [apply continuity_pt_const; intros ? ?; reflexivity|apply CF]. }
  rewrite !surface_field in *. assert (EF : eint f) by (apply eint_continuity, CF). assert (EG : eint g) by (apply eint_continuity, CG).
  rewrite (sfield_plus g (fun z => -1 * f z)) in H; [|exact EG|apply eint_continuity; intros z; apply continuity_pt_mult; [apply continuity_pt_const; intros ? ?; reflexivity|apply CF]].
  rewrite sfield_scal in H by exact EF. lra.
Qed.
Lemma gfield_strains (P : R -> Prop) F G ring : (forall x y t, 0 <= t <= 1 -> P x -> P y -> P ((1 - t) * x + t * y)) ->
  (forall v, In v ring -> P (snd v)) -> (forall z, P z -> F z = G z) -> gfield 0 F ring = gfield 0 G ring.
Proof.
  intros CV V E. unfold gfield. apply lsum_map_ext. intros [p q] I. apply edges_in in I. destruct I as [I J].
  unfold gedge. apply RInt_ext. intros t T. rewrite Rmin_left, Rmax_right in T by lra. unfold gfun. f_equal. f_equal. apply E. unfold seg. cbn [fst snd]. apply CV; [lra|apply V, I|apply V, J].
Qed.
Lemma sfield_strains (P : R -> Prop) F G s : (forall x y t, 0 <= t <= 1 -> P x -> P y -> P ((1 - t) * x + t * y)) ->
  (forall v, In v (sf_ext s) \/ (exists q, In q (sf_ints s) /\ In v q) -> P (snd v)) -> (forall z, P z -> F z = G z) -> sfield F s = sfield G s.
Proof.
  intros CV V E. unfold sfield. f_equal.
  - apply (gfield_strains P); [exact CV| |exact E]. intros v I. apply V. left. now apply ccw_in.
  - apply lsum_map_ext. intros r I. apply (gfield_strains P); [exact CV| |exact E]. intros v J. apply V. right. exists r. split; [exact I|now apply cw_in].
Qed.
(** Strains limited to a range. *)
Definition clamp (lo hi x : R) : R := let m := (hi + x - Rabs (hi - x)) / 2 in (lo + m + Rabs (lo - m)) / 2.
Lemma clamp_in lo hi x : lo <= x <= hi -> clamp lo hi x = x.
Proof. intros H. unfold clamp. cbv zeta. rewrite (Rabs_pos_eq (hi - x)) by lra. replace ((hi + x - (hi - x)) / 2) with x by field. rewrite (Rabs_left1 (lo - x)) by lra. field. Qed.
Lemma clamp_range lo hi x : lo <= hi -> lo <= clamp lo hi x <= hi.
Proof. intros H. unfold clamp. cbv zeta. unfold Rabs. repeat destruct (Rcase_abs _); lra. Qed.
Lemma clamp_continuous lo hi x : continuity_pt (clamp lo hi) x.
Proof. unfold clamp. cbv zeta. reg. Qed.
(** The axial force of one surface lies between those under uniform strain. *)
Lemma surface_between (f : R -> R) theta e c lo hi s : okay s -> solid (turned (- theta) s) -> (forall x y, x <= y -> f x <= f y) -> (forall x, continuity_pt f x) -> lo <= hi ->
  (forall v, In v (sf_ext s) \/ (exists q, In q (sf_ints s) /\ In v q) -> lo <= plane_strain e (cos theta * c) (sin theta * c) (fst v) (snd v) <= hi) ->
  surface_integral (fun _ _ => f lo) s <= surface_integral (fun _ z => f (e + c * z)) (turned (- theta) s) <= surface_integral (fun _ _ => f hi) s.
Proof.
  intros O SO MO CF LH V.
  assert (TI : forall k, surface_integral (fun _ _ => k) s = surface_integral (fun _ _ => k) (turned (- theta) s)).
  { intros k. rewrite (turned_integral (- theta) (fun _ _ => k) k 0 0 0 0 0) by (exact O || (intros; ring)). reflexivity. }
  rewrite !TI.
  assert (EQ : surface_integral (fun _ z => f (e + c * z)) (turned (- theta) s) = surface_integral (fun _ z => f (clamp lo hi (e + c * z))) (turned (- theta) s)).
  { rewrite !surface_field. apply (sfield_strains (fun z => lo <= e + c * z <= hi)).
    - intros x y t T X Y. replace (e + c * ((1 - t) * x + t * y)) with ((1 - t) * (e + c * x) + t * (e + c * y)) by ring. nra.
    - assert (VV : forall v, In v (sf_ext s) \/ (exists q, In q (sf_ints s) /\ In v q) -> lo <= e + c * snd (turn (- theta) v) <= hi).
      { intros v HV. specialize (V v HV). unfold plane_strain in V. unfold turn. cbn [snd]. rewrite cos_neg, sin_neg. lra. }
      intros v [HV|(q & HQ & HV)]; cbn [turned sf_ext sf_ints] in *.
      + apply in_map_iff in HV. destruct HV as (w & <- & HV). apply VV. now left.
      + apply in_map_iff in HQ. destruct HQ as (q' & <- & HQ). apply in_map_iff in HV. destruct HV as (w & <- & HV). apply VV. right. exists q'. split; assumption.
    - intros z Z. rewrite clamp_in by exact Z. reflexivity. }
  rewrite EQ.
  assert (CC : forall z, continuity_pt (fun z => f (clamp lo hi (e + c * z))) z).
  { intros z. apply (shifted_continuous (fun x => f (clamp lo hi x))). intros x. apply (continuity_pt_comp (clamp lo hi) f); [apply clamp_continuous|apply CF]. }
  assert (K : forall k z, continuity_pt (fun _ => k) z) by (intros k z; apply continuity_pt_const; intros ? ?; reflexivity).
  split; apply solid_mono; try assumption; try (apply K); intros z; apply MO; apply clamp_range; exact LH.
Qed.
