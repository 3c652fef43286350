(** Lemmas for C50: cutting the temporary section at the neutral axis. *)
From Coquelicot Require Import Coquelicot.
From Verif Require Import Base M_Marin S_Marin L_Marin M_Laws S_Laws L_Laws L_LawsC M_Laws2 S_Laws2 L_Laws2 M_Fiber S_Fiber L_Fiber P_Fiber M_MarinInt S_MarinInt L_MarinInt L_MarinInt2 L_MarinInt3 L_MarinInt4 M_Section S_Section L_Section L_Section2 M_Gross S_Gross L_Gross L_Gross2 M_Geo M_Cracked S_Cracked L_Cracked L_Cracked2 L_Cracked3.
From Coq Require Import Lra Lia Permutation.

(** * The horizontal cut *)
Lemma fold_min_le (f : R * R -> R) r : forall a, fold_left (fun m v => Rmin m (f v)) r a <= a.
Proof. induction r as [|p r IH]; intros a; cbn [fold_left]; [lra|]. specialize (IH (Rmin a (f p))). pose proof (Rmin_l a (f p)). lra. Qed.
Lemma fold_max_ge (f : R * R -> R) r : forall a, a <= fold_left (fun m v => Rmax m (f v)) r a.
Proof. induction r as [|p r IH]; intros a; cbn [fold_left]; [lra|]. specialize (IH (Rmax a (f p))). pose proof (Rmax_l a (f p)). lra. Qed.
Lemma fold_min_max f r : fold_min f r <= fold_max f r.
Proof. destruct r as [|p r]; cbn; [lra|]. pose proof (fold_min_le f r (f p)). pose proof (fold_max_ge f r (f p)). lra. Qed.
Lemma level_line p c : exists y1 y2, y1 < y2 /\ line_point_angle (0, c) 0 (bounds p) = ((y1, c), (y2, c)).
Proof.
  exists (fold_min fst (pl_ext p) - /1000), (fold_max fst (pl_ext p) + /1000). split; [pose proof (fold_min_max fst (pl_ext p)); lra|].
  unfold line_point_angle, bounds. rewrite cos_0, sin_0, Rabs_R1. destruct (Rltb_spec (/ 10 ^ 8) 1) as [_|N]; [|exfalso; apply N; cbn [pow]; lra].
  cbn [fst snd]. f_equal; f_equal; field.
Qed.
Lemma split_filter {A} y1 y2 c (l : list A) cent : y1 < y2 -> forall a b,
  fst (fold_left (fun (acc : list A * list A) g =>
    if is_ccw3 (y1, c) (y2, c) (cent g) then (fst acc ++ [g], snd acc) else (fst acc, snd acc ++ [g])) l (a, b))
  = a ++ filter (fun g => Rltb c (snd (cent g))) l.
Proof.
  intros L. induction l as [|g l IH]; intros a b; cbn [fold_left filter]; [now rewrite app_nil_r|].
  assert (Q : is_ccw3 (y1, c) (y2, c) (cent g) = Rltb c (snd (cent g))).
  { unfold is_ccw3. cbn [fst snd]. destruct (Rltb_spec 0 ((y2 - y1) * (snd (cent g) - c) - (fst (cent g) - y1) * (c - c))) as [P|P],
      (Rltb_spec c (snd (cent g))) as [P'|P']; try reflexivity; exfalso; nra. }
  rewrite Q. destruct (Rltb c (snd (cent g))); rewrite IH; cbn [fst snd].
  - now rewrite <- app_assoc.
  - reflexivity.
Qed.
Lemma filter_perm {A} (f : A -> bool) l l' : Permutation l l' -> Permutation (filter f l) (filter f l').
Proof.
  induction 1; cbn [filter]; auto.
  - destruct (f x); auto.
  - destruct (f x), (f y); auto. apply perm_swap.
  - eapply perm_trans; eassumption.
Qed.
Lemma filter_all {A} (f : A -> bool) l : (forall x, In x l -> f x = true) -> filter f l = l.
Proof. induction l as [|x l IH]; intros H; [reflexivity|]. cbn [filter]. rewrite (H x (or_introl eq_refl)). f_equal. apply IH. intros; apply H; now right. Qed.
Lemma filter_none {A} (f : A -> bool) l : (forall x, In x l -> f x = false) -> filter f l = [].
Proof. induction l as [|x l IH]; intros H; [reflexivity|]. cbn [filter]. rewrite (H x (or_introl eq_refl)). apply IH. intros; apply H; now right. Qed.

Definition poly_of (s : surface) : polygon := {| pl_ext := sf_ext s; pl_ints := sf_ints s |}.
Lemma upper_spec cutter centroid c s : cuts_at cutter centroid (poly_of s) c ->
  (forall q, In q (upper_part cutter centroid c s) -> okay q /\ solid q /\ sf_law q = sf_law s) /\
  forall k0 k1 k2 k3 k4 k5, let phi y z := k0 + k1 * y + k2 * z + k3 * y ^ 2 + k4 * y * z + k5 * z ^ 2 in
    lsum (map (surface_integral phi) (upper_part cutter centroid c s)) = part_above c phi s.
Proof.
  intros CA. destruct (level_line (poly_of s) c) as (y1 & y2 & L & LE). destruct (CA y1 y2 L) as (up & down & PE & HU & HD & HI).
  assert (UP : Permutation (upper_part cutter centroid c s) (map (fun q => {| sf_ext := pl_ext q; sf_ints := pl_ints q; sf_law := sf_law s |}) up)).
  { unfold upper_part. fold (poly_of s). rewrite LE. apply Permutation_map. unfold split_pieces. cbn [fst snd]. rewrite (split_filter y1 y2 c _ centroid L). cbn [app].
    apply (filter_perm (fun g => Rltb c (snd (centroid g)))) in PE. rewrite filter_app in PE.
    rewrite (filter_all _ up), (filter_none _ down), app_nil_r in PE; [exact PE| |].
    - intros q I. specialize (HD q I). destruct (Rltb_spec c (snd (centroid q))); [lra|reflexivity].
    - intros q I. destruct (HU q I) as [H _]. destruct (Rltb_spec c (snd (centroid q))); [reflexivity|lra]. }
  split.
  - intros q I. apply (Permutation_in _ UP) in I. apply in_map_iff in I. destruct I as (p & <- & I). destruct (HU p I) as (_ & S1 & C1 & C2).
    split; [split; assumption|]. split; [exact S1|reflexivity].
  - intros k0 k1 k2 k3 k4 k5 phi. rewrite (lsum_perm _ _ (Permutation_map _ UP)), map_map. exact (HI k0 k1 k2 k3 k4 k5).
Qed.
