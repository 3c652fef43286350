(** Lemmas for C55: midpoint rule over a triangulated surface. *)
From Coquelicot Require Import Coquelicot.
From Coq Require Import FunctionalExtensionality Lra Lia Permutation.
From Verif Require Import Base M_Marin S_Marin L_Marin M_Laws S_Laws M_Laws2 S_Laws2 M_Fiber S_Fiber L_Fiber M_MarinInt S_MarinInt L_MarinInt L_MarinInt2 L_MarinInt4 L_Frame L_Frame2 L_Frame4 S_Mesh L_Mesh L_Mesh2.

Lemma in_tri_turn a t v : in_tri (tturn a t) v -> exists v0, in_tri t v0 /\ v = turn a v0.
Proof.
  intros (x & y & z & A & B & C & E & ->). exists (mix x y z t). split; [exists x, y, z; auto|].
  destruct t as [[p q] r]. unfold mix, tturn, turn. cbn [fst snd]. f_equal; ring.
Qed.
Lemma affine_in_tri t ca cb cc lo hi : (forall v, corner t v -> lo <= ca + cb * fst v + cc * snd v <= hi) ->
  forall v, in_tri t v -> lo <= ca + cb * fst v + cc * snd v <= hi.
Proof.
  intros H v (x & y & z & A & B & C & E & ->). destruct t as [[p q] r]. cbn [corner] in H. unfold mix. cbn [fst snd].
  pose proof (H p (or_introl eq_refl)) as HP. pose proof (H q (or_intror (or_introl eq_refl))) as HQ. pose proof (H r (or_intror (or_intror eq_refl))) as HR.
  replace (ca + cb * (x * fst p + y * fst q + z * fst r) + cc * (x * snd p + y * snd q + z * snd r)) with
    (x * (ca + cb * fst p + cc * snd p) + y * (ca + cb * fst q + cc * snd q) + z * (ca + cb * fst r + cc * snd r)).
  2:{ transitivity ((x + y + z) * ca + cb * (x * fst p + y * fst q + z * fst r) + cc * (x * snd p + y * snd q + z * snd r)); [ring|rewrite E; ring]. }
  set (u := ca + cb * fst p + cc * snd p) in *. set (w := ca + cb * fst q + cc * snd q) in *. set (s := ca + cb * fst r + cc * snd r) in *.
  assert (z = 1 - x - y) by lra. 
  pose proof (Rmult_le_compat_l x lo u A ltac:(lra)). pose proof (Rmult_le_compat_l y lo w B ltac:(lra)). pose proof (Rmult_le_compat_l z lo s C ltac:(lra)).
  pose proof (Rmult_le_compat_l x u hi A ltac:(lra)). pose proof (Rmult_le_compat_l y w hi B ltac:(lra)). pose proof (Rmult_le_compat_l z s hi C ltac:(lra)).
  assert (x * lo + y * lo + z * lo = lo) by (transitivity ((x + y + z) * lo); [ring|rewrite E; ring]).
  assert (x * hi + y * hi + z * hi = hi) by (transitivity ((x + y + z) * hi); [ring|rewrite E; ring]). lra.
Qed.
Lemma centre_in_tri t : in_tri t (tri_cy t, tri_cz t).
Proof. exists (1/3), (1/3), (1/3). repeat split; try lra. destruct t as [[p q] r]. unfold mix, tri_cy, tri_cz. f_equal; field. Qed.
Lemma near_centre h t v : tri_size h t -> in_tri t v -> Rabs (fst v - tri_cy t) <= h /\ Rabs (snd v - tri_cz t) <= h.
Proof.
  intros Hs V. destruct t as [[p q] r]. cbn [tri_size] in Hs. destruct Hs as (S1 & S2 & S3 & S4 & S5 & S6).
  apply Rabs_le_between in S1, S2, S3, S4, S5, S6.
  pose proof (affine_in_tri (p, q, r) 0 1 0 (tri_cy (p, q, r) - h) (tri_cy (p, q, r) + h)) as AY.
  pose proof (affine_in_tri (p, q, r) 0 0 1 (tri_cz (p, q, r) - h) (tri_cz (p, q, r) + h)) as AZ.
  specialize (AY ltac:(cbn [corner tri_cy]; intros w [-> | [-> | ->]]; lra) v V).
  specialize (AZ ltac:(cbn [corner tri_cz]; intros w [-> | [-> | ->]]; lra) v V).
  split; apply Rabs_le; lra.
Qed.
Lemma back_turn a v : back_y a (fst (turn a v)) (snd (turn a v)) = fst v /\ back_z a (fst (turn a v)) (snd (turn a v)) = snd v.
Proof.
  unfold back_y, back_z, turn. cbn [fst snd]. pose proof (sin2_cos2 a) as H. unfold Rsqr in H. split.
  - transitivity ((sin a * sin a + cos a * cos a) * fst v); [ring|rewrite H; ring].
  - transitivity ((sin a * sin a + cos a * cos a) * snd v); [ring|rewrite H; ring].
Qed.
Lemma centre_turn a t : (tri_cy (tturn a t), tri_cz (tturn a t)) = turn a (tri_cy t, tri_cz t).
Proof. destruct t as [[p q] r]. unfold tturn, tri_cy, tri_cz, turn. cbn [fst snd]. f_equal; field. Qed.
Lemma lsum_abs {X} (f g k : X -> R) l : (forall x, In x l -> Rabs (f x - g x) <= k x) -> Rabs (lsum (map f l) - lsum (map g l)) <= lsum (map k l).
Proof.
  induction l as [|x l IH]; intros H.
  - cbn. rewrite Rminus_eq_0, Rabs_R0. lra.
  - cbn [map]. rewrite !lsum_cons. replace (f x + lsum (map f l) - (g x + lsum (map g l))) with ((f x - g x) + (lsum (map f l) - lsum (map g l))) by ring.
    eapply Rle_trans; [apply Rabs_triang|]. apply Rplus_le_compat; [apply H; now left|]. apply IH. intros y Y. apply H. now right.
Qed.

Section Surface.
Variables (f : R -> R) (e0 r a ky kz : R).
Hypothesis EI : forall off, eint (fun z => f (e0 + r * z) * z ^ off).
Hypothesis TM : r <> 0 -> tame f.
Hypothesis KY : r * cos a = ky.
Hypothesis KZ : r * sin a = - kz.
Lemma strain_turn v : e0 + r * snd (turn a v) = plane_strain e0 ky kz (fst v) (snd v).
Proof. unfold turn, plane_strain. cbn [snd]. transitivity (e0 + r * cos a * snd v + r * sin a * fst v); [ring|rewrite KY, KZ; ring]. Qed.
Lemma strain_back y z : plane_strain e0 ky kz (back_y a y z) (back_z a y z) = e0 + r * z.
Proof.
  unfold plane_strain, back_y, back_z. pose proof (sin2_cos2 a) as H. unfold Rsqr in H. rewrite <- KY. replace kz with (- (r * sin a)) by lra.
  transitivity (e0 + r * z * (sin a * sin a + cos a * cos a)); [ring|rewrite H; ring].
Qed.
Variables (ca cb cc : R).
Definition wt (y z : R) : R := ca + cb * y + cc * z.
Variables (L h W lo hi : R) (ts : list tri) (s : surface).
Hypothesis TR : triangulates ts s.
Hypothesis CL : closed (sf_ext s) /\ (forall q, In q (sf_ints s) -> closed q).
Hypothesis SZ : forall t, In t ts -> tri_size h t.
Hypothesis CW : forall t v, In t ts -> corner t v -> Rabs (wt (fst v) (snd v)) <= W.
Hypothesis CS : forall t v, In t ts -> corner t v -> lo <= plane_strain e0 ky kz (fst v) (snd v) <= hi.
Hypothesis LP : forall e e', lo <= e <= hi -> lo <= e' <= hi -> Rabs (f e - f e') <= L * Rabs (e - e').
Hypothesis L0 : 0 <= L.

Lemma in_strain t v : In t ts -> in_tri t v -> lo <= plane_strain e0 ky kz (fst v) (snd v) <= hi.
Proof.
  intros I V. pose proof (affine_in_tri t e0 (- kz) ky lo hi) as A. replace (plane_strain e0 ky kz (fst v) (snd v)) with (e0 + - kz * fst v + ky * snd v) by (unfold plane_strain; ring).
  apply A; [|exact V]. intros w Hw. pose proof (CS t w I Hw) as X. unfold plane_strain in X. lra.
Qed.
Lemma in_weight t v : In t ts -> in_tri t v -> Rabs (wt (fst v) (snd v)) <= W.
Proof.
  intros I V. apply Rabs_le. unfold wt. apply (affine_in_tri t ca cb cc (- W) W); [|exact V].
  intros w Hw. pose proof (CW t w I Hw) as X. apply Rabs_le_between in X. exact X.
Qed.
Lemma surface_mesh :
  Rabs (surface_integral (fun y z => f (plane_strain e0 ky kz y z) * wt y z) s
    - lsum (map (fun t => f (plane_strain e0 ky kz (tri_cy t) (tri_cz t)) * fan_moment 0 0 (tri_ring t) * wt (tri_cy t) (tri_cz t)) ts))
  <= L * ((Rabs ky + Rabs kz) * h) * W * surface_integral (fun _ _ => 1) s.
Proof.
  assert (Q : surface_integral (fun y z => f (plane_strain e0 ky kz y z) * wt y z) s =
    lsum (map (fun t => region_integral (fun y z => f (e0 + r * z) * (ca + (cb * cos a - cc * sin a) * y + (cb * sin a + cc * cos a) * z)) (tri_ring (tturn a t))) ts)).
  { transitivity (surface_integral (fun y z => f (plane_strain e0 ky kz y z) * quadratic ca cb cc 0 0 0 y z) s).
    { f_equal. apply functional_extensionality. intros y. apply functional_extensionality. intros z. unfold wt, quadratic. ring. }
    rewrite <- (surface_frames f e0 r a ky kz ca cb cc 0 0 0 s TM KY KZ (proj1 CL) (proj2 CL)).
    transitivity (surface_integral (fun y z => f (e0 + r * z) * (ca + (cb * cos a - cc * sin a) * y + (cb * sin a + cc * cos a) * z)) (turned a s)).
    { f_equal. apply functional_extensionality. intros y. apply functional_extensionality. intros z. rewrite strain_back. f_equal. unfold quadratic, back_y, back_z. ring. }
    rewrite (surface_triangles _ (map (tturn a) ts)); [now rewrite map_map|apply (field2_times (fun z => f (e0 + r * z))); exact EI|now apply triangulates_turn]. }
  assert (QA : surface_integral (fun _ _ => 1) s = lsum (map (fun t => fan_moment 0 0 (tri_ring t)) ts)).
  { transitivity (surface_integral (fun y z => 1 + 0 * y + 0 * z) s); [f_equal; apply functional_extensionality; intros y; apply functional_extensionality; intros z; ring|].
    rewrite (surface_triangles _ ts); [|apply field2_affine|exact TR]. apply lsum_map_ext. intros t _. rewrite tri_affine. ring. }
  rewrite Q, QA, <- lsum_map_scal. apply lsum_abs. intros t I. destruct TR as (WC & _). specialize (WC t I).
  assert (AR : fan_moment 0 0 (tri_ring (tturn a t)) = fan_moment 0 0 (tri_ring t)) by (rewrite tri_ring_turn, !fan_area; apply turned_area).
  set (c := (tri_cy t, tri_cz t)). assert (IC : in_tri t c) by apply centre_in_tri.
  assert (TW : forall v, ca + (cb * cos a - cc * sin a) * fst (turn a v) + (cb * sin a + cc * cos a) * snd (turn a v) = wt (fst v) (snd v)).
  { intros v. destruct (back_turn a v) as (BY & BZ). transitivity (ca + cb * back_y a (fst (turn a v)) (snd (turn a v)) + cc * back_z a (fst (turn a v)) (snd (turn a v))); [unfold back_y, back_z; ring|rewrite BY, BZ; reflexivity]. }
  pose proof (centre_turn a t) as CT. fold c in CT.
  assert (CY : tri_cy (tturn a t) = fst (turn a c)) by (rewrite <- CT; reflexivity). assert (CZ : tri_cz (tturn a t) = snd (turn a c)) by (rewrite <- CT; reflexivity).
  pose proof (tri_midpoint (fun z => f (e0 + r * z)) ca (cb * cos a - cc * sin a) (cb * sin a + cc * cos a)
    (f (plane_strain e0 ky kz (tri_cy t) (tri_cz t))) (L * ((Rabs ky + Rabs kz) * h) * W) (tturn a t) EI (ccw_turn a t WC)) as M.
  rewrite AR, CY, CZ, TW in M. cbn [c fst snd] in M.
  match goal with |- Rabs (?u - ?v) <= ?k => match type of M with _ -> Rabs (_ - ?v') <= ?k' => replace v with v' by ring; replace k with k' by ring end end.
  apply M. intros v V. apply in_tri_turn in V. destruct V as (v0 & V & ->). rewrite TW, strain_turn, Rabs_mult.
  apply Rmult_le_compat; [apply Rabs_pos|apply Rabs_pos| |now apply in_weight with t].
  eapply Rle_trans; [apply LP; [now apply in_strain with t|apply (in_strain t c I IC)]|]. apply Rmult_le_compat_l; [exact L0|].
  destruct (near_centre h t v0 (SZ t I) V) as (NY & NZ).
  replace (plane_strain e0 ky kz (fst v0) (snd v0) - plane_strain e0 ky kz (tri_cy t) (tri_cz t)) with (ky * (snd v0 - tri_cz t) + - kz * (fst v0 - tri_cy t)) by (unfold plane_strain; ring).
  eapply Rle_trans; [apply Rabs_triang|]. rewrite !Rabs_mult, Rabs_Ropp.
  pose proof (Rmult_le_compat_l (Rabs ky) _ _ (Rabs_pos ky) NZ). pose proof (Rmult_le_compat_l (Rabs kz) _ _ (Rabs_pos kz) NY). lra.
Qed.
End Surface.
