(** Lemmas for C58: the integrator on moved sections. *)
From Coquelicot Require Import Coquelicot.
From Coq Require Import Permutation Lra Lia.
From Verif Require Import Base M_Marin S_Marin L_Marin M_Laws S_Laws M_Laws2 S_Laws2 M_Fiber S_Fiber L_Fiber M_MarinInt S_MarinInt L_MarinInt L_MarinInt2 L_MarinInt3 L_MarinInt4 L_Frame L_Frame4 L_Mesh2 M_Section S_Section L_Section M_Domain S_History L_History S_Frame S_Turn L_Turn L_Turn2 L_Turn3 L_Turn4 S_Move L_Move.

Definition good_laws (laws : nat -> law) (what : integrand) (fs : nat -> R -> R) (ss : list surface) : Prop :=
  forall s, In s ss -> closed (sf_ext s) /\ (forall q, In q (sf_ints s) -> closed q) /\
    (forall e r, 0 < r -> field_of (ask what (laws (sf_law s)) (e, r)) (fs (sf_law s)) e r) /\
    (forall e, uniform_output (ask what (laws (sf_law s)) (e, 0))).
Lemma jsum_cons m off fs e0 e1 s ss : jsum m off fs e0 e1 (s :: ss) = jm m off (fs (sf_law s)) e0 e1 (oriented s) + jsum m off fs e0 e1 ss.
Proof. unfold jsum. cbn [map]. apply lsum_cons. Qed.
Lemma eint_one off : eint (fun z => (fun _ : R => 1) (0 + 0 * z) * z ^ off).
Proof. apply (eint_finite (fun z => z ^ off) _ []); [intros z _; cbv beta; ring|apply eint_pow]. Qed.
Lemma jm_fan m n rings : (forall q, In q rings -> closed q) -> jm m n (fun _ => 1) 0 0 rings = lsum (map (fan_moment m n) rings).
Proof.
  intros C. unfold jm. apply lsum_map_ext. intros q Hq. rewrite <- (green_fan m n q (C q Hq)).
  transitivity (gfield m (fun z => z ^ n) q); [apply gfield_ext; intros; ring|]. reflexivity.
Qed.
Lemma Forall2_in {A B} (P : A -> B -> Prop) l l' y : Forall2 P l l' -> In y l' -> exists x, In x l /\ P x y.
Proof.
  induction 1 as [|x y' l l' H F IH]; [intros []|]. intros [->|I]; [exists x; split; [now left|exact H]|].
  destruct (IH I) as (z & Hz & Q). exists z. split; [now right|exact Q].
Qed.
Section Entries.
Variables (laws : nat -> law) (what : integrand) (fs : nat -> R -> R) (sg a b : R).
Hypothesis W : what <> IOther.
Hypothesis SG : sg = 1 \/ sg = -1.
Lemma good_moved ss ss' : good_laws laws what fs ss -> Forall2 (same_surface (place sg a b)) ss ss' -> good_laws laws what fs ss'.
Proof.
  intros G F s' I. destruct (Forall2_in _ _ _ s' F I) as (s & Is & E). destruct (G s Is) as (C & CI & FO & U).
  destruct (surface_closed sg a b s s' C CI E) as (C' & CI'). rewrite (proj1 E). exact (conj C' (conj CI' (conj FO U))).
Qed.
Lemma entries_bending ss ss' e r : good_laws laws what fs ss -> Forall2 (same_surface (place sg a b)) ss ss' -> 0 < r ->
  exists es es', surfaces_entries laws what e r ss = Ok (e, es) /\ surfaces_entries laws what (e - r * b) r ss' = Ok (e - r * b, es') /\
  moments_move sg a b (es_moment es) (es_moment es').
Proof.
  intros G F P. pose proof (good_moved ss ss' G F) as G'.
  assert (GS : forall xs c, good_laws laws what fs xs -> good_surfaces laws what fs c r xs).
  { intros xs c H s I. destruct (H s I) as (C & CI & FO & _). exact (conj (FO c r P) (conj C CI)). }
  destruct (surfaces_entries_ok laws what fs e r ss W (GS ss e G)) as (es & E & M).
  destruct (surfaces_entries_ok laws what fs (e - r * b) r ss' W (GS ss' (e - r * b) G')) as (es' & E' & M').
  exists es, es'. split; [exact E|]. split; [exact E'|].
  apply (moments_move_ext sg a b _ _ (fun i j => jsum i j fs e r ss) (fun i j => jsum i j fs (e - r * b) r ss') M M').
  clear E E' M M' es es' GS. revert G G'. induction F as [|s s' ss ss' O F IH]; intros G G'; [exact (moments_move_zero sg a b)|].
  apply (moments_move_ext sg a b _ _ (fun i j => jm i j (fs (sf_law s)) e r (oriented s) + jsum i j fs e r ss)
    (fun i j => jm i j (fs (sf_law s)) (e - r * b) r (oriented s') + jsum i j fs (e - r * b) r ss')).
  { intros i j. apply jsum_cons. }
  { intros i j. rewrite jsum_cons, (proj1 O). reflexivity. }
  apply moments_move_plus; [|apply IH; [intros x I; exact (G x (or_intror I))|intros x I; exact (G' x (or_intror I))]].
  destruct (G s (or_introl eq_refl)) as (C & CI & FO & _). destruct (G' s' (or_introl eq_refl)) as (C' & CI' & _).
  apply jm_surface; [exact SG| | |exact C|exact CI|exact O].
  - exact (proj1 (surface_entries_ok (laws (sf_law s)) what e r s (fs (sf_law s)) W (FO e r P) C CI)).
  - exact (proj1 (surface_entries_ok (laws (sf_law s)) what (e - r * b) r s' (fs (sf_law s)) W (FO (e - r * b) r P) C' CI')).
Qed.
Lemma entries_uniform ss ss' : good_laws laws what fs ss -> Forall2 (same_surface (place sg a b)) ss ss' -> forall e,
  exists e1 es es', surfaces_entries laws what e 0 ss = Ok (e1, es) /\ surfaces_entries laws what e 0 ss' = Ok (e1, es') /\
  moments_move sg a b (es_moment es) (es_moment es').
Proof.
  intros G F. pose proof (good_moved ss ss' G F) as G'. revert G G'. induction F as [|s s' ss ss' O F IH]; intros G G' e.
  - exists e, [], []. split; [reflexivity|]. split; [reflexivity|]. exact (moments_move_zero sg a b).
  - destruct (G s (or_introl eq_refl)) as (C & CI & _ & U). destruct (G' s' (or_introl eq_refl)) as (C' & CI' & _).
    cbn [surfaces_entries]. unfold surface_entries. rewrite (proj1 O). destruct (U e) as (v & c & EV & Z).
    assert (EX : match what with IStress => Ok (lw_marin (laws (sf_law s)) (e, 0)) | IModulus => Ok (lw_marin_tangent (laws (sf_law s)) (e, 0)) | IOther => Err ValueError end = Ok (ask what (laws (sf_law s)) (e, 0))) by (destruct what; [reflexivity..|contradiction]).
    rewrite EX. cbn [bind]. destruct (ask what (laws (sf_law s)) (e, 0)) as [e1 o]. cbn [snd] in EV. subst o. cbn [bind fst snd].
    destruct (IH (fun x I => G x (or_intror I)) (fun x I => G' x (or_intror I)) e1) as (e2 & fs1 & fs1' & E2 & E2' & M2). rewrite E2, E2'. cbn [bind fst snd].
    do 3 eexists. split; [reflexivity|]. split; [reflexivity|].
    apply (moments_move_ext sg a b _ _ _ _ (es_moment_app _ _) (es_moment_app _ _)). apply moments_move_plus; [|exact M2].
    apply (moments_move_ext sg a b _ _ (fun i j => v * jm i j (fun _ => 1) 0 0 (oriented s)) (fun i j => v * jm i j (fun _ => 1) (0 - 0 * b) 0 (oriented s'))).
    + intros i j. unfold es_moment. rewrite map_map, jm_fan by (intros q; apply oriented_closed; assumption). rewrite <- lsum_scal. apply lsum_map_ext. intros q _. apply coeff_constant, Z.
    + intros i j. replace (0 - 0 * b) with 0 by ring. unfold es_moment. rewrite map_map, jm_fan by (intros q; apply oriented_closed; assumption). rewrite <- lsum_scal. apply lsum_map_ext. intros q _. apply coeff_constant, Z.
    + apply moments_move_scal. apply jm_surface; [exact SG|exact eint_one|replace (0 - 0 * b) with 0 by ring; exact eint_one|exact C|exact CI|exact O].
Qed.
Lemma entries_move ss ss' e r : good_laws laws what fs ss -> Forall2 (same_surface (place sg a b)) ss ss' -> 0 <= r ->
  exists e1 es es', surfaces_entries laws what e r ss = Ok (e1, es) /\ surfaces_entries laws what (e - r * b) r ss' = Ok (e1 - r * b, es') /\
  moments_move sg a b (es_moment es) (es_moment es').
Proof.
  intros G F P. destruct (Rle_lt_or_eq_dec 0 r P) as [Q|<-].
  - destruct (entries_bending ss ss' e r G F Q) as (es & es' & E & E' & M). exists e, es, es'. auto.
  - destruct (entries_uniform ss ss' G F e) as (e1 & es & es' & E & E' & M). exists e1, es, es'.
    replace (e - 0 * b) with e by ring. replace (e1 - 0 * b) with e1 by ring. auto.
Qed.
End Entries.
(** Bars. *)
Definition place_bar (sg a b : R) (x : bar) : bar := let p := place sg a b (br_y x, br_z x) in {| br_y := fst p; br_z := snd p; br_area := br_area x; br_law := br_law x |}.
Definition place_fibre (sg a b : R) (x : fibre) : fibre := let p := place sg a b (fb_y x, fb_z x) in {| fb_y := fst p; fb_z := snd p; fb_a := fb_a x |}.
Definition place_group (sg a b : R) (g : group) : group := {| gr_fibres := map (place_fibre sg a b) (gr_fibres g); gr_scalar := gr_scalar g; gr_law := gr_law g |}.
Definition place_value (sg a b : R) (x : R * R * R) : R * R * R := (fst (place sg a b (fst x)), snd (place sg a b (fst x)), snd x).
Lemma bars_placed sg a b l l' : Forall2 (same_bar (place sg a b)) l l' -> l' = map (place_bar sg a b) l.
Proof.
  induction 1 as [|x x' l l' (P & A & L) F IH]; [reflexivity|]. cbn [map]. rewrite IH. f_equal. unfold place_bar. rewrite <- P, <- A, <- L. destruct x'; reflexivity.
Qed.
Section Bars.
Variables (laws : nat -> law) (what : integrand) (sg a b : R).
Lemma vm_move v : sg * sg = 1 -> moments_move sg a b (fun i j => vm i j v) (fun i j => vm i j (map (place_value sg a b) v)).
Proof.
  intros S2. induction v as [|x v IH]; [unfold moments_move, vm; cbn [map]; change (lsum []) with 0; repeat split; ring|].
  apply (moments_move_ext sg a b _ _ (fun i j => snd x * (fst (fst x) ^ i * snd (fst x) ^ j) + vm i j v) (fun i j => snd (place_value sg a b x) * (fst (fst (place_value sg a b x)) ^ i * snd (fst (place_value sg a b x)) ^ j) + vm i j (map (place_value sg a b) v)));
    [intros; apply vm_cons..|]. apply moments_move_plus; [|exact IH]. destruct x as [[y z] w]. unfold moments_move, place_value, place. cbn [fst snd]. repeat split; ring [S2].
Qed.
Lemma bars_move e r gs : bars_entries laws what (e - r * b) r (map (place_group sg a b) gs) = rmap (map (place_value sg a b)) (bars_entries laws what e r gs).
Proof.
  induction gs as [|x gs IH]; [reflexivity|]. cbn [map bars_entries]. rewrite IH.
  assert (V : bar_values laws what (e - r * b) r (place_group sg a b x) = bar_values laws what e r x).
  { unfold bar_values. cbn [place_group gr_fibres gr_scalar gr_law].
    replace (map (z_strain (e - r * b) r) (map (place_fibre sg a b) (gr_fibres x))) with (map (z_strain e r) (gr_fibres x)); [reflexivity|].
    rewrite !map_map. apply map_ext. intros f. unfold z_strain, place_fibre, place. cbn [fb_z fst snd]. ring. }
  rewrite V. destruct (bar_values laws what e r x) as [v|]; cbn [bind rmap]; [|reflexivity].
  destruct (bars_entries laws what e r gs) as [q|]; cbn [bind rmap]; [|reflexivity].
  f_equal. rewrite map_app. f_equal. cbn [place_group gr_fibres]. generalize (gr_fibres x). clear. induction v as [|y v IH]; intros [|f fs]; try reflexivity. cbn [map combine]. rewrite IH. reflexivity.
Qed.
Lemma homogeneous_move gs : homogeneous (map (place_group sg a b) gs) = homogeneous gs.
Proof.
  destruct gs as [|x gs]; [reflexivity|]. cbn [map homogeneous place_group gr_fibres]. rewrite !map_length.
  induction gs as [|y gs IH]; [reflexivity|]. cbn [map forallb place_group gr_fibres]. rewrite !map_length, IH. reflexivity.
Qed.
End Bars.
(** Rotated axes. *)
Lemma rot_place sg a b phi phi' p : sg = 1 \/ sg = -1 -> cos phi' = cos phi -> sin phi' = sg * sin phi ->
  rot phi' (place sg a b p) = place sg (fst (rot phi' (a, b))) (snd (rot phi' (a, b))) (rot phi p).
Proof. intros SG C Sn. unfold rot, place. cbn [fst snd]. rewrite C, Sn. destruct SG as [Z|Z]; rewrite Z; f_equal; ring. Qed.
Lemma rot_shoelace phi r : shoelace (map (rot phi) r) = shoelace r.
Proof.
  unfold shoelace. rewrite edges_map, map_map. apply lsum_map_ext. intros [p q] _. unfold cross, rot. cbn [fst snd]. pose proof (sin2_cos2 phi) as P. unfold Rsqr in P.
  assert (S2 : sin phi * sin phi = 1 - cos phi * cos phi) by lra. field [S2].
Qed.
Section Rotated.
Variables (sg a b phi phi' : R).
Hypothesis SG : sg = 1 \/ sg = -1.
Hypothesis CC : cos phi' = cos phi.
Hypothesis SS : sin phi' = sg * sin phi.
Let al := fst (rot phi' (a, b)).
Let be := snd (rot phi' (a, b)).
Lemma outline_rot q q' : same_outline (place sg a b) q q' -> same_outline (place sg al be) (map (rot phi) q) (map (rot phi') q').
Proof.
  intros (NZ & P). split; [now rewrite rot_shoelace|]. rewrite !edges_map.
  destruct P as [P|P]; [left|right]; (eapply Permutation_trans; [apply Permutation_map, P|]); rewrite !map_map; apply Permutation_refl';
    apply map_ext; intros [u v]; cbn [fst snd]; rewrite !(rot_place sg a b phi phi' _ SG CC SS); reflexivity.
Qed.
Lemma surface_rot s s' : same_surface (place sg a b) s s' -> same_surface (place sg al be) (rotate_surface phi s) (rotate_surface phi' s').
Proof.
  intros (L & O & holes & P & H). split; [exact L|]. split; [exact (outline_rot _ _ O)|].
  exists (map (map (rot phi')) holes). split; [exact (Permutation_map _ P)|]. cbn [rotate_surface sf_ints]. clear P.
  induction H as [|q q' l l' X H IH]; [constructor|]. cbn [map]. constructor; [exact (outline_rot _ _ X)|exact IH].
Qed.
Lemma bar_rot x x' : same_bar (place sg a b) x x' -> same_bar (place sg al be) (rotate_bar phi x) (rotate_bar phi' x').
Proof.
  intros (P & A & L). split; [|split; [exact A|exact L]]. unfold rotate_bar. cbn [br_y br_z].
  rewrite <- !surjective_pairing, P. exact (rot_place sg a b phi phi' (br_y x, br_z x) SG CC SS).
Qed.
Lemma geo_rot g g' : moved sg a b g g' -> moved sg al be (rotate_geo phi g) (rotate_geo phi' g').
Proof.
  intros (F & B). split; cbn [rotate_geo cg_surf cg_bars].
  - induction F as [|s s' l l' X F IH]; [constructor|]. cbn [map]. constructor; [exact (surface_rot _ _ X)|exact IH].
  - clear F. induction B as [|s s' l l' X F IH]; [constructor|]. cbn [map]. constructor; [exact (bar_rot _ _ X)|exact IH].
Qed.
Lemma group_rot d : map (rotate_group phi') (map (place_group sg a b) d) = map (place_group sg al be) (map (rotate_group phi) d).
Proof.
  rewrite !map_map. apply map_ext. intros x. unfold rotate_group, place_group. cbn [gr_fibres gr_scalar gr_law]. f_equal. rewrite !map_map.
  apply map_ext. intros f. unfold rotate_fibre, place_fibre. cbn [fb_y fb_z fb_a]. rewrite <- !surjective_pairing, (rot_place sg a b phi phi' _ SG CC SS). reflexivity.
Qed.
End Rotated.
