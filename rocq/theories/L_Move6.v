(** Lemmas for C58: domains and relations of moved sections. *)
From Coq Require Import Permutation FunctionalExtensionality Lra Lia.
From Verif Require Import Base M_Marin S_Marin M_Laws M_Laws2 M_Fiber S_Fiber L_Fiber M_MarinInt S_MarinInt L_MarinInt3 L_Frame4 M_Section S_Section L_Section M_Domain S_History L_History S_Frame S_Turn L_Turn L_Turn2 S_Move L_Move L_Move2 L_Move3 L_Move4 L_Move5.

Lemma fold_least (l : list surface) : forall x, let m := fold_left (fun m s => Rmin m (ring_min (sf_ext s))) l x in
  m <= x /\ (forall s, In s l -> m <= ring_min (sf_ext s)) /\ (m = x \/ exists s, In s l /\ ring_min (sf_ext s) = m).
Proof.
  induction l as [|v l IH]; intros x; cbn [fold_left]; cbv zeta; [repeat split; [lra|intros s []|now left]|].
  destruct (IH (Rmin x (ring_min (sf_ext v)))) as (A & B & C). cbv zeta in *. set (m := fold_left _ _ _) in *.
  assert (X : m <= x) by (eapply Rle_trans; [exact A|apply Rmin_l]). assert (Y : m <= ring_min (sf_ext v)) by (eapply Rle_trans; [exact A|apply Rmin_r]).
  split; [exact X|]. split; [intros p [<-|I]; [exact Y|exact (B p I)]|]. destruct C as [C|(p & I & E)]; [|right; exists p; split; [now right|exact E]].
  unfold Rmin in C. destruct (Rle_dec x (ring_min (sf_ext v))); [left; exact C|right; exists v; split; [now left|congruence]].
Qed.
Lemma min_y_least g s0 : In s0 (cg_surf g) -> ring_min (sf_ext s0) <= 10 ^ 16 -> (forall s, In s (cg_surf g) -> min_y g <= ring_min (sf_ext s)) /\ exists s, In s (cg_surf g) /\ ring_min (sf_ext s) = min_y g.
Proof.
  intros I L. destruct (fold_least (cg_surf g) (10 ^ 16)) as (A & B & C). fold (min_y g) in *. split; [exact B|].
  destruct C as [C|C]; [|exact C]. exists s0. split; [exact I|]. specialize (B s0 I). lra.
Qed.
Lemma near_low phi g : near_origin g -> exists s, In s (cg_surf (rotate_geo phi g)) /\ ring_min (sf_ext s) <= 10 ^ 16.
Proof.
  intros (s & p & Is & Ip & L). exists (rotate_surface phi s). split; [cbn [rotate_geo cg_surf]; apply in_map, Is|]. cbn [rotate_surface sf_ext].
  assert (NE : map (rot phi) (sf_ext s) <> []) by (intros Z; apply map_eq_nil in Z; rewrite Z in Ip; destruct Ip).
  destruct (ring_min_lowest _ NE) as (_ & M). specialize (M (rot phi p) (in_map _ _ _ Ip)). eapply Rle_trans; [exact M|]. unfold rot. cbn [snd].
  pose proof (SIN_bound phi) as SB. pose proof (COS_bound phi) as CB.
  assert (P1 : sin phi * fst p <= Rabs (fst p)).
  { eapply Rle_trans; [apply Rle_abs|]. rewrite Rabs_mult. rewrite <- (Rmult_1_l (Rabs (fst p))) at 2. apply Rmult_le_compat_r; [apply Rabs_pos|apply Rabs_le; lra]. }
  assert (P2 : cos phi * snd p <= Rabs (snd p)).
  { eapply Rle_trans; [apply Rle_abs|]. rewrite Rabs_mult. rewrite <- (Rmult_1_l (Rabs (snd p))) at 2. apply Rmult_le_compat_r; [apply Rabs_pos|apply Rabs_le; lra]. }
  lra.
Qed.
Lemma Forall2_in_l {A B} (P : A -> B -> Prop) l l' x : Forall2 P l l' -> In x l -> exists y, In y l' /\ P x y.
Proof.
  induction 1 as [|x' y l l' H F IH]; [intros []|]. intros [->|I]; [exists y; split; [now left|exact H]|].
  destruct (IH I) as (z & Hz & Q). exists z. split; [now right|exact Q].
Qed.
Lemma min_y_moved sg a b g g' : moved sg a b g g' -> (exists s, In s (cg_surf g) /\ ring_min (sf_ext s) <= 10 ^ 16) -> (exists s, In s (cg_surf g') /\ ring_min (sf_ext s) <= 10 ^ 16) -> min_y g' = min_y g + b.
Proof.
  intros (F & _) (s & I & L) (s' & I' & L'). destruct (min_y_least g s I L) as (A & u & Iu & Eu). destruct (min_y_least g' s' I' L') as (A' & u' & Iu' & Eu').
  apply Rle_antisym.
  - destruct (Forall2_in_l _ _ _ u F Iu) as (v & Iv & (_ & O & _)). destruct (outline_heights _ _ _ _ _ O) as (H & _). rewrite <- Eu, <- H. exact (A' v Iv).
  - destruct (Forall2_in _ _ _ u' F Iu') as (v & Iv & (_ & O & _)). destruct (outline_heights _ _ _ _ _ O) as (H & _). rewrite <- Eu', H. specialize (A v Iv). lra.
Qed.
Lemma field_pairs_lifted f rc epb enb epy eny yn yp h b : field_pairs f rc epb enb epy eny (yn + b) (yp + b) h = field_pairs f rc epb enb epy eny yn yp h.
Proof.
  unfold field_pairs. replace (yn + b - (yp + b)) with (yn - yp) by ring.
  replace (yn + b - (1 - eny / enb) * h - (yn + b)) with (yn - (1 - eny / enb) * h - yn) by ring.
  replace (yn + b - (1 - eny / enb) * h - (yp + b)) with (yn - (1 - eny / enb) * h - yp) by ring. reflexivity.
Qed.
Lemma ultimate_moved t sg a b g g' theta theta' f : sg = 1 \/ sg = -1 -> moved sg a b g g' -> near_origin g -> near_origin g' ->
  cos theta' = cos theta -> sin theta' = sg * sin theta ->
  ultimate_profiles t g' theta' f = rmap (fun u => (map (moved_profile sg a b) (fst u), snd u)) (ultimate_profiles t g theta f).
Proof.
  intros SG MV NO NO' CC SS.
  assert (CC' : cos (- theta') = cos (- theta)) by (rewrite !cos_neg; exact CC). assert (SS' : sin (- theta') = sg * sin (- theta)) by (rewrite !sin_neg, SS; ring).
  pose proof (geo_rot sg a b (- theta) (- theta') SG CC' SS' g g' MV) as MR. set (al := fst (rot (- theta') (a, b))) in *. set (be := snd (rot (- theta') (a, b))) in *.
  pose proof (min_y_moved sg al be _ _ MR (near_low _ g NO) (near_low _ g' NO')) as MY.
  unfold ultimate_profiles. cbv zeta. rewrite (proj1 (balanced_moved t sg al be _ _ true MR)), (proj1 (balanced_moved t sg al be _ _ false MR)), MY.
  destruct (balanced (tr_rc t) true (items_of t (rotate_geo (- theta) g))) as [[[yn0 yp0] sy]|]; cbn [bind rmap]; [|reflexivity].
  destruct (balanced (tr_rc t) false (items_of t (rotate_geo (- theta) g))) as [[[yn yp] sb]|]; cbn [bind rmap]; [|reflexivity].
  unfold p_e0, p_ky, p_kz. cbn [fst snd]. destruct (field_nums f); cbn [bind rmap]; [|reflexivity].
  destruct sy as [[e1 c1] z1], sb as [[e2 c2] z2]. cbn [fst snd]. rewrite field_pairs_lifted.
  replace (e1 - c1 * be + c1 * (yp0 + be)) with (e1 + c1 * yp0) by ring. replace (e1 - c1 * be + c1 * (yn0 + be)) with (e1 + c1 * yn0) by ring.
  replace (e2 - c2 * be + c2 * (yp + be)) with (e2 + c2 * yp) by ring. replace (e2 - c2 * be + c2 * (yn + be)) with (e2 + c2 * yn) by ring.
  replace (yn + be - (min_y (rotate_geo (- theta) g) + be)) with (yn - min_y (rotate_geo (- theta) g)) by ring.
  destruct (field_pairs f _ _ _ _ _ _ _ _) as [prs|]; cbn [bind rmap]; [|reflexivity].
  f_equal. cbn [fst snd]. f_equal. rewrite map_map. apply map_ext. intros x. unfold pair_profile, moved_profile, be, rot. cbn [fst snd].
  replace (yn + (sin (- theta') * a + cos (- theta') * b) - (yp + (sin (- theta') * a + cos (- theta') * b))) with (yn - yp) by ring.
  rewrite CC', SS', CC, SS, cos_neg, sin_neg. apply pair3; ring.
Qed.
Section More.
Variables (ig : integ) (t : traits) (ms : R) (g g' : compound) (D D' : list group) (sg a b : R).
Hypothesis SG : sg = 1 \/ sg = -1.
Hypothesis CO : coherent ig g (Some ms) D.
Hypothesis CO' : coherent ig g' (Some ms) D'.
Hypothesis MV : moved sg a b g g'.
Hypothesis PF : forall p m, rmap fst (ig_forces ig g' (moved_profile sg a b p) (Some D') m) = rmap (moved_forces sg a b) (rmap fst (ig_forces ig g p (Some D) m)).
Hypothesis PR : forall phi phi', cos phi' = cos phi -> sin phi' = sg * sin phi -> let al := fst (rot phi' (a, b)) in let be := snd (rot phi' (a, b)) in forall p m,
  rmap fst (ig_forces ig (rotate_geo phi' g') (moved_profile sg al be p) (Some (map (rotate_group phi') D')) m) =
  rmap (moved_forces sg al be) (rmap fst (ig_forces ig (rotate_geo phi g) p (Some (map (rotate_group phi) D)) m)).
Let c0 : sstate := {| st_data := Some D; st_lim := None |}.
Let c0' : sstate := {| st_data := Some D'; st_lim := None |}.
Lemma move_domain theta f complete : near_origin g -> near_origin g' ->
  fst (nm_domain ig t ms g' (sg * theta) f complete c0') = rmap (moved_domain sg a b) (fst (nm_domain ig t ms g theta f complete c0)).
Proof.
  intros NO NO'.
  assert (C1 : cos (sg * theta) = cos theta) by (destruct SG as [Z|Z]; rewrite Z, ?Rmult_1_l; [reflexivity|replace (-1 * theta) with (- theta) by ring; apply cos_neg]).
  assert (S1 : sin (sg * theta) = sg * sin theta) by (destruct SG as [Z|Z]; rewrite Z; [rewrite !Rmult_1_l; reflexivity|replace (-1 * theta) with (- theta) by ring; rewrite sin_neg; ring]).
  unfold nm_domain. rewrite (ultimate_moved t sg a b g g' theta (sg * theta) f SG MV NO NO' C1 S1).
  assert (C2 : cos (sg * theta + PI) = cos (theta + PI)) by (rewrite !neg_cos, C1; reflexivity).
  assert (S2 : sin (sg * theta + PI) = sg * sin (theta + PI)) by (rewrite !neg_sin, S1; ring).
  rewrite (ultimate_moved t sg a b g g' (theta + PI) (sg * theta + PI) f SG MV NO NO' C2 S2).
  refine (proj1 (twin_bind (pairs D D') (pairs D D') (fun _ _ => True) _ _ (fun u : list profile * list nat => (map (moved_profile sg a b) (fst u), snd u)) _ _ _ _ _ c0 c0' (pairs0 D D'))).
  { apply twin_lift. reflexivity. }
  intros u. apply (twin_bind (pairs D D') (pairs D D') (fun _ _ => True) _ _ (fun u : list profile * list nat => (map (moved_profile sg a b) (fst u), snd u))).
  - destruct complete; [|apply twin_ret; reflexivity].
    apply (twin_bind (pairs D D') (pairs D D') _ _ _ (fun u : list profile * list nat => (map (moved_profile sg a b) (fst u), snd u))); [apply twin_lift; reflexivity|].
    intros v. apply twin_ret. cbn [fst snd]. rewrite inner_rev_map, <- map_app. reflexivity.
  - intros v. cbn [fst snd]. eapply twin_bind; [exact (twin_all ig ms g D sg a b g g' D D' CO PF (Some ms) (fst v))|].
    intros F. apply (twin_weaken _ (pairs D D')); [trivial|]. apply twin_ret. reflexivity.
Qed.
Lemma move_mm n : sg = 1 ->
  forall thetas s s', srel ig t ms g D s c0 -> srel ig t ms g' D' s' c0' ->
  fst (strengths ig t ms g' n thetas s') = rmap (map (moved_strength sg a b)) (fst (strengths ig t ms g n thetas s)).
Proof.
  intros Z. induction thetas as [|th rest IH]; intros s s' H H'; [reflexivity|]. cbn [strengths].
  destruct (strength_good ig t ms g D CO th n _ _ H) as (E1 & N1). destruct (strength_good ig t ms g' D' CO' th n _ _ H') as (E2 & N2).
  pose proof (move_strength ig t ms g g' D D' sg a b SG CO CO' MV PF PR th n c0 c0' (ready0 ig t ms g g' D D')) as X. 
  replace (sg * th) with th in X by (rewrite Z; ring). fold c0 c0' in X. rewrite <- E1, <- E2 in X.
  match goal with |- fst (abind _ ?f _) = rmap _ (fst (abind _ ?h _)) => set (F' := f); set (F := h) end. unfold abind.
  destruct (bending_strength ig t ms g th n s) as [[r|e] u], (bending_strength ig t ms g' th n s') as [[r'|e'] u']; cbn [fst snd rmap] in *; try discriminate; [|congruence].
  assert (ER : r' = moved_strength sg a b r) by congruence. rewrite ER. unfold F, F'.
  pose proof (IH u u' (srel_drop _ _ _ _ _ _ _ (rel_srel _ _ _ _ _ _ _ (N1 r eq_refl))) (srel_drop _ _ _ _ _ _ _ (rel_srel _ _ _ _ _ _ _ (N2 r' eq_refl)))) as Y.
  match goal with |- fst (abind _ ?f _) = rmap _ (fst (abind _ ?h _)) => set (G' := f); set (G := h) end. unfold abind.
  destruct (strengths ig t ms g n rest u) as [[q|e] v], (strengths ig t ms g' n rest u') as [[q'|e'] v']; cbn [fst snd rmap] in *; try discriminate; [|congruence].
  unfold G, G'. cbn [aret fst rmap map]. congruence.
Qed.
Hypothesis PK : forall p m, match ig_modulus ig g p (Some D) m, ig_modulus ig g' (moved_profile sg a b p) (Some D') m with
  | Ok (K, _), Ok (K', _) => moved_matrix sg a b K K' | Err e, Err e' => e = e' | _, _ => False end.
End More.
