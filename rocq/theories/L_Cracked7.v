(** Lemmas for C50: cutting rectangles, for the examples. *)
From Coquelicot Require Import Coquelicot.
From Verif Require Import Base M_Marin S_Marin L_Marin M_Laws S_Laws L_Laws L_LawsC M_Laws2 S_Laws2 L_Laws2 M_Fiber S_Fiber L_Fiber P_Fiber M_MarinInt S_MarinInt L_MarinInt L_MarinInt2 L_MarinInt3 L_MarinInt4 M_Section S_Section L_Section L_Section2 M_Gross S_Gross L_Gross L_Gross2 M_Geo M_Cracked S_Cracked L_Cracked L_Cracked2 L_Cracked3 L_Cracked4 L_Cracked5.
From Coq Require Import Lra Lia Permutation.

Definition rect (y0 y1 z0 z1 : R) : list (R * R) := [(y0, z0); (y1, z0); (y1, z1); (y0, z1); (y0, z0)].
Definition rect_poly (y0 y1 z0 z1 : R) : polygon := {| pl_ext := rect y0 y1 z0 z1; pl_ints := [] |}.
Definition level_cutter : shapely_split := fun p l =>
  match pl_ext p with
  | [(y0, z0); _; (y1, z1); _; _] =>
      let c := snd (fst l) in
      if Rltb z0 c then if Rltb c z1 then [rect_poly y0 y1 c z1; rect_poly y0 y1 z0 c] else [p] else [p]
  | _ => [p]
  end.
Definition middle (p : polygon) : R * R :=
  match pl_ext p with
  | a :: _ :: b :: _ => ((fst a + fst b) / 2, (snd a + snd b) / 2)
  | _ => (0, 0)
  end.

Lemma gedge_vertical m (F : R -> R) y z0 z1 (v : R) : is_RInt F z0 z1 v -> gedge m F (y, z0) (y, z1) = y ^ (m + 1) / INR (m + 1) * v.
Proof.
  intros H. unfold gedge. apply is_RInt_unique.
  assert (H0 : is_RInt F ((z1 - z0) * 0 + z0) ((z1 - z0) * 1 + z0) v).
  { replace ((z1 - z0) * 0 + z0) with z0 by ring. replace ((z1 - z0) * 1 + z0) with z1 by ring. exact H. }
  apply is_RInt_comp_lin in H0. apply (is_RInt_scal _ _ _ (y ^ (m + 1) / INR (m + 1))) in H0.
  eapply is_RInt_ext; [|exact H0]. intros t _. change (scal ?a ?b) with (a * b). unfold gfun. cbn [fst snd]. toR.
  replace (fst (seg (y, z0) (y, z1) t)) with y by (unfold seg; cbn [fst snd]; ring).
  replace (snd (seg (y, z0) (y, z1) t)) with ((z1 - z0) * t + z0) by (unfold seg; cbn [fst snd]; ring). rewrite (scal_R (z1 - z0) (F ((z1 - z0) * t + z0))). ring.
Qed.
Lemma gfield_rect m (F : R -> R) y0 y1 z0 z1 (v : R) : is_RInt F z0 z1 v ->
  gfield m F (rect y0 y1 z0 z1) = (y1 ^ (m + 1) / INR (m + 1) - y0 ^ (m + 1) / INR (m + 1)) * v.
Proof.
  intros H. unfold rect. rewrite !gfield_cons2, gfield_single.
  rewrite (gedge_horizontal m F (y0, z0) (y1, z0) eq_refl), (gedge_horizontal m F (y1, z1) (y0, z1) eq_refl).
  rewrite (gedge_vertical m F y1 z0 z1 v H), (gedge_vertical m F y0 z1 z0 (opp v) (is_RInt_swap _ _ _ _ H)).
  change (opp v) with (- v). ring.
Qed.
Lemma rect_ccw y0 y1 z0 z1 : y0 < y1 -> z0 < z1 -> ccw_ring (rect y0 y1 z0 z1) = rect y0 y1 z0 z1.
Proof.
  intros A B. unfold ccw_ring. destruct (Rlt_dec _ 0) as [N|_]; [|reflexivity]. exfalso. revert N.
  assert (X : shoelace (rect y0 y1 z0 z1) = (y1 - y0) * (z1 - z0)) by (unfold shoelace, rect, lsum, cross; cbn; field).
  rewrite X. assert (0 < (y1 - y0) * (z1 - z0)) by (apply Rmult_lt_0_compat; lra). lra.
Qed.
Lemma rect_closed y0 y1 z0 z1 : closed (rect y0 y1 z0 z1).
Proof. reflexivity. Qed.
Lemma rect_solid y0 y1 z0 z1 : y0 < y1 -> z0 < z1 -> solid (plain (rect_poly y0 y1 z0 z1)).
Proof.
  intros A B f C P. rewrite surface_field. unfold sfield. cbn [plain rect_poly sf_ext sf_ints pl_ext pl_ints map]. rewrite lsum_nil, rect_ccw by assumption.
  assert (X : ex_RInt f z0 z1) by (apply (ex_RInt_continuous (V := R_CompleteNormedModule)); intros z _; apply continuity_pt_filterlim; apply C).
  rewrite (gfield_rect 0 f y0 y1 z0 z1 (RInt f z0 z1)) by (apply (RInt_correct (V := R_CompleteNormedModule)); exact X).
  assert (0 <= RInt f z0 z1) by (apply RInt_ge_0; [lra|exact X|intros; apply P]). cbn [Nat.add INR pow]. nra.
Qed.
Definition above (c : R) (g : R -> R) (z : R) : R := if Rlt_dec c z then g z else 0.
Lemma above_eint c g : eint g -> eint (above c g).
Proof.
  intros H. apply (eint_finite (keep (-1) c g) _ [c]); [|apply keep_eint; [now right|exact H]].
  intros z N. unfold keep, above. destruct (Rle_dec _ _), (Rlt_dec _ _); try reflexivity; exfalso; [apply N; left; lra|lra].
Qed.
Lemma above_int c g z0 z1 v : z0 < z1 -> c <= z0 -> is_RInt g z0 z1 v -> is_RInt (above c g) z0 z1 v.
Proof. intros A B H. eapply is_RInt_ext; [|exact H]. intros z Hz. rewrite Rmin_left, Rmax_right in Hz by lra. unfold above. destruct (Rlt_dec c z); [reflexivity|lra]. Qed.
Lemma below_int c g z0 z1 : z0 < z1 -> z1 <= c -> is_RInt (above c g) z0 z1 0.
Proof. intros A B. apply is_RInt_zero. intros z Hz. rewrite Rmin_left, Rmax_right in Hz by lra. unfold above. destruct (Rlt_dec c z); [lra|reflexivity]. Qed.

Lemma eint_poly g : (forall z, continuity_pt g z) -> eint g. Proof. apply eint_continuity. Qed.
Lemma rect_cuts y0 y1 z0 z1 c : y0 < y1 -> z0 < z1 -> cuts_at level_cutter middle (rect_poly y0 y1 z0 z1) c.
Proof.
  intros A B u w L.
  assert (QI : forall k0 k1 k2 k3 k4 k5 (G : (R -> R) -> R -> R) a b,
     (forall g, eint g -> eint (G g)) -> a < b ->
     forall W : (R -> R) -> R, (forall g, (forall z, continuity_pt g z) -> is_RInt (G g) a b (W g)) ->
     (forall y z, G (fun z => k0 + k1 * y + k2 * z + k3 * y ^ 2 + k4 * y * z + k5 * z ^ 2) z = G (fun z => k0 + k2 * z + k5 * z ^ 2) z + y * G (fun z => k1 + k4 * z) z + y ^ 2 * G (fun _ => k3) z) ->
     surface_integral (fun y z => G (fun z => k0 + k1 * y + k2 * z + k3 * y ^ 2 + k4 * y * z + k5 * z ^ 2) z) (plain (rect_poly y0 y1 a b))
     = (y1 ^ 1 / 1 - y0 ^ 1 / 1) * W (fun z => k0 + k2 * z + k5 * z ^ 2) + (y1 ^ 2 / 2 - y0 ^ 2 / 2) * W (fun z => k1 + k4 * z) + (y1 ^ 3 / 3 - y0 ^ 3 / 3) * W (fun _ => k3)).
  { intros k0 k1 k2 k3 k4 k5 G a b GE AB W GW LIN. unfold surface_integral. cbn [plain rect_poly sf_ext sf_ints pl_ext pl_ints map]. rewrite lsum_nil, rect_ccw by assumption.
    assert (C0 : forall z, continuity_pt (fun z => k0 + k2 * z + k5 * z ^ 2) z) by (intros z; reg).
    assert (C1 : forall z, continuity_pt (fun z => k1 + k4 * z) z) by (intros z; reg).
    assert (C2 : forall z, continuity_pt (fun _ : R => k3) z) by (intros z; reg).
    rewrite (region_poly _ (G (fun z => k0 + k2 * z + k5 * z ^ 2)) (G (fun z => k1 + k4 * z)) (G (fun _ => k3)) _ LIN)
      by (apply GE, eint_continuity; assumption).
    rewrite (gfield_rect 0 _ y0 y1 a b _ (GW _ C0)), (gfield_rect 1 _ y0 y1 a b _ (GW _ C1)), (gfield_rect 2 _ y0 y1 a b _ (GW _ C2)).
    replace (INR (0 + 1)) with 1 by (cbn; lra). replace (INR (1 + 1)) with 2 by (cbn; lra). replace (INR (2 + 1)) with 3 by (cbn; lra).
    cbn [Nat.add]. ring. }
  assert (IG : forall g a b, (forall z, continuity_pt g z) -> is_RInt g a b (RInt g a b)).
  { intros g a b C. apply (RInt_correct (V := R_CompleteNormedModule)). apply (ex_RInt_continuous (V := R_CompleteNormedModule)). intros z _. apply continuity_pt_filterlim. apply C. }
  assert (AL : forall k0 k1 k2 k3 k4 k5 y z, above c (fun z => k0 + k1 * y + k2 * z + k3 * y ^ 2 + k4 * y * z + k5 * z ^ 2) z
     = above c (fun z => k0 + k2 * z + k5 * z ^ 2) z + y * above c (fun z => k1 + k4 * z) z + y ^ 2 * above c (fun _ => k3) z).
  { intros. unfold above. destruct (Rlt_dec c z); ring. }
  unfold level_cutter. cbn [rect_poly pl_ext rect fst snd]. destruct (Rltb_spec z0 c) as [P|P]; [destruct (Rltb_spec c z1) as [Q|Q]|].
  - exists [rect_poly y0 y1 c z1], [rect_poly y0 y1 z0 c]. split; [apply Permutation_refl|]. split; [|split].
    + intros q [<-|[]]. unfold middle. cbn [rect_poly pl_ext rect fst snd pl_ints]. split; [lra|]. split; [now apply rect_solid|]. split; [apply rect_closed|contradiction].
    + intros q [<-|[]]. unfold middle. cbn [rect_poly pl_ext rect fst snd]. lra.
    + intros k0 k1 k2 k3 k4 k5. cbn [map]. rewrite lsum_cons, lsum_nil, Rplus_0_r. unfold part_above.
      etransitivity; [refine (QI k0 k1 k2 k3 k4 k5 (fun g => g) c z1 (fun g H => H) Q (fun g => RInt g c z1) _ _); [intros; now apply IG|intros; cbv beta; ring]|].
      symmetry. refine (QI k0 k1 k2 k3 k4 k5 (above c) z0 z1 (above_eint c) B (fun g => RInt g c z1) _ _).
      * intros g C. replace (RInt g c z1) with (plus 0 (RInt g c z1)) by (change (0 + RInt g c z1 = RInt g c z1); ring).
        apply (is_RInt_Chasles (V := R_NormedModule) (above c g) z0 c z1 0 (RInt g c z1)); [apply below_int; lra|]. apply above_int; [lra|lra|now apply IG].
      * apply AL.
  - exists [], [rect_poly y0 y1 z0 z1]. split; [apply Permutation_refl|]. split; [contradiction|split].
    + intros q [<-|[]]. unfold middle. cbn [rect_poly pl_ext rect fst snd]. lra.
    + intros k0 k1 k2 k3 k4 k5. cbn [map]. rewrite lsum_nil. unfold part_above. symmetry.
      etransitivity; [apply (QI k0 k1 k2 k3 k4 k5 (above c) z0 z1 (above_eint c) B (fun g => 0))|ring].
      * intros g C. apply below_int; lra.
      * apply AL.
  - exists [rect_poly y0 y1 z0 z1], []. split; [apply Permutation_refl|]. split; [|split].
    + intros q [<-|[]]. unfold middle. cbn [rect_poly pl_ext rect fst snd pl_ints]. split; [lra|]. split; [now apply rect_solid|]. split; [apply rect_closed|contradiction].
    + contradiction.
    + intros k0 k1 k2 k3 k4 k5. cbn [map]. rewrite lsum_cons, lsum_nil, Rplus_0_r. unfold part_above.
      etransitivity; [refine (QI k0 k1 k2 k3 k4 k5 (fun g => g) z0 z1 (fun g H => H) B (fun g => RInt g z0 z1) _ _); [intros; now apply IG|intros; cbv beta; ring]|].
      symmetry. refine (QI k0 k1 k2 k3 k4 k5 (above c) z0 z1 (above_eint c) B (fun g => RInt g z0 z1) _ _).
      * intros g C. apply above_int; [lra|lra|now apply IG].
      * apply AL.
Qed.
