(** Lemmas for C61, continued: forces and stiffness of a reordered section. *)
From Coq Require Import Permutation FunctionalExtensionality Lra Lia.
From Verif Require Import Base M_Marin S_Marin M_Laws M_Laws2 M_Fiber S_Fiber M_MarinInt S_MarinInt L_MarinInt2 L_MarinInt3 M_Section S_Section M_Domain S_Exact S_Turn L_Pieces S_Move L_Move S_Pieces L_Pieces2 L_Pieces3 S_Order L_Order L_Order2.

Section Integrators.
Variables (laws : nat -> law).
Hypothesis BA : forall k, batched (laws k).
Definition ans (what : integrand) (l : law) (e : R) : R := match what with IModulus => lw_tangent l e | _ => lw_stress l e end.
Definition fibre_entry (what : integrand) (strain : fibre -> R) (g : group) (f : fibre) : R * R * R :=
  (fb_y f, fb_z f, ans what (laws (gr_law g)) (strain f) * fb_a f).
Definition entries_at (what : integrand) (strain : fibre -> R) (gs : list group) : list (R * R * R) :=
  flat_map (fun g => map (fibre_entry what strain g) (gr_fibres g)) gs.
Lemma combine_map {A B} (h : A -> B) l : combine (map h l) l = map (fun x => (h x, x)) l.
Proof. induction l as [|x l IH]; [reflexivity|]. cbn [map combine]. now rewrite IH. Qed.
Lemma prepared what s gs : what <> IOther -> prepare_groups laws what s gs = Ok (entries_at what (fibre_strain s) gs).
Proof.
  intros W. induction gs as [|g gs IH]; [reflexivity|]. cbn [prepare_groups]. rewrite IH.
  assert (V : group_values laws what s g = Ok (map (fun f => ans what (laws (gr_law g)) (fibre_strain s f)) (gr_fibres g))).
  { unfold group_values. destruct (BA (gr_law g)) as (B1 & B2). destruct what; [| |congruence]; rewrite ?B1, ?B2, map_map; cbn [ans]; destruct (gr_scalar g); reflexivity. }
  rewrite V. cbn [bind]. rewrite combine_map, map_map. reflexivity.
Qed.
Lemma bars_prepared what e0 e1 gs : what <> IOther -> bars_entries laws what e0 e1 gs = Ok (entries_at what (z_strain e0 e1) gs).
Proof.
  intros W. induction gs as [|g gs IH]; [reflexivity|]. cbn [bars_entries]. rewrite IH.
  assert (V : bar_values laws what e0 e1 g = Ok (map (fun f => ans what (laws (gr_law g)) (z_strain e0 e1 f)) (gr_fibres g))).
  { unfold bar_values. destruct (BA (gr_law g)) as (B1 & B2). destruct what; [| |congruence]; rewrite ?B1, ?B2, map_map; cbn [ans]; destruct (gr_scalar g); reflexivity. }
  rewrite V. cbn [bind]. rewrite combine_map, map_map. reflexivity.
Qed.
Lemma entries_perm what strain d d' : gperm d d' -> Permutation (entries_at what strain d) (entries_at what strain d').
Proof.
  intros G. apply gperm_flat; [|exact G]. intros x y (L & F). unfold fibre_entry. rewrite L. now apply Permutation_map.
Qed.
Lemma lsum_perm_map {A} (f : A -> R) l l' : Permutation l l' -> lsum (map f l') = lsum (map f l).
Proof. intros P. symmetry. apply lsum_perm. now apply Permutation_map. Qed.
Lemma stress_perm v v' : Permutation v v' -> f_integrate_stress v' = f_integrate_stress v.
Proof. intros P. unfold f_integrate_stress. now rewrite !(lsum_perm_map _ _ _ P). Qed.
Lemma modulus_perm v v' : Permutation v v' -> f_integrate_modulus v' = f_integrate_modulus v.
Proof.
  intros P. apply functional_extensionality. intros i. apply functional_extensionality. intros j. unfold f_integrate_modulus.
  rewrite !(lsum_perm_map _ _ _ P). reflexivity.
Qed.

Variables (g g' : compound).
Hypothesis P : reordered g g'.
Section Fibres.
Variable mesher : surface -> R -> list mtri.
Lemma triangulate_perm ms : match triangulate mesher g ms, triangulate mesher g' ms with Ok d, Ok d' => gperm d d' | Err e, Err e' => e' = e | _, _ => False end.
Proof.
  unfold triangulate. destruct (_ || _)%bool; [reflexivity|]. apply gperm_app.
  - apply gperm_perm, Permutation_map, P.
  - apply bar_groups_perm, P.
Qed.
Lemma fiber_prepare what s d d' ms : what <> IOther -> orel gperm d d' ->
  match prepare_input laws mesher g s what d ms, prepare_input laws mesher g' s what d' ms with
  | Ok (v, D), Ok (v', D') => Permutation v v' /\ gperm D D' | Err e, Err e' => e' = e | _, _ => False end.
Proof.
  intros W O. unfold prepare_input.
  assert (T : match (match d with Some d => Ok d | None => triangulate mesher g (match ms with Some m => m | None => 1 / 100 end) end),
                    (match d' with Some d => Ok d | None => triangulate mesher g' (match ms with Some m => m | None => 1 / 100 end) end) with
              | Ok D, Ok D' => gperm D D' | Err e, Err e' => e' = e | _, _ => False end).
  { destruct d as [d|], d' as [d'|]; cbn [orel] in O; try contradiction; [exact O|apply triangulate_perm]. }
  destruct (match d with Some d => Ok d | None => triangulate mesher g (match ms with Some m => m | None => 1 / 100 end) end) as [D|e],
           (match d' with Some d => Ok d | None => triangulate mesher g' (match ms with Some m => m | None => 1 / 100 end) end) as [D'|e']; cbn [bind]; try contradiction; [|exact T].
  rewrite !prepared by exact W. cbn [bind]. pose proof (gperm_nil D D' T) as Z.
  destruct D, D'; [reflexivity|pose proof (proj1 Z eq_refl); discriminate|pose proof (proj2 Z eq_refl); discriminate|].
  split; [apply entries_perm, T|exact T].
Qed.
Lemma fiber_kin_forces : kin_forces (fiber_integ laws mesher) gperm g g'.
Proof.
  intros p d d' m O. unfold outs. cbn [fiber_integ ig_forces]. unfold fiber_forces.
  pose proof (fiber_prepare IStress p d d' m ltac:(discriminate) O) as F.
  destruct (prepare_input laws mesher g p IStress d m) as [[v D]|e], (prepare_input laws mesher g' p IStress d' m) as [[v' D']|e']; cbn [bind fst snd]; try contradiction; [|exact F].
  destruct F as (V & G). split; [now apply stress_perm|exact G].
Qed.
Lemma fiber_kin_modulus : kin_modulus (fiber_integ laws mesher) gperm g g'.
Proof.
  intros p d d' m O. unfold outs. cbn [fiber_integ ig_modulus]. unfold fiber_stiffness.
  pose proof (fiber_prepare IModulus p d d' m ltac:(discriminate) O) as F.
  destruct (prepare_input laws mesher g p IModulus d m) as [[v D]|e], (prepare_input laws mesher g' p IModulus d' m) as [[v' D']|e']; cbn [bind fst snd]; try contradiction; [|exact F].
  destruct F as (V & G). split; [now apply modulus_perm|exact G].
Qed.
End Fibres.

(** The exact integrator. *)
Section Marin.
Definition drawing (what : integrand) (e r : R) (s : surface) : list s_entry :=
  match surface_entries (laws (sf_law s)) what e r s with Ok (_, es) => es | Err _ => [] end.
Lemma surfaces_flat what e w r ss : (forall s, In s ss -> surface_entries (laws (sf_law s)) what e r s = Ok (w, drawing what e r s) /\
    surface_entries (laws (sf_law s)) what w r s = Ok (w, drawing what e r s)) ->
  surfaces_entries laws what e r ss = Ok (match ss with [] => e | _ => w end, flat_map (drawing what e r) ss).
Proof.
  intros H.
  assert (T : forall l, (forall s, In s l -> In s ss) -> surfaces_entries laws what w r l = Ok (w, flat_map (drawing what e r) l)).
  { induction l as [|s l IH]; intros I; [reflexivity|]. cbn [surfaces_entries]. rewrite (proj2 (H s (I s (or_introl eq_refl)))). cbn [bind fst snd]. rewrite IH by (intros x X; apply I; right; exact X). reflexivity. }
  destruct ss as [|s ss]; [reflexivity|]. cbn [surfaces_entries]. rewrite (proj1 (H s (or_introl eq_refl))). cbn [bind fst snd].
  rewrite T by (intros x X; right; exact X). reflexivity.
Qed.
Lemma entry_ask l what e0 e1 s : what <> IOther -> surface_entries l what e0 e1 s =
     let '(e0', (rs, cs)) := ask what l (e0, e1) in
     match rs with
     | None => match cs with [] => Err IndexError | c :: _ => Ok (e0', map (fun ring => (c, ring)) (oriented s)) end
     | Some rs => do es <- range_entries e0' e1 (oriented s) rs cs; Ok (e0', es)
     end.
Proof. intros W. unfold surface_entries, ask. destruct what; try congruence; reflexivity. Qed.
(** Sections whose laws answer everywhere. *)
Definition answers (what : integrand) (cs : nat -> R -> R) (k : compound) : Prop := forall s, In s (cg_surf k) ->
  (forall e r, 0 < r -> field_of (ask what (laws (sf_law s)) (e, r)) (cs (sf_law s)) e r) /\
  (forall e, uniform_output (ask what (laws (sf_law s)) (e, 0))) /\
  (forall e, ask what (laws (sf_law s)) (fst (ask what (laws (sf_law s)) (e, 0)), 0) = ask what (laws (sf_law s)) (e, 0)) /\
  (forall s' e, In s' (cg_surf k) -> fst (ask what (laws (sf_law s)) (e, 0)) = fst (ask what (laws (sf_law s')) (e, 0))) /\
  closed (sf_ext s) /\ (forall q, In q (sf_ints s) -> closed q).
Lemma marin_prepare what cs p d d' : what <> IOther -> answers what cs g -> orel gperm d d' ->
  match m_prepare laws g p what d, m_prepare laws g' p what d' with
  | Ok (phi, es, bs, D), Ok (phi', es', bs', D') => phi' = phi /\ Permutation es es' /\ Permutation bs bs' /\ gperm D D'
  | Err e, Err e' => e' = e | _, _ => False end.
Proof.
  intros W A O. unfold m_prepare. cbv zeta. set (a := - atan2 (p_kz p) (p_ky p)). set (r := sqrt (p_kz p ^ 2 + p_ky p ^ 2)). set (e := p_e0 p).
  assert (X : exists w, forall s, In s (map (rotate_surface a) (cg_surf g)) -> surface_entries (laws (sf_law s)) what e r s = Ok (w, drawing what e r s) /\
    surface_entries (laws (sf_law s)) what w r s = Ok (w, drawing what e r s)).
  { destruct (cg_surf g) as [|s1 ss1] eqn:ES; [exists 0; intros s []|].
    assert (I1 : In s1 (cg_surf g)) by (rewrite ES; left; reflexivity). rewrite <- ES.
    destruct (Rle_lt_or_eq_dec 0 r (sqrt_pos _)) as [RP|RZ].
    - exists e. intros s I. apply in_map_iff in I as (s0 & <- & I). destruct (A s0 I) as (FO & _ & _ & _ & C1 & C2).
      destruct (surface_entries_ok (laws (sf_law (rotate_surface a s0))) what e r (rotate_surface a s0) (cs (sf_law s0)) W (FO e r RP)) as (_ & es & E & _).
      + cbn [rotate_surface sf_ext]. exact (closed_rot a _ C1).
      + cbn [rotate_surface sf_ints]. intros q Q. apply in_map_iff in Q as (q0 & <- & Q). exact (closed_rot a _ (C2 q0 Q)).
      + unfold drawing. rewrite E. auto.
    - rewrite <- RZ. exists (fst (ask what (laws (sf_law s1)) (e, 0))). intros s I. apply in_map_iff in I as (s0 & <- & I). cbn [rotate_surface sf_law].
      destruct (A s0 I) as (_ & UN & RP & AL & _). rewrite <- (AL s1 e I1). unfold drawing. rewrite !entry_ask by exact W. cbn [rotate_surface sf_law]. rewrite (RP e).
      destruct (UN e) as (v & c & UE & _). destruct (ask what (laws (sf_law s0)) (e, 0)) as [u [rs co]]. cbn [fst snd] in *. injection UE as -> ->. auto. }
  destruct X as (w & X).
  assert (PS : Permutation (map (rotate_surface a) (cg_surf g)) (map (rotate_surface a) (cg_surf g'))) by (apply Permutation_map, P).
  rewrite (surfaces_flat what e w r _ X).
  rewrite (surfaces_flat what e w r (map (rotate_surface a) (cg_surf g'))) by (intros s I; apply X; apply Permutation_in with (2 := I); now apply Permutation_sym).
  cbn [bind fst snd].
  assert (EW : match map (rotate_surface a) (cg_surf g') with [] => e | _ => w end = match map (rotate_surface a) (cg_surf g) with [] => e | _ => w end).
  { pose proof (Permutation_length PS) as L. destruct (map (rotate_surface a) (cg_surf g)), (map (rotate_surface a) (cg_surf g')); try discriminate; reflexivity. }
  rewrite EW. set (x := match map (rotate_surface a) (cg_surf g) with [] => e | _ => w end).
  set (D := match d with Some d0 => map (rotate_group a) d0 | None => bar_groups (map (rotate_bar a) (cg_bars g)) end).
  set (D' := match d' with Some d0 => map (rotate_group a) d0 | None => bar_groups (map (rotate_bar a) (cg_bars g')) end).
  assert (G : gperm D D').
  { unfold D, D'. destruct d as [d|], d' as [d'|]; cbn [orel] in O; try contradiction; [now apply gperm_rotate|]. apply bar_groups_perm, Permutation_map, P. }
  rewrite !bars_prepared by exact W. cbn [bind]. rewrite (gperm_homogeneous D D' G). destruct (homogeneous D); [|reflexivity].
  split; [reflexivity|]. split; [now apply Permutation_flat_map|]. split; [now apply entries_perm|exact G].
Qed.
Lemma marin_kin_forces cs : answers IStress cs g -> kin_forces (marin_integ laws) gperm g g'.
Proof.
  intros A p d d' m O. unfold outs. cbn [marin_integ ig_forces]. unfold marin_forces.
  pose proof (marin_prepare IStress cs p d d' ltac:(discriminate) A O) as F.
  destruct (m_prepare laws g p IStress d) as [[[[phi es] bs] D]|e], (m_prepare laws g' p IStress d') as [[[[phi' es'] bs'] D']|e']; cbn [bind]; try contradiction; [|exact F].
  destruct F as (-> & E & B & G). split; [|now apply gperm_rotate]. unfold m_integrate_stress. cbv zeta. rewrite !(lsum_perm_map _ _ _ E), !(lsum_perm_map _ _ _ B). reflexivity.
Qed.
Lemma marin_kin_modulus cs : answers IModulus cs g -> kin_modulus (marin_integ laws) gperm g g'.
Proof.
  intros A p d d' m O. unfold outs. cbn [marin_integ ig_modulus]. unfold marin_stiffness.
  pose proof (marin_prepare IModulus cs p d d' ltac:(discriminate) A O) as F.
  destruct (m_prepare laws g p IModulus d) as [[[[phi es] bs] D]|e], (m_prepare laws g' p IModulus d') as [[[[phi' es'] bs'] D']|e']; cbn [bind]; try contradiction; [|exact F].
  destruct F as (-> & E & B & G). split; [|now apply gperm_rotate]. unfold m_integrate_modulus. f_equal. f_equal.
  apply functional_extensionality. intros i. apply functional_extensionality. intros j. unfold m_stiff_rot. rewrite !(lsum_perm_map _ _ _ E), !(lsum_perm_map _ _ _ B). reflexivity.
Qed.
End Marin.

(** Lowest ordinate. *)
Lemma rmin_fold (l l' : list surface) : Permutation l l' -> forall a, fold_left (fun m s => Rmin m (ring_min (sf_ext s))) l' a = fold_left (fun m s => Rmin m (ring_min (sf_ext s))) l a.
Proof.
  intros Q. induction Q as [|x l l' Q IH|x y l|l l' l'' Q1 IH1 Q2 IH2]; intros a; cbn [fold_left].
  - reflexivity.
  - apply IH.
  - f_equal. rewrite <- !Rmin_assoc. f_equal. apply Rmin_comm.
  - rewrite IH2. apply IH1.
Qed.
Lemma min_y_perm : min_y g' = min_y g.
Proof. unfold min_y. apply rmin_fold, P. Qed.
End Integrators.
Lemma reordered_rotate a g g' : reordered g g' -> reordered (rotate_geo a g) (rotate_geo a g').
Proof. intros (S0 & B0). split; cbn [rotate_geo cg_surf cg_bars]; now apply Permutation_map. Qed.
