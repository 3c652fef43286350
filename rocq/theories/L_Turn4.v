(** Lemmas for C56: uniform strains; the stored data of the turned section. *)
From Coq Require Import FunctionalExtensionality Lra Lia.
From Coquelicot Require Import Coquelicot.
From Verif Require Import Base M_Marin S_Marin L_Marin M_Laws M_Laws2 M_Fiber S_Fiber L_Fiber M_MarinInt L_MarinInt L_MarinInt2 L_MarinInt3 L_MarinInt4 L_Frame4 M_Section S_Section L_Section M_Domain S_History L_History
  P_Fiber P_MarinInt S_Frame P_Frame S_MarinInt S_Exact S_Turn L_Turn L_Turn2 L_Turn3.

Lemma moments_plus a M M' N N' : moments_turn a M M' -> moments_turn a N N' -> moments_turn a (fun i j => M i j + N i j) (fun i j => M' i j + N' i j).
Proof.
  unfold moments_turn. cbv zeta. intros (A & B & C & D & E & F) (A2 & B2 & C2 & D2 & E2 & F2). rewrite A, B, C, D, E, F, A2, B2, C2, D2, E2, F2. repeat split; ring.
Qed.
Lemma moments_scal a M M' v : moments_turn a M M' -> moments_turn a (fun i j => v * M i j) (fun i j => v * M' i j).
Proof. unfold moments_turn. cbv zeta. intros (A & B & C & D & E & F). rewrite A, B, C, D, E, F. repeat split; ring. Qed.
Lemma moments_sum {A} a (f f' : A -> nat -> nat -> R) l : (forall x, In x l -> moments_turn a (f x) (f' x)) ->
  moments_turn a (fun i j => lsum (map (fun x => f x i j) l)) (fun i j => lsum (map (fun x => f' x i j) l)).
Proof.
  induction l as [|x l IH]; intros H.
  - unfold moments_turn. cbn [map]. change (lsum []) with 0. cbv zeta. repeat split; ring.
  - pose proof (moments_plus a _ _ _ _ (H x (or_introl eq_refl)) (IH (fun y Hy => H y (or_intror Hy)))) as P.
    unfold moments_turn in *. cbv zeta in *. cbn [map]. rewrite !lsum_cons. exact P.
Qed.
Lemma moments_ext a M M' N N' : (forall i j, M i j = N i j) -> (forall i j, M' i j = N' i j) -> moments_turn a N N' -> moments_turn a M M'.
Proof. intros H H'. unfold moments_turn. cbv zeta. rewrite !H, !H'. exact (fun x => x). Qed.
(** Entries with constant coefficients. *)
Lemma coeff_constant v c ring m off : (forall x, In x c -> x = 0) -> coeff_sum (v :: c, ring) m off = v * fan_moment m off ring.
Proof.
  intros Z. unfold coeff_sum. cbn [fst snd length seq map]. rewrite lsum_cons. change (nth 0 (v :: c) 0) with v. change (0 + off)%nat with off.
  assert (MF : forall k, moment_of ring m k = fan_moment m k ring) by (intros k; unfold moment_of; rewrite ring_moment_fan; reflexivity). rewrite MF.
  assert (L : lsum (map (fun k => nth k (v :: c) 0 * moment_of ring m (k + off)) (seq 1 (length c))) = 0).
  { rewrite (lsum_map_ext _ (fun _ => 0)).
    - induction (seq 1 (length c)) as [|x l IH]; [reflexivity|]. cbn [map]. rewrite lsum_cons, IH. ring.
    - intros k Hk. apply in_seq in Hk. destruct k as [|k]; [lia|]. cbn [nth]. rewrite (Z (nth k c 0)); [ring|]. apply nth_In. lia. }
  rewrite L. ring.
Qed.
Definition es_moment (es : list s_entry) (m n : nat) : R := lsum (map (fun e => coeff_sum e m n) es).
Lemma es_moment_app a b m n : es_moment (a ++ b) m n = es_moment a m n + es_moment b m n.
Proof. unfold es_moment. rewrite map_app, lsum_app. reflexivity. Qed.
Lemma oriented_turned a s : oriented (rotate_surface a s) = map (map (rot a)) (oriented s).
Proof.
  unfold oriented, rotate_surface. cbn [sf_ext sf_ints map]. f_equal.
  - rewrite !orient_ext_ccw. exact (turn_ccw a (sf_ext s)).
  - rewrite !map_map. apply map_ext. intros q. rewrite !orient_int_cw. exact (turn_cw a q).
Qed.
Lemma surface_uniform l what a e s : what <> IOther -> uniform_output (ask what l (e, 0)) -> exists e' es es',
  surface_entries l what e 0 s = Ok (e', es) /\ surface_entries l what e 0 (rotate_surface a s) = Ok (e', es') /\ moments_turn a (es_moment es) (es_moment es').
Proof.
  intros W (v & c & E & Z). unfold surface_entries.
  assert (EX : match what with IStress => Ok (lw_marin l (e, 0)) | IModulus => Ok (lw_marin_tangent l (e, 0)) | IOther => Err ValueError end = Ok (ask what l (e, 0))) by (destruct what; [reflexivity..|contradiction]).
  rewrite EX. cbn [bind]. destruct (ask what l (e, 0)) as [e' o]. cbn [snd] in E. subst o. do 3 eexists. split; [reflexivity|]. split; [reflexivity|].
  rewrite oriented_turned. unfold es_moment.
  apply (moments_ext a _ _ (fun m n => lsum (map (fun r => v * fan_moment m n r) (oriented s))) (fun m n => lsum (map (fun r => v * fan_moment m n (map (turn a) r)) (oriented s)))).
  - intros i j. rewrite map_map. apply lsum_map_ext. intros r _. now apply coeff_constant.
  - intros i j. rewrite !map_map. apply lsum_map_ext. intros r _. exact (coeff_constant v c _ i j Z).
  - apply (moments_sum a (fun r m n => v * fan_moment m n r) (fun r m n => v * fan_moment m n (map (turn a) r))). intros r _. apply moments_scal. exact (turned_moments a r).
Qed.
Lemma surfaces_uniform laws what a ss : what <> IOther -> (forall s e, In s ss -> uniform_output (ask what (laws (sf_law s)) (e, 0))) -> forall e, exists e' es es',
  surfaces_entries laws what e 0 ss = Ok (e', es) /\ surfaces_entries laws what e 0 (map (rotate_surface a) ss) = Ok (e', es') /\ moments_turn a (es_moment es) (es_moment es').
Proof.
  intros W. induction ss as [|s ss IH]; intros H e.
  - exists e, [], []. split; [reflexivity|]. split; [reflexivity|]. unfold moments_turn, es_moment. cbn [map]. change (lsum []) with 0. cbv zeta. repeat split; ring.
  - destruct (surface_uniform (laws (sf_law s)) what a e s W (H s e (or_introl eq_refl))) as (e1 & es & es' & E1 & E1' & M1).
    destruct (IH (fun x y Hx => H x y (or_intror Hx)) e1) as (e2 & fs & fs' & E2 & E2' & M2).
    exists e2, (es ++ fs), (es' ++ fs'). cbn [surfaces_entries map]. change (sf_law (rotate_surface a s)) with (sf_law s). rewrite E1, E1'. cbn [bind fst snd]. rewrite E2, E2'. split; [reflexivity|]. split; [reflexivity|].
    apply (moments_ext a _ _ _ _ (es_moment_app es fs) (es_moment_app es' fs')). now apply moments_plus.
Qed.
Lemma combine_turn a v fs : map (fun vf : R * fibre => (fb_y (snd vf), fb_z (snd vf), fst vf * fb_a (snd vf))) (combine v (map (rotate_fibre a) fs)) =
  map (vturn a) (map (fun vf : R * fibre => (fb_y (snd vf), fb_z (snd vf), fst vf * fb_a (snd vf))) (combine v fs)).
Proof. revert fs. induction v as [|x v IH]; intros [|f fs]; try reflexivity. cbn [map combine]. rewrite IH. reflexivity. Qed.
Lemma bars_uniform laws what a b e gs : bars_entries laws what e 0 (map (rotate_group a) (map (rotate_group b) gs)) =
  rmap (map (vturn a)) (bars_entries laws what e 0 (map (rotate_group b) gs)).
Proof.
  induction gs as [|x gs IH]; [reflexivity|]. cbn [map bars_entries]. rewrite IH.
  assert (V : bar_values laws what e 0 (rotate_group a (rotate_group b x)) = bar_values laws what e 0 (rotate_group b x)).
  { unfold bar_values. cbn [rotate_group gr_fibres gr_scalar gr_law].
    replace (map (z_strain e 0) (map (rotate_fibre a) (map (rotate_fibre b) (gr_fibres x)))) with (map (z_strain e 0) (map (rotate_fibre b) (gr_fibres x))); [reflexivity|].
    rewrite !map_map. apply map_ext. intros f. unfold z_strain. ring. }
  rewrite V. destruct (bar_values laws what e 0 (rotate_group b x)) as [v|]; cbn [bind rmap]; [|reflexivity].
  destruct (bars_entries laws what e 0 (map (rotate_group b) gs)) as [r|]; cbn [bind rmap]; [|reflexivity].
  f_equal. rewrite map_app. f_equal. cbn [rotate_group gr_fibres]. apply combine_turn.
Qed.
Lemma homogeneous_turn a b gs : homogeneous (map (rotate_group a) (map (rotate_group b) gs)) = homogeneous (map (rotate_group b) gs).
Proof.
  destruct gs as [|x gs]; [reflexivity|]. cbn [map homogeneous rotate_group gr_fibres]. rewrite !map_length.
  induction gs as [|y gs IH]; [reflexivity|]. cbn [map forallb rotate_group gr_fibres]. rewrite !map_length, IH. reflexivity.
Qed.
Lemma stress_moments b es bs : b = 0 -> let M i j := es_moment es i j + vm i j bs in m_integrate_stress b es bs = (M 0%nat 0%nat, M 0%nat 1%nat, - M 1%nat 0%nat).
Proof.
  intros ->. cbv zeta. unfold m_integrate_stress, es_moment, vm. rewrite Ropp_0, cos_0, sin_0.
  rewrite (lsum_map_ext (fun b => snd b) (fun x : R * R * R => snd x * (fst (fst x) ^ 0 * snd (fst x) ^ 0)) bs) by (intros; cbn [pow]; ring).
  rewrite (lsum_map_ext (fun b => snd b * snd (fst b)) (fun x : R * R * R => snd x * (fst (fst x) ^ 0 * snd (fst x) ^ 1)) bs) by (intros; cbn [pow]; ring).
  rewrite (lsum_map_ext (fun b => snd b * fst (fst b)) (fun x : R * R * R => snd x * (fst (fst x) ^ 1 * snd (fst x) ^ 0)) bs) by (intros; cbn [pow]; ring).
  apply pair3; ring.
Qed.
Lemma modulus_moments b es bs : b = 0 -> eq3 (m_integrate_modulus b es bs) (matrix_of (fun i j => es_moment es i j + vm i j bs)).
Proof.
  intros -> i j Hi Hj. assert (V : forall k l (h : R * R * R -> R), (forall x, h x = snd x * (fst (fst x) ^ k * snd (fst x) ^ l)) -> lsum (map h bs) = vm k l bs).
  { intros k l h H. unfold vm. apply lsum_map_ext. intros; apply H. }
  unfold m_integrate_modulus. assert (T : forall i j, m_T 0 i j = match i, j with 0%nat, 0%nat | 1%nat, 1%nat | 2%nat, 2%nat => 1 | _, _ => 0 end).
  { intros u w. unfold m_T. rewrite Ropp_0, cos_0, sin_0. destruct u as [|[|[|u]]], w as [|[|[|w]]]; try reflexivity. ring. }
  unfold mmul, mtr. rewrite !T. nine Hi Hj i j; cbn [m_stiff_rot matrix_of];
  rewrite ?(V 0%nat 0%nat (fun b => snd b)), ?(V 0%nat 1%nat (fun b => snd b * snd (fst b))), ?(V 1%nat 0%nat (fun b => snd b * fst (fst b))),
    ?(V 0%nat 2%nat (fun b => snd b * snd (fst b) * snd (fst b))), ?(V 1%nat 1%nat (fun b => snd b * fst (fst b) * snd (fst b))), ?(V 2%nat 0%nat (fun b => snd b * fst (fst b) * fst (fst b)))
    by (intros; cbn [pow]; ring); unfold es_moment; ring.
Qed.

Section MarinTurn.
Variables (laws : nat -> law) (g : compound) (phi : R).
Hypothesis ST : steady laws g.
Let D := map unscalar (bar_groups (cg_bars g)).
Let D' := map unscalar (bar_groups (cg_bars (rotate_geo phi g))).
Lemma marin_data : eqd D' (map (rotate_group phi) D).
Proof.
  unfold D, D', rotate_geo. cbn [cg_bars]. rewrite unscalar_groups, rotate_unscalar_map. apply eqd_refl.
Qed.
Lemma zero_length ky kz : sqrt (kz ^ 2 + ky ^ 2) = 0 -> ky = 0 /\ kz = 0.
Proof.
  intros H. assert (P : 0 <= kz ^ 2 + ky ^ 2) by nra. apply sqrt_eq_0 in H; [|exact P]. split; nra.
Qed.
Lemma prepare_uniform what e0 : what <> IOther ->
  match m_prepare laws g (e0, 0, 0) what (Some D), m_prepare laws (rotate_geo phi g) (e0, 0, 0) what (Some (map (rotate_group phi) D)) with
  | Ok (a, es, bs, _), Ok (a', es', bs', _) => a = 0 /\ a' = 0 /\ moments_turn phi (es_moment es) (es_moment es') /\ bs' = map (vturn phi) bs
  | Err e, Err e' => e = e' | _, _ => False end.
Proof.
  intros W. assert (A0 : - atan2 0 0 = 0) by (unfold atan2; destruct (Rltb_spec 0 0); [lra|]; ring).
  assert (R0 : sqrt (0 ^ 2 + 0 ^ 2) = 0) by (rewrite <- sqrt_0 at 3; f_equal; ring).
  unfold m_prepare, p_e0, p_ky, p_kz. cbn [fst snd]. rewrite R0, A0. cbn zeta.
  destruct (surfaces_uniform laws what phi (map (rotate_surface 0) (cg_surf g)) W) with (e := e0) as (e' & es & es' & E & E' & M).
  { intros s e HS. apply in_map_iff in HS. destruct HS as (s0 & <- & HS). destruct (ST s0 e HS) as (S1 & S2). destruct what; [exact S1|exact S2|contradiction]. }
  rewrite E.
  assert (SE : map (rotate_surface 0) (cg_surf (rotate_geo phi g)) = map (rotate_surface phi) (map (rotate_surface 0) (cg_surf g))).
  { pose proof (f_equal cg_surf (rotate_rotate 0 phi g)) as X1. pose proof (f_equal cg_surf (rotate_rotate phi 0 g)) as X2. unfold rotate_geo in X1, X2. cbn [cg_surf] in X1, X2.
    unfold rotate_geo. cbn [cg_surf]. rewrite X1, X2. replace (0 + phi) with (phi + 0) by ring. reflexivity. }
  assert (GE : map (rotate_group 0) (map (rotate_group phi) D) = map (rotate_group phi) (map (rotate_group 0) D)).
  { rewrite !rotate_groups. replace (0 + phi) with (phi + 0) by ring. reflexivity. }
  rewrite SE, E', GE. cbn [bind fst snd]. rewrite bars_uniform, homogeneous_turn.
  destruct (bars_entries laws what e' 0 (map (rotate_group 0) D)) as [bs|]; cbn [bind rmap]; [|reflexivity].
  destruct (homogeneous _); [|reflexivity]. split; [reflexivity|]. split; [reflexivity|]. split; [exact M|reflexivity].
Qed.
Lemma marin_turn_forces p : rmap fst (marin_forces laws (rotate_geo phi g) (spun3 phi p) (Some D')) = rmap (spun3 phi) (rmap fst (marin_forces laws g p (Some D))).
Proof.
  pose proof (mprep_unscalar laws (rotate_geo phi g) (spun3 phi p) IStress D' (map (rotate_group phi) D) marin_data) as X.
  assert (Y : marin_forces laws (rotate_geo phi g) (spun3 phi p) (Some D') = marin_forces laws (rotate_geo phi g) (spun3 phi p) (Some (map (rotate_group phi) D)))
    by (unfold marin_forces; rewrite X; reflexivity). rewrite Y. clear X Y.
  destruct p as [[e0 ky] kz]. destruct (Req_dec (sqrt (kz ^ 2 + ky ^ 2)) 0) as [Z|N]; [|exact (marin_forces_aligned laws phi g e0 ky kz D N)].
  destruct (zero_length ky kz Z) as (-> & ->).
  assert (Z0 : spun3 phi (e0, 0, 0) = (e0, 0, 0)) by (unfold spun3, spun; cbn [fst snd]; apply pair3; ring). rewrite Z0.
  pose proof (prepare_uniform IStress e0 ltac:(discriminate)) as P. unfold marin_forces.
  destruct (m_prepare laws g (e0, 0, 0) IStress (Some D)) as [[[[a es] bs] gs]|e], (m_prepare laws (rotate_geo phi g) (e0, 0, 0) IStress (Some (map (rotate_group phi) D))) as [[[[a' es'] bs'] gs']|e'];
    try contradiction; cbn [bind rmap fst]; [|congruence].
  destruct P as (A & A' & M & ->). f_equal. rewrite (stress_moments a es bs A), (stress_moments a' es' _ A'). cbv zeta.
  apply (spun3_moments phi (fun i j => es_moment es i j + vm i j bs) (fun i j => es_moment es' i j + vm i j (map (vturn phi) bs))). apply moments_plus; [exact M|apply vm_turn].
Qed.
Lemma marin_turn_stiffness p : match marin_stiffness laws g p (Some D), marin_stiffness laws (rotate_geo phi g) (spun3 phi p) (Some D') with
  | Ok (K, _), Ok (K', _) => eq3 K' (turn_matrix phi K) | Err e, Err e' => e = e' | _, _ => False end.
Proof.
  pose proof (mprep_unscalar laws (rotate_geo phi g) (spun3 phi p) IModulus D' (map (rotate_group phi) D) marin_data) as X.
  assert (Y : marin_stiffness laws (rotate_geo phi g) (spun3 phi p) (Some D') = marin_stiffness laws (rotate_geo phi g) (spun3 phi p) (Some (map (rotate_group phi) D)))
    by (unfold marin_stiffness; rewrite X; reflexivity). rewrite Y. clear X Y.
  destruct p as [[e0 ky] kz]. destruct (Req_dec (sqrt (kz ^ 2 + ky ^ 2)) 0) as [Z|N]; [|exact (marin_stiffness_aligned laws phi g e0 ky kz D N)].
  destruct (zero_length ky kz Z) as (-> & ->).
  assert (Z0 : spun3 phi (e0, 0, 0) = (e0, 0, 0)) by (unfold spun3, spun; cbn [fst snd]; apply pair3; ring). rewrite Z0.
  pose proof (prepare_uniform IModulus e0 ltac:(discriminate)) as P. unfold marin_stiffness.
  destruct (m_prepare laws g (e0, 0, 0) IModulus (Some D)) as [[[[a es] bs] gs]|e], (m_prepare laws (rotate_geo phi g) (e0, 0, 0) IModulus (Some (map (rotate_group phi) D))) as [[[[a' es'] bs'] gs']|e'];
    try contradiction; cbn [bind rmap fst]; [|congruence].
  destruct P as (A & A' & M & ->). eapply eq3_trans; [apply (modulus_moments a' es' _ A')|]. eapply eq3_trans; [|apply turn_matrix_eq, eq3_sym, (modulus_moments a es bs A)].
  apply turn_matrix_of. apply moments_plus; [exact M|apply vm_turn].
Qed.
End MarinTurn.

(** Meshes of the turned section. *)
Lemma fibre_of_turned a (T : mtri) : fibre_of_triangle (let '(p, q, r) := T in (spun a (fst p) (snd p), spun a (fst q) (snd q), spun a (fst r) (snd r))) = rotate_fibre a (fibre_of_triangle T).
Proof.
  destruct T as [[[p1 p2] [q1 q2]] [r1 r2]]. unfold fibre_of_triangle, rotate_fibre, spun, rot. cbn [fst snd fb_y fb_z fb_a]. pose proof (sin2_cos2 a) as P. unfold Rsqr in P.
  f_equal; try field. f_equal. f_equal.
  transitivity ((sin a * sin a + cos a * cos a) * (p1 * q2 - p2 * q1 + (q1 * r2 - q2 * r1) + (r1 * p2 - r2 * p1))); [ring|]. rewrite P. ring.
Qed.
Lemma area_turned a s : surface_area (rotate_surface a s) = surface_area s.
Proof.
  assert (SH : forall r, shoe (map (rot a) r) = shoe r).
  { intros r. induction r as [|p r IH]; [reflexivity|]. destruct r as [|q r]; [reflexivity|]. cbn [map shoe] in *. rewrite IH. f_equal.
    destruct p as [p1 p2], q as [q1 q2]. unfold rot. cbn [fst snd]. pose proof (sin2_cos2 a) as P. unfold Rsqr in P. f_equal.
    transitivity ((sin a * sin a + cos a * cos a) * (p1 * q2 - q1 * p2)); [ring|]. rewrite P. ring. }
  unfold surface_area, rotate_surface. cbn [sf_ext sf_ints]. rewrite ?SH, ?map_map. repeat f_equal. 
  extensionality r. rewrite SH. reflexivity.
Qed.
Lemma triangulate_turned mesher a g ms D : mesher_turns mesher a g -> triangulate mesher g ms = Ok D ->
  exists D', triangulate mesher (rotate_geo a g) ms = Ok D' /\ eqd D' (map (rotate_group a) D).
Proof.
  intros MT. unfold triangulate. destruct (orb _ _); [discriminate|]. intros E. injection E as <-. eexists. split; [reflexivity|].
  unfold eqd. rewrite !map_app. f_equal.
  - unfold rotate_geo. cbn [cg_surf]. rewrite !map_map. apply map_ext_in. intros s HS. unfold unscalar, rotate_group. cbn [gr_fibres gr_scalar gr_law]. f_equal.
    rewrite area_turned, map_map. unfold rotate_surface at 1. pose proof (MT s (surface_area s * ms) HS) as X.
    change (mesher {| sf_ext := map (rot a) (sf_ext s); sf_ints := map (map (rot a)) (sf_ints s); sf_law := sf_law s |} (surface_area s * ms) = map (fun T => let '(p, q, r) := T in (spun a (fst p) (snd p), spun a (fst q) (snd q), spun a (fst r) (snd r))) (mesher s (surface_area s * ms))) in X.
    rewrite X, map_map. apply map_ext. intros T. apply fibre_of_turned.
  - unfold rotate_geo. cbn [cg_bars]. rewrite unscalar_groups, map_map. apply map_ext. intros x. reflexivity.
Qed.
