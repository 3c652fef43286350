(** Lemmas for C50: the temporary section of a section and its cracked part. *)
From Coquelicot Require Import Coquelicot.
From Verif Require Import Base M_Marin S_Marin L_Marin M_Laws S_Laws L_Laws L_LawsC M_Laws2 S_Laws2 L_Laws2 M_Fiber S_Fiber L_Fiber P_Fiber M_MarinInt S_MarinInt L_MarinInt L_MarinInt2 L_MarinInt3 L_MarinInt4 M_Section S_Section L_Section L_Section2 M_Gross S_Gross L_Gross L_Gross2 M_Geo M_Cracked S_Cracked L_Cracked L_Cracked2 L_Cracked3 L_Cracked4.
From Coq Require Import Lra Lia Permutation.

Lemma mapM_all {A B} (f : A -> result B) (h : A -> B) l : (forall x, In x l -> f x = Ok (h x)) -> mapM f l = Ok (map h l).
Proof.
  induction l as [|x l IH]; intros H; [reflexivity|]. cbn [mapM map]. rewrite (H x (or_introl eq_refl)). cbn [bind].
  rewrite IH; [reflexivity|]. intros; apply H; now right.
Qed.
Lemma rot_turn a p : rot a p = turn a p.
Proof. unfold rot, turn. f_equal; ring. Qed.
Lemma turn_back t p : turn t (turn (- t) p) = p.
Proof.
  destruct p as [y z]. unfold turn. cbn [fst snd]. rewrite cos_neg, sin_neg. pose proof (sin2_cos2 t) as Q. unfold Rsqr in Q.
  f_equal.
  - transitivity ((sin t * sin t + cos t * cos t) * y); [ring|rewrite Q; ring].
  - transitivity ((sin t * sin t + cos t * cos t) * z); [ring|rewrite Q; ring].
Qed.
Lemma rot_back t y z : rot t (fst (rot (- t) (y, z)), snd (rot (- t) (y, z))) = (y, z).
Proof. rewrite <- surjective_pairing, (rot_turn t), (rot_turn (- t)). apply turn_back. Qed.
Lemma height_back t y z : height t (back_y (- t) y z) (back_z (- t) y z) = z.
Proof.
  unfold height, back_y, back_z. rewrite cos_neg, sin_neg. pose proof (sin2_cos2 t) as Q. unfold Rsqr in Q.
  transitivity ((sin t * sin t + cos t * cos t) * z); [ring|rewrite Q; ring].
Qed.
(** Integral of a quadratic over a turned surface. *)
Lemma turned_integral t phi ca cb cc cd ce cf s : okay s ->
  (forall y z, phi y z = ca + cb * y + cc * z + cd * y ^ 2 + ce * y * z + cf * z ^ 2) ->
  surface_integral phi (turned t s) = surface_integral (fun y z => phi (back_y (- t) y z) (back_z (- t) y z)) s.
Proof.
  intros [O1 O2] H. set (c := cos t). set (n := sin t).
  pose proof (surface_quadratic_turned t ca (cb * c + cc * n) (- cb * n + cc * c) (cd * c ^ 2 + ce * c * n + cf * n ^ 2)
    (- 2 * cd * c * n + ce * (c ^ 2 - n ^ 2) + 2 * cf * n * c) (cd * n ^ 2 - ce * c * n + cf * c ^ 2) s O1 O2) as X.
  transitivity (surface_integral (quadratic ca (cb * c + cc * n) (- cb * n + cc * c) (cd * c ^ 2 + ce * c * n + cf * n ^ 2)
    (- 2 * cd * c * n + ce * (c ^ 2 - n ^ 2) + 2 * cf * n * c) (cd * n ^ 2 - ce * c * n + cf * c ^ 2)) s).
  - rewrite <- X. apply surf_ext. intros y z. rewrite H. unfold quadratic, back_y, back_z. fold c n.
    assert (Q : n * n + c * c = 1) by (pose proof (sin2_cos2 t) as Q; unfold Rsqr in Q; exact Q).
    assert (Y : y = c * (c * y + n * z) - n * (c * z - n * y)) by (transitivity ((n * n + c * c) * y); [rewrite Q; ring|ring]).
    assert (Z : z = n * (c * y + n * z) + c * (c * z - n * y)) by (transitivity ((n * n + c * c) * z); [rewrite Q; ring|ring]).
    set (u := c * y + n * z) in *. set (v := c * z - n * y) in *. rewrite Y, Z. ring.
  - apply surf_ext. intros y z. rewrite H. unfold quadratic, back_y, back_z. rewrite cos_neg, sin_neg. fold c n. ring.
Qed.

Section Cut.
Variables (E : nat -> R) (theta : R) (h0 : compound).
Definition ids : list nat := map sf_law (cg_surf h0) ++ map br_law (cg_bars h0).
Definition T (i : nat) : R := nth i (map E ids) 1.
Definition tg : compound :=
  {| cg_surf := number_surfaces 0 (cg_surf (rotate_geo (- theta) h0)); cg_bars := number_bars (length (cg_surf h0)) (cg_bars (rotate_geo (- theta) h0)) |}.
Definition tl (i : nat) : law :=
  nth i (map (fun k => ncl (E k)) (map sf_law (cg_surf h0)) ++ map (fun k => elastic_law {| el_E := E k; el_u := None |}) (map br_law (cg_bars h0)))
    (elastic_law {| el_E := 1; el_u := None |}).

Lemma T_surf i s : nth_error (cg_surf (rotate_geo (- theta) h0)) i = Some s -> T (0 + i) = E (sf_law s) /\ tl (0 + i) = ncl (E (sf_law s)).
Proof.
  intros N. cbn [rotate_geo cg_surf] in N. rewrite nth_error_map in N. destruct (nth_error (cg_surf h0) i) as [s0|] eqn:N0; [|discriminate].
  apply (f_equal (option_map sf_law)) in N. cbn [option_map rotate_surface sf_law] in N. injection N as N. rewrite <- N.
  assert (L : (i < length (cg_surf h0))%nat) by (apply nth_error_Some; rewrite N0; discriminate).
  change (0 + i)%nat with i. unfold T, tl, ids. rewrite map_app, !app_nth1 by (rewrite !map_length; exact L). split.
  - apply nth_error_nth. now rewrite map_map, nth_error_map, N0.
  - apply nth_error_nth. now rewrite map_map, nth_error_map, N0.
Qed.
Lemma T_bar i b : nth_error (cg_bars (rotate_geo (- theta) h0)) i = Some b ->
  T (length (cg_surf h0) + i) = E (br_law b) /\ tl (length (cg_surf h0) + i) = elastic_law {| el_E := E (br_law b); el_u := None |}.
Proof.
  intros N. cbn [rotate_geo cg_bars] in N. rewrite nth_error_map in N. destruct (nth_error (cg_bars h0) i) as [s0|] eqn:N0; [|discriminate].
  apply (f_equal (option_map br_law)) in N. cbn [option_map rotate_bar br_law] in N. injection N as N. rewrite <- N.
  unfold T, tl, ids. rewrite map_app, !app_nth2 by (rewrite !map_length; lia). rewrite !map_length.
  replace (length (cg_surf h0) + i - length (cg_surf h0))%nat with i by lia. split.
  - apply nth_error_nth. now rewrite map_map, nth_error_map, N0.
  - apply nth_error_nth. now rewrite map_map, nth_error_map, N0.
Qed.
Lemma tl_batched k : batched (tl k).
Proof.
  unfold tl. set (l := map _ _ ++ map _ _). destruct (Nat.lt_ge_cases k (length l)) as [L|L]; [|rewrite nth_overflow by exact L; apply elastic_batched].
  apply (nth_In _ (elastic_law {| el_E := 1; el_u := None |})) in L. apply in_app_or in L.
  destruct L as [L|L]; apply in_map_iff in L; destruct L as (? & <- & _); [apply ncl_batched|apply elastic_batched].
Qed.
Lemma T_tangent k : stiffness0 tl k = T k.
Proof.
  unfold stiffness0, tl, T, ids. destruct (Nat.lt_ge_cases k (length (cg_surf h0) + length (cg_bars h0))) as [L|L].
  2:{ rewrite !nth_overflow by (rewrite ?map_length, ?app_length, ?map_length; lia). cbn. reflexivity. }
  rewrite map_app. destruct (Nat.lt_ge_cases k (length (cg_surf h0))) as [M|M].
  - rewrite !app_nth1 by (rewrite !map_length; lia).
    destruct (nth_error (cg_surf h0) k) as [s|] eqn:N; [|apply nth_error_None in N; lia].
    rewrite (nth_error_nth (map _ (map sf_law _)) k _ (x := ncl (E (sf_law s)))) by (now rewrite map_map, nth_error_map, N).
    rewrite (nth_error_nth (map E (map sf_law _)) k _ (x := E (sf_law s))) by (now rewrite map_map, nth_error_map, N). apply ncl_tangent.
  - rewrite !app_nth2 by (rewrite !map_length; lia). rewrite !map_length.
    destruct (nth_error (cg_bars h0) (k - length (cg_surf h0))) as [s|] eqn:N; [|apply nth_error_None in N; lia].
    rewrite (nth_error_nth (map _ (map br_law _)) _ _ (x := elastic_law {| el_E := E (br_law s); el_u := None |})) by (now rewrite map_map, nth_error_map, N).
    rewrite (nth_error_nth (map E (map br_law _)) _ _ (x := E (br_law s))) by (now rewrite map_map, nth_error_map, N). reflexivity.
Qed.

(** Sums over the temporary section are sums over the section. *)
Lemma sum_surf (f : R -> R) (G : surface -> R) : (forall s k, G {| sf_ext := sf_ext s; sf_ints := sf_ints s; sf_law := k |} = G s) ->
  lsum (map (fun s => f (T (sf_law s)) * G s) (cg_surf tg)) = lsum (map (fun s => f (E (sf_law s)) * G (turned (- theta) s)) (cg_surf h0)).
Proof.
  intros GI. unfold tg. cbn [cg_surf].
  rewrite (number_surf_sum (fun s => f (T (sf_law s)) * G s) (fun s => f (E (sf_law s)) * G s)).
  - cbn [rotate_geo cg_surf]. rewrite map_map. apply lsum_map_ext. intros s _. now rewrite rotate_surface_turned.
  - intros i s N. cbn [sf_law]. destruct (T_surf i s N) as [-> _]. f_equal. apply GI.
Qed.
Lemma sum_bar (f : R -> R) (G : bar -> R) : (forall b k, G {| br_y := br_y b; br_z := br_z b; br_area := br_area b; br_law := k |} = G b) ->
  lsum (map (fun b => f (T (br_law b)) * G b) (cg_bars tg)) = lsum (map (fun b => f (E (br_law b)) * G (rotate_bar (- theta) b)) (cg_bars h0)).
Proof.
  intros GI. unfold tg. cbn [cg_bars].
  rewrite (number_bars_sum (fun s => f (T (br_law s)) * G s) (fun s => f (E (br_law s)) * G s)).
  - cbn [rotate_geo cg_bars]. rewrite map_map. apply lsum_map_ext. intros s _. destruct s; reflexivity.
  - intros i s N. cbn [br_law]. destruct (T_bar i s N) as [-> _]. f_equal. apply GI.
Qed.
Lemma height_bar b : br_z (rotate_bar (- theta) b) = height theta (br_y b) (br_z b).
Proof. unfold rotate_bar, height. rewrite rot_turn. unfold turn. cbn [fst snd br_z]. rewrite cos_neg, sin_neg. ring. Qed.

Lemma moment_first c : moment_at T tg c = first_moment E theta h0 c.
Proof.
  unfold moment_at, first_moment, cracked_integral. f_equal.
  - rewrite (sum_surf (fun x => x) (sfield (ramp c))) by reflexivity. apply lsum_map_ext. intros s _. f_equal. rewrite <- surface_field. unfold part_above.
    apply surf_ext. intros y z. rewrite height_back. unfold ramp, Rmax. destruct (Rle_dec _ _), (Rlt_dec _ _); lra.
  - rewrite (sum_bar (fun x => x) (fun b => br_area b * (br_z b - c))) by reflexivity. apply lsum_map_ext. intros b _. f_equal. now rewrite height_bar.
Qed.

Hypothesis RC : rings_closed h0.
Lemma turned_okay t s : okay s -> okay (turned t s).
Proof.
  intros [O1 O2]. split; [now apply closed_turn|]. intros r I. cbn [turned sf_ints] in I. apply in_map_iff in I. destruct I as (q & <- & I). apply closed_turn. now apply O2.
Qed.
Lemma tg_surf s : In s (cg_surf tg) -> exists s0, In s0 (cg_surf h0) /\ sf_ext s = sf_ext (turned (- theta) s0) /\ sf_ints s = sf_ints (turned (- theta) s0)
  /\ T (sf_law s) = E (sf_law s0) /\ tl (sf_law s) = ncl (E (sf_law s0)).
Proof.
  intros I. unfold tg in I. cbn [cg_surf] in I. apply number_surf_in in I. destruct I as (i & s1 & N & ->).
  destruct (T_surf i s1 N) as [T1 T2]. apply nth_error_In in N. cbn [rotate_geo cg_surf] in N. apply in_map_iff in N. destruct N as (s0 & <- & I).
  exists s0. cbn [sf_ext sf_ints sf_law] in *. rewrite rotate_surface_turned in *. repeat split; assumption.
Qed.
Lemma tg_bar b : In b (cg_bars tg) -> exists b0, In b0 (cg_bars h0) /\ br_z b = height theta (br_y b0) (br_z b0) /\ br_area b = br_area b0
  /\ T (br_law b) = E (br_law b0) /\ tl (br_law b) = elastic_law {| el_E := E (br_law b0); el_u := None |}.
Proof.
  intros I. unfold tg in I. cbn [cg_bars] in I. apply number_bars_in in I. destruct I as (i & b1 & N & ->).
  destruct (T_bar i b1 N) as [T1 T2]. apply nth_error_In in N. cbn [rotate_geo cg_bars] in N. apply in_map_iff in N. destruct N as (b0 & <- & I).
  exists b0. rewrite <- height_bar. cbn [br_law br_z br_area] in *. repeat split; try assumption.
Qed.
Lemma ea_first : ea T tg = weighted E (fun _ _ => 1) h0.
Proof.
  unfold ea, weighted. f_equal.
  - rewrite (sum_surf (fun x => x) (sfield (fun _ => 1))) by reflexivity. apply lsum_map_ext. intros s I. f_equal. rewrite <- surface_field.
    rewrite (turned_integral (- theta) _ 1 0 0 0 0 0); [reflexivity|exact (RC s I)|]. intros; ring.
  - rewrite (sum_bar (fun x => x) br_area) by reflexivity. apply lsum_map_ext. intros b _. unfold rotate_bar. cbn [br_area]. ring.
Qed.

(** * The cracked part *)
Variables (cutter : shapely_split) (centroid : polygon -> R * R) (c : R).
Hypothesis CU : forall s, In s (cg_surf h0) -> cuts_at cutter centroid (poly_of (turned (- theta) s)) c.
Definition cut : compound := {| cg_surf := flat_map (upper_part cutter centroid c) (cg_surf tg); cg_bars := cg_bars tg |}.
Definition cracked : compound := rotate_geo theta cut.

Lemma cut_piece q : In q (cg_surf cut) -> okay q /\ solid q /\ exists s0, In s0 (cg_surf h0) /\ T (sf_law q) = E (sf_law s0).
Proof.
  intros I. unfold cut in I. cbn [cg_surf] in I. apply in_flat_map in I. destruct I as (s & I & J).
  destruct (tg_surf s I) as (s0 & I0 & E1 & E2 & E3 & _).
  assert (CS : cuts_at cutter centroid (poly_of s) c) by (unfold poly_of; rewrite E1, E2; apply (CU s0 I0)).
  destruct (upper_spec cutter centroid c s CS) as [H _]. destruct (H q J) as (O & S1 & L). split; [exact O|]. split; [exact S1|].
  exists s0. split; [exact I0|]. now rewrite L.
Qed.
Lemma cracked_closed : rings_closed cracked.
Proof.
  intros s I. cbn [cracked rotate_geo cg_surf] in I. apply in_map_iff in I. destruct I as (q & <- & I). rewrite rotate_surface_turned.
  apply turned_okay. apply (cut_piece q I).
Qed.
Lemma lsum_flat_map {A B} (f : A -> list B) (F : B -> R) l : lsum (map F (flat_map f l)) = lsum (map (fun a => lsum (map F (f a))) l).
Proof. induction l as [|a l IH]; [reflexivity|]. cbn [flat_map map]. rewrite map_app, lsum_app, lsum_cons, IH. reflexivity. Qed.
Lemma bars_back : map (fun b => (br_y b, br_z b, br_area b)) (cg_bars cracked) = map (fun b => (br_y b, br_z b, br_area b)) (cg_bars h0).
Proof.
  unfold cracked, cut, tg. cbn [rotate_geo cg_bars]. rewrite map_map. generalize (length (cg_surf h0)). induction (cg_bars h0) as [|b l IH]; intros n; [reflexivity|].
  cbn [map number_bars]. f_equal; [|apply IH]. unfold rotate_bar. cbn [br_y br_z br_area].
  rewrite rot_back. reflexivity.
Qed.
Lemma weighted_cracked (f : R -> R) phi ca cb cc cd ce cf :
  (forall y z, phi y z = ca + cb * y + cc * z + cd * y ^ 2 + ce * y * z + cf * z ^ 2) ->
  weighted (fun k => f (T k)) phi cracked = cracked_integral (fun k => f (E k)) theta c h0 phi.
Proof.
  intros H. unfold weighted, cracked_integral. set (psi := fun y z => phi (back_y (- theta) y z) (back_z (- theta) y z)).
  f_equal.
  - transitivity (lsum (map (fun s => f (T (sf_law s)) * part_above c psi s) (cg_surf tg))).
    2:{ apply (sum_surf f (part_above c psi)). reflexivity. }
    unfold cracked, cut. cbn [rotate_geo cg_surf]. rewrite map_map, lsum_flat_map. apply lsum_map_ext. intros s I.
    destruct (tg_surf s I) as (s0 & I0 & E1 & E2 & _).
    assert (CS : cuts_at cutter centroid (poly_of s) c) by (unfold poly_of; rewrite E1, E2; apply (CU s0 I0)).
    destruct (upper_spec cutter centroid c s CS) as [HP HI].
    transitivity (f (T (sf_law s)) * lsum (map (surface_integral psi) (upper_part cutter centroid c s))).
    + rewrite <- lsum_map_scal. apply lsum_map_ext. intros q J. destruct (HP q J) as (O & _ & L).
      rewrite rotate_surface_turned. cbn [turned sf_law]. rewrite L. f_equal. now apply (turned_integral theta phi ca cb cc cd ce cf).
    + f_equal. set (cs := cos theta). set (n := sin theta).
      specialize (HI ca (cb * cs + cc * n) (- cb * n + cc * cs) (cd * cs ^ 2 + ce * cs * n + cf * n ^ 2)
        (- 2 * cd * cs * n + ce * (cs ^ 2 - n ^ 2) + 2 * cf * n * cs) (cd * n ^ 2 - ce * cs * n + cf * cs ^ 2)). cbv zeta in HI.
      match type of HI with lsum (map (surface_integral ?p) _) = _ => assert (PP : forall y z, p y z = psi y z) end.
      { intros y z. unfold psi. rewrite H. unfold back_y, back_z. rewrite cos_neg, sin_neg. fold cs n. ring. }
      etransitivity; [|etransitivity; [exact HI|]].
      * apply lsum_map_ext. intros q _. apply surf_ext. intros; symmetry; apply PP.
      * unfold part_above. apply surf_ext. intros y z. destruct (Rlt_dec c z); [apply PP|reflexivity].
  - unfold cracked, cut. cbn [rotate_geo cg_bars]. rewrite map_map.
    etransitivity; [apply (sum_bar f (fun b => br_area b * phi (br_y (rotate_bar theta b)) (br_z (rotate_bar theta b)))); reflexivity|].
    apply lsum_map_ext. intros b _. f_equal. unfold rotate_bar. cbn [br_y br_z br_area]. rewrite rot_back. reflexivity.
Qed.
Hypothesis EP : forall k, in_use h0 k -> 0 < E k.
Hypothesis AP : forall b, In b (cg_bars h0) -> 0 <= br_area b.
Hypothesis ONE : exists b, In b (cg_bars h0) /\ 0 < br_area b.
Lemma cracked_stiff : 0 < weighted T (fun _ _ => 1) cracked.
Proof.
  unfold weighted.
  assert (A : 0 <= lsum (map (fun s => T (sf_law s) * surface_integral (fun _ _ => 1) s) (cg_surf cracked))).
  { rewrite <- (lsum_zeros (cg_surf cracked)). apply lsum_le. intros s I. cbn [cracked rotate_geo cg_surf] in I. apply in_map_iff in I.
    destruct I as (q & <- & I). destruct (cut_piece q I) as (O & S1 & s0 & I0 & TE). rewrite rotate_surface_turned.
    rewrite (turned_integral theta _ 1 0 0 0 0 0) by (assumption || (intros; ring)).
    assert (0 <= surface_integral (fun _ _ => 1) q) by (apply (S1 (fun _ => 1)); [intros; apply const_cont|intros; lra]).
    cbn [turned sf_law]. rewrite TE. apply Rmult_le_pos; [|assumption]. apply Rlt_le, EP. left. eauto. }
  assert (B : 0 < lsum (map (fun b => T (br_law b) * (br_area b * 1)) (cg_bars cracked))).
  { unfold cracked, cut. cbn [rotate_geo cg_bars]. rewrite map_map.
    change (0 < lsum (map (fun b => T (br_law b) * (br_area b * 1)) (cg_bars tg))).
    pose proof (sum_bar (fun x => x) (fun b => br_area b * 1) (fun _ _ => eq_refl)) as Y. cbv beta in Y. rewrite Y. clear Y.
    assert (X : lsum (map (fun b => -1 * (E (br_law b) * (br_area (rotate_bar (- theta) b) * 1))) (cg_bars h0)) < 0).
    { destruct ONE as (b & I & P). apply (lsum_neg _ _ b); [|exact I|]; unfold rotate_bar; cbn [br_area].
      - intros y J. assert (0 < E (br_law y)) by (apply EP; right; eauto). specialize (AP y J). nra.
      - assert (0 < E (br_law b)) by (apply EP; right; eauto). nra. }
    rewrite lsum_map_scal in X. lra. }
  lra.
Qed.
Lemma cracked_used k : in_use cracked k -> 0 < T k.
Proof.
  intros [(s & I & <-)|(b & I & <-)].
  - cbn [cracked rotate_geo cg_surf] in I. apply in_map_iff in I. destruct I as (q & <- & I). destruct (cut_piece q I) as (_ & _ & s0 & I0 & TE).
    cbn [rotate_surface sf_law]. rewrite TE. apply EP. left. eauto.
  - cbn [cracked cut rotate_geo cg_bars] in I. apply in_map_iff in I. destruct I as (q & <- & I). destruct (tg_bar q I) as (b0 & I0 & _ & _ & TE & _).
    cbn [rotate_bar br_law]. rewrite TE. apply EP. right. eauto.
Qed.
End Cut.

Lemma classical_agree A W A' W' r :
  (forall phi ca cb cc cd ce cf, (forall y z, phi y z = ca + cb * y + cc * z + cd * y ^ 2 + ce * y * z + cf * z ^ 2) -> A phi = A' phi /\ W phi = W' phi) ->
  classical A W r -> classical A' W' r.
Proof.
  intros H (H1 & H2 & H3 & H4 & H5 & H6 & H7 & H8 & H9 & H10 & H11 & H12 & H13 & H14 & H15 & H16 & H17 & H18 & H19).
  assert (Q0 := H (fun _ _ => 1) 1 0 0 0 0 0 ltac:(intros; cbv beta; ring)).
  assert (Q1 := H (fun _ z => z) 0 0 1 0 0 0 ltac:(intros; cbv beta; ring)).
  assert (Q2 := H (fun y _ => y) 0 1 0 0 0 0 ltac:(intros; cbv beta; ring)).
  assert (Q3 := H (fun _ z => z ^ 2) 0 0 0 0 0 1 ltac:(intros; cbv beta; ring)).
  assert (Q4 := H (fun y _ => y ^ 2) 0 0 0 1 0 0 ltac:(intros; cbv beta; ring)).
  assert (Q5 := H (fun y z => y * z) 0 0 0 0 1 0 ltac:(intros; cbv beta; ring)).
  assert (Q6 := H (fun _ z => (z - gp_cz r) ^ 2) (gp_cz r ^ 2) 0 (- 2 * gp_cz r) 0 0 1 ltac:(intros; cbv beta; ring)).
  assert (Q7 := H (fun y _ => (y - gp_cy r) ^ 2) (gp_cy r ^ 2) (- 2 * gp_cy r) 0 1 0 0 ltac:(intros; cbv beta; ring)).
  assert (Q8 := H (fun y z => (y - gp_cy r) * (z - gp_cz r)) (gp_cy r * gp_cz r) (- gp_cz r) (- gp_cy r) 0 1 0 ltac:(intros; cbv beta; ring)).
  clear H. unfold classical. repeat match goal with Q : _ /\ _ |- _ => destruct Q end.
  repeat split; congruence.
Qed.
