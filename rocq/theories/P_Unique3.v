(** C64, continued: curves that rise, and a steel plate bent beyond yielding. *)
From Coquelicot Require Import Coquelicot.
From Coq Require Import FunctionalExtensionality Lra Lia.
From Verif Require Import Base M_Marin S_Marin L_Marin M_Laws S_Laws L_Laws M_Laws2 S_Laws2 L_LawsC M_Fiber S_Fiber L_Fiber P_Fiber M_MarinInt L_MarinInt3 L_MarinInt4 P_MarinInt M_Section S_Section L_Section4 M_Gross S_Gross L_Gross L_Cracked3 L_Cracked7 L_Newton P_Newton S_MarinInt S_Exact L_Exact P_Exact
  S_Frame P_Frame S_Mesh L_Mesh L_Mesh2 L_Mesh4 P_Mesh P_Mesh2 P_Mesh3 S_Curved S_Unique L_Refine L_Unique P_Unique L_Unique2 P_Unique2.

(** Elastic laws rise everywhere, hardening steel up to its ultimate strain (as a curve, and as the stress get_stress returns). *)
Theorem C64_curves :
  (forall E lo hi l, elastic_init E None = Ok l -> rises E E lo hi (fun e => E * e) /\ rises E E lo hi (elastic_stress l)) /\
  (forall E fy Eh u, 0 < fy -> 0 < Eh <= E -> fy / E <= u -> rises Eh E (- u) u (ep_curve E fy Eh u)) /\
  (forall E fy Eh u l lo hi, ep_init E fy Eh (Some u) = Ok l -> 0 < fy -> 0 < Eh <= E -> fy / E <= u -> - u + tol u < lo -> hi < u - tol u ->
     rises Eh E lo hi (ep_stress l)).
Proof.
  assert (K : forall E fy Eh u, 0 < fy -> 0 < Eh <= E -> fy / E <= u -> rises Eh E (- u) u (ep_curve E fy Eh u)).
  { intros E fy Eh u Hf Hh Hu e e' R1 R2 R3. assert (HE : 0 < E) by lra. assert (Hsy : 0 < fy / E) by now apply Rdiv_lt_0_compat. assert (Hfy : fy = E * (fy / E)) by (field; lra).
    assert (V : forall x, - u <= x <= u -> ep_curve E fy Eh u x = if Rlt_dec x (- (fy / E)) then - fy + Eh * (x + fy / E) else if Rlt_dec (fy / E) x then fy + Eh * (x - fy / E) else E * x).
    { intros x RX. unfold ep_curve. set (sy := fy / E) in *. destruct (Rlt_dec u (Rabs x)) as [X|X]. { exfalso. destruct (rabs_cases x) as [[? A]|[? A]]; rewrite A in X; lra. }
      destruct (Rle_dec (Rabs x) sy) as [Y|Y]; destruct (Rlt_dec x (- sy)); destruct (Rlt_dec sy x); destruct (rabs_cases x) as [[? A]|[? A]]; rewrite A in Y; try lra; destruct (Rle_dec 0 x); try lra. }
    rewrite !V by lra. set (sy := fy / E) in *. rewrite Hfy.
    assert (EM : forall d, 0 <= d -> Eh * d <= E * d) by (intros d D; apply Rmult_le_compat_r; lra).
    pose proof (EM (e' - e) ltac:(lra)).
    destruct (Rlt_dec e (- sy)), (Rlt_dec e' (- sy)); try (exfalso; lra).
    - lra.
    - pose proof (EM (- sy - e) ltac:(lra)). destruct (Rlt_dec sy e').
      + pose proof (EM (e' - sy) ltac:(lra)). pose proof (EM (2 * sy) ltac:(lra)). lra.
      + pose proof (EM (e' + sy) ltac:(lra)). lra.
    - destruct (Rlt_dec sy e), (Rlt_dec sy e'); try (exfalso; lra).
      + lra.
      + pose proof (EM (e' - sy) ltac:(lra)). pose proof (EM (sy - e) ltac:(lra)). lra.
      + lra. }
  split; [|split].
  - intros E lo hi l H. destruct (elastic_init_ok E None l H) as (P & EL).
    split; intros e e' _ _ _; [lra|]. unfold elastic_stress. rewrite EL. lra.
  - exact K.
  - intros E fy Eh u l lo hi H Hf Hh Hu LO HI e e' R1 R2 R3. assert (TU := tol_pos u).
    destruct (proj1 (proj2 C55_curves) E fy Eh u l lo hi H Hf ltac:(lra) Hu LO HI) as (_ & EQ & _).
    rewrite !EQ by lra. apply (K E fy Eh u); lra.
Qed.
Print Assumptions C64_curves.

(** Two force calculations that differ by no more than the tolerance of the axial equilibrium belong to axial strains that are close. *)
Theorem C64_axial_error : forall laws fs mesh g e e' ky kz n F G d d' (m L lo hi : nat -> R) Y Z,
  (forall k, batched (laws k)) -> drawn g -> (forall b, In b (cg_bars g) -> 0 <= br_area b) ->
  (forall s, In s (cg_surf g) -> rises (m (sf_law s)) (L (sf_law s)) (lo (sf_law s)) (hi (sf_law s)) (fs (sf_law s))) ->
  (forall b, In b (cg_bars g) -> rises (m (br_law b)) (L (br_law b)) (lo (br_law b)) (hi (br_law b)) (lw_stress (laws (br_law b)))) ->
  (forall x, x = e \/ x = e' -> kept_in mesh g (x, ky, kz) lo hi Y Z /\ bars_kept g (x, ky, kz) lo hi /\
     forall s, In s (cg_surf g) -> field_of (lw_marin (laws (sf_law s)) (x, sqrt (kz ^ 2 + ky ^ 2))) (fs (sf_law s)) x (sqrt (kz ^ 2 + ky ^ 2))) ->
  marin_forces laws g (e, ky, kz) None = Ok (F, d) -> marin_forces laws g (e', ky, kz) None = Ok (G, d') ->
  balances n (fst (fst F)) -> balances n (fst (fst G)) ->
  weighted m (fun _ _ => 1) g * Rabs (e' - e) <= 2 / 100.
Proof.
  intros laws fs mesh g e e' ky kz n F G d d' m L lo hi Y Z B DR A RS RB H E1 E2 B1 B2.
  unfold balances in B1, B2.
  assert (K : forall x x' F1 G1 d1 d1', x < x' -> (x = e /\ x' = e' \/ x = e' /\ x' = e) -> marin_forces laws g (x, ky, kz) None = Ok (F1, d1) -> marin_forces laws g (x', ky, kz) None = Ok (G1, d1') ->
    Rabs (fst (fst G1) - fst (fst F1)) <= 2 / 100 -> weighted m (fun _ _ => 1) g * Rabs (x' - x) <= 2 / 100).
  { intros x x' F1 G1 d1 d1' O X X1 X2 D.
    destruct (C64_axial laws fs mesh g x x' ky kz m L lo hi Y Z B DR A RS RB) as (F2 & G2 & d2 & d2' & Y1 & Y2 & W & _).
    { intros u U. apply H. destruct U as [-> | ->]; destruct X as [(-> & ->)|(-> & ->)]; auto. }
    { exact O. }
    rewrite X1 in Y1. rewrite X2 in Y2. injection Y1 as <- _. injection Y2 as <- _.
    rewrite Rabs_pos_eq by lra. pose proof (Rle_abs (fst (fst G1) - fst (fst F1))). lra. }
  apply Rabs_le_between in B1. apply Rabs_le_between in B2.
  destruct (Rtotal_order e e') as [O|[O|O]].
  - apply (K e e' F G d d' O ltac:(auto) E1 E2). apply Rabs_le. lra.
  - subst. replace (e' - e') with 0 by ring. rewrite Rabs_R0. lra.
  - rewrite Rabs_minus_sym. apply (K e' e G F d' d O ltac:(auto) E2 E1). apply Rabs_le. lra.
Qed.
Print Assumptions C64_axial_error.

(** The steel plate: the strain profiles that keep its corners within 4 % have different forces, well beyond yielding (0.2 %). *)
Definition gentle (p : R * R * R) : Prop := forall y z, (y = - / 2 \/ y = / 2) -> (z = -1 \/ z = 1) -> - (4/100) <= plane_strain (fst (fst p)) (snd (fst p)) (snd p) y z <= 4/100.
Example C64_example : gentle (0, 3/100, 0) /\ gentle (1/1000, 2/100, 1/100) /\ forall p q F d d', gentle p -> gentle q ->
  marin_forces (fun _ => ep_law steel) plate p None = Ok (F, d) -> marin_forces (fun _ => ep_law steel) plate q None = Ok (F, d') -> p = q.
Proof.
  split; [|split].
  - intros y z [-> | ->] [-> | ->]; unfold plane_strain; cbn [fst snd]; lra.
  - intros y z [-> | ->] [-> | ->]; unfold plane_strain; cbn [fst snd]; lra.
  - intros p q F d d' GP GQ.
    assert (AR : surface_integral (fun _ _ => 1) {| sf_ext := rect (- / 2) (/ 2) (-1) 1; sf_ints := []; sf_law := 0 |} = 2).
    { transitivity (surface_integral (fun y z => 1 + 0 * y + 0 * z) {| sf_ext := rect (- / 2) (/ 2) (-1) 1; sf_ints := []; sf_law := 0 |}); [f_equal; apply functional_extensionality; intros y; apply functional_extensionality; intros z; ring|].
      rewrite (surface_triangles _ _ _ (field2_affine 1 0 0) (diagonal_triangulates _ (or_introl eq_refl))). cbn [diagonal map]. rewrite !lsum_cons, !tri_affine, !fan_area. unfold shoelace, lsum, cross. cbn. field. }
    apply (C64_marin_unique (fun _ => ep_law steel) (fun _ => ep_curve 200000 400 1000 (5/100)) (fun s => diagonal s 0) plate p q (fun _ => 1000) (fun _ => 200000) (fun _ => - (5/100)) (fun _ => 5/100) (/ 2) 1).
    + exact steel_batched.
    + exact plate_drawn.
    + intros b [].
    + intros s _. apply C64_curves; lra.
    + intros b [].
    + intros r R0. assert (GR : gentle r) by (destruct R0 as [-> | ->]; assumption). split; [|split].
      * intros s I. split; [apply diagonal_triangulates, I|]. intros t v T V.
        assert (VV : (fst v = - / 2 \/ fst v = / 2) /\ (snd v = -1 \/ snd v = 1)).
        { destruct T as [<- | [<- | []]]; cbn [corner] in V; destruct V as [-> | [-> | ->]]; cbn [fst snd]; tauto. }
        destruct VV as (V1 & V2). pose proof (GR _ _ V1 V2). split; [|split; [|lra]]; apply Rabs_le; lra.
      * intros b [].
      * intros s _. destruct r as [[e ky] kz]. cbn [fst snd]. set (k := sqrt (kz ^ 2 + ky ^ 2)).
        assert (K0 : 0 <= k) by apply sqrt_pos.
        refine (proj1 (ep_field 200000 400 1000 (5/100) steel e k steel_init ltac:(lra) ltac:(lra) K0 _)).
        intros Z. assert (KK : ky = 0 /\ kz = 0).
        { apply sqrt_eq_0 in Z; [|pose proof (pow2_ge_0 kz); pose proof (pow2_ge_0 ky); lra]. pose proof (pow2_ge_0 kz). pose proof (pow2_ge_0 ky).
          split; apply Rsqr_0_uniq; rewrite Rsqr_pow2; lra. }
        destruct KK as (-> & ->). pose proof (GR (/ 2) 1 ltac:(auto) ltac:(auto)) as G1. unfold plane_strain in G1. cbn [fst snd] in G1.
        assert (T : tol (5/100) < 1/100) by (unfold tol; rewrite Rabs_pos_eq by lra; lra).
        left. split; unfold far; cbn [fst snd]; [unfold tol in *; rewrite Rabs_Ropp, Rabs_pos_eq by lra|]; [rewrite Rabs_pos_eq in T by lra; rewrite Rabs_pos_eq; lra|rewrite Rabs_left; lra].
    + intros k _. lra.
    + left. exists (hd ex_surface (cg_surf plate)). split; [left; reflexivity|]. split; [lra|]. cbn [hd plate cg_surf]. rewrite AR. lra.
Qed.
(** The fibre integrator: three elastic bars not in a line. *)
Definition three_bars : compound := {| cg_surf := []; cg_bars := [ {| br_y := 0; br_z := 0; br_area := 1; br_law := 0 |}; {| br_y := 1; br_z := 0; br_area := 2; br_law := 0 |}; {| br_y := 0; br_z := 1; br_area := 3; br_law := 0 |} ] |}.
Example C64_bars_example p q F d d' : fiber_forces (stiff_laws 1000) diagonal three_bars p None (Some (1/100)) = Ok (F, d) -> fiber_forces (stiff_laws 1000) diagonal three_bars q None (Some (1/100)) = Ok (F, d') -> p = q.
Proof.
  set (lo := fun _ : nat => - (Rabs (fst (fst p)) + Rabs (snd (fst p)) + Rabs (snd p) + Rabs (fst (fst q)) + Rabs (snd (fst q)) + Rabs (snd q))).
  assert (K : forall r, r = p \/ r = q -> bars_kept three_bars r lo (fun k => - lo k)).
  { intros r E b I. unfold lo, plane_strain.
    pose proof (Rle_abs (fst (fst p))). pose proof (Rle_abs (snd (fst p))). pose proof (Rle_abs (snd p)). pose proof (Rle_abs (- fst (fst p))). pose proof (Rle_abs (- snd (fst p))). pose proof (Rle_abs (- snd p)).
    pose proof (Rle_abs (fst (fst q))). pose proof (Rle_abs (snd (fst q))). pose proof (Rle_abs (snd q)). pose proof (Rle_abs (- fst (fst q))). pose proof (Rle_abs (- snd (fst q))). pose proof (Rle_abs (- snd q)). rewrite Rabs_Ropp in *.
    destruct E as [-> | ->], I as [<- | [<- | [<- | []]]]; cbn [br_y br_z br_area br_law]; lra. }
  apply (C64_fiber_unique (stiff_laws 1000) diagonal three_bars p q (1/100) lo (fun k => - lo k)).
  - apply stiff_batched.
  - lra.
  - intros b [<- | [<- | [<- | []]]]; cbn [br_area]; lra.
  - intros k _ e e' _ O _. assert (H : forall x, lw_stress (stiff_laws 1000 k) x = 1000 * x) by (intros x; reflexivity). rewrite !H. lra.
  - intros s a b c [].
  - intros s a b c [].
  - apply K. auto.
  - apply K. auto.
  - do 3 eexists. split; [left; reflexivity|]. split; [right; left; reflexivity|]. split; [right; right; left; reflexivity|]. cbn [mfibre_at m_y m_z m_a br_y br_z br_area]. lra.
Qed.
