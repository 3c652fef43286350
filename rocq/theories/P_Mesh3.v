(** Property C55, continued: the curves of the library's laws, and an example. *)
From Coquelicot Require Import Coquelicot.
From Coq Require Import FunctionalExtensionality Lra Lia Permutation.
From Verif Require Import Base M_Marin S_Marin L_Marin M_Laws S_Laws L_Laws M_Laws2 S_Laws2 L_LawsC M_Fiber S_Fiber L_Fiber M_MarinInt L_MarinInt L_MarinInt2 L_MarinInt3 L_MarinInt4 P_Laws
  L_Frame L_Frame2 L_Frame3 L_Frame4 L_Frame5 M_Section S_Section L_Section4 P_Fiber P_MarinInt M_Gross M_Geo M_Cracked S_Cracked L_Cracked L_Cracked7 S_MarinInt S_Exact L_Exact P_Exact S_Frame P_Frame S_Mesh L_Mesh L_Mesh2 L_Mesh3 L_Mesh4 P_Mesh P_Mesh2.

Lemma abs_sym (f : R -> R) (L lo hi : R) : (forall e e', lo <= e -> e <= e' -> e' <= hi -> Rabs (f e - f e') <= L * (e' - e)) ->
  forall e e', lo <= e <= hi -> lo <= e' <= hi -> Rabs (f e - f e') <= L * Rabs (e - e').
Proof.
  intros H e e' E E'. destruct (Rle_dec e e') as [A|A].
  - rewrite (Rabs_left1 (e - e')) by lra. replace (- (e - e')) with (e' - e) by ring. apply H; lra.
  - rewrite Rabs_minus_sym, (Rabs_pos_eq (e - e')) by lra. apply H; lra.
Qed.
Theorem C55_curves :
  (forall E u l lo hi, elastic_init E u = Ok l -> smooth_on (elastic_stress l) (fun e => E * e) E lo hi) /\
  (forall E fy Eh u l lo hi, ep_init E fy Eh (Some u) = Ok l -> 0 < fy -> 0 <= Eh -> fy / E <= u ->
     - u + tol u < lo -> hi < u - tol u -> smooth_on (ep_stress l) (ep_curve E fy Eh u) (Rmax E Eh) lo hi) /\
  (forall fc p u lo hi, 0 <= fc -> 0 < p <= u -> - u + tol u < lo -> hi < 100 - tol 100 ->
     smooth_on (pr_stress (pr_init fc p u 2)) (pr_curve fc p u) (2 * fc / p) lo hi).
Proof.
  split; [|split].
  - intros E u l lo hi H. destruct (elastic_init_ok E u l H) as (P & EL). split; [lra|]. split.
    + intros e _. unfold elastic_stress. now rewrite EL.
    + intros e e' _ _. replace (E * e - E * e') with (E * (e - e')) by ring. rewrite Rabs_mult, (Rabs_pos_eq E) by lra. lra.
  - intros E fy Eh u l lo hi H Hf Hh Hu LO HI. assert (W := ep_init_wf _ _ _ _ _ H Hf Hh ltac:(intros ? [= <-]; exact Hu)).
    apply ep_init_inv in H as [HE ->]. assert (Hsy : 0 < fy / E) by now apply Rdiv_lt_0_compat. assert (Hfy : fy = E * (fy / E)) by (field; lra).
    assert (TU := tol_pos u). assert (TE : tol (- u) = tol u) by (unfold tol; now rewrite Rabs_Ropp).
    assert (ME := Rmax_l E Eh). assert (MH := Rmax_r E Eh). split; [lra|]. split.
    + intros e R1. rewrite ep_stress_raw by exact W. unfold ep_ult. cbn [ep_su].
      rewrite prep_far; cbn [fst snd]; [|unfold far; rewrite Rabs_left; lra|unfold far; rewrite TE, Rabs_pos_eq; lra].
      unfold ep_raw, ep_curve. cbn [ep_su ep_E ep_fy ep_Eh ep_sy]. set (sy := fy / E) in *.
      destruct (Rltb_spec u e); [lra|]. destruct (Rltb_spec e (- u)); [lra|].
      destruct (Rlt_dec u (Rabs e)) as [X|X]. { exfalso. destruct (rabs_cases e) as [[? A]|[? A]]; rewrite A in X; lra. }
      destruct (Rle_dec (Rabs e) sy) as [Y|Y]; destruct (Rltb_spec e (- sy)); destruct (Rltb_spec sy e); destruct (rabs_cases e) as [[? A]|[? A]]; rewrite A in Y; try lra; destruct (Rle_dec 0 e); try lra.
    + apply abs_sym. intros e e' R1 R2 R3. set (M := Rmax E Eh) in *. 
      assert (V : forall x, lo <= x <= hi -> ep_curve E fy Eh u x = if Rlt_dec x (- (fy / E)) then - fy + Eh * (x + fy / E) else if Rlt_dec (fy / E) x then fy + Eh * (x - fy / E) else E * x).
      { intros x RX. unfold ep_curve. set (sy := fy / E) in *. destruct (Rlt_dec u (Rabs x)) as [X|X]. { exfalso. destruct (rabs_cases x) as [[? A]|[? A]]; rewrite A in X; lra. }
        destruct (Rle_dec (Rabs x) sy) as [Y|Y]; destruct (Rlt_dec x (- sy)); destruct (Rlt_dec sy x); destruct (rabs_cases x) as [[? A]|[? A]]; rewrite A in Y; try lra; destruct (Rle_dec 0 x); try lra. }
      rewrite !V by lra. set (sy := fy / E) in *. rewrite Hfy.
      assert (EM : forall d, 0 <= d -> 0 <= E * d <= M * d) by (intros d D; split; [apply Rmult_le_pos; lra|apply Rmult_le_compat_r; lra]).
      assert (HM : forall d, 0 <= d -> 0 <= Eh * d <= M * d) by (intros d D; split; [apply Rmult_le_pos; lra|apply Rmult_le_compat_r; lra]).
      assert (EM' : forall d, 0 <= d -> 0 <= E * d /\ E * d <= M * d) by (intros d D; split; apply (EM d D)).
      rewrite Rabs_minus_sym. pose proof (HM (e' - e) ltac:(lra)). pose proof (EM (e' - e) ltac:(lra)).
      destruct (Rlt_dec e (- sy)), (Rlt_dec e' (- sy)); try (exfalso; lra).
      * apply Rabs_le. lra.
      * pose proof (HM (- sy - e) ltac:(lra)). destruct (Rlt_dec sy e').
        -- pose proof (HM (e' - sy) ltac:(lra)). pose proof (EM (2 * sy) ltac:(lra)). apply Rabs_le. lra.
        -- pose proof (EM (e' + sy) ltac:(lra)). apply Rabs_le. lra.
      * destruct (Rlt_dec sy e), (Rlt_dec sy e'); try (exfalso; lra).
        -- apply Rabs_le. lra.
        -- pose proof (HM (e' - sy) ltac:(lra)). pose proof (EM (sy - e) ltac:(lra)). apply Rabs_le. lra.
        -- apply Rabs_le. lra.
  - intros fc p u lo hi Hf Hp LO HI.
    assert (W : pr_wf (pr_init fc p u 2)). { unfold pr_wf, pr_init. cbn [pr_fc pr_eu pr_e0 pr_n]. rewrite !Rabs_pos_eq by lra. lra. }
    assert (TU := tol_pos u). assert (TE : tol (- u) = tol u) by (unfold tol; now rewrite Rabs_Ropp). assert (T1 := tol_pos 100).
    assert (L0 : 0 <= 2 * fc / p) by (apply Rmult_le_pos; [lra|left; apply Rinv_0_lt_compat; lra]).
    split; [exact L0|]. split.
    + intros e R1. rewrite pr_stress_raw by exact W. unfold pr_ult, pr_init. cbn [pr_eu]. rewrite (Rabs_pos_eq u) by lra.
      rewrite prep_far; cbn [fst snd]; [|unfold far; rewrite Rabs_left; lra|unfold far; rewrite TE, Rabs_pos_eq; lra].
      unfold pr_raw, pr_curve. cbn [pr_fc pr_e0 pr_eu pr_n]. rewrite !Rabs_pos_eq by lra.
      destruct (Rltb_spec 0 e); destruct (Rlt_dec 0 e); try lra. destruct (Rleb_spec (- p) e); destruct (Rle_dec (- p) e); try lra.
      * assert (Q : 1 - e / - p = 1 + e / p) by (field; lra). rewrite Q. rewrite pypow_2; [reflexivity|].
        apply (Rmult_le_reg_r p); [lra|]. replace ((1 + e / p) * p) with (p + e) by (field; lra). lra.
      * destruct (Rleb_spec (- u) e); destruct (Rle_dec (- u) e); try lra; exfalso; lra.
    + apply abs_sym. intros e e' R1 R2 R3. set (K := 2 * fc / p) in *.
      pose (q := fun x : R => - fc * (1 - (1 + x / p) ^ 2)).
      assert (V : forall x, lo <= x <= hi -> pr_curve fc p u x = q (Rmax (- p) (Rmin 0 x))).
      { intros x RX. unfold pr_curve, q. destruct (Rlt_dec 0 x).
        - rewrite Rmin_left, Rmax_right by lra. field. lra.
        - rewrite Rmin_right by lra. destruct (Rle_dec (- p) x); [rewrite Rmax_right by lra; reflexivity|]. rewrite Rmax_left by lra. destruct (Rle_dec (- u) x); [field; lra|lra]. }
      rewrite !V by lra. set (x := Rmax (- p) (Rmin 0 e)). set (y := Rmax (- p) (Rmin 0 e')).
      assert (XR : - p <= x <= 0) by (apply (clamp_range (- p) 0 e); lra). assert (YR : - p <= y <= 0) by (apply (clamp_range (- p) 0 e'); lra).
      assert (XY : Rabs (x - y) <= e' - e). { pose proof (clamp_lip (- p) 0 e e') as C. rewrite (Rabs_left1 (e - e')) in C by lra. unfold clamp in C. fold x y in C. lra. }
      assert (D : q x - q y = K * ((1 + x / p + (1 + y / p)) / 2) * (x - y)) by (unfold q, K; field; lra).
      assert (B : forall t, - p <= t <= 0 -> 0 <= 1 + t / p <= 1).
      { intros t T. split; apply (Rmult_le_reg_r p); try lra; replace ((1 + t / p) * p) with (p + t) by (field; lra); lra. }
      pose proof (B x XR). pose proof (B y YR). set (m := (1 + x / p + (1 + y / p)) / 2) in *. assert (M1 : 0 <= m <= 1) by (unfold m; lra).
      rewrite D, !Rabs_mult, (Rabs_pos_eq K L0), (Rabs_pos_eq m) by lra. rewrite Rmult_assoc. apply Rmult_le_compat_l; [exact L0|].
      apply Rle_trans with (1 * Rabs (x - y)); [apply Rmult_le_compat_r; [apply Rabs_pos|lra]|lra].
Qed.
Print Assumptions C55_curves.

(** A rectangle of steel bent beyond yielding, meshed along its diagonal. *)
Definition steel : ep := {| ep_E := 200000; ep_fy := 400; ep_Eh := 1000; ep_su := Some (5/100); ep_sy := 400 / 200000 |}.
Definition diagonal (_ : surface) (_ : R) : list tri :=
  [((- / 2, -1), (/ 2, -1), (/ 2, 1)); ((- / 2, -1), (/ 2, 1), (- / 2, 1))].
Lemma diagonal_triangulates s : In s (cg_surf plate) -> triangulates (diagonal s 0) s.
Proof.
  intros [<- | []]. split.
  - intros t T. unfold ccw. rewrite fan_area. destruct T as [<- | [<- | []]]; unfold shoelace, lsum, cross; cbn; lra.
  - unfold surface_edges. cbn [sf_ext sf_ints flat_map]. rewrite rect_ccw by lra. rewrite app_nil_r. unfold rect. cbn [edges diagonal flat_map tri_edges app].
    set (A := (- / 2, -1)). set (B := (/ 2, -1)). set (C := (/ 2, 1)). set (D := (- / 2, 1)).
    apply sb_trans with ((C, A) :: (A, C) :: [(A, B); (B, C); (C, D); (D, A)]); [|apply sb_cancel].
    apply sb_perm. apply Permutation_sym. apply (Permutation_cons_app [(A, B); (B, C)]). cbn [app]. apply (Permutation_cons_app [(A, B); (B, C)]). cbn [app]. apply Permutation_refl.
Qed.
Lemma steel_init : ep_init 200000 400 1000 (Some (5/100)) = Ok steel.
Proof. unfold ep_init. destruct (Rltb_spec 0 200000); [reflexivity|lra]. Qed.
Lemma steel_batched (k : nat) : batched (ep_law steel).
Proof.
  split; intros eps; cbn [lw_stress_arr lw_tangent_arr lw_stress lw_tangent ep_law fst];
  apply (C05_elasticplastic_arrays _ _ _ _ _ eps steel_init ltac:(lra) ltac:(lra)); try (cbn; lra); intros u [= <-]; lra.
Qed.
Example C55_example : exists N My Mz N' My' Mz' d d',
  fiber_forces (fun _ => ep_law steel) diagonal plate (0, 1/100, 0) None (Some (1/100)) = Ok ((N, My, Mz), d) /\
  marin_forces (fun _ => ep_law steel) plate (0, 1/100, 0) None = Ok ((N', My', Mz'), d') /\
  Rabs (N - N') <= 8000 /\ Rabs (My - My') <= 8000 /\ Rabs (Mz - Mz') <= 4000.
Proof.
  assert (SQ : 0 < sqrt (0 ^ 2 + (1/100) ^ 2)) by (apply sqrt_lt_R0; lra).
  assert (T : tol (5/100) < 1/100) by (unfold tol; rewrite Rabs_pos_eq by lra; lra).
  assert (AR : surface_integral (fun _ _ => 1) {| sf_ext := rect (- / 2) (/ 2) (-1) 1; sf_ints := []; sf_law := 0 |} = 2).
  { transitivity (surface_integral (fun y z => 1 + 0 * y + 0 * z) {| sf_ext := rect (- / 2) (/ 2) (-1) 1; sf_ints := []; sf_law := 0 |}); [f_equal; apply functional_extensionality; intros y; apply functional_extensionality; intros z; ring|].
    rewrite (surface_triangles _ _ _ (field2_affine 1 0 0) (diagonal_triangulates _ (or_introl eq_refl))). cbn [diagonal map]. rewrite !lsum_cons, !tri_affine, !fan_area. unfold shoelace, lsum, cross. cbn. field. }
  destruct (C55_mesh_agreement (fun _ => ep_law steel) (fun _ => ep_curve 200000 400 1000 (5/100)) diagonal plate 0 (1/100) 0 (1/100)
    (fun _ => 200000) (fun _ => - (1/100)) (fun _ => 1/100) 2 (/ 2) 1) as (N & My & Mz & N' & My' & Mz' & d & d' & FF & MF & E1 & E2 & E3).
  - exact steel_batched.
  - lra.
  - left. discriminate.
  - intros s I. destruct (proj1 plate_drawn s I) as (C1 & C2). split; [exact C1|]. split; [exact C2|].
    set (r := sqrt (0 ^ 2 + (1/100) ^ 2)) in *.
    apply (proj1 (ep_field 200000 400 1000 (5/100) steel 0 r steel_init ltac:(lra) ltac:(lra) ltac:(lra) (fun Z : r = 0 => False_ind _ ltac:(lra)))).
  - exact (proj2 plate_drawn).
  - intros s I. apply diagonal_triangulates, I.
  - intros s t [<- | []] HT. split.
    + destruct HT as [<- | [<- | []]]; cbn [tri_size fst snd]; repeat split; apply Rabs_le; lra.
    + intros v V. destruct HT as [<- | [<- | []]]; cbn [corner] in V; destruct V as [-> | [-> | ->]]; unfold plane_strain; cbn [fst snd]; repeat split; try (apply Rabs_le); lra.
  - intros s I. pose proof (proj1 (proj2 C55_curves) 200000 400 1000 (5/100) steel (- (1/100)) (1/100) steel_init ltac:(lra) ltac:(lra) ltac:(lra) ltac:(lra) ltac:(lra)) as S.
    rewrite Rmax_left in S by lra. exact S.
  - exists N, My, Mz, N', My', Mz', d, d'. split; [exact FF|]. split; [exact MF|]. cbn [cg_surf plate map] in E1, E2, E3. rewrite lsum_cons in E1, E2, E3. cbv beta in E1, E2, E3. rewrite AR in E1, E2, E3.
    rewrite (Rabs_pos_eq (1/100)), Rabs_R0 in E1, E2, E3 by lra. unfold lsum in E1, E2, E3. cbn [fold_left] in E1, E2, E3. lra.
Qed.
