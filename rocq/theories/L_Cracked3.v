(** Lemmas for C50: equilibrium of the temporary section. *)
From Coquelicot Require Import Coquelicot.
From Verif Require Import Base M_Marin S_Marin L_Marin M_Laws S_Laws L_Laws L_LawsC M_Laws2 S_Laws2 L_Laws2 M_Fiber S_Fiber L_Fiber P_Fiber M_MarinInt S_MarinInt L_MarinInt L_MarinInt2 L_MarinInt3 L_MarinInt4 M_Section S_Section L_Section L_Section2 M_Gross S_Gross L_Gross L_Gross2 M_Geo M_Cracked S_Cracked L_Cracked L_Cracked2.
From Coq Require Import Lra Lia Permutation.

Definition curv : R := cracked_curvature.
Lemma curv_val : curv = - (1 / 100000).
Proof. unfold curv, cracked_curvature. cbn [pow]. lra. Qed.
Definition BIG : R := 1000000.

Lemma lsum_zeros {A} (l : list A) : lsum (map (fun _ => 0) l) = 0.
Proof. induction l as [|x l IH]; [reflexivity|]. cbn [map]. rewrite lsum_cons, IH. lra. Qed.

Section Temp.
Variables (T : nat -> R) (tl : nat -> law) (tg : compound).
Hypothesis LB : forall k, batched (tl k).
Hypothesis HS : forall s, In s (cg_surf tg) -> tl (sf_law s) = ncl (T (sf_law s)) /\ okay s /\ in_band (- BIG) BIG s.
Hypothesis HB : forall b, In b (cg_bars tg) -> tl (br_law b) = elastic_law {| el_E := T (br_law b); el_u := None |}.
Hypothesis CT : forall b b', In b (cg_bars tg) -> In b' (cg_bars tg) -> count_law (br_law b) (cg_bars tg) = count_law (br_law b') (cg_bars tg).

Lemma axial_temp e : -20 <= e <= 20 -> exists My Mz d,
  marin_forces tl tg (e, curv, 0) None = Ok ((curv * moment_at T tg (- e / curv), My, Mz), d).
Proof.
  intros He. pose proof curv_val as CV.
  set (r := sqrt (0 ^ 2 + curv ^ 2)).
  assert (RV : r = - curv).
  { unfold r. replace (0 ^ 2 + curv ^ 2) with ((- curv) * (- curv)) by ring. apply sqrt_square. lra. }
  assert (FO : forall s, In s (cg_surf tg) -> field_of (lw_marin (tl (sf_law s)) (e, r)) (nct (T (sf_law s))) e r /\
    closed (sf_ext s) /\ (forall q, In q (sf_ints s) -> closed q)).
  { intros s I. destruct (HS s I) as (E1 & [O1 O2] & _). split; [|split; assumption]. rewrite E1. apply ncl_field. lra. }
  pose proof (forces_core tl (fun k => nct (T k)) tg e curv 0 LB FO CT) as FC. cbv zeta in FC.
  rewrite FC. do 3 eexists. f_equal. f_equal. f_equal. f_equal. clear FC.
  set (a := - atan2 0 curv).
  destruct (atan2_spec curv 0) as [A1 A2]. fold r in A1, A2.
  assert (Ca : cos a = -1) by (unfold a; rewrite cos_neg; apply Rmult_eq_reg_l with r; lra).
  assert (Sa : sin a = 0) by (unfold a; rewrite sin_neg; apply Rmult_eq_reg_l with r; lra).
  unfold moment_at. rewrite Rmult_plus_distr_l. f_equal.
  - unfold surfaces_turned. rewrite <- lsum_map_scal. apply lsum_map_ext. intros s I.
    destruct (HS s I) as (_ & _ & BD).
    transitivity (surface_integral (fun _ z' => nct (T (sf_law s)) (e + r * z')) (turned a s)).
    { apply surf_ext. intros y z. cbn [arm]. unfold a, r. rewrite rotated_strain. ring. }
    rewrite surface_field, (sfield_half a) by assumption.
    transitivity (sfield (fun z => curv * T (sf_law s) * ramp (- e / curv) z) s).
    2:{ rewrite sfield_scal by apply eint_ramp. ring. }
    apply (sfield_band (- BIG) BIG); [exact BD|]. intros z Hz. unfold BIG in Hz.
    assert (Q : - e / curv = 100000 * e) by (rewrite CV; field).
    rewrite Q. unfold nct, ramp, Rmax. rewrite RV, CV. destruct (Rle_dec (-100) _); [|lra].
    destruct (Rle_dec _ 0), (Rle_dec 0 _); try nra.
  - unfold barpart. rewrite <- lsum_map_scal. apply lsum_map_ext. intros b I. rewrite (HB b I). cbn [pick elastic_law lw_stress].
    unfold elastic_stress, plane_strain. cbn [el_E arm].
    assert (Q : - e / curv = 100000 * e) by (rewrite CV; field). rewrite Q, CV. field.
Qed.

Hypothesis SO : forall s, In s (cg_surf tg) -> solid s.
Hypothesis TP : forall s, In s (cg_surf tg) -> 0 < T (sf_law s).
Hypothesis TB : forall b, In b (cg_bars tg) -> 0 < T (br_law b) /\ 0 <= br_area b.

Lemma solid_le s F G : solid s -> (forall z, continuity_pt F z) -> (forall z, continuity_pt G z) -> (forall z, F z <= G z) -> sfield F s <= sfield G s.
Proof.
  intros S CF CG L. assert (X := S (fun z => G z + -1 * F z)). 
  assert (0 <= surface_integral (fun _ z => G z + -1 * F z) s).
  { apply X; [|intros z; specialize (L z); lra]. intros z. apply continuity_pt_plus; [apply CG|]. apply continuity_pt_scal. apply CF. }
  rewrite (surface_field (fun z => G z + -1 * F z)) in H. rewrite (sfield_plus G (fun z => -1 * F z)) in H.
  - rewrite sfield_scal in H by now apply eint_continuity. lra.
  - now apply eint_continuity.
  - apply eint_continuity. intros z. apply continuity_pt_scal. apply CF.
Qed.
Lemma const_cont (k : R) z : continuity_pt (fun _ : R => k) z.
Proof. apply continuity_pt_const. intros x y. reflexivity. Qed.
Definition ea : R := lsum (map (fun s => T (sf_law s) * sfield (fun _ => 1) s) (cg_surf tg)) + lsum (map (fun b => T (br_law b) * br_area b) (cg_bars tg)).
Lemma lsum_le {A} (F G : A -> R) l : (forall x, In x l -> F x <= G x) -> lsum (map F l) <= lsum (map G l).
Proof.
  induction l as [|x l IH]; intros H; [cbn; lra|]. cbn [map]. rewrite !lsum_cons. specialize (H x (or_introl eq_refl)) as H1.
  assert (lsum (map F l) <= lsum (map G l)) by (apply IH; intros; apply H; now right). lra.
Qed.
Lemma moment_shift c d : c <= d -> moment_at T tg d <= moment_at T tg c <= moment_at T tg d + ea * (d - c).
Proof.
  intros L. unfold moment_at, ea.
  assert (A : forall s, In s (cg_surf tg) -> sfield (ramp d) s <= sfield (ramp c) s <= sfield (ramp d) s + (d - c) * sfield (fun _ => 1) s).
  { intros s I. split.
    - apply solid_le; [now apply SO|apply ramp_cont|apply ramp_cont|]. intros z. unfold ramp, Rmax. destruct (Rle_dec _ _), (Rle_dec _ _); lra.
    - rewrite <- sfield_scal by (apply eint_continuity; intros; apply const_cont).
      rewrite <- (sfield_plus (ramp d) (fun _ => (d - c) * 1)); [|apply eint_ramp|apply eint_continuity; intros; apply const_cont].
      apply solid_le; [now apply SO|apply ramp_cont| |].
      + intros z. apply continuity_pt_plus; [apply ramp_cont|apply const_cont].
      + intros z. unfold ramp, Rmax. destruct (Rle_dec _ _), (Rle_dec _ _); lra. }
  split.
  - apply Rplus_le_compat; apply lsum_le.
    + intros s I. apply Rmult_le_compat_l; [apply Rlt_le; now apply TP|]. apply (A s I).
    + intros b I. destruct (TB b I). apply Rmult_le_compat_l; [lra|]. apply Rmult_le_compat_l; lra.
  - rewrite Rmult_plus_distr_r.
    replace (_ + _ + _) with ((lsum (map (fun s => T (sf_law s) * sfield (ramp d) s) (cg_surf tg)) + (d - c) * lsum (map (fun s => T (sf_law s) * sfield (fun _ => 1) s) (cg_surf tg)))
      + (lsum (map (fun b => T (br_law b) * (br_area b * (br_z b - d))) (cg_bars tg)) + (d - c) * lsum (map (fun b => T (br_law b) * br_area b) (cg_bars tg)))) by ring.
    rewrite <- !lsum_map_scal, <- !lsum_map_plus. apply Rplus_le_compat; apply lsum_le.
    + intros s I. specialize (TP s I). specialize (A s I). nra.
    + intros b I. right. ring.
Qed.
Lemma ea_nonneg : 0 <= ea.
Proof. pose proof (moment_shift 0 1). lra. Qed.

Hypothesis BB : forall b, In b (cg_bars tg) -> - BIG <= br_z b <= BIG.
Hypothesis ONE : exists b, In b (cg_bars tg) /\ 0 < br_area b.

Lemma lsum_neg {A} (F : A -> R) l x : (forall y, In y l -> F y <= 0) -> In x l -> F x < 0 -> lsum (map F l) < 0.
Proof.
  induction l as [|y l IH]; intros H I N; [contradiction|]. cbn [map]. rewrite lsum_cons.
  assert (H1 := H y (or_introl eq_refl)).
  assert (lsum (map F l) <= 0).
  { rewrite <- (lsum_zeros l). apply lsum_le. intros; apply H; now right. }
  destruct I as [<-|I]; [lra|].
  assert (lsum (map F l) < 0) by (apply IH; auto; intros; apply H; now right). lra.
Qed.
Lemma moment_high c : BIG < c -> moment_at T tg c < 0.
Proof.
  intros L. unfold moment_at.
  assert (A : lsum (map (fun s => T (sf_law s) * sfield (ramp c) s) (cg_surf tg)) = 0).
  { rewrite <- (lsum_zeros (cg_surf tg)).
    apply lsum_map_ext. intros s I. destruct (HS s I) as (_ & _ & BD).
    rewrite (sfield_band _ _ (ramp c) (fun z => 0 * ramp c z) s BD).
    - rewrite sfield_scal by apply eint_ramp. ring.
    - intros z Hz. unfold ramp, Rmax. destruct (Rle_dec _ _); lra. }
  destruct ONE as (b & I & P). rewrite A, Rplus_0_l. apply (lsum_neg _ _ b); [|exact I|].
  - intros y J. destruct (TB y J). specialize (BB y J).
    assert (br_area y * (br_z y - c) <= 0) by nra. nra.
  - destruct (TB b I). specialize (BB b I). assert (br_area b * (br_z b - c) < 0) by nra. nra.
Qed.
Lemma moment_low c : c < - BIG -> 0 < moment_at T tg c.
Proof.
  intros L. unfold moment_at.
  assert (A : 0 <= lsum (map (fun s => T (sf_law s) * sfield (ramp c) s) (cg_surf tg))).
  { rewrite <- (lsum_zeros (cg_surf tg)).
    apply lsum_le. intros s I. assert (0 <= sfield (ramp c) s).
    { rewrite <- surface_field. apply (SO s I); [apply ramp_cont|]. intros z. apply Rmax_l. }
    specialize (TP s I). nra. }
  destruct ONE as (b & I & P).
  assert (B : lsum (map (fun b => -1 * (T (br_law b) * (br_area b * (br_z b - c)))) (cg_bars tg)) < 0).
  { apply (lsum_neg _ _ b); [|exact I|].
    - intros y J. destruct (TB y J). specialize (BB y J).
      assert (0 <= br_area y * (br_z y - c)) by nra. nra.
    - destruct (TB b I). specialize (BB b I). assert (0 < br_area b * (br_z b - c)) by nra. nra. }
  rewrite lsum_map_scal in B. lra.
Qed.

Definition resp (e : R) : R := curv * moment_at T tg (- e / curv).
Lemma resp_val e : resp e = - (1/100000) * moment_at T tg (100000 * e).
Proof. unfold resp. rewrite curv_val. f_equal. f_equal. field. Qed.
Lemma resp_mono : nondecreasing resp.
Proof. intros x y L. rewrite !resp_val. pose proof (moment_shift (100000 * x) (100000 * y)). lra. Qed.
Lemma resp_lip : lipschitz ea resp.
Proof.
  intros x y. rewrite !resp_val. pose proof ea_nonneg as EN. destruct (Rle_dec x y).
  - pose proof (moment_shift (100000 * x) (100000 * y) ltac:(lra)) as M. rewrite (Rabs_left1 (x - y)) by lra. apply Rabs_le. split; lra.
  - pose proof (moment_shift (100000 * y) (100000 * x) ltac:(lra)) as M. rewrite (Rabs_pos_eq (x - y)) by lra. apply Rabs_le. split; lra.
Qed.

(** The equilibrium is found and the first moment nearly vanishes. *)
Lemma equilibrium : ea <= 10 ^ 24 ->
  (Rabs (moment_at T tg 0) <= 1000 \/ forall m j, moment_at T tg (100 * (IZR m / 2 ^ j)) <> 0) ->
  exists e, fst (fixed_curvature (marin_integ tl) tg 0 curv 0 st_init) = Ok (e, curv, 0) /\ Rabs (moment_at T tg (- e / curv)) <= 1000.
Proof.
  intros EB NZ.
  assert (V0 : moment_at T tg 0 = -100000 * resp 0) by (rewrite resp_val, Rmult_0_r; lra).
  destruct (axial_temp 0 ltac:(lra)) as (My & Mz & d & F0).
  unfold fixed_curvature, abind, forces_k. cbn [st_init st_data marin_integ ig_forces]. rewrite F0. cbn [fst snd keep_data st_data].
  fold (resp 0). unfold keep_data, axial_fun. cbn [st_init st_data marin_integ ig_forces].
  pose proof (forces_data _ _ _ _ _ F0) as ->.
  set (f := fun e0 : R => rmap _ (marin_forces tl tg (e0, curv, 0) _)).
  assert (FE : forall x, 0 - 1/1000 * 2 ^ 14 <= x <= 0 + 1/1000 * 2 ^ 14 -> f x = Ok (resp x)).
  { intros x Hx. unfold f. rewrite (forces_reuse tl tg (x, curv, 0) LB).
    assert (X : -20 <= x <= 20) by (cbn [pow] in Hx; lra).
    destruct (axial_temp x X) as (a & b & c & ->). reflexivity. }
  assert (SG : resp (0 - 1/1000 * 2 ^ 14) < 0 < resp (0 + 1/1000 * 2 ^ 14)).
  { assert (P2 : 2 ^ 14 = 16384) by (cbn [pow]; lra). rewrite !resp_val, P2.
    pose proof (moment_low (100000 * (0 - 1 / 1000 * 16384)) ltac:(unfold BIG; lra)).
    pose proof (moment_high (100000 * (0 + 1 / 1000 * 16384)) ltac:(unfold BIG; lra)). lra. }
  rewrite (solve_local 14 f resp 0 0 ltac:(lia) FE resp_mono SG).
  destruct NZ as [Q|NZ].
  - exists 0. unfold solve_curvature. destruct (Rleb_spec (Rabs (resp 0 - 0)) (1/100)) as [_|N].
    + cbn [rmap bind]. split; [reflexivity|]. replace (- 0 / curv) with 0 by (rewrite curv_val; field). exact Q.
    + exfalso. apply N. rewrite V0, Rabs_mult, (Rabs_left (-100000)) in Q by lra. rewrite Rminus_0_r. lra.
  - assert (TT : total (fun x => Ok (resp x)) resp) by (intros x; reflexivity).
    assert (GN : forall x, grid 0 (1/1000) x -> resp x <> 0).
    { intros x (m & j & ->) Z. apply (NZ m j). rewrite resp_val in Z.
      replace (100 * (IZR m / 2 ^ j)) with (100000 * (0 + 1/1000 * (IZR m / 2 ^ j))) by lra. lra. }
    assert (WIDE : resp (0 - 1/1000 * 2 ^ 19) < 0 < resp (0 + 1/1000 * 2 ^ 19)).
    { assert (P : 2 ^ 14 <= 2 ^ 19) by (apply Rle_pow; [lra|lia]). split.
      - apply Rle_lt_trans with (resp (0 - 1/1000 * 2 ^ 14)); [apply resp_mono; lra|apply SG].
      - apply Rlt_le_trans with (resp (0 + 1/1000 * 2 ^ 14)); [apply SG|apply resp_mono; lra]. }
    destruct (solve_curvature_finds _ resp 0 0 ea TT resp_mono resp_lip EB GN WIDE) as (e & X).
    exists e. rewrite X. split; [reflexivity|].
    pose proof (solve_curvature_sound _ resp 0 0 e TT resp_mono GN X) as B. unfold balances in B. rewrite Rminus_0_r in B.
    rewrite curv_val. unfold resp in B. rewrite curv_val, Rabs_mult, (Rabs_left (- (1/100000))) in B by lra. lra.
Qed.
End Temp.
