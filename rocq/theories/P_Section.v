(** Properties C22-C28: the section calculator. *)
From Coq Require Import FunctionalExtensionality.
From Verif Require Import Base M_Marin S_Marin L_Marin M_Laws S_Laws L_Laws M_Laws2 S_Laws2 L_LawsC M_Fiber S_Fiber L_Fiber M_MarinInt S_MarinInt L_MarinInt3
  M_Section S_Section L_Section L_Section2 L_Section3 M_Domain S_History L_History L_Section4 L_Section5 L_Section6 L_Laws2 L_Laws4 P_Laws P_Laws2 P_Fiber.

(** * C22: equilibrium at fixed curvature *)
(** Whatever integrator is used and whatever happened before, the profile
    returned has the requested curvature. *)
Theorem C22_requested_curvature : forall ig g n curv eps0 s p s',
  fixed_curvature ig g n curv eps0 s = (Ok p, s') -> p_ky p = curv /\ p_kz p = 0.
Proof.
  intros ig g n curv eps0 s p s'. unfold fixed_curvature, abind. destruct (forces_k ig g (eps0, curv, 0) None s) as [[F|e] s1]; [|discriminate].
  destruct (solve_curvature _ n eps0 (fst (fst F))); [|discriminate]. cbn. intros H. inversion H. split; reflexivity.
Qed.
Print Assumptions C22_requested_curvature.
(** Fibre sections of materials whose stress never decreases with strain: unless
    one of the bisection's points meets the load exactly, the profile returned
    is balanced. *)
Theorem C22_balanced : forall laws mesher g ms n curv eps0 s p s',
  (forall k, batched (laws k)) -> (forall k, nondecreasing (lw_stress (laws k))) ->
  (forall b, In b (cg_bars g) -> 0 <= br_area b) -> cg_surf g <> [] \/ cg_bars g <> [] ->
  0 < ms <= 1 -> uses_mesh mesher g ms (1/100) s ->
  let N e := axial (section_fibres laws (fun x => mesher x (surface_area x * ms)) g) e curv 0 in
  (forall x, grid eps0 (1/1000) x -> N x <> n) ->
  fixed_curvature (fiber_integ laws mesher) g n curv eps0 s = (Ok p, s') ->
  balances n (N (p_e0 p)).
Proof.
  intros laws mesher g ms n curv eps0 s p s' B MO HB NE M U N NG E.
  assert (F : fst (fixed_curvature (fiber_integ laws mesher) g n curv eps0 s) =
    rmap (fun x => (x, curv, 0)) (solve_curvature (fun x => Ok (N x)) n eps0 (N eps0))) by (apply fixed_curvature_fiber; assumption). rewrite E in F. cbn [fst] in F.
  destruct (solve_curvature (fun x => Ok (N x)) n eps0 (N eps0)) as [e|] eqn:SC; cbn [rmap] in F; [|discriminate F]. injection F as ->.
  apply (solve_curvature_sound (fun x => Ok (N x)) N n eps0 e); [intros x; reflexivity|apply section_mono; assumption|exact NG|exact SC].
Qed.
Print Assumptions C22_balanced.
(** In that situation a load between the axial forces at eps0 -+ 524.288 is
    always found, if the axial force is Lipschitz with a constant up to 1e24. *)
Theorem C22_solves : forall laws mesher g ms n curv eps0 s L,
  (forall k, batched (laws k)) -> (forall k, nondecreasing (lw_stress (laws k))) ->
  (forall b, In b (cg_bars g) -> 0 <= br_area b) -> cg_surf g <> [] \/ cg_bars g <> [] ->
  0 < ms <= 1 -> uses_mesh mesher g ms (1/100) s ->
  let N e := axial (section_fibres laws (fun x => mesher x (surface_area x * ms)) g) e curv 0 in
  (forall x, grid eps0 (1/1000) x -> N x <> n) ->
  lipschitz L N -> L <= 10 ^ 24 -> N (eps0 - 1/1000 * 2 ^ 19) < n < N (eps0 + 1/1000 * 2 ^ 19) ->
  exists e s', fixed_curvature (fiber_integ laws mesher) g n curv eps0 s = (Ok (e, curv, 0), s') /\ balances n (N e).
Proof.
  intros laws mesher g ms n curv eps0 s L B MO HB NE M U N NG LP LB BR.
  assert (F : fst (fixed_curvature (fiber_integ laws mesher) g n curv eps0 s) =
    rmap (fun x => (x, curv, 0)) (solve_curvature (fun x => Ok (N x)) n eps0 (N eps0))) by (apply fixed_curvature_fiber; assumption).
  destruct (solve_curvature_finds (fun x => Ok (N x)) N n eps0 L) as (e & SC); try assumption; [intros x; reflexivity|apply section_mono; assumption|].
  rewrite SC in F. cbn [rmap] in F. destruct (fixed_curvature (fiber_integ laws mesher) g n curv eps0 s) as [r s'] eqn:E. cbn [fst] in F. subst r.
  exists e, s'. split; [reflexivity|]. exact (C22_balanced laws mesher g ms n curv eps0 s (e, curv, 0) s' B MO HB NE M U NG E).
Qed.
Print Assumptions C22_solves.
(** The only exception is ValueError, and it is raised when no axial strain
    balances the load. *)
Theorem C22_raises : forall laws mesher g ms n curv eps0 s,
  (forall k, batched (laws k)) -> (forall k, nondecreasing (lw_stress (laws k))) ->
  (forall b, In b (cg_bars g) -> 0 <= br_area b) -> cg_surf g <> [] \/ cg_bars g <> [] ->
  0 < ms <= 1 -> uses_mesh mesher g ms (1/100) s ->
  let N e := axial (section_fibres laws (fun x => mesher x (surface_area x * ms)) g) e curv 0 in
  (forall x s', fixed_curvature (fiber_integ laws mesher) g n curv eps0 s = (Err x, s') -> x = ValueError) /\
  ((forall e, ~ balances n (N e)) -> exists s', fixed_curvature (fiber_integ laws mesher) g n curv eps0 s = (Err ValueError, s')).
Proof.
  intros laws mesher g ms n curv eps0 s B MO HB NE M U N.
  assert (F : fst (fixed_curvature (fiber_integ laws mesher) g n curv eps0 s) =
    rmap (fun x => (x, curv, 0)) (solve_curvature (fun x => Ok (N x)) n eps0 (N eps0))) by (apply fixed_curvature_fiber; assumption). split.
  - intros x s' E. rewrite E in F. cbn [fst] in F. destruct (solve_curvature (fun x => Ok (N x)) n eps0 (N eps0)) as [e|y] eqn:SC; cbn [rmap] in F; [discriminate F|].
    injection F as <-. apply (solve_curvature_err (fun x => Ok (N x)) N n eps0 x); [intros z; reflexivity|apply section_mono; assumption|exact SC].
  - intros NB. rewrite (solve_curvature_jump (fun x => Ok (N x)) N n eps0) in F.
    + destruct (fixed_curvature (fiber_integ laws mesher) g n curv eps0 s) as [r s'] eqn:E. cbn [fst rmap] in F. subst r. exists s'. reflexivity.
    + intros z; reflexivity.
    + apply section_mono; assumption.
    + intros x. specialize (NB x). unfold balances in NB. lra.
Qed.
Print Assumptions C22_raises.
(** The same for any integrator (in particular Marin's) whose axial force never
    decreases with the axial strain. *)
Theorem C22_any_integrator : forall ig g n curv eps0 s p s' N,
  reuse_safe ig g -> fixed_curvature ig g n curv eps0 s = (Ok p, s') ->
  (forall e, exists F d, ig_forces ig g (e, curv, 0) (st_data s') None = Ok (F, d) /\ fst (fst F) = N e) ->
  nondecreasing N -> (forall x, grid eps0 (1/1000) x -> N x <> n) -> balances n (N (p_e0 p)).
Proof.
  intros ig g n curv eps0 s p s' N RS E HN MO NG. unfold fixed_curvature, abind in E.
  destruct (forces_k ig g (eps0, curv, 0) None s) as [[F|e] s1] eqn:EF; [|discriminate].
  destruct (forces_k_state _ _ _ _ _ _ _ RS EF) as (_ & _ & AX & _).
  assert (s1 = s') by (inversion E; reflexivity). subst s1.
  assert (T : total (fun e => axial_fun ig g s' (e, curv, 0)) N).
  { intros e. destruct (HN e) as (F' & d & E' & EN). unfold axial_fun. rewrite E'. cbn. now rewrite EN. }
  pose proof (T eps0) as T0. cbv beta in T0. rewrite AX in T0. inversion T0 as [T1]. rewrite T1 in E.
  destruct (solve_curvature _ n eps0 (N eps0)) as [e|] eqn:SC; [|discriminate]. inversion E; subst p.
  exact (solve_curvature_sound _ N n eps0 e T MO NG SC).
Qed.
Print Assumptions C22_any_integrator.

(** Hypotheses are met: one elastic bar (E = 1000), load 1/3. *)
Lemma bar1_N E mesh x c : axial (section_fibres (stiff_laws E) mesh bar1) x c 0 = E * x.
Proof. unfold axial, section_fibres, bar1. cbn. unfold elastic_stress, plane_strain. cbn. ring. Qed.
Lemma third_off_grid x : grid 0 (1/1000) x -> 1000 * x <> 1/3.
Proof.
  intros (m & j & ->) H. assert (P : 2 ^ j <> 0) by (apply pow_nonzero; lra).
  assert (Q : IZR m / 2 ^ j = 1/3) by lra.
  assert (E : 3 * IZR m = 2 ^ j). { assert (E' : IZR m = IZR m / 2 ^ j * 2 ^ j) by (field; assumption). rewrite Q in E'. lra. }
  rewrite pow_IZR, <- mult_IZR in E. apply eq_IZR in E.
  assert (G : forall k, exists q, (2 ^ Z.of_nat k = 3 * q + 1 \/ 2 ^ Z.of_nat k = 3 * q + 2)%Z).
  { clear. induction k as [|i (q & IH)]; [exists 0%Z; left; reflexivity|]. rewrite Nat2Z.inj_succ, Z.pow_succ_r by lia.
    destruct IH as [IH|IH]; rewrite IH; [exists (2 * q)%Z; right; lia|exists (2 * q + 1)%Z; left; lia]. }
  destruct (G j) as (q & [Q'|Q']); lia.
Qed.
Example C22_example mesher : exists e s', fixed_curvature (fiber_integ (stiff_laws 1000) mesher) bar1 (1/3) 0 0 st_init = (Ok (e, 0, 0), s') /\
  balances (1/3) (1000 * e).
Proof.
  destruct (C22_solves (stiff_laws 1000) mesher bar1 (1/100) (1/3) 0 0 st_init 1000) as (e & s' & E & BL).
  - apply stiff_batched.
  - intros k x y H. cbn. unfold elastic_stress. cbn. lra.
  - intros b [<-|[]]. cbn. lra.
  - right. discriminate.
  - lra.
  - reflexivity.
  - intros x H. rewrite bar1_N. exact (third_off_grid x H).
  - intros x y. rewrite !bar1_N. apply lipschitz_linear. lra.
  - cbn [pow]. lra.
  - rewrite !bar1_N. cbn [pow]. lra.
  - rewrite bar1_N in BL. exists e, s'. split; assumption.
Qed.

(** The full statement is false.  (a) If a midpoint meets the load exactly the
    search moves on and ends at an unbalanced profile (elastic bar, n = -1/2). *)
Theorem C22_exact_hit_refuted : exists laws mesher g n s' p,
  (forall k, batched (laws k)) /\ (forall k, nondecreasing (lw_stress (laws k))) /\
  fixed_curvature (fiber_integ laws mesher) g n 0 0 st_init = (Ok p, s') /\
  ~ balances n (axial (section_fibres laws (fun x => mesher x (surface_area x * (1/100))) g) (p_e0 p) 0 0).
Proof.
  destruct exact_hit as (c & E & D). exists (stiff_laws 1000), ex_mesher, bar1, (-1/2). do 2 eexists.
  split; [apply stiff_batched|]. split; [intros k x y H; cbn; unfold elastic_stress; cbn; lra|]. split.
  - rewrite (fixed_curvature_fresh _ _ _ _ _ _ data1); [|apply stiff_batched|apply bar1_data; lra|discriminate].
    assert (EQ : (fun x => @Ok R (group_axial (stiff_laws 1000) data1 (x, 0, 0))) = (fun x => Ok (1000 * x))) by (extensionality x; now rewrite bar1_axial).
    rewrite EQ, bar1_axial, E. reflexivity.
  - rewrite bar1_N. unfold balances. cbn [p_e0 fst]. unfold Rabs. destruct (Rcase_abs _); lra.
Qed.
Print Assumptions C22_exact_hit_refuted.
(** (b) With a softening material the search for a bracket can give up after 20
    restarts and return its last probe as if it were a bracket. *)
Theorem C22_softening_refuted : exists laws mesher g n s' p,
  (forall k, batched (laws k)) /\
  fixed_curvature (fiber_integ laws mesher) g n 0 0 st_init = (Ok p, s') /\
  (exists e, balances n (axial (section_fibres laws (fun x => mesher x (surface_area x * (1/100))) g) e 0 0)) /\
  ~ balances n (axial (section_fibres laws (fun x => mesher x (surface_area x * (1/100))) g) (p_e0 p) 0 0).
Proof.
  destruct soft_runaway as (c & E & D). exists soft_laws, ex_mesher, bar1, (-1). do 2 eexists.
  split; [apply soft_batched|]. split.
  - rewrite (fixed_curvature_fresh _ _ _ _ _ _ data1); [|apply soft_batched|apply bar1_data; lra|discriminate].
    assert (EQ : (fun x => @Ok R (group_axial soft_laws data1 (x, 0, 0))) = (fun x => Ok (ud_stress soft_ud x))) by (extensionality x; now rewrite soft_axial).
    rewrite EQ, soft_axial, E. reflexivity.
  - assert (AX : forall x, axial (section_fibres soft_laws (fun y => ex_mesher y (surface_area y * (1/100))) bar1) x 0 0 = ud_stress soft_ud x).
    { intros x. rewrite <- (soft_axial x 0). symmetry.
      apply (group_axial_section soft_laws ex_mesher bar1 (1/100) data1 (x, 0, 0)); [apply soft_batched|right; discriminate|apply bar1_data; lra]. }
    rewrite AX. cbn [p_e0 fst]. split.
    + exists (/ 10 ^ 6). rewrite AX, soft_stress by (cbn [pow]; lra). unfold balances. cbn [pow]. unfold Rabs. destruct (Rcase_abs _); lra.
    + unfold balances. unfold Rabs. destruct (Rcase_abs _); lra.
Qed.
Print Assumptions C22_softening_refuted.

(** * C23: equilibrium by turning the balanced profile about a pivot *)
(** Whatever integrator is used, the profile returned agrees with the balanced
    failure profile at one of its two critical ordinates and bends about y only. *)
Theorem C23_through_pivot : forall ig t ms g n yielding s p s',
  fixed_pivot ig t ms g n yielding s = (Ok p, s') ->
  exists yn yp b, balanced (tr_rc t) yielding (items_of t g) = Ok (yn, yp, b) /\ p_kz p = 0 /\
    (strain_at p yp = strain_at b yp \/ strain_at p yn = strain_at b yn).
Proof.
  intros ig t ms g n yielding s p s'. unfold fixed_pivot, abind, alift.
  destruct (balanced (tr_rc t) yielding (items_of t g)) as [[[yn yp] b]|]; [|discriminate].
  destruct (forces_k ig g b (Some ms) s) as [[F|e] s1]; [|discriminate].
  destruct (solve_pivot _ n yn yp (p_e0 b) (p_ky b) (fst (fst F))) as [[e c]|] eqn:SP; cbn [rmap]; [|discriminate].
  intros H. injection H as <- _. exists yn, yp, b. split; [reflexivity|]. split; [reflexivity|].
  exact (solve_pivot_through _ _ _ _ _ _ _ _ _ SP).
Qed.
Print Assumptions C23_through_pivot.
(** Fibre sections: let [H c] be the axial force of the profile with curvature c
    through the pivot.  If n lies strictly between the axial forces of the
    balanced and of the (nearly) uniform profile, and no bisection point meets n
    exactly, the profile returned is balanced ... *)
Theorem C23_balanced : forall laws mesher t g ms n yielding s p s' yn yp b pv,
  (forall k, batched (laws k)) -> cg_surf g <> [] \/ cg_bars g <> [] -> 0 < ms <= 1 -> uses_mesh mesher g ms ms s ->
  balanced (tr_rc t) yielding (items_of t g) = Ok (yn, yp, b) ->
  let N e c := axial (section_fibres laws (fun x => mesher x (surface_area x * ms)) g) e c 0 in
  let H c := N (strain_at b pv - c * pv) c in
  let n0 := N (p_e0 b) (p_ky b) in
  (n0 < n /\ pv = yp \/ n <= n0 /\ pv = yn) ->
  (n0 - n) * (H (- / 10 ^ 13) - n) < 0 ->
  (forall c, grid (p_ky b) (- / 10 ^ 13 - p_ky b) c -> H c <> n) ->
  fixed_pivot (fiber_integ laws mesher) t ms g n yielding s = (Ok p, s') ->
  strain_at p pv = strain_at b pv /\ balances n (N (p_e0 p) (p_ky p)).
Proof.
  intros laws mesher t g ms n yielding s p s' yn yp b pv B NE M U HB N H n0 PV SG NG E.
  assert (F : fst (fixed_pivot (fiber_integ laws mesher) t ms g n yielding s) =
    rmap (fun r => (fst r, snd r, 0)) (pivot_gen 100 (fun e c => Ok (N e c)) n yn yp (p_e0 b) (p_ky b) n0)) by (apply fixed_pivot_fiber; assumption).
  rewrite E in F. cbn [fst] in F.
  destruct (pivot_gen 100 (fun e c => Ok (N e c)) n yn yp (p_e0 b) (p_ky b) n0) as [[e c]|] eqn:PG; cbn [rmap] in F; [|discriminate F].
  injection F as ->. cbn [p_e0 p_ky fst snd].
  assert (EPV : pivot_of n yn yp n0 = pv).
  { unfold pivot_of. destruct (Rltb_spec n0 n); destruct PV as [(P & ->)|(P & ->)]; (reflexivity || lra). }
  assert (H0 : H (p_ky b) = n0) by (unfold H, n0, strain_at, p_e0, p_ky; f_equal; ring).
  destruct (pivot_gen_sound 100 (fun e c => Ok (N e c)) H n yn yp (p_e0 b) (p_ky b) n0 e c) as (X & Y).
  - intros x. rewrite EPV. reflexivity.
  - now rewrite H0.
  - rewrite H0. exact SG.
  - exact NG.
  - exact PG.
  - rewrite EPV in X. split.
    + unfold strain_at, p_e0, p_ky in *. cbn [fst snd]. rewrite X. ring.
    + replace (N e c) with (H c); [exact Y|]. unfold H. f_equal. rewrite X. unfold strain_at, p_e0, p_ky. ring.
Qed.
Print Assumptions C23_balanced.
(** ... and such a profile is always found if H is Lipschitz. *)
Theorem C23_solves : forall laws mesher t g ms n yielding s yn yp b pv L,
  (forall k, batched (laws k)) -> cg_surf g <> [] \/ cg_bars g <> [] -> 0 < ms <= 1 -> uses_mesh mesher g ms ms s ->
  balanced (tr_rc t) yielding (items_of t g) = Ok (yn, yp, b) ->
  let N e c := axial (section_fibres laws (fun x => mesher x (surface_area x * ms)) g) e c 0 in
  let H c := N (strain_at b pv - c * pv) c in
  let n0 := N (p_e0 b) (p_ky b) in
  (n0 < n /\ pv = yp \/ n <= n0 /\ pv = yn) ->
  (n0 - n) * (H (- / 10 ^ 13) - n) < 0 ->
  (forall c, grid (p_ky b) (- / 10 ^ 13 - p_ky b) c -> H c <> n) ->
  lipschitz L H -> L * Rabs (p_ky b + / 10 ^ 13) <= 10 ^ 27 ->
  exists p s', fixed_pivot (fiber_integ laws mesher) t ms g n yielding s = (Ok p, s').
Proof.
  intros laws mesher t g ms n yielding s yn yp b pv L B NE M U HB N H n0 PV SG NG LP LB.
  assert (F : fst (fixed_pivot (fiber_integ laws mesher) t ms g n yielding s) =
    rmap (fun r => (fst r, snd r, 0)) (pivot_gen 100 (fun e c => Ok (N e c)) n yn yp (p_e0 b) (p_ky b) n0)) by (apply fixed_pivot_fiber; assumption).
  assert (EPV : pivot_of n yn yp n0 = pv).
  { unfold pivot_of. destruct (Rltb_spec n0 n); destruct PV as [(P & ->)|(P & ->)]; (reflexivity || lra). }
  assert (H0 : H (p_ky b) = n0) by (unfold H, n0, strain_at, p_e0, p_ky; f_equal; ring).
  destruct (pivot_gen_finds (fun e c => Ok (N e c)) H n yn yp (p_e0 b) (p_ky b) n0 L) as (e & c & PG).
  - intros x. rewrite EPV. reflexivity.
  - now rewrite H0.
  - exact LP.
  - replace (p_ky b - - / 10 ^ 13) with (p_ky b + / 10 ^ 13) by ring. exact LB.
  - rewrite H0. exact SG.
  - exact NG.
  - rewrite PG in F. cbn [rmap fst snd] in F. destruct (fixed_pivot _ _ _ _ _ _ _) as [r s']. cbn [fst] in F. subst r. do 2 eexists. reflexivity.
Qed.
Print Assumptions C23_solves.

(** Hypotheses are met: two equal elastic bars, ultimate strains -+1/1000, n = 1/2. *)
Lemma two_bars_N E a b mesh x c : axial (section_fibres (stiff_laws E) mesh (two_bars a b)) x c 0 = E * ((x + c) * a + (x - c) * b).
Proof. unfold axial, section_fibres, two_bars. cbn. unfold elastic_stress, plane_strain. cbn. ring. Qed.
Lemma off_grid c : grid (- (1/1000)) (- / 10 ^ 13 - - (1/1000)) c -> 1000 * ((1/1000 - c * -1 + c) * 1 + (1/1000 - c * -1 - c) * 1) <> (2 - 2 / 10 ^ 10) / 3.
Proof.
  intros (m & j & ->) H. assert (P : 2 ^ j <> 0) by (apply pow_nonzero; lra).
  assert (Q : IZR m / 2 ^ j = 1/3).
  { set (q := IZR m / 2 ^ j) in *. cbn [pow] in H. lra. }
  apply (third_off_grid (1/1000 * (IZR m / 2 ^ j))); [exists m, j; ring|]. rewrite Q. field.
Qed.
Example C23_example mesher : exists p s',
  fixed_pivot (fiber_integ (stiff_laws 1000) mesher) (sym_traits (1/1000)) (1/10) (two_bars 1 1) ((2 - 2 / 10 ^ 10) / 3) false st_init = (Ok p, s') /\
  strain_at p (-1) = 1/1000 /\ balances ((2 - 2 / 10 ^ 10) / 3) (2000 * p_e0 p).
Proof.
  pose proof (two_bars_balanced (1/1000) false 1 1 ltac:(cbn [pow]; lra)) as HB.
  assert (B : forall k, batched (stiff_laws 1000 k)) by apply stiff_batched.
  assert (NE : cg_surf (two_bars 1 1) <> [] \/ cg_bars (two_bars 1 1) <> []) by (right; discriminate).
  assert (PVC : axial (section_fibres (stiff_laws 1000) (fun x => mesher x (surface_area x * (1/10))) (two_bars 1 1)) (p_e0 (0, - (1/1000), 0)) (p_ky (0, - (1/1000), 0)) 0 < (2 - 2 / 10 ^ 10) / 3 /\ -1 = -1 \/
     (2 - 2 / 10 ^ 10) / 3 <= axial (section_fibres (stiff_laws 1000) (fun x => mesher x (surface_area x * (1/10))) (two_bars 1 1)) (p_e0 (0, - (1/1000), 0)) (p_ky (0, - (1/1000), 0)) 0 /\ -1 = 1).
  { left. split; [|reflexivity]. rewrite two_bars_N. unfold p_e0, p_ky. cbn [fst snd pow]. lra. }
  assert (SGC : (axial (section_fibres (stiff_laws 1000) (fun x => mesher x (surface_area x * (1/10))) (two_bars 1 1)) (p_e0 (0, - (1/1000), 0)) (p_ky (0, - (1/1000), 0)) 0 - (2 - 2 / 10 ^ 10) / 3) *
     (axial (section_fibres (stiff_laws 1000) (fun x => mesher x (surface_area x * (1/10))) (two_bars 1 1)) (strain_at (0, - (1/1000), 0) (-1) - - / 10 ^ 13 * -1) (- / 10 ^ 13) 0 - (2 - 2 / 10 ^ 10) / 3) < 0).
  { rewrite !two_bars_N. unfold strain_at, p_e0, p_ky. cbn [fst snd pow]. lra. }
  assert (GC : forall c, grid (p_ky (0, - (1/1000), 0)) (- / 10 ^ 13 - p_ky (0, - (1/1000), 0)) c ->
     axial (section_fibres (stiff_laws 1000) (fun x => mesher x (surface_area x * (1/10))) (two_bars 1 1)) (strain_at (0, - (1/1000), 0) (-1) - c * -1) c 0 <> (2 - 2 / 10 ^ 10) / 3).
  { intros c G. rewrite two_bars_N. unfold strain_at. cbn [fst snd]. replace (0 + - (1/1000) * -1) with (1/1000) by ring. exact (off_grid c G). }
  destruct (C23_solves (stiff_laws 1000) mesher (sym_traits (1/1000)) (two_bars 1 1) (1/10) ((2 - 2 / 10 ^ 10) / 3) false st_init 1 (-1) (0, - (1/1000), 0) (-1) 2000 B NE
     ltac:(lra) eq_refl HB PVC SGC GC) as (p & s' & E).
  - intros x y. rewrite !two_bars_N. unfold strain_at. cbn [fst snd].
    match goal with |- Rabs ?a <= _ => replace a with (2000 * (x - y)) by ring end. rewrite Rabs_mult, (Rabs_pos_eq 2000) by lra. lra.
  - cbn [p_ky fst snd pow]. unfold Rabs. destruct (Rcase_abs _); lra.
  - destruct (C23_balanced (stiff_laws 1000) mesher (sym_traits (1/1000)) (two_bars 1 1) (1/10) ((2 - 2 / 10 ^ 10) / 3) false st_init p s' 1 (-1) (0, - (1/1000), 0) (-1) B NE
     ltac:(lra) eq_refl HB PVC SGC GC E) as (X & Y).
    exists p, s'. split; [exact E|]. split; [rewrite X; unfold strain_at; cbn [fst snd]; lra|].
    rewrite two_bars_N in Y. replace (2000 * p_e0 p) with (1000 * ((p_e0 p + p_ky p) * 1 + (p_e0 p - p_ky p) * 1)) by ring. exact Y.
Qed.
(** The full statement is false: when the first midpoint meets the load exactly
    the profile returned is off by about 1 (1e2 times the tolerance). *)
Theorem C23_exact_hit_refuted : exists laws mesher t ms g n s' p,
  (forall k, batched (laws k)) /\ (forall k, nondecreasing (lw_stress (laws k))) /\ 0 < ms <= 1 /\
  fixed_pivot (fiber_integ laws mesher) t ms g n false st_init = (Ok p, s') /\
  ~ balances n (axial (section_fibres laws (fun x => mesher x (surface_area x * ms)) g) (p_e0 p) (p_ky p) 0).
Proof.
  destruct pivot_exact_hit as (e & c & E & D).
  exists (stiff_laws 1000), ex_mesher, (sym_traits (1/1000)), (1/10), (two_bars 1 1), (1 - / 10 ^ 10). do 2 eexists.
  split; [apply stiff_batched|]. split; [intros k x y H; cbn; unfold elastic_stress; cbn; lra|]. split; [lra|]. split.
  - rewrite (fixed_pivot_fresh _ _ _ _ _ _ _ (data2 1 1) 1 (-1) (0, - (1/1000), 0));
      [|apply stiff_batched|apply two_bars_data; lra|discriminate|apply two_bars_balanced; cbn [pow]; lra|reflexivity].
    assert (EQ : (fun e c => @Ok R (group_axial (stiff_laws 1000) (data2 1 1) (e, c, 0))) = (fun e c => Ok (2000 * e))).
    { extensionality x. extensionality y. rewrite two_bars_axial. f_equal. ring. }
    rewrite EQ, two_bars_axial. unfold p_e0, p_ky. cbn [fst snd].
    replace (1000 * ((0 + - (1 / 1000)) * 1 + (0 - - (1 / 1000)) * 1)) with 0 by ring. rewrite E. reflexivity.
  - rewrite two_bars_N. unfold balances, p_e0, p_ky. cbn [fst snd]. unfold Rabs. cbn [pow]. destruct (Rcase_abs _); lra.
Qed.
Print Assumptions C23_exact_hit_refuted.

(** * C24: results do not depend on earlier analyses *)
(** Fibre integrator: any history of analyses that use the calculator's mesh
    size (raising ones included if they do not turn the section). *)
Theorem C24_fiber : forall laws mesher t ms g ops s o,
  (forall k, batched (laws k)) -> 0 < ms <= 1 -> (forall o', In o' (o :: ops) -> meshed o') ->
  history (fiber_integ laws mesher) t ms g ops s ->
  fst (run (fiber_integ laws mesher) t ms g o s) = fst (run (fiber_integ laws mesher) t ms g o st_init).
Proof.
  intros laws mesher t ms g ops s o B M HO H. destruct (triangulate_ok mesher g ms M) as (D & T).
  apply (history_free (fiber_integ laws mesher) t ms g D (fiber_coherent laws mesher g ms D B T) ops s o); [|exact H].
  intros o' I. left. exact (HO o' I).
Qed.
Print Assumptions C24_fiber.
(** With the default mesh size: any history of any analyses. *)
Theorem C24_fiber_default : forall laws mesher t g ops s o,
  (forall k, batched (laws k)) -> history (fiber_integ laws mesher) t (1/100) g ops s ->
  fst (run (fiber_integ laws mesher) t (1/100) g o s) = fst (run (fiber_integ laws mesher) t (1/100) g o st_init).
Proof.
  intros laws mesher t g ops s o B H. destruct (triangulate_ok mesher g (1/100)) as (D & T); [lra|].
  pose proof (fiber_coherent laws mesher g (1/100) D B T) as CO.
  apply (history_free (fiber_integ laws mesher) t (1/100) g D CO ops s o); [|exact H].
  intros o' I. right. exact (fiber_coherent_none _ _ _ _ CO).
Qed.
Print Assumptions C24_fiber_default.
(** Marin integrator: any history of any analyses. *)
Theorem C24_marin : forall laws t ms g ops s o,
  (forall k, batched (laws k)) -> history (marin_integ laws) t ms g ops s ->
  fst (run (marin_integ laws) t ms g o s) = fst (run (marin_integ laws) t ms g o st_init).
Proof.
  intros laws t ms g ops s o B H. pose proof (marin_coherent laws g (Some ms) B) as CO.
  apply (history_free (marin_integ laws) t ms g _ CO ops s o); [|exact H]. intros o' I. right. apply marin_coherent. exact B.
Qed.
Print Assumptions C24_marin.
(** Histories exist: two integrations and a request for the limits. *)
Example C24_example mesher : exists s, history (fiber_integ (stiff_laws 1) mesher) (sym_traits (1/1000)) (1/10) (two_bars 1 2) [OProfile (0, 1, 0); OLimits; OFixed 0 0 0] s /\
  st_data s <> None /\ st_lim s <> None.
Proof.
  set (ig := fiber_integ (stiff_laws 1) mesher).
  assert (B : forall k, batched (stiff_laws 1 k)) by apply stiff_batched.
  assert (TR : triangulate mesher (two_bars 1 2) (1/10) = Ok (data2 1 2)) by (apply two_bars_data; lra).
  destruct (forces_k_fresh (stiff_laws 1) mesher (two_bars 1 2) (0, 1, 0) (Some (1/10)) (data2 1 2) None B TR ltac:(discriminate)) as (F & E & EF).
  assert (R1 : run ig (sym_traits (1/1000)) (1/10) (two_bars 1 2) (OProfile (0, 1, 0)) st_init = (Ok (AForces F), {| st_data := Some (data2 1 2); st_lim := None |})).
  { unfold run, amap, integrate_profile. fold ig in E. unfold st_init. rewrite E. reflexivity. }
  destruct (limit_load_fiber (stiff_laws 1) mesher (sym_traits (1/1000)) (two_bars 1 2) (1/10) {| st_data := Some (data2 1 2); st_lim := None |} 1 (-1) (0, - (1/1000), 0) B)
    as (s2 & L); [right; discriminate|lra|exists (data2 1 2); split; [exact TR|reflexivity]|apply two_bars_balanced; cbn [pow]; lra|].
  assert (R2 : exists a l d, run ig (sym_traits (1/1000)) (1/10) (two_bars 1 2) OLimits {| st_data := Some (data2 1 2); st_lim := None |} = (Ok a, {| st_data := d; st_lim := Some l |}) /\ d = Some (data2 1 2)).
  { pose proof (limit_load_value ig (sym_traits (1/1000)) (1/10) (two_bars 1 2) _ _ _ _ (fiber_reuse_safe _ _ _) L) as (yn & yp & p & _ & F1 & _ & d & _ & G & _ & d' & _ & K).
    unfold run, amap, limits. cbn [st_lim]. fold ig in L. rewrite L. cbn [fst snd rmap]. do 3 eexists. split; [reflexivity|]. rewrite K. reflexivity. }
  destruct R2 as (a & l & d & R2 & ->).
  destruct (forces_k_data (stiff_laws 1) mesher (two_bars 1 2) (0, 0, 0) None (data2 1 2) (Some l) B ltac:(discriminate)) as (F3 & E3 & EF3).
  assert (R3 : run ig (sym_traits (1/1000)) (1/10) (two_bars 1 2) (OFixed 0 0 0) {| st_data := Some (data2 1 2); st_lim := Some l |} =
    (Ok (AStrain (0, 0, 0)), {| st_data := Some (data2 1 2); st_lim := Some l |})).
  { unfold run, amap. assert (FC : fixed_curvature ig (two_bars 1 2) 0 0 0 {| st_data := Some (data2 1 2); st_lim := Some l |} = (Ok (0, 0, 0), {| st_data := Some (data2 1 2); st_lim := Some l |})).
    { unfold fixed_curvature, abind. fold ig in E3. rewrite E3, EF3, two_bars_axial. unfold solve_curvature.
      replace (1 * ((0 + 0) * 1 + (0 - 0) * 2) - 0) with 0 by ring. destruct (Rleb_spec (Rabs 0) (1/100)) as [_|Q]; [reflexivity|]. rewrite Rabs_R0 in Q. lra. }
    rewrite FC. reflexivity. }
  eexists. split.
  - change [OProfile (0, 1, 0); OLimits; OFixed 0 0 0] with (([] ++ [OProfile (0, 1, 0)]) ++ [OLimits] ++ [OFixed 0 0 0]). rewrite app_assoc.
    eapply h_next; [eapply h_next; [eapply h_next; [apply h_new|exact R1]|exact R2]|exact R3].
  - split; discriminate.
Qed.
(** False after an analysis that raises while the section is turned: a moment
    curvature that does not converge leaves the integration data rotated. *)
Theorem C24_exception_refuted : exists laws mesher t ms g o1 o2 s',
  (forall k, batched (laws k)) /\ 0 < ms <= 1 /\
  run (fiber_integ laws mesher) t ms g o1 st_init = (Err ValueError, s') /\
  fst (run (fiber_integ laws mesher) t ms g o2 s') <> fst (run (fiber_integ laws mesher) t ms g o2 st_init).
Proof.
  exists (stiff_laws 1), ex_mesher, (sym_traits (1/1000)), (1/10), (two_bars 1 2), (OCurvature PI 0 0 0 0 (Some [10000])), (OProfile (0, 1, 0)). eexists.
  assert (B : forall k, batched (stiff_laws 1 k)) by apply stiff_batched.
  split; [exact B|]. split; [lra|]. split; [apply raising_analysis|].
  destruct (forces_k_data (stiff_laws 1) ex_mesher (two_bars 1 2) (0, 1, 0) (Some (1/10)) spun (Some (- (3/1000), 3/1000)) B) as (F & E & EF); [rewrite spun_value; discriminate|].
  assert (TR : triangulate ex_mesher (two_bars 1 2) (1/10) = Ok (data2 1 2)) by (apply two_bars_data; lra).
  destruct (forces_k_fresh (stiff_laws 1) ex_mesher (two_bars 1 2) (0, 1, 0) (Some (1/10)) (data2 1 2) None B TR ltac:(discriminate)) as (F' & E' & EF').
  unfold run, amap, integrate_profile. unfold st_init. rewrite E, E'. cbn [fst snd rmap]. intros H. inversion H as [H1].
  rewrite spun_axial in EF. rewrite two_bars_axial in EF'. rewrite H1 in EF. lra.
Qed.
Print Assumptions C24_exception_refuted.
(** Also false when the first analysis ignores the mesh size (see C25). *)
Definition refining (s : surface) (a : R) : list ((R * R) * (R * R) * (R * R)) :=
  if Rltb a (1/20) then [((0, 0), (1, 0), (1/2, 1/2)); ((1, 0), (1, 1), (1/2, 1/2)); ((1, 1), (0, 1), (1/2, 1/2)); ((0, 1), (0, 0), (1/2, 1/2))]
  else [((0, 0), (1, 0), (1, 1)); ((0, 0), (1, 1), (0, 1))].
Definition square : compound := {| cg_surf := [ex_surface]; cg_bars := [] |}.
Lemma square_area : surface_area ex_surface = 1.
Proof. unfold surface_area, ex_surface. cbn. unfold lsum. cbn. unfold Rabs. destruct (Rcase_abs _); lra. Qed.
Theorem C24_mesh_refuted : exists laws mesher t ms g ops s o,
  (forall k, batched (laws k)) /\ 0 < ms <= 1 /\ history (fiber_integ laws mesher) t ms g ops s /\
  fst (run (fiber_integ laws mesher) t ms g o s) <> fst (run (fiber_integ laws mesher) t ms g o st_init).
Proof.
  set (ig := fiber_integ (stiff_laws 1) refining).
  assert (B : forall k, batched (stiff_laws 1 k)) by apply stiff_batched.
  destruct (triangulate_ok refining square (1/100)) as (d & T); [lra|]. destruct (triangulate_ok refining square (1/10)) as (d' & T'); [lra|].
  assert (NE : nonempty square) by (left; discriminate).
  exists (stiff_laws 1), refining, (sym_traits 1), (1/10), square, [OFixed 0 0 0], {| st_data := Some d; st_lim := None |}, (OProfile (0, 1, 0)).
  split; [exact B|]. split; [lra|]. split.
  - change [OFixed 0 0 0] with ([] ++ [OFixed 0 0 0]). apply h_next with (s := st_init) (a := AStrain (0, 0, 0)); [apply h_new|].
    assert (FC : fixed_curvature ig square 0 0 0 st_init = (Ok (0, 0, 0), {| st_data := Some d; st_lim := None |})).
    { unfold ig. rewrite (fixed_curvature_fresh _ _ _ _ _ _ d B T (nonempty_data _ _ _ _ NE T)).
      assert (Z : group_axial (stiff_laws 1) d (0, 0, 0) = 0).
      { rewrite (group_axial_section _ _ _ _ _ _ B NE T). unfold axial.
        rewrite (lsum_map_ext _ (fun _ => 0)).
        - generalize (section_fibres (stiff_laws 1) (fun x => refining x (surface_area x * (1/100))) square). clear. intros l.
          induction l as [|x l IH]; cbn [map]; rewrite ?lsum_cons, ?lsum_nil; lra.
        - intros f I. unfold section_fibres, square in I. cbn [cg_surf cg_bars map flat_map] in I. rewrite !app_nil_r in I.
          apply in_map_iff in I. destruct I as ([[p q] r] & <- & _). cbn [tri_fibre mfibre_at m_sigma m_a m_y m_z]. unfold stiff_laws, ex_el, elastic_law. cbn [lw_stress].
          unfold elastic_stress, plane_strain, p_e0, p_ky, p_kz. cbn [el_E fst snd]. ring. }
      rewrite Z. unfold solve_curvature. replace (0 - 0) with 0 by ring. destruct (Rleb_spec (Rabs 0) (1/100)) as [_|Q]; [reflexivity|]. rewrite Rabs_R0 in Q. lra. }
    unfold run, amap. fold ig. rewrite FC. reflexivity.
  - unfold run, amap, integrate_profile, forces_k. cbn [st_data st_init ig_forces fiber_integ fst].
    destruct (forces_ok (stiff_laws 1) refining square (0, 1, 0) (1/100) d B NE T) as (_ & E1).
    destruct (forces_ok (stiff_laws 1) refining square (0, 1, 0) (1/10) d' B NE T') as (E2 & _).
    assert (MI : fiber_forces (stiff_laws 1) refining square (0, 1, 0) (Some d) (Some (1/10)) = fiber_forces (stiff_laws 1) refining square (0, 1, 0) (Some d) (Some (1/100))) by reflexivity.
    rewrite MI, E1, E2. cbn [fst snd rmap]. intros H. injection H as H0 H1 H2. revert H1. clear.
    unfold moment_y, section_fibres, square. cbn [cg_surf flat_map cg_bars map app]. rewrite !app_nil_r, square_area. unfold refining.
    destruct (Rltb_spec (1 * (1/100)) (1/20)); [|lra]. destruct (Rltb_spec (1 * (1/10)) (1/20)); [lra|].
    cbn [map tri_fibre mfibre_at m_y m_z m_a m_sigma]. rewrite !lsum_cons, !lsum_nil. unfold stiff_laws, ex_el, elastic_law. cbn [lw_stress].
    unfold elastic_stress, plane_strain, p_e0, p_ky, p_kz. cbn [el_E fst snd]. unfold shoelace, cross. cbn [edges map fst snd]. rewrite !lsum_cons, !lsum_nil.
    repeat match goal with |- context [Rabs ?a] => rewrite (Rabs_pos_eq a) by lra end. lra.
Qed.
Print Assumptions C24_mesh_refuted.

(** * C25: the mesh size given to the calculator is the one used *)
Theorem C25_mesh_used : forall laws mesher t ms g ops s,
  (forall k, batched (laws k)) -> 0 < ms <= 1 -> (forall o, In o ops -> meshed o) ->
  history (fiber_integ laws mesher) t ms g ops s -> uses_mesh mesher g ms ms s.
Proof. intros laws mesher t ms g ops s B M HO H. apply (history_mesh laws mesher t ms g ops s B M); [|exact H]. intros o I. left. exact (HO o I). Qed.
Print Assumptions C25_mesh_used.
(** Sizes outside (0, 1] are rejected. *)
Theorem C25_invalid_rejected : forall laws mesher t ms g p, ms <= 0 \/ 1 < ms ->
  fst (run (fiber_integ laws mesher) t ms g (OProfile p) st_init) = Err ValueError /\
  fst (run (fiber_integ laws mesher) t ms g (OTangent p) st_init) = Err ValueError.
Proof.
  intros laws mesher t ms g p M. unfold run, amap, integrate_profile, integrate_modulus, forces_k. cbn [st_data st_init ig_forces ig_modulus fiber_integ fst].
  unfold fiber_forces, fiber_stiffness, prepare_input, triangulate.
  destruct (Rleb_spec ms 0); [split; reflexivity|]. destruct (Rltb_spec 1 ms); [split; reflexivity|]. exfalso. lra.
Qed.
Print Assumptions C25_invalid_rejected.
(** False for the analyses that do not pass the size on: their first call meshes
    with 1/100, and the calculator keeps that mesh. *)
Theorem C25_ignored_refuted : exists laws mesher t ms g a s,
  (forall k, batched (laws k)) /\ 0 < ms <= 1 /\
  run (fiber_integ laws mesher) t ms g (OStrain (0, 0, 0) true 10 1) st_init = (Ok a, s) /\ ~ uses_mesh mesher g ms ms s.
Proof.
  set (ig := fiber_integ (stiff_laws 1) refining).
  assert (B : forall k, batched (stiff_laws 1 k)) by apply stiff_batched.
  destruct (triangulate_ok refining square (1/100)) as (d & T); [lra|].
  assert (NE : nonempty square) by (left; discriminate).
  assert (HL : forall k e, lw_stress (stiff_laws 1 k) e = 1 * e /\ lw_tangent (stiff_laws 1 k) e = 1) by (intros; split; reflexivity).
  assert (FS : section_fibres (stiff_laws 1) (fun x => refining x (surface_area x * (1/100))) square =
     map (tri_fibre (ex_el 1)) [((0, 0), (1, 0), (1/2, 1/2)); ((1, 0), (1, 1), (1/2, 1/2)); ((1, 1), (0, 1), (1/2, 1/2)); ((0, 1), (0, 0), (1/2, 1/2))]).
  { unfold section_fibres, square. cbn [cg_surf flat_map cg_bars map app]. rewrite app_nil_r, square_area. unfold refining.
    destruct (Rltb_spec (1 * (1/100)) (1/20)); [reflexivity|lra]. }
  pose proof (strain_profile_linear (stiff_laws 1) refining square (1/100) (1/10) (fun _ => 1) (0, 0, 0) true 10 1 st_init B NE ltac:(lra) HL) as SP.
  cbv zeta in SP. rewrite FS in SP.
  assert (DT : det3 (stiff (map (tri_fibre (ex_el 1)) [((0, 0), (1, 0), (1/2, 1/2)); ((1, 0), (1, 1), (1/2, 1/2)); ((1, 1), (0, 1), (1/2, 1/2)); ((0, 1), (0, 0), (1/2, 1/2))]) 0 0 0) <> 0).
  { rewrite <- FS. apply (regular_section (stiff_laws 1) refining square (1/100) B); [lra|exact NE| |].
    - intros f I. rewrite FS in I. apply in_map_iff in I. destruct I as ([[p q] r] & <- & _). cbn. split; [apply Rabs_pos|lra].
    - rewrite FS. do 3 eexists. split; [now left|]. split; [right; now left|]. split; [right; right; now left|].
      cbn [tri_fibre mfibre_at m_y m_z m_a m_tangent map]. split; [cbn; lra|].
      intros f [-> |[-> | ->]]; cbn [tri_fibre mfibre_at m_a m_tangent]; (split; [|cbn; lra]); unfold shoelace, cross; cbn [edges map fst snd]; rewrite !lsum_cons, !lsum_nil; rewrite Rabs_pos_eq; lra. }
  specialize (SP DT ltac:(lra) eq_refl).
  destruct (strain_profile ig (1/10) square (0, 0, 0) true 10 1 st_init) as [[p|e] s] eqn:E; fold ig in SP; rewrite E in SP; [|lia].
  exists (stiff_laws 1), refining, (sym_traits 1), (1/10), square, (AStrain p), s.
  split; [exact B|]. split; [lra|]. split; [unfold run, amap; fold ig; rewrite E; reflexivity|].
  destruct (stiffness_ok (stiff_laws 1) refining square (0, 0, 0) (1/100) d B NE T) as (K & EK & _).
  pose proof (strain_profile_data ig (1/10) square (0, 0, 0) true 10 1 K d EK) as SD. rewrite E in SD. cbn [snd] in SD.
  intros U. unfold uses_mesh in U. rewrite SD in U. destruct U as (d' & T' & SM). revert SM. clear - T T'.
  unfold triangulate in T, T'. destruct (Rleb_spec (1/100) 0); [lra|]. destruct (Rltb_spec 1 (1/100)); [lra|]. destruct (Rleb_spec (1/10) 0); [lra|]. destruct (Rltb_spec 1 (1/10)); [lra|].
  cbn [orb] in T, T'. injection T as <-. injection T' as <-. unfold square. cbn [cg_surf map]. rewrite square_area. unfold refining, same_mesh.
  destruct (Rltb_spec (1 * (1/100)) (1/20)); [|lra]. destruct (Rltb_spec (1 * (1/10)) (1/20)); [lra|]. cbn [map app]. intros H. discriminate H.
Qed.
Print Assumptions C25_ignored_refuted.

(** * C26: calculate_strain_profile *)
(** Whatever the integrator: a profile is returned only if the last increment,
    which solves the linearised equilibrium, is smaller than the tolerance. *)
Theorem C26_converged : forall ig ms g loads initial max_iter tol s p s',
  strain_profile ig ms g loads initial max_iter tol s = (Ok p, s') ->
  exists prev d F K sa sb, integrate_profile ig ms g prev sa = (Ok F, sb) /\
    (exists q data x, ig_modulus ig g q data None = Ok (K, x) /\ q = (if initial then (0, 0, 0) else prev)) /\
    mul3 K d = sub3 loads F /\ norm3 d < tol /\ p = add3 prev d.
Proof.
  intros ig ms g loads initial mx tol s p s' E. unfold strain_profile in E.
  destruct (ig_modulus ig g (0, 0, 0) (st_data s) None) as [[K d]|] eqn:EM; [|discriminate].
  destruct (newton_last (S mx) ig ms g loads tol _ 0 mx _ _ _ _ eq_refl E) as (prev & dd & F & K' & sa & sb & H1 & H2 & H3 & H4 & H5).
  exists prev, dd, F, K', sa, sb. split; [exact H1|]. split; [|repeat split; assumption].
  destruct initial.
  - subst K'. do 3 eexists. split; [exact EM|reflexivity].
  - destruct H2 as (e & H2). do 3 eexists. split; [exact H2|reflexivity].
Qed.
Print Assumptions C26_converged.
(** Linear-elastic fibre sections with at least three non-collinear stiff
    fibres: with three or more iterations allowed the exact solution is returned. *)
Theorem C26_linear : forall laws mesher g ms msc (E : nat -> R) N My Mz initial max_iter tol s,
  (forall k, batched (laws k)) -> 0 < ms <= 1 -> cg_surf g <> [] \/ cg_bars g <> [] ->
  (forall k e, lw_stress (laws k) e = E k * e /\ lw_tangent (laws k) e = E k) ->
  let F := section_fibres laws (fun x => mesher x (surface_area x * ms)) g in
  (forall f, In f F -> 0 <= m_a f /\ 0 <= m_tangent f 0) ->
  (exists f1 f2 f3, In f1 F /\ In f2 F /\ In f3 F /\
     (m_y f2 - m_y f1) * (m_z f3 - m_z f1) <> (m_y f3 - m_y f1) * (m_z f2 - m_z f1) /\
     (forall f, f = f1 \/ f = f2 \/ f = f3 -> 0 < m_a f /\ 0 < m_tangent f 0)) ->
  0 < tol -> (3 <= max_iter)%nat -> uses_mesh mesher g ms (1/100) s ->
  exists e0 ky kz s', strain_profile (fiber_integ laws mesher) msc g (N, My, Mz) initial max_iter tol s = (Ok (e0, ky, kz), s') /\
    axial F e0 ky kz = N /\ moment_y F e0 ky kz = My /\ moment_z F e0 ky kz = Mz.
Proof.
  intros laws mesher g ms msc E N My Mz initial mx tol s B M NE HL F P Q TP MX U.
  pose proof (regular_section laws mesher g ms B M NE P Q) as ND.
  pose proof (strain_profile_linear laws mesher g ms msc E (N, My, Mz) initial mx tol s B NE M HL ND TP U) as SP.
  destruct (strain_profile (fiber_integ laws mesher) msc g (N, My, Mz) initial mx tol s) as [[[[e0 ky] kz]|x] s']; [|exfalso; lia].
  exists e0, ky, kz, s'. split; [reflexivity|]. cbn [p_e0 p_ky p_kz fst snd] in SP. inversion SP. repeat split; assumption.
Qed.
Print Assumptions C26_linear.
(** If integration never fails, the only exceptions are StopIteration (no
    convergence) and LinAlgError (singular tangent). *)
Theorem C26_raises : forall ig ms g loads initial max_iter tol s e s',
  (forall p d m x, ig_forces ig g p d m <> Err x) -> (forall p d m x, ig_modulus ig g p d m <> Err x) ->
  strain_profile ig ms g loads initial max_iter tol s = (Err e, s') -> e = StopIteration \/ e = LinAlgError.
Proof.
  intros ig ms g loads initial mx tol s e s' TF TM E. unfold strain_profile in E.
  destruct (ig_modulus ig g (0, 0, 0) (st_data s) None) as [[K d]|x] eqn:EM; [|exfalso; exact (TM _ _ _ _ EM)].
  refine (L_Section2.newton_err _ _ _ _ _ _ _ _ _ _ _ _ _ _ (fun p d e => TM p d None e) E).
  intros p s0 x s1. unfold integrate_profile, forces_k. destruct (ig_forces ig g p (st_data s0) (Some ms)) as [[F d0]|y] eqn:EF; [discriminate|].
  intros _. exact (TF _ _ _ _ EF).
Qed.
Print Assumptions C26_raises.
(** Hypotheses are met: three elastic bars at the corners of a triangle. *)
Definition three_bars : compound := {| cg_surf := []; cg_bars := [ {| br_y := 0; br_z := 0; br_area := 1; br_law := 0 |};
  {| br_y := 1; br_z := 0; br_area := 2; br_law := 0 |}; {| br_y := 0; br_z := 1; br_area := 3; br_law := 1 |} ] |}.
Example C26_example : exists e0 ky kz s',
  strain_profile (fiber_integ ex_laws ex_mesher) (1/100) three_bars (1, 2, 3) false 10 (1/1000) st_init = (Ok (e0, ky, kz), s') /\
  axial (section_fibres ex_laws (fun x => ex_mesher x (surface_area x * (1/100))) three_bars) e0 ky kz = 1.
Proof.
  destruct (C26_linear ex_laws ex_mesher three_bars (1/100) (1/100) (fun k => INR k + 1) 1 2 3 false 10 (1/1000) st_init) as (e0 & ky & kz & s' & E & A & _).
  - intros k. apply elastic_batched.
  - lra.
  - right. discriminate.
  - intros k e. split; reflexivity.
  - intros f I. cbn in I. destruct I as [<-|[<-|[<-|[]]]]; cbn; unfold elastic_tangent; cbn; lra.
  - cbn. do 3 eexists. split; [now left|]. split; [right; now left|]. split; [right; right; now left|]. cbn. split; [lra|].
    intros f [-> |[-> | ->]]; cbn; unfold elastic_tangent; cbn; lra.
  - lra.
  - lia.
  - reflexivity.
  - exists e0, ky, kz, s'. split; assumption.
Qed.
(** The iteration that converges must not be the last one allowed: with a limit
    of one iteration no profile is ever returned, even for zero loads. *)
Theorem C26_one_iteration : forall ig ms g loads initial max_iter tol s p s', (max_iter <= 1)%nat ->
  strain_profile ig ms g loads initial max_iter tol s <> (Ok p, s').
Proof.
  intros ig ms g loads initial mx tol s p s' MX E. unfold strain_profile in E.
  destruct (ig_modulus ig g (0, 0, 0) (st_data s) None) as [[K d]|x]; [|discriminate].
  assert (G : forall fuel num strain s, (mx <= S num)%nat -> newton_loop fuel ig ms g loads tol (if initial then Some K else None) num mx strain s = (Ok p, s') -> (fuel = 0 /\ num < mx)%nat).
  { clear. induction fuel as [|k IH]; intros num strain s MX E; cbn [newton_loop] in E.
    - destruct (Nat.leb_spec mx num); [discriminate|]. split; [reflexivity|assumption].
    - unfold abind in E. destruct (integrate_profile ig ms g strain s) as [[F|x] s1]; [|discriminate].
      destruct (match (if initial then Some K else None) with Some K => aret K | None => _ end s1) as [[K1|x] s2]; [|discriminate].
      unfold alift in E. destruct (solve3 K1 (sub3 loads F)) as [dd|]; [|discriminate].
      destruct (Rltb (norm3 dd) tol).
      + destruct (Nat.leb_spec mx (S num)); [discriminate|lia].
      + apply IH in E; [|lia]. lia. }
  apply G in E; lia.
Qed.
Print Assumptions C26_one_iteration.

(** * C27: balanced failure *)
(** Every point of every surface and every bar stays within its limits, and the
    limits are attained at the two ordinates returned. *)
Theorem C27_within_limits : forall t g yielding yn yp p,
  (forall k y, fst (tr_ult t k y) <= 0 <= snd (tr_ult t k y)) ->
  (forall s, In s (cg_surf g) -> sf_ext s <> []) ->
  balanced (tr_rc t) yielding (items_of t g) = Ok (yn, yp, p) ->
  (forall s z, In s (cg_surf g) -> surface_ordinate s z ->
     fst (tr_ult t (sf_law s) (if tr_rc t then andb yielding (tr_conc t (sf_law s)) else yielding)) <= strain_at p z <= snd (tr_ult t (sf_law s) yielding)) /\
  (forall b, In b (cg_bars g) ->
     fst (tr_ult t (br_law b) (if tr_rc t then false else yielding)) <= strain_at p (br_z b) <= snd (tr_ult t (br_law b) yielding)) /\
  p_kz p = 0 /\ p_ky p <= 0 /\ yp < yn.
Proof.
  intros t g yielding yn yp p LIM NEX E.
  assert (C : forall i j, In i (items_of t g) -> In j (items_of t g) -> compression_limit (tr_rc t) yielding i <= tension_limit yielding j).
  { assert (U : forall i, In i (items_of t g) -> forall y, fst (im_ult i y) <= 0 <= snd (im_ult i y)).
    { intros i I y. unfold items_of in I. apply in_app_or in I. destruct I as [I|I]; apply in_map_iff in I; destruct I as (x & <- & _); cbn; apply LIM. }
    intros i j Hi Hj. unfold compression_limit, tension_limit. pose proof (U j Hj yielding). pose proof (U i Hi false). pose proof (U i Hi yielding).
    destruct (tr_rc t && negb (im_conc i))%bool; lra. }
  destruct (balanced_sound _ _ _ _ _ _ C E) as (W & YY & KZ & KY & _). split; [|split; [|split; [exact KZ|split; [exact KY|exact YY]]]].
  - intros s z Hs (v & w & Hv & Hw & Z).
    assert (I : In {| im_lo := ring_min (sf_ext s); im_hi := ring_max (sf_ext s); im_ult := tr_ult t (sf_law s); im_conc := tr_conc t (sf_law s) |} (items_of t g)).
    { unfold items_of. apply in_or_app. left. apply in_map_iff. exists s. split; [reflexivity|exact Hs]. }
    specialize (W _ I z). cbn [im_lo im_hi] in W. pose proof (ring_min_spec _ _ Hv). pose proof (ring_max_spec _ _ Hw).
    assert (R : ring_min (sf_ext s) <= z <= ring_max (sf_ext s)) by lra. specialize (W R). unfold compression_limit, tension_limit in W. cbn [im_ult im_conc] in W.
    destruct (tr_rc t), (tr_conc t (sf_law s)), yielding; cbn [andb negb] in *; exact W.
  - intros b Hb.
    assert (I : In {| im_lo := br_z b; im_hi := br_z b; im_ult := tr_ult t (br_law b); im_conc := false |} (items_of t g)).
    { unfold items_of. apply in_or_app. right. apply in_map_iff. exists b. split; [reflexivity|exact Hb]. }
    specialize (W _ I (br_z b)). cbn [im_lo im_hi] in W. assert (R : br_z b <= br_z b <= br_z b) by lra. specialize (W R).
    unfold compression_limit, tension_limit in W. cbn [im_ult im_conc] in W. destruct (tr_rc t); cbn [andb negb] in *; exact W.
Qed.
Print Assumptions C27_within_limits.
(** At the lower of the two ordinates returned some part has its lowest point and
    reaches its tension limit; at the upper one some part has its highest point
    and reaches its compression limit. *)
Theorem C27_attained : forall t g yielding yn yp p,
  (forall k y, fst (tr_ult t k y) <= 0 <= snd (tr_ult t k y)) ->
  (forall s, In s (cg_surf g) -> sf_ext s <> []) ->
  balanced (tr_rc t) yielding (items_of t g) = Ok (yn, yp, p) ->
  ((exists s v, In s (cg_surf g) /\ In v (sf_ext s) /\ snd v = yp /\ strain_at p yp = snd (tr_ult t (sf_law s) yielding)) \/
   (exists b, In b (cg_bars g) /\ br_z b = yp /\ strain_at p yp = snd (tr_ult t (br_law b) yielding))) /\
  ((exists s v, In s (cg_surf g) /\ In v (sf_ext s) /\ snd v = yn /\
      strain_at p yn = fst (tr_ult t (sf_law s) (if tr_rc t then andb yielding (tr_conc t (sf_law s)) else yielding))) \/
   (exists b, In b (cg_bars g) /\ br_z b = yn /\ strain_at p yn = fst (tr_ult t (br_law b) (if tr_rc t then false else yielding)))).
Proof.
  intros t g yielding yn yp p LIM NEX E.
  assert (C : forall i j, In i (items_of t g) -> In j (items_of t g) -> compression_limit (tr_rc t) yielding i <= tension_limit yielding j).
  { assert (U : forall i, In i (items_of t g) -> forall y, fst (im_ult i y) <= 0 <= snd (im_ult i y)).
    { intros i I y. unfold items_of in I. apply in_app_or in I. destruct I as [I|I]; apply in_map_iff in I; destruct I as (x & <- & _); cbn; apply LIM. }
    intros i j Hi Hj. unfold compression_limit, tension_limit. pose proof (U j Hj yielding). pose proof (U i Hi false). pose proof (U i Hi yielding).
    destruct (tr_rc t && negb (im_conc i))%bool; lra. }
  destruct (balanced_sound _ _ _ _ _ _ C E) as (_ & _ & _ & _ & a & b & Ha & Hb & YP & YN & SP & SN). split.
  - unfold items_of in Ha. apply in_app_or in Ha. destruct Ha as [Ha|Ha]; apply in_map_iff in Ha; destruct Ha as (x & <- & Hx).
    + left. destruct (ring_min_in (sf_ext x) (NEX x Hx)) as (v & Hv & EV). exists x, v. cbn [im_lo] in YP. split; [exact Hx|]. split; [exact Hv|]. split; [congruence|].
      rewrite SP. reflexivity.
    + right. exists x. split; [exact Hx|]. split; [symmetry; exact YP|rewrite SP; reflexivity].
  - unfold items_of in Hb. apply in_app_or in Hb. destruct Hb as [Hb|Hb]; apply in_map_iff in Hb; destruct Hb as (x & <- & Hx).
    + left. destruct (ring_max_in (sf_ext x) (NEX x Hx)) as (v & Hv & EV). exists x, v. cbn [im_hi] in YN. split; [exact Hx|]. split; [exact Hv|]. split; [congruence|].
      rewrite SN. unfold compression_limit. cbn [im_ult im_conc]. destruct (tr_rc t), (tr_conc t (sf_law x)), yielding; reflexivity.
    + right. exists x. split; [exact Hx|]. split; [symmetry; exact YN|]. rewrite SN. unfold compression_limit. cbn [im_ult im_conc]. destruct (tr_rc t); reflexivity.
Qed.
Print Assumptions C27_attained.
(** It fails (with UnboundLocalError) only if every part is flat and all are at
    the same height, or the strains are absurd compared with the distances. *)
Theorem C27_raises : forall t g yielding e, balanced (tr_rc t) yielding (items_of t g) = Err e ->
  e = UnboundLocalError /\
  forall i j, In i (items_of t g) -> In j (items_of t g) ->
    im_hi j <= im_lo i \/ 10 ^ 10 <= (tension_limit yielding i - compression_limit (tr_rc t) yielding j) / (im_hi j - im_lo i).
Proof. intros t g yielding e E. exact (balanced_err _ _ _ _ E). Qed.
Print Assumptions C27_raises.
Example C27_example : balanced false false (items_of (sym_traits (1/1000)) (two_bars 1 2)) = Ok (1, -1, (0, - (1/1000), 0)) /\
  (forall k y, fst (tr_ult (sym_traits (1/1000)) k y) <= 0 <= snd (tr_ult (sym_traits (1/1000)) k y)).
Proof. split; [apply two_bars_balanced; cbn [pow]; lra|]. intros k y. cbn. lra. Qed.

(** * C28: axial load limits *)
(** The check rejects exactly the loads outside the limits. *)
Theorem C28_check : forall ig t ms g n s nmin nmax s', limits ig t ms g s = (Ok (nmin, nmax), s') ->
  check_axial ig t ms g n s = (if (Rlt_dec n nmin) then Err ValueError else if Rlt_dec nmax n then Err ValueError else Ok tt, s').
Proof.
  intros ig t ms g n s nmin nmax s' E. unfold check_axial, abind. rewrite E. cbn [fst snd].
  destruct (Rltb_spec n nmin), (Rlt_dec n nmin); try lra; [reflexivity|]. destruct (Rltb_spec nmax n), (Rlt_dec nmax n); try lra; reflexivity.
Qed.
Print Assumptions C28_check.
(** Asking again, after any history, gives the same limits. *)
Theorem C28_cached : forall laws mesher t ms g ops s,
  (forall k, batched (laws k)) -> 0 < ms <= 1 -> (forall o, In o ops -> meshed o) ->
  history (fiber_integ laws mesher) t ms g ops s ->
  fst (limits (fiber_integ laws mesher) t ms g s) = fst (limits (fiber_integ laws mesher) t ms g st_init).
Proof.
  intros laws mesher t ms g ops s B M HO H.
  assert (X : forall o', In o' (OLimits :: ops) -> meshed o') by (intros o' [<-|I]; [exact I|exact (HO o' I)]).
  pose proof (C24_fiber laws mesher t ms g ops s OLimits B M X H) as E. unfold run, amap in E. cbn [fst] in E.
  destruct (fst (limits (fiber_integ laws mesher) t ms g s)), (fst (limits (fiber_integ laws mesher) t ms g st_init)); cbn [rmap] in E; inversion E; reflexivity.
Qed.
Print Assumptions C28_cached.
(** For fibre sections of materials whose stress never decreases with strain,
    the limits are the extreme axial forces over all profiles in which every
    fibre stays between the two strains of balanced failure. *)
Theorem C28_extremes : forall laws mesher t g ms ops s yn yp b,
  (forall k, batched (laws k)) -> (forall k, nondecreasing (lw_stress (laws k))) ->
  (forall x, In x (cg_bars g) -> 0 <= br_area x) -> cg_surf g <> [] \/ cg_bars g <> [] -> 0 < ms <= 1 ->
  (forall o, In o ops -> meshed o) -> history (fiber_integ laws mesher) t ms g ops s ->
  balanced (tr_rc t) false (items_of t g) = Ok (yn, yp, b) ->
  let F := section_fibres laws (fun x => mesher x (surface_area x * ms)) g in
  exists nmin nmax, fst (limits (fiber_integ laws mesher) t ms g s) = Ok (nmin, nmax) /\
    nmin = axial F (strain_at b yn) 0 0 /\ nmax = axial F (strain_at b yp) 0 0 /\
    (forall e0 ky kz, (forall f, In f F -> strain_at b yn <= plane_strain e0 ky kz (m_y f) (m_z f) <= strain_at b yp) ->
       nmin <= axial F e0 ky kz <= nmax).
Proof.
  intros laws mesher t g ms ops s yn yp b B MO HB NE M HO H E F.
  rewrite (C28_cached laws mesher t ms g ops s B M HO H).
  destruct (limit_load_fiber laws mesher t g ms st_init yn yp b B NE M eq_refl E) as (s' & L). fold F in L.
  exists (axial F (strain_at b yn) 0 0), (axial F (strain_at b yp) 0 0). unfold limits. cbn [st_init st_lim]. fold st_init. rewrite L. cbn [fst].
  split; [reflexivity|]. split; [reflexivity|]. split; [reflexivity|]. intros e0 ky kz W.
  split; apply axial_mono; try (apply section_good; assumption); intros f I; specialize (W f I); unfold plane_strain in *; lra.
Qed.
Print Assumptions C28_extremes.
(** Hypotheses are met: two elastic bars, on a fresh calculator. *)
Example C28_example : forall mesher, exists s',
  limits (fiber_integ (stiff_laws 1) mesher) (sym_traits (1/1000)) (1/10) (two_bars 1 2) st_init = (Ok (- (3/1000), 3/1000), s') /\
  nondecreasing (lw_stress (stiff_laws 1 0%nat)).
Proof.
  intros mesher. destruct (limit_load_fiber (stiff_laws 1) mesher (sym_traits (1/1000)) (two_bars 1 2) (1/10) st_init 1 (-1) (0, - (1/1000), 0)) as (s' & L).
  - apply stiff_batched.
  - right. discriminate.
  - lra.
  - reflexivity.
  - apply two_bars_balanced. cbn [pow]. lra.
  - cbv zeta in L. unfold limits. cbn [st_init st_lim]. fold st_init. rewrite L.
    eexists. split.
    + apply f_equal2; [|reflexivity]. apply f_equal. apply f_equal2; unfold axial; cbn; unfold elastic_stress, strain_at, plane_strain, p_e0, p_ky; cbn; lra.
    + intros x y H. cbn. unfold elastic_stress. cbn. lra.
Qed.
(** "n_max is the largest axial force": false for a law with a descending
    branch; here 2 is returned although 4 is carried within the limits. *)
Definition peak : ud := {| ud_x := [-10; 0; 1; 10]; ud_y := [-10; 0; 2; 1]; ud_un := -10; ud_up := 10 |}.
Theorem C28_largest_refuted : exists l laws mesher t g nmin nmax s',
  ud_init [-10; 0; 1; 10] [-10; 0; 2; 1] None 0 = Ok l /\ (forall k, laws k = ud_law l) /\ (forall k y, tr_ult t k y = ud_ult l) /\
  limits (fiber_integ laws mesher) t (1/10) g st_init = (Ok (nmin, nmax), s') /\
  axial (section_fibres laws (fun x => mesher x (surface_area x * (1/10))) g) 1 0 0 > nmax.
Proof.
  assert (INC : increasing [-10; 0; 1; 10]).
  { intros i j [H1 H2]. cbn in H2. destruct i as [|[|[|[|i]]]], j as [|[|[|[|j]]]]; cbn; try lra; lia. }
  assert (SEP : separated (ud_ult peak)) by (unfold separated, far, peak, ud_ult, tol; cbn [fst snd ud_un ud_up]; rnum).
  assert (S1 : ud_stress peak 1 = 2).
  { unfold ud_stress. rewrite prep_far; [|unfold far, peak, ud_ult, tol; cbn [fst snd ud_un ud_up]; rnum..]. unfold peak, ud_x, ud_y.
    rewrite (interp_seg _ _ 1%nat); [|reflexivity|exact INC|cbn; lia|cbn; lra]. unfold chord. cbn [nth]. field. }
  assert (S10 : ud_stress peak 10 = 1).
  { unfold ud_stress. rewrite prep_max; [|unfold near, peak, ud_ult, tol; cbn [fst snd ud_un ud_up]; rnum]. unfold peak, ud_x, ud_y, ud_ult. cbn [snd ud_up].
    rewrite (interp_seg _ _ 2%nat); [|reflexivity|exact INC|cbn; lia|cbn; lra]. unfold chord. cbn [nth]. field. }
  destruct (limit_load_fiber (fun _ => ud_law peak) ex_mesher (sym_traits 10) (two_bars 1 1) (1/10) st_init 1 (-1) (0, - (10), 0)) as (s' & L).
  - intros k. split; intros eps; cbn; apply C05_userdefined_arrays; exact SEP.
  - right. discriminate.
  - lra.
  - reflexivity.
  - apply two_bars_balanced. cbn [pow]. lra.
  - cbv zeta in L. exists peak, (fun _ => ud_law peak), ex_mesher, (sym_traits 10), (two_bars 1 1).
    do 3 eexists. split; [unfold ud_init; cbn [length Nat.eqb negb]; rewrite ud_base_neg by (exists (-10); split; [left; reflexivity|lra]); reflexivity|].
    split; [reflexivity|]. split; [reflexivity|]. split.
    + unfold limits. cbn [st_init st_lim]. fold st_init. rewrite L. reflexivity.
    + unfold axial, section_fibres, two_bars. cbn [cg_surf cg_bars flat_map map app br_y br_z br_area br_law ud_law lw_stress].
      rewrite !lsum_cons, !lsum_nil. unfold mfibre_at, plane_strain, strain_at, p_e0, p_ky. cbn [ud_law lw_stress m_sigma m_y m_z m_a fst snd].
      repeat match goal with |- context [ud_stress peak ?e] => first [constr_eq e 1; fail 1 | constr_eq e 10; fail 1 | replace e with 10 by ring | replace e with 1 by ring] end.
      rewrite S1, S10. lra.
Qed.
Print Assumptions C28_largest_refuted.
