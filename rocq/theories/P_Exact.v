(** Property C54: bending strength, moment-curvature and axial limits with the exact (default) integrator. *)
From Coquelicot Require Import Coquelicot.
From Coq Require Import FunctionalExtensionality Lra.
From Verif Require Import Base M_Marin S_Marin L_Marin M_Laws S_Laws L_Laws M_Laws2 S_Laws2 L_LawsC M_Fiber S_Fiber L_Fiber M_MarinInt S_MarinInt L_MarinInt L_MarinInt2 L_MarinInt3
  M_Section S_Section L_Section L_Section2 L_Section3 M_Domain S_Domain S_History L_History L_Section4 L_Section5 L_Section6 L_Domain2 S_Strength L_Strength P_Section P_Strength
  P_Fiber P_MarinInt M_Gross M_Geo M_Cracked S_Cracked L_Cracked L_Cracked7 S_MarinInt S_Exact L_Exact L_Exact2 L_Exact3.

(** After any history of analyses: the strain profile returned bends about the
    axis turned by theta with a negative curvature, and the forces returned are
    the exact resultants of the stresses of the section under that profile. *)
Theorem C54_strength_forces : forall laws fs t ms g ops s theta n r s' yn yp b,
  (forall k, batched (laws k)) -> drawn g -> follows laws fs g ->
  history (marin_integ laws) t ms g ops s ->
  bending_strength (marin_integ laws) t ms g theta n s = (Ok r, s') ->
  balanced (tr_rc t) false (items_of t (rotate_geo (- theta) g)) = Ok (yn, yp, b) -> p_ky b < 0 ->
  exists c, c < 0 /\ profile_of r = (rs_eps r, cos theta * c, sin theta * c) /\
    forces_of r = exact_forces fs laws g theta (rs_eps r) c.
Proof.
  intros laws fs t ms g ops s theta n r s' yn yp b B DR FO HI E BA NB.
  destruct (strength_inv _ _ _ _ _ _ _ _ _ E) as (s1 & s2 & s3 & p & F & C & RD & FP & FN & EP & EF).
  pose proof (marin_checked laws g theta B t ms ops s n s1 s2 HI C RD) as SD.
  assert (TI : 0 < / 10 ^ 13) by (apply Rinv_0_lt_compat, pow_lt; lra).
  rewrite (pivot_marin laws fs g theta B DR FO t ms n false s2 yn yp b SD BA NB) in FP. injection FP as FP <-.
  destruct (pivot_gen 100 _ n yn yp (p_e0 b) (p_ky b) _) as [[e c]|] eqn:PG; [|discriminate]. cbn [rmap fst snd] in FP. injection FP as <-.
  rewrite <- pivot_gen_eq in PG. apply solve_pivot_between in PG.
  assert (NC : c < 0) by (destruct PG as (_ & PG); unfold Rmax in PG; destruct (Rle_dec _ _); lra).
  destruct (turned_forces_n laws fs g theta B DR FO e c None s2 ltac:(lra) SD) as (F' & EF' & EB & _). rewrite EF' in FN. injection FN as <-.
  exists c. unfold profile_of, forces_of. rewrite EP, EF, EB. unfold back in EP. injection EP as E1 E2 E3. split; [exact NC|]. rewrite E1. split; [|reflexivity].
  unfold back. f_equal; [f_equal|]; ring.
Qed.
Print Assumptions C54_strength_forces.
(** Under the conditions of C23, in the user's axes, the axial force returned
    balances the applied load. *)
Theorem C54_strength_balanced : forall laws fs t ms g ops s theta n r s' yn yp b pv,
  (forall k, batched (laws k)) -> drawn g -> follows laws fs g ->
  history (marin_integ laws) t ms g ops s ->
  bending_strength (marin_integ laws) t ms g theta n s = (Ok r, s') ->
  balanced (tr_rc t) false (items_of t (rotate_geo (- theta) g)) = Ok (yn, yp, b) -> p_ky b < 0 ->
  let N := exact_axial fs laws g theta in
  let H c := N (strain_at b pv - c * pv) c in
  let n0 := N (p_e0 b) (p_ky b) in
  (n0 < n /\ pv = yp \/ n <= n0 /\ pv = yn) ->
  (n0 - n) * (H (- / 10 ^ 13) - n) < 0 ->
  (forall c, grid (p_ky b) (- / 10 ^ 13 - p_ky b) c -> H c <> n) ->
  balances n (rs_n r).
Proof.
  intros laws fs t ms g ops s theta n r s' yn yp b pv B DR FO HI E BA NB N H n0 PV SG NG.
  destruct (strength_inv _ _ _ _ _ _ _ _ _ E) as (s1 & s2 & s3 & p & F & C & RD & FP & FN & EP & EF).
  pose proof (marin_checked laws g theta B t ms ops s n s1 s2 HI C RD) as SD.
  assert (TI : 0 < / 10 ^ 13) by (apply Rinv_0_lt_compat, pow_lt; lra).
  rewrite (pivot_marin laws fs g theta B DR FO t ms n false s2 yn yp b SD BA NB) in FP. injection FP as FP <-. fold N in FP.
  destruct (pivot_gen 100 _ n yn yp (p_e0 b) (p_ky b) _) as [[e c]|] eqn:PG; [|discriminate]. cbn [rmap fst snd] in FP. injection FP as <-.
  assert (NC : c < 0).
  { pose proof PG as PG'. rewrite <- pivot_gen_eq in PG'. apply solve_pivot_between in PG'. destruct PG' as (_ & X). unfold Rmax in X. destruct (Rle_dec _ _); lra. }
  destruct (turned_forces_n laws fs g theta B DR FO e c None s2 ltac:(lra) SD) as (F' & EF' & EB & EN). rewrite EF' in FN. injection FN as <-.
  assert (P2 : pivot_of n yn yp (N (p_e0 b) (p_ky b)) = pv).
  { unfold pivot_of. fold n0. destruct (Rltb_spec n0 n); destruct PV as [(? & ->)|(? & ->)]; try reflexivity; exfalso; lra. }
  destruct (pivot_gen_sound 100 (fun e c => Ok (N e c)) H n yn yp (p_e0 b) (p_ky b) (N (p_e0 b) (p_ky b)) e c) with (5 := PG) as (EE & BL); rewrite ?P2.
  - intros x. reflexivity.
  - unfold H, strain_at. f_equal. unfold p_e0, p_ky. ring.
  - replace (H (p_ky b)) with n0; [exact SG|]. unfold n0, H, strain_at. f_equal. unfold p_e0, p_ky. ring.
  - exact NG.
  - rewrite P2 in EE. rewrite EB in EF. assert (RN : rs_n r = N e c) by (unfold N, exact_axial; rewrite <- EF; reflexivity). rewrite RN.
    unfold H in BL. replace (strain_at b pv - c * pv) with e in BL by exact EE. exact BL.
Qed.
Print Assumptions C54_strength_balanced.
(** In that situation a load within the limits is always solved, if the axial
    force depends Lipschitz-continuously on the curvature. *)
Theorem C54_strength_solves : forall laws fs t ms g ops s theta n yn yp b pv L nmin nmax s1,
  (forall k, batched (laws k)) -> drawn g -> follows laws fs g ->
  history (marin_integ laws) t ms g ops s ->
  limits (marin_integ laws) t ms g s = (Ok (nmin, nmax), s1) -> nmin <= n <= nmax ->
  balanced (tr_rc t) false (items_of t (rotate_geo (- theta) g)) = Ok (yn, yp, b) -> p_ky b < 0 ->
  let N := exact_axial fs laws g theta in
  let H c := N (strain_at b pv - c * pv) c in
  let n0 := N (p_e0 b) (p_ky b) in
  (n0 < n /\ pv = yp \/ n <= n0 /\ pv = yn) ->
  (n0 - n) * (H (- / 10 ^ 13) - n) < 0 ->
  (forall c, grid (p_ky b) (- / 10 ^ 13 - p_ky b) c -> H c <> n) ->
  lipschitz L H -> L * Rabs (p_ky b + / 10 ^ 13) <= 10 ^ 27 ->
  exists r s', bending_strength (marin_integ laws) t ms g theta n s = (Ok r, s').
Proof.
  intros laws fs t ms g ops s theta n yn yp b pv L nmin nmax s1 B DR FO HI LI NL BA NB N H n0 PV SG NG LP LB.
  assert (C : check_axial (marin_integ laws) t ms g n s = (Ok tt, s1)).
  { rewrite (C28_check _ _ _ _ _ _ _ _ _ LI). destruct (Rlt_dec n nmin); [exfalso; lra|]. destruct (Rlt_dec nmax n); [exfalso; lra|]. reflexivity. }
  destruct (rotate_data (- theta) s1) as [u s2] eqn:RD. assert (U : u = Ok tt) by (unfold rotate_data in RD; injection RD as <- _; reflexivity). subst u.
  pose proof (marin_checked laws g theta B t ms ops s n s1 s2 HI C RD) as SD.
  assert (TI : 0 < / 10 ^ 13) by (apply Rinv_0_lt_compat, pow_lt; lra).
  assert (P2 : pivot_of n yn yp (N (p_e0 b) (p_ky b)) = pv).
  { unfold pivot_of. fold n0. destruct (Rltb_spec n0 n); destruct PV as [(? & ->)|(? & ->)]; try reflexivity; exfalso; lra. }
  destruct (pivot_gen_finds (fun e c => Ok (N e c)) H n yn yp (p_e0 b) (p_ky b) (N (p_e0 b) (p_ky b)) L) as (e & c & PG); rewrite ?P2.
  - intros x. reflexivity.
  - unfold H, strain_at. f_equal. unfold p_e0, p_ky. ring.
  - exact LP.
  - replace (p_ky b - - / 10 ^ 13) with (p_ky b + / 10 ^ 13) by ring. exact LB.
  - replace (H (p_ky b)) with n0; [exact SG|]. unfold n0, H, strain_at. f_equal. unfold p_e0, p_ky. ring.
  - exact NG.
  - assert (NC : c < 0).
    { pose proof PG as PG'. rewrite <- pivot_gen_eq in PG'. apply solve_pivot_between in PG'. destruct PG' as (_ & X). unfold Rmax in X. destruct (Rle_dec _ _); lra. }
    unfold bending_strength, abind. rewrite C, RD.
    rewrite (pivot_marin laws fs g theta B DR FO t ms n false s2 yn yp b SD BA NB). fold N. rewrite PG. cbn [rmap fst snd].
    destruct (turned_forces_n laws fs g theta B DR FO e c None s2 ltac:(lra) SD) as (F' & EF' & _). rewrite EF'. destruct F' as ((? & ?) & ?). eexists. eexists. reflexivity.
Qed.
Print Assumptions C54_strength_solves.
(** Moment-curvature with requested curvatures, none of them zero: one point per
    requested curvature, in order, bent about the axis turned by theta; its
    moments are the exact ones of the profile returned. *)
Theorem C54_curve_points : forall laws fs t ms g ops s theta n chi_first npre npost chis l s',
  (forall k, batched (laws k)) -> drawn g -> follows laws fs g ->
  history (marin_integ laws) t ms g ops s -> (forall c, In c chis -> c <> 0) ->
  moment_curvature (marin_integ laws) t ms g theta n chi_first npre npost (Some chis) s = (Ok l, s') ->
  Forall2 (fun c x => exists e, pt_profile x = (e, cos theta * c, sin theta * c) /\
     pt_moments x = (snd (fst (exact_forces fs laws g theta e c)), snd (exact_forces fs laws g theta e c))) chis l.
Proof.
  intros laws fs t ms g ops s theta n c1 a b chis l s' B DR FO HI NZ E.
  destruct (moment_inv _ _ _ _ _ _ _ _ _ _ _ _ _ E) as (s1 & s2 & s3 & cs & pts & s4 & C & RD & (-> & ->) & CP & ->).
  pose proof (marin_checked laws g theta B t ms ops s n s1 s2 HI C RD) as SD.
  destruct (points_marin laws fs g theta B DR FO n chis 0 s2 pts s4 SD NZ CP) as (_ & F2 & _).
  clear CP E NZ. induction F2 as [|c x chis pts P F2 IH]; cbn [map]; constructor; [|exact IH].
  destruct x as [[[c' e] My] Mz]. destruct P as (-> & PM). exists e. unfold pt_profile, pt_moments. cbn [fst snd]. rewrite <- PM. unfold back. cbn [fst snd].
  split; [|reflexivity]. f_equal; [f_equal|]; ring.
Qed.
Print Assumptions C54_curve_points.
(** If the exact axial force never decreases with the axial strain, unless a point
    of the search meets the load exactly, every point balances the applied load. *)
Theorem C54_curve_balanced : forall laws fs t ms g ops s theta n chi_first npre npost chis l s',
  (forall k, batched (laws k)) -> drawn g -> follows laws fs g ->
  history (marin_integ laws) t ms g ops s -> (forall c, In c chis -> c <> 0) ->
  moment_curvature (marin_integ laws) t ms g theta n chi_first npre npost (Some chis) s = (Ok l, s') ->
  (forall c, In c chis -> nondecreasing (fun e => exact_axial fs laws g theta e c)) ->
  (forall c e, In c chis -> grid 0 (1/1000) e -> exact_axial fs laws g theta e c <> n) ->
  Forall2 (fun c x => balances n (exact_axial fs laws g theta (fst (fst (pt_profile x))) c)) chis l.
Proof.
  intros laws fs t ms g ops s theta n c1 a b chis l s' B DR FO HI NZ E MO NG.
  destruct (moment_inv _ _ _ _ _ _ _ _ _ _ _ _ _ E) as (s1 & s2 & s3 & cs & pts & s4 & C & RD & (-> & ->) & CP & ->).
  pose proof (marin_checked laws g theta B t ms ops s n s1 s2 HI C RD) as SD.
  destruct (points_marin laws fs g theta B DR FO n chis 0 s2 pts s4 SD NZ CP) as (_ & F2 & BAL).
  specialize (BAL NG (grid_start _ _) MO). clear CP E NZ NG MO. revert BAL. induction F2 as [|c x chis pts P F2 IH]; intros BAL; cbn [map]; constructor.
  - inversion BAL as [|? ? BX _]; subst. destruct x as [[[c' e] My] Mz]. destruct P as (-> & _). cbn [pt_profile fst snd]. exact BX.
  - apply IH. inversion BAL; assumption.
Qed.
Print Assumptions C54_curve_balanced.
(** In that situation all requested curvatures are solved. *)
Theorem C54_curve_solves : forall laws fs t ms g ops s theta n chi_first npre npost chis nmin nmax s1,
  (forall k, batched (laws k)) -> drawn g -> follows laws fs g ->
  history (marin_integ laws) t ms g ops s -> (forall c, In c chis -> c <> 0) ->
  limits (marin_integ laws) t ms g s = (Ok (nmin, nmax), s1) -> nmin <= n <= nmax ->
  let N := exact_axial fs laws g theta in
  (forall c, In c chis -> nondecreasing (fun e => N e c) /\ (exists L, lipschitz L (fun e => N e c) /\ L <= 10 ^ 24) /\
     (forall e, grid 0 (1/1000) e -> N e c <> n) /\ N (-262) c < n - 1/100 /\ n + 1/100 < N 262 c) ->
  exists l s', moment_curvature (marin_integ laws) t ms g theta n chi_first npre npost (Some chis) s = (Ok l, s') /\ length l = length chis.
Proof.
  intros laws fs t ms g ops s theta n c1 a b chis nmin nmax s1 B DR FO HI NZ LI NL N HC.
  assert (C : check_axial (marin_integ laws) t ms g n s = (Ok tt, s1)).
  { rewrite (C28_check _ _ _ _ _ _ _ _ _ LI). destruct (Rlt_dec n nmin); [exfalso; lra|]. destruct (Rlt_dec nmax n); [exfalso; lra|]. reflexivity. }
  destruct (rotate_data (- theta) s1) as [u s2] eqn:RD. assert (U : u = Ok tt) by (unfold rotate_data in RD; injection RD as <- _; reflexivity). subst u.
  pose proof (marin_checked laws g theta B t ms ops s n s1 s2 HI C RD) as SD.
  destruct (points_found laws fs g theta B DR FO n chis 0 s2 SD NZ (grid_start _ _) ltac:(lra) HC) as (pts & P).
  pose proof (points_curvatures _ _ _ _ _ _ _ _ P) as PC.
  unfold moment_curvature, abind. rewrite C, RD. unfold aret at 1. rewrite P. eexists. eexists. split; [reflexivity|]. rewrite map_length, <- PC, map_length. reflexivity.
Qed.
Print Assumptions C54_curve_solves.
(** The axial limits of a new calculator, or after any history, are the exact axial
    forces under the two governing uniform strains. *)
Theorem C54_limits : forall laws fs t ms g ops s yn yp b,
  (forall k, batched (laws k)) -> drawn g ->
  history (marin_integ laws) t ms g ops s ->
  balanced (tr_rc t) false (items_of t g) = Ok (yn, yp, b) ->
  (forall x e, In x (cg_surf g) -> e = strain_at b yn \/ e = strain_at b yp -> field_of (lw_marin (laws (sf_law x)) (e, 0)) (fs (sf_law x)) e 0) ->
  fst (limits (marin_integ laws) t ms g s) = Ok (exact_axial fs laws g 0 (strain_at b yn) 0, exact_axial fs laws g 0 (strain_at b yp) 0).
Proof.
  intros laws fs t ms g ops s yn yp b B DR HI BA FO.
  assert (H0 : fst (limits (marin_integ laws) t ms g s) = fst (limits (marin_integ laws) t ms g st_init)).
  { pose proof (C24_marin laws t ms g ops s OLimits B HI) as E. cbn [run] in E. unfold amap in E.
    destruct (limits (marin_integ laws) t ms g s) as [[x|] ?], (limits (marin_integ laws) t ms g st_init) as [[y|] ?]; cbn [fst rmap] in *; congruence. }
  rewrite H0. clear H0 HI s ops.
  assert (ONE : forall e d m, e = strain_at b yn \/ e = strain_at b yp -> d = None \/ d = Some (map unscalar (bar_groups (cg_bars g))) ->
     exists F, ig_forces (marin_integ laws) g (e, 0, 0) d m = Ok (F, map unscalar (bar_groups (cg_bars g))) /\ fst (fst F) = exact_axial fs laws g 0 e 0).
  { intros e d m HE HD. destruct (exact_core laws fs g 0 e 0 B DR) as (F & E & EB).
    { intros x HX. rewrite Rabs_R0. apply FO; assumption. }
    pose proof (rotate_geo_0 g) as R0. rewrite R0 in E. change (map (rotate_bar (- 0)) (cg_bars g)) with (cg_bars (rotate_geo (- 0) g)) in E. rewrite R0 in E.
    exists F. split; [|unfold exact_axial; rewrite <- EB; destruct F as ((x & y) & z); reflexivity].
    cbn [ig_forces marin_integ]. destruct HD as [-> | ->]; [exact E|]. rewrite forces_reuse by exact B. exact E. }
  unfold limits. cbn [st_lim st_init]. unfold limit_load, abind, alift. rewrite BA. fold (strain_at b yn) (strain_at b yp). unfold p_e0, p_ky. fold (strain_at b yn) (strain_at b yp).
  cbn [st_data st_init]. destruct (ONE (strain_at b yn) None (Some ms) (or_introl eq_refl) (or_introl eq_refl)) as (F & -> & EN).
  destruct (ONE (strain_at b yp) _ None (or_intror eq_refl) (or_intror eq_refl)) as (G & -> & EG). cbn [fst]. rewrite EN, EG. reflexivity.
Qed.
Print Assumptions C54_limits.

(** If no stress decreases with strain (continuous curves on the surfaces) and no part
    of the section counts negatively, the axial force never decreases with the axial strain. *)
Theorem C54_monotone : forall laws fs g theta c,
  (forall k, nondecreasing (lw_stress (laws k))) -> (forall k, nondecreasing (fs k)) -> (forall k e, continuity_pt (fs k) e) ->
  (forall b, In b (cg_bars g) -> 0 <= br_area b) -> (forall s, In s (cg_surf g) -> solid (turned (- theta) s)) ->
  nondecreasing (fun e => exact_axial fs laws g theta e c).
Proof.
  intros laws fs g theta c ML MF CF HB SO x y XY. unfold exact_axial, exact_forces. cbv zeta. cbn [fst snd]. apply Rplus_le_compat.
  - unfold surfaces_turned. generalize SO. clear SO. induction (cg_surf g) as [|s ss IH]; intros SO; cbn [map]; [lra|]. rewrite !lsum_cons. apply Rplus_le_compat; [|apply IH; intros; apply SO; now right].
    rewrite !turned_strain. apply solid_mono; [apply SO; now left| | |].
    + intros z. apply shifted_continuous, CF.
    + intros z. apply shifted_continuous, CF.
    + intros z. apply MF. lra.
  - apply axial_mono; [|intros f _; unfold plane_strain; lra]. intros f HF. unfold bar_fibres in HF. apply in_map_iff in HF. destruct HF as (b & <- & HF). split; [apply HB, HF|apply ML].
Qed.
Print Assumptions C54_monotone.
(** The axial limits bound the axial force of every profile whose strains stay
    between the two governing strains all over the section. *)
Theorem C54_extremes : forall laws fs g theta e c lo hi, lo <= hi ->
  (forall k, nondecreasing (lw_stress (laws k))) -> (forall k, nondecreasing (fs k)) -> (forall k e, continuity_pt (fs k) e) ->
  (forall b, In b (cg_bars g) -> 0 <= br_area b) -> (forall s, In s (cg_surf g) -> solid (turned (- theta) s)) -> drawn g ->
  (forall s v, In s (cg_surf g) -> In v (sf_ext s) \/ (exists q, In q (sf_ints s) /\ In v q) -> lo <= plane_strain e (cos theta * c) (sin theta * c) (fst v) (snd v) <= hi) ->
  (forall b, In b (cg_bars g) -> lo <= plane_strain e (cos theta * c) (sin theta * c) (br_y b) (br_z b) <= hi) ->
  exact_axial fs laws g 0 lo 0 <= exact_axial fs laws g theta e c <= exact_axial fs laws g 0 hi 0.
Proof.
  intros laws fs g theta e c lo hi LH ML MF CF HB SO DR VS VB. unfold exact_axial, exact_forces. cbv zeta. cbn [fst snd].
  assert (SU : forall ss, (forall s, In s ss -> In s (cg_surf g)) ->
    surfaces_turned fs (fun _ _ => 1) (- 0) lo (cos 0 * 0) (sin 0 * 0) ss <= surfaces_turned fs (fun _ _ => 1) (- theta) e (cos theta * c) (sin theta * c) ss
      <= surfaces_turned fs (fun _ _ => 1) (- 0) hi (cos 0 * 0) (sin 0 * 0) ss).
  { unfold surfaces_turned. induction ss as [|s ss IH]; intros HS; cbn [map]; [lra|]. rewrite !lsum_cons.
    assert (Z : forall x, surface_integral (fun y z => fs (sf_law s) (plane_strain x (cos 0 * 0) (sin 0 * 0) (back_y (- 0) y z) (back_z (- 0) y z)) * 1) (turned (- 0) s) = surface_integral (fun _ _ => fs (sf_law s) x) s).
    { intros x. rewrite turned_strain. rewrite Ropp_0, turned_0. f_equal. apply functional_extensionality. intros y. apply functional_extensionality. intros z. f_equal. ring. }
    rewrite !Z, turned_strain.
    assert (HIN : In s (cg_surf g)) by (apply HS; now left).
    pose proof (surface_between (fs (sf_law s)) theta e c lo hi s (proj1 DR s HIN) (SO s HIN) (fun x y => MF (sf_law s) x y) (CF (sf_law s)) LH (fun v => VS s v HIN)) as SB.
    specialize (IH (fun x HX => HS x (or_intror HX))). lra. }
  specialize (SU (cg_surf g) (fun s H => H)).
  assert (GB : forall f, In f (bar_fibres laws g) -> 0 <= m_a f /\ nondecreasing (m_sigma f)).
  { intros f HF. unfold bar_fibres in HF. apply in_map_iff in HF. destruct HF as (b & <- & HF). split; [apply HB, HF|apply ML]. }
  assert (SB : forall f, In f (bar_fibres laws g) -> lo <= plane_strain e (cos theta * c) (sin theta * c) (m_y f) (m_z f) <= hi).
  { intros f HF. unfold bar_fibres in HF. apply in_map_iff in HF. destruct HF as (b & <- & HF). apply VB, HF. }
  assert (Z0 : forall x y z, plane_strain x (cos 0 * 0) (sin 0 * 0) y z = x) by (intros; unfold plane_strain; ring).
  assert (B1 : axial (bar_fibres laws g) lo (cos 0 * 0) (sin 0 * 0) <= axial (bar_fibres laws g) e (cos theta * c) (sin theta * c)).
  { apply axial_mono; [exact GB|]. intros f HF. rewrite Z0. apply (SB f HF). }
  assert (B2 : axial (bar_fibres laws g) e (cos theta * c) (sin theta * c) <= axial (bar_fibres laws g) hi (cos 0 * 0) (sin 0 * 0)).
  { apply axial_mono; [exact GB|]. intros f HF. rewrite Z0. apply (SB f HF). }
  lra.
Qed.
Print Assumptions C54_extremes.

(** The hypotheses are met: an elastic plate, 1 wide and 2 high, bent about the y axis. *)
Definition plate : compound := {| cg_surf := [ {| sf_ext := rect (- / 2) (/ 2) (-1) 1; sf_ints := []; sf_law := 0 |} ]; cg_bars := [] |}.
Definition hooke (_ : nat) (e : R) : R := 1000 * e.
Lemma plate_drawn : drawn plate.
Proof. split; [|intros b b' []]. intros s [<- | []]. split; [reflexivity|intros q []]. Qed.
Lemma hooke_field e r k : field_of (lw_marin (stiff_laws 1000 k) (e, r)) (hooke k) e r.
Proof.
  assert (I : exists l, elastic_init 1000 None = Ok l /\ lw_marin (stiff_laws 1000 k) (e, r) = elastic_marin l (e, r)).
  { exists {| el_E := 1000; el_u := None |}. split; [|reflexivity]. unfold elastic_init. destruct (Rleb_spec 1000 0); [exfalso; lra|]. reflexivity. }
  destruct I as (l & I & ->). destruct C21_law_fields as (LF & _). exact (proj1 (LF 1000 None l e r I)).
Qed.
Lemma plate_follows : follows (stiff_laws 1000) hooke plate.
Proof. intros s e r _ _. apply hooke_field. Qed.
Lemma plate_axial e c : exact_axial hooke (stiff_laws 1000) plate 0 e c = 2000 * e.
Proof.
  unfold exact_axial, exact_forces, surfaces_turned. cbn [fst snd plate cg_surf cg_bars map bar_fibres axial].
  unfold bar_fibres, axial. cbn [plate cg_bars map]. rewrite !lsum_cons, !lsum_nil. rewrite Ropp_0, turned_0. cbn [sf_law].
  transitivity (surface_integral (fun _ z => 1000 * (e + c * z)) {| sf_ext := rect (- / 2) (/ 2) (-1) 1; sf_ints := []; sf_law := 0 |} + 0 + 0).
  { do 2 f_equal. f_equal. apply functional_extensionality. intros y. apply functional_extensionality. intros z.
    unfold hooke, plane_strain, back_y, back_z. rewrite cos_0, sin_0. ring. }
  rewrite surface_field. unfold sfield. cbn [sf_ext sf_ints map]. rewrite lsum_nil, rect_ccw by lra.
  rewrite (gfield_rect 0 (fun z => 1000 * (e + c * z)) (- / 2) (/ 2) (-1) 1 (2000 * e)).
  - cbn [Nat.add INR pow]. field.
  - replace (2000 * e) with (1000 * (e * 1 + c * 1 ^ 2 / 2) - 1000 * (e * -1 + c * (-1) ^ 2 / 2)) by field.
    apply (is_RInt_derive (V := R_CompleteNormedModule) (fun z => 1000 * (e * z + c * z ^ 2 / 2))).
    + intros z _. auto_derive; [exact I|]. match goal with |- ?a = ?b => change (@eq R a b) end. field.
    + intros z _. apply continuity_pt_filterlim. apply derivable_continuous_pt. reg.
Qed.
Lemma plate_balanced u : 0 < u < 10 ^ 9 -> balanced false false (items_of (sym_traits u) plate) = Ok (1, -1, (0, - u, 0)).
Proof.
  intros U. unfold balanced, items_of, plate, sym_traits. cbn [cg_surf cg_bars map app list_prod br_z br_law tr_ult tr_conc sf_law sf_ext].
  assert (MN : ring_min (rect (- / 2) (/ 2) (-1) 1) = -1).
  { unfold ring_min, rect. cbn [fold_left snd]. unfold Rmin. repeat destruct (Rle_dec _ _); lra. }
  assert (MX : ring_max (rect (- / 2) (/ 2) (-1) 1) = 1).
  { unfold ring_max, rect. cbn [fold_left snd]. unfold Rmax. repeat destruct (Rle_dec _ _); lra. }
  rewrite MN, MX. cbn [fold_left]. unfold pair_step. cbn [im_lo im_hi im_ult im_conc fst snd andb orb negb].
  destruct (Rleb_spec 1 1); [|lra]. destruct (Rleb_spec (-1) 1); [|lra]. destruct (Rleb_spec 1 (-1)); [lra|]. destruct (Rleb_spec (-1) (-1)); [|lra].
  replace (- (u - - u) / (-1 - 1)) with u by field. destruct (Rltb_spec u (10 ^ 10)); [|cbn [pow] in *; lra].
  apply f_equal. apply f_equal2; [reflexivity|]. apply f_equal2; [|reflexivity]. apply f_equal2; ring.
Qed.
Lemma plate_limits : exists s1, limits (marin_integ (stiff_laws 1000)) (sym_traits (1/1000)) (1/10) plate st_init = (Ok (-2, 2), s1).
Proof.
  pose proof (C54_limits (stiff_laws 1000) hooke (sym_traits (1/1000)) (1/10) plate [] st_init 1 (-1) (0, - (1/1000), 0) (stiff_batched 1000) plate_drawn (h_new _ _ _ _)
    (plate_balanced (1/1000) ltac:(cbn [pow]; lra)) (fun x e _ _ => hooke_field e 0 (sf_law x))) as E.
  rewrite !plate_axial in E. unfold strain_at in E. cbn [fst snd] in E.
  replace (2000 * (0 + - (1/1000) * 1)) with (-2) in E by field. replace (2000 * (0 + - (1/1000) * -1)) with 2 in E by field.
  destruct (limits _ _ _ _ _) as [r s1]. cbn [fst] in E. subst r. exists s1. reflexivity.
Qed.
Example C54_example : exists r s' c,
  bending_strength (marin_integ (stiff_laws 1000)) (sym_traits (1/1000)) (1/10) plate 0 ((2 - 2 / 10 ^ 10) / 3) st_init = (Ok r, s') /\
  balances ((2 - 2 / 10 ^ 10) / 3) (rs_n r) /\ c < 0 /\ forces_of r = exact_forces hooke (stiff_laws 1000) plate 0 (rs_eps r) c.
Proof.
  assert (B : forall k, batched (stiff_laws 1000 k)) by apply stiff_batched.
  assert (HI : history (marin_integ (stiff_laws 1000)) (sym_traits (1/1000)) (1/10) plate [] st_init) by constructor.
  assert (BA : balanced (tr_rc (sym_traits (1/1000))) false (items_of (sym_traits (1/1000)) (rotate_geo (- 0) plate)) = Ok (1, -1, (0, - (1/1000), 0))).
  { rewrite rotate_geo_0. exact (plate_balanced (1/1000) ltac:(cbn [pow]; lra)). }
  assert (NB : p_ky (0, - (1/1000), 0) < 0) by (cbn; lra).
  destruct plate_limits as (s1 & LI). set (n := (2 - 2 / 10 ^ 10) / 3). set (N := exact_axial hooke (stiff_laws 1000) plate 0).
  assert (TB : forall e c, N e c = 2000 * e) by (intros e c; apply plate_axial).
  assert (PVC : N (p_e0 (0, - (1/1000), 0)) (p_ky (0, - (1/1000), 0)) < n /\ -1 = -1 \/ n <= N (p_e0 (0, - (1/1000), 0)) (p_ky (0, - (1/1000), 0)) /\ -1 = 1).
  { left. split; [|reflexivity]. rewrite TB. unfold n, p_e0, p_ky. cbn [fst snd pow]. lra. }
  assert (SGC : (N (p_e0 (0, - (1/1000), 0)) (p_ky (0, - (1/1000), 0)) - n) * (N (strain_at (0, - (1/1000), 0) (-1) - - / 10 ^ 13 * -1) (- / 10 ^ 13) - n) < 0).
  { rewrite !TB. unfold n, strain_at, p_e0, p_ky. cbn [fst snd pow]. lra. }
  assert (GC : forall c, grid (p_ky (0, - (1/1000), 0)) (- / 10 ^ 13 - p_ky (0, - (1/1000), 0)) c -> N (strain_at (0, - (1/1000), 0) (-1) - c * -1) c <> n).
  { intros c G E. apply (off_grid c G). rewrite TB in E. fold n. rewrite <- E. unfold strain_at. cbn [fst snd]. ring. }
  destruct (C54_strength_solves (stiff_laws 1000) hooke (sym_traits (1/1000)) (1/10) plate [] st_init 0 n 1 (-1) (0, - (1/1000), 0) (-1) 2000 (-2) 2 s1 B plate_drawn plate_follows HI LI
    ltac:(unfold n; cbn [pow]; lra) BA NB PVC SGC GC) as (r & s' & E).
  - intros x y. fold N. rewrite !TB. unfold strain_at. cbn [fst snd].
    match goal with |- Rabs ?a <= _ => replace a with (2000 * (x - y)) by ring end. rewrite Rabs_mult, (Rabs_pos_eq 2000) by lra. lra.
  - cbn [p_ky fst snd pow]. unfold Rabs. destruct (Rcase_abs _); lra.
  - destruct (C54_strength_forces (stiff_laws 1000) hooke (sym_traits (1/1000)) (1/10) plate [] st_init 0 n r s' 1 (-1) (0, - (1/1000), 0) B plate_drawn plate_follows HI E BA NB) as (c & NC & _ & EF).
    exists r, s', c. split; [exact E|]. split; [|split; assumption].
    exact (C54_strength_balanced (stiff_laws 1000) hooke (sym_traits (1/1000)) (1/10) plate [] st_init 0 n r s' 1 (-1) (0, - (1/1000), 0) (-1) B plate_drawn plate_follows HI E BA NB PVC SGC GC).
Qed.
Example C54_curve_example : exists l s',
  moment_curvature (marin_integ (stiff_laws 1000)) (sym_traits (1/1000)) (1/10) plate 0 (1/3) 0 0 0 (Some [-1; 3]) st_init = (Ok l, s') /\ length l = 2%nat /\
  Forall2 (fun c x => balances (1/3) (2000 * fst (fst (pt_profile x)))) [-1; 3] l.
Proof.
  assert (B : forall k, batched (stiff_laws 1000 k)) by apply stiff_batched.
  assert (HI : history (marin_integ (stiff_laws 1000)) (sym_traits (1/1000)) (1/10) plate [] st_init) by constructor.
  assert (NZ : forall c, In c [-1; 3] -> c <> 0) by (intros c [<- | [<- | []]]; lra).
  destruct plate_limits as (s1 & LI). set (N := exact_axial hooke (stiff_laws 1000) plate 0).
  assert (TB : forall e c, N e c = 2000 * e) by (intros e c; apply plate_axial).
  assert (MO : forall c, In c [-1; 3] -> nondecreasing (fun e => N e c)) by (intros c _ x y XY; rewrite !TB; lra).
  assert (NG : forall c e, In c [-1; 3] -> grid 0 (1/1000) e -> N e c <> 1/3) by (intros c e _ G; rewrite TB; exact (third_off_grid e G)).
  destruct (C54_curve_solves (stiff_laws 1000) hooke (sym_traits (1/1000)) (1/10) plate [] st_init 0 (1/3) 0 0 0 [-1; 3] (-2) 2 s1 B plate_drawn plate_follows HI NZ LI ltac:(lra)) as (l & s' & E & LL).
  - intros c HC. fold N. split; [exact (MO c HC)|]. split; [|split; [|rewrite !TB; lra]].
    + exists 2000. split; [|cbn [pow]; lra]. intros x y. rewrite !TB. replace (2000 * x - 2000 * y) with (2000 * (x - y)) by ring. rewrite Rabs_mult, (Rabs_pos_eq 2000) by lra. lra.
    + intros e G. exact (NG c e HC G).
  - exists l, s'. split; [exact E|]. split; [exact LL|].
    pose proof (C54_curve_balanced (stiff_laws 1000) hooke (sym_traits (1/1000)) (1/10) plate [] st_init 0 (1/3) 0 0 0 [-1; 3] l s' B plate_drawn plate_follows HI NZ E MO NG) as BL.
    revert BL. generalize [-1; 3]. clear - TB. intros cs BL. induction BL as [|c x cs l P BL IH]; constructor; [|exact IH]. fold N in P. rewrite TB in P. exact P.
Qed.
(** C54_monotone and C54_extremes: the plate again. *)
Example C54_monotone_example theta e c : solid (turned (- 0) (hd ex_surface (cg_surf plate))) /\ (forall k, nondecreasing (hooke k)) /\
  ((forall v, In v (rect (- / 2) (/ 2) (-1) 1) -> -1 <= plane_strain e (cos theta * c) (sin theta * c) (fst v) (snd v) <= 1) ->
   solid (turned (- theta) (hd ex_surface (cg_surf plate))) ->
   -2000 <= exact_axial hooke (stiff_laws 1000) plate theta e c <= 2000).
Proof.
  assert (MF : forall k, nondecreasing (hooke k)) by (intros k x y XY; unfold hooke; lra).
  split; [|split; [exact MF|]].
  - rewrite Ropp_0, turned_0. cbn [hd plate cg_surf]. exact (rect_solid (- / 2) (/ 2) (-1) 1 ltac:(lra) ltac:(lra)).
  - intros V SO. replace (-2000) with (exact_axial hooke (stiff_laws 1000) plate 0 (-1) 0) by (rewrite plate_axial; lra). replace 2000 with (exact_axial hooke (stiff_laws 1000) plate 0 1 0) by (rewrite plate_axial; lra).
    apply C54_extremes; try assumption; try lra.
    + intros k x. unfold hooke. apply continuity_pt_mult; [apply continuity_pt_const; intros ? ?; reflexivity|apply derivable_continuous_pt, derivable_pt_id].
    + intros b [].
    + intros s [<- | []]. exact SO.
    + exact plate_drawn.
    + intros s v [<- | []] [HV|(q & [] & _)]. apply V. exact HV.
    + intros b [].
Qed.
