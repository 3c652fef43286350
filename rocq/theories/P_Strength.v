(** Properties C47-C49: bending strength, moment-curvature, biaxial domain. *)
From Coq Require Import FunctionalExtensionality.
From Verif Require Import Base M_Marin S_Marin L_Marin M_Laws S_Laws L_Laws M_Laws2 L_LawsC M_Fiber S_Fiber L_Fiber M_MarinInt S_MarinInt L_MarinInt3
  M_Section S_Section L_Section L_Section2 L_Section3 M_Domain S_Domain S_History L_History L_Section4 L_Section5 L_Section6 L_Domain2 S_Strength L_Strength P_Section.

(** * C47: bending strength *)
(** Fibre sections, after any history of analyses: the forces returned are the
    resultants of the section's own fibres under the strain profile returned,
    both in the user's axes. *)
Theorem C47_equilibrium : forall laws mesher t ms g ops s theta n r s',
  (forall k, batched (laws k)) -> cg_surf g <> [] \/ cg_bars g <> [] -> 0 < ms <= 1 -> (forall o, In o ops -> meshed o) ->
  history (fiber_integ laws mesher) t ms g ops s ->
  bending_strength (fiber_integ laws mesher) t ms g theta n s = (Ok r, s') ->
  equilibrates (section_fibres laws (fun x => mesher x (surface_area x * ms)) g) (profile_of r) (forces_of r).
Proof.
  intros laws mesher t ms g ops s theta n r s' B NE M HO H E.
  destruct (strength_inv _ _ _ _ _ _ _ _ _ E) as (s1 & s2 & s3 & p & F & C & RD & FP & FN & EP & EF).
  destruct (checked laws mesher t ms g ops s n s1 B M (fun o Ho => or_introl (HO o Ho)) H C) as (d & D & T & SD & EQ).
  pose proof (nonempty_data _ _ _ _ NE T) as DN. unfold rotate_data in RD. injection RD as <-. rewrite SD in FP. cbn [option_map] in FP.
  rewrite (eqd_rotate (- theta) d D EQ) in FP. set (s2 := {| st_data := _; st_lim := _ |}) in FP.
  assert (RN : map (rotate_group (- theta)) D <> []) by (intros X; apply map_eq_nil in X; contradiction).
  destruct (balanced (tr_rc t) false (items_of t (rotate_geo (- theta) g))) as [[[yn yp] b]|x] eqn:BA; [|rewrite (balanced_err_pivot _ _ _ _ _ _ _ _ BA) in FP; discriminate].
  rewrite (pivot_data laws mesher t ms _ n false s2 _ yn yp b B RN eq_refl BA) in FP. injection FP as FP <-.
  rewrite (forces_n_data laws mesher _ p _ _ s2 B RN eq_refl) in FN. injection FN as <-.
  unfold equilibrates, profile_of, forces_of. rewrite EP, EF, <- turned_resultants, (data_section _ _ _ _ _ B NE T). reflexivity.
Qed.
Print Assumptions C47_equilibrium.
(** Whatever the integrator and the history: the curvature returned is about the
    axis turned by theta, the profile keeps every point of the section within the
    ultimate strains of its material (for materials that bear both governing
    strains), and in some point an ultimate strain is exactly attained. *)
Theorem C47_ultimate_state : forall ig t ms g s theta n r s' yn yp b,
  bending_strength ig t ms g theta n s = (Ok r, s') ->
  (forall k y, fst (tr_ult t k y) <= 0 <= snd (tr_ult t k y)) -> (forall s, In s (cg_surf g) -> sf_ext s <> []) ->
  balanced (tr_rc t) false (items_of t (rotate_geo (- theta) g)) = Ok (yn, yp, b) -> p_ky b <= - / 10 ^ 13 ->
  (exists c, rs_chiy r = cos theta * c /\ rs_chiz r = sin theta * c /\ p_ky b <= c <= - / 10 ^ 13) /\
  (forall y z k, point_of g y z k -> fst (tr_ult t k false) <= strain_at b yn -> strain_at b yp <= snd (tr_ult t k false) ->
     fst (tr_ult t k false) <= strain_in (profile_of r) y z <= snd (tr_ult t k false)) /\
  (exists y z k, point_of g y z k /\ (strain_in (profile_of r) y z = fst (tr_ult t k false) \/ strain_in (profile_of r) y z = snd (tr_ult t k false))).
Proof.
  intros ig t ms g s theta n r s' yn yp b E U0 NEX BA KB.
  destruct (strength_inv _ _ _ _ _ _ _ _ _ E) as (s1 & s2 & s3 & p & F & C & RD & FP & FN & EP & EF).
  set (gr := rotate_geo (- theta) g) in *.
  assert (NEX' : forall s, In s (cg_surf gr) -> sf_ext s <> []).
  { intros x HS. apply in_map_iff in HS. destruct HS as (s0 & <- & HS). cbn [rotate_surface sf_ext]. specialize (NEX s0 HS). destruct (sf_ext s0); [contradiction|discriminate]. }
  unfold fixed_pivot in FP. rewrite BA in FP. unfold abind, alift in FP. destruct (forces_k ig gr b (Some ms) s2) as [[F0|] s2'] eqn:FK; [|discriminate].
  injection FP as FP <-. destruct (solve_pivot _ n yn yp (p_e0 b) (p_ky b) (fst (fst F0))) as [[e c]|] eqn:SP; [|discriminate]. cbn [rmap fst snd] in FP. injection FP as <-.
  pose proof (solve_pivot_between _ _ _ _ _ _ _ _ _ SP) as CB. rewrite Rmin_left, Rmax_right in CB by exact KB.
  pose proof (solve_pivot_through _ _ _ _ _ _ _ _ _ SP) as TH.
  unfold back in EP. rewrite !Rmult_0_r, Rminus_0_r, Rplus_0_r in EP.
  assert (ST : forall y z, strain_in (profile_of r) y z = e + c * (cos theta * z - sin theta * y)).
  { intros y z. unfold profile_of. rewrite EP. unfold strain_in, plane_strain. cbn [fst snd]. ring. }
  injection EP as E1 E2 E3.
  assert (TI : 0 < / 10 ^ 13) by (apply Rinv_0_lt_compat, pow_lt; lra).
  destruct (C27_within_limits t gr false yn yp b U0 NEX' BA) as (WS & WB & KZ & K0 & YO).
  destruct (C27_attained t gr false yn yp b U0 NEX' BA) as (AT & AC). cbn [andb] in AC.
  assert (PG : forall y z k, point_of g y z k -> fst (tr_ult t k false) <= strain_at b (cos theta * z - sin theta * y) <= snd (tr_ult t k false)).
  { intros y z k [(x & v & HS & HV & -> & ->)|(x & HB & -> & -> & ->)].
    - assert (HS' : In (rotate_surface (- theta) x) (cg_surf gr)) by (apply in_map; exact HS).
      assert (HV' : In (rot (- theta) (y, z)) (sf_ext (rotate_surface (- theta) x))) by (cbn [rotate_surface sf_ext]; apply in_map; exact HV).
      specialize (WS _ (cos theta * z - sin theta * y) HS'). cbn [andb] in WS. replace (if tr_rc t then false else false) with false in WS by (destruct (tr_rc t); reflexivity).
      cbn [rotate_surface sf_law] in WS. apply WS. exists (rot (- theta) (y, z)), (rot (- theta) (y, z)). split; [exact HV'|]. split; [exact HV'|].
      unfold rot. cbn [fst snd]. rewrite cos_neg, sin_neg. lra.
    - assert (HB' : In (rotate_bar (- theta) x) (cg_bars gr)) by (apply in_map; exact HB). specialize (WB _ HB').
      replace (if tr_rc t then false else false) with false in WB by (destruct (tr_rc t); reflexivity).
      cbn [rotate_bar br_law br_z] in WB. unfold rot in WB. cbn [fst snd] in WB. rewrite cos_neg, sin_neg in WB.
      replace (- sin theta * br_y x + cos theta * br_z x) with (cos theta * br_z x - sin theta * br_y x) in WB by ring. exact WB. }
  assert (EB : forall z, strain_at b z = p_e0 b + p_ky b * z) by reflexivity.
  split; [exists c; rewrite E2, E3; repeat split; lra|]. split.
  - intros y z k P LC LT. rewrite ST. specialize (PG y z k P). set (zz := cos theta * z - sin theta * y) in *.
    destruct (mixture (p_ky b) c) as (l & L & CL); [lra|lra|].
    assert (ORD : strain_at b yn <= strain_at b yp). { rewrite !EB. assert (p_ky b * (yn - yp) <= 0); [|lra]. rewrite <- (Rmult_0_l (yn - yp)). apply Rmult_le_compat_r; lra. }
    assert (MIX : forall pv, e + c * pv = p_e0 b + p_ky b * pv -> e + c * zz = (1 - l) * strain_at b pv + l * strain_at b zz).
    { intros pv X. rewrite !EB. replace e with (p_e0 b + p_ky b * pv - c * pv) by lra. rewrite CL. ring. }
    assert (CONV : forall u lo hi w, lo <= u <= hi -> lo <= w <= hi -> lo <= (1 - l) * u + l * w <= hi).
    { intros u lo hi w UU WW. split.
      - replace lo with ((1 - l) * lo + l * lo) by ring. apply Rplus_le_compat; apply Rmult_le_compat_l; lra.
      - replace hi with ((1 - l) * hi + l * hi) by ring. apply Rplus_le_compat; apply Rmult_le_compat_l; lra. }
    destruct TH as [TH|TH]; rewrite (MIX _ TH); apply CONV; lra.
  - assert (FB : forall pv, e + c * pv = p_e0 b + p_ky b * pv -> forall y z, cos theta * z - sin theta * y = pv -> strain_in (profile_of r) y z = strain_at b pv).
    { intros pv X y z Y. rewrite ST, Y. exact X. }
    replace (if tr_rc t then false else false) with false in AC by (destruct (tr_rc t); reflexivity).
    assert (SV : forall v0, snd (rot (- theta) v0) = cos theta * snd v0 - sin theta * fst v0) by (intros v0; unfold rot; cbn [fst snd]; rewrite cos_neg, sin_neg; ring).
    destruct TH as [TH|TH].
    + destruct AT as [(x & v & HS & HV & ZV & SA)|(x & HB & ZV & SA)].
      * apply in_map_iff in HS. destruct HS as (s0 & <- & HS). cbn [rotate_surface sf_ext sf_law] in HV, SA. apply in_map_iff in HV. destruct HV as (v0 & <- & HV).
        exists (fst v0), (snd v0), (sf_law s0). split; [left; exists s0, v0; repeat split; try assumption; destruct v0; reflexivity|]. right. rewrite <- SA. apply (FB _ TH). rewrite <- SV. exact ZV.
      * apply in_map_iff in HB. destruct HB as (x0 & <- & HB). cbn [rotate_bar br_law br_z] in ZV, SA. rewrite SV in ZV. cbn [fst snd] in ZV.
        exists (br_y x0), (br_z x0), (br_law x0). split; [right; exists x0; repeat split; assumption|]. right. rewrite <- SA. apply (FB _ TH). exact ZV.
    + destruct AC as [(x & v & HS & HV & ZV & SA)|(x & HB & ZV & SA)].
      * apply in_map_iff in HS. destruct HS as (s0 & <- & HS). cbn [rotate_surface sf_ext sf_law] in HV, SA. apply in_map_iff in HV. destruct HV as (v0 & <- & HV).
        exists (fst v0), (snd v0), (sf_law s0). split; [left; exists s0, v0; repeat split; try assumption; destruct v0; reflexivity|]. left. rewrite <- SA. apply (FB _ TH). rewrite <- SV. exact ZV.
      * apply in_map_iff in HB. destruct HB as (x0 & <- & HB). cbn [rotate_bar br_law br_z] in ZV, SA. rewrite SV in ZV. cbn [fst snd] in ZV.
        exists (br_y x0), (br_z x0), (br_law x0). split; [right; exists x0; repeat split; assumption|]. left. rewrite <- SA. apply (FB _ TH). exact ZV.
Qed.
Print Assumptions C47_ultimate_state.
(** Fibre sections, after any history: under the conditions of C23, in the
    user's axes, the axial force returned balances the applied load. *)
Theorem C47_balanced : forall laws mesher t ms g ops s theta n r s' yn yp b pv,
  (forall k, batched (laws k)) -> cg_surf g <> [] \/ cg_bars g <> [] -> 0 < ms <= 1 -> (forall o, In o ops -> meshed o) ->
  history (fiber_integ laws mesher) t ms g ops s ->
  bending_strength (fiber_integ laws mesher) t ms g theta n s = (Ok r, s') ->
  balanced (tr_rc t) false (items_of t (rotate_geo (- theta) g)) = Ok (yn, yp, b) ->
  let N := axial_turned (section_fibres laws (fun x => mesher x (surface_area x * ms)) g) theta in
  let H c := N (strain_at b pv - c * pv) c in
  let n0 := N (p_e0 b) (p_ky b) in
  (n0 < n /\ pv = yp \/ n <= n0 /\ pv = yn) ->
  (n0 - n) * (H (- / 10 ^ 13) - n) < 0 ->
  (forall c, grid (p_ky b) (- / 10 ^ 13 - p_ky b) c -> H c <> n) ->
  balances n (rs_n r).
Proof.
  intros laws mesher t ms g ops s theta n r s' yn yp b pv B NE M HO HI E BA N H n0 PV SG NG.
  pose proof (C47_equilibrium laws mesher t ms g ops s theta n r s' B NE M HO HI E) as EQL.
  destruct (strength_inv _ _ _ _ _ _ _ _ _ E) as (s1 & s2 & s3 & p & F & C & RD & FP & FN & EP & EF).
  destruct (checked laws mesher t ms g ops s n s1 B M (fun o Ho => or_introl (HO o Ho)) HI C) as (d & D & T & SD & EQ).
  pose proof (nonempty_data _ _ _ _ NE T) as DN. unfold rotate_data in RD. injection RD as <-. rewrite SD in FP. cbn [option_map] in FP.
  rewrite (eqd_rotate (- theta) d D EQ) in FP. set (s2 := {| st_data := _; st_lim := _ |}) in FP.
  assert (RN : map (rotate_group (- theta)) D <> []) by (intros X; apply map_eq_nil in X; contradiction).
  rewrite (pivot_data laws mesher t ms _ n false s2 _ yn yp b B RN eq_refl BA) in FP. injection FP as FP _.
  assert (AX : forall e c, axial (group_fibres laws (map (rotate_group (- theta)) D)) e c 0 = N e c).
  { intros e c. apply axial_back; assumption. }
  destruct (pivot_gen 100 _ n yn yp (p_e0 b) (p_ky b) _) as [[e c]|] eqn:PG; [|discriminate]. cbn [rmap fst snd] in FP. injection FP as <-.
  rewrite AX in PG. assert (P2 : pivot_of n yn yp (N (p_e0 b) (p_ky b)) = pv).
  { unfold pivot_of. fold n0. destruct (Rltb_spec n0 n); destruct PV as [(? & ->)|(? & ->)]; try reflexivity; exfalso; lra. }
  destruct (pivot_gen_sound 100 (fun e c => Ok (axial (group_fibres laws (map (rotate_group (- theta)) D)) e c 0)) H n yn yp (p_e0 b) (p_ky b) (N (p_e0 b) (p_ky b)) e c) with (5 := PG) as (EE & BL); rewrite ?P2.
  - intros x. unfold H. rewrite AX. reflexivity.
  - unfold H, strain_at. f_equal. unfold p_e0, p_ky. ring.
  - replace (H (p_ky b)) with n0; [exact SG|]. unfold n0, H, strain_at. f_equal. unfold p_e0, p_ky. ring.
  - exact NG.
  - rewrite P2 in EE. unfold equilibrates, forces_of, profile_of in EQL. rewrite EP in EQL. unfold back in EQL. cbn [fst snd] in EQL.
    injection EQL as EN _ _. rewrite EN. replace (cos theta * c - sin theta * 0) with (cos theta * c) by ring. replace (sin theta * c + cos theta * 0) with (sin theta * c) by ring.
    unfold H, N, axial_turned in BL. replace (strain_at b pv - c * pv) with e in BL by exact EE. exact BL.
Qed.
Print Assumptions C47_balanced.
(** In that situation a load within the limits is always solved, if the axial
    force depends Lipschitz-continuously on the curvature. *)
Theorem C47_solves : forall laws mesher t ms g ops s theta n yn yp b pv L nmin nmax s1,
  (forall k, batched (laws k)) -> cg_surf g <> [] \/ cg_bars g <> [] -> 0 < ms <= 1 -> (forall o, In o ops -> meshed o) ->
  history (fiber_integ laws mesher) t ms g ops s ->
  limits (fiber_integ laws mesher) t ms g s = (Ok (nmin, nmax), s1) -> nmin <= n <= nmax ->
  balanced (tr_rc t) false (items_of t (rotate_geo (- theta) g)) = Ok (yn, yp, b) ->
  let N := axial_turned (section_fibres laws (fun x => mesher x (surface_area x * ms)) g) theta in
  let H c := N (strain_at b pv - c * pv) c in
  let n0 := N (p_e0 b) (p_ky b) in
  (n0 < n /\ pv = yp \/ n <= n0 /\ pv = yn) ->
  (n0 - n) * (H (- / 10 ^ 13) - n) < 0 ->
  (forall c, grid (p_ky b) (- / 10 ^ 13 - p_ky b) c -> H c <> n) ->
  lipschitz L H -> L * Rabs (p_ky b + / 10 ^ 13) <= 10 ^ 27 ->
  exists r s', bending_strength (fiber_integ laws mesher) t ms g theta n s = (Ok r, s').
Proof.
  intros laws mesher t ms g ops s theta n yn yp b pv L nmin nmax s1 B NE M HO HI LI NB BA N H n0 PV SG NG LP LB.
  assert (C : check_axial (fiber_integ laws mesher) t ms g n s = (Ok tt, s1)).
  { rewrite (C28_check _ _ _ _ _ _ _ _ _ LI). destruct (Rlt_dec n nmin); [exfalso; lra|]. destruct (Rlt_dec nmax n); [exfalso; lra|]. reflexivity. }
  destruct (checked laws mesher t ms g ops s n s1 B M (fun o Ho => or_introl (HO o Ho)) HI C) as (d & D & T & SD & EQ).
  pose proof (nonempty_data _ _ _ _ NE T) as DN.
  assert (RN : map (rotate_group (- theta)) D <> []) by (intros X; apply map_eq_nil in X; contradiction).
  assert (AX : forall e c, axial (group_fibres laws (map (rotate_group (- theta)) D)) e c 0 = N e c) by (intros e c; apply axial_back; assumption).
  assert (P2 : pivot_of n yn yp (N (p_e0 b) (p_ky b)) = pv).
  { unfold pivot_of. fold n0. destruct (Rltb_spec n0 n); destruct PV as [(? & ->)|(? & ->)]; try reflexivity; exfalso; lra. }
  destruct (pivot_gen_finds (fun e c => Ok (axial (group_fibres laws (map (rotate_group (- theta)) D)) e c 0)) H n yn yp (p_e0 b) (p_ky b) (N (p_e0 b) (p_ky b)) L) as (e & c & PG); rewrite ?P2.
  - intros x. unfold H. rewrite AX. reflexivity.
  - unfold H, strain_at. f_equal. unfold p_e0, p_ky. ring.
  - exact LP.
  - replace (p_ky b - - / 10 ^ 13) with (p_ky b + / 10 ^ 13) by ring. exact LB.
  - replace (H (p_ky b)) with n0; [exact SG|]. unfold n0, H, strain_at. f_equal. unfold p_e0, p_ky. ring.
  - exact NG.
  - unfold bending_strength, abind. rewrite C. unfold rotate_data at 1. rewrite SD. cbn [option_map]. rewrite (eqd_rotate (- theta) d D EQ).
    set (s2 := {| st_data := Some (map (rotate_group (- theta)) D); st_lim := st_lim s1 |}).
    rewrite (pivot_data laws mesher t ms _ n false s2 _ yn yp b B RN eq_refl BA). rewrite AX, PG. cbn [rmap fst snd].
    rewrite (forces_n_data laws mesher _ _ _ _ s2 B RN eq_refl). unfold resultants. eexists. eexists. reflexivity.
Qed.
Print Assumptions C47_solves.
(** A load outside the axial limits is always refused. *)
Theorem C47_refused : forall ig t ms g s theta n nmin nmax s1,
  limits ig t ms g s = (Ok (nmin, nmax), s1) -> n < nmin \/ nmax < n ->
  bending_strength ig t ms g theta n s = (Err ValueError, s1).
Proof.
  intros ig t ms g s theta n nmin nmax s1 L O. unfold bending_strength, abind. rewrite (C28_check _ _ _ _ _ _ _ _ _ L).
  destruct (Rlt_dec n nmin); [reflexivity|]. destruct (Rlt_dec nmax n); [reflexivity|]. exfalso. lra.
Qed.
Print Assumptions C47_refused.

(** * C48: moment-curvature *)
(** Fibre sections, after any history: one point per requested curvature, in
    order; the curvature of each point is the requested one about the axis turned
    by theta, and its moments are those of the section's own fibres under the
    profile returned, in the user's axes. *)
Theorem C48_points : forall laws mesher t ms g ops s theta n chi_first npre npost chis l s',
  (forall k, batched (laws k)) -> cg_surf g <> [] \/ cg_bars g <> [] -> 0 < ms <= 1 -> (forall o, In o ops -> meshed o) ->
  history (fiber_integ laws mesher) t ms g ops s ->
  moment_curvature (fiber_integ laws mesher) t ms g theta n chi_first npre npost (Some chis) s = (Ok l, s') ->
  let F := section_fibres laws (fun x => mesher x (surface_area x * ms)) g in
  Forall2 (fun c x => exists e n', pt_profile x = (e, cos theta * c, sin theta * c) /\
                        equilibrates F (pt_profile x) (n', fst (pt_moments x), snd (pt_moments x))) chis l.
Proof.
  intros laws mesher t ms g ops s theta n c1 a b chis l s' B NE M HO HI E F.
  destruct (moment_inv _ _ _ _ _ _ _ _ _ _ _ _ _ E) as (s1 & s2 & s3 & cs & pts & s4 & C & RD & (-> & ->) & CP & ->).
  destruct (checked laws mesher t ms g ops s n s1 B M (fun o Ho => or_introl (HO o Ho)) HI C) as (d & D & T & SD & EQ).
  pose proof (nonempty_data _ _ _ _ NE T) as DN. unfold rotate_data in RD. injection RD as <-. rewrite SD in CP. cbn [option_map] in CP.
  rewrite (eqd_rotate (- theta) d D EQ) in CP. set (s2 := {| st_data := _; st_lim := _ |}) in CP.
  assert (RN : map (rotate_group (- theta)) D <> []) by (intros X; apply map_eq_nil in X; contradiction).
  destruct (points_data laws mesher _ n _ B RN chis 0 s2 pts s4 eq_refl CP) as (_ & F2 & _).
  clear CP E. induction F2 as [|c x chis pts P F2 IH]; cbn [map]; constructor; [|exact IH].
  destruct x as [[[c' e] My] Mz]. destruct P as (-> & PM). injection PM as -> ->.
  exists e, (axial F e (cos theta * c) (sin theta * c)). unfold pt_profile, pt_moments. cbn [fst snd].
  pose proof (moments_back laws mesher g ms D theta e c B NE T) as MB. cbv zeta in MB. injection MB as M1 M2. rewrite M1, M2.
  replace (cos theta * c - sin theta * 0) with (cos theta * c) by ring. replace (sin theta * c + cos theta * 0) with (sin theta * c) by ring.
  split; reflexivity.
Qed.
Print Assumptions C48_points.
(** For materials whose stress never decreases with strain, unless a point of
    the search meets the load exactly, every point balances the applied axial load. *)
Theorem C48_balanced : forall laws mesher t ms g ops s theta n chi_first npre npost chis l s',
  (forall k, batched (laws k)) -> (forall k, nondecreasing (lw_stress (laws k))) -> (forall b, In b (cg_bars g) -> 0 <= br_area b) ->
  cg_surf g <> [] \/ cg_bars g <> [] -> 0 < ms <= 1 -> (forall o, In o ops -> meshed o) ->
  history (fiber_integ laws mesher) t ms g ops s ->
  moment_curvature (fiber_integ laws mesher) t ms g theta n chi_first npre npost (Some chis) s = (Ok l, s') ->
  let F := section_fibres laws (fun x => mesher x (surface_area x * ms)) g in
  (forall c e, In c chis -> grid 0 (1/1000) e -> axial_turned F theta e c <> n) ->
  Forall (fun x => let '(e, ky, kz) := pt_profile x in balances n (axial F e ky kz)) l.
Proof.
  intros laws mesher t ms g ops s theta n c1 a b chis l s' B MO HB NE M HO HI E F NG.
  destruct (moment_inv _ _ _ _ _ _ _ _ _ _ _ _ _ E) as (s1 & s2 & s3 & cs & pts & s4 & C & RD & (-> & ->) & CP & ->).
  destruct (checked laws mesher t ms g ops s n s1 B M (fun o Ho => or_introl (HO o Ho)) HI C) as (d & D & T & SD & EQ).
  pose proof (nonempty_data _ _ _ _ NE T) as DN. unfold rotate_data in RD. injection RD as <-. rewrite SD in CP. cbn [option_map] in CP.
  rewrite (eqd_rotate (- theta) d D EQ) in CP. set (s2 := {| st_data := _; st_lim := _ |}) in CP.
  assert (RN : map (rotate_group (- theta)) D <> []) by (intros X; apply map_eq_nil in X; contradiction).
  destruct (points_data laws mesher _ n _ B RN chis 0 s2 pts s4 eq_refl CP) as (_ & F2 & BAL).
  assert (AX : forall e c, axial (group_fibres laws (map (rotate_group (- theta)) D)) e c 0 = axial F e (cos theta * c) (sin theta * c)).
  { intros e c. apply axial_back; assumption. }
  assert (BB : Forall (fun x => let '(c', e', _, _) := x in balances n (axial (group_fibres laws (map (rotate_group (- theta)) D)) e' c' 0)) pts).
  { apply BAL.
    - intros c x HC G. rewrite AX. exact (NG c x HC G).
    - apply grid_start.
    - intros c _ x y XY. rewrite !AX. apply axial_mono; [apply section_good; assumption|]. intros f _. unfold plane_strain. lra. }
  clear - BB AX. induction BB as [|x pts P BB IH]; cbn [map]; constructor; [|exact IH].
  destruct x as [[[c e] My] Mz]. unfold pt_profile. cbn [fst snd]. rewrite AX in P.
  replace (cos theta * c - sin theta * 0) with (cos theta * c) by ring. replace (sin theta * c + cos theta * 0) with (sin theta * c) by ring. exact P.
Qed.
Print Assumptions C48_balanced.
(** In that situation all requested curvatures are solved, if for each of them
    the load lies between the axial forces at axial strain -262 and 262 and the
    axial force depends Lipschitz-continuously on the axial strain. *)
Theorem C48_solves : forall laws mesher t ms g ops s theta n chi_first npre npost chis nmin nmax s1,
  (forall k, batched (laws k)) -> (forall k, nondecreasing (lw_stress (laws k))) -> (forall b, In b (cg_bars g) -> 0 <= br_area b) ->
  cg_surf g <> [] \/ cg_bars g <> [] -> 0 < ms <= 1 -> (forall o, In o ops -> meshed o) ->
  history (fiber_integ laws mesher) t ms g ops s ->
  limits (fiber_integ laws mesher) t ms g s = (Ok (nmin, nmax), s1) -> nmin <= n <= nmax ->
  let N := axial_turned (section_fibres laws (fun x => mesher x (surface_area x * ms)) g) theta in
  (forall c, In c chis -> (exists L, lipschitz L (fun e => N e c) /\ L <= 10 ^ 24) /\ (forall e, grid 0 (1/1000) e -> N e c <> n) /\
     N (-262) c < n - 1/100 /\ n + 1/100 < N 262 c) ->
  exists l s', moment_curvature (fiber_integ laws mesher) t ms g theta n chi_first npre npost (Some chis) s = (Ok l, s') /\ length l = length chis.
Proof.
  intros laws mesher t ms g ops s theta n c1 a b chis nmin nmax s1 B MO HB NE M HO HI LI NB N HC.
  assert (C : check_axial (fiber_integ laws mesher) t ms g n s = (Ok tt, s1)).
  { rewrite (C28_check _ _ _ _ _ _ _ _ _ LI). destruct (Rlt_dec n nmin); [exfalso; lra|]. destruct (Rlt_dec nmax n); [exfalso; lra|]. reflexivity. }
  destruct (checked laws mesher t ms g ops s n s1 B M (fun o Ho => or_introl (HO o Ho)) HI C) as (d & D & T & SD & EQ).
  pose proof (nonempty_data _ _ _ _ NE T) as DN.
  assert (RN : map (rotate_group (- theta)) D <> []) by (intros X; apply map_eq_nil in X; contradiction).
  assert (AX : forall e c, axial (group_fibres laws (map (rotate_group (- theta)) D)) e c 0 = N e c) by (intros e c; apply axial_back; assumption).
  set (s2 := {| st_data := Some (map (rotate_group (- theta)) D); st_lim := st_lim s1 |}).
  destruct (points_solved laws mesher (rotate_geo (- theta) g) n _ B RN chis 0 s2 eq_refl (grid_start _ _) ltac:(lra)) as (pts & P).
  { intros c Hc. cbv zeta. destruct (HC c Hc) as ((L & LP & LB) & NG & LO & HH). rewrite !AX. split; [|split; [|split; [|split; assumption]]].
    - intros x y XY. rewrite !AX. apply axial_mono; [apply section_good; assumption|]. intros f _. unfold plane_strain. lra.
    - exists L. split; [|exact LB]. intros x y. rewrite !AX. exact (LP x y).
    - intros x G. rewrite AX. exact (NG x G). }
  pose proof (points_curvatures _ _ _ _ _ _ _ _ P) as PC.
  unfold moment_curvature, abind. rewrite C. unfold rotate_data at 1. rewrite SD. cbn [option_map]. rewrite (eqd_rotate (- theta) d D EQ). fold s2.
  unfold aret at 1. rewrite P. eexists. eexists. split; [reflexivity|]. rewrite map_length, <- PC, map_length. reflexivity.
Qed.
Print Assumptions C48_solves.
(** Without requested curvatures, whatever the integrator: with chi_u and chi_y the
    curvatures of the ultimate and of the yield state for this load (never of
    opposite sign), the curve has num_pre_yield points when there is no plastic
    branch, num_pre_yield + num_post_yield otherwise; all curvatures have the sign
    of the yield curvature, never decrease in magnitude, start at the requested
    first curvature (at chi_y / num_pre_yield if that is not before yield), pass
    exactly through the yield curvature at point num_pre_yield and end at the
    yield, respectively the ultimate curvature. *)
Theorem C48_automatic : forall ig t ms g s theta n chi_first npre npost l s',
  moment_curvature ig t ms g theta n chi_first npre npost None s = (Ok l, s') -> (2 <= npre)%nat -> (1 <= npost)%nat ->
  exists s1 s2 s3 su sy, fixed_pivot ig t ms (rotate_geo (- theta) g) n false s1 = (Ok su, s2) /\
    fixed_pivot ig t ms (rotate_geo (- theta) g) n true s2 = (Ok sy, s3) /\
    let cu := p_ky su in let cy := p_ky sy in
    (cy <> 0 -> exists (sg : R) (v : nat -> R), (sg = 1 \/ sg = -1) /\ cy = sg * Rabs cy /\ 0 <= cu * cy /\
       (forall i x, nth_error l i = Some x -> exists e, pt_profile x = (e, cos theta * (sg * v i), sin theta * (sg * v i))) /\
       (forall i j, (i <= j < length l)%nat -> 0 <= v i <= v j) /\
       v 0%nat = (if Rlt_dec (Rabs chi_first) (Rabs cy) then Rabs chi_first else Rabs cy / INR npre) /\
       v (npre - 1)%nat = Rabs cy /\
       ((length l = npre /\ Rabs cu <= Rabs cy + / 10 ^ 8) \/
        (length l = (npre + npost)%nat /\ Rabs cy + / 10 ^ 8 < Rabs cu /\ sg * v (length l - 1)%nat = cu))).
Proof.
  intros ig t ms g s theta n c1 a b l s' E A2 B1.
  destruct (moment_inv _ _ _ _ _ _ _ _ _ _ _ _ _ E) as (s1 & s2 & s3 & cs & pts & s4 & C & RD & (su & sy & su' & PU & PY & AU) & CP & ->).
  exists s2, su', s3, su, sy. split; [exact PU|]. split; [exact PY|]. intros cu cy NZ.
  destruct (auto_spec cu cy c1 a b cs AU A2 B1 NZ) as (sg & v & SG & HY & SS & NT & MO & LE & VY & V0 & VU).
  pose proof (points_curvatures _ _ _ _ _ _ _ _ CP) as PC.
  assert (LL : length pts = length cs) by (rewrite <- PC, map_length; reflexivity).
  exists sg, v. rewrite map_length, LL. split; [exact SG|]. split; [exact HY|]. split; [lra|]. split; [|split; [exact MO|split; [|split; [exact VY|]]]].
  - intros i x X. rewrite nth_error_map in X. destruct (nth_error pts i) as [[[[c e] My] Mz]|] eqn:NE; [|discriminate]. cbn [option_map] in X. injection X as <-.
    assert (I : (i < length pts)%nat) by (apply nth_error_Some; congruence).
    assert (CI : nth i cs 0 = c).
    { rewrite <- PC. change 0 with ((fun x : R * R * R * R => fst (fst (fst x))) (0, 0, 0, 0)). rewrite map_nth. rewrite (nth_error_nth pts i (0, 0, 0, 0) NE). reflexivity. }
    rewrite NT in CI by lia. exists e. unfold pt_profile. cbn [fst snd]. rewrite CI. f_equal; [f_equal|]; ring.
  - rewrite V0. destruct (Rltb_spec (Rabs c1) (Rabs cy)), (Rlt_dec (Rabs c1) (Rabs cy)); try reflexivity; contradiction.
  - destruct (Rleb_spec (Rabs cu) (Rabs cy + / 10 ^ 8)) as [L|L]; [left; split; [exact LE|exact L]|right]. apply Rnot_le_lt in L. split; [exact LE|]. split; [exact L|]. rewrite LE. apply VU. reflexivity.
Qed.
Print Assumptions C48_automatic.

(** * C49: biaxial interaction domain *)
(** Fibre sections, after any history: the domain has num_theta points; point i
    carries the applied load, and the moments and the strain profile that a new
    calculator returns as bending strength for the angle 2 pi i / (num_theta - 1);
    the moments are those of the section's own fibres under that profile. *)
Theorem C49_points : forall laws mesher t ms g ops s n num_theta l s',
  (forall k, batched (laws k)) -> cg_surf g <> [] \/ cg_bars g <> [] -> 0 < ms <= 1 -> (forall o, In o ops -> meshed o) ->
  history (fiber_integ laws mesher) t ms g ops s ->
  mm_domain (fiber_integ laws mesher) t ms g n num_theta s = (Ok l, s') ->
  let F := section_fibres laws (fun x => mesher x (surface_area x * ms)) g in
  length l = num_theta /\
  forall i x, nth_error l i = Some x -> exists theta r s1, theta * (INR num_theta - 1) = 2 * PI * INR i /\ (num_theta = 1%nat -> theta = 0) /\
    bending_strength (fiber_integ laws mesher) t ms g theta n st_init = (Ok r, s1) /\
    x = ((n, rs_my r, rs_mz r), profile_of r) /\
    exists n', equilibrates F (snd x) (n', snd (fst (fst x)), snd (fst x)).
Proof.
  intros laws mesher t ms g ops s n k l s' B NE M HO HI E F. unfold mm_domain, abind in E.
  destruct (strengths (fiber_integ laws mesher) t ms g n (linspace 0 (PI * 2) k true) s) as [[q|] s1] eqn:ST; [|discriminate]. injection E as <- _.
  pose proof (strengths_points laws mesher t ms g n B M _ _ _ _ _ HO HI ST) as F2.
  assert (LQ : length q = k).
  { rewrite <- (linspace_length 0 (PI * 2) k true). clear - F2. induction F2 as [|? ? ? ? _ _ IH]; [reflexivity|]. cbn [length]. now rewrite IH. }
  rewrite map_length. split; [exact LQ|]. intros i x X. rewrite nth_error_map in X. destruct (nth_error q i) as [r|] eqn:NQ; [|discriminate]. injection X as <-.
  assert (I : (i < k)%nat) by (rewrite <- LQ; apply nth_error_Some; congruence).
  assert (PR : forall (ths : list R) q, Forall2 (fun th r => fst (bending_strength (fiber_integ laws mesher) t ms g th n st_init) = Ok r /\
      exists ops' s1 s2, (forall o, In o ops' -> meshed o) /\ history (fiber_integ laws mesher) t ms g ops' s1 /\
      bending_strength (fiber_integ laws mesher) t ms g th n s1 = (Ok r, s2)) ths q -> forall i r, nth_error q i = Some r ->
      let th := nth i ths 0 in fst (bending_strength (fiber_integ laws mesher) t ms g th n st_init) = Ok r /\
      exists ops' s1 s2, (forall o, In o ops' -> meshed o) /\ history (fiber_integ laws mesher) t ms g ops' s1 /\
      bending_strength (fiber_integ laws mesher) t ms g th n s1 = (Ok r, s2)).
  { clear. intros ths q F2. induction F2 as [|th r ths q P F2 IH]; intros [|i] r' N; cbn [nth_error nth] in *; try discriminate; [injection N as <-; exact P|apply IH; exact N]. }
  destruct (PR _ _ F2 i r NQ) as (FR & ops' & sa & sb & HO' & HI' & BS).
  rewrite linspace_nth in FR, BS by exact I.
  set (th := if (k =? 1)%nat then 0 else 0 + INR i * ((PI * 2 - 0) / (INR k - 1))) in *.
  destruct (bending_strength (fiber_integ laws mesher) t ms g th n st_init) as [r0 s0] eqn:B0. cbn [fst] in FR. subst r0.
  exists th, r, s0. split.
  { subst th. destruct (Nat.eqb_spec k 1) as [-> | N1].
    - replace i with 0%nat by lia. cbn [INR]. ring.
    - field. assert (2 <= INR k) by (apply (le_INR 2); lia). lra. }
  split; [intros ->; reflexivity|]. split; [exact B0|]. split; [reflexivity|].
  exists (rs_n r). cbn [fst snd]. exact (C47_equilibrium laws mesher t ms g ops' sa th n r sb B NE M HO' HI' BS).
Qed.
Print Assumptions C49_points.
(** The domain is a closed curve. *)
Theorem C49_closed : forall laws mesher t ms g ops s n num_theta l s',
  (forall k, batched (laws k)) -> cg_surf g <> [] \/ cg_bars g <> [] -> 0 < ms <= 1 -> (forall o, In o ops -> meshed o) ->
  history (fiber_integ laws mesher) t ms g ops s ->
  mm_domain (fiber_integ laws mesher) t ms g n num_theta s = (Ok l, s') -> (2 <= num_theta)%nat ->
  nth_error l 0 = nth_error l (num_theta - 1).
Proof.
  intros laws mesher t ms g ops s n k l s' B NE M HO HI E K2.
  destruct (C49_points laws mesher t ms g ops s n k l s' B NE M HO HI E) as (LL & PT). cbv zeta in PT.
  assert (KP : 2 <= INR k) by (apply (le_INR 2); exact K2).
  destruct (nth_error l 0) as [x|] eqn:X; [|apply nth_error_None in X; lia].
  destruct (nth_error l (k - 1)) as [y|] eqn:Y; [|apply nth_error_None in Y; lia].
  destruct (PT _ _ X) as (t0 & r0 & s0 & T0 & _ & B0 & -> & _). destruct (PT _ _ Y) as (t1 & r1 & s1 & T1 & _ & B1 & -> & _).
  assert (E0 : t0 = 0). { cbn [INR] in T0. apply (Rmult_eq_reg_r (INR k - 1)); lra. }
  assert (E1 : t1 = 2 * PI). { rewrite minus_INR in T1 by lia. change (INR 1) with 1 in T1. apply (Rmult_eq_reg_r (INR k - 1)); lra. }
  subst t0 t1. rewrite (strength_period _ _ _ _ _ (2 * PI) 0) in B1; [|rewrite cos_2PI, cos_0; reflexivity|rewrite sin_2PI, sin_0; reflexivity].
  rewrite B0 in B1. injection B1 as -> _. reflexivity.
Qed.
Print Assumptions C49_closed.

(** The hypotheses are met: two bars, elastic material, bent about the y axis. *)
Lemma two_bars_limits mesher : exists s1,
  limits (fiber_integ (stiff_laws 1000) mesher) (sym_traits (1/1000)) (1/10) (two_bars 1 1) st_init = (Ok (-2, 2), s1).
Proof.
  destruct (C28_extremes (stiff_laws 1000) mesher (sym_traits (1/1000)) (two_bars 1 1) (1/10) [] st_init 1 (-1) (0, - (1/1000), 0)) as (a & b & E & -> & -> & _).
  - apply stiff_batched.
  - intros k x y XY. cbn. unfold elastic_stress. cbn. lra.
  - intros x [<- | [<- | []]]; cbn; lra.
  - right; discriminate.
  - lra.
  - intros o [].
  - constructor.
  - exact (two_bars_balanced (1/1000) false 1 1 ltac:(cbn [pow]; lra)).
  - rewrite !two_bars_N in E. unfold strain_at in E. cbn [fst snd] in E.
    replace (1000 * ((0 + - (1/1000) * 1 + 0) * 1 + (0 + - (1/1000) * 1 - 0) * 1)) with (-2) in E by field.
    replace (1000 * ((0 + - (1/1000) * -1 + 0) * 1 + (0 + - (1/1000) * -1 - 0) * 1)) with 2 in E by field.
    destruct (limits _ _ _ _ _) as [r s1]. cbn [fst] in E. subst r. exists s1. reflexivity.
Qed.
Lemma turn_none g : rotate_geo (- 0) g = g.
Proof.
  assert (R0 : forall p, rot (- 0) p = p) by (intros (y & z); unfold rot; cbn [fst snd]; rewrite Ropp_0, cos_0, sin_0; f_equal; ring).
  destruct g as [ss bs]. unfold rotate_geo. cbn [cg_surf cg_bars]. f_equal.
  - rewrite <- (map_id ss) at 2. apply map_ext. intros [e i k]. unfold rotate_surface. cbn [sf_ext sf_ints sf_law]. f_equal; [rewrite <- (map_id e) at 2; apply map_ext; exact R0|].
    rewrite <- (map_id i) at 2. apply map_ext. intros r. rewrite <- (map_id r) at 2. apply map_ext. exact R0.
  - rewrite <- (map_id bs) at 2. apply map_ext. intros [y z a k]. unfold rotate_bar. cbn [br_y br_z br_area br_law]. rewrite R0. reflexivity.
Qed.
Lemma turned_none F e c : axial_turned F 0 e c = axial F e c 0.
Proof. unfold axial_turned. rewrite cos_0, sin_0. f_equal; ring. Qed.
Example C47_example mesher : exists r s',
  bending_strength (fiber_integ (stiff_laws 1000) mesher) (sym_traits (1/1000)) (1/10) (two_bars 1 1) 0 ((2 - 2 / 10 ^ 10) / 3) st_init = (Ok r, s') /\
  balances ((2 - 2 / 10 ^ 10) / 3) (rs_n r) /\
  equilibrates (section_fibres (stiff_laws 1000) (fun x => mesher x (surface_area x * (1/10))) (two_bars 1 1)) (profile_of r) (forces_of r).
Proof.
  assert (B : forall k, batched (stiff_laws 1000 k)) by apply stiff_batched.
  assert (NE : cg_surf (two_bars 1 1) <> [] \/ cg_bars (two_bars 1 1) <> []) by (right; discriminate).
  assert (HO : forall o : op, In o [] -> meshed o) by (intros o []).
  assert (HI : history (fiber_integ (stiff_laws 1000) mesher) (sym_traits (1/1000)) (1/10) (two_bars 1 1) [] st_init) by constructor.
  assert (BA : balanced (tr_rc (sym_traits (1/1000))) false (items_of (sym_traits (1/1000)) (rotate_geo (- 0) (two_bars 1 1))) = Ok (1, -1, (0, - (1/1000), 0))).
  { rewrite turn_none. exact (two_bars_balanced (1/1000) false 1 1 ltac:(cbn [pow]; lra)). }
  destruct (two_bars_limits mesher) as (s1 & LI).
  set (F := section_fibres (stiff_laws 1000) (fun x => mesher x (surface_area x * (1/10))) (two_bars 1 1)).
  assert (TB : forall e c, axial_turned F 0 e c = 1000 * ((e + c) * 1 + (e - c) * 1)) by (intros e c; rewrite turned_none; apply two_bars_N).
  set (n := (2 - 2 / 10 ^ 10) / 3).
  assert (PVC : axial_turned F 0 (p_e0 (0, - (1/1000), 0)) (p_ky (0, - (1/1000), 0)) < n /\ -1 = -1 \/ n <= axial_turned F 0 (p_e0 (0, - (1/1000), 0)) (p_ky (0, - (1/1000), 0)) /\ -1 = 1).
  { left. split; [|reflexivity]. rewrite TB. unfold n, p_e0, p_ky. cbn [fst snd pow]. lra. }
  assert (SGC : (axial_turned F 0 (p_e0 (0, - (1/1000), 0)) (p_ky (0, - (1/1000), 0)) - n) * (axial_turned F 0 (strain_at (0, - (1/1000), 0) (-1) - - / 10 ^ 13 * -1) (- / 10 ^ 13) - n) < 0).
  { rewrite !TB. unfold n, strain_at, p_e0, p_ky. cbn [fst snd pow]. lra. }
  assert (GC : forall c, grid (p_ky (0, - (1/1000), 0)) (- / 10 ^ 13 - p_ky (0, - (1/1000), 0)) c -> axial_turned F 0 (strain_at (0, - (1/1000), 0) (-1) - c * -1) c <> n).
  { intros c G. rewrite TB. unfold strain_at. cbn [fst snd]. replace (0 + - (1/1000) * -1) with (1/1000) by ring. exact (off_grid c G). }
  destruct (C47_solves (stiff_laws 1000) mesher (sym_traits (1/1000)) (1/10) (two_bars 1 1) [] st_init 0 n 1 (-1) (0, - (1/1000), 0) (-1) 2000 (-2) 2 s1 B NE ltac:(lra) HO HI LI
    ltac:(unfold n; cbn [pow]; lra) BA PVC SGC GC) as (r & s' & E).
  - intros x y. fold F. rewrite !TB. unfold strain_at. cbn [fst snd].
    match goal with |- Rabs ?a <= _ => replace a with (2000 * (x - y)) by ring end. rewrite Rabs_mult, (Rabs_pos_eq 2000) by lra. lra.
  - cbn [p_ky fst snd pow]. unfold Rabs. destruct (Rcase_abs _); lra.
  - exists r, s'. split; [exact E|]. split.
    + exact (C47_balanced (stiff_laws 1000) mesher (sym_traits (1/1000)) (1/10) (two_bars 1 1) [] st_init 0 n r s' 1 (-1) (0, - (1/1000), 0) (-1) B NE ltac:(lra) HO HI E BA PVC SGC GC).
    + exact (C47_equilibrium (stiff_laws 1000) mesher (sym_traits (1/1000)) (1/10) (two_bars 1 1) [] st_init 0 n r s' B NE ltac:(lra) HO HI E).
Qed.
Lemma third_off_grid x : grid 0 (1/1000) x -> 2000 * x <> 1/3.
Proof.
  intros (m & j & ->) E. rewrite Rplus_0_l in E. assert (P : 0 < 2 ^ j) by (apply pow_lt; lra).
  assert (Q : 6 * IZR m = 2 ^ j). { apply (Rmult_eq_reg_r (/ (2 ^ j))); [|apply Rinv_neq_0_compat; lra]. rewrite Rinv_r by lra. unfold Rdiv in E. lra. }
  rewrite pow_IZR, <- mult_IZR in Q. apply eq_IZR in Q.
  assert (D : (3 | 2 ^ Z.of_nat j)%Z) by (exists (2 * m)%Z; lia).
  clear - D. induction j as [|j IH].
  - cbn in D. destruct D as (q & D). lia.
  - rewrite Nat2Z.inj_succ, Z.pow_succ_r in D by lia. apply Znumtheory.Gauss in D; [now apply IH|]. apply Znumtheory.Zgcd_1_rel_prime. reflexivity.
Qed.
Example C48_example mesher : exists l s',
  moment_curvature (fiber_integ (stiff_laws 1000) mesher) (sym_traits (1/1000)) (1/10) (two_bars 1 1) 0 (1/3) 0 0 0 (Some [-1; 3]) st_init = (Ok l, s') /\ length l = 2%nat /\
  Forall (fun x => let '(e, ky, kz) := pt_profile x in balances (1/3) (2000 * e)) l.
Proof.
  assert (B : forall k, batched (stiff_laws 1000 k)) by apply stiff_batched.
  assert (MO : forall k, nondecreasing (lw_stress (stiff_laws 1000 k))) by (intros k x y XY; cbn; unfold elastic_stress; cbn; lra).
  assert (HB : forall b, In b (cg_bars (two_bars 1 1)) -> 0 <= br_area b) by (intros x [<- | [<- | []]]; cbn; lra).
  assert (NE : cg_surf (two_bars 1 1) <> [] \/ cg_bars (two_bars 1 1) <> []) by (right; discriminate).
  assert (HO : forall o : op, In o [] -> meshed o) by (intros o []).
  assert (HI : history (fiber_integ (stiff_laws 1000) mesher) (sym_traits (1/1000)) (1/10) (two_bars 1 1) [] st_init) by constructor.
  destruct (two_bars_limits mesher) as (s1 & LI).
  set (F := section_fibres (stiff_laws 1000) (fun x => mesher x (surface_area x * (1/10))) (two_bars 1 1)).
  assert (TB : forall e c, axial_turned F 0 e c = 2000 * e) by (intros e c; rewrite turned_none; transitivity (1000 * ((e + c) * 1 + (e - c) * 1)); [apply two_bars_N|ring]).
  destruct (C48_solves (stiff_laws 1000) mesher (sym_traits (1/1000)) (1/10) (two_bars 1 1) [] st_init 0 (1/3) 0 0 0 [-1; 3] (-2) 2 s1 B MO HB NE ltac:(lra) HO HI LI ltac:(lra)) as (l & s' & E & LL).
  - intros c _. fold F. split; [|split; [|rewrite !TB; lra]].
    + exists 2000. split; [|cbn [pow]; lra]. intros x y. rewrite !TB. replace (2000 * x - 2000 * y) with (2000 * (x - y)) by ring. rewrite Rabs_mult, (Rabs_pos_eq 2000) by lra. lra.
    + intros e G. rewrite TB. exact (third_off_grid e G).
  - exists l, s'. split; [exact E|]. split; [exact LL|].
    pose proof (C48_balanced (stiff_laws 1000) mesher (sym_traits (1/1000)) (1/10) (two_bars 1 1) [] st_init 0 (1/3) 0 0 0 [-1; 3] l s' B MO HB NE ltac:(lra) HO HI E) as BL. cbv zeta in BL. fold F in BL.
    pose proof (C48_points (stiff_laws 1000) mesher (sym_traits (1/1000)) (1/10) (two_bars 1 1) [] st_init 0 (1/3) 0 0 0 [-1; 3] l s' B NE ltac:(lra) HO HI E) as PT. cbv zeta in PT.
    assert (BL' := BL (fun c e _ G => eq_ind_r (fun v => v <> 1/3) (third_off_grid e G) (TB e c))). clear BL.
    revert BL' PT. generalize [-1; 3]. clear - TB. intros cs BL PT. revert cs PT. induction BL as [|x l P BL IH]; intros cs PT; constructor.
    + inversion PT as [|c y cs' l' (e & n' & PP & _) PT' EC EL]; subst. rewrite PP in *. pose proof (TB e c) as T. unfold axial_turned in T. rewrite T in P. exact P.
    + inversion PT; subst. eapply IH. eassumption.
Qed.
Example C49_example mesher : exists l s',
  mm_domain (fiber_integ (stiff_laws 1000) mesher) (sym_traits (1/1000)) (1/10) (two_bars 1 1) ((2 - 2 / 10 ^ 10) / 3) 2 st_init = (Ok l, s') /\ length l = 2%nat.
Proof.
  destruct (C47_example mesher) as (r & s1 & E & _). set (ig := fiber_integ (stiff_laws 1000) mesher) in *. set (n := (2 - 2 / 10 ^ 10) / 3) in *.
  assert (LS : linspace 0 (PI * 2) 2 true = [0; PI * 2]).
  { unfold linspace. cbn. f_equal. ring. }
  assert (HF := C24_fiber (stiff_laws 1000) mesher (sym_traits (1/1000)) (1/10) (two_bars 1 1) [OStrength 0 n] s1 (OStrength 0 n) (stiff_batched 1000) ltac:(lra)).
  assert (FF : fst (bending_strength ig (sym_traits (1/1000)) (1/10) (two_bars 1 1) 0 n s1) = Ok r).
  { assert (X : fst (run ig (sym_traits (1/1000)) (1/10) (two_bars 1 1) (OStrength 0 n) s1) = fst (run ig (sym_traits (1/1000)) (1/10) (two_bars 1 1) (OStrength 0 n) st_init)).
    { apply HF; [intros o [<- | [<- | []]]; exact I|]. apply (h_next _ _ _ _ [] st_init (OStrength 0 n) (AStrength r) s1 (h_new _ _ _ _)). cbn [run]. unfold amap. fold ig. rewrite E. reflexivity. }
    cbn [run] in X. unfold amap in X. rewrite E in X. cbn [fst rmap] in X. destruct (fst (bending_strength _ _ _ _ _ _ s1)); cbn [rmap] in X; [injection X as ->; reflexivity|discriminate]. }
  destruct (bending_strength ig (sym_traits (1/1000)) (1/10) (two_bars 1 1) 0 n s1) as [r2 s2] eqn:E2. cbn [fst] in FF. subst r2.
  unfold mm_domain. rewrite LS. cbn [strengths]. unfold abind. rewrite E.
  rewrite (strength_period _ _ _ _ _ (PI * 2) 0), E2; [|rewrite Rmult_comm, cos_2PI, cos_0; reflexivity|rewrite Rmult_comm, sin_2PI, sin_0; reflexivity].
  eexists. eexists. split; reflexivity.
Qed.
