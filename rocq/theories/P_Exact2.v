(** Property C54, continued: interaction domains with the exact (default) integrator. *)
From Coquelicot Require Import Coquelicot.
From Coq Require Import FunctionalExtensionality Lra Lia.
From Verif Require Import Base M_Marin S_Marin L_Marin M_Laws S_Laws L_Laws M_Laws2 S_Laws2 L_LawsC M_Fiber S_Fiber L_Fiber M_MarinInt S_MarinInt L_MarinInt L_MarinInt2 L_MarinInt3
  M_Section S_Section L_Section L_Section2 L_Section3 M_Domain S_Domain S_History L_History L_Section4 L_Section5 L_Section6 L_Domain2 S_Strength L_Strength P_Section P_Strength
  P_Fiber P_MarinInt M_Gross M_Geo M_Cracked S_Cracked L_Cracked L_Cracked7 P_Domain S_MarinInt S_Exact L_Exact L_Exact2 L_Exact3 P_Exact.

Section Profiles.
Variable laws : nat -> law.
Variable fs : nat -> R -> R.
Variable g : compound.
Hypothesis B : forall k, batched (laws k).
Hypothesis DR : drawn g.
Let data := map unscalar (bar_groups (cg_bars g)).
Let fits (p : profile) : Prop := let '(e0, ky, kz) := p in forall s, In s (cg_surf g) ->
  field_of (lw_marin (laws (sf_law s)) (e0, sqrt (kz ^ 2 + ky ^ 2))) (fs (sf_law s)) e0 (sqrt (kz ^ 2 + ky ^ 2)).
Let matches (p : profile) (F : R * R * R) : Prop := exists theta c, 0 <= c /\
  p = (fst (fst p), cos theta * c, sin theta * c) /\ F = exact_forces fs laws g theta (fst (fst p)) c.

Lemma profile_exact p : fits p -> exists F, marin_forces laws g p None = Ok (F, data) /\ matches p F.
Proof.
  destruct p as [[e0 ky] kz]. intros FI. destruct (C21_forces laws fs g e0 ky kz B) as (a & N & My & Mz & d & CA & SA & EF & EN & EY & EZ).
  - intros s I. destruct (proj1 DR s I). repeat split; try assumption; apply FI; exact I.
  - exact (proj2 DR).
  - pose proof (forces_data _ _ _ _ _ EF) as D. subst d. exists (N, My, Mz). split; [exact EF|]. exists (- a), (sqrt (kz ^ 2 + ky ^ 2)). cbn [fst snd].
    rewrite cos_neg, sin_neg. split; [apply sqrt_pos|].
    assert (KY : cos a * sqrt (kz ^ 2 + ky ^ 2) = ky) by lra. assert (KZ : - sin a * sqrt (kz ^ 2 + ky ^ 2) = kz) by lra.
    rewrite KY, KZ. split; [reflexivity|]. unfold exact_forces. rewrite cos_neg, sin_neg, KY, KZ, Ropp_involutive. cbv zeta. now rewrite EN, EY, EZ.
Qed.
Lemma all_exact m : forall ps s, (st_data s = None \/ st_data s = Some data) -> (forall p, In p ps -> fits p) ->
  exists Fs s', integrate_all (marin_integ laws) m g ps s = (Ok Fs, s') /\ Forall2 matches ps Fs.
Proof.
  induction ps as [|p ps IH]; intros s SD FI; cbn [integrate_all].
  - exists [], s. split; [reflexivity|constructor].
  - destruct (profile_exact p (FI p (or_introl eq_refl))) as (F & EF & MF).
    assert (E1 : marin_forces laws g p (st_data s) = Ok (F, data)) by (destruct SD as [-> | ->]; [exact EF|unfold data; rewrite forces_reuse by exact B; exact EF]).
    unfold abind, forces_k. cbn [marin_integ ig_forces]. rewrite E1.
    destruct (IH (keep_data data s)) as (Fs & s' & EI & F2); [|intros q I; apply FI; now right|].
    + right. unfold keep_data. destruct SD as [SD|SD]; rewrite ?SD; cbn [st_data]; first [reflexivity|exact SD].
    + rewrite EI. exists (F :: Fs), s'. split; [reflexivity|]. constructor; assumption.
Qed.
End Profiles.

(** Axial force - moment domain: the forces returned are, profile by profile, the
    exact resultants of the stresses under the strain profile returned with them. *)
Theorem C54_nm_forces : forall laws fs t ms g ops s theta f complete d s',
  (forall k, batched (laws k)) -> drawn g ->
  history (marin_integ laws) t ms g ops s ->
  nm_domain (marin_integ laws) t ms g theta f complete s = (Ok d, s') ->
  (forall e0 ky kz x, In (e0, ky, kz) (dm_strains d) -> In x (cg_surf g) ->
     field_of (lw_marin (laws (sf_law x)) (e0, sqrt (kz ^ 2 + ky ^ 2))) (fs (sf_law x)) e0 (sqrt (kz ^ 2 + ky ^ 2))) ->
  Forall2 (fun p F => exists a c, 0 <= c /\ p = (fst (fst p), cos a * c, sin a * c) /\
     F = exact_forces fs laws g a (fst (fst p)) c) (dm_strains d) (dm_forces d).
Proof.
  intros laws fs t ms g ops s theta f complete d s' B DR HI E FO.
  assert (E0 : exists s0, nm_domain (marin_integ laws) t ms g theta f complete st_init = (Ok d, s0)).
  { pose proof (C24_marin laws t ms g ops s (ONM theta f complete) B HI) as HF. cbn [run] in HF. unfold amap in HF. rewrite E in HF. cbn [fst rmap] in HF.
    destruct (nm_domain (marin_integ laws) t ms g theta f complete st_init) as [[d0|] s0]; [|discriminate]. cbn [fst rmap] in HF. injection HF as <-. eexists. reflexivity. }
  clear E HI s s' ops. destruct E0 as (s0 & E). unfold nm_domain, abind, alift in E.
  destruct (ultimate_profiles t g theta f) as [[ps nums]|]; [|discriminate].
  assert (G : forall u, (match integrate_all (marin_integ laws) (Some ms) g (fst u) st_init with
     | (Ok a, s'0) => aret {| dm_strains := fst u; dm_forces := a; dm_fields := snd u |} s'0 | (Err e, s'0) => (Err e, s'0) end) = (Ok d, s0) ->
     Forall2 (fun p F => exists a c, 0 <= c /\ p = (fst (fst p), cos a * c, sin a * c) /\ F = exact_forces fs laws g a (fst (fst p)) c) (dm_strains d) (dm_forces d)).
  { intros u X. destruct (integrate_all (marin_integ laws) (Some ms) g (fst u) st_init) as [[Fs|] s1] eqn:EI; [|discriminate]. injection X as X _. subst d. cbn [dm_strains dm_forces] in *.
    destruct (all_exact laws fs g B DR (Some ms) (fst u) st_init (or_introl eq_refl)) as (Fs' & s'' & EI' & F2).
    - intros [[e0 ky] kz] I x IX. exact (FO e0 ky kz x I IX).
    - rewrite EI in EI'. injection EI' as -> _. exact F2. }
  destruct complete.
  - destruct (ultimate_profiles t g (theta + PI) f) as [[qs nums']|]; [|discriminate]. exact (G _ E).
  - exact (G _ E).
Qed.
Print Assumptions C54_nm_forces.
(** The three-dimensional domain likewise. *)
Theorem C54_nmm_forces : forall laws fs t ms g ops s num_theta f d s',
  (forall k, batched (laws k)) -> drawn g ->
  history (marin_integ laws) t ms g ops s ->
  nmm_domain (marin_integ laws) t g num_theta f s = (Ok d, s') ->
  (forall e0 ky kz x, In (e0, ky, kz) (dm_strains d) -> In x (cg_surf g) ->
     field_of (lw_marin (laws (sf_law x)) (e0, sqrt (kz ^ 2 + ky ^ 2))) (fs (sf_law x)) e0 (sqrt (kz ^ 2 + ky ^ 2))) ->
  Forall2 (fun p F => exists a c, 0 <= c /\ p = (fst (fst p), cos a * c, sin a * c) /\
     F = exact_forces fs laws g a (fst (fst p)) c) (dm_strains d) (dm_forces d).
Proof.
  intros laws fs t ms g ops s k f d s' B DR HI E FO.
  assert (E0 : exists s0, nmm_domain (marin_integ laws) t g k f st_init = (Ok d, s0)).
  { pose proof (C24_marin laws t ms g ops s (ONMM k f) B HI) as HF. cbn [run] in HF. unfold amap in HF. rewrite E in HF. cbn [fst rmap] in HF.
    destruct (nmm_domain (marin_integ laws) t g k f st_init) as [[d0|] s0]; [|discriminate]. cbn [fst rmap] in HF. injection HF as <-. eexists. reflexivity. }
  clear E HI s s' ops. destruct E0 as (s0 & E). unfold nmm_domain, abind, alift in E.
  destruct (all_profiles t g f _ None) as [u|]; [|discriminate].
  destruct (integrate_all (marin_integ laws) None g (fst u) st_init) as [[Fs|] s1] eqn:EI; [|discriminate].
  destruct (snd u); [|discriminate]. injection E as E _. subst d. cbn [dm_strains dm_forces] in *.
  destruct (all_exact laws fs g B DR None (fst u) st_init (or_introl eq_refl)) as (Fs' & s'' & EI' & F2).
  - intros [[e0 ky] kz] I x IX. exact (FO e0 ky kz x I IX).
  - rewrite EI in EI'. injection EI' as -> _. exact F2.
Qed.
Print Assumptions C54_nmm_forces.

(** The domain of one side is returned whenever its strain profiles exist. *)
Theorem C54_nm_solves : forall laws fs t ms g ops s theta f ps nums,
  (forall k, batched (laws k)) -> drawn g ->
  history (marin_integ laws) t ms g ops s ->
  ultimate_profiles t g theta f = Ok (ps, nums) ->
  (forall e0 ky kz x, In (e0, ky, kz) ps -> In x (cg_surf g) ->
     field_of (lw_marin (laws (sf_law x)) (e0, sqrt (kz ^ 2 + ky ^ 2))) (fs (sf_law x)) e0 (sqrt (kz ^ 2 + ky ^ 2))) ->
  exists d s', nm_domain (marin_integ laws) t ms g theta f false s = (Ok d, s') /\ dm_strains d = ps.
Proof.
  intros laws fs t ms g ops s theta f ps nums B DR HI U FO.
  assert (E0 : exists d s0, nm_domain (marin_integ laws) t ms g theta f false st_init = (Ok d, s0) /\ dm_strains d = ps).
  { unfold nm_domain, abind, alift. rewrite U. unfold aret at 1.
    destruct (all_exact laws fs g B DR (Some ms) ps st_init (or_introl eq_refl)) as (Fs & s1 & EI & _).
    - intros [[e0 ky] kz] I x IX. exact (FO e0 ky kz x I IX).
    - cbn [fst snd]. rewrite EI. eexists. eexists. split; reflexivity. }
  destruct E0 as (d & s0 & E0 & DS).
  pose proof (C24_marin laws t ms g ops s (ONM theta f false) B HI) as HF. cbn [run] in HF. unfold amap in HF. rewrite E0 in HF. cbn [fst rmap] in HF.
  destruct (nm_domain (marin_integ laws) t ms g theta f false s) as [[d1|] s1]; [|discriminate]. cbn [fst rmap] in HF. injection HF as ->. exists d, s1. tauto.
Qed.
Print Assumptions C54_nm_solves.
(** The hypotheses are met: an elastic square. *)
Example C54_domain_example : exists d s', nm_domain (marin_integ (stiff_laws 1000)) (sym_traits (1/1000)) (1/10) square 0 default_fields false st_init = (Ok d, s') /\
  dm_strains d <> [] /\
  Forall2 (fun p F => exists a c, 0 <= c /\ p = (fst (fst p), cos a * c, sin a * c) /\
     F = exact_forces hooke (stiff_laws 1000) square a (fst (fst p)) c) (dm_strains d) (dm_forces d).
Proof.
  assert (DR : drawn square) by (split; [intros s [<- | []]; split; [reflexivity|intros ? []]|intros b b' []]).
  pose proof C29_example as X. cbv zeta in X. destruct X as (ps & nums & sb & U & NE & _).
  destruct (C54_nm_solves (stiff_laws 1000) hooke (sym_traits (1/1000)) (1/10) square [] st_init 0 default_fields ps nums (stiff_batched 1000) DR (h_new _ _ _ _) U
     (fun e0 ky kz x _ _ => hooke_field e0 _ (sf_law x))) as (d & s' & E & DS).
  exists d, s'. split; [exact E|]. split; [congruence|].
  exact (C54_nm_forces (stiff_laws 1000) hooke (sym_traits (1/1000)) (1/10) square [] st_init 0 default_fields false d s' (stiff_batched 1000) DR (h_new _ _ _ _) E
     (fun e0 ky kz x _ _ => hooke_field e0 _ (sf_law x))).
Qed.

Lemma strengths_marin laws t ms g n : (forall k, batched (laws k)) -> forall ths ops s l s',
  history (marin_integ laws) t ms g ops s ->
  strengths (marin_integ laws) t ms g n ths s = (Ok l, s') ->
  Forall2 (fun th r => fst (bending_strength (marin_integ laws) t ms g th n st_init) = Ok r) ths l.
Proof.
  intros B. induction ths as [|th ths IH]; intros ops s l s' H E; cbn [strengths] in E.
  - injection E as <- _. constructor.
  - unfold abind in E. destruct (bending_strength (marin_integ laws) t ms g th n s) as [[r|] s1] eqn:BS; [|discriminate].
    destruct (strengths (marin_integ laws) t ms g n ths s1) as [[q|] s2] eqn:ST; [|discriminate]. injection E as <- _.
    assert (RU : run (marin_integ laws) t ms g (OStrength th n) s = (Ok (AStrength r), s1)) by (cbn [run]; unfold amap; rewrite BS; reflexivity).
    constructor.
    + pose proof (C24_marin laws t ms g ops s (OStrength th n) B H) as HF. rewrite RU in HF. cbn [run] in HF. unfold amap in HF. cbn [fst] in HF.
      destruct (fst (bending_strength (marin_integ laws) t ms g th n st_init)) as [r0|]; cbn [rmap] in HF; [injection HF as ->; reflexivity|discriminate].
    + eapply (IH (ops ++ [OStrength th n]) s1); [eapply h_next; [exact H|exact RU]|exact ST].
Qed.
(** Moment - moment domain: one point per direction, equally spaced over the full
    turn; each is the bending strength a new calculator gives for that direction, with
    the exact moments of the profile returned with it. *)
Theorem C54_mm_points : forall laws fs t ms g ops s n num_theta l s',
  (forall k, batched (laws k)) -> drawn g -> follows laws fs g ->
  history (marin_integ laws) t ms g ops s ->
  mm_domain (marin_integ laws) t ms g n num_theta s = (Ok l, s') ->
  length l = num_theta /\
  forall i x, nth_error l i = Some x -> exists theta r s1, theta * (INR num_theta - 1) = 2 * PI * INR i /\ (num_theta = 1%nat -> theta = 0) /\
    bending_strength (marin_integ laws) t ms g theta n st_init = (Ok r, s1) /\
    x = ((n, rs_my r, rs_mz r), profile_of r) /\
    forall yn yp b, balanced (tr_rc t) false (items_of t (rotate_geo (- theta) g)) = Ok (yn, yp, b) -> p_ky b < 0 ->
      exists e c, c < 0 /\ snd x = (e, cos theta * c, sin theta * c) /\
        (snd (fst (fst x)), snd (fst x)) = (snd (fst (exact_forces fs laws g theta e c)), snd (exact_forces fs laws g theta e c)).
Proof.
  intros laws fs t ms g ops s n k l s' B DR FO HI E. unfold mm_domain, abind in E.
  destruct (strengths (marin_integ laws) t ms g n (linspace 0 (PI * 2) k true) s) as [[q|] s1] eqn:ST; [|discriminate]. injection E as <- _.
  pose proof (strengths_marin laws t ms g n B _ _ _ _ _ HI ST) as F2.
  assert (LQ : length q = k).
  { rewrite <- (linspace_length 0 (PI * 2) k true). clear - F2. induction F2 as [|? ? ? ? _ _ IH]; [reflexivity|]. cbn [length]. now rewrite IH. }
  rewrite map_length. split; [exact LQ|]. intros i x X. rewrite nth_error_map in X. destruct (nth_error q i) as [r|] eqn:NQ; [|discriminate]. injection X as <-.
  assert (I : (i < k)%nat) by (rewrite <- LQ; apply nth_error_Some; congruence).
  assert (PR : forall (ths : list R) q, Forall2 (fun th r => fst (bending_strength (marin_integ laws) t ms g th n st_init) = Ok r) ths q -> forall i r, nth_error q i = Some r ->
      fst (bending_strength (marin_integ laws) t ms g (nth i ths 0) n st_init) = Ok r).
  { clear. intros ths q F2. induction F2 as [|th r ths q P F2 IH]; intros [|i] r' N; cbn [nth_error nth] in *; try discriminate; [injection N as <-; exact P|apply IH; exact N]. }
  pose proof (PR _ _ F2 i r NQ) as FR. rewrite linspace_nth in FR by exact I.
  set (th := if (k =? 1)%nat then 0 else 0 + INR i * ((PI * 2 - 0) / (INR k - 1))) in *.
  destruct (bending_strength (marin_integ laws) t ms g th n st_init) as [r0 s0] eqn:B0. cbn [fst] in FR. subst r0.
  exists th, r, s0. split.
  { subst th. destruct (Nat.eqb_spec k 1) as [-> | N1].
    - assert (i = 0%nat) by lia. subst i. cbn [INR]. ring.
    - assert (1 < INR k) by (apply (lt_INR 1); lia). field. lra. }
  split; [intros ->; subst th; reflexivity|]. split; [exact B0|]. split; [reflexivity|].
  intros yn yp b BA NB. destruct (C54_strength_forces laws fs t ms g [] st_init th n r s0 yn yp b B DR FO (h_new _ _ _ _) B0 BA NB) as (c & NC & EP & EF).
  exists (rs_eps r), c. cbn [fst snd]. split; [exact NC|]. split; [exact EP|]. unfold forces_of in EF. rewrite <- EF. reflexivity.
Qed.
Print Assumptions C54_mm_points.
Example C54_mm_example : exists l s', mm_domain (marin_integ (stiff_laws 1000)) (sym_traits (1/1000)) (1/10) plate ((2 - 2 / 10 ^ 10) / 3) 1 st_init = (Ok l, s') /\ length l = 1%nat.
Proof.
  destruct C54_example as (r & s' & c & E & _). unfold mm_domain, abind.
  assert (L : linspace 0 (PI * 2) 1 true = [0]).
  { pose proof (linspace_length 0 (PI * 2) 1 true) as LL. destruct (linspace 0 (PI * 2) 1 true) as [|x [|]] eqn:Q; try discriminate LL.
    pose proof (linspace_nth 0 (PI * 2) 1 true 0 ltac:(lia)) as N. rewrite Q in N. cbn [nth Nat.eqb] in N. rewrite N. reflexivity. }
  rewrite L. cbn [strengths]. unfold abind, aret. rewrite E. eexists. eexists. split; reflexivity.
Qed.
