(** C58: moving, mirroring or redrawing the section. *)
From Coq Require Import Permutation FunctionalExtensionality Lra Lia.
From Coquelicot Require Import Coquelicot.
From Verif Require Import Base L_Cracked L_Section4 L_Cracked7 L_Exact P_Exact L_Laws2 M_Marin S_Marin L_Marin M_Laws S_Laws M_Laws2 S_Laws2 M_Fiber S_Fiber L_Fiber M_MarinInt L_MarinInt L_MarinInt2 L_MarinInt3 L_MarinInt4 L_Frame4 M_Section S_Section L_Section M_Domain S_History L_History
  P_Fiber P_MarinInt S_Frame P_Frame S_MarinInt S_Exact S_Turn L_Turn L_Turn2 L_Turn3 L_Turn4 P_Turn S_Move L_Move L_Move2 L_Move3 L_Move4 L_Move5 L_Move6 L_Move7.

(** * Any integrator *)
Section Generic.
Variables (ig : integ) (t : traits) (ms : R) (g g' : compound) (D D' : list group) (sg a b : R).
Hypothesis SG : sg = 1 \/ sg = -1.
Hypothesis CO : coherent ig g (Some ms) D.
Hypothesis CO' : coherent ig g' (Some ms) D'.
Hypothesis MV : moved sg a b g g'.
Hypothesis PF : forall p m, rmap fst (ig_forces ig g' (moved_profile sg a b p) (Some D') m) = rmap (moved_forces sg a b) (rmap fst (ig_forces ig g p (Some D) m)).
Hypothesis PR : forall phi phi', cos phi' = cos phi -> sin phi' = sg * sin phi -> let al := fst (rot phi' (a, b)) in let be := snd (rot phi' (a, b)) in forall p m,
  rmap fst (ig_forces ig (rotate_geo phi' g') (moved_profile sg al be p) (Some (map (rotate_group phi') D')) m) =
  rmap (moved_forces sg al be) (rmap fst (ig_forces ig (rotate_geo phi g) p (Some (map (rotate_group phi) D)) m)).
Hypothesis PK : forall p m, match ig_modulus ig g p (Some D) m, ig_modulus ig g' (moved_profile sg a b p) (Some D') m with
  | Ok (K, _), Ok (K', _) => moved_matrix sg a b K K' | Err e, Err e' => e = e' | _, _ => False end.
Let c0 : sstate := {| st_data := Some D; st_lim := None |}.
Let c0' : sstate := {| st_data := Some D'; st_lim := None |}.
Variables (ops ops' : list op) (s s' : sstate).
Hypothesis M : forall o, In o ops -> meshed o \/ coherent ig g None D.
Hypothesis M' : forall o, In o ops' -> meshed o \/ coherent ig g' None D'.
Hypothesis H : history ig t ms g ops s.
Hypothesis H' : history ig t ms g' ops' s'.
Let SR := history_srel ig t ms g D CO ops s M H.
Let SR' := history_srel ig t ms g' D' CO' ops' s' M' H'.
Lemma gen_forces p : fst (integrate_profile ig ms g' (moved_profile sg a b p) s') = rmap (moved_forces sg a b) (fst (integrate_profile ig ms g p s)).
Proof.
  unfold integrate_profile. rewrite (proj1 (forces_k_start ig t ms g D CO _ p CO _ _ SR)), (proj1 (forces_k_start ig t ms _ D' CO' _ (moved_profile sg a b p) CO' _ _ SR')).
  exact (proj1 (twin_k ig ms g D sg a b g g' D D' CO PF p (Some ms) c0 c0' (pairs0 D D'))).
Qed.
Lemma gen_tangent p : match fst (integrate_modulus ig ms g p s), fst (integrate_modulus ig ms g' (moved_profile sg a b p) s') with
  | Ok K, Ok K' => moved_matrix sg a b K K' | Err e, Err e' => e = e' | _, _ => False end.
Proof.
  rewrite (proj1 (modulus_good ig t ms g D CO p _ _ SR)), (proj1 (modulus_good ig t ms _ D' CO' (moved_profile sg a b p) _ _ SR')).
  unfold integrate_modulus. cbn [st_data]. specialize (PK p (Some ms)).
  destruct (ig_modulus ig g p (Some D) (Some ms)) as [[K d]|e], (ig_modulus ig g' (moved_profile sg a b p) (Some D') (Some ms)) as [[K' d']|e']; cbn [fst]; exact PK.
Qed.
Lemma gen_limits : fst (limits ig t ms g' s') = fst (limits ig t ms g s).
Proof.
  rewrite (proj1 (limits_good ig t ms g D CO _ _ SR)), (proj1 (limits_good ig t ms _ D' CO' _ _ SR')).
  apply (move_limits ig t ms g g' D D' sg a b CO CO' MV PF); try (left; reflexivity); eexists; (split; [reflexivity|apply eqd_refl]).
Qed.
Lemma gen_strength theta n : fst (bending_strength ig t ms g' (sg * theta) n s') = rmap (moved_strength sg a b) (fst (bending_strength ig t ms g theta n s)).
Proof.
  rewrite (proj1 (strength_good ig t ms g D CO theta n _ _ SR)), (proj1 (strength_good ig t ms _ D' CO' (sg * theta) n _ _ SR')).
  exact (move_strength ig t ms g g' D D' sg a b SG CO CO' MV PF PR theta n c0 c0' (ready0 ig t ms g g' D D')).
Qed.
Lemma gen_domain theta f c : near_origin g -> near_origin g' ->
  fst (nm_domain ig t ms g' (sg * theta) f c s') = rmap (moved_domain sg a b) (fst (nm_domain ig t ms g theta f c s)).
Proof.
  intros NO NO'. rewrite (proj1 (nm_good ig t ms g D CO theta f c _ _ SR)), (proj1 (nm_good ig t ms _ D' CO' (sg * theta) f c _ _ SR')).
  exact (move_domain ig t ms g g' D D' sg a b SG CO MV PF theta f c NO NO').
Qed.
Lemma strengths_each n : forall thetas u L, srel ig t ms g D u c0 -> fst (strengths ig t ms g n thetas u) = Ok L ->
  Forall2 (fun theta r => fst (bending_strength ig t ms g theta n s) = Ok r) thetas L.
Proof.
  induction thetas as [|th rest IH]; intros u L R E; cbn [strengths] in E; [injection E as <-; constructor|].
  destruct (strength_good ig t ms g D CO th n _ _ R) as (E1 & N1). unfold abind in E.
  destruct (bending_strength ig t ms g th n u) as [[r|e] v] eqn:B; [|discriminate]. cbn [fst snd] in E1, N1.
  pose proof (srel_drop _ _ _ _ _ _ _ (rel_srel _ _ _ _ _ _ _ (N1 r eq_refl))) as Rv.
  destruct (strengths ig t ms g n rest v) as [[q|e] w] eqn:Q; [|discriminate]. injection E as <-.
  constructor; [rewrite (proj1 (strength_good ig t ms g D CO th n _ _ SR)); symmetry; exact E1|]. apply (IH v q Rv). rewrite Q. reflexivity.
Qed.
Lemma gen_mm n k : sg = 1 -> 
  match fst (mm_domain ig t ms g n k s), fst (mm_domain ig t ms g' n k s') with
  | Ok l, Ok l' => exists L, Forall2 (fun theta r => fst (bending_strength ig t ms g theta n s) = Ok r) (linspace 0 (PI * 2) k true) L /\
      l = map (moved_mm 0 0 n) L /\ l' = map (moved_mm a b n) L
  | Err e, Err e' => e = e' | _, _ => False end.
Proof.
  intros Z. unfold mm_domain. set (thetas := linspace 0 (PI * 2) k true).
  pose proof (move_mm ig t ms g g' D D' sg a b SG CO CO' MV PF PR n Z thetas s s' SR SR') as X.
  pose proof (strengths_each n thetas s) as E. unfold abind.
  destruct (strengths ig t ms g n thetas s) as [[L|e] u], (strengths ig t ms g' n thetas s') as [[L'|e'] u']; cbn [fst rmap] in X; try discriminate; [|congruence].
  exists L. split; [exact (E L SR eq_refl)|]. assert (EL : L' = map (moved_strength sg a b) L) by congruence. rewrite EL, map_map. split; apply map_ext; intros r.
  - unfold moved_mm, moved_strength, moved_forces, moved_profile. cbn [fst snd rs_n rs_my rs_mz rs_eps rs_chiy rs_chiz]. apply f_equal2; apply pair3; ring.
  - rewrite Z. reflexivity.
Qed.
Lemma all_moved f : sg = 1 -> near_origin g -> near_origin g' -> forall thetas o,
  all_profiles t g' f thetas o = rmap (fun u => (map (moved_profile sg a b) (fst u), snd u)) (all_profiles t g f thetas o).
Proof.
  intros Z NO NO'. induction thetas as [|th rest IH]; intros o; [reflexivity|]. cbn [all_profiles].
  rewrite (ultimate_moved t sg a b g g' th th f SG MV NO NO' eq_refl ltac:(rewrite Z; ring)).
  destruct (ultimate_profiles t g th f) as [u|e]; cbn [rmap bind fst snd]; [|reflexivity]. rewrite IH.
  destruct (all_profiles t g f rest (Some (snd u))) as [v|e]; cbn [rmap bind fst snd]; [|reflexivity]. rewrite map_app. reflexivity.
Qed.
Lemma gen_nmm k f : coherent ig g None D -> coherent ig g' None D' -> sg = 1 -> near_origin g -> near_origin g' ->
  fst (nmm_domain ig t g' k f s') = rmap (moved_domain sg a b) (fst (nmm_domain ig t g k f s)).
Proof.
  intros CN CN' Z NO NO'. rewrite (proj1 (nmm_good ig t ms g D CO k f CN _ _ SR)), (proj1 (nmm_good ig t ms g' D' CO' k f CN' _ _ SR')).
  unfold nmm_domain. rewrite (all_moved f Z NO NO').
  refine (proj1 (twin_bind (pairs D D') (pairs D D') (fun _ _ => True) _ _ (fun u : list profile * option (list nat) => (map (moved_profile sg a b) (fst u), snd u)) _ _ _ _ _ c0 c0' (pairs0 D D'))).
  { apply twin_lift. reflexivity. }
  intros u. cbn [fst snd]. eapply twin_bind; [exact (twin_all ig ms g D sg a b g g' D D' CO PF None (fst u))|].
  intros F. apply (twin_weaken _ (pairs D D')); [trivial|]. destruct (snd u); [apply twin_ret; reflexivity|intros x y HP; split; [reflexivity|discriminate]].
Qed.
End Generic.

(** * Marin integrator *)
Section MarinMove.
Variables (laws : nat -> law) (fs ts : nat -> R -> R) (sg a b : R) (g g' : compound).
Hypothesis SG : sg = 1 \/ sg = -1.
Hypothesis MV : moved sg a b g g'.
Let D := map unscalar (bar_groups (cg_bars g)).
Let D' := map unscalar (bar_groups (cg_bars g')).
Lemma group_bars_place l : group_bars (map (place_bar sg a b) l) = map (fun kf => (fst kf, map (place_fibre sg a b) (snd kf))) (group_bars l).
Proof.
  assert (AB : forall d k f, add_bar (map (fun kf => (fst kf, map (place_fibre sg a b) (snd kf))) d) k (place_fibre sg a b f) =
     map (fun kf => (fst kf, map (place_fibre sg a b) (snd kf))) (add_bar d k f)).
  { induction d as [|[k0 f0] d IH]; intros k f; [reflexivity|]. cbn [map add_bar fst snd]. destruct (k0 =? k)%nat; cbn [map fst snd]; [rewrite map_app; reflexivity|rewrite IH; reflexivity]. }
  assert (GE : forall l d, fold_left (fun d b => add_bar d (br_law b) (fibre_of_bar b)) (map (place_bar sg a b) l) (map (fun kf => (fst kf, map (place_fibre sg a b) (snd kf))) d) =
    map (fun kf => (fst kf, map (place_fibre sg a b) (snd kf))) (fold_left (fun d b => add_bar d (br_law b) (fibre_of_bar b)) l d)).
  { induction l0 as [|x l0 IH]; intros d; [reflexivity|]. cbn [map fold_left]. rewrite <- IH. f_equal. rewrite <- AB. reflexivity. }
  exact (GE l []).
Qed.
Lemma data_placed : D' = map (place_group sg a b) D.
Proof.
  unfold D, D'. destruct MV as (_ & F). rewrite (bars_placed sg a b _ _ F). unfold bar_groups. rewrite group_bars_place, !map_map. apply map_ext. intros [k l]. reflexivity.
Qed.
Lemma good_stress : drawn g -> follows laws fs g -> steady laws g -> good_laws laws IStress fs (cg_surf g).
Proof. intros (DR & _) FO ST s I. destruct (DR s I) as (A & B). split; [exact A|]. split; [exact B|]. split; [intros e r; exact (FO s e r I)|intros e; exact (proj1 (ST s e I))]. Qed.
Lemma good_tangent : drawn g -> follows_tangent laws ts g -> steady laws g -> good_laws laws IModulus ts (cg_surf g).
Proof. intros (DR & _) FO ST s I. destruct (DR s I) as (A & B). split; [exact A|]. split; [exact B|]. split; [intros e r; exact (FO s e r I)|intros e; exact (proj2 (ST s e I))]. Qed.
Lemma good_rotated what phi : good_laws laws what fs (cg_surf g) -> good_laws laws what fs (cg_surf (rotate_geo phi g)).
Proof.
  intros G s I. cbn [rotate_geo cg_surf] in I. apply in_map_iff in I. destruct I as (s0 & <- & I). destruct (G s0 I) as (C & CI & X). split; [|split; [|exact X]].
  - cbn [rotate_surface sf_ext]. destruct (sf_ext s0) as [|q m]; [exact Logic.I|]. unfold closed in *. exact (eq_trans (last_map (rot phi) (q :: m) q) (f_equal (rot phi) C)).
  - cbn [rotate_surface sf_ints]. intros q Hq. apply in_map_iff in Hq. destruct Hq as (q0 & <- & Hq). specialize (CI q0 Hq).
    destruct q0 as [|q m]; [exact Logic.I|]. unfold closed in *. exact (eq_trans (last_map (rot phi) (q :: m) q) (f_equal (rot phi) CI)).
Qed.
Lemma marin_pf : good_laws laws IStress fs (cg_surf g) -> forall p (m : option R),
  rmap fst (marin_forces laws g' (moved_profile sg a b p) (Some D')) = rmap (moved_forces sg a b) (rmap fst (marin_forces laws g p (Some D))).
Proof. intros G p _. rewrite data_placed. exact (marin_move_forces laws fs sg a b g g' SG MV p D G). Qed.
Lemma marin_pr : good_laws laws IStress fs (cg_surf g) -> forall phi phi', cos phi' = cos phi -> sin phi' = sg * sin phi -> let al := fst (rot phi' (a, b)) in let be := snd (rot phi' (a, b)) in forall p (m : option R),
  rmap fst (marin_forces laws (rotate_geo phi' g') (moved_profile sg al be p) (Some (map (rotate_group phi') D'))) =
  rmap (moved_forces sg al be) (rmap fst (marin_forces laws (rotate_geo phi g) p (Some (map (rotate_group phi) D)))).
Proof.
  intros G phi phi' CC SS al be p _. rewrite data_placed, (group_rot sg a b phi phi' SG CC SS).
  exact (marin_move_forces laws fs sg al be _ _ SG (geo_rot sg a b phi phi' SG CC SS g g' MV) p _ (good_rotated IStress phi G)).
Qed.
Lemma marin_pk : good_laws laws IModulus ts (cg_surf g) -> forall p (m : option R), match marin_stiffness laws g p (Some D), marin_stiffness laws g' (moved_profile sg a b p) (Some D') with
  | Ok (K, _), Ok (K', _) => moved_matrix sg a b K K' | Err e, Err e' => e = e' | _, _ => False end.
Proof. intros G p _. rewrite data_placed. exact (marin_move_stiffness laws ts sg a b g g' SG MV p D G). Qed.
End MarinMove.

(** Forces, stiffness, limits, strength and domain of the moved or mirrored section. *)
Theorem C58_marin : forall laws fs t ms sg a b g g' ops s ops' s',
  (forall k, batched (laws k)) -> steady laws g -> drawn g -> follows laws fs g ->
  sg = 1 \/ sg = -1 -> moved sg a b g g' ->
  let ig := marin_integ laws in
  history ig t ms g ops s -> history ig t ms g' ops' s' ->
  (forall p, fst (integrate_profile ig ms g' (moved_profile sg a b p) s') = rmap (moved_forces sg a b) (fst (integrate_profile ig ms g p s))) /\
  (forall ts, follows_tangent laws ts g -> forall p,
     match fst (integrate_modulus ig ms g p s), fst (integrate_modulus ig ms g' (moved_profile sg a b p) s') with
     | Ok K, Ok K' => moved_matrix sg a b K K' | Err e, Err e' => e = e' | _, _ => False end) /\
  fst (limits ig t ms g' s') = fst (limits ig t ms g s) /\
  (forall theta n, fst (bending_strength ig t ms g' (sg * theta) n s') = rmap (moved_strength sg a b) (fst (bending_strength ig t ms g theta n s))) /\
  (near_origin g -> near_origin g' -> forall theta f complete,
     fst (nm_domain ig t ms g' (sg * theta) f complete s') = rmap (moved_domain sg a b) (fst (nm_domain ig t ms g theta f complete s))).
Proof.
  intros laws fs t ms sg a b g g' ops s ops' s' B ST DR FO SG MV ig H H'.
  pose proof (marin_coherent laws g (Some ms) B) as CO. pose proof (marin_coherent laws g' (Some ms) B) as CO'.
  assert (M : forall o, In o ops -> meshed o \/ coherent ig g None (map unscalar (bar_groups (cg_bars g)))) by (intros o _; right; exact (marin_coherent laws g None B)).
  assert (M' : forall o, In o ops' -> meshed o \/ coherent ig g' None (map unscalar (bar_groups (cg_bars g')))) by (intros o _; right; exact (marin_coherent laws g' None B)).
  pose proof (good_stress laws fs g DR FO ST) as G. pose proof (marin_pf laws fs sg a b g g' SG MV G) as PF. pose proof (marin_pr laws fs sg a b g g' SG MV G) as PR.
  split; [|split; [|split; [|split]]].
  - intros p. exact (gen_forces ig t ms g g' _ _ sg a b CO CO' PF ops ops' s s' M M' H H' p).
  - intros ts FT p. pose proof (marin_pk laws ts sg a b g g' SG MV (good_tangent laws ts g DR FT ST)) as PK.
    exact (gen_tangent ig t ms g g' _ _ sg a b CO CO' PK ops ops' s s' M M' H H' p).
  - exact (gen_limits ig t ms g g' _ _ sg a b CO CO' MV PF ops ops' s s' M M' H H').
  - intros theta n. exact (gen_strength ig t ms g g' _ _ sg a b SG CO CO' MV PF PR ops ops' s s' M M' H H' theta n).
  - intros NO NO' theta f c. exact (gen_domain ig t ms g g' _ _ sg a b SG CO CO' MV PF ops ops' s s' M M' H H' theta f c NO NO').
Qed.
Print Assumptions C58_marin.
(** The whole domain of axial force and both moments, and the moment-moment domain, of the moved section. *)
Theorem C58_marin_mm : forall laws fs t ms a b g g' ops s ops' s' n num_theta,
  (forall k, batched (laws k)) -> steady laws g -> drawn g -> follows laws fs g -> moved 1 a b g g' ->
  let ig := marin_integ laws in
  history ig t ms g ops s -> history ig t ms g' ops' s' ->
  match fst (mm_domain ig t ms g n num_theta s), fst (mm_domain ig t ms g' n num_theta s') with
  | Ok l, Ok l' => exists L, Forall2 (fun theta r => fst (bending_strength ig t ms g theta n s) = Ok r) (linspace 0 (PI * 2) num_theta true) L /\
      l = map (moved_mm 0 0 n) L /\ l' = map (moved_mm a b n) L
  | Err e, Err e' => e = e' | _, _ => False end /\
  (near_origin g -> near_origin g' -> forall f,
     fst (nmm_domain ig t g' num_theta f s') = rmap (moved_domain 1 a b) (fst (nmm_domain ig t g num_theta f s))).
Proof.
  intros laws fs t ms a b g g' ops s ops' s' n k B ST DR FO MV ig H H'. assert (SG : 1 = 1 \/ 1 = -1) by (left; reflexivity).
  pose proof (marin_coherent laws g (Some ms) B) as CO. pose proof (marin_coherent laws g' (Some ms) B) as CO'.
  assert (M : forall o, In o ops -> meshed o \/ coherent ig g None (map unscalar (bar_groups (cg_bars g)))) by (intros o _; right; exact (marin_coherent laws g None B)).
  assert (M' : forall o, In o ops' -> meshed o \/ coherent ig g' None (map unscalar (bar_groups (cg_bars g')))) by (intros o _; right; exact (marin_coherent laws g' None B)).
  pose proof (good_stress laws fs g DR FO ST) as G. pose proof (marin_pf laws fs 1 a b g g' SG MV G) as PF. pose proof (marin_pr laws fs 1 a b g g' SG MV G) as PR.
  split; [exact (gen_mm ig t ms g g' _ _ 1 a b SG CO CO' MV PF PR ops ops' s s' M M' H H' n k eq_refl)|]. intros NO NO' f.
  exact (gen_nmm ig t ms g g' _ _ 1 a b SG CO CO' MV PF ops ops' s s' M M' H H' k f (marin_coherent laws g None B) (marin_coherent laws g' None B) eq_refl NO NO').
Qed.
Print Assumptions C58_marin_mm.
(** Mirrored (sg = -1) or redrawn (sg = 1) about the same origin: also the
    moment-curvature relation and the strain profile under given forces. *)
Theorem C58_marin_mirror : forall laws fs ts t ms sg g g' ops s ops' s',
  (forall k, batched (laws k)) -> steady laws g -> drawn g -> follows laws fs g ->
  sg = 1 \/ sg = -1 -> moved sg 0 0 g g' ->
  let ig := marin_integ laws in
  history ig t ms g ops s -> history ig t ms g' ops' s' ->
  (forall theta n chi_first npre npost chis, fst (moment_curvature ig t ms g' (sg * theta) n chi_first npre npost chis s') =
     rmap (map (mirrored_point sg)) (fst (moment_curvature ig t ms g theta n chi_first npre npost chis s))) /\
  (follows_tangent laws ts g -> forall N My Mz initial max_iter tol,
     fst (strain_profile ig ms g' (N, My, sg * Mz) initial max_iter tol s') =
     rmap (fun p => let '(e, ky, kz) := p in (e, ky, sg * kz)) (fst (strain_profile ig ms g (N, My, Mz) initial max_iter tol s))).
Proof.
  intros laws fs ts t ms sg g g' ops s ops' s' B ST DR FO SG MV ig H H'.
  pose proof (marin_coherent laws g (Some ms) B) as CO. pose proof (marin_coherent laws g' (Some ms) B) as CO'.
  pose proof (marin_coherent laws g None B) as CN. pose proof (marin_coherent laws g' None B) as CN'.
  assert (M : forall o, In o ops -> meshed o \/ coherent ig g None (map unscalar (bar_groups (cg_bars g)))) by (intros o _; right; exact CN).
  assert (M' : forall o, In o ops' -> meshed o \/ coherent ig g' None (map unscalar (bar_groups (cg_bars g')))) by (intros o _; right; exact CN').
  pose proof (good_stress laws fs g DR FO ST) as G. pose proof (marin_pf laws fs sg 0 0 g g' SG MV G) as PF. pose proof (marin_pr laws fs sg 0 0 g g' SG MV G) as PR.
  pose proof (history_srel ig t ms g _ CO ops s M H) as SR. pose proof (history_srel ig t ms g' _ CO' ops' s' M' H') as SR'.
  split.
  - intros theta n cf x y l. rewrite (proj1 (moment_good ig t ms g _ CO theta n cf x y l _ _ SR)), (proj1 (moment_good ig t ms _ _ CO' (sg * theta) n cf x y l _ _ SR')).
    exact (mirror_curve ig t ms g g' _ _ sg SG CO CO' MV PF PR theta n cf x y l).
  - intros FT N My Mz i mx tol. pose proof (marin_pk laws ts sg 0 0 g g' SG MV (good_tangent laws ts g DR FT ST)) as PK.
    rewrite (proj1 (strain_good ig t ms g _ CO (N, My, Mz) i mx tol CN _ _ SR)), (proj1 (strain_good ig t ms _ _ CO' (N, My, sg * Mz) i mx tol CN' _ _ SR')).
    pose proof (mirror_strain ig ms g g' _ _ sg SG CO CO' PF PK (N, My, Mz) i mx tol) as X. unfold mir at 1 in X. cbn [fst snd] in X. etransitivity; [exact X|].
    match goal with |- rmap _ ?x = rmap _ ?y => change x with y; destruct y as [[[e ky] kz]|]; reflexivity end.
Qed.
Print Assumptions C58_marin_mirror.
(** A section that is its own mirror image, bent about the horizontal axis: no
    moment about the axis of symmetry and no curvature about it. *)
Theorem C58_symmetric : forall laws fs t ms g ops s n,
  (forall k, batched (laws k)) -> steady laws g -> drawn g -> follows laws fs g -> moved (-1) 0 0 g g ->
  let ig := marin_integ laws in
  history ig t ms g ops s ->
  (forall r, fst (bending_strength ig t ms g 0 n s) = Ok r -> rs_mz r = 0 /\ rs_chiz r = 0) /\
  (forall chi_first npre npost chis l, fst (moment_curvature ig t ms g 0 n chi_first npre npost chis s) = Ok l ->
     forall e cy cz my mz, In (e, cy, cz, my, mz) l -> mz = 0 /\ cz = 0).
Proof.
  intros laws fs t ms g ops s n B ST DR FO MV ig H. assert (SG : -1 = 1 \/ -1 = -1) by (right; reflexivity).
  destruct (C58_marin laws fs t ms (-1) 0 0 g g ops s ops s B ST DR FO SG MV H H) as (_ & _ & _ & ES & _).
  destruct (C58_marin_mirror laws fs fs t ms (-1) g g ops s ops s B ST DR FO SG MV H H) as (EC & _). split.
  - intros r E. specialize (ES 0 n). replace (-1 * 0) with 0 in ES by ring. unfold ig in E. rewrite E in ES. cbn [rmap] in ES. injection ES as ES.
    pose proof (f_equal rs_mz ES) as Z1. pose proof (f_equal rs_chiz ES) as Z2. unfold moved_strength, moved_forces, moved_profile in Z1, Z2. cbn [fst snd rs_mz rs_chiz] in Z1, Z2. lra.
  - intros cf x y l L E e cy cz my mz I. specialize (EC 0 n cf x y l). replace (-1 * 0) with 0 in EC by ring. unfold ig in E. rewrite E in EC. cbn [rmap] in EC. injection EC as EC. clear E.
    induction L as [|p L IH]; [destruct I|]. cbn [map] in EC. injection EC as EP EL. destruct I as [->|I]; [|exact (IH EL I)].
    unfold mirrored_point in EP. injection EP as E1 E2. lra.
Qed.
Print Assumptions C58_symmetric.

(** * Fibre integrator, when the mesh moves with the surface *)
Lemma entry_place sg a b f p x : sg * sg = 1 -> entry f (moved_profile sg a b p) (place_fibre sg a b x) = place_value sg a b (entry f p x).
Proof.
  intros S2. unfold entry, place_value, place_fibre, place, fibre_strain, moved_profile, p_e0, p_ky, p_kz. destruct p as [[e ky] kz]. cbn [fst snd fb_y fb_z fb_a].
  replace (e - ky * b + sg * kz * a - sg * kz * (sg * fb_y x + a) + ky * (fb_z x + b)) with (e - kz * fb_y x + ky * fb_z x) by ring [S2]. reflexivity.
Qed.
Lemma flat_place sg a b (h : nat -> R -> R) p D : sg * sg = 1 ->
  flat_map (fun g => map (entry (h (gr_law g)) (moved_profile sg a b p)) (gr_fibres g)) (map (place_group sg a b) D) =
  map (place_value sg a b) (flat_map (fun g => map (entry (h (gr_law g)) p) (gr_fibres g)) D).
Proof.
  intros S2. induction D as [|d D IH]; [reflexivity|]. cbn [map flat_map]. rewrite map_app, IH. f_equal. cbn [place_group gr_fibres gr_law]. rewrite !map_map.
  apply map_ext. intros x. apply entry_place, S2.
Qed.
Section FiberMove.
Variables (laws : nat -> law) (mesher : surface -> R -> list mtri) (sg a b : R).
Hypothesis B : forall k, batched (laws k).
Hypothesis SG : sg = 1 \/ sg = -1.
Lemma fiber_input_move what h h' p D m : what <> IOther ->
  prepare_input laws mesher h' (moved_profile sg a b p) what (Some (map (place_group sg a b) D)) m =
  rmap (fun x => (map (place_value sg a b) (fst x), map (place_group sg a b) (snd x))) (prepare_input laws mesher h p what (Some D) m).
Proof.
  intros W. unfold prepare_input. cbn [bind]. rewrite !prepare_groups_ok by assumption. cbn [bind].
  rewrite (flat_place sg a b (fun k => pick what (laws k)) p D (unit_square sg SG)). destruct D; reflexivity.
Qed.
Lemma fiber_move_forces h h' p D m :
  rmap fst (fiber_forces laws mesher h' (moved_profile sg a b p) (Some (map (place_group sg a b) D)) m) = rmap (moved_forces sg a b) (rmap fst (fiber_forces laws mesher h p (Some D) m)).
Proof.
  unfold fiber_forces. rewrite (fiber_input_move IStress h h') by discriminate. destruct (prepare_input laws mesher h p IStress (Some D) m) as [[v d]|e]; cbn [bind rmap fst snd]; [|reflexivity].
  f_equal. rewrite !fiber_stress_vm. destruct (vm_move sg a b v (unit_square sg SG)) as (A1 & A2 & A3 & _). unfold moved_forces. rewrite A1, A2, A3. apply pair3; ring.
Qed.
Lemma fiber_move_stiffness h h' p D m :
  match fiber_stiffness laws mesher h p (Some D) m, fiber_stiffness laws mesher h' (moved_profile sg a b p) (Some (map (place_group sg a b) D)) m with
  | Ok (K, _), Ok (K', _) => moved_matrix sg a b K K' | Err e, Err e' => e = e' | _, _ => False end.
Proof.
  unfold fiber_stiffness. rewrite (fiber_input_move IModulus h h') by discriminate. destruct (prepare_input laws mesher h p IModulus (Some D) m) as [[v d]|e]; cbn [bind rmap fst snd]; [|reflexivity].
  intros e ky kz. change (times (f_integrate_modulus (map (place_value sg a b) v)) (moved_profile sg a b (e, ky, kz)) = moved_forces sg a b (times (f_integrate_modulus v) (e, ky, kz))).
  rewrite (times_ext _ _ _ (fiber_modulus_vm _)), (times_ext _ _ _ (fiber_modulus_vm v)). apply matrix_moved; [exact (unit_square sg SG)|]. apply vm_move, unit_square, SG.
Qed.
Lemma fibre_of_placed p q r : fibre_of_triangle (place sg a b p, place sg a b q, place sg a b r) = place_fibre sg a b (fibre_of_triangle (p, q, r)).
Proof.
  unfold fibre_of_triangle, place_fibre, place. cbn [fst snd fb_y fb_z fb_a].
  match goal with |- {| fb_y := ?u; fb_z := ?v; fb_a := Rabs ?x * _ |} = {| fb_y := ?u'; fb_z := ?v'; fb_a := Rabs ?y * _ |} =>
    replace u with u' by field; replace v with v' by field; replace x with (sg * y) by ring end.
  rewrite Rabs_mult. assert (AS : Rabs sg = 1) by (destruct SG as [-> | ->]; [apply Rabs_R1|rewrite Rabs_left; lra]). rewrite AS, Rmult_1_l. reflexivity.
Qed.
Lemma mesh_placed g g' ms D : moved sg a b g g' -> meshes_move mesher (place sg a b) ms g g' -> triangulate mesher g ms = Ok D ->
  triangulate mesher g' ms = Ok (map (place_group sg a b) D).
Proof.
  intros (MS & MB) MM. unfold triangulate. destruct (orb _ _); [discriminate|]. intros E. injection E as <-. f_equal. rewrite map_app. f_equal.
  - unfold meshes_move in MM. revert MS MM. generalize (cg_surf g) (cg_surf g'). intros l l' F. induction F as [|s s' l l' (LW & _) F IH]; intros MM; [reflexivity|].
    inversion MM; subst. cbn [map]. rewrite IH by assumption. f_equal. unfold place_group. cbn [gr_fibres gr_scalar gr_law]. rewrite LW. f_equal.
    match goal with X : mesher s' _ = _ |- _ => rewrite X end. rewrite !map_map. apply map_ext. intros [[p q] r]. apply fibre_of_placed.
  - rewrite (bars_placed sg a b _ _ MB). unfold bar_groups. rewrite group_bars_place, !map_map. apply map_ext. intros [k l]. cbn [fst snd]. unfold place_group. cbn [gr_fibres gr_scalar gr_law]. rewrite map_length. reflexivity.
Qed.
End FiberMove.
Theorem C58_fiber : forall laws mesher t ms sg a b g g' ops s ops' s',
  (forall k, batched (laws k)) -> 0 < ms <= 1 -> sg = 1 \/ sg = -1 -> moved sg a b g g' -> meshes_move mesher (place sg a b) ms g g' ->
  (forall o, In o (ops ++ ops') -> meshed o) ->
  let ig := fiber_integ laws mesher in
  history ig t ms g ops s -> history ig t ms g' ops' s' ->
  (forall p, fst (integrate_profile ig ms g' (moved_profile sg a b p) s') = rmap (moved_forces sg a b) (fst (integrate_profile ig ms g p s))) /\
  (forall p, match fst (integrate_modulus ig ms g p s), fst (integrate_modulus ig ms g' (moved_profile sg a b p) s') with
     | Ok K, Ok K' => moved_matrix sg a b K K' | Err e, Err e' => e = e' | _, _ => False end) /\
  fst (limits ig t ms g' s') = fst (limits ig t ms g s) /\
  (forall theta n, fst (bending_strength ig t ms g' (sg * theta) n s') = rmap (moved_strength sg a b) (fst (bending_strength ig t ms g theta n s))) /\
  (near_origin g -> near_origin g' -> forall theta f complete,
     fst (nm_domain ig t ms g' (sg * theta) f complete s') = rmap (moved_domain sg a b) (fst (nm_domain ig t ms g theta f complete s))) /\
  (a = 0 -> b = 0 -> forall theta n chi_first npre npost chis, fst (moment_curvature ig t ms g' (sg * theta) n chi_first npre npost chis s') =
     rmap (map (mirrored_point sg)) (fst (moment_curvature ig t ms g theta n chi_first npre npost chis s))).
Proof.
  intros laws mesher t ms sg a b g g' ops s ops' s' B MS SG MV MM HO ig H H'.
  destruct (triangulate_ok mesher g ms MS) as (D & T). pose proof (mesh_placed mesher sg a b SG g g' ms D MV MM T) as T'.
  pose proof (fiber_coherent laws mesher g ms D B T) as CO. pose proof (fiber_coherent laws mesher g' ms _ B T') as CO'.
  assert (M : forall o, In o ops -> meshed o \/ coherent ig g None D) by (intros o I; left; apply HO, in_or_app; left; exact I).
  assert (M' : forall o, In o ops' -> meshed o \/ coherent ig g' None (map (place_group sg a b) D)) by (intros o I; left; apply HO, in_or_app; right; exact I).
  assert (PF : forall p m, rmap fst (ig_forces ig g' (moved_profile sg a b p) (Some (map (place_group sg a b) D)) m) = rmap (moved_forces sg a b) (rmap fst (ig_forces ig g p (Some D) m)))
    by (intros p m; exact (fiber_move_forces laws mesher sg a b B SG g g' p D m)).
  assert (PR : forall phi phi', cos phi' = cos phi -> sin phi' = sg * sin phi -> let al := fst (rot phi' (a, b)) in let be := snd (rot phi' (a, b)) in forall p m,
    rmap fst (ig_forces ig (rotate_geo phi' g') (moved_profile sg al be p) (Some (map (rotate_group phi') (map (place_group sg a b) D))) m) =
    rmap (moved_forces sg al be) (rmap fst (ig_forces ig (rotate_geo phi g) p (Some (map (rotate_group phi) D)) m))).
  { intros phi phi' CC SS al be p m. rewrite (group_rot sg a b phi phi' SG CC SS). exact (fiber_move_forces laws mesher sg al be B SG _ _ p _ m). }
  assert (PK : forall p m, match ig_modulus ig g p (Some D) m, ig_modulus ig g' (moved_profile sg a b p) (Some (map (place_group sg a b) D)) m with
    | Ok (K, _), Ok (K', _) => moved_matrix sg a b K K' | Err e, Err e' => e = e' | _, _ => False end)
    by (intros p m; exact (fiber_move_stiffness laws mesher sg a b B SG g g' p D m)).
  split; [|split; [|split; [|split; [|split]]]].
  - intros p. exact (gen_forces ig t ms g g' _ _ sg a b CO CO' PF ops ops' s s' M M' H H' p).
  - intros p. exact (gen_tangent ig t ms g g' _ _ sg a b CO CO' PK ops ops' s s' M M' H H' p).
  - exact (gen_limits ig t ms g g' _ _ sg a b CO CO' MV PF ops ops' s s' M M' H H').
  - intros theta n. exact (gen_strength ig t ms g g' _ _ sg a b SG CO CO' MV PF PR ops ops' s s' M M' H H' theta n).
  - intros NO NO' theta f c. exact (gen_domain ig t ms g g' _ _ sg a b SG CO CO' MV PF ops ops' s s' M M' H H' theta f c NO NO').
  - intros -> -> theta n cf x y l. pose proof (history_srel ig t ms g _ CO ops s M H) as SR. pose proof (history_srel ig t ms g' _ CO' ops' s' M' H') as SR'.
    rewrite (proj1 (moment_good ig t ms g _ CO theta n cf x y l _ _ SR)), (proj1 (moment_good ig t ms _ _ CO' (sg * theta) n cf x y l _ _ SR')).
    exact (mirror_curve ig t ms g g' _ _ sg SG CO CO' MV PF PR theta n cf x y l).
Qed.
Print Assumptions C58_fiber.

(** * The hypotheses are met *)
(** The plate of C54 moved by (3, -2) and drawn clockwise from another vertex. *)
Definition plate_away : compound :=
  {| cg_surf := [ {| sf_ext := [(/ 2 + 3, 1 + -2); (/ 2 + 3, -1 + -2); (- / 2 + 3, -1 + -2); (- / 2 + 3, 1 + -2); (/ 2 + 3, 1 + -2)]; sf_ints := []; sf_law := 0 |} ]; cg_bars := [] |}.
Lemma plate_shoelace : shoelace (rect (- / 2) (/ 2) (-1) 1) <> 0.
Proof. unfold shoelace, rect, lsum, cross; cbn. lra. Qed.
Lemma plate_placed : moved 1 3 (-2) plate plate_away.
Proof.
  split; [|constructor]. constructor; [|constructor]. split; [reflexivity|]. split; [|exists []; split; [constructor|constructor]].
  split; [exact plate_shoelace|]. right. cbn [sf_ext edges map fst snd rect place]. unfold place. cbn [fst snd].
  rewrite !Rmult_1_l. eapply perm_trans; [apply perm_swap|]. apply perm_skip, perm_skip. apply perm_swap.
Qed.
Lemma plate_mirrored : moved (-1) 0 0 plate plate.
Proof.
  split; [|constructor]. constructor; [|constructor]. split; [reflexivity|]. split; [|exists []; split; [constructor|constructor]].
  split; [exact plate_shoelace|]. right. cbn [sf_ext edges map fst snd rect]. unfold place. cbn [fst snd].
  replace (-1 * / 2 + 0) with (- / 2) by field. replace (-1 * - / 2 + 0) with (/ 2) by field. rewrite !Rplus_0_r.
  apply perm_skip. eapply perm_trans; [apply perm_skip, perm_swap|]. eapply perm_trans; [apply perm_swap|]. apply perm_skip. apply perm_swap.
Qed.
Lemma plate_near : near_origin plate.
Proof. eexists _, (- / 2, -1). split; [left; reflexivity|]. split; [left; reflexivity|]. cbn [fst snd pow]. rewrite !Rabs_left by lra. lra. Qed.
Lemma plate_away_near : near_origin plate_away.
Proof. eexists _, (/ 2 + 3, 1 + -2). split; [left; reflexivity|]. split; [left; reflexivity|]. cbn [fst snd pow]. rewrite Rabs_pos_eq, Rabs_left by lra. lra. Qed.
Example C58_strength_example : exists r, let n := (2 - 2 / 10 ^ 10) / 3 in
  fst (bending_strength (marin_integ (stiff_laws 1000)) (sym_traits (1/1000)) (1/10) plate 0 n st_init) = Ok r /\ balances n (rs_n r) /\
  fst (bending_strength (marin_integ (stiff_laws 1000)) (sym_traits (1/1000)) (1/10) plate_away 0 n st_init) = Ok (moved_strength 1 3 (-2) r) /\
  rs_mz r = 0 /\ rs_chiz r = 0.
Proof.
  destruct C54_example as (r & s' & c & E & BA & _). exists r. intros n. fold n in E, BA. split; [rewrite E; reflexivity|]. split; [exact BA|].
  destruct (C58_marin (stiff_laws 1000) hooke (sym_traits (1/1000)) (1/10) 1 3 (-2) plate plate_away [] st_init [] st_init (stiff_batched 1000) plate_steady plate_drawn plate_follows
    (or_introl eq_refl) plate_placed (h_new _ _ _ _) (h_new _ _ _ _)) as (_ & _ & _ & ES & _).
  split; [specialize (ES 0 n); replace (1 * 0) with 0 in ES by ring; rewrite ES, E; reflexivity|].
  destruct (C58_symmetric (stiff_laws 1000) hooke (sym_traits (1/1000)) (1/10) plate [] st_init n (stiff_batched 1000) plate_steady plate_drawn plate_follows plate_mirrored (h_new _ _ _ _)) as (Q & _).
  apply Q. rewrite E. reflexivity.
Qed.
Example C58_limits_example : fst (limits (marin_integ (stiff_laws 1000)) (sym_traits (1/1000)) (1/10) plate_away st_init) = Ok (-2, 2).
Proof.
  destruct (C58_marin (stiff_laws 1000) hooke (sym_traits (1/1000)) (1/10) 1 3 (-2) plate plate_away [] st_init [] st_init (stiff_batched 1000) plate_steady plate_drawn plate_follows
    (or_introl eq_refl) plate_placed (h_new _ _ _ _) (h_new _ _ _ _)) as (_ & _ & EL & _).
  cbv zeta in EL. rewrite EL. destruct plate_limits as (s1 & L). rewrite L. reflexivity.
Qed.
(** The tangent of the elastic plate. *)
Lemma hooke_tangent e r k : field_of (lw_marin_tangent (stiff_laws 1000 k) (e, r)) (fun _ => 1000) e r.
Proof.
  assert (I : exists l, elastic_init 1000 None = Ok l /\ lw_marin_tangent (stiff_laws 1000 k) (e, r) = elastic_marin_tangent l (e, r)).
  { exists {| el_E := 1000; el_u := None |}. split; [|reflexivity]. unfold elastic_init. destruct (Rleb_spec 1000 0); [exfalso; lra|]. reflexivity. }
  destruct I as (l & I & ->). destruct C21_law_fields as (LF & _). exact (proj2 (LF 1000 None l e r I)).
Qed.
Lemma plate_follows_tangent : follows_tangent (stiff_laws 1000) (fun _ _ => 1000) plate.
Proof. intros s e r _ _. apply hooke_tangent. Qed.
(** The fibre theorem: the fan mesher, the plate moved without being redrawn. *)
Definition plate_shifted : compound :=
  {| cg_surf := [ {| sf_ext := map (place 1 3 (-2)) (rect (- / 2) (/ 2) (-1) 1); sf_ints := []; sf_law := 0 |} ]; cg_bars := [] |}.
Lemma shifted_placed : moved 1 3 (-2) plate plate_shifted.
Proof.
  split; [|constructor]. constructor; [|constructor]. split; [reflexivity|]. split; [|exists []; split; [constructor|constructor]].
  split; [exact plate_shoelace|]. left. apply Permutation_refl.
Qed.
Example C58_fiber_example : meshes_move fan_mesher (place 1 3 (-2)) (1/10) plate plate_shifted /\
  exists F, fst (integrate_profile (fiber_integ (stiff_laws 1000) fan_mesher) (1/10) plate (0, 1, 0) st_init) = Ok F /\
  fst (integrate_profile (fiber_integ (stiff_laws 1000) fan_mesher) (1/10) plate_shifted (moved_profile 1 3 (-2) (0, 1, 0)) st_init) = Ok (moved_forces 1 3 (-2) F).
Proof.
  assert (MM : meshes_move fan_mesher (place 1 3 (-2)) (1/10) plate plate_shifted) by (constructor; [reflexivity|constructor]).
  split; [exact MM|]. destruct (C58_fiber (stiff_laws 1000) fan_mesher (sym_traits (1/1000)) (1/10) 1 3 (-2) plate plate_shifted [] st_init [] st_init (stiff_batched 1000) ltac:(lra) (or_introl eq_refl) shifted_placed MM ltac:(intros o []) (h_new _ _ _ _) (h_new _ _ _ _)) as (TF & _).
  specialize (TF (0, 1, 0)).
  destruct (C56_fiber_example 0) as (F & E & _). exists F. split; [exact E|]. rewrite TF, E. reflexivity.
Qed.
