(** C56: turning the section about the origin turns every result with it. *)
From Coq Require Import FunctionalExtensionality Lra Lia.
From Coquelicot Require Import Coquelicot.
From Verif Require Import Base L_Cracked L_Section4 L_Cracked7 L_Exact P_Exact L_Laws2 M_Marin S_Marin L_Marin M_Laws M_Laws2 M_Fiber S_Fiber L_Fiber M_MarinInt L_MarinInt L_MarinInt2 L_MarinInt3 L_MarinInt4 L_Frame4 M_Section S_Section L_Section M_Domain S_History L_History
  P_Fiber P_MarinInt S_Frame P_Frame S_MarinInt S_Exact S_Turn L_Turn L_Turn2 L_Turn3 L_Turn4.

Lemma limits_from ig t ms g D n : coherent ig g (Some ms) D -> admits ig t ms g n ->
  exists lo hi, fst (run ig t ms g OLimits {| st_data := Some D; st_lim := None |}) = Ok (ALimits (lo, hi)) /\ lo <= n <= hi.
Proof.
  intros CO (lo & hi & E & L). exists lo, hi. split; [|exact L]. rewrite <- E. symmetry.
  apply (run_good ig t ms g D CO OLimits (or_introl I) _ _ (init_srel ig t ms g D)).
Qed.

Section Generic.
Variables (ig : integ) (t : traits) (ms : R) (g : compound) (phi : R) (D D' : list group).
Hypothesis CO : coherent ig g (Some ms) D.
Hypothesis CO' : coherent ig (rotate_geo phi g) (Some ms) D'.
Let c0 : sstate := {| st_data := Some D; st_lim := None |}.
Let c0' : sstate := {| st_data := Some D'; st_lim := None |}.
Variables (ops ops' : list op) (s s' : sstate).
Hypothesis M : forall o, In o ops -> meshed o \/ coherent ig g None D.
Hypothesis M' : forall o, In o ops' -> meshed o \/ coherent ig (rotate_geo phi g) None D'.
Hypothesis H : history ig t ms g ops s.
Hypothesis H' : history ig t ms (rotate_geo phi g) ops' s'.

Lemma generic_frame theta n cf a b l : eqd D' (map (rotate_group phi) D) -> admits ig t ms g n -> admits ig t ms (rotate_geo phi g) n ->
  fst (bending_strength ig t ms (rotate_geo phi g) (theta + phi) n s') = rmap (spun_strength phi) (fst (bending_strength ig t ms g theta n s)) /\
  fst (moment_curvature ig t ms (rotate_geo phi g) (theta + phi) n cf a b l s') = rmap (map (spun_point phi)) (fst (moment_curvature ig t ms g theta n cf a b l s)).
Proof.
  intros HD AD AD'. pose proof (history_srel ig t ms g D CO ops s M H) as SR. pose proof (history_srel ig t ms _ D' CO' ops' s' M' H') as SR'.
  assert (AA : admitted ig t ms g phi D D' n) by (split; [exact (limits_from _ _ _ _ _ _ CO AD)|exact (limits_from _ _ _ _ _ _ CO' AD')]).
  split.
  - rewrite (proj1 (strength_good ig t ms g D CO theta n _ _ SR)), (proj1 (strength_good ig t ms _ D' CO' (theta + phi) n _ _ SR')).
    exact (turn_strength ig t ms g phi D D' CO CO' HD theta n AA).
  - rewrite (proj1 (moment_good ig t ms g D CO theta n cf a b l _ _ SR)), (proj1 (moment_good ig t ms _ D' CO' (theta + phi) n cf a b l _ _ SR')).
    exact (turn_curve ig t ms g phi D D' CO CO' HD theta n cf a b l AA).
Qed.

Hypothesis TF : forall p m, rmap fst (ig_forces ig (rotate_geo phi g) (spun3 phi p) (Some D') m) = rmap (spun3 phi) (rmap fst (ig_forces ig g p (Some D) m)).
Hypothesis TK : forall p m, match ig_modulus ig g p (Some D) m, ig_modulus ig (rotate_geo phi g) (spun3 phi p) (Some D') m with
  | Ok (K, _), Ok (K', _) => eq3 K' (turn_matrix phi K) | Err e, Err e' => e = e' | _, _ => False end.
Lemma has0 (E : list group) l : has E {| st_data := Some E; st_lim := l |}.
Proof. exists E. split; [reflexivity|apply eqd_refl]. Qed.
Lemma generic_forces p :
  fst (integrate_profile ig ms (rotate_geo phi g) (spun3 phi p) s') = rmap (spun3 phi) (fst (integrate_profile ig ms g p s)).
Proof.
  pose proof (history_srel ig t ms g D CO ops s M H) as SR. pose proof (history_srel ig t ms _ D' CO' ops' s' M' H') as SR'.
  unfold integrate_profile. rewrite (proj1 (forces_k_start ig t ms g D CO _ p CO _ _ SR)), (proj1 (forces_k_start ig t ms _ D' CO' _ (spun3 phi p) CO' _ _ SR')).
  exact (proj1 (turn_forces ig ms g phi D D' CO CO' TF p _ _ _ (has0 D None) (has0 D' None))).
Qed.
Lemma generic_domain theta f c :
  fst (nm_domain ig t ms (rotate_geo phi g) (theta + phi) f c s') = rmap (spun_domain phi) (fst (nm_domain ig t ms g theta f c s)).
Proof.
  pose proof (history_srel ig t ms g D CO ops s M H) as SR. pose proof (history_srel ig t ms _ D' CO' ops' s' M' H') as SR'.
  rewrite (proj1 (nm_good ig t ms g D CO theta f c _ _ SR)), (proj1 (nm_good ig t ms _ D' CO' (theta + phi) f c _ _ SR')).
  exact (turn_domain ig t ms g phi D D' CO CO' TF theta f c _ _ (has0 D None) (has0 D' None)).
Qed.
Lemma generic_tangent p :
  match fst (integrate_modulus ig ms g p s), fst (integrate_modulus ig ms (rotate_geo phi g) (spun3 phi p) s') with
  | Ok K, Ok K' => spun_matrix phi K K' | Err e, Err e' => e = e' | _, _ => False end.
Proof.
  pose proof (history_srel ig t ms g D CO ops s M H) as SR. pose proof (history_srel ig t ms _ D' CO' ops' s' M' H') as SR'.
  rewrite (proj1 (modulus_good ig t ms g D CO p _ _ SR)), (proj1 (modulus_good ig t ms _ D' CO' (spun3 phi p) _ _ SR')).
  unfold integrate_modulus. cbn [st_data]. specialize (TK p (Some ms)).
  destruct (ig_modulus ig g p (Some D) (Some ms)) as [[K d]|e], (ig_modulus ig (rotate_geo phi g) (spun3 phi p) (Some D') (Some ms)) as [[K' d']|e']; cbn [fst]; try exact TK.
  intros e ky kz. pose proof (times_turn phi K (e, ky, kz)) as E. transitivity (spun3 phi (times K (e, ky, kz))); [rewrite <- E|reflexivity]. destruct (eq3_all _ _ TK) as (E1 & E2 & E3 & E4 & E5 & E6 & E7 & E8 & E9).
  unfold times, spun3 at 1 2 3 4 5 6. cbn [fst snd]. cbv zeta. rewrite E1, E2, E3, E4, E5, E6, E7, E8, E9. reflexivity.
Qed.
Lemma generic_strain loads i mx tol : coherent ig g None D -> coherent ig (rotate_geo phi g) None D' ->
  fst (strain_profile ig ms (rotate_geo phi g) (spun3 phi loads) i mx tol s') = rmap (spun3 phi) (fst (strain_profile ig ms g loads i mx tol s)).
Proof.
  intros CN CN'. pose proof (history_srel ig t ms g D CO ops s M H) as SR. pose proof (history_srel ig t ms _ D' CO' ops' s' M' H') as SR'.
  rewrite (proj1 (strain_good ig t ms g D CO loads i mx tol CN _ _ SR)), (proj1 (strain_good ig t ms _ D' CO' (spun3 phi loads) i mx tol CN' _ _ SR')).
  exact (turn_strain ig ms g phi D D' CO CO' TF TK loads i mx tol _ _ (has0 D None) (has0 D' None)).
Qed.
End Generic.

(** * Marin integrator *)
(** Strength and moment-curvature relation: no assumption on materials or shape. *)
Theorem C56_marin_frame : forall laws t ms g phi ops s ops' s' theta n chi_first npre npost chis,
  (forall k, batched (laws k)) ->
  history (marin_integ laws) t ms g ops s -> history (marin_integ laws) t ms (spun_section phi g) ops' s' ->
  admits (marin_integ laws) t ms g n -> admits (marin_integ laws) t ms (spun_section phi g) n ->
  fst (bending_strength (marin_integ laws) t ms (spun_section phi g) (theta + phi) n s') =
    rmap (spun_strength phi) (fst (bending_strength (marin_integ laws) t ms g theta n s)) /\
  fst (moment_curvature (marin_integ laws) t ms (spun_section phi g) (theta + phi) n chi_first npre npost chis s') =
    rmap (map (spun_point phi)) (fst (moment_curvature (marin_integ laws) t ms g theta n chi_first npre npost chis s)).
Proof.
  intros laws t ms g phi ops s ops' s' theta n cf a b l B H H' A A'.
  refine (generic_frame (marin_integ laws) t ms g phi _ _ (marin_coherent laws g (Some ms) B) (marin_coherent laws (rotate_geo phi g) (Some ms) B) ops ops' s s' _ _ H H' theta n cf a b l _ A A').
  - intros o _. right. exact (marin_coherent laws g None B).
  - intros o _. right. exact (marin_coherent laws (rotate_geo phi g) None B).
  - apply marin_data.
Qed.
Print Assumptions C56_marin_frame.
(** Forces, stiffness, axial-moment domain and strain profile. *)
Theorem C56_marin_field : forall laws t ms g phi ops s ops' s',
  (forall k, batched (laws k)) -> steady laws g ->
  history (marin_integ laws) t ms g ops s -> history (marin_integ laws) t ms (spun_section phi g) ops' s' ->
  (forall p, fst (integrate_profile (marin_integ laws) ms (spun_section phi g) (spun3 phi p) s') =
     rmap (spun3 phi) (fst (integrate_profile (marin_integ laws) ms g p s))) /\
  (forall p, match fst (integrate_modulus (marin_integ laws) ms g p s), fst (integrate_modulus (marin_integ laws) ms (spun_section phi g) (spun3 phi p) s') with
     | Ok K, Ok K' => spun_matrix phi K K' | Err e, Err e' => e = e' | _, _ => False end) /\
  (forall theta f complete, fst (nm_domain (marin_integ laws) t ms (spun_section phi g) (theta + phi) f complete s') =
     rmap (spun_domain phi) (fst (nm_domain (marin_integ laws) t ms g theta f complete s))) /\
  (forall loads initial max_iter tol, fst (strain_profile (marin_integ laws) ms (spun_section phi g) (spun3 phi loads) initial max_iter tol s') =
     rmap (spun3 phi) (fst (strain_profile (marin_integ laws) ms g loads initial max_iter tol s))).
Proof.
  intros laws t ms g phi ops s ops' s' B ST H H'.
  pose proof (marin_coherent laws g (Some ms) B) as CO. pose proof (marin_coherent laws (rotate_geo phi g) (Some ms) B) as CO'.
  pose proof (marin_coherent laws g None B) as CN. pose proof (marin_coherent laws (rotate_geo phi g) None B) as CN'.
  assert (M : forall o, In o ops -> meshed o \/ coherent (marin_integ laws) g None (map unscalar (bar_groups (cg_bars g)))) by (intros o _; right; exact CN).
  assert (M' : forall o, In o ops' -> meshed o \/ coherent (marin_integ laws) (rotate_geo phi g) None (map unscalar (bar_groups (cg_bars (rotate_geo phi g))))) by (intros o _; right; exact CN').
  assert (TF := fun p (m : option R) => marin_turn_forces laws g phi ST p). assert (TK := fun p (m : option R) => marin_turn_stiffness laws g phi ST p).
  repeat split.
  - intros p. exact (generic_forces _ t ms g phi _ _ CO CO' ops ops' s s' M M' H H' TF p).
  - intros p. exact (generic_tangent _ t ms g phi _ _ CO CO' ops ops' s s' M M' H H' TK p).
  - intros theta f c. exact (generic_domain _ t ms g phi _ _ CO CO' ops ops' s s' M M' H H' TF theta f c).
  - intros loads i mx tol. exact (generic_strain _ t ms g phi _ _ CO CO' ops ops' s s' M M' H H' TF TK loads i mx tol CN CN').
Qed.
Print Assumptions C56_marin_field.

(** * Fibre integrator, when the mesh turns with the surface *)
Lemma fiber_pair laws mesher g phi ms : (forall k, batched (laws k)) -> 0 < ms <= 1 -> mesher_turns mesher phi g ->
  exists D D', coherent (fiber_integ laws mesher) g (Some ms) D /\ coherent (fiber_integ laws mesher) (rotate_geo phi g) (Some ms) D' /\ eqd D' (map (rotate_group phi) D) /\
  (forall p m, rmap fst (ig_forces (fiber_integ laws mesher) (rotate_geo phi g) (spun3 phi p) (Some D') m) = rmap (spun3 phi) (rmap fst (ig_forces (fiber_integ laws mesher) g p (Some D) m))) /\
  (forall p m, match ig_modulus (fiber_integ laws mesher) g p (Some D) m, ig_modulus (fiber_integ laws mesher) (rotate_geo phi g) (spun3 phi p) (Some D') m with
    | Ok (K, _), Ok (K', _) => eq3 K' (turn_matrix phi K) | Err e, Err e' => e = e' | _, _ => False end).
Proof.
  intros B M MT. destruct (triangulate_ok mesher g ms M) as (D & T). destruct (triangulate_turned mesher phi g ms D MT T) as (D' & T' & HD).
  pose proof (fiber_coherent laws mesher g ms D B T) as CO. pose proof (fiber_coherent laws mesher (rotate_geo phi g) ms D' B T') as CO'.
  exists D, D'. split; [exact CO|]. split; [exact CO'|]. split; [exact HD|]. split; intros p m.
  - rewrite (co_forces _ _ _ _ CO' _ _ _ _ m m HD). apply fiber_turn_forces. exact B.
  - pose proof (co_modulus _ _ _ _ CO' (rotate_geo phi g) (spun3 phi p) _ _ m m HD) as E.
    pose proof (fiber_turn_stiffness laws mesher B phi g p D m) as F. cbn [ig_modulus fiber_integ] in *.
    destruct (fiber_stiffness laws mesher g p (Some D) m) as [[K d]|e], (fiber_stiffness laws mesher (rotate_geo phi g) (spun3 phi p) (Some (map (rotate_group phi) D)) m) as [[K2 d2]|e2],
      (fiber_stiffness laws mesher (rotate_geo phi g) (spun3 phi p) (Some D') m) as [[K' d']|e']; cbn [rmap bind fst] in E; try discriminate; try contradiction.
    + injection E as ->. exact F.
    + injection E as ->. exact F.
Qed.
Theorem C56_fiber_frame : forall laws mesher t ms g phi ops s ops' s' theta n chi_first npre npost chis,
  (forall k, batched (laws k)) -> 0 < ms <= 1 -> mesher_turns mesher phi g ->
  (forall o, In o (ops ++ ops') -> meshed o) ->
  let ig := fiber_integ laws mesher in
  history ig t ms g ops s -> history ig t ms (spun_section phi g) ops' s' ->
  admits ig t ms g n -> admits ig t ms (spun_section phi g) n ->
  fst (bending_strength ig t ms (spun_section phi g) (theta + phi) n s') =
    rmap (spun_strength phi) (fst (bending_strength ig t ms g theta n s)) /\
  fst (moment_curvature ig t ms (spun_section phi g) (theta + phi) n chi_first npre npost chis s') =
    rmap (map (spun_point phi)) (fst (moment_curvature ig t ms g theta n chi_first npre npost chis s)).
Proof.
  intros laws mesher t ms g phi ops s ops' s' theta n cf a b l B M MT HO ig H H' A A'.
  destruct (fiber_pair laws mesher g phi ms B M MT) as (D & D' & CO & CO' & HD & _).
  refine (generic_frame ig t ms g phi D D' CO CO' ops ops' s s' _ _ H H' theta n cf a b l HD A A'); intros o I; left; apply HO, in_or_app; [left|right]; exact I.
Qed.
Print Assumptions C56_fiber_frame.
Theorem C56_fiber_field : forall laws mesher t ms g phi ops s ops' s',
  (forall k, batched (laws k)) -> 0 < ms <= 1 -> mesher_turns mesher phi g ->
  (forall o, In o (ops ++ ops') -> meshed o) ->
  let ig := fiber_integ laws mesher in
  history ig t ms g ops s -> history ig t ms (spun_section phi g) ops' s' ->
  (forall p, fst (integrate_profile ig ms (spun_section phi g) (spun3 phi p) s') =
     rmap (spun3 phi) (fst (integrate_profile ig ms g p s))) /\
  (forall p, match fst (integrate_modulus ig ms g p s), fst (integrate_modulus ig ms (spun_section phi g) (spun3 phi p) s') with
     | Ok K, Ok K' => spun_matrix phi K K' | Err e, Err e' => e = e' | _, _ => False end) /\
  (forall theta f complete, fst (nm_domain ig t ms (spun_section phi g) (theta + phi) f complete s') =
     rmap (spun_domain phi) (fst (nm_domain ig t ms g theta f complete s))).
Proof.
  intros laws mesher t ms g phi ops s ops' s' B M MT HO ig H H'.
  destruct (fiber_pair laws mesher g phi ms B M MT) as (D & D' & CO & CO' & HD & TF & TK).
  assert (MM : forall o, In o ops -> meshed o \/ coherent ig g None D) by (intros o I; left; apply HO, in_or_app; left; exact I).
  assert (MM' : forall o, In o ops' -> meshed o \/ coherent ig (rotate_geo phi g) None D') by (intros o I; left; apply HO, in_or_app; right; exact I).
  repeat split.
  - intros p. exact (generic_forces _ t ms g phi _ _ CO CO' ops ops' s s' MM MM' H H' TF p).
  - intros p. exact (generic_tangent _ t ms g phi _ _ CO CO' ops ops' s s' MM MM' H H' TK p).
  - intros theta f c. exact (generic_domain _ t ms g phi _ _ CO CO' ops ops' s s' MM MM' H H' TF theta f c).
Qed.
Print Assumptions C56_fiber_field.
(** With the default mesh size also the strain profile, after any history. *)
Theorem C56_fiber_strain : forall laws mesher t g phi ops s ops' s' loads initial max_iter tol,
  (forall k, batched (laws k)) -> mesher_turns mesher phi g ->
  let ig := fiber_integ laws mesher in
  history ig t (1/100) g ops s -> history ig t (1/100) (spun_section phi g) ops' s' ->
  fst (strain_profile ig (1/100) (spun_section phi g) (spun3 phi loads) initial max_iter tol s') =
    rmap (spun3 phi) (fst (strain_profile ig (1/100) g loads initial max_iter tol s)).
Proof.
  intros laws mesher t g phi ops s ops' s' loads i mx tol B MT ig H H'.
  destruct (fiber_pair laws mesher g phi (1/100) B ltac:(lra) MT) as (D & D' & CO & CO' & HD & TF & TK).
  pose proof (fiber_coherent_none _ _ _ _ CO) as CN. pose proof (fiber_coherent_none _ _ _ _ CO') as CN'.
  refine (generic_strain ig t (1/100) g phi D D' CO CO' ops ops' s s' _ _ H H' TF TK loads i mx tol CN CN'); intros o _; right; assumption.
Qed.
Print Assumptions C56_fiber_strain.

(** The library's laws give constants under a uniform strain. *)
Ltac uni := match goal with |- uniform_output (_, (None, [?v :: ?c])) => exists v, c; split; [reflexivity|] end;
  let z := fresh in let W := fresh in intros z W; repeat (destruct W as [<- | W]; [try ring|]); try contradiction W.
Lemma ud_find_uniform xs : forall ys e c, ud_find xs ys e 0 = Some c -> exists v r, c = v :: r /\ forall z, In z r -> z = 0.
Proof.
  induction xs as [|x0 [|x1 xs] IH]; intros [|y0 [|y1 ys]] e c E; try discriminate E.
  rewrite ud_find_cons in E. destruct (andb _ _); [|exact (IH _ _ _ E)]. injection E as <-. do 2 eexists. split; [reflexivity|].
  intros z [<- | []]. ring.
Qed.
Lemma ud_find_t_cons x0 x1 xs y0 y1 ys e : ud_find_t (x0 :: x1 :: xs) (y0 :: y1 :: ys) e =
  if andb (Rleb x0 e) (Rleb e x1) then Some [(y1 - y0) / (x1 - x0)] else ud_find_t (x1 :: xs) (y1 :: ys) e.
Proof. reflexivity. Qed.
Lemma ud_find_t_uniform xs : forall ys e c, ud_find_t xs ys e = Some c -> exists v, c = [v].
Proof.
  induction xs as [|x0 [|x1 xs] IH]; intros [|y0 [|y1 ys]] e c E; try discriminate E.
  rewrite ud_find_t_cons in E. destruct (andb _ _); [injection E as <-; eexists; reflexivity|exact (IH _ _ _ E)].
Qed.
Theorem C56_laws_steady : forall e,
  (forall l, uniform_output (lw_marin (elastic_law l) (e, 0)) /\ uniform_output (lw_marin_tangent (elastic_law l) (e, 0))) /\
  (forall l, uniform_output (lw_marin (ep_law l) (e, 0)) /\ uniform_output (lw_marin_tangent (ep_law l) (e, 0))) /\
  (forall l, uniform_output (lw_marin (pr_law l) (e, 0)) /\ uniform_output (lw_marin_tangent (pr_law l) (e, 0))) /\
  (forall l, uniform_output (bil_marin l (e, 0)) /\ uniform_output (bil_marin_tangent l (e, 0))) /\
  (forall l, uniform_output (lw_marin (ud_law l) (e, 0)) /\ uniform_output (lw_marin_tangent (ud_law l) (e, 0))).
Proof.
  intros e. assert (Z : Reqb 0 0 = true) by (apply Reqb_true; reflexivity).
  repeat split; cbn [lw_marin lw_marin_tangent elastic_law ep_law pr_law ud_law].
  - unfold elastic_marin. cbn [fst snd]. uni.
  - unfold elastic_marin_tangent. cbn [fst snd]. uni.
  - unfold ep_marin. destruct (ep_yield l), (ep_ult l). rewrite Z. cbv zeta. repeat destruct (andb _ _); repeat destruct (Rleb _ _); uni.
  - unfold ep_marin_tangent. destruct (ep_yield l), (ep_ult l). rewrite Z. cbv zeta. repeat destruct (andb _ _); repeat destruct (Rleb _ _); uni.
  - unfold pr_marin2. rewrite Z. cbv zeta. repeat destruct (Rltb _ _); repeat destruct (Rleb _ _); uni; unfold Rdiv; ring.
  - unfold pr_marin_tangent2. rewrite Z. cbv zeta. repeat destruct (Rltb _ _); uni; unfold Rdiv; ring.
  - unfold bil_marin. rewrite Z. cbv zeta. repeat destruct (Rltb _ _); repeat destruct (Rleb _ _); uni.
  - unfold bil_marin_tangent. rewrite Z. cbv zeta. repeat destruct (Rltb _ _); uni.
  - unfold ud_marin. rewrite Z. cbv zeta. destruct (ud_find _ _ _ _) as [c|] eqn:E; [|uni]. destruct (ud_find_uniform _ _ _ _ E) as (v & r & -> & P). exists v, r. split; [reflexivity|exact P].
  - unfold ud_marin_tangent. rewrite Z. cbv zeta. destruct (ud_find_t _ _ _) as [c|] eqn:E; [|uni]. destruct (ud_find_t_uniform _ _ _ _ E) as (v & ->). uni.
Qed.
Print Assumptions C56_laws_steady.

(** * The hypotheses are met *)
(** C56_marin_field: the elastic plate of C54, turned by any angle, forces included. *)
Lemma plate_steady : steady (stiff_laws 1000) plate.
Proof. intros s e _. exact (proj1 (C56_laws_steady e) _). Qed.
Example C56_field_example phi : exists F, fst (integrate_profile (marin_integ (stiff_laws 1000)) (1/10) plate (1/1000, 1, 2) st_init) = Ok F /\
  fst (integrate_profile (marin_integ (stiff_laws 1000)) (1/10) (spun_section phi plate) (spun3 phi (1/1000, 1, 2)) st_init) = Ok (spun3 phi F).
Proof.
  destruct (C56_marin_field (stiff_laws 1000) (sym_traits (1/1000)) (1/10) plate phi [] st_init [] st_init (stiff_batched 1000) plate_steady (h_new _ _ _ _) (h_new _ _ _ _)) as (TF & _).
  specialize (TF (1/1000, 1, 2)).
  destruct (C21_forces_area (stiff_laws 1000) hooke plate (1/1000) 1 2 (stiff_batched 1000)) as (d & E).
  - intros s [<- | []]. split; [reflexivity|]. split; [intros q []|apply hooke_field].
  - intros b b' [].
  - assert (E' : fst (integrate_profile (marin_integ (stiff_laws 1000)) (1/10) plate (1/1000, 1, 2) st_init) = Ok (area_forces hooke (stiff_laws 1000) plate (1/1000, 1, 2))).
    { unfold integrate_profile, forces_k. cbn [ig_forces marin_integ st_data st_init]. rewrite E. reflexivity. }
    rewrite E' in TF. eexists. split; [exact E'|exact TF].
Qed.
(** C56_marin_frame: the plate upside down. *)
Definition plate_over : compound := {| cg_surf := [ {| sf_ext := rect (/ 2) (- / 2) 1 (-1); sf_ints := []; sf_law := 0 |} ]; cg_bars := [] |}.
Lemma plate_over_eq : spun_section PI plate = plate_over.
Proof.
  unfold spun_section, plate, plate_over, rect, spun. cbn [cg_surf cg_bars map sf_ext sf_ints sf_law fst snd]. rewrite cos_PI, sin_PI.
  assert (P : forall y z, (-1 * y - 0 * z, 0 * y + -1 * z) = (- y, - z)) by (intros y z; f_equal; ring).
  rewrite !P. rewrite !Ropp_involutive. replace (- (1)) with (-1) by ring. replace (- (-1)) with 1 by ring. reflexivity.
Qed.
Lemma over_ccw : ccw_ring (rect (/ 2) (- / 2) 1 (-1)) = rect (/ 2) (- / 2) 1 (-1).
Proof.
  unfold ccw_ring. destruct (Rlt_dec _ 0) as [N|_]; [|reflexivity]. exfalso. revert N.
  assert (X : shoelace (rect (/ 2) (- / 2) 1 (-1)) = 2) by (unfold shoelace, rect, lsum, cross; cbn; field). rewrite X. lra.
Qed.
Lemma over_axial e c : exact_axial hooke (stiff_laws 1000) plate_over 0 e c = 2000 * e.
Proof.
  unfold exact_axial, exact_forces, surfaces_turned. cbn [fst snd plate_over cg_surf cg_bars map bar_fibres axial].
  unfold bar_fibres, axial. cbn [plate_over cg_bars map]. rewrite !lsum_cons, !lsum_nil. rewrite Ropp_0, turned_0. cbn [sf_law].
  transitivity (surface_integral (fun _ z => 1000 * (e + c * z)) {| sf_ext := rect (/ 2) (- / 2) 1 (-1); sf_ints := []; sf_law := 0 |} + 0 + 0).
  { do 2 f_equal. f_equal. apply functional_extensionality. intros y. apply functional_extensionality. intros z.
    unfold hooke, plane_strain, back_y, back_z. rewrite cos_0, sin_0. ring. }
  rewrite surface_field. unfold sfield. cbn [sf_ext sf_ints map]. rewrite lsum_nil, over_ccw.
  rewrite (gfield_rect 0 (fun z => 1000 * (e + c * z)) (/ 2) (- / 2) 1 (-1) (- (2000 * e))).
  - cbn [Nat.add INR pow]. field.
  - replace (- (2000 * e)) with (1000 * (e * -1 + c * (-1) ^ 2 / 2) - 1000 * (e * 1 + c * 1 ^ 2 / 2)) by field.
    apply (is_RInt_derive (V := R_CompleteNormedModule) (fun z => 1000 * (e * z + c * z ^ 2 / 2))).
    + intros z _. auto_derive; [exact I|]. match goal with |- ?a = ?b => change (@eq R a b) end. field.
    + intros z _. apply continuity_pt_filterlim. apply derivable_continuous_pt. reg.
Qed.
Lemma over_balanced u : 0 < u < 10 ^ 9 -> balanced false false (items_of (sym_traits u) plate_over) = Ok (1, -1, (0, - u, 0)).
Proof.
  intros U. rewrite <- (plate_balanced u U). f_equal. unfold items_of. cbn [plate plate_over cg_surf cg_bars map app]. f_equal. cbn [sf_ext]. 
  assert (MN : forall a b, ring_min (rect a b 1 (-1)) = -1 /\ ring_min (rect b a (-1) 1) = -1).
  { intros a b. unfold ring_min, rect. cbn [fold_left snd]. unfold Rmin. repeat destruct (Rle_dec _ _); lra. }
  assert (MX : forall a b, ring_max (rect a b 1 (-1)) = 1 /\ ring_max (rect b a (-1) 1) = 1).
  { intros a b. unfold ring_max, rect. cbn [fold_left snd]. unfold Rmax. repeat destruct (Rle_dec _ _); lra. }
  rewrite (proj1 (MN _ _)), (proj1 (MX _ _)), (proj2 (MN _ _)), (proj2 (MX _ _)). reflexivity.
Qed.
Lemma over_limits : exists s1, limits (marin_integ (stiff_laws 1000)) (sym_traits (1/1000)) (1/10) plate_over st_init = (Ok (-2, 2), s1).
Proof.
  assert (DR : drawn plate_over).
  { split; [|intros b b' []]. intros s [<- | []]. split; [reflexivity|intros q []]. }
  pose proof (C54_limits (stiff_laws 1000) hooke (sym_traits (1/1000)) (1/10) plate_over [] st_init 1 (-1) (0, - (1/1000), 0) (stiff_batched 1000) DR (h_new _ _ _ _)
    (over_balanced (1/1000) ltac:(cbn [pow]; lra)) (fun x e _ _ => hooke_field e 0 (sf_law x))) as E.
  rewrite !over_axial in E. unfold strain_at in E. cbn [fst snd] in E.
  replace (2000 * (0 + - (1/1000) * 1)) with (-2) in E by field. replace (2000 * (0 + - (1/1000) * -1)) with 2 in E by field.
  destruct (limits _ _ _ _ _) as [r s1]. cbn [fst] in E. subst r. exists s1. reflexivity.
Qed.
Example C56_frame_example : exists r, let n := (2 - 2 / 10 ^ 10) / 3 in
  fst (bending_strength (marin_integ (stiff_laws 1000)) (sym_traits (1/1000)) (1/10) plate 0 n st_init) = Ok r /\
  fst (bending_strength (marin_integ (stiff_laws 1000)) (sym_traits (1/1000)) (1/10) (spun_section PI plate) (0 + PI) n st_init) = Ok (spun_strength PI r).
Proof.
  destruct C54_example as (r & s' & c & E & _). exists r. intros n. fold n in E. split; [rewrite E; reflexivity|].
  destruct (C56_marin_frame (stiff_laws 1000) (sym_traits (1/1000)) (1/10) plate PI [] st_init [] st_init 0 n 0 0 0 None (stiff_batched 1000) (h_new _ _ _ _) (h_new _ _ _ _)) as (Q & _).
  - destruct plate_limits as (s1 & L). exists (-2), 2. split; [cbn [run]; unfold amap; rewrite L; reflexivity|unfold n; cbn [pow]; lra].
  - rewrite plate_over_eq. destruct over_limits as (s1 & L). exists (-2), 2. split; [cbn [run]; unfold amap; rewrite L; reflexivity|unfold n; cbn [pow]; lra].
  - rewrite Q, E. reflexivity.
Qed.
(** The fibre theorems: a mesher that fans the outline out from its first corner, on the plate. *)
Fixpoint fan_from (p : R * R) (l : list (R * R)) : list mtri :=
  match l with q :: ((r :: _) as l') => (p, q, r) :: fan_from p l' | _ => [] end.
Definition fan_mesher (s : surface) (_ : R) : list mtri := match sf_ext s with p :: l => fan_from p l | [] => [] end.
Lemma fan_turns phi g : mesher_turns fan_mesher phi g.
Proof.
  intros s m _. unfold fan_mesher. cbn [sf_ext]. destruct (sf_ext s) as [|p l]; [reflexivity|]. cbn [map].
  induction l as [|q [|r l] IH]; [reflexivity|reflexivity|]. cbn [map fan_from]. f_equal. exact IH.
Qed.
Example C56_fiber_example phi : exists F, fst (integrate_profile (fiber_integ (stiff_laws 1000) fan_mesher) (1/10) plate (0, 1, 0) st_init) = Ok F /\
  fst (integrate_profile (fiber_integ (stiff_laws 1000) fan_mesher) (1/10) (spun_section phi plate) (spun3 phi (0, 1, 0)) st_init) = Ok (spun3 phi F).
Proof.
  destruct (C56_fiber_field (stiff_laws 1000) fan_mesher (sym_traits (1/1000)) (1/10) plate phi [] st_init [] st_init (stiff_batched 1000) ltac:(lra) (fan_turns _ _) ltac:(intros o []) (h_new _ _ _ _) (h_new _ _ _ _)) as (TF & _).
  specialize (TF (0, 1, 0)).
  assert (E : exists F, fst (integrate_profile (fiber_integ (stiff_laws 1000) fan_mesher) (1/10) plate (0, 1, 0) st_init) = Ok F).
  { unfold integrate_profile, forces_k. cbn [ig_forces fiber_integ st_data st_init].
    destruct (C19_forces (stiff_laws 1000) fan_mesher plate 0 1 0 (1/10) (stiff_batched 1000) ltac:(lra)) as (d & E & _); [left; discriminate|].
    rewrite E. eexists. reflexivity. }
  destruct E as (F & E). rewrite E in TF. exists F. split; [exact E|exact TF].
Qed.

(** * What does not turn: the limits of the axial force *)
Definition uneven (k : nat) (_ : bool) : R * R := match k with O => (- (1/100), 1/100) | _ => (- (2/100), 2/100) end.
Definition uneven_traits : traits := {| tr_ult := uneven; tr_conc := fun _ => false; tr_rc := false |}.
Definition uneven_bars (z : R) : compound := {| cg_surf := [];
  cg_bars := [ {| br_y := 0; br_z := 0; br_area := 1; br_law := 0 |}; {| br_y := 0; br_z := z; br_area := 1; br_law := 1 |} ] |}.
Lemma uneven_over : spun_section PI (uneven_bars 1) = uneven_bars (-1).
Proof.
  unfold spun_section, uneven_bars, spun. cbn [cg_surf cg_bars map br_y br_z br_area br_law fst snd]. rewrite cos_PI, sin_PI.
  replace (-1 * 0 - 0 * 0) with 0 by ring. replace (0 * 0 + -1 * 0) with 0 by ring. replace (-1 * 0 - 0 * 1) with 0 by ring. replace (0 * 0 + -1 * 1) with (-1) by ring. reflexivity.
Qed.
Lemma uneven_balanced1 : balanced false false (items_of uneven_traits (uneven_bars 1)) = Ok (1, 0, (-2/100 + 3/100, - (3/100), 0)).
Proof.
  unfold balanced, items_of, uneven_bars, uneven_traits, uneven. cbn [cg_surf cg_bars map app list_prod br_z br_law tr_ult tr_conc fold_left]. unfold pair_step. cbn [im_lo im_hi im_ult im_conc fst snd andb orb negb].
  destruct (Rleb_spec 0 0); [|lra]. destruct (Rleb_spec 1 0); [lra|]. replace (- (1/100 - - (2/100)) / (0 - 1)) with (3/100) by field. destruct (Rltb_spec (3/100) (10 ^ 10)); [|cbn [pow] in *; lra].
  destruct (Rleb_spec 0 1); [|lra]. destruct (Rleb_spec 1 1); [|lra]. apply f_equal. apply f_equal2; [reflexivity|]. apply f_equal2; [|reflexivity]. apply f_equal2; field.
Qed.
Lemma uneven_balanced2 : balanced false false (items_of uneven_traits (uneven_bars (-1))) = Ok (0, -1, (-1/100, - (3/100), 0)).
Proof.
  unfold balanced, items_of, uneven_bars, uneven_traits, uneven. cbn [cg_surf cg_bars map app list_prod br_z br_law tr_ult tr_conc fold_left]. unfold pair_step. cbn [im_lo im_hi im_ult im_conc fst snd andb orb negb].
  destruct (Rleb_spec 0 0); [|lra]. destruct (Rleb_spec (-1) 0); [|lra]. destruct (Rleb_spec 0 (-1)); [lra|]. replace (- (2/100 - - (1/100)) / (-1 - 0)) with (3/100) by field. destruct (Rltb_spec (3/100) (10 ^ 10)); [|cbn [pow] in *; lra].
  destruct (Rleb_spec (-1) (-1)); [|lra]. apply f_equal. apply f_equal2; [reflexivity|]. apply f_equal2; [|reflexivity]. apply f_equal2; field.
Qed.
Lemma uneven_axial z e : exact_axial hooke (stiff_laws 1000) (uneven_bars z) 0 e 0 = 2000 * e.
Proof.
  unfold exact_axial, exact_forces, surfaces_turned. cbn [fst snd uneven_bars cg_surf cg_bars map]. rewrite lsum_nil.
  unfold bar_fibres, axial. cbn [uneven_bars cg_bars map]. rewrite !lsum_cons, !lsum_nil. cbn. unfold elastic_stress, plane_strain. cbn. ring.
Qed.
Theorem C56_limits_refuted : exists laws t ms g phi lo hi lo' hi',
  (forall k, batched (laws k)) /\
  fst (run (marin_integ laws) t ms g OLimits st_init) = Ok (ALimits (lo, hi)) /\
  fst (run (marin_integ laws) t ms (spun_section phi g) OLimits st_init) = Ok (ALimits (lo', hi')) /\ lo <> lo' /\ hi <> hi'.
Proof.
  exists (stiff_laws 1000), uneven_traits, (1/10), (uneven_bars 1), PI, (-40), 20, (-20), 40.
  split; [apply stiff_batched|]. rewrite uneven_over.
  assert (DR : forall z, drawn (uneven_bars z)).
  { intros z. split; [intros s []|]. intros b b' [<- | [<- | []]] [<- | [<- | []]]; reflexivity. }
  pose proof (C54_limits (stiff_laws 1000) hooke uneven_traits (1/10) (uneven_bars 1) [] st_init _ _ _ (stiff_batched 1000) (DR 1) (h_new _ _ _ _)
    uneven_balanced1 (fun x e _ _ => hooke_field e 0 (sf_law x))) as E.
  pose proof (C54_limits (stiff_laws 1000) hooke uneven_traits (1/10) (uneven_bars (-1)) [] st_init _ _ _ (stiff_batched 1000) (DR (-1)) (h_new _ _ _ _)
    uneven_balanced2 (fun x e _ _ => hooke_field e 0 (sf_law x))) as E'.
  rewrite !uneven_axial in E, E'. unfold strain_at in E, E'. cbn [fst snd] in E, E'.
  cbn [run]. unfold amap. cbn [fst]. rewrite E, E'. cbn [rmap bind].
  split; [do 2 f_equal; apply f_equal2; field|]. split; [do 2 f_equal; apply f_equal2; field|]. lra.
Qed.
Print Assumptions C56_limits_refuted.
