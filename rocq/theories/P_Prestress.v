(** C63: initial strains in sections. *)
From Coq Require Import FunctionalExtensionality Lra Lia.
From Verif Require Import Base M_Marin S_Marin M_Laws S_Laws M_Laws2 S_Laws2 M_Fiber S_Fiber L_Fiber P_Fiber M_MarinInt S_MarinInt P_MarinInt M_Section L_Turn L_Turn2 L_Turn3 L_Turn4 L_Order3 S_Scale L_Scale P_Scale M_Prestress S_Prestress L_Section4 P_Section P_Exact.

(** * The wrapped law in arrays *)
Theorem C63_batched : forall w e0 c, batched w -> batched (initial_law (is_init w e0 c)).
Proof.
  intros w e0 c (B1 & B2). split; intros eps; cbn [initial_law is_init lw_stress_arr lw_tangent_arr lw_stress lw_tangent is_law is_e0 is_s0 is_compat fst].
  - rewrite B1, map_map. unfold is_stress. cbn [is_law is_e0 is_s0 is_compat]. destruct c; [reflexivity|]. rewrite map_map. reflexivity.
  - unfold is_tangent. cbn [is_law is_e0 is_s0 is_compat]. destruct c; [|reflexivity]. rewrite B2, map_map. reflexivity.
Qed.
Print Assumptions C63_batched.

(** * One more bar *)
Definition only (b : bar) : compound := {| cg_surf := []; cg_bars := [b] |}.
Lemma with_joined g b : with_bar g b = joined g (only b).
Proof. destruct g as [ss bs]. unfold with_bar, joined, only. cbn [cg_surf cg_bars]. rewrite app_nil_r. reflexivity. Qed.
Lemma only_outlined b : outlined (only b). Proof. intros s []. Qed.
Lemma only_equal b : equal_groups (only b). Proof. intros x x' [<-|[]] [<-|[]]. reflexivity. Qed.
Lemma only_fiber laws mesher what b p m : (forall k, batched (laws k)) -> what <> IOther -> 0 < m <= 1 ->
  exists v d, prepare_input laws mesher (only b) p what None (Some m) = Ok (v, d) /\ forall i j, vm i j v = vm i j [law_entry laws what p (br_law b) (fibre_of_bar b)].
Proof.
  intros B W M. pose proof (fiber_entries laws mesher what (only b) p m B W M) as P.
  destruct (prepare_input laws mesher (only b) p what None (Some m)) as [[v d]|e]; [|destruct P as (_ & _ & X); discriminate].
  exists v, d. split; [reflexivity|]. intros i j. rewrite <- (vm_perm _ _ _ _ P). reflexivity.
Qed.
Lemma bar_strain_eq b p : fibre_strain p (fibre_of_bar b) = bar_strain b p.
Proof. destruct p as [[e ky] kz]. unfold fibre_strain, fibre_of_bar, bar_strain, plane_strain, p_e0, p_ky, p_kz. cbn [fst snd fb_y fb_z]. ring. Qed.
(** Both integrators: a bar adds its force and its stiffness. *)
Theorem C63_bar_fiber : forall laws mesher g b p m, (forall k, batched (laws k)) -> 0 < m <= 1 ->
  let l := laws (br_law b) in
  (forall F d, fiber_forces laws mesher g p None (Some m) = Ok (F, d) ->
   exists d', fiber_forces laws mesher (with_bar g b) p None (Some m) = Ok (plus3 F (pulled b (lw_stress l (bar_strain b p) * br_area b)), d')) /\
  (forall K d, fiber_stiffness laws mesher g p None (Some m) = Ok (K, d) ->
   exists K' d', fiber_stiffness laws mesher (with_bar g b) p None (Some m) = Ok (K', d') /\ stiffened b (lw_tangent l (bar_strain b p) * br_area b) K K').
Proof.
  intros laws mesher g b p m B M l. rewrite with_joined. destruct (C62_fiber_sum laws mesher g (only b) p m B M) as (SF & SK). split; intros X d E.
  - destruct (only_fiber laws mesher IStress b p m B ltac:(discriminate) M) as (v & d2 & E2 & V).
    assert (EO : fiber_forces laws mesher (only b) p None (Some m) = Ok (pulled b (lw_stress l (bar_strain b p) * br_area b), d2)).
    { unfold fiber_forces. rewrite E2. cbn [bind fst snd]. do 2 f_equal. rewrite stress_vm, !V. unfold vm, law_entry, pulled, lsum, ans. rewrite bar_strain_eq. fold l.
      cbn [map fold_left fst snd fb_y fb_z fb_a fibre_of_bar pow]. apply pair3; ring. }
    exact (SF X _ d d2 E EO).
  - destruct (only_fiber laws mesher IModulus b p m B ltac:(discriminate) M) as (v & d2 & E2 & V).
    destruct (SK X (f_integrate_modulus v) d d2 E) as (K & d' & EJ & S); [unfold fiber_stiffness; rewrite E2; reflexivity|].
    exists K, d'. split; [exact EJ|]. intros i j Hi Hj. rewrite (S i j Hi Hj). f_equal. rewrite (modulus_vm v i j Hi Hj).
    destruct i as [|[|[|i]]], j as [|[|[|j]]]; try (exfalso; lia); cbn [matrix_of]; rewrite V; unfold vm, law_entry, lsum, ans, arm; rewrite bar_strain_eq; fold l;
      cbn [map fold_left fst snd fb_y fb_z fb_a fibre_of_bar pow]; ring.
Qed.
Print Assumptions C63_bar_fiber.
Theorem C63_bar_marin : forall laws fs g b p, (forall k, batched (laws k)) ->
  outlined g -> equal_groups g -> equal_groups (with_bar g b) ->
  let l := laws (br_law b) in
  (described_at IStress laws fs g p ->
   exists F d d', marin_forces laws g p None = Ok (F, d) /\
     marin_forces laws (with_bar g b) p None = Ok (plus3 F (pulled b (lw_stress l (bar_strain b p) * br_area b)), d')) /\
  (described_at IModulus laws fs g p ->
   exists K K' d d', marin_stiffness laws g p None = Ok (K, d) /\ marin_stiffness laws (with_bar g b) p None = Ok (K', d') /\
     stiffened b (lw_tangent l (bar_strain b p) * br_area b) K K').
Proof.
  intros laws fs g b [[e ky] kz] B O Q QJ l. rewrite with_joined in *.
  destruct (C62_marin_sum laws fs g (only b) (e, ky, kz) B O (only_outlined b) Q (only_equal b) QJ) as (SF & SK). split; intros D.
  - destruct (SF D) as (F1 & F2 & d1 & d2 & d & E1 & E2 & E); [intros s []|].
    destruct (C21_forces laws fs (only b) e ky kz B ltac:(intros s []) (only_equal b)) as (a & N & My & Mz & d3 & _ & _ & E3 & EN & EY & EZ).
    rewrite E3 in E2. injection E2 as <- <-. exists F1, d1, d. split; [exact E1|]. rewrite E, EN, EY, EZ. do 3 f_equal.
    unfold surfaces_turned, axial, moment_y, moment_z, bar_fibres, only, lsum, pulled, bar_strain. cbn [cg_surf cg_bars map fold_left mfibre_at m_sigma m_a m_y m_z]. fold l. apply pair3; ring.
  - destruct (SK D) as (K1 & K2 & K & d1 & d2 & d & E1 & E2 & E & S); [intros s []|].
    destruct (C21_stiffness laws fs (only b) e ky kz B ltac:(intros s []) (only_equal b)) as (a & K3 & d3 & _ & _ & E3 & EK & _).
    rewrite E3 in E2. injection E2 as <- <-. exists K1, K, d1, d. split; [exact E1|]. split; [exact E|]. intros i j Hi Hj. rewrite (S i j Hi Hj), (EK i j Hi Hj).
    unfold surfaces_turned, stiff, bar_fibres, only, lsum, bar_strain. cbn [cg_surf cg_bars map fold_left].
    unfold fibre_tangent, lever, mfibre_at. cbn [m_tangent m_a m_y m_z]. fold l.
    destruct i as [|[|[|i]]], j as [|[|[|j]]]; try (exfalso; lia); unfold arm; ring.
Qed.
Print Assumptions C63_bar_marin.

(** * Tendons *)
(** Bonded: the tendon carries the stress of its law at the section's strain plus the initial strain. *)
Theorem C63_bonded_tendon_fiber : forall laws mesher g b p m w e0, (forall k, batched (laws k)) -> 0 < m <= 1 ->
  laws (br_law b) = initial_law (is_init w e0 true) ->
  (forall F d, fiber_forces laws mesher g p None (Some m) = Ok (F, d) ->
   exists d', fiber_forces laws mesher (with_bar g b) p None (Some m) = Ok (plus3 F (pulled b (lw_stress w (bar_strain b p + e0) * br_area b)), d')) /\
  (forall K d, fiber_stiffness laws mesher g p None (Some m) = Ok (K, d) ->
   exists K' d', fiber_stiffness laws mesher (with_bar g b) p None (Some m) = Ok (K', d') /\ stiffened b (lw_tangent w (bar_strain b p + e0) * br_area b) K K').
Proof.
  intros laws mesher g b p m w e0 B M E. pose proof (C63_bar_fiber laws mesher g b p m B M) as X. cbv zeta in X. rewrite E in X. exact X.
Qed.
Print Assumptions C63_bonded_tendon_fiber.
Theorem C63_bonded_tendon_marin : forall laws fs g b p w e0, (forall k, batched (laws k)) ->
  outlined g -> equal_groups g -> equal_groups (with_bar g b) ->
  laws (br_law b) = initial_law (is_init w e0 true) ->
  (described_at IStress laws fs g p ->
   exists F d d', marin_forces laws g p None = Ok (F, d) /\
     marin_forces laws (with_bar g b) p None = Ok (plus3 F (pulled b (lw_stress w (bar_strain b p + e0) * br_area b)), d')) /\
  (described_at IModulus laws fs g p ->
   exists K K' d d', marin_stiffness laws g p None = Ok (K, d) /\ marin_stiffness laws (with_bar g b) p None = Ok (K', d') /\
     stiffened b (lw_tangent w (bar_strain b p + e0) * br_area b) K K').
Proof.
  intros laws fs g b p w e0 B O Q QJ E. pose proof (C63_bar_marin laws fs g b p B O Q QJ) as X. cbv zeta in X. rewrite E in X. exact X.
Qed.
Print Assumptions C63_bonded_tendon_marin.
(** Unbonded: the tendon carries the same force whatever the section does; its stiffness is one millionth. *)
Lemma unbonded_stress w e0 e : lw_stress (initial_law (is_init w e0 false)) e = lw_stress w e0.
Proof. cbn [initial_law lw_stress]. unfold is_stress, is_init. cbn [is_law is_e0 is_s0 is_compat]. ring. Qed.
Lemma unbonded_tangent w e0 e : lw_tangent (initial_law (is_init w e0 false)) e = lw_tangent w 0 / 1000000.
Proof. reflexivity. Qed.
Theorem C63_unbonded_tendon_fiber : forall laws mesher g b p m w e0, (forall k, batched (laws k)) -> 0 < m <= 1 ->
  laws (br_law b) = initial_law (is_init w e0 false) ->
  (forall F d, fiber_forces laws mesher g p None (Some m) = Ok (F, d) ->
   exists d', fiber_forces laws mesher (with_bar g b) p None (Some m) = Ok (plus3 F (pulled b (lw_stress w e0 * br_area b)), d')) /\
  (forall K d, fiber_stiffness laws mesher g p None (Some m) = Ok (K, d) ->
   exists K' d', fiber_stiffness laws mesher (with_bar g b) p None (Some m) = Ok (K', d') /\ stiffened b (lw_tangent w 0 / 1000000 * br_area b) K K').
Proof.
  intros laws mesher g b p m w e0 B M E. pose proof (C63_bar_fiber laws mesher g b p m B M) as X. cbv zeta in X. rewrite E, unbonded_stress, unbonded_tangent in X. exact X.
Qed.
Print Assumptions C63_unbonded_tendon_fiber.
Theorem C63_unbonded_tendon_marin : forall laws fs g b p w e0, (forall k, batched (laws k)) ->
  outlined g -> equal_groups g -> equal_groups (with_bar g b) ->
  laws (br_law b) = initial_law (is_init w e0 false) ->
  (described_at IStress laws fs g p ->
   exists F d d', marin_forces laws g p None = Ok (F, d) /\
     marin_forces laws (with_bar g b) p None = Ok (plus3 F (pulled b (lw_stress w e0 * br_area b)), d')) /\
  (described_at IModulus laws fs g p ->
   exists K K' d d', marin_stiffness laws g p None = Ok (K, d) /\ marin_stiffness laws (with_bar g b) p None = Ok (K', d') /\
     stiffened b (lw_tangent w 0 / 1000000 * br_area b) K K').
Proof.
  intros laws fs g b p w e0 B O Q QJ E. pose proof (C63_bar_marin laws fs g b p B O Q QJ) as X. cbv zeta in X. rewrite E, unbonded_stress, unbonded_tangent in X. exact X.
Qed.
Print Assumptions C63_unbonded_tendon_marin.

(** * The same initial strain in every material is a shift of the axial strain (fibre integrator) *)
Lemma entries_ext what laws laws' s s' (H : forall k f, ans what (laws k) (fibre_strain s f) = ans what (laws' k) (fibre_strain s' f)) gs :
  entries_at laws what (fibre_strain s) gs = entries_at laws' what (fibre_strain s') gs.
Proof.
  unfold entries_at. induction gs as [|g gs IH]; [reflexivity|]. cbn [flat_map]. rewrite IH. f_equal. apply map_ext. intros f. unfold fibre_entry. now rewrite H.
Qed.
Lemma shifted_fibre e ky kz e0 f : fibre_strain (e + e0, ky, kz) f = fibre_strain (e, ky, kz) f + e0.
Proof. unfold fibre_strain, p_e0, p_ky, p_kz. cbn [fst snd]. ring. Qed.
Theorem C63_common_strain : forall laws e0 mesher g e ky kz data m, (forall k, batched (laws k)) ->
  let laws' k := initial_law (is_init (laws k) e0 true) in
  fiber_forces laws' mesher g (e, ky, kz) data m = fiber_forces laws mesher g (e + e0, ky, kz) data m /\
  fiber_stiffness laws' mesher g (e, ky, kz) data m = fiber_stiffness laws mesher g (e + e0, ky, kz) data m.
Proof.
  intros laws e0 mesher g e ky kz data m B laws'.
  assert (B' : forall k, batched (laws' k)) by (intros k; apply C63_batched, B).
  unfold fiber_forces, fiber_stiffness, prepare_input.
  destruct (match data with Some d => Ok d | None => triangulate mesher g (match m with Some m0 => m0 | None => 1 / 100 end) end) as [gs|x]; [|split; reflexivity].
  cbn [bind]. rewrite !(prepared laws B), !(prepared laws' B') by discriminate.
  rewrite (entries_ext IStress laws' laws (e, ky, kz) (e + e0, ky, kz)), (entries_ext IModulus laws' laws (e, ky, kz) (e + e0, ky, kz)).
  - split; reflexivity.
  - intros k f. cbn [ans laws' initial_law lw_tangent]. unfold is_tangent, is_init. cbn [is_law is_e0 is_compat]. now rewrite shifted_fibre.
  - intros k f. cbn [ans laws' initial_law lw_stress]. unfold is_stress, is_init. cbn [is_law is_e0 is_s0 is_compat]. now rewrite shifted_fibre.
Qed.
Print Assumptions C63_common_strain.

(** * Linear elastic materials with an initial strain, in surfaces too (exact integrator) *)
Theorem C63_elastic_field : forall E u e0 c e r,
  let l := initial_law (is_init (elastic_law {| el_E := E; el_u := u |}) e0 c) in
  field_of (lw_marin l (e, r)) (fun x => E * (x + e0)) e r /\ field_of (lw_marin_tangent l (e, r)) (fun _ => E) e r.
Proof.
  intros E u e0 c e r l. subst l. cbn [initial_law lw_marin lw_marin_tangent]. unfold is_marin, is_marin_tangent, is_init. cbn [is_law is_e0 elastic_law lw_marin lw_marin_tangent fst snd].
  unfold elastic_marin, elastic_marin_tangent. cbn [fst snd el_E].
  split; (split; [reflexivity|]); cbn [fst snd]; unfold describes; cbn [fst snd]; eexists; (split; [reflexivity|]); intros; unfold poly; cbn [fold_right]; ring.
Qed.
Print Assumptions C63_elastic_field.

(** * A plate of elastic material with a tendon, exact integrator *)
Definition tendon_laws (c : bool) (k : nat) : law :=
  match k with 0%nat => stiff_laws 1000 0 | _ => initial_law (is_init (elastic_law {| el_E := 200000; el_u := None |}) (1/200) c) end.
Definition tendon : bar := {| br_y := 0; br_z := 1/2; br_area := 1/100; br_law := 1 |}.
Lemma tendon_batched c k : batched (tendon_laws c k).
Proof. destruct k as [|k]; [apply stiff_batched|]. apply C63_batched, elastic_batched. Qed.
Example C63_example : forall p, (exists F d d', marin_forces (tendon_laws true) plate p None = Ok (F, d) /\
   marin_forces (tendon_laws true) (with_bar plate tendon) p None = Ok (plus3 F (pulled tendon (200000 * (bar_strain tendon p + 1/200) * (1/100))), d')) /\
  (exists F d d', marin_forces (tendon_laws false) plate p None = Ok (F, d) /\
   marin_forces (tendon_laws false) (with_bar plate tendon) p None = Ok (plus3 F (pulled tendon 10), d')) /\
  fiber_forces (tendon_laws true) (fun _ _ => []) plate p None (Some (1/10)) <> Err ValueError.
Proof.
  intros p. assert (O : outlined plate) by (intros s [<-|[]]; split; [reflexivity|intros q []]).
  assert (Q : equal_groups plate) by (intros b b' []).
  assert (QJ : equal_groups (with_bar plate tendon)) by (intros b b' [<-|[]] [<-|[]]; reflexivity).
  assert (D : forall c, described_at IStress (tendon_laws c) hooke plate p) by (intros c; destruct p as [[e ky] kz]; intros s [<-|[]]; apply hooke_field).
  split; [|split].
  - exact (proj1 (C63_bonded_tendon_marin (tendon_laws true) hooke plate tendon p _ (1/200) (tendon_batched true) O Q QJ eq_refl) (D true)).
  - destruct (proj1 (C63_unbonded_tendon_marin (tendon_laws false) hooke plate tendon p _ (1/200) (tendon_batched false) O Q QJ eq_refl) (D false)) as (F & d & d' & E1 & E2).
    exists F, d, d'. split; [exact E1|]. rewrite E2. do 4 f_equal. cbn [elastic_law lw_stress tendon br_area]. unfold elastic_stress. cbn [el_E]. field.
  - intros X. unfold fiber_forces, prepare_input, triangulate in X. destruct (Rleb_spec (1/10) 0); [lra|]. destruct (Rltb_spec 1 (1/10)); [lra|].
    cbn in X. discriminate.
Qed.
