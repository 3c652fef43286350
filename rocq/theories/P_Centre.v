(** C65: sections that half a turn about the origin leaves as they are. *)
From Coq Require Import Permutation Lra Lia.
From Verif Require Import Base L_Cracked7 L_Section4 L_Exact P_Exact L_Laws2 M_Marin S_Marin L_Marin M_Laws S_Laws M_Laws2 S_Laws2 M_Fiber S_Fiber L_Fiber M_MarinInt L_MarinInt2 L_MarinInt3 M_Section S_Section L_Section M_Domain S_History L_History
  P_Fiber P_MarinInt P_Section S_Frame S_MarinInt S_Exact S_Turn P_Frame P_Turn S_Move P_Move S_Mesh L_Move4 S_Pieces L_Pieces L_Pieces2 L_Pieces3 L_Pieces4 P_Pieces S_Order L_Order L_Order4 P_Order S_Odd P_Odd.

Lemma half_turn u v : spun PI u v = (- u, - v).
Proof. unfold spun. rewrite cos_PI, sin_PI. f_equal; ring. Qed.
Lemma half_turn3 e ky kz : spun3 PI (e, ky, kz) = (e, - ky, - kz).
Proof. unfold spun3. cbn [fst snd]. rewrite half_turn. reflexivity. Qed.
Lemma place_profile p : moved_profile 1 0 0 p = p.
Proof. destruct p as [[e ky] kz]. unfold moved_profile. repeat (apply f_equal2; [|ring]). ring. Qed.
Lemma place_forces F : moved_forces 1 0 0 F = F.
Proof. destruct F as [[N My] Mz]. unfold moved_forces. repeat (apply f_equal2; [|ring]). reflexivity. Qed.
Lemma rmap_id A (f : A -> A) r : (forall x, f x = x) -> rmap f r = r.
Proof. intros F. destruct r; cbn; [rewrite F|]; reflexivity. Qed.


(** What the answers of the exact integrator depend on. *)
Lemma marin_fresh laws t ms g ops s o : (forall k, batched (laws k)) -> history (marin_integ laws) t ms g ops s ->
  fst (run (marin_integ laws) t ms g o s) = fst (run (marin_integ laws) t ms g o st_init).
Proof.
  intros B H. pose proof (marin_coherent laws g (Some ms) B) as CO. pose proof (marin_coherent laws g None B) as CN.
  pose proof (history_srel _ t ms g _ CO ops s (fun o _ => or_intror CN) H) as SR. pose proof (init_srel (marin_integ laws) t ms g (map unscalar (bar_groups (cg_bars g)))) as SI.
  rewrite (proj1 (run_good _ t ms g _ CO o (or_intror CN) _ _ SR)). symmetry. exact (proj1 (run_good _ t ms g _ CO o (or_intror CN) _ _ SI)).
Qed.
Lemma profile_fresh laws t ms g ops s p : (forall k, batched (laws k)) -> history (marin_integ laws) t ms g ops s ->
  fst (integrate_profile (marin_integ laws) ms g p s) = fst (integrate_profile (marin_integ laws) ms g p st_init).
Proof.
  intros B H. pose proof (marin_fresh laws t ms g ops s (OProfile p) B H) as E. cbn [run] in E. unfold amap in E. cbn [fst] in E.
  destruct (fst (integrate_profile _ ms g p s)), (fst (integrate_profile _ ms g p st_init)); cbn [rmap] in E; congruence.
Qed.
Lemma strain_fresh laws t ms g ops s l i k e : (forall k, batched (laws k)) -> history (marin_integ laws) t ms g ops s ->
  fst (strain_profile (marin_integ laws) ms g l i k e s) = fst (strain_profile (marin_integ laws) ms g l i k e st_init).
Proof.
  intros B H. pose proof (marin_fresh laws t ms g ops s (OStrain l i k e) B H) as E. cbn [run] in E. unfold amap in E. cbn [fst] in E.
  destruct (fst (strain_profile _ ms g l i k e s)), (fst (strain_profile _ ms g l i k e st_init)); cbn [rmap] in E; congruence.
Qed.
Lemma filter_count A (f : A -> bool) l l' : Permutation l l' -> length (filter f l) = length (filter f l').
Proof. induction 1; cbn; [reflexivity|destruct (f x); cbn; congruence|destruct (f x), (f y); reflexivity|congruence]. Qed.
Lemma drawn_reordered g g' : reordered g g' -> drawn g -> drawn g'.
Proof.
  intros (PS & PB) (S & C). split.
  - intros s I. apply S. exact (Permutation_in _ (Permutation_sym PS) I).
  - intros b b' I I'. unfold count_law. rewrite <- !(filter_count _ _ _ _ PB). apply C; [exact (Permutation_in _ (Permutation_sym PB) I)|exact (Permutation_in _ (Permutation_sym PB) I')].
Qed.
(** Forces and strain profile do not depend on the order of the surfaces and bars. *)
Lemma order_plain laws fs ts ms g g' : (forall k, batched (laws k)) -> reordered g g' -> drawn_surfaces g ->
  closed_rings g -> follows laws fs g -> follows_tangent laws ts g -> steady laws g -> repeats laws g -> write_alike laws g ->
  (forall p, fst (integrate_profile (marin_integ laws) ms g' p st_init) = fst (integrate_profile (marin_integ laws) ms g p st_init)) /\
  (forall l i k e, fst (strain_profile (marin_integ laws) ms g' l i k e st_init) = fst (strain_profile (marin_integ laws) ms g l i k e st_init)).
Proof.
  intros B RO DS CR FO FT ST RE WA. set (t := sym_traits (1/1000)).
  assert (AZ : around_zero t) by (intros k y; cbn; lra).
  assert (OF : one_failure t g) by (apply (C61_one_material t g (fun _ => - (1/1000)) (fun _ => 1/1000)); [reflexivity|intros; lra|reflexivity..]).
  destruct (C61_marin laws fs ts t ms g g' B RO AZ DS OF CR FO FT ST RE WA) as (_ & Q). specialize (Q [] st_init st_init (h_new _ _ _ _) (h_new _ _ _ _)). split.
  - intros p. specialize (Q (OProfile p)). cbn [run] in Q. unfold amap in Q. cbn [fst] in Q.
    destruct (fst (integrate_profile _ ms g' p st_init)), (fst (integrate_profile _ ms g p st_init)); cbn [rmap] in Q; congruence.
  - intros l i k e. specialize (Q (OStrain l i k e)). cbn [run] in Q. unfold amap in Q. cbn [fst] in Q.
    destruct (fst (strain_profile _ ms g' l i k e st_init)), (fst (strain_profile _ ms g l i k e st_init)); cbn [rmap] in Q; congruence.
Qed.

(** Any materials.  [g1] lists the surfaces and bars of the section [g] in another order, in
    which each is the half-turned one of [g]: reversing the curvatures reverses the moments. *)
Theorem C65_half_turn : forall laws fs ts t ms g g1 ops s,
  (forall k, batched (laws k)) -> drawn g -> drawn_surfaces g ->
  follows laws fs g -> follows_tangent laws ts g -> steady laws g -> repeats laws g -> write_alike laws g ->
  reordered g g1 -> moved 1 0 0 g1 (spun_section PI g) ->
  let ig := marin_integ laws in
  history ig t ms g ops s ->
  (forall p, fst (integrate_profile ig ms g (spun3 PI p) s) = rmap (spun3 PI) (fst (integrate_profile ig ms g p s))) /\
  (forall loads initial max_iter tol,
     fst (strain_profile ig ms g (spun3 PI loads) initial max_iter tol s) = rmap (spun3 PI) (fst (strain_profile ig ms g loads initial max_iter tol s))).
Proof.
  intros laws fs ts t ms g g1 ops s B DR DS FO FT ST RE WA RO MV ig H.
  pose proof (h_new ig t ms (spun_section PI g)) as H'. pose proof (h_new ig t ms g) as H0. pose proof (h_new ig t ms g1) as H1.
  destruct (C56_marin_field laws t ms g PI [] st_init [] st_init B ST H0 H') as (TF & _ & _ & TS).
  destruct (order_plain laws fs ts ms g g1 B RO DS (proj1 DR) FO FT ST RE WA) as (OF & OS).
  assert (IN : forall x, In x (cg_surf g1) -> In x (cg_surf g)) by (intros x; apply Permutation_in, Permutation_sym, RO).
  assert (ST1 : steady laws g1) by (intros x e I; exact (ST x e (IN x I))).
  assert (FO1 : follows laws fs g1) by (intros x e r I; exact (FO x e r (IN x I))).
  assert (FT1 : follows_tangent laws ts g1) by (intros x e r I; exact (FT x e r (IN x I))).
  pose proof (drawn_reordered g g1 RO DR) as DR1.
  destruct (C58_marin laws fs t ms 1 0 0 g1 (spun_section PI g) [] st_init [] st_init B ST1 DR1 FO1 (or_introl eq_refl) MV H1 H') as (MF & _).
  destruct (C58_marin_mirror laws fs ts t ms 1 g1 (spun_section PI g) [] st_init [] st_init B ST1 DR1 FO1 (or_introl eq_refl) MV H1 H') as (_ & MS).
  split.
  - intros p. unfold ig. rewrite !(profile_fresh laws t ms g ops s _ B H). rewrite <- (TF p). specialize (MF (spun3 PI p)). rewrite place_profile in MF. rewrite MF, OF. symmetry. apply rmap_id. exact place_forces.
  - intros loads i mx tol. unfold ig. rewrite !(strain_fresh laws t ms g ops s _ _ _ _ B H). rewrite <- (TS loads i mx tol).
    destruct (spun3 PI loads) as [[N My] Mz]. specialize (MS FT1 N My Mz i mx tol). rewrite Rmult_1_l in MS. rewrite MS, OS.
    symmetry. apply rmap_id. intros [[e ky] kz]. rewrite Rmult_1_l. reflexivity.
Qed.
Print Assumptions C65_half_turn.

(** Two-sided materials: in pure bending no axial force, and no axial strain at the reference point. *)
Theorem C65_centre : forall laws fs ts t ms g g1 ops s,
  (forall k, batched (laws k)) -> (forall k, S_Odd.two_sided (laws k)) -> drawn g -> drawn_surfaces g ->
  (forall x, In x (cg_surf g) -> two_sided_uniform (laws (sf_law x)) /\ odd_curve (fs (sf_law x)) /\ even_curve (ts (sf_law x))) ->
  follows laws fs g -> follows_tangent laws ts g -> steady laws g -> repeats laws g -> write_alike laws g ->
  reordered g g1 -> moved 1 0 0 g1 (spun_section PI g) ->
  let ig := marin_integ laws in
  history ig t ms g ops s ->
  (forall e ky kz N My Mz, fst (integrate_profile ig ms g (e, ky, kz) s) = Ok (N, My, Mz) -> fst (integrate_profile ig ms g (- e, ky, kz) s) = Ok (- N, My, Mz)) /\
  (forall ky kz N My Mz, fst (integrate_profile ig ms g (0, ky, kz) s) = Ok (N, My, Mz) -> N = 0) /\
  (forall initial max_iter tol,
     (forall N My Mz e ky kz, fst (strain_profile ig ms g (N, My, Mz) initial max_iter tol s) = Ok (e, ky, kz) ->
        fst (strain_profile ig ms g (- N, My, Mz) initial max_iter tol s) = Ok (- e, ky, kz)) /\
     (forall My Mz e ky kz, fst (strain_profile ig ms g (0, My, Mz) initial max_iter tol s) = Ok (e, ky, kz) -> e = 0)).
Proof.
  intros laws fs ts t ms g g1 ops s B TS DR DS OE FO FT ST RE WA RO MV ig H.
  assert (TU : forall x, In x (cg_surf g) -> two_sided_uniform (laws (sf_law x))) by (intros x I; apply (OE x I)).
  assert (OD : forall x, In x (cg_surf g) -> odd_curve (fs (sf_law x))) by (intros x I; apply (OE x I)).
  assert (EV : forall x, In x (cg_surf g) -> even_curve (ts (sf_law x))) by (intros x I; apply (OE x I)).
  destruct (C65_half_turn laws fs ts t ms g g1 ops s B DR DS FO FT ST RE WA RO MV H) as (HF & HS).
  destruct (C65_marin laws fs ts t ms g ops s B TS DR TU FO OD H) as (OF & _ & OS).
  assert (F : forall e ky kz N My Mz, fst (integrate_profile ig ms g (e, ky, kz) s) = Ok (N, My, Mz) -> fst (integrate_profile ig ms g (- e, ky, kz) s) = Ok (- N, My, Mz)).
  { intros e ky kz N My Mz E. specialize (OF (spun3 PI (e, ky, kz))). specialize (HF (e, ky, kz)). fold ig in OF, HF. rewrite HF, E in OF. cbn [rmap] in OF. rewrite !half_turn3 in OF. unfold opposite in OF. cbn [fst snd] in OF. rewrite !Ropp_involutive in OF. exact OF. }
  split; [exact F|]. split.
  - intros ky kz N My Mz E. pose proof (F _ _ _ _ _ _ E) as E'. rewrite Ropp_0, E in E'. injection E' as E'. lra.
  - intros initial max_iter tol.
    assert (G : forall N My Mz e ky kz, fst (strain_profile ig ms g (N, My, Mz) initial max_iter tol s) = Ok (e, ky, kz) ->
        fst (strain_profile ig ms g (- N, My, Mz) initial max_iter tol s) = Ok (- e, ky, kz)).
    { destruct (OS FT EV) as (_ & OS'). intros N My Mz e ky kz E. specialize (OS' (spun3 PI (N, My, Mz)) initial max_iter tol). specialize (HS (N, My, Mz) initial max_iter tol). fold ig in OS', HS.
      rewrite HS, E in OS'. cbn [rmap] in OS'. rewrite !half_turn3 in OS'. unfold opposite in OS'. cbn [fst snd] in OS'. rewrite !Ropp_involutive in OS'. exact OS'. }
    split; [exact G|]. intros My Mz e ky kz E. pose proof (G _ _ _ _ _ _ E) as E'. rewrite Ropp_0, E in E'. injection E' as E'. lra.
Qed.
Print Assumptions C65_centre.

(** C58, a section symmetric about the vertical axis with surfaces and bars in mirrored pairs:
    [g1] lists them in another order, in which each is the mirrored one of [g]. *)
Theorem C58_symmetric_pairs : forall laws fs ts t ms g g1 ops s n,
  (forall k, batched (laws k)) -> drawn g -> drawn_surfaces g ->
  follows laws fs g -> follows_tangent laws ts g -> steady laws g -> repeats laws g -> write_alike laws g ->
  around_zero t -> one_failure t g ->
  reordered g g1 -> moved (-1) 0 0 g1 g ->
  let ig := marin_integ laws in
  history ig t ms g ops s ->
  (forall r, fst (bending_strength ig t ms g 0 n s) = Ok r -> rs_mz r = 0 /\ rs_chiz r = 0) /\
  (forall chi_first npre npost chis l, fst (moment_curvature ig t ms g 0 n chi_first npre npost chis s) = Ok l ->
     forall e cy cz my mz, In (e, cy, cz, my, mz) l -> mz = 0 /\ cz = 0) /\
  (forall N My initial max_iter tol e ky kz, fst (strain_profile ig ms g (N, My, 0) initial max_iter tol s) = Ok (e, ky, kz) -> kz = 0).
Proof.
  intros laws fs ts t ms g g1 ops s n B DR DS FO FT ST RE WA AZ OF RO MV ig H. assert (SG : -1 = 1 \/ -1 = -1) by (right; reflexivity).
  pose proof (h_new ig t ms g) as H0. pose proof (h_new ig t ms g1) as H1.
  assert (IN : forall x, In x (cg_surf g1) -> In x (cg_surf g)) by (intros x; apply Permutation_in, Permutation_sym, RO).
  assert (ST1 : steady laws g1) by (intros x e I; exact (ST x e (IN x I))).
  assert (FO1 : follows laws fs g1) by (intros x e r I; exact (FO x e r (IN x I))).
  assert (FT1 : follows_tangent laws ts g1) by (intros x e r I; exact (FT x e r (IN x I))).
  pose proof (drawn_reordered g g1 RO DR) as DR1.
  destruct (C61_marin laws fs ts t ms g g1 B RO AZ DS OF (proj1 DR) FO FT ST RE WA) as (_ & Q). specialize (Q [] st_init st_init H0 H1).
  destruct (C58_marin laws fs t ms (-1) 0 0 g1 g [] st_init [] st_init B ST1 DR1 FO1 SG MV H1 H0) as (_ & _ & _ & ES & _).
  destruct (C58_marin_mirror laws fs ts t ms (-1) g1 g [] st_init [] st_init B ST1 DR1 FO1 SG MV H1 H0) as (EC & EP).
  split; [|split].
  - intros r E. pose proof (marin_fresh laws t ms g ops s (OStrength 0 n) B H) as F. pose proof (Q (OStrength 0 n)) as Q1.
    cbn [run] in F, Q1. unfold amap in F, Q1. cbn [fst] in F, Q1. fold ig in F, Q1. rewrite E in F. cbn [rmap] in F.
    specialize (ES 0 n). replace (-1 * 0) with 0 in ES by ring. fold ig in ES.
    destruct (fst (bending_strength ig t ms g 0 n st_init)) as [r0|]; cbn [rmap] in F; [|discriminate]. injection F as F. subst r0.
    destruct (fst (bending_strength ig t ms g1 0 n st_init)) as [r1|]; cbn [rmap] in Q1; [|discriminate]. injection Q1 as Q1. subst r1.
    cbn [rmap] in ES. injection ES as ES.
    pose proof (f_equal rs_mz ES) as Z1. pose proof (f_equal rs_chiz ES) as Z2. unfold moved_strength, moved_forces, moved_profile in Z1, Z2. cbn [fst snd rs_mz rs_chiz] in Z1, Z2. lra.
  - intros cf x y l L E e cy cz my mz I. pose proof (marin_fresh laws t ms g ops s (OCurvature 0 n cf x y l) B H) as F. pose proof (Q (OCurvature 0 n cf x y l)) as Q1.
    cbn [run] in F, Q1. unfold amap in F, Q1. cbn [fst] in F, Q1. fold ig in F, Q1. rewrite E in F. cbn [rmap] in F.
    specialize (EC 0 n cf x y l). replace (-1 * 0) with 0 in EC by ring. fold ig in EC.
    destruct (fst (moment_curvature ig t ms g 0 n cf x y l st_init)) as [r0|]; cbn [rmap] in F; [|discriminate]. injection F as F. subst r0.
    destruct (fst (moment_curvature ig t ms g1 0 n cf x y l st_init)) as [r1|]; cbn [rmap] in Q1; [|discriminate]. injection Q1 as Q1. subst r1.
    cbn [rmap] in EC. injection EC as EC. clear E.
    induction L as [|p L IH]; [destruct I|]. cbn [map] in EC. injection EC as EP1 EL. destruct I as [->|I]; [|exact (IH EL I)].
    unfold mirrored_point in EP1. injection EP1 as Z1 Z2. lra.
  - intros N My i mx tol e ky kz E. pose proof (Q (OStrain (N, My, 0) i mx tol)) as Q1.
    unfold ig in E. rewrite (strain_fresh laws t ms g ops s _ _ _ _ B H) in E. fold ig in E.
    cbn [run] in Q1. unfold amap in Q1. cbn [fst] in Q1. fold ig in Q1. rewrite E in Q1. cbn [rmap] in Q1.
    specialize (EP FT1 N My 0 i mx tol). replace (-1 * 0) with 0 in EP by ring. fold ig in EP. rewrite E in EP.
    destruct (fst (strain_profile ig ms g1 (N, My, 0) i mx tol st_init)) as [r1|]; cbn [rmap] in Q1; [|discriminate]. injection Q1 as Q1. subst r1.
    cbn [rmap] in EP. injection EP as Z. lra.
Qed.
Print Assumptions C58_symmetric_pairs.

(** The elastic plate, 1 by 2, centred at the origin, with two bars at (1/4, 3/4) and (-1/4, -3/4). *)
Definition plate_bars : compound := {| cg_surf := cg_surf plate;
  cg_bars := [ {| br_y := 1/4; br_z := 3/4; br_area := 1/100; br_law := 0 |}; {| br_y := - (1/4); br_z := - (3/4); br_area := 1/100; br_law := 0 |} ] |}.
Definition plate_bars_listed : compound := {| cg_surf := cg_surf plate; cg_bars := rev (cg_bars plate_bars) |}.
Lemma plate_bars_drawn : drawn plate_bars.
Proof. split; [exact (proj1 plate_drawn)|]. intros b b' [<-|[<-|[]]] [<-|[<-|[]]]; reflexivity. Qed.
Lemma plate_bars_order : reordered plate_bars plate_bars_listed.
Proof. split; [apply Permutation_refl|apply Permutation_rev]. Qed.
Lemma plate_bars_centred : moved 1 0 0 plate_bars_listed (spun_section PI plate_bars).
Proof.
  split.
  - constructor; [|constructor]. split; [reflexivity|]. split; [|exists []; split; [constructor|constructor]].
    split; [exact plate_shoelace|]. left. cbn [sf_ext edges map fst snd rect]. unfold place. cbn [fst snd]. rewrite !half_turn.
    repeat match goal with |- context [1 * ?x + 0] => replace (1 * x + 0) with x by ring end. rewrite !Rplus_0_r. replace (- (-1)) with 1 by ring. rewrite ?Ropp_involutive.
    replace (- (1)) with (-1) by ring.
    match goal with |- Permutation [?a; ?b; ?c; ?d] _ => apply (Permutation_app_comm [a; b] [c; d]) end.
  - cbn [spun_section plate_bars_listed plate_bars cg_bars rev app map]. constructor; [|constructor; [|constructor]];
      (split; [|split; reflexivity]); unfold place; cbn [br_y br_z br_area br_law fst snd]; rewrite half_turn; cbn [fst snd]; f_equal; ring.
Qed.
Example C65_centre_example ky kz : exists My Mz,
  fst (integrate_profile (marin_integ (stiff_laws 1000)) (1/10) plate_bars (0, ky, kz) st_init) = Ok (0, My, Mz).
Proof.
  assert (OE : forall x, In x (cg_surf plate_bars) -> two_sided_uniform (stiff_laws 1000 (sf_law x)) /\ odd_curve (hooke (sf_law x)) /\ even_curve ((fun (_ : nat) (_ : R) => 1000) (sf_law x))).
  { intros x _. split; [apply elastic_two_sided|]. split; intros e; [unfold hooke; ring|reflexivity]. }
  assert (TS : forall k, S_Odd.two_sided (stiff_laws 1000 k)) by (intros k; apply elastic_two_sided).
  assert (DS : drawn_surfaces plate_bars) by (intros x [<-|[]]; discriminate).
  assert (WA : write_alike (stiff_laws 1000) plate_bars) by (intros x x' e _ _; split; reflexivity).
  pose proof (C65_centre (stiff_laws 1000) hooke (fun _ _ => 1000) (sym_traits (1/1000)) (1/10) plate_bars plate_bars_listed [] st_init (stiff_batched 1000) TS plate_bars_drawn DS OE
    plate_follows plate_follows_tangent plate_steady stiff_repeats WA plate_bars_order plate_bars_centred (h_new _ _ _ _)) as (_ & Z & _).
  destruct (C21_forces_area (stiff_laws 1000) hooke plate_bars 0 ky kz (stiff_batched 1000)) as (d & E).
  - intros s [<- | []]. split; [reflexivity|]. split; [intros q []|apply hooke_field].
  - exact (proj2 plate_bars_drawn).
  - assert (E' : fst (integrate_profile (marin_integ (stiff_laws 1000)) (1/10) plate_bars (0, ky, kz) st_init) = Ok (area_forces hooke (stiff_laws 1000) plate_bars (0, ky, kz))).
    { unfold integrate_profile, forces_k. cbn [ig_forces marin_integ st_data st_init]. rewrite E. reflexivity. }
    destruct (area_forces hooke (stiff_laws 1000) plate_bars (0, ky, kz)) as [[N My] Mz]. exists My, Mz. rewrite E'. pose proof (Z ky kz N My Mz E') as ->. reflexivity.
Qed.

(** The plate as a left and a right half, bent about the horizontal axis. *)
Definition plate_sides : compound :=
  {| cg_surf := [ {| sf_ext := rect (- / 2) 0 (-1) 1; sf_ints := []; sf_law := 0 |}; {| sf_ext := rect 0 (/ 2) (-1) 1; sf_ints := []; sf_law := 0 |} ]; cg_bars := [] |}.
Definition plate_sides_listed : compound := {| cg_surf := rev (cg_surf plate_sides); cg_bars := [] |}.
Lemma side_area y0 y1 : shoelace (rect y0 y1 (-1) 1) = 2 * (y1 - y0).
Proof. unfold shoelace, rect, lsum, cross; cbn; field. Qed.
Lemma side_ccw y0 y1 : y0 < y1 -> ccw_ring (rect y0 y1 (-1) 1) = rect y0 y1 (-1) 1.
Proof. intros Y. unfold ccw_ring. destruct (Rlt_dec _ 0) as [N|_]; [|reflexivity]. exfalso. rewrite side_area in N. lra. Qed.
Lemma sides_mirrored : moved (-1) 0 0 plate_sides_listed plate_sides.
Proof.
  split; [|constructor]. cbn [plate_sides_listed plate_sides cg_surf rev app].
  constructor; [|constructor; [|constructor]]; (split; [reflexivity|]; split; [|exists []; split; [constructor|constructor]]; split; [cbn [sf_ext]; rewrite side_area; lra|]);
    right; cbn [sf_ext edges map fst snd rect]; unfold place; cbn [fst snd]; rewrite !Rplus_0_r;
    replace (-1 * 0) with 0 by ring; try replace (-1 * / 2) with (- / 2) by field; try replace (-1 * - / 2) with (/ 2) by field.
  - apply perm_skip. eapply perm_trans; [apply perm_skip, perm_swap|]. eapply perm_trans; [apply perm_swap|]. apply perm_skip. apply perm_swap.
  - apply perm_skip. eapply perm_trans; [apply perm_skip, perm_swap|]. eapply perm_trans; [apply perm_swap|]. apply perm_skip. apply perm_swap.
Qed.
Lemma sides_assembled : assembled plate plate_sides.
Proof.
  exists [cg_surf plate_sides]. split; [|split; reflexivity]. constructor; [|constructor].
  assert (M : ((0, -1) : R * R) = seg (- / 2, -1) (/ 2, -1) (/ 2)) by (unfold seg; cbn [fst snd]; f_equal; field).
  assert (L : ((0, 1) : R * R) = seg (/ 2, 1) (- / 2, 1) (/ 2)) by (unfold seg; cbn [fst snd]; f_equal; field).
  assert (HM : in_hull (rect (- / 2) (/ 2) (-1) 1) (0, -1)) by (rewrite M; apply hull_between; [lra|apply hull_vertex; cbn; tauto..]).
  assert (HL : in_hull (rect (- / 2) (/ 2) (-1) 1) (0, 1)) by (rewrite L; apply hull_between; [lra|apply hull_vertex; cbn; tauto..]).
  split; [|split; [|split]].
  - intros p I. destruct I as [<-|[<-|[]]]; (split; [reflexivity|]; split; [discriminate|]); cbn [sf_ext]; intros v J; unfold rect in J; cbn [In] in J;
      repeat (destruct J as [<-|J]; [first [exact HM|exact HL|apply hull_vertex; cbn; tauto]|]); contradiction J.
  - cbn [sf_ext]. intros v J. unfold rect in J. cbn [In] in J. cbn [plate_sides cg_surf].
    repeat (destruct J as [<-|J]; [first [eexists; split; [left; reflexivity|cbn; tauto]|eexists; split; [right; left; reflexivity|cbn; tauto]]|]). contradiction J.
  - discriminate.
  - unfold surface_edges. cbn [plate_sides cg_surf flat_map sf_ext sf_ints app]. rewrite !side_ccw by lra. cbn [rect edges app].
    set (A := (- / 2, -1)). set (B := (/ 2, -1)). set (C := (/ 2, 1)). set (D := (- / 2, 1)). fold A B in M. fold C D in L.
    set (m := (0, -1)) in *. set (l := (0, 1)) in *.
    eapply sb_trans; [apply (sb_perm _ ((m, l) :: (l, m) :: (A, m) :: (l, D) :: (D, A) :: (m, B) :: (B, C) :: (C, l) :: []))|].
    { apply Permutation_sym. change [(A, m); (m, l); (l, D); (D, A); (m, B); (B, C); (C, l); (l, m)] with ([(A, m)] ++ (m, l) :: [(l, D); (D, A); (m, B); (B, C); (C, l); (l, m)]).
      apply Permutation_cons_app. change ([(A, m)] ++ [(l, D); (D, A); (m, B); (B, C); (C, l); (l, m)]) with ([(A, m); (l, D); (D, A); (m, B); (B, C); (C, l)] ++ (l, m) :: []).
      apply Permutation_cons_app. apply Permutation_refl. }
    eapply sb_trans; [apply sb_cancel|].
    eapply sb_trans; [apply (sb_perm _ ((A, m) :: (m, B) :: (l, D) :: (D, A) :: (B, C) :: (C, l) :: []))|].
    { apply perm_skip. change [(l, D); (D, A); (m, B); (B, C); (C, l)] with ([(l, D); (D, A)] ++ (m, B) :: [(B, C); (C, l)]).
      apply Permutation_sym, Permutation_cons_app. apply Permutation_refl. }
    eapply sb_trans; [rewrite M; apply sb_join; lra|].
    eapply sb_trans; [apply (sb_perm _ ((C, l) :: (l, D) :: (A, B) :: (D, A) :: (B, C) :: []))|].
    { apply Permutation_sym. change [(A, B); (l, D); (D, A); (B, C); (C, l)] with ([(A, B); (l, D); (D, A); (B, C)] ++ (C, l) :: []).
      apply Permutation_cons_app. change ([(A, B); (l, D); (D, A); (B, C)] ++ []) with ([(A, B)] ++ (l, D) :: [(D, A); (B, C)]).
      apply Permutation_cons_app. apply Permutation_refl. }
    eapply sb_trans; [rewrite L; apply sb_join; lra|]. apply sb_perm.
    change [(C, D); (A, B); (D, A); (B, C)] with ((C, D) :: [(A, B); (D, A); (B, C)]).
    eapply perm_trans; [apply perm_swap|]. apply perm_skip. eapply perm_trans; [apply (Permutation_cons_append [(D, A); (B, C)] (C, D))|]. cbn [app].
    eapply perm_trans; [apply (Permutation_cons_append [(B, C); (C, D)] (D, A))|]. apply Permutation_refl.
Qed.
Lemma sides_closed : closed_rings plate_sides.
Proof. intros s I; destruct I as [<-|[<-|[]]]; (split; [reflexivity|intros q []]). Qed.
Example C58_symmetric_pairs_example : exists r, let n := (2 - 2 / 10 ^ 10) / 3 in
  fst (bending_strength (marin_integ (stiff_laws 1000)) (sym_traits (1/1000)) (1/10) plate_sides 0 n st_init) = Ok r /\ balances n (rs_n r) /\ rs_mz r = 0 /\ rs_chiz r = 0.
Proof.
  pose proof (C59_marin (stiff_laws 1000) hooke (fun _ _ => 1000) (sym_traits (1/1000)) (1/10) plate plate_sides sides_assembled (proj1 cut_closed) sides_closed
    plate_follows plate_follows_tangent plate_steady stiff_repeats plate_two_sided) as E.
  destruct C54_example as (r & s1 & c & L & B & _). exists r. cbv zeta. set (n := (2 - 2 / 10 ^ 10) / 3) in *.
  pose proof (E (OStrength 0 n) st_init) as X. cbn [run] in X. unfold amap in X. rewrite L in X. cbn [fst snd rmap] in X.
  destruct (bending_strength (marin_integ (stiff_laws 1000)) (sym_traits (1/1000)) (1/10) plate_sides 0 n st_init) as [[r0|e] u] eqn:G; cbn [fst snd rmap] in X; [|discriminate]. injection X as -> _.
  split; [reflexivity|]. split; [exact B|].
  destruct (C58_symmetric_pairs (stiff_laws 1000) hooke (fun _ _ => 1000) (sym_traits (1/1000)) (1/10) plate_sides plate_sides_listed [] st_init n) as (Q & _).
  - exact (stiff_batched 1000).
  - split; [exact sides_closed|intros b b' []].
  - intros s [<-|[<-|[]]]; discriminate.
  - intros s e q _ _. apply hooke_field.
  - intros s e q _ _. apply hooke_tangent.
  - intros s e [<-|[<-|[]]]; exact (plate_steady _ e (or_introl eq_refl)).
  - intros s e _. destruct (C59_laws_repeat e) as (H & _). apply H.
  - intros s s' e [<-|[<-|[]]] [<-|[<-|[]]]; split; reflexivity.
  - intros k y. cbn. lra.
  - apply (C61_one_material _ plate_sides (fun _ => - (1/1000)) (fun _ => 1/1000)); [reflexivity|intros; lra|reflexivity..].
  - split; [|apply Permutation_refl]. apply Permutation_rev.
  - exact sides_mirrored.
  - constructor.
  - apply Q. rewrite G. reflexivity.
Qed.
