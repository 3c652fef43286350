(** Lemmas for C58: moment-curvature relation and strain profile of mirrored sections. *)
From Coq Require Import Permutation FunctionalExtensionality Lra Lia.
From Verif Require Import Base M_Marin S_Marin M_Laws M_Laws2 M_Fiber S_Fiber L_Fiber M_MarinInt S_MarinInt L_MarinInt3 L_Frame4 M_Section S_Section L_Section M_Domain S_History L_History S_Frame S_Turn L_Turn L_Turn2 L_Turn3 S_Move L_Move L_Move2 L_Move3 L_Move4 L_Move5 L_Move6.

Definition mir (sg : R) (x : R * R * R) : R * R * R := (fst x, sg * snd x).
Lemma mir_profile sg x : moved_profile sg 0 0 x = mir sg x.
Proof. destruct x as [[e ky] kz]. unfold moved_profile, mir. cbn [fst snd]. apply pair3; ring. Qed.
Lemma mir_forces sg x : moved_forces sg 0 0 x = mir sg x.
Proof. destruct x as [[e ky] kz]. unfold moved_forces, mir. cbn [fst snd]. apply pair3; ring. Qed.
Definition mirror_matrix (sg : R) (K : nat -> nat -> R) (i j : nat) : R :=
  (if Nat.eqb i 2 then sg else 1) * K i j * (if Nat.eqb j 2 then sg else 1).
Lemma matrix_mirrored sg K K' : sg * sg = 1 -> moved_matrix sg 0 0 K K' -> eq3 K' (mirror_matrix sg K).
Proof.
  intros S2 H. pose proof (H 1 0 0) as H0. pose proof (H 0 1 0) as H1. pose proof (H 0 0 1) as H2. cbv [moved_profile moved_forces] in H0, H1, H2.
  injection H0 as A0 A1 A2. injection H1 as B0 B1 B2. injection H2 as D0 D1 D2.
  assert (U : forall x y, x * sg = y -> x = y * sg) by (intros x y <-; ring [S2]).
  intros i j Hi Hj. nine Hi Hj i j; unfold mirror_matrix; cbn [Nat.eqb]; try lra.
  - transitivity (K 0%nat 2%nat * sg); [apply U; lra|ring].
  - transitivity (K 1%nat 2%nat * sg); [apply U; lra|ring].
  - transitivity ((sg * K 2%nat 2%nat) * sg); [apply U; lra|ring].
Qed.
Lemma det_mirror sg K : sg * sg = 1 -> det3 (mirror_matrix sg K) = det3 K.
Proof. intros S2. unfold det3, mirror_matrix. cbn [Nat.eqb]. ring [S2]. Qed.
Lemma times_mirror sg K x : sg * sg = 1 -> times (mirror_matrix sg K) (mir sg x) = mir sg (times K x).
Proof. intros S2. destruct x as [[x y] z]. unfold times, mirror_matrix, mir. cbn [Nat.eqb fst snd]. apply pair3; ring [S2]. Qed.
Lemma solve_mirror sg K L v : sg * sg = 1 -> eq3 L (mirror_matrix sg K) -> solve3 L (mir sg v) = rmap (mir sg) (solve3 K v).
Proof.
  intros S2 H. rewrite (solve_eq _ _ _ H). destruct (solve3 K v) as [x|e] eqn:E; cbn [rmap].
  - rewrite <- (solve_times K v x E), <- times_mirror by exact S2. apply solve_unique. rewrite (det_mirror sg K S2).
    unfold solve3 in E. destruct (Reqb_spec (det3 K) 0); [discriminate|assumption].
  - unfold solve3 in *. rewrite (det_mirror sg K S2). destruct (Reqb (det3 K) 0); [congruence|discriminate].
Qed.
Lemma mir_sub sg x y : sub3 (mir sg x) (mir sg y) = mir sg (sub3 x y).
Proof. destruct x as [[? ?] ?], y as [[? ?] ?]. unfold sub3, mir. cbn [fst snd]. apply pair3; ring. Qed.
Lemma mir_add sg x y : add3 (mir sg x) (mir sg y) = mir sg (add3 x y).
Proof. destruct x as [[? ?] ?], y as [[? ?] ?]. unfold add3, mir. cbn [fst snd]. apply pair3; ring. Qed.
Lemma mir_length sg x : sg * sg = 1 -> norm3 (mir sg x) = norm3 x.
Proof. intros S2. destruct x as [[x y] z]. unfold norm3, mir. cbn [fst snd]. f_equal. ring [S2]. Qed.

Lemma twin_start {A A' B B'} (P Q : sstate -> sstate -> Prop) (x : act A) (x' : act A') (f : A -> act B) (f' : A' -> act B') l :
  (forall s s', P s s' -> (exists v v', x s = (Ok v, s) /\ x' s' = (Ok v', s') /\ twin P Q (f v) (f' v') l) \/ (exists e, x s = (Err e, s) /\ x' s' = (Err e, s'))) ->
  twin P Q (abind x f) (abind x' f') l.
Proof.
  intros H s s' X. unfold abind. destruct (H s s' X) as [(v & v' & E & E' & T)|(e & E & E')]; rewrite E, E'; [exact (T s s' X)|]. split; [reflexivity|discriminate].
Qed.
Section Mirror.
Variables (ig : integ) (t : traits) (ms : R) (g g' : compound) (D D' : list group) (sg : R).
Hypothesis SG : sg = 1 \/ sg = -1.
Hypothesis CO : coherent ig g (Some ms) D.
Hypothesis CO' : coherent ig g' (Some ms) D'.
Hypothesis MV : moved sg 0 0 g g'.
Hypothesis PF : forall p m, rmap fst (ig_forces ig g' (moved_profile sg 0 0 p) (Some D') m) = rmap (moved_forces sg 0 0) (rmap fst (ig_forces ig g p (Some D) m)).
Hypothesis PR : forall phi phi', cos phi' = cos phi -> sin phi' = sg * sin phi -> let al := fst (rot phi' (0, 0)) in let be := snd (rot phi' (0, 0)) in forall p m,
  rmap fst (ig_forces ig (rotate_geo phi' g') (moved_profile sg al be p) (Some (map (rotate_group phi') D')) m) =
  rmap (moved_forces sg al be) (rmap fst (ig_forces ig (rotate_geo phi g) p (Some (map (rotate_group phi) D)) m)).
Let c0 : sstate := {| st_data := Some D; st_lim := None |}.
Let c0' : sstate := {| st_data := Some D'; st_lim := None |}.
Lemma mirror_curve theta n cf x y l :
  fst (moment_curvature ig t ms g' (sg * theta) n cf x y l c0') = rmap (map (mirrored_point sg)) (fst (moment_curvature ig t ms g theta n cf x y l c0)).
Proof.
  assert (CC : cos (- (sg * theta)) = cos (- theta)) by (destruct SG as [Z|Z]; rewrite Z, ?Rmult_1_l; [reflexivity|rewrite !cos_neg; replace (-1 * theta) with (- theta) by ring; apply cos_neg]).
  assert (SS : sin (- (sg * theta)) = sg * sin (- theta)) by (destruct SG as [Z|Z]; rewrite Z; [rewrite !Rmult_1_l; reflexivity|replace (- (-1 * theta)) with theta by ring; rewrite sin_neg; ring]).
  pose proof (angle_moved g g' sg 0 0 SG MV _ _ CC SS) as MR. pose proof (PR _ _ CC SS) as PA. cbv zeta in PA.
  set (al := fst (rot (- (sg * theta)) (0, 0))) in *. set (be := snd (rot (- (sg * theta)) (0, 0))) in *.
  assert (ZA : al = 0) by (unfold al, rot; cbn [fst snd]; ring). assert (ZB : be = 0) by (unfold be, rot; cbn [fst snd]; ring).
  set (E := map (rotate_group (- theta)) D) in *. set (E' := map (rotate_group (- (sg * theta))) D') in *. set (h := rotate_geo (- theta) g) in *. set (h' := rotate_geo (- (sg * theta)) g') in *.
  unfold moment_curvature. cbv zeta. fold h h'.
  refine (proj1 (twin_bind (ready ig t ms g g' D D') (pairs D D') (fun _ _ => True) _ _ (fun x => x) _ _ _ _ _ c0 c0' (ready0 ig t ms g g' D D'))).
  { apply (twin_weaken _ (ready ig t ms g g' D D')); [intros s s' (H & _); exact H|]. exact (twin_check ig t ms g g' D D' sg 0 0 CO CO' MV PF n). }
  intros []. eapply twin_bind; [apply twin_rotate|]. intros []. fold E E'.
  apply (twin_bind (pairs E E') (pairs E E') _ _ _ (fun l : list R => l)).
  { destruct l as [l|]; [apply twin_ret; reflexivity|].
    eapply twin_bind; [exact (twin_pivot ig t ms g D sg al be h h' E E' CO MR PA n false)|]. intros su.
    eapply twin_bind; [exact (twin_pivot ig t ms g D sg al be h h' E E' CO MR PA n true)|]. intros sy. apply twin_lift.
    assert (KY : forall p, p_ky (moved_profile sg al be p) = p_ky p) by (intros [[? ?] ?]; reflexivity). rewrite !KY. destruct (auto_curvatures _ _ _ _ _); reflexivity. }
  intros chis. eapply twin_bind; [exact (twin_points ig ms g D sg al be h h' E E' CO PA n chis ZA ZB 0)|]. intros pts.
  eapply twin_bind; [apply twin_rotate|]. intros [].
  apply (twin_weaken _ (pairs (map (rotate_group theta) E) (map (rotate_group (sg * theta)) E'))); [trivial|]. apply twin_ret.
  rewrite !map_map. apply map_ext. intros [[[c e] My] Mz]. unfold mirrored_point. 
  assert (C1 : cos (sg * theta) = cos theta) by (rewrite <- (cos_neg (sg * theta)), CC; apply cos_neg).
  assert (S1 : sin (sg * theta) = sg * sin theta) by (rewrite !sin_neg in SS; lra).
  rewrite C1, S1. pose proof (unit_square sg SG) as S2. apply pair5; ring [S2].
Qed.
Hypothesis PK : forall p m, match ig_modulus ig g p (Some D) m, ig_modulus ig g' (moved_profile sg 0 0 p) (Some D') m with
  | Ok (K, _), Ok (K', _) => moved_matrix sg 0 0 K K' | Err e, Err e' => e = e' | _, _ => False end.
Lemma mirror_newton loads tol mx K0 K0' : match K0, K0' with None, None => True | Some K, Some K' => eq3 K' (mirror_matrix sg K) | _, _ => False end ->
  forall fuel num strain, twin (pairs D D') (pairs D D') 
   (newton_loop fuel ig ms g loads tol K0 num mx strain) (newton_loop fuel ig ms g' (mir sg loads) tol K0' num mx (mir sg strain)) (mir sg).
Proof.
  pose proof (unit_square sg SG) as S2. intros HK. induction fuel as [|k IH]; intros num strain; cbn [newton_loop].
  { destruct (mx <=? num)%nat; [intros s s' H; split; [reflexivity|discriminate]|apply twin_ret; reflexivity]. }
  unfold integrate_profile. rewrite <- (mir_profile sg strain).
  eapply twin_bind; [exact (twin_k ig ms g D sg 0 0 g g' D D' CO PF strain (Some ms))|]. intros F. rewrite mir_profile, mir_forces.
  assert (REST : forall K K', eq3 K' (mirror_matrix sg K) -> twin (pairs D D') (pairs D D')
    (abind (alift (solve3 K (sub3 loads F))) (fun d => if Rltb (norm3 d) tol then if (mx <=? S num)%nat then afail StopIteration else aret (add3 strain d) else newton_loop k ig ms g loads tol K0 (S num) mx (add3 strain d)))
    (abind (alift (solve3 K' (sub3 (mir sg loads) (mir sg F)))) (fun d => if Rltb (norm3 d) tol then if (mx <=? S num)%nat then afail StopIteration else aret (add3 (mir sg strain) d) else newton_loop k ig ms g' (mir sg loads) tol K0' (S num) mx (add3 (mir sg strain) d))) (mir sg)).
  { intros K K' EK. apply (twin_bind (pairs D D') (pairs D D') _ _ _ (mir sg)); [apply twin_lift; rewrite mir_sub; exact (solve_mirror sg K K' _ S2 EK)|].
    intros d. cbv beta. rewrite mir_add, (mir_length sg d S2). destruct (Rltb (norm3 d) tol); [|apply IH].
    destruct (mx <=? S num)%nat; [intros s s' H; split; [reflexivity|discriminate]|apply twin_ret; reflexivity]. }
  destruct K0 as [K|], K0' as [K'|]; try contradiction; [exact (REST K K' HK)|].
  apply twin_start. intros s s' ((d & DS & X) & (d' & DS' & X')). pose proof (PK strain None) as TT.
  pose proof (co_modulus _ _ _ _ CO g strain d D None None X) as E1. pose proof (co_modulus _ _ _ _ CO' g' (moved_profile sg 0 0 strain) d' D' None None X') as E2.
  rewrite DS, DS'. rewrite mir_profile in TT, E2.
  destruct (ig_modulus ig g strain (Some D) None) as [[K u]|e], (ig_modulus ig g' (mir sg strain) (Some D') None) as [[K' u']|e']; try contradiction;
  destruct (ig_modulus ig g strain (Some d) None) as [[L w]|x], (ig_modulus ig g' (mir sg strain) (Some d') None) as [[L' w']|x']; cbn [rmap fst] in E1, E2; try discriminate.
  - assert (L = K) by congruence. assert (L' = K') by congruence. subst. left. exists K, K'. split; [reflexivity|]. split; [reflexivity|]. exact (REST K K' (matrix_mirrored sg K K' S2 TT)).
  - right. exists e. split; congruence.
Qed.
Lemma mirror_strain loads i mx tol : 
  fst (strain_profile ig ms g' (mir sg loads) i mx tol c0') = rmap (mir sg) (fst (strain_profile ig ms g loads i mx tol c0)).
Proof.
  pose proof (unit_square sg SG) as S2. unfold strain_profile, c0, c0'. cbn [st_data]. assert (Z0 : moved_profile sg 0 0 (0, 0, 0) = (0, 0, 0)) by (unfold moved_profile; apply pair3; ring).
  assert (Z1 : mir sg (0, 0, 0) = (0, 0, 0)) by (rewrite <- mir_profile; exact Z0).
  pose proof (PK (0, 0, 0) None) as TT. rewrite Z0 in TT.
  destruct (ig_modulus ig g (0, 0, 0) (Some D) None) as [[K u]|e], (ig_modulus ig g' (0, 0, 0) (Some D') None) as [[K' u']|e']; try contradiction; [|cbn [fst rmap]; congruence].
  pose proof (mirror_newton loads tol mx (if i then Some K else None) (if i then Some K' else None) ltac:(destruct i; [exact (matrix_mirrored sg K K' S2 TT)|exact Logic.I]) (S mx) 0%nat (0, 0, 0)) as T.
  rewrite Z1 in T. apply (T (keep_data u _) (keep_data u' _)). 
  rewrite (keep_has D), (keep_has D'); [split| |]; (eexists; split; [reflexivity|apply eqd_refl]).
Qed.
End Mirror.
