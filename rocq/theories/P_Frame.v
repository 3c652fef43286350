(** Properties C21 and C54, continued: the forces are plain area integrals in the user's axes. *)
From Coquelicot Require Import Coquelicot.
From Coq Require Import FunctionalExtensionality Lra Lia.
From Verif Require Import Base M_Marin S_Marin L_Marin M_Laws S_Laws L_Laws M_Laws2 S_Laws2 L_LawsC M_Fiber S_Fiber L_Fiber M_MarinInt L_MarinInt L_MarinInt2 L_MarinInt3 L_MarinInt4
  L_Frame L_Frame2 L_Frame3 L_Frame4 M_Section S_Section L_Section4 P_Fiber P_MarinInt M_Gross M_Geo M_Cracked S_Cracked L_Cracked L_Cracked7 S_MarinInt S_Exact L_Exact P_Exact S_Frame.

Lemma field_tame what l f e0 r : what <> IOther -> field_of (ask what l (e0, r)) f e0 r -> r <> 0 -> 0 <= r -> tame f.
Proof.
  intros W F N R0.
  destruct (surface_entries_ok l what e0 r {| sf_ext := []; sf_ints := []; sf_law := 0 |} f W F I ltac:(intros ? [])) as (EI & _).
  apply (tame_of_field f e0 r); [lra|exact EI].
Qed.
Lemma surfaces_frames what laws fs a e0 ky kz ss (wt : R -> R -> R) ca cb cc cd ce cf : let r := sqrt (kz ^ 2 + ky ^ 2) in what <> IOther ->
  r * cos a = ky -> r * sin a = - kz ->
  (forall s, In s ss -> closed (sf_ext s) /\ (forall q, In q (sf_ints s) -> closed q) /\ field_of (ask what (laws (sf_law s)) (e0, r)) (fs (sf_law s)) e0 r) ->
  (forall y z, wt y z = quadratic ca cb cc cd ce cf y z) ->
  surfaces_turned fs wt a e0 ky kz ss = over_surfaces fs wt e0 ky kz ss.
Proof.
  intros r WI CA SA G W. unfold surfaces_turned, over_surfaces. apply lsum_map_ext. intros s HS. destruct (G s HS) as (C1 & C2 & F).
  replace wt with (quadratic ca cb cc cd ce cf) by (extensionality y; extensionality z; symmetry; apply W).
  apply (surface_frames (fs (sf_law s)) e0 r a ky kz); try assumption.
  intros N. apply (field_tame what (laws (sf_law s)) _ e0 r WI F N). apply sqrt_pos.
Qed.

(** The forces of the exact integrator are the area integrals of the stresses, in the user's axes. *)
Theorem C21_forces_area : forall laws fs g e0 ky kz, let r := sqrt (kz ^ 2 + ky ^ 2) in
  (forall k, batched (laws k)) ->
  (forall s, In s (cg_surf g) ->
     closed (sf_ext s) /\ (forall q, In q (sf_ints s) -> closed q) /\
     field_of (lw_marin (laws (sf_law s)) (e0, r)) (fs (sf_law s)) e0 r) ->
  (forall b b', In b (cg_bars g) -> In b' (cg_bars g) ->
     count_law (br_law b) (cg_bars g) = count_law (br_law b') (cg_bars g)) ->
  exists data, marin_forces laws g (e0, ky, kz) None = Ok (area_forces fs laws g (e0, ky, kz), data).
Proof.
  intros laws fs g e0 ky kz r B G Q. destruct (C21_forces laws fs g e0 ky kz B G Q) as (a & N & My & Mz & data & CA & SA & EF & EN & EY & EZ).
  exists data. rewrite EF. unfold area_forces. subst N My Mz.
  rewrite (surfaces_frames IStress laws fs a e0 ky kz _ (fun _ _ => 1) 1 0 0 0 0 0 ltac:(discriminate) CA SA G) by (intros; unfold quadratic; ring).
  rewrite (surfaces_frames IStress laws fs a e0 ky kz _ (fun _ z => z) 0 0 1 0 0 0 ltac:(discriminate) CA SA G) by (intros; unfold quadratic; ring).
  rewrite (surfaces_frames IStress laws fs a e0 ky kz _ (fun y _ => - y) 0 (- 1) 0 0 0 0 ltac:(discriminate) CA SA G) by (intros; unfold quadratic; ring).
  reflexivity.
Qed.
Print Assumptions C21_forces_area.

(** The tangent stiffness is the area integral of the tangent times the arms, in the user's axes. *)
Theorem C21_stiffness_area : forall laws fs g e0 ky kz, let r := sqrt (kz ^ 2 + ky ^ 2) in
  (forall k, batched (laws k)) ->
  (forall s, In s (cg_surf g) ->
     closed (sf_ext s) /\ (forall q, In q (sf_ints s) -> closed q) /\
     field_of (lw_marin_tangent (laws (sf_law s)) (e0, r)) (fs (sf_law s)) e0 r) ->
  (forall b b', In b (cg_bars g) -> In b' (cg_bars g) ->
     count_law (br_law b) (cg_bars g) = count_law (br_law b') (cg_bars g)) ->
  exists K data, marin_stiffness laws g (e0, ky, kz) None = Ok (K, data) /\
    (forall i j, (i < 3)%nat -> (j < 3)%nat -> K i j =
       over_surfaces fs (fun y z => arm i y z * arm j y z) e0 ky kz (cg_surf g) + stiff (bar_fibres laws g) e0 ky kz i j).
Proof.
  intros laws fs g e0 ky kz r B G Q. destruct (C21_stiffness laws fs g e0 ky kz B G Q) as (a & K & data & CA & SA & EF & EK & _).
  exists K, data. split; [exact EF|]. intros i j Hi Hj. rewrite (EK i j Hi Hj). f_equal.
  assert (QD : exists ca cb cc cd ce cf, forall y z, arm i y z * arm j y z = quadratic ca cb cc cd ce cf y z).
  { unfold quadratic. destruct i as [|[|[|i]]]; [| | |lia]; (destruct j as [|[|[|j]]]; [| | |lia]); cbn [arm].
    - exists 1, 0, 0, 0, 0, 0. intros; ring.
    - exists 0, 0, 1, 0, 0, 0. intros; ring.
    - exists 0, (-1), 0, 0, 0, 0. intros; ring.
    - exists 0, 0, 1, 0, 0, 0. intros; ring.
    - exists 0, 0, 0, 0, 0, 1. intros; ring.
    - exists 0, 0, 0, 0, (-1), 0. intros; ring.
    - exists 0, (-1), 0, 0, 0, 0. intros; ring.
    - exists 0, 0, 0, 0, (-1), 0. intros; ring.
    - exists 0, 0, 0, 1, 0, 0. intros; ring. }
  destruct QD as (ca & cb & cc & cd & ce & cf & QD).
  apply (surfaces_frames IModulus laws fs a e0 ky kz _ _ ca cb cc cd ce cf ltac:(discriminate) CA SA G QD).
Qed.
Print Assumptions C21_stiffness_area.

(** Turning the section and the axis of bending together turns the moments along and leaves
    the axial force alone: the results do not depend on the orientation of the axes. *)
Section Spin.
Variable fs : nat -> R -> R.
Variables laws : nat -> law.
Variables e0 ky kz phi : R.
Let r := sqrt (kz ^ 2 + ky ^ 2).
Let ky1 := fst (spun phi ky kz).
Let kz1 := snd (spun phi ky kz).
Lemma spun_length : sqrt (kz1 ^ 2 + ky1 ^ 2) = r.
Proof.
  unfold r, kz1, ky1, spun. cbn [fst snd]. f_equal. pose proof (sin2_cos2 phi) as P. unfold Rsqr in P.
  replace ((sin phi * ky + cos phi * kz) ^ 2 + (cos phi * ky - sin phi * kz) ^ 2) with ((sin phi * sin phi + cos phi * cos phi) * (kz ^ 2 + ky ^ 2)) by ring. rewrite P. ring.
Qed.
Lemma turn_turn a b p : turn a (turn b p) = turn (a + b) p.
Proof. unfold turn. cbn [fst snd]. rewrite cos_plus, sin_plus. f_equal; ring. Qed.
Lemma turned_turned a b s : turned a (turned b s) = turned (a + b) s.
Proof.
  unfold turned. cbn [sf_ext sf_ints sf_law]. f_equal.
  - rewrite map_map. apply map_ext. intros; apply turn_turn.
  - rewrite map_map. apply map_ext. intros q. rewrite map_map. apply map_ext. intros; apply turn_turn.
Qed.
End Spin.
(** linear weights, in axes aligned with the curvature *)
Lemma over_aligned laws fs a e0 ky kz ss ca cb cc : let r := sqrt (kz ^ 2 + ky ^ 2) in
  r * cos a = ky -> r * sin a = - kz ->
  (forall s, In s ss -> closed (sf_ext s) /\ (forall q, In q (sf_ints s) -> closed q) /\ field_of (lw_marin (laws (sf_law s)) (e0, r)) (fs (sf_law s)) e0 r) ->
  over_surfaces fs (quadratic ca cb cc 0 0 0) e0 ky kz ss =
  let js := map (turned a) ss in
  ca * jsum 0 0 fs e0 r js + (cb * cos a - cc * sin a) * jsum 1 0 fs e0 r js + (cb * sin a + cc * cos a) * jsum 0 1 fs e0 r js.
Proof.
  intros r CA SA G. rewrite <- (surfaces_frames IStress laws fs a e0 ky kz ss _ ca cb cc 0 0 0 ltac:(discriminate) CA SA G) by reflexivity.
  unfold surfaces_turned. cbv zeta.
  assert (GT : good_surfaces laws IStress fs e0 r (map (turned a) ss)).
  { intros s HS. apply in_map_iff in HS. destruct HS as (s0 & <- & HS). destruct (G s0 HS) as (C1 & C2 & F). cbn [turned sf_law sf_ext sf_ints]. split; [exact F|]. split; [now apply closed_turn|].
    intros q HQ. apply in_map_iff in HQ. destruct HQ as (q0 & <- & HQ). apply closed_turn. now apply C2. }
  pose (phi := fun (s : surface) y' z' => fs (sf_law s) (plane_strain e0 ky kz (back_y a y' z') (back_z a y' z')) * quadratic ca cb cc 0 0 0 (back_y a y' z') (back_z a y' z')).
  assert (PH : forall s y z, phi s y z = fs (sf_law s) (e0 + r * z) * quadratic ca (cb * cos a - cc * sin a) (cb * sin a + cc * cos a) 0 0 0 y z).
  { intros s y z. unfold phi. pose proof (sin2_cos2 a) as P. unfold Rsqr in P.
    replace (plane_strain e0 ky kz (back_y a y z) (back_z a y z)) with (e0 + r * z).
    + f_equal. unfold quadratic, back_y, back_z. ring.
    + assert (KZ : kz = - (r * sin a)) by lra. unfold plane_strain, back_y, back_z. rewrite <- CA. fold r. clearbody r. subst kz.
      transitivity (e0 + r * ((sin a * sin a + cos a * cos a) * z)); [rewrite P; ring|]. ring. }
  pose proof (surfaces_integral laws IStress fs e0 r (map (turned a) ss) ca (cb * cos a - cc * sin a) (cb * sin a + cc * cos a) 0 0 0 phi ltac:(discriminate) GT PH) as E.
  rewrite map_map in E. etransitivity; [exact E|ring].
Qed.
Theorem C21_rotation : forall laws fs g e0 ky kz phi N My Mz d, let r := sqrt (kz ^ 2 + ky ^ 2) in
  (forall k, batched (laws k)) ->
  (forall s, In s (cg_surf g) ->
     closed (sf_ext s) /\ (forall q, In q (sf_ints s) -> closed q) /\
     field_of (lw_marin (laws (sf_law s)) (e0, r)) (fs (sf_law s)) e0 r) ->
  (forall b b', In b (cg_bars g) -> In b' (cg_bars g) ->
     count_law (br_law b) (cg_bars g) = count_law (br_law b') (cg_bars g)) ->
  marin_forces laws g (e0, ky, kz) None = Ok ((N, My, Mz), d) ->
  rotate_geo phi g = spun_section phi g /\
  exists d', marin_forces laws (spun_section phi g) (e0, fst (spun phi ky kz), snd (spun phi ky kz)) None =
    Ok ((N, fst (spun phi My Mz), snd (spun phi My Mz)), d').
Proof.
  intros laws fs g e0 ky kz phi N My Mz d r B G Q EF. split; [reflexivity|].
  destruct (C21_forces_area laws fs g e0 ky kz B G Q) as (d0 & E0). rewrite EF in E0. assert (E1 : (N, My, Mz) = area_forces fs laws g (e0, ky, kz)) by congruence. clear E0.
  pose proof (spun_length ky kz phi) as RL. fold r in RL.
  set (ky1 := fst (spun phi ky kz)) in *. set (kz1 := snd (spun phi ky kz)) in *. set (g1 := spun_section phi g).
  assert (SS : cg_surf g1 = map (turned phi) (cg_surf g)) by reflexivity.
  assert (G1 : forall s, In s (cg_surf g1) -> closed (sf_ext s) /\ (forall q, In q (sf_ints s) -> closed q) /\
     field_of (lw_marin (laws (sf_law s)) (e0, sqrt (kz1 ^ 2 + ky1 ^ 2))) (fs (sf_law s)) e0 (sqrt (kz1 ^ 2 + ky1 ^ 2))).
  { rewrite RL, SS. intros s HS. apply in_map_iff in HS. destruct HS as (s0 & <- & HS). destruct (G s0 HS) as (C1 & C2 & F). cbn [turned sf_law sf_ext sf_ints]. split; [now apply closed_turn|]. split; [|exact F].
    intros q HQ. apply in_map_iff in HQ. destruct HQ as (q0 & <- & HQ). apply closed_turn. now apply C2. }
  assert (CL : forall k, count_law k (cg_bars g1) = count_law k (cg_bars g)).
  { intros k. unfold count_law, g1, spun_section. cbn [cg_bars]. clear. induction (cg_bars g) as [|b l IH]; [reflexivity|]. cbn [map filter br_law]. destruct (br_law b =? k)%nat; cbn [length]; rewrite IH; reflexivity. }
  assert (Q1 : forall b b', In b (cg_bars g1) -> In b' (cg_bars g1) -> count_law (br_law b) (cg_bars g1) = count_law (br_law b') (cg_bars g1)).
  { intros b b' HB HB'. rewrite !CL. unfold g1, spun_section in HB, HB'. cbn [cg_bars] in HB, HB'. apply in_map_iff in HB, HB'. destruct HB as (c & <- & HB), HB' as (c' & <- & HB'). cbn [br_law]. now apply Q. }
  destruct (C21_forces_area laws fs g1 e0 ky1 kz1 B G1 Q1) as (d1 & EF1). exists d1. fold g1. rewrite EF1. f_equal. f_equal.
  destruct (atan2_spec ky kz) as [A1 A2]. fold r in A1, A2. set (a := - atan2 kz ky).
  assert (CA : r * cos a = ky) by (unfold a; rewrite cos_neg; exact A1). assert (SA : r * sin a = - kz) by (unfold a; rewrite sin_neg; lra).
  set (a1 := a + - phi).
  assert (CA1 : sqrt (kz1 ^ 2 + ky1 ^ 2) * cos a1 = ky1).
  { rewrite RL. unfold a1, ky1, spun. cbn [fst]. rewrite cos_plus, cos_neg, sin_neg, <- CA. transitivity (r * cos a * cos phi + (r * sin a) * sin phi); [ring|]. rewrite SA, CA. ring. }
  assert (SA1 : sqrt (kz1 ^ 2 + ky1 ^ 2) * sin a1 = - kz1).
  { rewrite RL. unfold a1, kz1, spun. cbn [snd]. rewrite sin_plus, cos_neg, sin_neg. transitivity ((r * sin a) * cos phi - (r * cos a) * sin phi); [ring|]. rewrite SA, CA. ring. }
  assert (JS : map (turned a1) (cg_surf g1) = map (turned a) (cg_surf g)).
  { rewrite SS, map_map. apply map_ext. intros s. rewrite turned_turned. f_equal. unfold a1. ring. }
  assert (SC : forall y z u v, spun phi u v = (y, z) -> plane_strain e0 ky1 kz1 y z = plane_strain e0 ky kz u v).
  { intros y z u v E. unfold spun in E. injection E as <- <-. unfold plane_strain, ky1, kz1, spun. cbn [fst snd]. pose proof (sin2_cos2 phi) as P. unfold Rsqr in P.
    transitivity (e0 + (sin phi * sin phi + cos phi * cos phi) * (ky * v - kz * u)); [ring|]. rewrite P. ring. }
  assert (W1 : forall ca cb cc, over_surfaces fs (quadratic ca cb cc 0 0 0) e0 ky1 kz1 (cg_surf g1) =
     let js := map (turned a) (cg_surf g) in
     ca * jsum 0 0 fs e0 r js + (cb * cos a1 - cc * sin a1) * jsum 1 0 fs e0 r js + (cb * sin a1 + cc * cos a1) * jsum 0 1 fs e0 r js).
  { intros ca cb cc. rewrite (over_aligned laws fs a1 e0 ky1 kz1 (cg_surf g1) ca cb cc CA1 SA1 G1). rewrite JS, RL. reflexivity. }
  pose proof (fun ca cb cc => over_aligned laws fs a e0 ky kz (cg_surf g) ca cb cc CA SA G) as W0. fold r in W0. cbv zeta in W0, W1.
  set (J0 := jsum 0 0 fs e0 r (map (turned a) (cg_surf g))) in *. set (J1 := jsum 1 0 fs e0 r (map (turned a) (cg_surf g))) in *. set (J2 := jsum 0 1 fs e0 r (map (turned a) (cg_surf g))) in *.
  assert (OE : forall wt ca cb cc ky kz ss, (forall y z, wt y z = quadratic ca cb cc 0 0 0 y z) -> over_surfaces fs wt e0 ky kz ss = over_surfaces fs (quadratic ca cb cc 0 0 0) e0 ky kz ss).
  { intros wt ca cb cc u v ss H. replace wt with (quadratic ca cb cc 0 0 0) by (extensionality y; extensionality z; symmetry; apply H). reflexivity. }
  unfold area_forces in *.
  rewrite (OE (fun _ _ => 1) 1 0 0) in * by (intros; unfold quadratic; ring).
  rewrite (OE (fun _ z => z) 0 0 1) in * by (intros; unfold quadratic; ring).
  rewrite (OE (fun y _ => - y) 0 (-1) 0) in * by (intros; unfold quadratic; ring).
  rewrite !W1. rewrite !W0 in E1. injection E1 as -> -> ->. unfold a1. rewrite cos_plus, sin_plus, cos_neg, sin_neg.
  unfold spun. cbn [fst snd].
  assert (BA : axial (bar_fibres laws g1) e0 ky1 kz1 = axial (bar_fibres laws g) e0 ky kz).
  { unfold axial, bar_fibres, g1, spun_section. cbn [cg_bars]. rewrite !map_map. apply lsum_map_ext. intros b _. cbn [mfibre_at m_sigma m_a m_y m_z br_y br_z br_area br_law].
    rewrite (SC _ _ (br_y b) (br_z b) (surjective_pairing _)). reflexivity. }
  assert (BY : moment_y (bar_fibres laws g1) e0 ky1 kz1 = cos phi * moment_y (bar_fibres laws g) e0 ky kz - sin phi * moment_z (bar_fibres laws g) e0 ky kz).
  { unfold moment_y, moment_z, bar_fibres, g1, spun_section. cbn [cg_bars]. rewrite !map_map.
    match goal with |- ?u = cos phi * ?v - sin phi * - ?w => transitivity (cos phi * v + sin phi * w); [|ring] end. rewrite <- !lsum_map_scal, <- lsum_map_plus.
    apply lsum_map_ext. intros b _. cbn [mfibre_at m_sigma m_a m_y m_z br_y br_z br_area br_law].
    rewrite (SC _ _ (br_y b) (br_z b) (surjective_pairing _)). unfold spun. cbn [fst snd]. ring. }
  assert (BZ : moment_z (bar_fibres laws g1) e0 ky1 kz1 = sin phi * moment_y (bar_fibres laws g) e0 ky kz + cos phi * moment_z (bar_fibres laws g) e0 ky kz).
  { unfold moment_y, moment_z, bar_fibres, g1, spun_section. cbn [cg_bars]. rewrite !map_map.
    match goal with |- - ?u = sin phi * ?v + cos phi * - ?w => assert (H : u = - sin phi * v + cos phi * w); [|rewrite H; ring] end. rewrite <- !lsum_map_scal, <- lsum_map_plus.
    apply lsum_map_ext. intros b _. cbn [mfibre_at m_sigma m_a m_y m_z br_y br_z br_area br_law].
    rewrite (SC _ _ (br_y b) (br_z b) (surjective_pairing _)). unfold spun. cbn [fst snd]. ring. }
  rewrite BA, BY, BZ. f_equal; [f_equal|]; ring.
Qed.
Print Assumptions C21_rotation.

(** The hypotheses are met: a plate of a linear material under any strain profile, turned by any angle. *)
Example C21_area_example : forall e0 ky kz phi, exists N My Mz d d',
  marin_forces (stiff_laws 1000) plate (e0, ky, kz) None = Ok ((N, My, Mz), d) /\
  (N, My, Mz) = area_forces hooke (stiff_laws 1000) plate (e0, ky, kz) /\
  marin_forces (stiff_laws 1000) (spun_section phi plate) (e0, fst (spun phi ky kz), snd (spun phi ky kz)) None =
    Ok ((N, fst (spun phi My Mz), snd (spun phi My Mz)), d').
Proof.
  intros e0 ky kz phi.
  assert (G : forall s, In s (cg_surf plate) -> closed (sf_ext s) /\ (forall q, In q (sf_ints s) -> closed q) /\
     field_of (lw_marin (stiff_laws 1000 (sf_law s)) (e0, sqrt (kz ^ 2 + ky ^ 2))) (hooke (sf_law s)) e0 (sqrt (kz ^ 2 + ky ^ 2))).
  { intros s HS. destruct (proj1 plate_drawn s HS) as (A & B). repeat split; try assumption; apply hooke_field. }
  destruct (C21_forces_area (stiff_laws 1000) hooke plate e0 ky kz (stiff_batched 1000) G (proj2 plate_drawn)) as (d & E).
  destruct (area_forces hooke (stiff_laws 1000) plate (e0, ky, kz)) as [[N My] Mz].
  destruct (C21_rotation (stiff_laws 1000) hooke plate e0 ky kz phi N My Mz d (stiff_batched 1000) G (proj2 plate_drawn) E) as (_ & d' & E').
  exists N, My, Mz, d, d'. split; [exact E|]. split; [reflexivity|exact E'].
Qed.
