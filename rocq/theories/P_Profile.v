(** C43: constants of a steel profile, read in any order. *)
From Verif Require Import Base M_Marin S_Marin L_Marin M_Laws M_Laws2 M_Fiber M_MarinInt L_MarinInt2 M_Gross S_Gross L_Gross L_Gross2 M_Geo S_Geo L_Geo M_Profile S_Profile L_Profile.
From Coq Require Import Lra Lia.
Open Scope R_scope.
Open Scope list_scope.

(** The plastic axis: the search returns a height inside the profile at which the
    area above and the area below differ by less than 1e-10, or by at most what a
    band of 1e-10 of the height of the profile can hold. *)
Theorem C43_plastic_axis : forall slice p above W, outline p -> slices slice p above W ->
  exists z z0 z1, find_pna slice p = Ok z /\ spans p z0 z1 /\ z0 <= z <= z1 /\
  (Rabs (above z - (shoelace p - above z)) < / 10 ^ 10 \/ Rabs (above z - (shoelace p - above z)) <= 2 * W * (z1 - z0) * / 10 ^ 10).
Proof.
  intros slice p above W HO HS. destruct (pna_found slice p above W HO HS) as (c & E & I & B). exists c, (r_zmin p), (r_zmax p). split; [exact E|].
  split; [apply bounds_span; apply HO|]. split; [exact I|]. replace (above c - (shoelace p - above c)) with (2 * above c - shoelace p) by ring. exact B.
Qed.
Print Assumptions C43_plastic_axis.

(** Reading: after any sequence of reads, the outline is the one the profile was
    made with, and every constant except the principal angle has the value it has
    on a new profile. *)
Theorem C43_reads : forall slice eig p above W above' W' l q,
  outline p -> slices slice p above W -> outline (map quarter_turn p) -> slices slice (map quarter_turn p) above' W' -> q <> Qtheta ->
  pf_poly (reads slice eig l (fresh p)) = p /\
  (exists v, fst (read slice eig q (reads slice eig l (fresh p))) = Ok v /\ fst (read slice eig q (fresh p)) = Ok v).
Proof.
  intros slice eig p above W above' W' l q HO HS HO' HS' NT. destruct (pna_found slice p above W HO HS) as (zy & EY & _). destruct (pna_found slice _ above' W' HO' HS') as (zz & EZ & _).
  pose proof (inv_fresh slice eig p zy zz) as I0. pose proof (inv_reads slice eig p zy zz HO EY EZ l false (fresh p) I0) as I1.
  split; [apply (i_poly _ _ _ _ _ _ _ I1)|]. exists (val slice eig p zy zz q).
  destruct (st_read slice eig p zy zz HO EY EZ q _ _ I0 NT) as (s & E & _). destruct (st_read slice eig p zy zz HO EY EZ q _ _ I1 NT) as (s' & E' & _).
  rewrite E, E'. split; reflexivity.
Qed.
Print Assumptions C43_reads.
(** The principal angle can be read only after one of the principal moments. *)
Theorem C43_theta_refuted : forall slice eig p above W above' W' l,
  outline p -> slices slice p above W -> outline (map quarter_turn p) -> slices slice (map quarter_turn p) above' W' ->
  let r := fst (read slice eig Qtheta (reads slice eig l (fresh p))) in
  (In QIcsi l \/ In QIeta l -> r = Ok (snd (principal eig (fan_moment 0 2 p) (fan_moment 2 0 p) (fan_moment 1 1 p)))) /\
  (~ (In QIcsi l \/ In QIeta l) -> r = Err AttributeError).
Proof.
  intros slice eig p above W above' W' l HO HS HO' HS'. destruct (pna_found slice p above W HO HS) as (zy & EY & _). destruct (pna_found slice _ above' W' HO' HS') as (zz & EZ & _).
  pose proof (inv_reads slice eig p zy zz HO EY EZ l false (fresh p) (inv_fresh slice eig p zy zz)) as I1. cbv zeta. rewrite (st_theta _ _ _ _ _ _ _ I1). cbn [fst orb].
  split; intros H; destruct (existsb is_principal l) eqn:E; try reflexivity; exfalso.
  - assert (X : existsb is_principal l = true) by (apply existsb_exists; destruct H as [H|H]; eexists; (split; [exact H|reflexivity])). congruence.
  - apply existsb_exists in E. destruct E as (q & I & Q). apply H. destruct q; try discriminate Q; [left|right]; exact I.
Qed.
Print Assumptions C43_theta_refuted.

(** What the constants are, at any time. *)
Definition reads_as (slice : slicer) (eig : eigen) (s : profile) (q : quantity) (v : R) : Prop := fst (read slice eig q s) = Ok v.
Theorem C43_constants : forall slice eig p above W above' W' l, eigen_ok eig ->
  outline p -> slices slice p above W -> outline (map quarter_turn p) -> slices slice (map quarter_turn p) above' W' ->
  let now := reads_as slice eig (reads slice eig l (fresh p)) in
  let A := fan_moment 0 0 p in let Iy := fan_moment 0 2 p in let Iz := fan_moment 2 0 p in let Iyz := fan_moment 1 1 p in
  now QA A /\ now QIy Iy /\ now QIz Iz /\ now QIyz Iyz /\
  (exists i1 i2, now QIcsi i1 /\ now QIeta i2 /\ (forall t, i2 <= inertia_about Iy Iz Iyz t <= i1) /\ i1 + i2 = Iy + Iz /\ i1 * i2 = Iy * Iz - Iyz ^ 2) /\
  (exists hz, farthest snd p hz /\ 0 < hz /\ now QWely (Iy / hz)) /\ (exists hy, farthest fst p hy /\ 0 < hy /\ now QWelz (Iz / hy)) /\
  (exists i, now Qiy i /\ 0 < i /\ i ^ 2 * A = Iy) /\ (exists i, now Qiz i /\ 0 < i /\ i ^ 2 * A = Iz).
Proof.
  intros slice eig p above W above' W' l HE HO HS HO' HS' now A Iy Iz Iyz. destruct (pna_found slice p above W HO HS) as (zy & EY & _). destruct (pna_found slice _ above' W' HO' HS') as (zz & EZ & _).
  pose proof (inv_reads slice eig p zy zz HO EY EZ l false (fresh p) (inv_fresh slice eig p zy zz)) as I1.
  assert (RD : forall q, q <> Qtheta -> now q (val slice eig p zy zz q)).
  { intros q N. destruct (st_read slice eig p zy zz HO EY EZ q _ _ I1 N) as (s & E & _). unfold now, reads_as. now rewrite E. }
  split; [apply (RD QA); discriminate|]. split; [apply (RD QIy); discriminate|]. split; [apply (RD QIz); discriminate|]. split; [apply (RD QIyz); discriminate|].
  split.
  { exists (val slice eig p zy zz QIcsi), (val slice eig p zy zz QIeta). split; [apply RD; discriminate|]. split; [apply RD; discriminate|]. cbn [val].
    pose proof (principal_spec eig Iy Iz Iyz HE) as PS. subst A Iy Iz Iyz. destruct (principal eig _ _ _) as [[i1 i2] t]. cbn [fst snd]. destruct PS as (P1 & P2 & P3 & _).
    split; [intros t'; apply extremal; assumption|]. split; assumption. }
  split; [destruct (far_z p HO) as [F1 F2]; eexists; split; [exact F1|]; split; [exact F2|]; apply (RD QWely); discriminate|].
  split; [destruct (far_y p HO) as [F1 F2]; eexists; split; [exact F1|]; split; [exact F2|]; apply (RD QWelz); discriminate|].
  destruct HO as (_ & PA & PY & PZ & _).
  assert (SQ : forall I, 0 < I -> 0 < sqrt (I / A) /\ sqrt (I / A) ^ 2 * A = I).
  { intros I P. split; [apply sqrt_lt_R0, Rdiv_lt_0_compat; assumption|]. replace (sqrt (I / A) ^ 2) with (sqrt (I / A) * sqrt (I / A)) by ring. rewrite sqrt_sqrt by (apply Rlt_le, Rdiv_lt_0_compat; assumption). field. apply Rgt_not_eq. exact PA. }
  split; [exists (sqrt (Iy / A)); split; [apply (RD Qiy); discriminate|apply SQ, PY]|exists (sqrt (Iz / A)); split; [apply (RD Qiz); discriminate|apply SQ, PZ]].
Qed.
Print Assumptions C43_constants.

(** The plastic modulus is the first moment of area above the plastic axis plus
    that below it, both taken positive, when splitting cuts the shifted outline
    into pieces above and pieces below the axis. *)
Theorem C43_plastic_modulus : forall slice eig p above W l z ups downs,
  outline p -> slices slice p above W -> outline (map quarter_turn p) -> (exists a w, slices slice (map quarter_turn p) a w) ->
  find_pna slice p = Ok z -> slice (map (up (- z)) p) 0 = ups ++ downs ->
  (forall g, In g ups -> 0 <= fan_moment 0 1 g) -> (forall g, In g downs -> fan_moment 0 1 g <= 0) ->
  reads_as slice eig (reads slice eig l (fresh p)) QWply (lsum (map (fan_moment 0 1) ups) - lsum (map (fan_moment 0 1) downs)).
Proof.
  intros slice eig p above W l z ups downs HO HS HO' (a' & w' & HS') EY EC HU HD. destruct (pna_found slice _ a' w' HO' HS') as (zz & EZ & _).
  pose proof (inv_reads slice eig p z zz HO EY EZ l false (fresh p) (inv_fresh slice eig p z zz)) as I1.
  destruct (st_read slice eig p z zz HO EY EZ QWply _ _ I1 ltac:(discriminate)) as (s & E & _). unfold reads_as. rewrite E. cbn [fst val]. f_equal.
  unfold plastic_modulus. assert (EM : map (translate_map 0 (- z)) p = map (up (- z)) p).
  { apply map_ext. intros v. unfold translate_map, M_Geo.affine, up. cbn. f_equal; ring. }
  rewrite EM, EC, fold_left_app.
  assert (F : forall l, (forall g, In g l -> 0 <= fan_moment 0 1 g) -> forall w, fold_left (fun (w : R) g => w + Rabs (moment g 0 1)) l w = w + lsum (map (fan_moment 0 1) l)).
  { clear. intros l. induction l as [|g l IH]; intros H w; cbn [fold_left map]; [rewrite lsum_nil; ring|]. rewrite IH by (intros x I; apply H; right; exact I). rewrite lsum_cons, moment_fan, Rabs_pos_eq by (apply H; left; reflexivity). ring. }
  assert (F' : forall l, (forall g, In g l -> fan_moment 0 1 g <= 0) -> forall w, fold_left (fun (w : R) g => w + Rabs (moment g 0 1)) l w = w - lsum (map (fan_moment 0 1) l)).
  { clear. intros l. induction l as [|g l IH]; intros H w; cbn [fold_left map]; [rewrite lsum_nil; ring|]. rewrite IH by (intros x I; apply H; right; exact I). rewrite lsum_cons, moment_fan, Rabs_left1 by (apply H; left; reflexivity). ring. }
  rewrite F' by exact HD. rewrite F by exact HU. ring.
Qed.
Print Assumptions C43_plastic_modulus.

Lemma flat_loop n da z daA : pna_loop (S n) da ((z - z) * / 10 ^ 10) z z daA None = Err UnboundLocalError.
Proof. rewrite pna_step, !Rminus_eq_0, Rmult_0_l, Rabs_R0. destruct (Rltb_spec 0 0); [lra|reflexivity]. Qed.
Lemma flat_pna slice p : (forall v w, In v p -> In w p -> snd v = snd w) -> p <> [] -> find_pna slice p = Err UnboundLocalError.
Proof.
  intros FL NE. unfold find_pna. cbv zeta. assert (E : r_zmin p = r_zmax p).
  { unfold r_zmin, r_zmax. destruct (fold_min_in snd p NE) as (a & Ia & ->). destruct (fold_max_in snd p NE) as (b & Ib & ->). apply FL; assumption. }
  rewrite E. apply flat_loop.
Qed.
Lemma wply_err slice s e : pf_Wply s = None -> find_pna slice (pf_poly s) = Err e -> read_Wply slice s = (Err e, with_Wply 0 s).
Proof.
  intros H F. unfold read_Wply. rewrite H. cbv zeta. change (pf_poly (with_Wply 0 s)) with (pf_poly s). revert F. generalize (find_pna slice (pf_poly s)) as r. intros r ->. reflexivity.
Qed.
(** A read that raises leaves a wrong value behind: a flat outline raises at the
    first read of the plastic modulus and has plastic modulus 0 from then on; for
    the other axis the profile also stays turned by 90 degrees. *)
Theorem C43_failed_read_refuted : forall slice eig p, (forall v w, In v p -> In w p -> snd v = snd w) -> p <> [] ->
  let s := snd (read slice eig QWply (fresh p)) in
  fst (read slice eig QWply (fresh p)) = Err UnboundLocalError /\ fst (read slice eig QWply s) = Ok 0.
Proof.
  intros slice eig p FL NE s. assert (F : read slice eig QWply (fresh p) = (Err UnboundLocalError, with_Wply 0 (fresh p))) by (apply wply_err; [reflexivity|apply flat_pna; assumption]).
  unfold s. clear s. rewrite F. split; reflexivity.
Qed.
Print Assumptions C43_failed_read_refuted.

Lemma failed_turned slice eig p : (forall v w, In v p -> In w p -> fst v = fst w) -> p <> [] ->
  let s := snd (read slice eig QWplz (fresh p)) in
  fst (read slice eig QWplz (fresh p)) = Err UnboundLocalError /\ fst (read slice eig QWplz s) = Ok 0 /\
  pf_poly s = map quarter_turn p /\ forall q, q <> QWplz -> fst (read slice eig q s) = fst (read slice eig q (fresh (map quarter_turn p))).
Proof.
  intros FL NE s.
  assert (FP : find_pna slice (map quarter_turn p) = Err UnboundLocalError).
  { apply flat_pna; [|destruct p; [congruence|discriminate]]. intros v w Iv Iw. apply in_map_iff in Iv. apply in_map_iff in Iw.
    destruct Iv as (v' & <- & Iv). destruct Iw as (w' & <- & Iw). cbn. apply FL; assumption. }
  assert (TM : map (rotate_map 90 (0, 0) false) p = map quarter_turn p) by (apply map_ext; intros; apply turn90).
  assert (F : read slice eig QWplz (fresh p) = (Err UnboundLocalError, with_Wplz 0 (with_poly (map quarter_turn p) (fresh p)))).
  { unfold read, read_Wplz. change (pf_Wplz (fresh p)) with (@None R). cbv iota beta zeta. change (pf_poly (fresh p)) with p. rewrite TM.
    change (pf_poly (with_Wplz 0 (with_poly (map quarter_turn p) (fresh p)))) with (map quarter_turn p).
    rewrite FP. reflexivity. }
  unfold s. clear s. rewrite F. cbn [fst snd]. split; [reflexivity|split; [reflexivity|split; [reflexivity|]]]. clear.
  generalize (map quarter_turn p) as P. intros P q Nq. destruct q; try congruence; try reflexivity.
  - unfold read, read_Icsi, principals, after. cbv -[principal moment]. destruct (principal eig _ _ _) as [[? ?] ?]. reflexivity.
  - unfold read, read_Icsi, principals, after. cbv -[principal moment]. destruct (principal eig _ _ _) as [[? ?] ?]. reflexivity.
  - unfold read, read_Wely, elastic_moduli, after. cbv -[moment Reqb Rmax Rabs r_zmin r_zmax r_ymin r_ymax Rdiv]. repeat destruct (Reqb _ _); reflexivity.
  - unfold read, read_Welz, elastic_moduli, after. cbv -[moment Reqb Rmax Rabs r_zmin r_zmax r_ymin r_ymax Rdiv]. repeat destruct (Reqb _ _); reflexivity.
  - unfold read, read_Wply. cbv -[find_pna plastic_modulus]. destruct (find_pna slice P); reflexivity.
  - unfold read, read_iy, after. cbv -[moment Reqb sqrt Rdiv]. repeat destruct (Reqb _ _); reflexivity.
  - unfold read, read_iz, after. cbv -[moment Reqb sqrt Rdiv]. repeat destruct (Reqb _ _); reflexivity.
Qed.
(** The same for the plastic modulus about z: the failed read leaves 0 behind and, because the outline is turned back only at
    the end, every later read sees the turned outline. *)
Theorem C43_failed_turned_read_refuted : forall slice eig p, (forall v w, In v p -> In w p -> fst v = fst w) -> p <> [] ->
  let s := snd (read slice eig QWplz (fresh p)) in
  fst (read slice eig QWplz (fresh p)) = Err UnboundLocalError /\ fst (read slice eig QWplz s) = Ok 0 /\
  pf_poly s = map quarter_turn p /\ forall q, q <> QWplz -> fst (read slice eig q s) = fst (read slice eig q (fresh (map quarter_turn p))).
Proof. exact failed_turned. Qed.
Print Assumptions C43_failed_turned_read_refuted.

(** Non-vacuity: a rectangle with the obvious cut. *)
Definition box_ring (y0 y1 z0 z1 : R) : ring := [(y0, z0); (y1, z0); (y1, z1); (y0, z1); (y0, z0)].
Definition box_slice : slicer := fun p z =>
  (if Rltb z (r_zmax p) then [box_ring (r_ymin p) (r_ymax p) (Rmax z (r_zmin p)) (r_zmax p)] else [])
  ++ (if Rltb (r_zmin p) z then [box_ring (r_ymin p) (r_ymax p) (r_zmin p) (Rmin z (r_zmax p))] else []).


Lemma box_moments y0 y1 z0 z1 : y0 < y1 -> z0 < z1 ->
  fan_moment 0 0 (box_ring y0 y1 z0 z1) = (y1 - y0) * (z1 - z0) /\ fan_moment 0 1 (box_ring y0 y1 z0 z1) = (y1 - y0) * (z1 - z0) * ((z0 + z1) / 2) /\
  0 < fan_moment 0 2 (box_ring y0 y1 z0 z1) /\ 0 < fan_moment 2 0 (box_ring y0 y1 z0 z1).
Proof.
  intros HY HZ. set (w := y1 - y0). set (h := z1 - z0).
  assert (Ph : 0 < h) by (unfold h; lra). assert (Pw : 0 < w) by (unfold w; lra).
  assert (E : rectangle_ring w h ((y0 + y1) / 2) ((z0 + z1) / 2) = Ok (box_ring y0 y1 z0 z1)).
  { unfold rectangle_ring, box_ring. destruct (Rleb_spec w 0); [lra|]. destruct (Rleb_spec h 0); [lra|]. unfold w, h. f_equal.
    replace (- (y1 - y0) / 2 + (y0 + y1) / 2) with y0 by field. replace ((y1 - y0) / 2 + (y0 + y1) / 2) with y1 by field. replace (- (z1 - z0) / 2 + (z0 + z1) / 2) with z0 by field. replace ((z1 - z0) / 2 + (z0 + z1) / 2) with z1 by field. reflexivity. }
  destruct (rect_constants _ _ _ _ _ E) as (_ & E00 & PA & _ & E01 & E02 & E20 & _). rewrite !ring_moment_fan in *. injection E00 as ->. injection E01 as ->. injection E02 as ->. injection E20 as ->.
  split; [reflexivity|]. split; [reflexivity|]. assert (0 < h ^ 3) by (apply pow_lt, Ph). assert (0 < w ^ 3) by (apply pow_lt, Pw).
  pose proof (Rmult_lt_0_compat w (h ^ 3) Pw ltac:(assumption)). pose proof (Rmult_lt_0_compat (w ^ 3) h ltac:(assumption) Ph).
  pose proof (Rmult_le_pos (w * h) (((z0 + z1) / 2) ^ 2) ltac:(lra) (pow2_ge_0 _)). pose proof (Rmult_le_pos (w * h) (((y0 + y1) / 2) ^ 2) ltac:(lra) (pow2_ge_0 _)). split; lra.
Qed.
(** A ring with these four corners. *)
Definition corners (p : ring) (y0 y1 z0 z1 : R) : Prop :=
  y0 < y1 /\ z0 < z1 /\ (forall v, In v p -> (fst v = y0 \/ fst v = y1) /\ (snd v = z0 \/ snd v = z1)) /\ In (y0, z0) p /\ In (y1, z1) p.
Lemma corner_bounds p y0 y1 z0 z1 : corners p y0 y1 z0 z1 -> r_ymin p = y0 /\ r_ymax p = y1 /\ r_zmin p = z0 /\ r_zmax p = z1.
Proof.
  intros (HY & HZ & HV & I0 & I1). assert (NE : p <> []) by (intros ->; destruct I0). unfold r_ymin, r_ymax, r_zmin, r_zmax.
  destruct (fold_min_in fst p NE) as (a & Ia & Ea). destruct (fold_max_in fst p NE) as (b & Ib & Eb). destruct (fold_min_in snd p NE) as (c & Ic & Ec). destruct (fold_max_in snd p NE) as (d & Id & Ed).
  pose proof (fold_min_le fst p _ I0) as F1. pose proof (fold_max_ge fst p _ I1) as F2. pose proof (fold_min_le snd p _ I0) as F3. pose proof (fold_max_ge snd p _ I1) as F4. cbn [fst snd] in *.
  destruct (HV a Ia) as [[Q1|Q1] _], (HV b Ib) as [[Q2|Q2] _], (HV c Ic) as [_ [Q3|Q3]], (HV d Id) as [_ [Q4|Q4]]; rewrite Q1, Q2, Q3, Q4 in *; repeat split; lra.
Qed.
Lemma box_slices p y0 y1 z0 z1 : corners p y0 y1 z0 z1 -> shoelace p = (y1 - y0) * (z1 - z0) -> slices box_slice p (fun z => (y1 - y0) * (z1 - z)) (y1 - y0).
Proof.
  intros HC HA u0 u1 SP. pose proof HC as (HY & HZ & HV & I0 & I1). destruct (corner_bounds p _ _ _ _ HC) as (B1 & B2 & B3 & B4).
  assert (E0 : u0 = z0). { destruct SP as (S1 & (v & Iv & Ev) & _). pose proof (S1 _ I0) as Q. destruct (HV v Iv) as [_ [Q'|Q']]; cbn [snd] in Q; lra. }
  assert (E1 : u1 = z1). { destruct SP as (S1 & _ & (v & Iv & Ev)). pose proof (S1 _ I1) as Q. destruct (HV v Iv) as [_ [Q'|Q']]; cbn [snd] in Q; lra. }
  subst u0 u1. split; [|split; [rewrite HA; reflexivity|split; [ring|intros z z' H1 H2; split; nra]]].
  intros z Z. unfold box_slice. rewrite B1, B2, B3, B4, HA. rewrite (Rmax_left z z0), (Rmin_left z z1) by lra.
  assert (CH : forall a b, a < b -> centre_height (box_ring y0 y1 a b) = (a + b) / 2 /\ Rabs (shoelace (box_ring y0 y1 a b)) = (y1 - y0) * (b - a)).
  { intros a b H. destruct (box_moments y0 y1 a b HY H) as (E00 & E01 & _). unfold centre_height. rewrite E01, E00. rewrite <- (fan_area (box_ring y0 y1 a b)), E00.
    assert (0 < (y1 - y0) * (b - a)) by (apply Rmult_lt_0_compat; lra). split; [field; split; lra|apply Rabs_pos_eq; lra]. }
  destruct (Rltb_spec z z1) as [U|U], (Rltb_spec z0 z) as [D|D]; cbn [app map]; rewrite ?lsum_cons, ?lsum_nil;
    try (destruct (CH z z1 U) as [G1 G2]; rewrite G1, G2; destruct (Rlt_dec z ((z + z1) / 2)); [|lra]);
    try (destruct (CH z0 z D) as [G3 G4]; rewrite G3, G4; destruct (Rlt_dec z ((z0 + z) / 2)); [lra|]).
  - split; ring.
  - assert (z = z0) by lra. subst z. split; ring.
  - assert (z = z1) by lra. subst z. split; ring.
  - lra.
Qed.
Example C43_example : forall b h, 0 < b -> 0 < h ->
  let p := box_ring 0 b 0 h in
  outline p /\ slices box_slice p (fun z => b * (h - z)) b /\ outline (map quarter_turn p) /\ (exists a w, slices box_slice (map quarter_turn p) a w) /\ eigen_ok (eig2 1).
Proof.
  intros b h Pb Ph p. destruct (box_moments 0 b 0 h Pb Ph) as (E00 & _ & P1 & P2). destruct (box_moments (- h) 0 0 b ltac:(lra) Pb) as (F00 & _ & P3 & P4).
  assert (TURN : forall m n, fan_moment m n (map quarter_turn p) = fan_moment m n (box_ring (- h) 0 0 b)).
  { intros m n. unfold fan_moment, p, box_ring, quarter_turn. cbn [map edges fst snd]. rewrite ?lsum_cons, ?lsum_nil. replace (-0) with 0 by ring. ring. }
  assert (KP : corners p 0 b 0 h). { repeat split; try assumption; try (cbn; tauto); destruct H as [<- | [<- | [<- | [<- | [<- | []]]]]]; cbn; tauto. }
  assert (KT : corners (map quarter_turn p) (- h) 0 0 b).
  { split; [lra|]. split; [lra|]. split; [|unfold p, box_ring, quarter_turn; cbn [map fst snd]; replace (-0) with 0 by ring; cbn; tauto].
    intros v I. unfold p, box_ring, quarter_turn in I. cbn [map fst snd] in I. replace (-0) with 0 in I by ring. destruct I as [<- | [<- | [<- | [<- | [<- | []]]]]]; cbn; tauto. }
  split; [|split; [|split; [|split; [|apply eig2_ok; ring]]]].
  - split; [reflexivity|]. fold p in E00, P1, P2. split; [rewrite E00; rewrite !Rminus_0_r; apply Rmult_lt_0_compat; assumption|]. split; [exact P1|]. split; [exact P2|].
    split; [exists (0, 0), (b, 0); cbn; tauto|exists (0, 0), (b, h); cbn; tauto].
  - pose proof (box_slices p 0 b 0 h KP) as Q. rewrite <- fan_area in Q. specialize (Q E00). rewrite Rminus_0_r in Q. exact Q.
  - split; [reflexivity|]. rewrite !TURN. split; [rewrite F00; apply Rmult_lt_0_compat; lra|]. split; [exact P3|]. split; [exact P4|].
    unfold p, box_ring, quarter_turn. cbn [map fst snd]. split; [exists (- h, b), (- 0, b); cbn; intuition lra|exists (- 0, 0), (- 0, b); cbn; tauto].
  - exists (fun z => (0 - - h) * (b - z)), (0 - - h). apply box_slices with (z0 := 0) (z1 := b); [exact KT|]. rewrite <- fan_area, TURN. exact F00.
Qed.
