(** Area integrals of a field of the strain do not depend on the axes: rings and surfaces. *)
From Coquelicot Require Import Coquelicot.
From Coq Require Import FunctionalExtensionality Lra Lia.
From Verif Require Import Base M_Marin S_Marin L_Marin M_Laws S_Laws M_Laws2 S_Laws2 M_Fiber S_Fiber L_Fiber M_MarinInt S_MarinInt L_MarinInt L_MarinInt2 L_MarinInt3 L_MarinInt4 L_Frame L_Frame2 L_Frame3.

(** * Integrability *)
Lemma eint_everywhere g : eint g -> everywhere g.
Proof.
  intros E a b. destruct (Req_dec a b) as [-> |N]; [apply (ex_RInt_point (V := R_NormedModule))|].
  set (h := fun t => g (a + (b - a) * t) * (b - a)).
  assert (H : ex_RInt h 0 1).
  { apply (ex_RInt_ext (gfun 0 g (1, a) (1, b))); [|apply E]. intros t _. unfold gfun, h, seg. cbn [fst snd Nat.add INR pow].
    replace ((1 - t) * a + t * b) with (a + (b - a) * t) by ring. toR. field. }
  set (u := / (b - a)). set (v := - a / (b - a)).
  assert (H' : ex_RInt h (u * a + v) (u * b + v)).
  { replace (u * a + v) with 0 by (unfold u, v; field; lra). replace (u * b + v) with 1 by (unfold u, v; field; lra). exact H. }
  apply (ex_RInt_ext (fun x => scal u (h (u * x + v)))); [|exact (ex_RInt_comp_lin (V := R_NormedModule) h u v a b H')].
  intros x _. change (scal u (h (u * x + v))) with (u * h (u * x + v)). unfold h. replace (a + (b - a) * (u * x + v)) with x by (unfold u, v; field; lra).
  unfold u. toR. field. lra.
Qed.
Lemma tame_of_field f e0 r : 0 < r -> (forall off, eint (fun z => f (e0 + r * z) * z ^ off)) -> tame f.
Proof.
  intros P E.
  assert (K : forall n k, everywhere (fun z => f (e0 + r * z) * z ^ k * (e0 + r * z) ^ n)).
  { induction n as [|n IH]; intros k.
    - apply (everywhere_ext (fun z => f (e0 + r * z) * z ^ k)); [intros; cbn [pow]; ring|]. apply eint_everywhere, E.
    - apply (everywhere_ext (fun z => e0 * (f (e0 + r * z) * z ^ k * (e0 + r * z) ^ n) + r * (f (e0 + r * z) * z ^ (S k) * (e0 + r * z) ^ n))); [intros; cbn [pow]; ring|].
      apply everywhere_plus; apply everywhere_scal; apply IH. }
  intros n a b. set (h := fun z => f (e0 + r * z) * z ^ 0 * (e0 + r * z) ^ n).
  set (u := / r). set (v := - e0 / r).
  assert (H' : ex_RInt h (u * a + v) (u * b + v)) by apply K.
  apply (ex_RInt_ext (fun x => scal r (scal u (h (u * x + v))))); [|exact (ex_RInt_scal (V := R_NormedModule) _ a b r (ex_RInt_comp_lin (V := R_NormedModule) h u v a b H'))].
  intros x _. change (scal r (scal u (h (u * x + v)))) with (r * (u * h (u * x + v))). unfold h. replace (e0 + r * (u * x + v)) with x by (unfold u, v; field; lra).
  unfold u. cbn [pow]. toR. field. lra.
Qed.

(** * Rings *)
Lemma telescope (Psi : R * R -> R) l : forall p, lsum (map (fun e => Psi (snd e) - Psi (fst e)) (edges (p :: l))) = Psi (last (p :: l) p) - Psi p.
Proof.
  induction l as [|q l IH]; intros p.
  - cbn. unfold lsum. cbn. ring.
  - change (edges (p :: q :: l)) with ((p, q) :: edges (q :: l)). cbn [map]. rewrite lsum_cons, IH. cbn [fst snd].
    replace (last (p :: q :: l) p) with (last (q :: l) q); [ring|]. change (last (p :: q :: l) p) with (last (q :: l) p).
    clear. revert q. induction l as [|x l IH]; intros q; [reflexivity|]. change (last (x :: l) q = last (x :: l) p). revert x. clear. induction l as [|x' l IH]; intros x; [reflexivity|]. change (last (x' :: l) q = last (x' :: l) p). apply IH.
Qed.
Lemma telescope_closed Psi ring : closed ring -> lsum (map (fun e => Psi (snd e) - Psi (fst e)) (edges ring)) = 0.
Proof.
  destruct ring as [|p l]; intros C; [reflexivity|]. rewrite telescope. cbn [closed] in C. rewrite C. ring.
Qed.
Lemma edges_map (T : R * R -> R * R) r : edges (map T r) = map (fun e => (T (fst e), T (snd e))) (edges r).
Proof.
  induction r as [|p [|q l] IH]; [reflexivity|reflexivity|]. cbn [map edges fst snd] in *. f_equal. exact IH.
Qed.

Lemma lsum_map_opp {X} (g : X -> R) l : lsum (map (fun x => - g x) l) = - lsum (map g l).
Proof. induction l as [|x l IH]; [unfold lsum; cbn; ring|]. cbn [map]. rewrite !lsum_cons, IH. ring. Qed.
Lemma ring_general f e0 r c sn P Q W D E H ring : tame f -> r <> 0 -> sn <> 0 -> c * c + sn * sn = 1 -> closed ring ->
  region_integral (fun y' z' => f (e0 + r * z') * wq P Q W D E H y' z') (map (tp c sn) ring) =
  region_integral (fun y z => f (e0 + r * c * z - - r * sn * y) * wq P Q W D E H (ty c sn y z) (tz c sn y z)) ring.
Proof.
  intros T NR NS CS C. unfold region_integral. rewrite edges_map, map_map.
  match goal with |- ?a = ?b => assert (b + - a = 0); [|lra] end.
  destruct (edge_potential f T e0 r c sn NR NS CS P Q W D E H) as (psi & EP).
  apply eq_trans with (2 := telescope_closed psi ring C). rewrite <- lsum_map_opp.
  rewrite <- lsum_map_plus. apply lsum_map_ext. intros e _. cbn [fst snd]. exact (EP (fst e) (snd e)).
Qed.
Lemma ring_half f e0 r P Q W D E H ring :
  region_integral (fun y' z' => f (e0 + r * z') * wq P Q W D E H y' z') (map (fun p => (- fst p, - snd p)) ring) =
  region_integral (fun y z => f (e0 - r * z) * wq P Q W D E H (- y) (- z)) ring.
Proof.
  unfold region_integral. rewrite edges_map, map_map. apply lsum_map_ext. intros e _. cbn [fst snd]. apply RInt_ext. intros t _.
  unfold seg. cbn [fst snd]. set (Y := (1 - t) * fst (fst e) + t * fst (snd e)). set (Z := (1 - t) * snd (fst e) + t * snd (snd e)).
  replace ((1 - t) * - fst (fst e) + t * - fst (snd e)) with (- Y) by (unfold Y; ring).
  replace ((1 - t) * - snd (fst e) + t * - snd (snd e)) with (- Z) by (unfold Z; ring).
  rewrite slice'. replace (e0 + r * - Z) with (e0 - r * Z) by ring.
  replace (RInt (fun y => f (e0 - r * Z) * wq P Q W D E H (- y) (- Z)) 0 Y) with (- (f (e0 - r * Z) * big P Q W D E H (- Y) (- Z))).
  { toR. ring. }
  symmetry. apply RIntU.
  replace (- (f (e0 - r * Z) * big P Q W D E H (- Y) (- Z))) with (minus (- (f (e0 - r * Z) * big P Q W D E H (- Y) (- Z))) (- (f (e0 - r * Z) * big P Q W D E H (- 0) (- Z)))) by (unfold big, minus, plus, opp; cbn; field).
  generalize (f (e0 - r * Z)). intros k.
  apply (is_RInt_derive (V := R_CompleteNormedModule) (fun y => - (k * big P Q W D E H (- y) (- Z)))); intros x _.
  - unfold big, wq. auto_derive; [exact I|]. toR. field.
  - apply derive_continuous. unfold wq. auto_derive. exact I.
Qed.
Lemma ring_frames f e0 r c sn P Q W D E H ring : tame f -> r <> 0 -> c * c + sn * sn = 1 -> closed ring ->
  region_integral (fun y' z' => f (e0 + r * z') * wq P Q W D E H y' z') (map (tp c sn) ring) =
  region_integral (fun y z => f (e0 + r * c * z - - r * sn * y) * wq P Q W D E H (ty c sn y z) (tz c sn y z)) ring.
Proof.
  intros T NR CS C. destruct (Req_dec sn 0) as [Z|NS]; [|now apply ring_general]. subst sn.
  assert (CC : c = 1 \/ c = - 1).
  { destruct (Req_dec c 1) as [|N1]; [now left|right]. assert (F : (c - 1) * (c + 1) = 0) by (replace ((c - 1) * (c + 1)) with (c * c + 0 * 0 - 1) by ring; rewrite CS; ring).
    apply Rmult_integral in F. lra. }
  destruct CC as [-> | ->].
  - replace (map (tp 1 0) ring) with ring.
    + apply region_ext. intros y z. unfold ty, tz. f_equal; [f_equal; ring|f_equal; ring].
    + rewrite <- (map_id ring) at 1. apply map_ext. intros [y z]. unfold tp, ty, tz. cbn [fst snd]. f_equal; ring.
  - replace (map (tp (- 1) 0) ring) with (map (fun p => (- fst p, - snd p)) ring).
    + rewrite ring_half. apply region_ext. intros y z. unfold ty, tz. f_equal; [f_equal; ring|f_equal; ring].
    + apply map_ext. intros [y z]. unfold tp, ty, tz. cbn [fst snd]. f_equal; ring.
Qed.

Lemma ring_turned f e0 r a ky kz ca cb cc cd ce cf ring : tame f -> r <> 0 -> r * cos a = ky -> r * sin a = - kz -> closed ring ->
  region_integral (fun y' z' => f (plane_strain e0 ky kz (back_y a y' z') (back_z a y' z')) * quadratic ca cb cc cd ce cf (back_y a y' z') (back_z a y' z')) (map (turn a) ring) =
  region_integral (fun y z => f (plane_strain e0 ky kz y z) * quadratic ca cb cc cd ce cf y z) ring.
Proof.
  intros T R0 EY EZ C. set (c := cos a) in *. set (s := sin a) in *.
  assert (CS : c * c + s * s = 1) by (unfold c, s; pose proof (sin2_cos2 a) as X; unfold Rsqr in X; lra).
  assert (KZ : kz = - r * s) by lra. subst ky kz.
  set (P := ca). set (Q := cb * c - cc * s). set (W := cb * s + cc * c). set (D := cd * c ^ 2 - ce * c * s + cf * s ^ 2).
  set (E := 2 * cd * c * s + ce * (c ^ 2 - s ^ 2) - 2 * cf * c * s). set (H := cd * s ^ 2 + ce * s * c + cf * c ^ 2).
  assert (QE : forall y' z', quadratic ca cb cc cd ce cf (back_y a y' z') (back_z a y' z') = wq P Q W D E H y' z').
  { intros y' z'. unfold quadratic, back_y, back_z, wq, P, Q, W, D, E, H. fold c. fold s. ring. }
  assert (BY : forall y z, back_y a (ty c s y z) (tz c s y z) = y).
  { intros y z. unfold back_y, ty, tz. fold c. fold s. transitivity ((c * c + s * s) * y); [ring|rewrite CS; ring]. }
  assert (BZ : forall y z, back_z a (ty c s y z) (tz c s y z) = z).
  { intros y z. unfold back_z, ty, tz. fold c. fold s. transitivity ((c * c + s * s) * z); [ring|rewrite CS; ring]. }
  rewrite (region_ext _ (fun y' z' => f (e0 + r * z') * wq P Q W D E H y' z')).
  2:{ intros y' z'. rewrite QE. f_equal. f_equal. unfold plane_strain, back_y, back_z. fold c. fold s. transitivity (e0 + r * ((c * c + s * s) * z')); [ring|rewrite CS; ring]. }
  rewrite (region_ext (fun y z => f (plane_strain e0 (r * c) (- r * s) y z) * quadratic ca cb cc cd ce cf y z) (fun y z => f (e0 + r * c * z - - r * s * y) * wq P Q W D E H (ty c s y z) (tz c s y z))).
  2:{ intros y z. rewrite <- QE, BY, BZ. reflexivity. }
  exact (ring_frames f e0 r c s P Q W D E H ring T R0 CS C).
Qed.
Lemma turn_ccw a r : ccw_ring (map (turn a) r) = map (turn a) (ccw_ring r).
Proof. unfold ccw_ring. rewrite turned_area. destruct (Rlt_dec (shoelace r) 0); [now rewrite map_rev|reflexivity]. Qed.
Lemma turn_cw a r : cw_ring (map (turn a) r) = map (turn a) (cw_ring r).
Proof. unfold cw_ring. rewrite turned_area. destruct (Rlt_dec 0 (shoelace r)); [now rewrite map_rev|reflexivity]. Qed.
Lemma closed_ccw r : closed r -> closed (ccw_ring r).
Proof. intros C. unfold ccw_ring. destruct (Rlt_dec _ _); [now apply closed_rev|assumption]. Qed.
Lemma closed_cw r : closed r -> closed (cw_ring r).
Proof. intros C. unfold cw_ring. destruct (Rlt_dec _ _); [now apply closed_rev|assumption]. Qed.
Lemma surface_frames f e0 r a ky kz ca cb cc cd ce cf s : (r <> 0 -> tame f) -> r * cos a = ky -> r * sin a = - kz ->
  closed (sf_ext s) -> (forall q, In q (sf_ints s) -> closed q) ->
  surface_integral (fun y' z' => f (plane_strain e0 ky kz (back_y a y' z') (back_z a y' z')) * quadratic ca cb cc cd ce cf (back_y a y' z') (back_z a y' z')) (turned a s) =
  surface_integral (fun y z => f (plane_strain e0 ky kz y z) * quadratic ca cb cc cd ce cf y z) s.
Proof.
  intros T EY EZ C1 C2.
  assert (RG : forall ring, closed ring -> region_integral (fun y' z' => f (plane_strain e0 ky kz (back_y a y' z') (back_z a y' z')) * quadratic ca cb cc cd ce cf (back_y a y' z') (back_z a y' z')) (map (turn a) ring) =
     region_integral (fun y z => f (plane_strain e0 ky kz y z) * quadratic ca cb cc cd ce cf y z) ring).
  { intros ring C. destruct (Req_dec r 0) as [Z|N].
    - subst r. assert (K1 : ky = 0) by lra. assert (K2 : kz = 0) by lra. rewrite K1, K2.
      set (k := f e0).
      rewrite (region_ext _ (fun y z => quadratic (k * ca) (k * cb) (k * cc) (k * cd) (k * ce) (k * cf) (back_y a y z) (back_z a y z))).
      2:{ intros y z. unfold plane_strain. replace (e0 + 0 * back_z a y z - 0 * back_y a y z) with e0 by ring. fold k. unfold quadratic. ring. }
      rewrite (region_quadratic_turned a _ _ _ _ _ _ ring C). apply region_ext. intros y z. unfold plane_strain. replace (e0 + 0 * z - 0 * y) with e0 by ring. fold k. unfold quadratic. ring.
    - apply (ring_turned f e0 r); try assumption; apply T; assumption. }
  unfold surface_integral, turned. cbn [sf_ext sf_ints]. rewrite turn_ccw, RG by (apply closed_ccw; assumption). f_equal.
  rewrite map_map. apply lsum_map_ext. intros q I. rewrite turn_cw. apply RG. apply closed_cw, C2, I.
Qed.
