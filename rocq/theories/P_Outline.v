(** Property C53: the outlines of steel profiles. *)
From Coq Require Import String Lra Lia ClassicalChoice.
From Verif Require Import Base L_Calc S_Marin M_Marin L_Marin M_MarinInt L_MarinInt2 M_Geo L_Geo M_Profile S_Profile L_Profile M_ProfileTable M_Catalog S_Catalog L_Catalog L_Catalog2 P_Catalog
  M_Outline S_Outline L_Outline L_Outline2 L_Outline3 L_Outline4 L_Outline5 L_Outline6 L_Outline7 L_Outline8 L_Outline9 L_Outline10 L_Outline11.
Open Scope R_scope.
Open Scope list_scope.

Lemma fan_turned m n m' n' l : (forall p q, triangle_moment m n (quarter_turn p) (quarter_turn q) = triangle_moment m' n' p q) -> fan_moment m n (map quarter_turn l) = fan_moment m' n' l.
Proof.
  intros E. induction l as [|a l IH]; [reflexivity|]. destruct l as [|b l]; [cbn [map]; rewrite !fan_single; reflexivity|].
  cbn [map] in *. rewrite !fan_cons2, E, IH. reflexivity.
Qed.
Lemma outline_turned p : outline p -> outline (map quarter_turn p).
Proof.
  intros (C & A & Iy & Iz & (v & w & J1 & J2 & L1) & (v' & w' & J3 & J4 & L2)).
  assert (E0 : fan_moment 0 0 (map quarter_turn p) = fan_moment 0 0 p) by (apply fan_turned; intros; rewrite !tm_00; unfold cross, quarter_turn; cbn [fst snd]; field).
  assert (E1 : fan_moment 0 2 (map quarter_turn p) = fan_moment 2 0 p) by (apply fan_turned; intros; rewrite tm_02, tm_20; unfold cross, quarter_turn; cbn [fst snd]; field).
  assert (E2 : fan_moment 2 0 (map quarter_turn p) = fan_moment 0 2 p) by (apply fan_turned; intros; rewrite tm_02, tm_20; unfold cross, quarter_turn; cbn [fst snd]; field).
  split; [|rewrite E0, E1, E2; split; [exact A|]; split; [exact Iz|]; split; [exact Iy|]; split].
  - destruct p as [|a p]; [exact C|]. unfold closed in *. cbn [map]. change (quarter_turn a :: map quarter_turn p) with (map quarter_turn (a :: p)).
    destruct (exists_last (l := a :: p)) as (k & z & E); [discriminate|]. rewrite E in *. rewrite last_last in C. subst z. rewrite map_app. cbn [map]. apply last_last.
  - exists (quarter_turn w'), (quarter_turn v'). split; [now apply in_map|]. split; [now apply in_map|]. unfold quarter_turn; cbn [fst]. lra.
  - exists (quarter_turn v), (quarter_turn w). split; [now apply in_map|]. split; [now apply in_map|]. exact L1.
Qed.
Lemma boxed_measures p x0 x1 y0 y1 : boxed [p] x0 x1 y0 y1 -> measures p (x1 - x0) (y1 - y0).
Proof.
  intros (A & (p1 & v1 & [<-|[]] & J1 & E1) & (p2 & v2 & [<-|[]] & J2 & E2) & (p3 & v3 & [<-|[]] & J3 & E3) & (p4 & v4 & [<-|[]] & J4 & E4)).
  split.
  - exists x0, x1. split; [intros v I; apply (A p v (or_introl eq_refl) I)|]. split; [now exists v1|]. split; [now exists v2|reflexivity].
  - exists y0, y1. split; [|reflexivity]. split; [intros v I; apply (A p v (or_introl eq_refl) I)|]. split; [now exists v3|now exists v4].
Qed.

(** ** What is returned *)
(** For dimensions that fit, each of the five constructors returns a closed polygon, listed counter-clockwise, as high and as wide as asked for, with its
    centroid in the origin, symmetric where the profile is; the constants of a profile can be taken from it, also after a quarter turn (C43). *)
Theorem C53_outline : forall S s, exact S -> fits s ->
  exists p, draw S s = Ok p /\ outline p /\ outline (map quarter_turn p) /\ measures p (width_of s) (height_of s) /\
    fan_moment 1 0 p = 0 /\ fan_moment 0 1 p = 0 /\ (equal_flanges s -> mirror_z p) /\ (both_sides s -> mirror_y p).
Proof.
  intros S s [XU XO] FI. assert (O1 : Nat.Odd 1) by (exists 0%nat; reflexivity).
  destruct s as [h b tw tf r|h b tw tf r1 r2 sl|h b tw tf r1 r2 sl u|h b tw tf r|h b t1 t2 r1 r2]; cbn [draw width_of height_of equal_flanges both_sides].
  - destruct (I_call S h b tw tf r XU FI) as (p & E & C & MY & MZ & PO & Hh & Hb & BX & _). exists p. split; [exact E|].
    assert (OP : outline p) by (apply (outline_of _ _ _ _ _ C PO BX); lra). split; [exact OP|]. split; [now apply outline_turned|].
    split; [pose proof (boxed_measures _ _ _ _ _ BX) as M; replace (b / 2 - - (b / 2)) with b in M by field; replace (h / 2 - - (h / 2)) with h in M by field; exact M|].
    split; [now apply MY|]. split; [now apply MZ|]. split; intros _; assumption.
  - destruct (taper_I_call S h b tw tf r1 r2 sl XO FI) as (W & p & E & EW & SW & C & Hh & FP & BX & _). exists p. split; [exact E|]. destruct FI as (P1 & P2 & P3 & P4 & P5 & _).
    assert (PO : forall m n, second m n -> 0 < fan_moment m n p).
    { intros m n K. rewrite FP. pose proof (q_pos W (b / 2) (h / 2) (tw / 2)) as Q. specialize (Q ltac:(lra) ltac:(lra) EW SW m n K).
      assert (S1 : (1 + (-1) ^ m) * (1 + (-1) ^ n) = 4) by (destruct K as [K|[K|K]]; injection K as -> ->; cbn [pow]; ring). rewrite S1. lra. }
    assert (OP : outline p) by (apply (outline_of _ _ _ _ _ C PO BX); lra). split; [exact OP|]. split; [now apply outline_turned|].
    assert (MY : mirror_y p) by (intros m n O; rewrite FP, (odd_sign m O); ring). assert (MZ : mirror_z p) by (intros m n O; rewrite FP, (odd_sign n O); ring).
    split; [pose proof (boxed_measures _ _ _ _ _ BX) as M; replace (b / 2 - - (b / 2)) with b in M by field; replace (h / 2 - - (h / 2)) with h in M by field; exact M|].
    split; [now apply MY|]. split; [now apply MZ|]. split; intros _; assumption.
  - destruct (taper_U_call S h b tw tf r1 r2 sl u XO FI) as (p & E & C & Hh & M1 & MZ & PO & (x0 & BX) & _). exists p. split; [exact E|]. destruct FI as (P1 & P2 & P3 & P4 & P5 & _).
    assert (OP : outline p) by (apply (outline_of _ _ _ _ _ C PO BX); lra). split; [exact OP|]. split; [now apply outline_turned|].
    split; [pose proof (boxed_measures _ _ _ _ _ BX) as M; replace (x0 + b - x0) with b in M by field; replace (h / 2 - - (h / 2)) with h in M by field; exact M|].
    split; [exact M1|]. split; [now apply MZ|]. split; [intros _; exact MZ|intros []].
  - destruct (parallel_U_call S h b tw tf r XU FI) as (p & E & C & M1 & MZ & PO & Hh & Hb & (x0 & BX) & _). exists p. split; [exact E|].
    assert (OP : outline p) by (apply (outline_of _ _ _ _ _ C PO BX); lra). split; [exact OP|]. split; [now apply outline_turned|].
    split; [pose proof (boxed_measures _ _ _ _ _ BX) as M; replace (x0 + b - x0) with b in M by field; replace (h / 2 - - (h / 2)) with h in M by field; exact M|].
    split; [exact M1|]. split; [now apply MZ|]. split; [intros _; exact MZ|intros []].
  - destruct (L_call S h b t1 t2 r1 r2 XO FI) as (p & E & C & Hh & Hb & M1 & M2 & PO & (x0 & y0 & BX) & _). exists p. split; [exact E|].
    assert (OP : outline p) by (apply (outline_of _ _ _ _ _ C PO BX); lra). split; [exact OP|]. split; [now apply outline_turned|].
    split; [pose proof (boxed_measures _ _ _ _ _ BX) as M; replace (x0 + b - x0) with b in M by field; replace (y0 + h - y0) with h in M by field; exact M|].
    split; [exact M1|]. split; [exact M2|]. split; intros [].
Qed.
Print Assumptions C53_outline.

(** ** Parallel flanges: area and second moments *)
(** They exceed those of the section with circular fillets by what 16 chords leave of a quarter of a circle: at most 0.0013 of the square of the radius for each fillet. *)
Theorem C53_parallel : forall S h b tw tf r, exact S ->
  (forall p, fits (ShI h b tw tf r) -> draw S (ShI h b tw tf r) = Ok p ->
     0 <= fan_moment 0 0 p - flanged_area 4 h b tw tf r <= 4 * (13 / 10000 * r ^ 2) /\
     0 <= fan_moment 0 2 p - flanged_iy 4 h b tw tf r <= 4 * (13 / 10000 * (r ^ 2 * (h / 2) ^ 2)) /\
     Rabs (fan_moment 2 0 p - i_iz h b tw tf r) <= 2 / 1000 * (r ^ 2 * b ^ 2)) /\
  (forall p, fits (ShParallelU h b tw tf r) -> draw S (ShParallelU h b tw tf r) = Ok p ->
     0 <= fan_moment 0 0 p - flanged_area 2 h b tw tf r <= 2 * (13 / 10000 * r ^ 2) /\
     0 <= fan_moment 0 2 p - flanged_iy 2 h b tw tf r <= 2 * (13 / 10000 * (r ^ 2 * (h / 2) ^ 2))).
Proof.
  intros S h b tw tf r [XU XO]. split; intros p FI D; cbn [draw] in D.
  - destruct (I_call S h b tw tf r XU FI) as (p' & E & _ & _ & _ & _ & _ & _ & _ & V). rewrite E in D. apply Ok_inj in D. subst p'. exact V.
  - destruct (parallel_U_call S h b tw tf r XU FI) as (p' & E & _ & _ & _ & _ & _ & _ & _ & V). rewrite E in D. apply Ok_inj in D. subst p'. exact V.
Qed.
Print Assumptions C53_parallel.

(** ** Sloping flanges and angles: area *)
(** The area is that with sharp corners, up to the rounding of the inner corners (radius r1, adds) and of the tips (radius r2, takes away). *)
Theorem C53_rolled : forall S h b tw tf r1 r2 sl u t1 t2, exact S ->
  (forall p, fits (ShTaperI h b tw tf r1 r2 sl) -> draw S (ShTaperI h b tw tf r1 r2 sl) = Ok p ->
     - (4 * round_off r2) <= fan_moment 0 0 p - sharp_area (ShTaperI h b tw tf r1 r2 sl) <= 4 * round_off r1) /\
  (forall p, fits (ShTaperU h b tw tf r1 r2 sl u) -> draw S (ShTaperU h b tw tf r1 r2 sl u) = Ok p ->
     - (2 * round_off r2) <= fan_moment 0 0 p - sharp_area (ShTaperU h b tw tf r1 r2 sl u) <= 2 * round_off r1) /\
  (forall p, fits (ShL h b t1 t2 r1 r2) -> draw S (ShL h b t1 t2 r1 r2) = Ok p ->
     - (2 * round_off r2) <= fan_moment 0 0 p - sharp_area (ShL h b t1 t2 r1 r2) <= round_off r1).
Proof.
  intros S h b tw tf r1 r2 sl u t1 t2 [XU XO]. unfold round_off. split; [|split]; intros p FI D; cbn [draw] in D.
  - destruct (taper_I_call S h b tw tf r1 r2 sl XO FI) as (W & p' & E & _ & _ & _ & _ & FP & _ & th1 & th2 & T1 & T2 & V). rewrite E in D. apply Ok_inj in D. subst p'.
    rewrite FP. cbn [pow]. replace ((1 + 1) * (1 + 1) * fan_moment 0 0 ((0, - (h / 2)) :: W)) with (4 * fan_moment 0 0 ((0, - (h / 2)) :: W)) by ring. rewrite V. unfold sharp_area.
    replace (sl * (b / 4 - (b + tw) / 4)) with (- (sl * tw / 4)) by field. cbn [pow] in T1, T2. lra.
  - destruct (taper_U_call S h b tw tf r1 r2 sl u XO FI) as (p' & E & _ & _ & _ & _ & _ & _ & th1 & th2 & T1 & T2 & V). rewrite E in D. apply Ok_inj in D. subst p'.
    rewrite V. unfold sharp_area. replace ((b - u) - (b + tw) / 2) with ((b - tw) / 2 - u) by field. lra.
  - destruct (L_call S h b t1 t2 r1 r2 XO FI) as (p' & E & _ & _ & _ & _ & _ & _ & _ & th1 & th2 & T1 & T2 & V). rewrite E in D. apply Ok_inj in D. subst p'.
    rewrite V. unfold sharp_area. lra.
Qed.
Print Assumptions C53_rolled.

(** ** The catalogue *)
(** Every profile of the catalogue can be drawn, with the height and width of the table. *)
Theorem C53_catalogue : forall S f name s, exact S -> drawing f name s ->
  exists p, draw S s = Ok p /\ outline p /\ outline (map quarter_turn p) /\ fan_moment 1 0 p = 0 /\ fan_moment 0 1 p = 0 /\
    exists h b, measure f name "h" h /\ measure f name "b" b /\ measures p b h.
Proof.
  intros S f name s X D. destruct (C53_outline S s X (C52_fits f name s D)) as (p & E & O1 & O2 & M & C1 & C2 & _).
  exists p. split; [exact E|]. split; [exact O1|]. split; [exact O2|]. split; [exact C1|]. split; [exact C2|].
  assert (G : measure f name "h" (height_of s) /\ measure f name "b" (width_of s)).
  { unfold drawing in D. destruct f.
    all: try (destruct D as (h & b & tw & tf & r & M1 & M2 & _ & _ & _ & ->); split; assumption).
    all: try (destruct D as (h & b & tw & tf & r1 & r2 & M1 & M2 & _ & _ & _ & _ & ->); split; assumption).
    destruct D as (h & b & tw & tf & r1 & r2 & M1 & M2 & _ & _ & _ & _ & G1 & G2). destruct (Rle_dec h 300) as [L|L]; [rewrite (G1 L)|rewrite (G2 ltac:(lra))]; split; assumption. }
  exists (height_of s), (width_of s). destruct G. auto.
Qed.
Print Assumptions C53_catalogue.

(** For the profiles named by their mass, the area of the outline times the density of steel is the mass in the name, to 4 per cent. *)
Theorem C53_masses : forall S f name s p, exact S -> by_mass f -> drawing f name s -> draw S s = Ok p ->
  exists m, mass_in_name name m /\ Rabs (785 / 100000 * fan_moment 0 0 p - m) <= 4 / 100 * m.
Proof.
  intros S f name s p X BM D E. pose proof (C52_fits f name s D) as FI.
  assert (G : exists h b tw tf r, measure f name "h" h /\ measure f name "b" b /\ measure f name "tw" tw /\ measure f name "tf" tf /\ measure f name "r" r /\ s = ShI h b tw tf r).
  { destruct BM as [<-|[<-|[<-|[<-|[<-|[<-|[]]]]]]]; exact D. }
  destruct G as (h & b & tw & tf & r & M1 & M2 & M3 & M4 & M5 & ->).
  destruct (C52_masses f name h b tw tf r BM M1 M2 M3 M4 M5) as (m & N & B). exists m. split; [exact N|].
  destruct (C53_parallel S h b tw tf r X) as [K _]. destruct (K p FI E) as (A & _).
  assert (EA : flanged_area 4 h b tw tf r = i_area h b tw tf r) by (unfold flanged_area, i_area; field). rewrite EA in A.
  destruct FI as (P1 & P2 & P3 & P4 & P5). pose proof pi_bounds. pose proof (pow_lt r 2 P3).
  assert (LA : 857 / 1000 * r ^ 2 <= i_area h b tw tf r).
  { unfold i_area. pose proof (Rmult_le_pos b tf ltac:(lra) ltac:(lra)). pose proof (Rmult_le_pos (h - 2 * tf) tw ltac:(lra) ltac:(lra)).
    assert (857 / 1000 * r ^ 2 <= (4 - PI) * r ^ 2) by (apply Rmult_le_compat_r; lra). lra. }
  pose proof (Rle_abs (785 / 100000 * i_area h b tw tf r - m)) as B1. pose proof (Rle_abs (- (785 / 100000 * i_area h b tw tf r - m))) as B2. rewrite Rabs_Ropp in B2.
  apply Rabs_le.
  lra.
Qed.
Print Assumptions C53_masses.

(** ** The hypotheses can be met *)
Definition chamfer (xy : list (R * R)) (r : R) : list (R * R) :=
  match xy with [A; B; C] => [A; between B A (Rabs r / dist A B); between B C (Rabs r / dist B C); C] | _ => xy end.
Lemma chamfer_exact : exact_offset chamfer.
Proof.
  intros A B C r T D D1 D2 p. left. unfold p, chamfer. cbn [chamfer].
  assert (R0 : 0 < Rabs r) by (apply Rabs_pos_lt; intros ->; lra).
  assert (K : forall d, Rabs r <= d -> 0 < Rabs r / d <= 1 /\ Rabs r / d * d = Rabs r).
  { intros d L. split; [split; [apply Rdiv_lt_0_compat; lra|]|field; lra]. apply (Rmult_le_reg_r d); [lra|]. replace (Rabs r / d * d) with (Rabs r) by (field; lra). lra. }
  destruct (K _ D1) as [K1 K2]. destruct (K _ D2) as [K3 K4]. set (k1 := Rabs r / dist A B) in *. set (k2 := Rabs r / dist B C) in *.
  exists (between B A k1), (between B C k2), [between B A k1; between B C k2], k1, k2.
  split; [exact K1|]. split; [exact K3|]. split; [lra|]. split; [lra|]. split; [reflexivity|]. split; [reflexivity|]. split; [reflexivity|]. split; [reflexivity|]. split; [|split].
  - intros v [<-|[<-|[]]]; [exists 0, 0|exists 1, 1]; (split; [lra|]; split; [lra|]); unfold between; cbn [fst snd]; f_equal; ring.
  - intros e [<-|[]]. exists k1, k2. split; [lra|]. split; [lra|]. unfold between; cbn [fst snd]. split; ring.
  - left. reflexivity.
Qed.
Lemma some_union : exists u, exact_union u.
Proof.
  destruct (choice (fun (parts out : list ring) => forall l r, tower l r -> same_region [tower_ring l r] parts -> same_box [tower_ring l r] parts ->
    exists p, out = [p] /\ closed p /\ same_region [p] parts /\ same_box [p] parts)) as (u & U); [|exists u; exact U].
  intros parts. destruct (Classical_Prop.classic (exists l r, tower l r /\ same_region [tower_ring l r] parts /\ same_box [tower_ring l r] parts)) as [(l & r & T & R & B)|N].
  - exists [tower_ring l r]. intros _ _ _ _ _. exists (tower_ring l r). split; [reflexivity|]. split; [|auto].
    destruct T as (_ & _ & (l0 & l1 & r0 & r1 & E1 & E2 & E3 & E4 & _) & _).
    pose proof (conj E1 E2 : ends l l0 l1) as EL. pose proof (conj E3 E4 : ends r r0 r1) as ER.
    apply (closed_ends _ l0). destruct (ends_cons _ _ _ EL) as [k EK]. unfold tower_ring. rewrite EK. rewrite <- EK.
    apply (ends_app _ _ _ _ _ _ (ends_single l0) (ends_app _ _ _ _ _ _ ER (ends_rev _ _ _ EL))).
  - exists []. intros l r T R B. exfalso. apply N. exists l, r. auto.
Qed.
(** There is a shapely of this kind; dimensions of a profile of each shape fit. *)
Example C53_applies :
  (exists S, exact S) /\ fits (ShI 200 100 (56 / 10) (85 / 10) 12) /\ fits (ShParallelU 200 80 6 11 13) /\
  fits (ShTaperI 200 90 (75 / 10) (113 / 10) (75 / 10) (45 / 10) (14 / 100)) /\ fits (ShTaperU 200 75 (85 / 10) (115 / 10) (115 / 10) 6 (8 / 100) (75 / 2)) /\ fits (ShL 120 80 8 8 11 (55 / 10)) /\
  (exists S p, exact S /\ draw S (ShI 200 100 (56 / 10) (85 / 10) 12) = Ok p /\ Rabs (fan_moment 0 0 p - 2848) <= 2).
Proof.
  destruct some_union as (u & U). assert (X : exact {| unary_union := u; offset_curve := chamfer |}) by (split; [exact U|exact chamfer_exact]).
  assert (FI : fits (ShI 200 100 (56 / 10) (85 / 10) 12)) by (cbn [fits]; lra).
  split; [eexists; exact X|]. split; [exact FI|]. split; [cbn [fits]; lra|]. split; [cbn [fits]; lra|]. split; [cbn [fits]; lra|]. split; [cbn [fits]; lra|].
  destruct (C53_outline _ _ X FI) as (p & E & _). eexists. exists p. split; [exact X|]. split; [exact E|].
  destruct (C53_parallel _ 200 100 (56 / 10) (85 / 10) 12 X) as [K _]. destruct (K p FI E) as (A & _). unfold flanged_area in A. pose proof pi_bounds. cbn [pow] in A. apply Rabs_le. lra.
Qed.
Print Assumptions C53_applies.
