(** Property C26 with the exact (default) integrator: strain profile of linear sections. *)
From Coquelicot Require Import Coquelicot.
From Coq Require Import Lra Lia.
From Verif Require Import Base M_Marin S_Marin L_Marin M_Laws S_Laws L_Laws M_Laws2 S_Laws2 L_LawsC M_Fiber S_Fiber L_Fiber M_MarinInt S_MarinInt L_MarinInt L_MarinInt2 L_MarinInt3 L_MarinInt4
  M_Section S_Section L_Section L_Section2 L_Section4 L_Section5 M_Domain S_History L_History L_Section6 M_Gross S_Gross L_Gross L_Gross2 P_MarinInt P_Section M_Geo M_Cracked S_Cracked L_Cracked7 S_MarinInt S_Exact L_Newton.

(** After any history of analyses, the strain profile of a linear elastic section
    under any loads is found within three iterations and is exact. *)
Theorem C26_exact_linear : forall laws E t g ms ops s N My Mz initial max_iter tol,
  (forall k, batched (laws k)) -> drawn g ->
  (forall k, in_use g k -> exists l, laws k = elastic_law l /\ el_E l = E k) ->
  no_mechanism E g -> 0 < tol -> (3 <= max_iter)%nat -> history (marin_integ laws) t ms g ops s ->
  exists e0 ky kz s', strain_profile (marin_integ laws) ms g (N, My, Mz) initial max_iter tol s = (Ok (e0, ky, kz), s') /\
    weighted E (fun y z => plane_strain e0 ky kz y z) g = N /\
    weighted E (fun y z => plane_strain e0 ky kz y z * z) g = My /\
    weighted E (fun y z => plane_strain e0 ky kz y z * - y) g = Mz.
Proof.
  intros laws E t g ms ops s N My Mz initial mx tol B DR EL ND TP MX HI.
  pose proof (C24_marin laws t ms g ops s (OStrain (N, My, Mz) initial mx tol) B HI) as HF. cbn [run] in HF. unfold amap in HF. cbn [fst] in HF.
  pose proof (linear_profile laws E g B DR EL ms (N, My, Mz) initial mx tol ND TP) as LP.
  destruct (strain_profile (marin_integ laws) ms g (N, My, Mz) initial mx tol st_init) as [[p|x] s0]; [|exfalso; lia].
  destruct (strain_profile (marin_integ laws) ms g (N, My, Mz) initial mx tol s) as [[q|x] s'] eqn:SP; [|discriminate HF].
  cbn [fst rmap] in HF. injection HF as ->. destruct p as [[e0 ky] kz]. exists e0, ky, kz, s'. split; [reflexivity|].
  rewrite (proj2 (linear_forces laws E g B DR EL (e0, ky, kz))) in LP. cbn [p_e0 p_ky p_kz fst snd] in LP. injection LP as L1 L2 L3. repeat split; assumption.
Qed.
Print Assumptions C26_exact_linear.

Lemma energy E g a b c : rings_closed g ->
  weighted E (fun y z => plane_strain a b c y z) g = 0 -> weighted E (fun y z => plane_strain a b c y z * z) g = 0 ->
  weighted E (fun y z => plane_strain a b c y z * - y) g = 0 ->
  weighted E (fun y z => (a + - c * y + b * z) ^ 2) g = 0.
Proof.
  intros RC Z1 Z2 Z3. pose proof (weighted_ql E g RC) as Q.
  replace (weighted E (fun y z => (a + - c * y + b * z) ^ 2) g) with
   (a * weighted E (fun y z => plane_strain a b c y z) g + b * weighted E (fun y z => plane_strain a b c y z * z) g + c * weighted E (fun y z => plane_strain a b c y z * - y) g); [rewrite Z1, Z2, Z3; ring|].
  rewrite (Q (fun y z => plane_strain a b c y z) a (- c) b 0 0 0) by (intros; unfold plane_strain; ring).
  rewrite (Q (fun y z => plane_strain a b c y z * z) 0 0 a 0 (- c) b) by (intros; unfold plane_strain; ring).
  rewrite (Q (fun y z => plane_strain a b c y z * - y) 0 (- a) 0 c (- b) 0) by (intros; unfold plane_strain; ring).
  rewrite (Q (fun y z => (a + - c * y + b * z) ^ 2) (a ^ 2) (-2 * a * c) (2 * a * b) (c ^ 2) (-2 * b * c) (b ^ 2)) by (intros; ring). ring.
Qed.
Lemma lsum_ge0 {A} (f : A -> R) l : (forall x, In x l -> 0 <= f x) -> 0 <= lsum (map f l).
Proof. induction l as [|x l IH]; intros H; cbn [map]; rewrite ?lsum_nil, ?lsum_cons; [lra|]. specialize (H x (or_introl eq_refl)) as HX. assert (0 <= lsum (map f l)) by (apply IH; intros; apply H; now right). lra. Qed.
Lemma lsum_ge {A} (f : A -> R) l x : (forall x, In x l -> 0 <= f x) -> In x l -> f x <= lsum (map f l).
Proof.
  induction l as [|y l IH]; intros H I; [contradiction|]. cbn [map]. rewrite lsum_cons. destruct I as [<- | I].
  - assert (0 <= lsum (map f l)) by (apply lsum_ge0; intros; apply H; now right). lra.
  - specialize (H y (or_introl eq_refl)) as HY. assert (f x <= lsum (map f l)) by (apply IH; [intros; apply H; now right|exact I]). lra.
Qed.
(** Sections with non-negative stiffness and areas have no mechanism as soon as a
    bulky surface, or three bars that are not on one line, have a positive stiffness. *)
Theorem C26_no_mechanism : forall E g, drawn g -> (forall k, in_use g k -> 0 <= E k) ->
  (forall s, In s (cg_surf g) -> firm s) -> (forall b, In b (cg_bars g) -> 0 <= br_area b) ->
  (exists s, In s (cg_surf g) /\ bulky s /\ 0 < E (sf_law s)) \/
  (exists b1 b2 b3, In b1 (cg_bars g) /\ In b2 (cg_bars g) /\ In b3 (cg_bars g) /\
     (br_y b2 - br_y b1) * (br_z b3 - br_z b1) <> (br_y b3 - br_y b1) * (br_z b2 - br_z b1) /\
     forall b, b = b1 \/ b = b2 \/ b = b3 -> 0 < br_area b /\ 0 < E (br_law b)) ->
  no_mechanism E g.
Proof.
  intros E g DR EP FI AP H e0 ky kz Z1 Z2 Z3. pose proof (energy E g e0 ky kz (proj1 DR) Z1 Z2 Z3) as EN. unfold weighted in EN.
  set (fs := fun s => E (sf_law s) * surface_integral (fun y z => (e0 + - kz * y + ky * z) ^ 2) s) in EN.
  set (fb := fun b => E (br_law b) * (br_area b * (e0 + - kz * br_y b + ky * br_z b) ^ 2)) in EN.
  assert (PS : forall s, In s (cg_surf g) -> 0 <= fs s) by (intros s I; unfold fs; apply Rmult_le_pos; [apply EP; left; exists s; tauto|apply FI; exact I]).
  assert (PB : forall b, In b (cg_bars g) -> 0 <= fb b) by (intros b I; unfold fb; apply Rmult_le_pos; [apply EP; right; exists b; tauto|apply Rmult_le_pos; [apply AP; exact I|apply pow2_ge_0]]).
  pose proof (lsum_ge0 fs _ PS) as S0. pose proof (lsum_ge0 fb _ PB) as B0.
  destruct H as [(s & I & BU & PE)|(b1 & b2 & b3 & I1 & I2 & I3 & NC & PP)].
  - pose proof (lsum_ge fs _ s PS I) as L. destruct (Req_dec e0 0) as [-> |NE], (Req_dec ky 0) as [-> |NY], (Req_dec kz 0) as [-> |NZ]; [tauto|..];
      exfalso; match type of L with fs s <= _ => assert (0 < fs s); [|lra] end; unfold fs; (apply Rmult_lt_0_compat; [exact PE|apply BU; intros X; injection X; intros; subst; try (apply NE; reflexivity); try (apply NY; reflexivity); try lra]).
  - assert (ZB : forall b, In b (cg_bars g) -> b = b1 \/ b = b2 \/ b = b3 -> e0 + - kz * br_y b + ky * br_z b = 0).
    { intros b I HB. destruct (PP b HB) as (A1 & A2). pose proof (lsum_ge fb _ b PB I) as L. pose proof (PB b I) as G.
      assert (Z : fb b = 0) by lra. unfold fb in Z.
      assert (0 < E (br_law b) * br_area b) by (apply Rmult_lt_0_compat; assumption).
      assert (Q : (e0 + - kz * br_y b + ky * br_z b) ^ 2 = 0) by (apply (Rmult_eq_reg_l (E (br_law b) * br_area b)); lra).
      destruct (Req_dec (e0 + - kz * br_y b + ky * br_z b) 0) as [|N]; [assumption|]. exfalso. exact (pow_nonzero _ 2 N Q). }
    pose proof (ZB b1 I1 ltac:(tauto)) as H1. pose proof (ZB b2 I2 ltac:(tauto)) as H2. pose proof (ZB b3 I3 ltac:(tauto)) as H3.
    set (d := (br_y b2 - br_y b1) * (br_z b3 - br_z b1) - (br_y b3 - br_y b1) * (br_z b2 - br_z b1)).
    assert (D : d <> 0) by (unfold d; lra).
    assert (KY : ky = 0).
    { apply (Rmult_eq_reg_l d); [|exact D]. unfold d.
      transitivity ((br_y b2 - br_y b1) * ((e0 + - kz * br_y b3 + ky * br_z b3) - (e0 + - kz * br_y b1 + ky * br_z b1)) - (br_y b3 - br_y b1) * ((e0 + - kz * br_y b2 + ky * br_z b2) - (e0 + - kz * br_y b1 + ky * br_z b1))); [ring|rewrite H1, H2, H3; ring]. }
    assert (KZ : kz = 0).
    { apply (Rmult_eq_reg_l d); [|exact D]. unfold d.
      transitivity ((br_z b2 - br_z b1) * ((e0 + - kz * br_y b3 + ky * br_z b3) - (e0 + - kz * br_y b1 + ky * br_z b1)) - (br_z b3 - br_z b1) * ((e0 + - kz * br_y b2 + ky * br_z b2) - (e0 + - kz * br_y b1 + ky * br_z b1))); [ring|rewrite H1, H2, H3; ring]. }
    subst ky kz. repeat split; try reflexivity. lra.
Qed.
Print Assumptions C26_no_mechanism.

(** The hypotheses are met: rectangles are bulky; a plate with three bars. *)
Lemma rect_moment m n y0 y1 z0 z1 : fan_moment m n (rect y0 y1 z0 z1) =
  (y1 ^ (m + 1) / INR (m + 1) - y0 ^ (m + 1) / INR (m + 1)) * (z1 ^ (n + 1) / INR (n + 1) - z0 ^ (n + 1) / INR (n + 1)).
Proof.
  rewrite <- gfield_moment by reflexivity. apply gfield_rect.
  apply (is_RInt_derive (fun z => z ^ (n + 1) / INR (n + 1)) (fun z => z ^ n)).
  - intros x _. auto_derive; [exact I|]. rewrite Nat.add_1_r. cbn [pred]. assert (INR (S n) <> 0) by (apply not_0_INR; lia).
    match goal with |- ?a = ?b => change (@eq R a b) end. field. assumption.
  - intros x _. apply continuity_pt_filterlim. apply derivable_continuous_pt. apply derivable_pt_pow.
Qed.
Lemma rect_energy y0 y1 z0 z1 k a b c : y0 < y1 -> z0 < z1 ->
  surface_integral (fun y z => (a + b * y + c * z) ^ 2) {| sf_ext := rect y0 y1 z0 z1; sf_ints := []; sf_law := k |} =
  (y1 - y0) * (z1 - z0) * ((a + b * ((y0 + y1) / 2) + c * ((z0 + z1) / 2)) ^ 2 + b ^ 2 * (y1 - y0) ^ 2 / 12 + c ^ 2 * (z1 - z0) ^ 2 / 12).
Proof.
  intros Y Z. rewrite (surf_poly _ (a ^ 2) (2 * a * b) (2 * a * c) (b ^ 2) (2 * b * c) (c ^ 2)) by ((split; [reflexivity|intros ? []]) || (intros; ring)).
  unfold SM. cbn [sf_ext sf_ints map]. rewrite ?lsum_nil. rewrite rect_ccw by assumption.
  rewrite !rect_moment. cbn [Nat.add INR pow]. field.
Qed.
(** Every rectangle is bulky. *)
Theorem C26_rectangles : forall y0 y1 z0 z1 k, y0 < y1 -> z0 < z1 -> bulky {| sf_ext := rect y0 y1 z0 z1; sf_ints := []; sf_law := k |}.
Proof.
  intros y0 y1 z0 z1 k Y Z a b c N. rewrite rect_energy by assumption.
  apply Rmult_lt_0_compat; [apply Rmult_lt_0_compat; lra|].
  pose proof (pow2_ge_0 (a + b * ((y0 + y1) / 2) + c * ((z0 + z1) / 2))) as P0.
  assert (P1 : 0 <= b ^ 2 * (y1 - y0) ^ 2) by (apply Rmult_le_pos; apply pow2_ge_0).
  assert (P2 : 0 <= c ^ 2 * (z1 - z0) ^ 2) by (apply Rmult_le_pos; apply pow2_ge_0).
  assert (SQ : forall x, x <> 0 -> 0 < x ^ 2) by (intros x X; pose proof (pow_nonzero x 2 X); pose proof (pow2_ge_0 x); lra).
  destruct (Req_dec b 0) as [-> |NB].
  - destruct (Req_dec c 0) as [-> |NC].
    + assert (a <> 0) by (intros ->; apply N; reflexivity). pose proof (SQ a H). replace (a + 0 * ((y0 + y1) / 2) + 0 * ((z0 + z1) / 2)) with a in * by ring. lra.
    + assert (0 < c ^ 2 * (z1 - z0) ^ 2) by (apply Rmult_lt_0_compat; apply SQ; lra). lra.
  - assert (0 < b ^ 2 * (y1 - y0) ^ 2) by (apply Rmult_lt_0_compat; apply SQ; lra). lra.
Qed.
Print Assumptions C26_rectangles.
Definition plated : compound := {| cg_surf := [ {| sf_ext := rect (- / 2) (/ 2) (-1) 1; sf_ints := []; sf_law := 0 |} ];
  cg_bars := [ {| br_y := / 4; br_z := - / 2; br_area := / 100; br_law := 1 |} ] |}.
Example C26_exact_example : exists e0 ky kz s',
  strain_profile (marin_integ (stiff_laws 1000)) (1/100) plated (1, 2, 3) false 10 (1/1000) st_init = (Ok (e0, ky, kz), s') /\ weighted (fun _ => 1000) (fun y z => plane_strain e0 ky kz y z * z) plated = 2.
Proof.
  assert (DR : drawn plated).
  { split; [intros s [<- | []]; split; [reflexivity|intros ? []]|]. intros b b' [<- | []] [<- | []]. reflexivity. }
  destruct (C26_exact_linear (stiff_laws 1000) (fun _ => 1000) (sym_traits (1/1000)) plated (1/100) [] st_init 1 2 3 false 10 (1/1000) (stiff_batched 1000) DR) as (e0 & ky & kz & s' & E & _ & E2 & _).
  - intros k _. eexists. split; reflexivity.
  - apply (C26_no_mechanism _ _ DR); [intros; lra| | |].
    + intros s [<- | []] a b c. destruct (Req_dec a 0) as [-> |NA]; [destruct (Req_dec b 0) as [-> |NB]; [destruct (Req_dec c 0) as [-> |NC]|]|].
      * rewrite rect_energy by lra. lra.
      * left. apply C26_rectangles; [lra|lra|]. congruence.
      * left. apply C26_rectangles; [lra|lra|]. congruence.
      * left. apply C26_rectangles; [lra|lra|]. congruence.
    + intros b [<- | []]. cbn [br_area]. lra.
    + left. eexists. split; [left; reflexivity|]. split; [apply C26_rectangles; lra|lra].
  - lra.
  - lia.
  - constructor.
  - exists e0, ky, kz, s'. split; assumption.
Qed.
