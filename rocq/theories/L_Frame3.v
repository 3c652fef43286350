(** The two frames, edge by edge. *)
From Coquelicot Require Import Coquelicot.
From Coq Require Import FunctionalExtensionality Lra Lia.
From Verif Require Import Base M_Marin S_Marin L_Marin M_Laws S_Laws M_Laws2 S_Laws2 M_Fiber S_Fiber L_Fiber M_MarinInt S_MarinInt L_MarinInt L_Frame L_Frame2.

(** derivative of something continuous *)
Lemma int_derive (A dA : R -> R) : (forall t, is_derive A t (dA t)) -> (forall t, continuous dA t) -> RInt dA 0 1 = A 1 - A 0.
Proof.
  intros D C. apply RIntU. apply (is_RInt_derive (V := R_CompleteNormedModule) A dA); intros; [apply D|apply C].
Qed.
Lemma derive_continuous (A : R -> R) t : ex_derive A t -> continuous A t.
Proof. apply (ex_derive_continuous (K := R_AbsRing) (V := R_NormedModule)). Qed.

Section Frame.
Variable f : R -> R.
Hypothesis T : tame f.
Let F1 := prim f.
Let F2 := prim F1.
Let F3 := prim F2.
Variables e0 r c sn : R.
Hypothesis NR : r <> 0.
Hypothesis NS : sn <> 0.
Hypothesis CS : c * c + sn * sn = 1.
(** weight in the turned coordinates *)
Variables P Q W D E H : R.
Definition wq (y' z' : R) : R := P + Q * y' + W * z' + D * y' ^ 2 + E * y' * z' + H * z' ^ 2.
(** its derivatives in the direction of the user's y *)
Definition wy (y' z' : R) : R := c * (Q + 2 * D * y' + E * z') + sn * (W + E * y' + 2 * H * z').
Definition wyy : R := 2 * (c ^ 2 * D + c * sn * E + sn ^ 2 * H).
Let kz := - r * sn.
Let ky := r * c.
Definition ty (y z : R) : R := c * y - sn * z.
Definition tz (y z : R) : R := sn * y + c * z.
Let X (y' z' : R) : R := F1 (e0 + r * z') * wq y' z' + F2 (e0 + r * z') * wy y' z' / kz + F3 (e0 + r * z') * wyy / kz ^ 2.
Lemma NK : kz <> 0.
Proof. unfold kz. intros Z. apply NS. apply (Rmult_eq_reg_l r); lra. Qed.

Lemma slice Y Z : RInt (fun y => f (e0 + ky * Z - kz * y) * wq (ty y Z) (tz y Z)) 0 Y = - (X (ty Y Z) (tz Y Z) - X (ty 0 Z) (tz 0 Z)) / kz.
Proof.
  pose proof NK as NK. pose proof (tame_everywhere f T) as EF.
  set (al := e0 + ky * Z). set (be := - kz * Y).
  set (c0 := wq (ty 0 Z) (tz 0 Z)). set (c1 := Y * wy (ty 0 Z) (tz 0 Z)). set (c2 := Y ^ 2 * wyy / 2).
  assert (WT : forall t, wq (ty (Y * t) Z) (tz (Y * t) Z) = c0 + c1 * t + c2 * t ^ 2 + 0 * t ^ 3).
  { intros t. unfold c0, c1, c2, wq, wy, wyy, ty, tz. field. }
  assert (S1 : RInt (fun y => f (al - kz * y) * wq (ty y Z) (tz y Z)) 0 Y = - / kz * RInt (fun t => (c0 + c1 * t + c2 * t ^ 2 + 0 * t ^ 3) * (be * f (al + be * t))) 0 1).
  { rewrite <- RInt_scal' by (apply tame_line; exact T).
    replace (RInt (fun y => f (al - kz * y) * wq (ty y Z) (tz y Z)) 0 Y) with (RInt (fun y => f (al - kz * y) * wq (ty y Z) (tz y Z)) (Y * 0 + 0) (Y * 1 + 0)) by (f_equal; ring).
    rewrite <- (RInt_comp_lin (V := R_CompleteNormedModule) (fun y => f (al - kz * y) * wq (ty y Z) (tz y Z)) Y 0 0 1).
    - apply RInt_ext. intros t _. change (scal ?a ?b) with (a * b). rewrite <- WT. unfold be. replace (Y * t + 0) with (Y * t) by ring.
      replace (al + - kz * Y * t) with (al - kz * (Y * t)) by ring. toR. field. exact NK.
    - set (k0 := wq (ty 0 Z) (tz 0 Z)). set (k1 := wy (ty 0 Z) (tz 0 Z)). set (k2 := wyy / 2).
      generalize (Y * 0 + 0) (Y * 1 + 0). 
      change (everywhere (fun y => f (al - kz * y) * wq (ty y Z) (tz y Z))).
      apply (everywhere_ext (fun y => - / kz * ((k0 + k1 * y + k2 * y ^ 2 + 0 * y ^ 3) * (- kz * f (al + - kz * y))))).
      + intros y. replace (al + - kz * y) with (al - kz * y) by ring. unfold k0, k1, k2, wq, wy, wyy, ty, tz. field. exact NK.
      + apply everywhere_scal, tame_line. exact T. }
  rewrite S1, (line_parts f T). fold F1.
  replace (RInt (fun t => (c1 + 2 * c2 * t + 3 * 0 * t ^ 2) * F1 (al + be * t)) 0 1) with
    (- (F2 (al + be) * wy (ty Y Z) (tz Y Z) / kz + F3 (al + be) * wyy / kz ^ 2) + (F2 al * wy (ty 0 Z) (tz 0 Z) / kz + F3 al * wyy / kz ^ 2)).
  - unfold X. assert (A1 : al + be = e0 + r * tz Y Z) by (unfold al, be, tz, ky, kz; ring). assert (A2 : al = e0 + r * tz 0 Z) by (unfold al, tz, ky; ring).
    rewrite A1, A2. pose proof (WT 1) as W1. rewrite Rmult_1_r in W1. unfold c0. rewrite W1. unfold c0. toR. generalize NK; generalize kz c1 c2 (wq (ty 0 Z) (tz 0 Z)) (wy (ty 0 Z) (tz 0 Z)) (wy (ty Y Z) (tz Y Z)) wyy (F1 (e0 + r * tz Y Z)) (F1 (e0 + r * tz 0 Z)) (F2 (e0 + r * tz Y Z)) (F2 (e0 + r * tz 0 Z)) (F3 (e0 + r * tz Y Z)) (F3 (e0 + r * tz 0 Z)). intros. field. assumption.
  - symmetry. set (A := fun t => - (F2 (al + be * t) * wy (ty (Y * t) Z) (tz (Y * t) Z) / kz + F3 (al + be * t) * wyy / kz ^ 2)).
    replace (- (F2 (al + be) * wy (ty Y Z) (tz Y Z) / kz + F3 (al + be) * wyy / kz ^ 2) + (F2 al * wy (ty 0 Z) (tz 0 Z) / kz + F3 al * wyy / kz ^ 2)) with (A 1 - A 0).
    2:{ unfold A. replace (al + be * 1) with (al + be) by ring. replace (al + be * 0) with al by ring. rewrite Rmult_1_r, Rmult_0_r. toR. ring. }
    apply int_derive.
    + intros t. unfold A, wy, ty, tz. auto_derive.
      * repeat split; try (eexists; apply F2_der; exact T); try (eexists; apply F3_der; exact T).
      * rewrite (is_derive_unique _ _ _ (F2_der f T _)), (is_derive_unique _ _ _ (F3_der f T _)). fold F1. fold F2. unfold c1, c2, wy, wyy, ty, tz, be. toR. field. exact NK.
    + intros t. apply (continuous_mult (fun t => c1 + 2 * c2 * t + 3 * 0 * t ^ 2) (fun t => F1 (al + be * t))); [|apply along; apply (F1_cont f T)].
      apply derive_continuous. auto_derive. exact I.
Qed.

Lemma X_cont (u0 u1 v0 v1 t : R) : continuous (fun t => X (u0 + u1 * t) (v0 + v1 * t)) t.
Proof.
  unfold X.
  assert (B1 : forall (G : R -> R) t, (forall x, continuous G x) -> continuous (fun t => G (e0 + r * (v0 + v1 * t))) t).
  { intros G x C. apply (continuous_ext (fun t => G ((e0 + r * v0) + (r * v1) * t))); [intros; f_equal; ring|]. apply along. exact C. }
  apply (continuous_plus (fun t => F1 (e0 + r * (v0 + v1 * t)) * wq (u0 + u1 * t) (v0 + v1 * t) + F2 (e0 + r * (v0 + v1 * t)) * wy (u0 + u1 * t) (v0 + v1 * t) / kz) (fun t => F3 (e0 + r * (v0 + v1 * t)) * wyy / kz ^ 2)).
  - apply (continuous_plus (fun t => F1 (e0 + r * (v0 + v1 * t)) * wq (u0 + u1 * t) (v0 + v1 * t)) (fun t => F2 (e0 + r * (v0 + v1 * t)) * wy (u0 + u1 * t) (v0 + v1 * t) / kz)).
    + apply (continuous_mult (fun t => F1 (e0 + r * (v0 + v1 * t))) (fun t => wq (u0 + u1 * t) (v0 + v1 * t))); [apply B1, (F1_cont f T)|].
      apply derive_continuous. unfold wq. auto_derive. exact I.
    + apply (continuous_ext (fun t => F2 (e0 + r * (v0 + v1 * t)) * (wy (u0 + u1 * t) (v0 + v1 * t) / kz))); [intros; toR; unfold Rdiv; ring|].
      apply (continuous_mult (fun t => F2 (e0 + r * (v0 + v1 * t))) (fun t => wy (u0 + u1 * t) (v0 + v1 * t) / kz)); [apply B1, (F2_cont f T)|].
      apply derive_continuous. unfold wy, Rdiv. auto_derive. exact I.
  - apply (continuous_ext (fun t => F3 (e0 + r * (v0 + v1 * t)) * (wyy / kz ^ 2))); [intros; toR; unfold Rdiv; ring|].
    apply (continuous_mult (fun t => F3 (e0 + r * (v0 + v1 * t))) (fun _ => wyy / kz ^ 2)); [apply B1, (F3_cont f T)|apply continuous_const].
Qed.

(** the slice in the turned frame *)
Definition big (y' z' : R) : R := P * y' + Q * y' ^ 2 / 2 + W * z' * y' + D * y' ^ 3 / 3 + E * z' * y' ^ 2 / 2 + H * z' ^ 2 * y'.
Lemma slice' Y k Z : RInt (fun y' => k * wq y' Z) 0 Y = k * big Y Z.
Proof.
  apply RIntU. replace (k * big Y Z) with (minus (k * big Y Z) (k * big 0 Z)) by (unfold big, minus, plus, opp; cbn; field).
  apply (is_RInt_derive (V := R_CompleteNormedModule) (fun y => k * big y Z)); intros t _.
  - unfold big, wq. auto_derive; [exact I|]. toR. field.
  - apply derive_continuous. unfold wq. auto_derive. exact I.
Qed.

Let X0 (z : R) : R := X (0 + - sn * z) (0 + c * z) / kz.
Let X1 (z' : R) : R := - (c / kz) * X (0 + 0 * z') (0 + 1 * z').
Let A (y' z' : R) : R := - (1 / r) *
  (F2 (e0 + r * z') * ((1 / kz) * (c * (Q * y' + D * y' ^ 2 + E * z' * y') + sn * (W * y' + E * y' ^ 2 / 2 + 2 * H * z' * y')))
   + F3 (e0 + r * z') * (wyy * y' / kz ^ 2)).
Let Psi (p : R * R) : R := let u := ty (fst p) (snd p) in let v := tz (fst p) (snd p) in
  prim X0 (snd p) + A u v + prim X1 v - (1 / r) * big u v * F1 (e0 + r * v).
Lemma X0_cont z : continuous X0 z.
Proof.
  unfold X0. apply (continuous_ext (fun z => X (0 + - sn * z) (0 + c * z) * / kz)); [reflexivity|].
  apply (continuous_mult (fun z => X (0 + - sn * z) (0 + c * z)) (fun _ => / kz)); [apply X_cont|apply continuous_const].
Qed.
Lemma X1_cont z : continuous X1 z.
Proof. unfold X1. apply (continuous_mult (fun _ => - (c / kz)) (fun z' => X (0 + 0 * z') (0 + 1 * z'))); [apply continuous_const|apply X_cont]. Qed.

Definition tp (p : R * R) : R * R := (ty (fst p) (snd p), tz (fst p) (snd p)).
Lemma edge_frames p q :
  RInt (fun t => RInt (fun y => f (e0 + ky * snd (seg p q t) - kz * y) * wq (ty y (snd (seg p q t))) (tz y (snd (seg p q t)))) 0 (fst (seg p q t)) * (snd q - snd p)) 0 1 -
  RInt (fun t => RInt (fun y' => f (e0 + r * snd (seg (tp p) (tp q) t)) * wq y' (snd (seg (tp p) (tp q) t))) 0 (fst (seg (tp p) (tp q) t)) * (snd (tp q) - snd (tp p))) 0 1
  = Psi q - Psi p.
Proof.
  pose proof NK as NK. destruct p as [py pz], q as [qy qz]. unfold tp. cbn [fst snd seg].
  set (u0 := ty py pz). set (u1 := ty qy qz - ty py pz). set (v0 := tz py pz). set (v1 := tz qy qz - tz py pz).
  set (b0 := big u0 v0).
  set (b1 := P * u1 + Q * u0 * u1 + W * (v0 * u1 + v1 * u0) + D * u0 ^ 2 * u1 + E * (2 * v0 * u0 * u1 + v1 * u0 ^ 2) / 2 + H * (v0 ^ 2 * u1 + 2 * v0 * v1 * u0)).
  set (b2 := Q * u1 ^ 2 / 2 + W * v1 * u1 + D * u0 * u1 ^ 2 + E * (v0 * u1 ^ 2 + 2 * v1 * u0 * u1) / 2 + H * (2 * v0 * v1 * u1 + v1 ^ 2 * u0)).
  set (b3 := D * u1 ^ 3 / 3 + E * v1 * u1 ^ 2 / 2 + H * v1 ^ 2 * u1).
  assert (BB : forall t, big (u0 + u1 * t) (v0 + v1 * t) = b0 + b1 * t + b2 * t ^ 2 + b3 * t ^ 3).
  { intros t. unfold b0, b1, b2, b3, big. field. }
  set (zd := qz - pz). set (yd := qy - py).
  assert (ZV : zd = c * v1 - sn * u1).
  { unfold zd, v1, u1, ty, tz. transitivity ((c * c + sn * sn) * (qz - pz)); [rewrite CS|]; ring. }
  set (al := e0 + r * v0). set (be := r * v1).
  assert (XC : forall t, continuous (fun t => X (u0 + u1 * t) (v0 + v1 * t)) t) by (intros; apply X_cont).
  assert (X0C : forall t, continuous (fun t => X0 (pz + zd * t)) t) by (intros; apply along; apply X0_cont).
  (* user's frame *)
  assert (EU : RInt (fun t => RInt (fun y => f (e0 + ky * ((1 - t) * pz + t * qz) - kz * y) * wq (ty y ((1 - t) * pz + t * qz)) (tz y ((1 - t) * pz + t * qz))) 0 ((1 - t) * py + t * qy) * zd) 0 1 =
    RInt (fun t => - (zd / kz) * X (u0 + u1 * t) (v0 + v1 * t) + zd * X0 (pz + zd * t)) 0 1).
  { apply RInt_ext. intros t _. rewrite slice.
    replace (ty ((1 - t) * py + t * qy) ((1 - t) * pz + t * qz)) with (u0 + u1 * t) by (unfold u0, u1, ty; ring).
    replace (tz ((1 - t) * py + t * qy) ((1 - t) * pz + t * qz)) with (v0 + v1 * t) by (unfold v0, v1, tz; ring).
    unfold X0. replace (ty 0 ((1 - t) * pz + t * qz)) with (0 + - sn * (pz + zd * t)) by (unfold ty, zd; ring).
    replace (tz 0 ((1 - t) * pz + t * qz)) with (0 + c * (pz + zd * t)) by (unfold tz, zd; ring). toR. field. exact NK. }
  (* turned frame *)
  assert (ET : RInt (fun t => RInt (fun y' => f (e0 + r * ((1 - t) * v0 + t * tz qy qz)) * wq y' ((1 - t) * v0 + t * tz qy qz)) 0 ((1 - t) * u0 + t * ty qy qz) * v1) 0 1 =
    / r * ((b0 + b1 + b2 + b3) * F1 (al + be) - b0 * F1 al - RInt (fun t => (b1 + 2 * b2 * t + 3 * b3 * t ^ 2) * F1 (al + be * t)) 0 1)).
  { unfold F1. rewrite <- (line_parts f T b0 b1 b2 b3 al be). rewrite <- RInt_scal' by (apply tame_line; exact T).
    apply RInt_ext. intros t _. rewrite slice'.
    replace ((1 - t) * u0 + t * ty qy qz) with (u0 + u1 * t) by (unfold u1, u0; ring).
    replace ((1 - t) * v0 + t * tz qy qz) with (v0 + v1 * t) by (unfold v1, v0; ring).
    rewrite BB. replace (e0 + r * (v0 + v1 * t)) with (al + be * t) by (unfold al, be; ring). unfold be. toR. field. exact NR. }
  fold zd. change (tz qy qz - v0) with v1. rewrite EU, ET. clear EU ET.
  assert (C2 : forall t, continuous (fun t => (b1 + 2 * b2 * t + 3 * b3 * t ^ 2) * F1 (al + be * t)) t).
  { intros t. apply (continuous_mult (fun t => b1 + 2 * b2 * t + 3 * b3 * t ^ 2) (fun t => F1 (al + be * t))); [|apply along; apply (F1_cont f T)].
    apply derive_continuous. auto_derive. exact I. }
  assert (C1 : forall t, continuous (fun t => - (zd / kz) * X (u0 + u1 * t) (v0 + v1 * t) + zd * X0 (pz + zd * t)) t).
  { intros t. apply (continuous_plus (fun t => - (zd / kz) * X (u0 + u1 * t) (v0 + v1 * t)) (fun t => zd * X0 (pz + zd * t))).
    - apply (continuous_mult (fun _ => - (zd / kz)) (fun t => X (u0 + u1 * t) (v0 + v1 * t))); [apply continuous_const|apply XC].
    - apply (continuous_mult (fun _ => zd) (fun t => X0 (pz + zd * t))); [apply continuous_const|apply X0C]. }
  set (G := fun t => prim X0 (pz + zd * t) + A (u0 + u1 * t) (v0 + v1 * t) + prim X1 (v0 + v1 * t)).
  assert (GG : RInt (fun t => (- (zd / kz) * X (u0 + u1 * t) (v0 + v1 * t) + zd * X0 (pz + zd * t)) + / r * ((b1 + 2 * b2 * t + 3 * b3 * t ^ 2) * F1 (al + be * t))) 0 1 = G 1 - G 0).
  { apply int_derive.
    - intros t. unfold G, A. 
      assert (D2 : forall x, is_derive F2 x (F1 x)) by (exact (F2_der f T)). assert (D3 : forall x, is_derive F3 x (F2 x)) by (exact (F3_der f T)).
      assert (E0 : forall x, is_derive (prim X0) x (X0 x)) by (intros; apply prim_derive, X0_cont).
      assert (E1 : forall x, is_derive (prim X1) x (X1 x)) by (intros; apply prim_derive, X1_cont).
      revert E0 E1. generalize (prim X0) (prim X1). intros p0 p1 E0 E1.
      auto_derive.
      + split; [eexists; apply E0|]. split; [eexists; apply D2|]. split; [eexists; apply D3|]. split; [eexists; apply E1|]. exact I.
      + rewrite (is_derive_unique _ _ _ (E0 _)), (is_derive_unique _ _ _ (E1 _)).
        rewrite (is_derive_unique _ _ _ (D2 _)), (is_derive_unique _ _ _ (D3 _)).
        generalize (X0 (pz + zd * t)). intros x0. unfold X1, X.
        replace (0 + 1 * (v0 + v1 * t)) with (v0 + v1 * t) by ring. replace (0 + 0 * (v0 + v1 * t)) with 0 by ring.
        replace (al + be * t) with (e0 + r * (v0 + v1 * t)) by (unfold al, be; ring).
        generalize (F1 (e0 + r * (v0 + v1 * t))) (F2 (e0 + r * (v0 + v1 * t))) (F3 (e0 + r * (v0 + v1 * t))). intros x1 x2 x3.
        rewrite ZV. unfold b1, b2, b3, wq, wy, wyy, kz. toR. field. split; assumption.
    - intros t. apply (continuous_plus (fun t => - (zd / kz) * X (u0 + u1 * t) (v0 + v1 * t) + zd * X0 (pz + zd * t)) (fun t => / r * ((b1 + 2 * b2 * t + 3 * b3 * t ^ 2) * F1 (al + be * t)))); [apply C1|].
      apply (continuous_mult (fun _ => / r) (fun t => (b1 + 2 * b2 * t + 3 * b3 * t ^ 2) * F1 (al + be * t))); [apply continuous_const|apply C2]. }
  rewrite RInt_plus', RInt_scal' in GG; try (apply everywhere_continuous; exact C1); try (apply everywhere_continuous; exact C2); try (apply everywhere_scal, everywhere_continuous; exact C2).
  pose proof (BB 1) as B1. pose proof (BB 0) as B0. 
  assert (G1 : G 1 = prim X0 qz + A (ty qy qz) (tz qy qz) + prim X1 (tz qy qz)).
  { unfold G. replace (pz + zd * 1) with qz by (unfold zd; ring). replace (u0 + u1 * 1) with (ty qy qz) by (unfold u0, u1; ring). replace (v0 + v1 * 1) with (tz qy qz) by (unfold v0, v1; ring). reflexivity. }
  assert (G0 : G 0 = prim X0 pz + A u0 v0 + prim X1 v0).
  { unfold G. replace (pz + zd * 0) with pz by ring. replace (u0 + u1 * 0) with u0 by ring. replace (v0 + v1 * 0) with v0 by ring. reflexivity. }
  unfold Psi. cbn [fst snd]. fold u0. fold v0. rewrite G1, G0 in GG.
  assert (EB : b0 + b1 + b2 + b3 = big (ty qy qz) (tz qy qz)).
  { replace (ty qy qz) with (u0 + u1 * 1) by (unfold u0, u1; ring). replace (tz qy qz) with (v0 + v1 * 1) by (unfold v0, v1; ring). rewrite B1. ring. }
  rewrite EB. replace (al + be) with (e0 + r * tz qy qz) by (unfold al, be, v1, v0; ring). fold al. fold b0.
  unfold Rdiv. rewrite !Rmult_1_l. lra.
Qed.
Lemma edge_potential : exists psi : R * R -> R, forall p q,
  RInt (fun t => RInt (fun y => f (e0 + r * c * snd (seg p q t) - - r * sn * y) * wq (ty y (snd (seg p q t))) (tz y (snd (seg p q t)))) 0 (fst (seg p q t)) * (snd q - snd p)) 0 1 -
  RInt (fun t => RInt (fun y' => f (e0 + r * snd (seg (tp p) (tp q) t)) * wq y' (snd (seg (tp p) (tp q) t))) 0 (fst (seg (tp p) (tp q) t)) * (snd (tp q) - snd (tp p))) 0 1
  = psi q - psi p.
Proof. exists Psi. exact edge_frames. Qed.
End Frame.
