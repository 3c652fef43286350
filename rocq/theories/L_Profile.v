From Verif Require Import Base M_Marin S_Marin L_Marin M_Laws M_Laws2 M_Fiber M_MarinInt L_MarinInt2 M_Gross S_Gross L_Gross L_Gross2 M_Geo S_Geo L_Geo M_Profile S_Profile.
From Coq Require Import Lra Lia.
Open Scope R_scope.
Open Scope list_scope.

Lemma moment_fan p m n : moment p m n = fan_moment m n p.
Proof. unfold moment. now rewrite ring_moment_fan. Qed.

Lemma far_abs f p : p <> [] -> farthest f p (Rmax (Rabs (fold_min f p)) (fold_max f p)).
Proof.
  intros NE. destruct (fold_min_in f p NE) as (a & Ia & Ea). destruct (fold_max_in f p NE) as (b & Ib & Eb).
  pose proof (fold_max_ge f p a Ia) as AB. split.
  - intros v I. pose proof (fold_min_le f p v I). pose proof (fold_max_ge f p v I). unfold Rmax, Rabs. repeat destruct (Rcase_abs _); destruct (Rle_dec _ _); lra.
  - unfold Rmax. destruct (Rle_dec _ _) as [L|L].
    + exists b. split; [exact Ib|]. rewrite <- Eb. pose proof (Rabs_pos (fold_min f p)). apply Rabs_pos_eq. lra.
    + exists a. split; [exact Ia|]. now rewrite <- Ea.
Qed.
Lemma far_pos f p h : farthest f p h -> (exists v w, In v p /\ In w p /\ f v < f w) -> 0 < h.
Proof.
  intros [H _] (v & w & Iv & Iw & L). pose proof (H v Iv). pose proof (H w Iw). pose proof (Rabs_pos (f v)). pose proof (Rabs_pos (f w)).
  destruct (Req_dec h 0) as [E|E]; [|lra]. rewrite E in *. assert (Rabs (f v) = 0) by lra. assert (Rabs (f w) = 0) by lra.
  unfold Rabs in *. repeat destruct (Rcase_abs _); lra.
Qed.

(** * Search *)
(** After k halvings the bracket has width w/2^k; 34 halvings suffice. *)
Lemma pow34 : 10 ^ 10 < 2 ^ 34.
Proof. replace (10 ^ 10) with (IZR 10000000000) by (cbn [pow]; lra). replace (2 ^ 34) with (IZR 17179869184) by (cbn [pow]; lra). apply IZR_lt. reflexivity. Qed.
Lemma pna_step k da tol zA zB daA zC : pna_loop (S k) da tol zA zB daA zC =
  if Rltb tol (Rabs (zB - zA)) then
    if Rltb (Rabs (da ((zA + zB) / 2))) (/ 10 ^ 10) then Ok ((zA + zB) / 2)
    else if Rltb (daA * da ((zA + zB) / 2)) 0 then pna_loop k da tol zA ((zA + zB) / 2) daA (Some ((zA + zB) / 2))
    else pna_loop k da tol ((zA + zB) / 2) zB (da ((zA + zB) / 2)) (Some ((zA + zB) / 2))
  else match zC with Some c => Ok c | None => Err UnboundLocalError end.
Proof. reflexivity. Qed.
Section Search.
Variable da : R -> R.
Variables z0 z1 L : R.
Hypothesis lt01 : z0 < z1.
Hypothesis lip : forall z z', z0 <= z -> z <= z' -> z' <= z1 -> Rabs (da z - da z') <= L * (z' - z).
Let tol := (z1 - z0) * / 10 ^ 10.
Lemma tol_pos : 0 < tol.
Proof. unfold tol. apply Rmult_lt_0_compat; [lra|]. apply Rinv_0_lt_compat, pow_lt. lra. Qed.
Lemma loop_spec : forall n k zA zB daA zC, (n <= 34)%nat -> (34 - n <= k)%nat -> (1 <= n -> True)%nat ->
  z0 <= zA -> zA < zB -> zB <= z1 -> zB - zA = (z1 - z0) / 2 ^ n -> daA = da zA -> 0 < da zA -> da zB <= 0 ->
  (match zC with Some c => c = zA \/ c = zB | None => n = 0%nat end) ->
  exists c, pna_loop (S k) da tol zA zB daA zC = Ok c /\ z0 <= c <= z1 /\ (Rabs (da c) < / 10 ^ 10 \/ Rabs (da c) <= L * tol).
Proof.
  assert (TP := tol_pos).
  intros n k. revert n. induction k as [|k IH]; intros n zA zB daA zC Hn Hk _ H1 H2 H3 HW HD HA HB HC.
  - assert (n = 34%nat) by lia. subst n. rewrite pna_step. assert (W : zB - zA <= tol).
    { rewrite HW. unfold tol. apply Rmult_le_compat_l; [lra|]. apply Rinv_le_contravar; [apply pow_lt; lra|]. pose proof pow34. lra. }
    destruct (Rltb_spec tol (Rabs (zB - zA))) as [Q|Q]; [rewrite Rabs_pos_eq in Q by lra; lra|].
    destruct zC as [c|]; [|discriminate]. exists c. split; [reflexivity|]. split; [destruct HC; subst; lra|]. right.
    pose proof (lip zA zB H1 ltac:(lra) H3) as LP. assert (L * (zB - zA) <= L * tol).
    { assert (0 <= L) by (pose proof (Rabs_pos (da zA - da zB)); assert (0 < L * (zB - zA) \/ L * (zB - zA) = 0) by lra; destruct (Rle_dec 0 L); [assumption|exfalso; assert (L * (zB - zA) < 0) by nra; lra]). nra. }
    rewrite Rabs_pos_eq in LP by lra. destruct HC as [-> | ->]; [rewrite Rabs_pos_eq by lra|rewrite Rabs_left1 by lra]; lra.
  - rewrite pna_step. destruct (Rltb_spec tol (Rabs (zB - zA))) as [Q|Q].
    + set (c := (zA + zB) / 2). assert (CC : zA < c < zB) by (unfold c; lra).
      assert (NL : (n < 34)%nat).
      { destruct (Nat.eq_dec n 34) as [-> | ]; [|lia]. exfalso. rewrite Rabs_pos_eq in Q by lra. rewrite HW in Q. unfold tol in Q.
        assert ((z1 - z0) / 2 ^ 34 <= (z1 - z0) * / 10 ^ 10) by (apply Rmult_le_compat_l; [lra|]; apply Rinv_le_contravar; [apply pow_lt; lra|]; pose proof pow34; lra). lra. }
      destruct (Rltb_spec (Rabs (da c)) (/ 10 ^ 10)) as [B|B]; [exists c; split; [reflexivity|]; split; [lra|left; exact B]|].
      assert (W2 : (zB - zA) / 2 = (z1 - z0) / 2 ^ S n) by (rewrite HW; cbn [pow]; field; apply pow_nonzero; lra).
      destruct (Rltb_spec (daA * da c) 0) as [D|D].
      * assert (NB : da c <= 0) by (apply Rnot_lt_le; intros Q1; pose proof (Rmult_lt_0_compat _ _ HA Q1); subst daA; lra).
        apply (IH (S n)); [lia|lia|trivial|lra|lra|lra|fold c; unfold c in *; lra|exact HD|exact HA|exact NB|right; reflexivity].
      * assert (NZ : da c <> 0) by (intros E; rewrite E, Rabs_R0 in B; apply B, Rinv_0_lt_compat, pow_lt; lra).
        assert (NB : 0 < da c). { destruct (Rlt_dec 0 (da c)) as [P|P]; [exact P|exfalso]. apply D. subst daA. assert (0 < da zA * - da c) by (apply Rmult_lt_0_compat; lra). lra. }
        apply (IH (S n)); [lia|lia|trivial|lra|lra|lra|unfold c in *; lra|reflexivity|exact NB|exact HB|left; reflexivity].
    + rewrite Rabs_pos_eq in Q by lra. assert (W : zB - zA <= tol) by lra. destruct zC as [c|].
      * exists c. split; [reflexivity|]. split; [destruct HC; subst; lra|]. right.
        pose proof (lip zA zB H1 ltac:(lra) H3) as LP. assert (L * (zB - zA) <= L * tol).
        { assert (0 <= L) by (destruct (Rle_dec 0 L); [assumption|exfalso; pose proof (Rabs_pos (da zA - da zB)); assert (L * (zB - zA) < 0) by nra; lra]). nra. }
        rewrite Rabs_pos_eq in LP by lra. destruct HC as [-> | ->]; [rewrite Rabs_pos_eq by lra|rewrite Rabs_left1 by lra]; lra.
      * exfalso. subst n. cbn [pow] in HW. unfold tol in W. assert (/ 10 ^ 10 < 1) by (rewrite <- Rinv_1; apply Rinv_lt_contravar; cbn [pow]; lra).
        rewrite HW in W. replace ((z1 - z0) / 1) with (z1 - z0) in W by field. nra.
Qed.
End Search.
Lemma bounds_span p : (exists v w, In v p /\ In w p /\ snd v < snd w) -> r_zmin p < r_zmax p /\ spans p (r_zmin p) (r_zmax p).
Proof.
  intros (v & w & Iv & Iw & H). unfold r_zmin, r_zmax. assert (NE : p <> []) by (intros ->; destruct Iv).
  pose proof (fold_min_le snd p v Iv). pose proof (fold_max_ge snd p w Iw). split; [lra|]. split; [|split].
  - intros u I. split; [apply fold_min_le, I|apply fold_max_ge, I].
  - destruct (fold_min_in snd p NE) as (a & Ia & Ea). exists a. split; [exact Ia|now symmetry].
  - destruct (fold_max_in snd p NE) as (a & Ia & Ea). exists a. split; [exact Ia|now symmetry].
Qed.
Lemma is_ccw_height x z g : 0 < x -> is_ccw3 (- x * (105 / 100), z) (x * (105 / 100), z) (centroid g) = true <-> z < centre_height g.
Proof.
  intros HX. unfold is_ccw3, centroid, centre_height. cbn [fst snd]. rewrite !moment_fan, Rltb_true.
  generalize (fan_moment 0 1 g / fan_moment 0 0 g) as q. generalize (fan_moment 1 0 g / fan_moment 0 0 g) as r. intros r q.
  replace ((x * (105 / 100) - - x * (105 / 100)) * (q - z) - (r - - x * (105 / 100)) * (z - z)) with (x * (21 / 10) * (q - z)) by field.
  split; intros H; [|nra]. destruct (Rlt_dec z q) as [P|P]; [exact P|exfalso]. assert (0 <= x * (21 / 10) * (z - q)) by (apply Rmult_le_pos; lra). lra.
Qed.
Lemma delta_spec slice p above W : outline p -> slices slice p above W -> forall z, r_zmin p <= z <= r_zmax p -> delta_area slice p z = 2 * above z - shoelace p.
Proof.
  intros (HC & HA & _ & _ & HX & HZ) HS z Z. destruct (bounds_span p HZ) as [_ SP]. destruct (HS _ _ SP) as (H1 & _). destruct (H1 z Z) as [U D]. clear H1.
  assert (NE : p <> []) by (destruct HX as (v & _ & I & _); intros ->; destruct I).
  pose proof (far_pos fst p _ (far_abs fst p NE) HX) as XP. unfold delta_area, r_ymin, r_ymax. cbv zeta. set (x := Rmax (Rabs (fold_min fst p)) (fold_max fst p)) in *.
  assert (F : forall l a b, fold_left (fun (acc : R * R) g => if is_ccw3 (- x * (105 / 100), z) (x * (105 / 100), z) (centroid g) then (fst acc + ring_area g, snd acc) else (fst acc, snd acc + ring_area g)) l (a, b)
     = (a + lsum (map (fun g => if Rlt_dec z (centre_height g) then Rabs (shoelace g) else 0) l), b + lsum (map (fun g => if Rlt_dec z (centre_height g) then 0 else Rabs (shoelace g)) l))).
  { induction l as [|g l IH]; intros a b; cbn [fold_left map]; [rewrite !lsum_nil, !Rplus_0_r; reflexivity|]. rewrite !lsum_cons. unfold ring_area. rewrite shoe_shoelace.
    destruct (is_ccw3 _ _ (centroid g)) eqn:E; cbn [fst snd]; rewrite IH.
    - apply is_ccw_height in E; [|exact XP]. destruct (Rlt_dec z (centre_height g)); [|contradiction]. f_equal; ring.
    - destruct (Rlt_dec z (centre_height g)) as [Q|Q]; [exfalso; apply (is_ccw_height x) in Q; [congruence|exact XP]|]. f_equal; ring. }
  rewrite F, U, D. ring.
Qed.
Lemma pna_found slice p above W : outline p -> slices slice p above W -> exists c, find_pna slice p = Ok c /\ r_zmin p <= c <= r_zmax p /\
  (Rabs (2 * above c - shoelace p) < / 10 ^ 10 \/ Rabs (2 * above c - shoelace p) <= 2 * W * (r_zmax p - r_zmin p) * / 10 ^ 10).
Proof.
  intros HO HS. pose proof (delta_spec slice p above W HO HS) as D. destruct HO as (_ & HA & _ & _ & HX & HZ). rewrite fan_area in HA. destruct (bounds_span p HZ) as [LT SP].
  destruct (HS _ _ SP) as (_ & A0 & A1 & AM). unfold find_pna. cbv zeta.
  assert (LP : forall z z', r_zmin p <= z -> z <= z' -> z' <= r_zmax p -> Rabs (delta_area slice p z - delta_area slice p z') <= 2 * W * (z' - z)).
  { intros z z' H1 H2 H3. rewrite !D by lra. destruct (AM z z' (conj H1 H2) H3) as [G1 G2]. rewrite Rabs_pos_eq by lra. lra. }
  destruct (loop_spec (delta_area slice p) (r_zmin p) (r_zmax p) (2 * W) LT LP 0 199 (r_zmin p) (r_zmax p) (delta_area slice p (r_zmin p)) None) as (c & E & I & B);
   [lia|lia|trivial|lra|lra|lra|cbn [pow]; field|reflexivity|rewrite D by lra; rewrite A0; lra|rewrite D by lra; rewrite A1; lra|reflexivity|].
  exists c. split; [exact E|]. split; [exact I|]. rewrite D in B by exact I. rewrite <- Rmult_assoc in B. exact B.
Qed.

(** * Reading in any order *)
Definition maybe (o : option R) (v : R) : Prop := o = None \/ o = Some v.
Section Reads.
Variables (slice : slicer) (eig : eigen) (P : ring) (zy zz : R).
Hypothesis outP : outline P.
Hypothesis pnaY : find_pna slice P = Ok zy.
Hypothesis pnaZ : find_pna slice (map quarter_turn P) = Ok zz.
Definition val (q : quantity) : R :=
  match q with
  | QA => fan_moment 0 0 P | QIy => fan_moment 0 2 P | QIz => fan_moment 2 0 P | QIyz => fan_moment 1 1 P
  | QIcsi => fst (fst (principal eig (fan_moment 0 2 P) (fan_moment 2 0 P) (fan_moment 1 1 P)))
  | QIeta => snd (fst (principal eig (fan_moment 0 2 P) (fan_moment 2 0 P) (fan_moment 1 1 P)))
  | Qtheta => snd (principal eig (fan_moment 0 2 P) (fan_moment 2 0 P) (fan_moment 1 1 P))
  | QWely => fan_moment 0 2 P / Rmax (Rabs (r_zmin P)) (r_zmax P)
  | QWelz => fan_moment 2 0 P / Rmax (Rabs (r_ymin P)) (r_ymax P)
  | QWply => plastic_modulus slice P zy
  | QWplz => plastic_modulus slice (map quarter_turn P) zz
  | Qiy => sqrt (fan_moment 0 2 P / fan_moment 0 0 P)
  | Qiz => sqrt (fan_moment 2 0 P / fan_moment 0 0 P)
  end.
Record Inv (b : bool) (s : profile) : Prop := {
  i_poly : pf_poly s = P; i_A : maybe (pf_A s) (val QA); i_Iy : maybe (pf_Iy s) (val QIy); i_Iz : maybe (pf_Iz s) (val QIz); i_Iyz : maybe (pf_Iyz s) (val QIyz);
  i_csi : pf_Icsi s = if b then Some (val QIcsi) else None; i_eta : pf_Ieta s = if b then Some (val QIeta) else None;
  i_th : pf_theta s = if b then Some (val Qtheta) else None;
  i_Wely : maybe (pf_Wely s) (val QWely); i_Welz : maybe (pf_Welz s) (val QWelz); i_Wply : maybe (pf_Wply s) (val QWply); i_Wplz : maybe (pf_Wplz s) (val QWplz);
  i_iy : maybe (pf_iy s) (val Qiy); i_iz : maybe (pf_iz s) (val Qiz) }.
Lemma inv_fresh : Inv false (fresh P).
Proof. constructor; try reflexivity; left; reflexivity. Qed.
Ltac keep := constructor; cbn [with_A with_Iy with_Iz with_Iyz with_principal with_Wely with_Welz with_Wply with_Wplz with_iy with_iz with_poly
   pf_poly pf_A pf_Iy pf_Iz pf_Iyz pf_Icsi pf_Ieta pf_theta pf_Wely pf_Welz pf_Wply pf_Wplz pf_iy pf_iz]; try assumption.
Lemma st_A b s : Inv b s -> exists s', read_A s = (Ok (val QA), s') /\ Inv b s'.
Proof.
  intros [H1 H2 H3 H4 H5 H6 H7 H8 H9 H10 H11 H12 H13 H14]. unfold read_A. destruct H2 as [E|E]; rewrite E.
  - eexists. split; [rewrite moment_fan, H1; reflexivity|]. keep. right. reflexivity.
  - exists s. split; [reflexivity|]. constructor; try assumption. right. exact E.
Qed.
Lemma st_Iy b s : Inv b s -> exists s', read_Iy s = (Ok (val QIy), s') /\ Inv b s'.
Proof.
  intros [H1 H2 H3 H4 H5 H6 H7 H8 H9 H10 H11 H12 H13 H14]. unfold read_Iy. destruct H3 as [E|E]; rewrite E.
  - eexists. split; [rewrite moment_fan, H1; reflexivity|]. keep. right. reflexivity.
  - exists s. split; [reflexivity|]. constructor; try assumption. right. exact E.
Qed.
Lemma st_Iz b s : Inv b s -> exists s', read_Iz s = (Ok (val QIz), s') /\ Inv b s'.
Proof.
  intros [H1 H2 H3 H4 H5 H6 H7 H8 H9 H10 H11 H12 H13 H14]. unfold read_Iz. destruct H4 as [E|E]; rewrite E.
  - eexists. split; [rewrite moment_fan, H1; reflexivity|]. keep. right. reflexivity.
  - exists s. split; [reflexivity|]. constructor; try assumption. right. exact E.
Qed.
Lemma st_Iyz b s : Inv b s -> exists s', read_Iyz s = (Ok (val QIyz), s') /\ Inv b s'.
Proof.
  intros [H1 H2 H3 H4 H5 H6 H7 H8 H9 H10 H11 H12 H13 H14]. unfold read_Iyz. destruct H5 as [E|E]; rewrite E.
  - eexists. split; [rewrite moment_fan, H1; reflexivity|]. keep. right. reflexivity.
  - exists s. split; [reflexivity|]. constructor; try assumption. right. exact E.
Qed.
Lemma st_principals k b s : Inv b s -> exists s', principals eig k s = (Ok (k (val QIcsi, val QIeta, val Qtheta)), s') /\ Inv true s'.
Proof.
  intros I. unfold principals, after. destruct (st_Iy b s I) as (s1 & -> & I1). destruct (st_Iyz b s1 I1) as (s2 & -> & I2). destruct (st_Iz b s2 I2) as (s3 & -> & I3).
  cbn [val]. destruct (principal eig (fan_moment 0 2 P) (fan_moment 2 0 P) (fan_moment 1 1 P)) as [[i1 i2] t] eqn:E. cbn [fst snd]. eexists. split; [reflexivity|].
  destruct I3 as [H1 H2 H3 H4 H5 H6 H7 H8 H9 H10 H11 H12 H13 H14]. keep; cbn [val]; rewrite E; reflexivity.
Qed.
Lemma far_y : farthest fst P (Rmax (Rabs (r_ymin P)) (r_ymax P)) /\ 0 < Rmax (Rabs (r_ymin P)) (r_ymax P).
Proof.
  destruct outP as (_ & _ & _ & _ & HX & _). assert (NE : P <> []) by (destruct HX as (v & _ & I & _); intros Q; rewrite Q in I; destruct I).
  split; [apply far_abs, NE|]. eapply far_pos; [apply far_abs, NE|exact HX].
Qed.
Lemma far_z : farthest snd P (Rmax (Rabs (r_zmin P)) (r_zmax P)) /\ 0 < Rmax (Rabs (r_zmin P)) (r_zmax P).
Proof.
  destruct outP as (_ & _ & _ & _ & _ & HX). assert (NE : P <> []) by (destruct HX as (v & _ & I & _); intros Q; rewrite Q in I; destruct I).
  split; [apply far_abs, NE|]. eapply far_pos; [apply far_abs, NE|exact HX].
Qed.
Lemma st_moduli k b s : Inv b s -> exists s', elastic_moduli k s = (Ok (k (val QWely, val QWelz)), s') /\ Inv b s'.
Proof.
  intros I. unfold elastic_moduli, after. pose proof (i_poly b s I) as EP. rewrite EP. destruct (st_Iy b s I) as (s1 & -> & I1).
  destruct far_y as [_ FY]. destruct far_z as [_ FZ]. destruct (Reqb_spec (Rmax (Rabs (r_zmin P)) (r_zmax P)) 0); [lra|]. destruct (Reqb_spec (Rmax (Rabs (r_ymin P)) (r_ymax P)) 0); [lra|].
  assert (I2 : Inv b (with_Wely (val QIy / Rmax (Rabs (r_zmin P)) (r_zmax P)) s1)).
  { destruct I1 as [H1 H2 H3 H4 H5 H6 H7 H8 H9 H10 H11 H12 H13 H14]. keep. right. reflexivity. }
  destruct (st_Iz b _ I2) as (s3 & -> & I3). eexists. split; [reflexivity|]. destruct I3 as [H1 H2 H3 H4 H5 H6 H7 H8 H9 H10 H11 H12 H13 H14]. keep. right. reflexivity.
Qed.
Lemma turn90 p : rotate_map 90 (0, 0) false p = quarter_turn p.
Proof.
  unfold rotate_map, M_Geo.affine, quarter_turn. cbn [fst snd]. replace (90 * PI / 180) with (PI / 2) by field. rewrite cos_PI2, sin_PI2. f_equal; ring.
Qed.
Lemma turnback p : rotate_map (-90) (0, 0) false (quarter_turn p) = p.
Proof.
  unfold rotate_map, M_Geo.affine, quarter_turn. cbn [fst snd]. replace (-90 * PI / 180) with (- (PI / 2)) by field. rewrite cos_neg, sin_neg, cos_PI2, sin_PI2. destruct p. cbn. f_equal; ring.
Qed.
Definition is_principal (q : quantity) : bool := match q with QIcsi | QIeta => true | _ => false end.
Lemma st_read q b s : Inv b s -> q <> Qtheta -> exists s', read slice eig q s = (Ok (val q), s') /\ Inv (b || is_principal q) s'.
Proof.
  intros I NT. destruct q; try contradiction; cbn [read is_principal]; rewrite ?orb_false_r, ?orb_true_r.
  - apply st_A, I.
  - apply st_Iy, I.
  - apply st_Iz, I.
  - apply st_Iyz, I.
  - unfold read_Icsi. rewrite (i_csi b s I). destruct b; [exists s; split; [reflexivity|exact I]|]. apply (st_principals (fun '(a, _, _) => a) false s I).
  - unfold read_Ieta. rewrite (i_eta b s I). destruct b; [exists s; split; [reflexivity|exact I]|]. apply (st_principals (fun '(_, a, _) => a) false s I).
  - unfold read_Wely. destruct (i_Wely b s I) as [E|E]; rewrite E; [apply (st_moduli fst b s I)|exists s; split; [reflexivity|exact I]].
  - unfold read_Welz. destruct (i_Welz b s I) as [E|E]; rewrite E; [apply (st_moduli snd b s I)|exists s; split; [reflexivity|exact I]].
  - unfold read_Wply. destruct (i_Wply b s I) as [E|E]; rewrite E; [|exists s; split; [reflexivity|exact I]]. cbn [with_Wply pf_poly]. rewrite (i_poly b s I), pnaY.
    eexists. split; [reflexivity|]. destruct I as [H1 H2 H3 H4 H5 H6 H7 H8 H9 H10 H11 H12 H13 H14]. keep. right. reflexivity.
  - unfold read_Wplz. destruct (i_Wplz b s I) as [E|E]; rewrite E; [|exists s; split; [reflexivity|exact I]]. cbn [with_Wplz with_poly pf_poly]. rewrite (i_poly b s I).
    rewrite (map_ext _ _ turn90), pnaZ. eexists. split; [reflexivity|]. destruct I as [H1 H2 H3 H4 H5 H6 H7 H8 H9 H10 H11 H12 H13 H14].
    keep; [|right; reflexivity]. rewrite map_map. rewrite (map_ext _ (fun p => p)) by apply turnback. apply map_id.
  - destruct outP as (_ & PA & PY & PZ & _). assert (SP : 0 < sqrt (fan_moment 0 2 P / fan_moment 0 0 P)) by (apply sqrt_lt_R0, Rdiv_lt_0_compat; assumption).
    unfold read_iy. cbv zeta. assert (CP : exists s', after read_Iy (fun i => after read_A (fun a s0 => if Reqb a 0 then (Err ZeroDivisionError, s0) else (Ok (sqrt (i / a)), with_iy (sqrt (i / a)) s0))) s = (Ok (val Qiy), s') /\ Inv b s').
    { unfold after. destruct (st_Iy b s I) as (s1 & -> & I1). destruct (st_A b s1 I1) as (s2 & -> & I2). cbn [val]. destruct (Reqb_spec (fan_moment 0 0 P) 0); [lra|]. eexists. split; [reflexivity|].
      destruct I2 as [H1 H2 H3 H4 H5 H6 H7 H8 H9 H10 H11 H12 H13 H14]. keep. right. reflexivity. }
    destruct (i_iy b s I) as [E|E]; rewrite E; [exact CP|]. cbn [val]. destruct (Reqb_spec (sqrt (fan_moment 0 2 P / fan_moment 0 0 P)) 0); [lra|]. exists s. split; [reflexivity|exact I].
  - destruct outP as (_ & PA & PY & PZ & _). assert (SP : 0 < sqrt (fan_moment 2 0 P / fan_moment 0 0 P)) by (apply sqrt_lt_R0, Rdiv_lt_0_compat; assumption).
    unfold read_iz. cbv zeta. assert (CP : exists s', after read_Iz (fun i => after read_A (fun a s0 => if Reqb a 0 then (Err ZeroDivisionError, s0) else (Ok (sqrt (i / a)), with_iz (sqrt (i / a)) s0))) s = (Ok (val Qiz), s') /\ Inv b s').
    { unfold after. destruct (st_Iz b s I) as (s1 & -> & I1). destruct (st_A b s1 I1) as (s2 & -> & I2). cbn [val]. destruct (Reqb_spec (fan_moment 0 0 P) 0); [lra|]. eexists. split; [reflexivity|].
      destruct I2 as [H1 H2 H3 H4 H5 H6 H7 H8 H9 H10 H11 H12 H13 H14]. keep. right. reflexivity. }
    destruct (i_iz b s I) as [E|E]; rewrite E; [exact CP|]. cbn [val]. destruct (Reqb_spec (sqrt (fan_moment 2 0 P / fan_moment 0 0 P)) 0); [lra|]. exists s. split; [reflexivity|exact I].
Qed.
Lemma st_theta b s : Inv b s -> read slice eig Qtheta s = (if b then Ok (val Qtheta) else Err AttributeError, s).
Proof. intros I. cbn [read]. unfold read_theta. rewrite (i_th b s I). destruct b; reflexivity. Qed.
Lemma inv_reads l : forall b s, Inv b s -> Inv (b || existsb is_principal l) (reads slice eig l s).
Proof.
  induction l as [|q l IH]; intros b s I; cbn [reads existsb]; [now rewrite orb_false_r|].
  assert (X : Inv (b || is_principal q) (snd (read slice eig q s))).
  { assert (D : q = Qtheta \/ q <> Qtheta) by (destruct q; (now left) || (right; discriminate)). destruct D as [-> | NT].
    - rewrite (st_theta b s I). cbn [is_principal snd]. now rewrite orb_false_r.
    - destruct (st_read q b s I NT) as (s' & -> & I'). exact I'. }
  rewrite orb_assoc. apply IH, X.
Qed.
End Reads.
