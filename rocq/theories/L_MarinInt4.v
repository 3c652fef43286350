From Coquelicot Require Import Coquelicot.
From Verif Require Import Base M_Marin S_Marin L_Marin M_Laws S_Laws L_Laws L_LawsC M_Laws2 S_Laws2 M_Fiber S_Fiber L_Fiber M_MarinInt S_MarinInt L_MarinInt L_MarinInt2 L_MarinInt3.

(** * Fields of the analytic laws *)
Lemma elastic_field l e0 e1 : field_of (elastic_marin l (e0, e1)) (fun e => el_E l * e) e0 e1 /\
  field_of (elastic_marin_tangent l (e0, e1)) (fun _ => el_E l) e0 e1.
Proof.
  split; (split; [reflexivity|]); cbn; (eexists; split; [reflexivity|]); intros y _; cbn; ring.
Qed.

Ltac rdec := repeat (match goal with
  | |- context [Rle_dec ?a ?b] => destruct (Rle_dec a b)
  | |- context [Rlt_dec ?a ?b] => destruct (Rlt_dec a b) end).
Lemma rabs_cases x : (0 <= x /\ Rabs x = x) \/ (x < 0 /\ Rabs x = - x).
Proof. destruct (Rle_lt_dec 0 x); [left|right]; split; try assumption; [now apply Rabs_pos_eq|now apply Rabs_left]. Qed.
Ltac rabs := match goal with H : context [Rabs ?x] |- _ => destruct (rabs_cases x) as [[? ?]|[? ?]] | _ => idtac end.

Lemma ep_field E fy Eh u l e0 e1 : ep_init E fy Eh (Some u) = Ok l -> 0 < fy -> fy / E <= u ->
  0 <= e1 -> (e1 = 0 -> settled (- u, u) e0) ->
  field_of (ep_marin l (e0, e1)) (ep_curve E fy Eh u) e0 e1 /\
  field_of (ep_marin_tangent l (e0, e1)) (ep_slope E fy Eh u) e0 e1.
Proof.
  intros H Hf Hu H1 Hs. apply ep_init_inv in H as [HE ->].
  assert (Hsy : 0 < fy / E) by now apply Rdiv_lt_0_compat.
  assert (Hfy : fy = E * (fy / E)) by (field; lra).
  assert (Hd : fy * (1 - Eh / E) = fy - Eh * (fy / E)) by (field; lra).
  set (sy := fy / E) in *.
  unfold ep_marin, ep_marin_tangent, ep_yield, ep_ult. cbn [ep_E ep_fy ep_Eh ep_su ep_sy]. cbv beta iota zeta. rewrite Hd.
  destruct (Reqb_spec e1 0) as [Z|N].
  - rewrite (settled_prep _ _ (Hs Z)). subst e1. split; (split; [reflexivity|]); cbn [fst snd];
    rsplit; cbn [fst snd]; unfold describes; cbn [fst snd]; (eexists; split; [reflexivity|]); intros y _; cbn [poly];
      replace (e0 + 0 * y) with e0 by ring; unfold ep_curve, ep_slope; fold sy; rdec; rabs; try lra; nra.
  - assert (P : 0 < e1) by lra. split; (split; [reflexivity|]); cbn [fst snd].
    + split; [exact P|]. split.
      * split; [intros r [<-|[<-|[<-|[]]]]; cbn; lra|].
        intros [|[|[|i]]] [|[|[|j]]]; cbn; intros; try lia; lra.
      * exists [- sy; sy]. unfold describes. cbn [fst snd length combine]. split; [reflexivity|]. intros y Hy. split.
        { intros r c [[= <- <-]|[[= <- <-]|[[= <- <-]|[]]]]; cbn [fst snd poly]; intros [L U];
          (assert (N1 : e0 + e1 * y <> - sy) by (intros X; apply Hy; rewrite X; cbn; auto));
          (assert (N2 : e0 + e1 * y <> sy) by (intros X; apply Hy; rewrite X; cbn; auto));
          unfold ep_curve; fold sy; rdec; rabs; try lra; nra. }
        { intros Hn. assert (A1 := Hn (- u, - sy) ltac:(cbn; auto)).
          assert (A2 := Hn (- sy, sy) ltac:(cbn; auto)). assert (A3 := Hn (sy, u) ltac:(cbn; auto)). cbn [fst snd] in *.
          unfold ep_curve; fold sy; rdec; rabs; try lra; exfalso;
          destruct (Rle_lt_dec (e0 + e1 * y) (- sy)); destruct (Rle_lt_dec (e0 + e1 * y) sy); 
          ((apply A1; lra) || (apply A2; lra) || (apply A3; lra)). }
    + split; [exact P|]. split.
      * split; [intros r [<-|[<-|[<-|[]]]]; cbn; lra|].
        intros [|[|[|i]]] [|[|[|j]]]; cbn; intros; try lia; lra.
      * exists [- sy; sy]. unfold describes. cbn [fst snd length combine]. split; [reflexivity|]. intros y Hy. split.
        { intros r c [[= <- <-]|[[= <- <-]|[[= <- <-]|[]]]]; cbn [fst snd poly]; intros [L U];
          (assert (N1 : e0 + e1 * y <> - sy) by (intros X; apply Hy; rewrite X; cbn; auto));
          (assert (N2 : e0 + e1 * y <> sy) by (intros X; apply Hy; rewrite X; cbn; auto));
          unfold ep_slope; fold sy; rdec; rabs; try lra; nra. }
        { intros Hn. assert (A1 := Hn (- u, - sy) ltac:(cbn; auto)).
          assert (A2 := Hn (- sy, sy) ltac:(cbn; auto)). assert (A3 := Hn (sy, u) ltac:(cbn; auto)). cbn [fst snd] in *.
          unfold ep_slope; fold sy; rdec; rabs; try lra; exfalso;
          destruct (Rle_lt_dec (e0 + e1 * y) (- sy)); destruct (Rle_lt_dec (e0 + e1 * y) sy); 
          ((apply A1; lra) || (apply A2; lra) || (apply A3; lra)). }
Qed.

Lemma pr_field fc p u e0 e1 : 0 <= fc -> 0 < p <= u -> 0 <= e1 -> (e1 = 0 -> settled (- u, 100) e0) ->
  field_of (pr_marin2 (pr_init fc p u 2) (e0, e1)) (pr_curve fc p u) e0 e1 /\
  field_of (pr_marin_tangent2 (pr_init fc p u 2) (e0, e1)) (pr_slope fc p u) e0 e1.
Proof.
  intros Hf Hp H1 Hs. unfold pr_marin2, pr_marin_tangent2, pr_init, pr_ult. cbn [pr_fc pr_e0 pr_eu].
  rewrite (Rabs_pos_eq fc), (Rabs_pos_eq p), (Rabs_pos_eq u) by lra.
  destruct (Reqb_spec e1 0) as [Z|N].
  - rewrite (settled_prep _ _ (Hs Z)). subst e1. split; (split; [reflexivity|]); cbn [fst snd];
    rsplit; cbn [fst snd]; unfold describes; cbn [fst snd]; (eexists; split; [reflexivity|]); intros y _; cbn [poly];
      replace (e0 + 0 * y) with e0 by ring; unfold pr_curve, pr_slope; rdec; try lra; try (field; lra);
      (replace e0 with (- p) by lra); field; lra.
  - assert (P : 0 < e1) by lra. split; (split; [reflexivity|]); cbn [fst snd].
    + split; [exact P|]. split.
      * split; [intros r [<-|[<-|[]]]; cbn; lra|].
        intros [|[|i]] [|[|j]]; cbn; intros; try lia; lra.
      * exists [- p; - u; 0]. unfold describes. cbn [fst snd length combine]. split; [reflexivity|]. intros y Hy. split.
        { intros r c [[= <- <-]|[[= <- <-]|[]]]; cbn [fst snd poly]; intros [L U];
          (assert (N1 : e0 + e1 * y <> - p) by (intros X; apply Hy; rewrite X; cbn; auto));
          unfold pr_curve; rdec; try lra; field; lra. }
        { intros Hn. assert (A1 := Hn (- p, 0) ltac:(cbn; auto)). assert (A2 := Hn (- u, - p) ltac:(cbn; auto)). cbn [fst snd] in *.
          unfold pr_curve; rdec; try lra; exfalso; ((apply A1; lra) || (apply A2; lra)). }
    + split; [exact P|]. split.
      * split; [intros r [<-|[<-|[]]]; cbn; lra|].
        intros [|[|i]] [|[|j]]; cbn; intros; try lia; lra.
      * exists [- p; - u; 0]. unfold describes. cbn [fst snd length combine]. split; [reflexivity|]. intros y Hy. split.
        { intros r c [[= <- <-]|[[= <- <-]|[]]]; cbn [fst snd poly]; intros [L U];
          (assert (N1 : e0 + e1 * y <> - p) by (intros X; apply Hy; rewrite X; cbn; auto));
          unfold pr_slope; rdec; try lra; field; lra. }
        { intros Hn. assert (A1 := Hn (- p, 0) ltac:(cbn; auto)). assert (A2 := Hn (- u, - p) ltac:(cbn; auto)). cbn [fst snd] in *.
          unfold pr_slope; rdec; try lra; exfalso; ((apply A1; lra) || (apply A2; lra)). }
Qed.

(** * Polynomial fields in the original axes *)
Lemma turn_lin a r : map (turn a) r = map (lin (cos a) (- sin a) (sin a) (cos a)) r.
Proof. apply map_ext. intros p. unfold turn, lin. f_equal; ring. Qed.
Lemma trig a : sin a ^ 2 = 1 - cos a ^ 2.
Proof. pose proof (sin2_cos2 a) as T; unfold Rsqr in T; lra. Qed.
Ltac fan_tac a := rewrite turn_lin, fan_lin; unfold rsum, C; cbn [Nat.add Nat.sub seq map fold_left fact INR Nat.mul pow];
  pose proof (trig a) as T.
Lemma turned_area a r : shoelace (map (turn a) r) = shoelace r.
Proof.
  rewrite <- !fan_area, turn_lin, fan_lin. cbn. pose proof (trig a) as T. unfold C. cbn.
  match goal with |- context [fan_moment 0 0 r] => set (X := fan_moment 0 0 r) end.
  replace (cos a * cos a - - sin a * sin a) with 1 by (rewrite <- (sin2_cos2 a); unfold Rsqr; ring). field.
Qed.
Lemma turned_moments a r : let c := cos a in let s := sin a in let M m n := fan_moment m n r in
  let M' m n := fan_moment m n (map (turn a) r) in
  M' 0%nat 0%nat = M 0%nat 0%nat /\ M' 1%nat 0%nat = c * M 1%nat 0%nat - s * M 0%nat 1%nat /\
  M' 0%nat 1%nat = s * M 1%nat 0%nat + c * M 0%nat 1%nat /\
  M' 2%nat 0%nat = c ^ 2 * M 2%nat 0%nat - 2 * c * s * M 1%nat 1%nat + s ^ 2 * M 0%nat 2%nat /\
  M' 1%nat 1%nat = c * s * M 2%nat 0%nat + (c ^ 2 - s ^ 2) * M 1%nat 1%nat - c * s * M 0%nat 2%nat /\
  M' 0%nat 2%nat = s ^ 2 * M 2%nat 0%nat + 2 * c * s * M 1%nat 1%nat + c ^ 2 * M 0%nat 2%nat.
Proof.
  cbv zeta. rewrite !turn_lin, !fan_lin. unfold C. cbn [Nat.add Nat.sub rsum fact INR Nat.mul pow].
  replace (cos a * cos a - - sin a * sin a) with 1 by (rewrite <- (sin2_cos2 a); unfold Rsqr; ring).
  repeat split; try field; try (cbn; field).
Qed.
Lemma closed_turn a r : closed r -> closed (map (turn a) r).
Proof. apply closed_map. Qed.
Lemma gfield_moment m n r : closed r -> gfield m (fun z => z ^ n) r = fan_moment m n r.
Proof. intros C. rewrite <- green_fan by assumption. reflexivity. Qed.
Lemma eint_lin a b c : eint (fun z => a * z ^ 0 + b * z ^ 1 + c * z ^ 2).
Proof.
  apply eint_cont. intros z. apply (ex_derive_continuous (V:=R_NormedModule)). auto_derive. trivial.
Qed.
Lemma eint_scal k n : eint (fun z => k * z ^ n).
Proof.
  apply eint_cont. intros z. apply (ex_derive_continuous (V:=R_NormedModule)). auto_derive. trivial.
Qed.
Lemma gfield_lin m a b c r : closed r -> gfield m (fun z => a * z ^ 0 + b * z ^ 1 + c * z ^ 2) r =
  a * fan_moment m 0 r + b * fan_moment m 1 r + c * fan_moment m 2 r.
Proof.
  intros C. assert (E2 := eint_plus _ _ (eint_scal a 0) (eint_scal b 1)).
  rewrite (gfield_plus m _ _ r E2 (eint_scal c 2)), (gfield_plus m _ _ r (eint_scal a 0) (eint_scal b 1)).
  rewrite !gfield_scal by apply eint_pow. rewrite !gfield_moment by assumption. reflexivity.
Qed.
Lemma region_quadratic ca cb cc cd ce cf r : closed r ->
  region_integral (quadratic ca cb cc cd ce cf) r =
  let M m n := fan_moment m n r in
  ca * M 0%nat 0%nat + cb * M 1%nat 0%nat + cc * M 0%nat 1%nat + cd * M 2%nat 0%nat + ce * M 1%nat 1%nat + cf * M 0%nat 2%nat.
Proof.
  intros C. cbv zeta.
  rewrite (region_poly _ (fun z => ca * z ^ 0 + cc * z ^ 1 + cf * z ^ 2) (fun z => cb * z ^ 0 + ce * z ^ 1 + 0 * z ^ 2)
    (fun z => cd * z ^ 0 + 0 * z ^ 1 + 0 * z ^ 2)); try apply eint_lin.
  - rewrite !gfield_lin by assumption. ring.
  - intros y z. unfold quadratic. ring.
Qed.
Lemma region_ext phi psi r : (forall y z, phi y z = psi y z) -> region_integral phi r = region_integral psi r.
Proof.
  intros H. unfold region_integral. apply lsum_map_ext. intros e _. apply RInt_ext. intros t _. f_equal.
  apply RInt_ext. intros y _. apply H.
Qed.
Lemma region_quadratic_turned a ca cb cc cd ce cf r : closed r ->
  region_integral (fun y z => quadratic ca cb cc cd ce cf (back_y a y z) (back_z a y z)) (map (turn a) r) =
  region_integral (quadratic ca cb cc cd ce cf) r.
Proof.
  intros C. set (c := cos a). set (s := sin a).
  rewrite (region_ext _ (quadratic ca (cb * c - cc * s) (cb * s + cc * c)
      (cd * c ^ 2 - ce * c * s + cf * s ^ 2) (2 * cd * c * s + ce * (c ^ 2 - s ^ 2) - 2 * cf * c * s) (cd * s ^ 2 + ce * c * s + cf * c ^ 2))).
  2:{ intros y z. unfold quadratic, back_y, back_z. fold c s. ring. }
  rewrite !region_quadratic by (try assumption; now apply closed_turn). cbv zeta.
  destruct (turned_moments a r) as (E0 & E1 & E2 & E3 & E4 & E5). fold c s in E1, E2, E3, E4, E5.
  rewrite E0, E1, E2, E3, E4, E5. assert (T : s ^ 2 = 1 - c ^ 2) by apply trig.
  ring_simplify. replace (s ^ 4) with ((s ^ 2) ^ 2) by ring. rewrite T. ring.
Qed.
Lemma edges_turn a r : edges (map (turn a) r) = map (fun e => (turn a (fst e), turn a (snd e))) (edges r).
Proof. apply edges_map. Qed.
Lemma surface_quadratic_turned a ca cb cc cd ce cf s : closed (sf_ext s) -> (forall q, In q (sf_ints s) -> closed q) ->
  surface_integral (fun y z => quadratic ca cb cc cd ce cf (back_y a y z) (back_z a y z)) (turned a s) =
  surface_integral (quadratic ca cb cc cd ce cf) s.
Proof.
  intros C1 C2. unfold surface_integral. cbn [turned sf_ext sf_ints]. f_equal.
  - unfold ccw_ring. rewrite turned_area. destruct (Rlt_dec _ _).
    + rewrite <- map_rev. apply region_quadratic_turned. now apply closed_rev.
    + now apply region_quadratic_turned.
  - rewrite map_map. apply lsum_map_ext. intros q I. unfold cw_ring. rewrite turned_area. destruct (Rlt_dec _ _).
    + rewrite <- map_rev. apply region_quadratic_turned. apply closed_rev. auto.
    + apply region_quadratic_turned. auto.
Qed.
