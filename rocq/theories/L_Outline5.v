(** The outline of an I section: what is returned. *)
From Coq Require Import Lra Lia.
From Verif Require Import Base L_Catalog2 S_Marin M_Marin L_Marin M_MarinInt L_MarinInt2 M_Geo L_Geo M_Profile S_Profile M_Catalog S_Catalog M_Outline S_Outline L_Outline L_Outline2 L_Outline3 L_Outline4.
Open Scope R_scope.
Open Scope list_scope.

(** * Constants of the circle's polygon *)
Lemma pi3_le : PI ^ 3 <= 3105 / 100.
Proof.
  pose proof pi_bounds as [P1 P2]. assert (PI ^ 3 <= 3143 / 1000 * (3143 / 1000) ^ 2).
  { replace (PI ^ 3) with (PI * PI ^ 2) by ring. apply Rmult_le_compat; [lra|apply pow2_ge_0|lra|]. apply pow_incr. lra. }
  lra.
Qed.
Lemma pi2_le : PI ^ 2 <= 988 / 100.
Proof. pose proof pi_bounds as [P1 P2]. assert (PI ^ 2 <= (3143 / 1000) ^ 2) by (apply pow_incr; lra). lra. Qed.
Lemma sin_low : PI / 32 - 3105 / 100 / 196608 <= sin dlt.
Proof.
  unfold dlt. pose proof pi_bounds as [P1 P2]. destruct (sin_bound (PI / 32) 0 ltac:(lra) ltac:(lra)) as [S1 _]. unfold sin_approx, sin_term in S1. cbn in S1. field_simplify in S1.
  pose proof pi3_le. lra.
Qed.
Lemma sin_high : sin dlt <= PI / 32.
Proof. unfold dlt. pose proof pi_bounds as [P1 P2]. apply Rlt_le, sin_lt_x. lra. Qed.
Lemma k0_near : PI / 4 - 13 / 10000 <= k0 <= PI / 4.
Proof. unfold k0. pose proof sin_low. pose proof sin_high. lra. Qed.
Lemma k1_near : 1 / 3 - 9 / 10000 <= k1 <= 1 / 3.
Proof.
  unfold k1. pose proof pi_bounds as [P1 P2]. pose proof (sin2_cos2 (dlt / 2)) as E. unfold Rsqr in E.
  assert (0 <= sin (dlt / 2)) by (apply sin_ge_0; unfold dlt; lra). assert (sin (dlt / 2) <= dlt / 2) by (apply Rlt_le, sin_lt_x; unfold dlt; lra).
  assert (sin (dlt / 2) * sin (dlt / 2) <= dlt / 2 * (dlt / 2)) by (apply Rmult_le_compat; lra).
  assert (0 <= sin (dlt / 2) * sin (dlt / 2)) by (apply Rmult_le_pos; lra). pose proof pi2_le. unfold dlt in *.
  replace (PI / 32 / 2 * (PI / 32 / 2)) with (PI ^ 2 / 4096) in * by field. replace (cos (PI / 32 / 2) ^ 2) with (1 - sin (PI / 32 / 2) * sin (PI / 32 / 2)) by lra. lra.
Qed.
Lemma k2_near : PI / 16 - 7 / 10000 <= k2 <= PI / 16.
Proof.
  unfold k2. pose proof sin_low as S1. pose proof sin_high as S2. pose proof pi_bounds as [P1 P2]. pose proof (COS_bound dlt) as [_ C1].
  assert (C0 : 1 - 988 / 100 / 2048 <= cos dlt).
  { pose proof (sin2_cos2 (dlt / 2)) as E. unfold Rsqr in E. assert (D : cos dlt = 1 - 2 * (sin (dlt / 2) * sin (dlt / 2))) by (replace dlt with (2 * (dlt / 2)) at 1 by field; rewrite cos_2a_sin; ring).
    assert (0 <= sin (dlt / 2)) by (apply sin_ge_0; unfold dlt; lra). assert (sin (dlt / 2) <= dlt / 2) by (apply Rlt_le, sin_lt_x; unfold dlt; lra).
    assert (sin (dlt / 2) * sin (dlt / 2) <= dlt / 2 * (dlt / 2)) by (apply Rmult_le_compat; lra). pose proof pi2_le. unfold dlt in *.
    replace (PI / 32 / 2 * (PI / 32 / 2)) with (PI ^ 2 / 4096) in * by field. lra. }
  split.
  - assert ((PI / 32 - 3105 / 100 / 196608) * (3 - 988 / 100 / 2048) <= sin dlt * (2 + cos dlt)) by (apply Rmult_le_compat; lra). lra.
  - assert (sin dlt * (2 + cos dlt) <= PI / 32 * 3) by (apply Rmult_le_compat; lra). lra.
Qed.

(** * Union *)
Lemma boxed_single_in p x0 x1 y0 y1 v : boxed [p] x0 x1 y0 y1 -> In v p -> x0 <= fst v <= x1 /\ y0 <= snd v <= y1.
Proof. intros (A & _) I. apply (A p v (or_introl eq_refl) I). Qed.
Lemma boxed_folds p x0 x1 y0 y1 : boxed [p] x0 x1 y0 y1 -> fold_min fst p = x0 /\ fold_max fst p = x1 /\ fold_min snd p = y0 /\ fold_max snd p = y1.
Proof.
  intros (A & (p1 & v1 & [<-|[]] & J1 & E1) & (p2 & v2 & [<-|[]] & J2 & E2) & (p3 & v3 & [<-|[]] & J3 & E3) & (p4 & v4 & [<-|[]] & J4 & E4)).
  split; [|split; [|split]]; [apply fold_min_is|apply fold_max_is|apply fold_min_is|apply fold_max_is]; eauto; intros v I; destruct (A p v (or_introl eq_refl) I); lra.
Qed.
Lemma boxed_rev p x0 x1 y0 y1 : boxed [p] x0 x1 y0 y1 -> boxed [rev p] x0 x1 y0 y1.
Proof.
  intros (A & (p1 & v1 & [<-|[]] & J1 & E1) & (p2 & v2 & [<-|[]] & J2 & E2) & (p3 & v3 & [<-|[]] & J3 & E3) & (p4 & v4 & [<-|[]] & J4 & E4)).
  split; [intros q v [<-|[]] I; apply in_rev in I; apply (A p v (or_introl eq_refl) I)|].
  split; [|split; [|split]]; [exists (rev p), v1|exists (rev p), v2|exists (rev p), v3|exists (rev p), v4]; (split; [now left|]; split; [now apply -> in_rev|assumption]).
Qed.
Lemma closed_rev (p : ring) : closed p -> closed (rev p).
Proof.
  intros C. destruct p as [|a p]; [exact C|]. unfold closed in C. destruct (exists_last (l := a :: p)) as (k & z & E); [discriminate|].
  rewrite E in C. rewrite last_last in C. subst z. rewrite E, rev_app_distr. cbn [rev app closed].
  destruct k as [|b k]; [reflexivity|]. injection E as <- E. cbn [rev]. change (a :: rev k ++ [a]) with ((a :: rev k) ++ [a]). apply last_last.
Qed.
Lemma orient_spec p : closed p -> closed (orient_ext p) /\ (forall m n, fan_moment m n (orient_ext p) = region_moment m n p) /\
  (forall x0 x1 y0 y1, boxed [p] x0 x1 y0 y1 -> boxed [orient_ext p] x0 x1 y0 y1).
Proof.
  intros C. unfold orient_ext, region_moment. rewrite shoe_shoelace. destruct (Rltb_spec (shoelace p) 0) as [L|L]; destruct (Rlt_dec (shoelace p) 0); try contradiction.
  - split; [now apply closed_rev|]. split; [intros; apply fan_rev|intros; now apply boxed_rev].
  - split; [exact C|]. split; [reflexivity|auto].
Qed.
Lemma united_ok S parts l r x0 x1 y0 y1 : exact_union (unary_union S) -> tower l r ->
  (forall m n, lsum (map (region_moment m n) parts) = fan_moment m n (tower_ring l r)) -> 0 < fan_moment 0 0 (tower_ring l r) ->
  boxed parts x0 x1 y0 y1 -> boxed [tower_ring l r] x0 x1 y0 y1 -> x0 < x1 -> y0 < y1 ->
  exists p, united S parts = Ok p /\ closed p /\ (forall m n, fan_moment m n p = fan_moment m n (tower_ring l r)) /\ boxed [p] x0 x1 y0 y1.
Proof.
  intros X T R A B1 B2 Lx Ly.
  assert (R1 : same_region [tower_ring l r] parts).
  { intros m n. rewrite R. cbn [map]. rewrite lsum_cons, lsum_nil, (region_pos m n _ A). ring. }
  destruct (X parts l r T R1 (boxed_same _ _ _ _ _ _ B2 B1)) as (p & E & C & R2 & B3).
  assert (B4 : boxed [p] x0 x1 y0 y1) by (apply (same_boxed _ _ _ _ _ _ B3 B1)).
  destruct (orient_spec p C) as (O1 & O2 & O3). exists (orient_ext p).
  unfold united. rewrite E. cbn [concat]. rewrite app_nil_r. destruct (boxed_folds p _ _ _ _ B4) as (-> & -> & -> & ->).
  destruct (Reqb_spec (Rmin (x1 - x0) (y1 - y0)) 0) as [Z|_]; [exfalso; unfold Rmin in Z; destruct (Rle_dec _ _); lra|].
  split; [reflexivity|]. split; [exact O1|]. split; [|now apply O3].
  intros m n. rewrite O2. specialize (R2 m n). rewrite R in R2. cbn [map] in R2. rewrite lsum_cons, lsum_nil in R2. lra.
Qed.
Lemma rect_moment_02 x0 x1 y0 y1 : fan_moment 0 2 [(x0, y0); (x1, y0); (x1, y1); (x0, y1); (x0, y0)] = (x1 - x0) * (y1 ^ 3 - y0 ^ 3) / 3.
Proof. rewrite !fan_cons2, !fan_single, !tm_02. unfold cross; cbn [fst snd]. field. Qed.
Lemma rect_moment_20 x0 x1 y0 y1 : fan_moment 2 0 [(x0, y0); (x1, y0); (x1, y1); (x0, y1); (x0, y0)] = (x1 ^ 3 - x0 ^ 3) / 3 * (y1 - y0).
Proof. rewrite !fan_cons2, !fan_single, !tm_20. unfold cross; cbn [fst snd]. field. Qed.
Lemma rect_moment_10 x0 x1 y0 y1 : fan_moment 1 0 [(x0, y0); (x1, y0); (x1, y1); (x0, y1); (x0, y0)] = (x1 ^ 2 - x0 ^ 2) / 2 * (y1 - y0).
Proof. rewrite !fan_cons2, !fan_single, !tm_10. unfold cross; cbn [fst snd]. field. Qed.

Section I_section.
Variables B H X Y r : R.
Hypothesis (HX : 0 < X) (Hr : 0 < r) (HB : X + r <= B) (HY : r <= Y) (HH : Y < H).
Let parts := i_parts B H X Y r.
Let tw := tower_ring (i_left B H X Y r) (i_right B H X Y r).
Lemma i_area_value : fan_moment 0 0 tw = 4 * B * (H - Y) + 4 * X * Y + 4 * (r ^ 2 * (1 - k0)).
Proof.
  unfold tw. rewrite <- (parts_tower B H X Y r HX Hr HB HY HH), (parts_fan B H X Y r HX Hr HB HY HH), fillet_00. unfold low_flange, web_ring. rewrite !rect_area. cbn [pow]. ring.
Qed.
Lemma i_02_value : fan_moment 0 2 tw = 4 * B * (H ^ 3 - Y ^ 3) / 3 + 4 * X * Y ^ 3 / 3
  + 4 * (r * (Y ^ 3 - (Y - r) ^ 3) / 3 - (k2 * r ^ 4 + 2 * (Y - r) * (k1 * r ^ 3) + (Y - r) ^ 2 * (k0 * r ^ 2))).
Proof.
  unfold tw. rewrite <- (parts_tower B H X Y r HX Hr HB HY HH), (parts_fan B H X Y r HX Hr HB HY HH), fillet_02. unfold low_flange, web_ring. rewrite !rect_moment_02. cbn [pow]. field.
Qed.
Lemma i_20_value : fan_moment 2 0 tw = 4 * B ^ 3 * (H - Y) / 3 + 4 * X ^ 3 * Y / 3
  + 4 * (r * ((X + r) ^ 3 - X ^ 3) / 3 - (k2 * r ^ 4 - 2 * (X + r) * (k1 * r ^ 3) + (X + r) ^ 2 * (k0 * r ^ 2))).
Proof.
  unfold tw. rewrite <- (parts_tower B H X Y r HX Hr HB HY HH), (parts_fan B H X Y r HX Hr HB HY HH), fillet_20. unfold low_flange, web_ring. rewrite !rect_moment_20. cbn [pow]. field.
Qed.
Lemma i_area_pos : 0 < fan_moment 0 0 tw.
Proof.
  rewrite i_area_value. pose proof k0_near. pose proof pi_bounds.
  pose proof (Rmult_lt_0_compat B (H - Y) ltac:(lra) ltac:(lra)). pose proof (Rmult_lt_0_compat X Y ltac:(lra) ltac:(lra)).
  pose proof (Rmult_lt_0_compat (r ^ 2) (1 - k0) (pow_lt r 2 Hr) ltac:(lra)). lra.
Qed.
Lemma pow3_lt a b : 0 <= a -> a < b -> a ^ 3 < b ^ 3.
Proof. intros A0 A1. assert (E : b ^ 3 - a ^ 3 = (b - a) * (b ^ 2 + a * b + a ^ 2)) by ring. assert (0 < (b - a) * (b ^ 2 + a * b + a ^ 2)); [|lra]. apply Rmult_lt_0_compat; [lra|]. pose proof (pow_lt b 2 ltac:(lra)). pose proof (Rmult_le_pos a b A0 ltac:(lra)). pose proof (pow2_ge_0 a). lra. Qed.
Lemma fillet_02_pos d : 0 <= d -> 0 < d ^ 2 * r ^ 2 * (1 - k0) + d * r ^ 3 * (1 - 2 * k1) + r ^ 4 * (1 / 3 - k2).
Proof.
  intros Hd. pose proof k0_near. pose proof k1_near. pose proof k2_near. pose proof pi_bounds.
  pose proof (Rmult_le_pos (d ^ 2 * r ^ 2) (1 - k0) ltac:(apply Rmult_le_pos; apply pow2_ge_0) ltac:(lra)).
  pose proof (Rmult_le_pos (d * r ^ 3) (1 - 2 * k1) ltac:(apply Rmult_le_pos; [exact Hd|apply pow_le; lra]) ltac:(lra)).
  pose proof (Rmult_lt_0_compat (r ^ 4) (1 / 3 - k2) (pow_lt r 4 Hr) ltac:(lra)). lra.
Qed.
Lemma i_02_pos : 0 < fan_moment 0 2 tw.
Proof.
  rewrite i_02_value. pose proof (fillet_02_pos (Y - r) ltac:(lra)) as F. pose proof (pow3_lt Y H ltac:(lra) HH).
  pose proof (Rmult_lt_0_compat B (H ^ 3 - Y ^ 3) ltac:(lra) ltac:(lra)). pose proof (Rmult_lt_0_compat X (Y ^ 3) HX (pow_lt Y 3 ltac:(lra))).
  replace (r * (Y ^ 3 - (Y - r) ^ 3) / 3 - (k2 * r ^ 4 + 2 * (Y - r) * (k1 * r ^ 3) + (Y - r) ^ 2 * (k0 * r ^ 2)))
    with ((Y - r) ^ 2 * r ^ 2 * (1 - k0) + (Y - r) * r ^ 3 * (1 - 2 * k1) + r ^ 4 * (1 / 3 - k2)) by field. lra.
Qed.
Lemma i_20_pos : 0 < fan_moment 2 0 tw.
Proof.
  rewrite i_20_value. pose proof k0_near. pose proof k1_near. pose proof k2_near. pose proof pi_bounds.
  pose proof (Rmult_lt_0_compat (B ^ 3) (H - Y) (pow_lt B 3 ltac:(lra)) ltac:(lra)). pose proof (Rmult_lt_0_compat (X ^ 3) Y (pow_lt X 3 HX) ltac:(lra)).
  replace (r * ((X + r) ^ 3 - X ^ 3) / 3 - (k2 * r ^ 4 - 2 * (X + r) * (k1 * r ^ 3) + (X + r) ^ 2 * (k0 * r ^ 2)))
    with (r ^ 2 * (X ^ 2 * (1 - k0) + X * r * (2 * (1 - k0) - (1 - 2 * k1)) + r ^ 2 * ((1 - k0) - (1 - 2 * k1) + (1 / 3 - k2)))) by field.
  pose proof (Rmult_le_pos (X ^ 2) (1 - k0) ltac:(apply pow2_ge_0) ltac:(lra)).
  pose proof (Rmult_le_pos (X * r) (2 * (1 - k0) - (1 - 2 * k1)) ltac:(apply Rmult_le_pos; lra) ltac:(lra)).
  pose proof (Rmult_le_pos (r ^ 2) ((1 - k0) - (1 - 2 * k1) + (1 / 3 - k2)) ltac:(apply pow2_ge_0) ltac:(lra)).
  pose proof (Rmult_le_pos (r ^ 2) (X ^ 2 * (1 - k0) + X * r * (2 * (1 - k0) - (1 - 2 * k1)) + r ^ 2 * ((1 - k0) - (1 - 2 * k1) + (1 / 3 - k2))) ltac:(apply pow2_ge_0) ltac:(lra)).
  lra.
Qed.
Lemma i_mirror_y m n : Nat.Odd m -> fan_moment m n tw = 0.
Proof.
  intros [k E]. unfold tw. rewrite tower_fan. assert (S1 : (-1) ^ m = -1) by (rewrite E, pow_add, pow_mult; replace ((-1) ^ 2) with 1 by ring; rewrite pow1; ring).
  rewrite S1. pose proof (tm_fx m n (fx (B, - H)) (B, - H)) as A. replace (fx (fx (B, - H))) with (B, - H) in A by (unfold fx; cbn [fst snd]; f_equal; ring).
  replace (B, - H) with (fx (fx (B, - H))) in A at 2 by (unfold fx; cbn [fst snd]; f_equal; ring).
  assert (B1 : fx (fx (B, - H)) = (B, - H)) by (unfold fx; cbn [fst snd]; f_equal; ring). rewrite B1 in A.
  rewrite (triangle_moment_swap m n (fx (B, - H)) (B, - H)), S1 in A. assert (triangle_moment m n (fx (B, - H)) (B, - H) = 0) by lra. rewrite H0. ring.
Qed.
Lemma i_mirror_z m n : Nat.Odd n -> fan_moment m n tw = 0.
Proof.
  intros [k E]. unfold tw. rewrite tower_fan. assert (S1 : (-1) ^ n = -1) by (rewrite E, pow_add, pow_mult; replace ((-1) ^ 2) with 1 by ring; rewrite pow1; ring).
  rewrite S1. pose proof (tm_fy m n (X, - Y + r) (fy (X, - Y + r))) as A.
  assert (B1 : fy (fy (X, - Y + r)) = (X, - Y + r)) by (unfold fy; cbn [fst snd]; f_equal; ring). rewrite B1 in A.
  rewrite (triangle_moment_swap m n (X, - Y + r) (fy (X, - Y + r))), S1 in A. assert (triangle_moment m n (X, - Y + r) (fy (X, - Y + r)) = 0) by lra. rewrite H0. ring.
Qed.
Lemma i_tower_boxed : boxed [tw] (- B) B (- H) H.
Proof.
  unfold tw. rewrite i_tower_ring. pose proof (ends_in _ _ _ (right_ends B H X Y r)) as [I0 I1].
  assert (IR : forall v, In v (i_right B H X Y r) -> In v (fx (B, - H) :: i_right B H X Y r ++ rev (i_left B H X Y r))) by (intros v I; right; apply in_or_app; now left).
  split.
  - intros p v [<-|[]] [<-|I]; [unfold fx; cbn [fst snd]; lra|]. apply in_app_or in I. destruct I as [I|I].
    + apply (right_in B H X Y r Hr HB HY HH) in I. lra.
    + apply in_rev in I. apply in_map_iff in I. destruct I as (w & <- & I). apply (right_in B H X Y r Hr HB HY HH) in I. unfold fx; cbn [fst snd]. lra.
  - split; [|split; [|split]].
    + eexists; exists (fx (B, - H)). split; [now left|]. split; [now left|]. reflexivity.
    + eexists; exists (B, - H). split; [now left|]. split; [now apply IR|reflexivity].
    + eexists; exists (B, - H). split; [now left|]. split; [now apply IR|reflexivity].
    + eexists; exists (fy (B, - H)). split; [now left|]. split; [now apply IR|unfold fy; cbn [snd]; ring].
Qed.
Lemma i_parts_boxed : boxed parts (- B) B (- H) H.
Proof.
  split.
  - intros p v Ip Iv. unfold parts, i_parts, fillets in Ip. cbn [map app] in Ip.
    destruct Ip as [<-|[<-|[<-|[<-|[<-|[<-|[<-|[]]]]]]]].
    + apply in_map_iff in Iv. destruct Iv as (w & <- & Iv). apply left_fillet_in in Iv; [|exact Hr]. unfold fy; cbn [fst snd]. lra.
    + apply in_map_iff in Iv. destruct Iv as (w & <- & Iv). apply fillet_in in Iv; [|exact Hr]. unfold fy; cbn [fst snd]. lra.
    + apply left_fillet_in in Iv; [|exact Hr]. lra.
    + apply fillet_in in Iv; [|exact Hr]. lra.
    + destruct Iv as [<-|[<-|[<-|[<-|[<-|[]]]]]]; cbn [fst snd]; lra.
    + destruct Iv as [<-|[<-|[<-|[<-|[<-|[]]]]]]; cbn [fst snd]; lra.
    + destruct Iv as [<-|[<-|[<-|[<-|[<-|[]]]]]]; cbn [fst snd]; lra.
  - assert (LF : In (low_flange B H Y) parts) by (unfold parts, i_parts; apply in_or_app; right; now left).
    assert (HF : In (high_flange B H Y) parts) by (unfold parts, i_parts; apply in_or_app; right; right; now left).
    split; [|split; [|split]].
    + exists (low_flange B H Y), (- B, - H). split; [exact LF|]. split; [now left|reflexivity].
    + exists (low_flange B H Y), (B, - H). split; [exact LF|]. split; [right; now left|reflexivity].
    + exists (low_flange B H Y), (- B, - H). split; [exact LF|]. split; [now left|reflexivity].
    + exists (high_flange B H Y), (B, H). split; [exact HF|]. split; [right; right; now left|reflexivity].
Qed.
Lemma i_united S : exact_union (unary_union S) -> exists p, united S parts = Ok p /\ closed p /\ (forall m n, fan_moment m n p = fan_moment m n tw) /\ boxed [p] (- B) B (- H) H.
Proof.
  intros E. apply (united_ok S parts _ _ _ _ _ _ E (i_tower B H X Y r HX Hr HB HY HH)); [apply parts_tower; assumption|apply i_area_pos|apply i_parts_boxed|apply i_tower_boxed|lra|lra].
Qed.
End I_section.

(** * The call *)
Lemma flip_fillets x y r dy l : 0 < r -> l = [left_fillet x y r; fillet_ring x y r] \/ l = [fillet_ring x y r] -> dy = - 2 * y - r -> flipped_up dy l = map (map fy) l.
Proof.
  intros Hr Hl D.
  assert (FA : In (x, y) (fillet_ring x y r)) by (apply polygon_in, in_or_app; right; now left).
  assert (FB : In (x, y + r) (fillet_ring x y r)) by (apply polygon_in, in_or_app; left; apply (ends_in _ _ _ (arc_r_ends x y r))).
  assert (G : forall v, In v (concat l) -> y <= snd v <= y + r).
  { intros v I. apply in_concat in I. destruct I as (p & Ip & Iv).
    destruct Hl as [-> | ->]; [destruct Ip as [<-|[<-|[]]]|destruct Ip as [<-|[]]]; (apply left_fillet_in in Iv || apply fillet_in in Iv); try exact Hr; lra. }
  assert (K : forall v, In v (fillet_ring x y r) -> In v (concat l)).
  { intros v I. apply in_concat. exists (fillet_ring x y r). split; [|exact I]. destruct Hl as [-> | ->]; [right; now left|now left]. }
  apply (flip_is l y r dy).
  - intros E. specialize (K _ FA). rewrite E in K. destruct K.
  - apply fold_min_is; [intros v I; apply G in I; lra|exists (x, y); split; [now apply K|reflexivity]].
  - apply fold_max_is; [intros v I; apply G in I; lra|exists (x, y + r); split; [now apply K|reflexivity]].
  - exact D.
Qed.
Lemma create_I_parts S h b tw tf r : 0 < r -> create_I S h b tw tf r = united S (i_parts (b / 2) (h / 2) (tw / 2) (h / 2 - tf) r).
Proof.
  intros Hr. unfold create_I. f_equal. unfold i_parts, fillets.
  assert (EY : - h / 2 + tf = - (h / 2 - tf)) by field. rewrite EY. replace (- h / 2) with (- (h / 2)) by field. replace (- b / 2) with (- (b / 2)) by field. replace (- tw / 2) with (- (tw / 2)) by field.
  change [(tw / 2, - (h / 2 - tf)); (tw / 2 + r, - (h / 2 - tf)); (tw / 2 + r, - (h / 2 - tf) + r); (tw / 2, - (h / 2 - tf) + r)] with (square (tw / 2) (- (h / 2 - tf)) r).
  change [(- (tw / 2) - r, - (h / 2 - tf)); (- (tw / 2), - (h / 2 - tf)); (- (tw / 2), - (h / 2 - tf) + r); (- (tw / 2) - r, - (h / 2 - tf) + r)]
    with (square_l (- (tw / 2)) (- (h / 2 - tf)) r).
  rewrite (diff_right _ _ _ Hr), (diff_left _ _ _ Hr).
  change (polygon_of (arc_l (- (tw / 2)) (- (h / 2 - tf)) r ++ [(- (tw / 2), - (h / 2 - tf))])) with (left_fillet (tw / 2) (- (h / 2 - tf)) r).
  change (polygon_of (arc_r (tw / 2) (- (h / 2 - tf)) r ++ [(tw / 2, - (h / 2 - tf))])) with (fillet_ring (tw / 2) (- (h / 2 - tf)) r).
  rewrite (flip_fillets (tw / 2) (- (h / 2 - tf)) r _ _ Hr (or_introl eq_refl)) by field.
  f_equal. f_equal. f_equal. unfold high_flange, translated, polygon_of. cbn [map app fst snd].
  replace (- (b / 2) + 0) with (- (b / 2)) by ring. replace (b / 2 + 0) with (b / 2) by ring. replace (- (h / 2) + (h - tf)) with (h / 2 - tf) by field.
  replace (- (h / 2 - tf) + (h - tf)) with (h / 2) by field. reflexivity.
Qed.
