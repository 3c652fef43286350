(** The outline of an I section. *)
From Coq Require Import Lra Lia.
From Verif Require Import Base L_Catalog2 S_Marin M_Marin L_Marin M_MarinInt L_MarinInt2 M_Geo L_Geo M_Profile S_Profile M_Catalog S_Catalog M_Outline S_Outline L_Outline L_Outline2 L_Outline3.
Open Scope R_scope.
Open Scope list_scope.

Lemma flip_is l y0 r dy : concat l <> [] -> fold_min snd (concat l) = y0 -> fold_max snd (concat l) = y0 + r -> dy = - 2 * y0 - r -> flipped_up dy l = map (map fy) l.
Proof.
  intros _ E1 E2 ->. unfold flipped_up. apply map_ext. intros p. apply map_ext. intros v. unfold translated, scaled, fy; cbn [fst snd]. rewrite E1, E2. f_equal; field.
Qed.
Definition left_fillet (x y r : R) : ring := polygon_of (arc_l (- x) y r ++ [(- x, y)]).
Lemma in_polygon l v : In v (polygon_of l) -> In v l.
Proof. destruct l as [|a l]; [intros []|]. cbn [polygon_of]. intros I. apply in_app_or in I. destruct I as [I|[<-|[]]]; [exact I|now left]. Qed.
Lemma polygon_in l v : In v l -> In v (polygon_of l).
Proof. destruct l as [|a l]; [intros []|]. cbn [polygon_of]. intros I. apply in_or_app. now left. Qed.
Lemma fillet_in x y r v : 0 < r -> In v (fillet_ring x y r) -> x <= fst v <= x + r /\ y <= snd v <= y + r.
Proof.
  intros Hr I. apply in_polygon in I. apply in_app_or in I. destruct I as [I|[<-|[]]]; [now apply arc_in|]. cbn [fst snd]. lra.
Qed.
Lemma left_fillet_in x y r v : 0 < r -> In v (left_fillet x y r) -> - x - r <= fst v <= - x /\ y <= snd v <= y + r.
Proof.
  intros Hr I. apply in_polygon in I. apply in_app_or in I. destruct I as [I|[<-|[]]]; [|cbn [fst snd]; lra].
  rewrite arc_mirror in I. apply in_map_iff in I. destruct I as (w & <- & I). apply in_rev in I. apply arc_in in I; [|exact Hr]. unfold fx; cbn [fst snd]. lra.
Qed.
Lemma left_fillet_fan m n x y r : fan_moment m n (left_fillet x y r) = (-1) ^ m * fan_moment m n (fillet_ring x y r).
Proof.
  unfold left_fillet. rewrite arc_mirror.
  assert (E : ends (map fx (rev (arc_r x y r))) (fx (x, y + r)) (fx (x + r, y))) by (apply ends_map, ends_rev, arc_r_ends).
  change (- x, y) with (fx (x, y)).
  rewrite (fan_polygon m n _ (fx (x, y + r)) (fx (x, y))) by (apply (ends_app _ _ _ (fx (x + r, y)) (fx (x, y))); [exact E|apply ends_single]).
  rewrite (fan_ends m n _ _ _ _ _ _ E (ends_single _)), fan_single, fan_fx, fan_rev, !tm_fx, fillet_path.
  rewrite (triangle_moment_swap m n (x, y) (x + r, y)), (triangle_moment_swap m n (x, y) (x, y + r)). ring.
Qed.
Lemma k0_bounds : 78 / 100 <= k0 <= PI / 4.
Proof.
  unfold k0, dlt. pose proof pi_bounds as [P1 P2]. assert (0 < PI / 32) by lra. split.
  - destruct (sin_bound (PI / 32) 0 ltac:(lra) ltac:(lra)) as [S1 _]. unfold sin_approx, sin_term in S1. cbn in S1. field_simplify in S1.
    assert (PI ^ 3 <= 3143 / 1000 * (3143 / 1000) ^ 2).
    { replace (PI ^ 3) with (PI * PI ^ 2) by ring. apply Rmult_le_compat; [lra|apply pow2_ge_0|lra|]. apply pow_incr. lra. }
    lra.
  - pose proof (sin_lt_x (PI / 32) ltac:(lra)). lra.
Qed.

Section I_section.
Variables B H X Y r : R.
Hypothesis (HX : 0 < X) (Hr : 0 < r) (HB : X + r <= B) (HY : r <= Y) (HH : Y < H).

Definition low_flange : ring := [(- B, - H); (B, - H); (B, - Y); (- B, - Y); (- B, - H)].
Definition high_flange : ring := [(- B, Y); (B, Y); (B, H); (- B, H); (- B, Y)].
Definition web_ring : ring := [(- X, - Y); (X, - Y); (X, Y); (- X, Y); (- X, - Y)].
Definition fillets : list ring := [left_fillet X (- Y) r; fillet_ring X (- Y) r].
Definition i_parts : list ring := (map (map fy) fillets ++ fillets) ++ [low_flange; high_flange; web_ring].
Definition i_half : list (R * R) := [(B, - H); (B, - Y)] ++ arc_r X (- Y) r.
Definition i_right : list (R * R) := i_half ++ map fy (rev i_half).
Definition i_left : list (R * R) := map fx i_right.

Lemma half_ends : ends i_half (B, - H) (X, - Y + r).
Proof. apply (ends_app _ _ _ (B, - Y) (X + r, - Y)); [apply ends_pair|apply arc_r_ends]. Qed.
Lemma right_ends : ends i_right (B, - H) (fy (B, - H)).
Proof. eapply ends_app; [exact half_ends|apply ends_map, ends_rev, half_ends]. Qed.
Lemma half_in v : In v i_half -> X <= fst v <= B /\ - H <= snd v <= 0.
Proof.
  intros I. apply in_app_or in I. destruct I as [[<-|[<-|[]]]|I]; cbn [fst snd]; [lra|lra|]. apply arc_in in I; [|exact Hr]. lra.
Qed.
Lemma right_in v : In v i_right -> X <= fst v <= B /\ - H <= snd v <= H.
Proof.
  intros I. apply in_app_or in I. destruct I as [I|I]; [apply half_in in I; lra|].
  apply in_map_iff in I. destruct I as (w & <- & I). apply in_rev in I. apply half_in in I. unfold fy; cbn [fst snd]. lra.
Qed.
Lemma right_climbs : climbs i_right.
Proof.
  assert (C : climbs i_half).
  { apply (climbs_app _ _ _ _ _ _ (ends_pair _ _) (arc_r_ends X (- Y) r)); [apply climbs_pair; cbn [snd]; lra|now apply arc_climbs|cbn [snd]; lra]. }
  apply (climbs_app _ _ _ _ _ _ half_ends (ends_map fy _ _ _ (ends_rev _ _ _ half_ends)) C (climbs_fy _ C)). unfold fy; cbn [snd]. lra.
Qed.
Lemma i_tower : tower i_left i_right.
Proof.
  split; [apply climbs_fx, right_climbs|]. split; [apply right_climbs|]. split.
  - pose proof right_ends as [E1 E2]. pose proof (ends_map fx _ _ _ right_ends) as [E3 E4]. do 4 eexists.
    split; [exact E3|]. split; [exact E4|]. split; [exact E1|]. split; [exact E2|]. unfold fx, fy; cbn [fst snd]. lra.
  - exists 0. split; intros v I; [apply in_map_iff in I; destruct I as (w & <- & I)|]; apply right_in in I; unfold fx; cbn [fst]; lra.
Qed.
Lemma i_tower_ring : tower_ring i_left i_right = fx (B, - H) :: i_right ++ rev i_left.
Proof. pose proof (ends_cons _ _ _ (ends_map fx _ _ _ right_ends)) as [k E]. unfold tower_ring. fold i_left in E. rewrite E. reflexivity. Qed.
Lemma half_fan m n : fan_moment m n i_half = triangle_moment m n (B, - H) (B, - Y) + triangle_moment m n (B, - Y) (X + r, - Y) + fan_moment m n (arc_r X (- Y) r).
Proof. unfold i_half. rewrite (fan_ends m n _ _ _ _ _ _ (ends_pair _ _) (arc_r_ends X (- Y) r)), fan_pair. ring. Qed.
Lemma right_fan m n : fan_moment m n i_right = (1 + (-1) ^ n) * fan_moment m n i_half + triangle_moment m n (X, - Y + r) (fy (X, - Y + r)).
Proof.
  unfold i_right. rewrite (fan_ends m n _ _ _ _ _ _ half_ends (ends_map fy _ _ _ (ends_rev _ _ _ half_ends))), fan_fy, fan_rev. ring.
Qed.
Lemma tower_fan m n : fan_moment m n (tower_ring i_left i_right) =
  (1 + (-1) ^ n) * triangle_moment m n (fx (B, - H)) (B, - H) + (1 + (-1) ^ m) * (1 + (-1) ^ n) * fan_moment m n i_half
  + (1 + (-1) ^ m) * triangle_moment m n (X, - Y + r) (fy (X, - Y + r)).
Proof.
  rewrite i_tower_ring. assert (EL : ends (rev i_left) (fx (fy (B, - H))) (fx (B, - H))) by (apply ends_rev, ends_map, right_ends).
  change (fx (B, - H) :: i_right ++ rev i_left) with ([fx (B, - H)] ++ (i_right ++ rev i_left)).
  rewrite (fan_ends m n _ _ _ _ _ _ (ends_single _) (ends_app _ _ _ _ _ _ right_ends EL)), fan_single.
  rewrite (fan_ends m n _ _ _ _ _ _ right_ends EL), fan_rev. unfold i_left. rewrite fan_fx, right_fan.
  change (fx (fy (B, - H))) with (fy (fx (B, - H))). rewrite (tm_fy m n (B, - H) (fx (B, - H))), (triangle_moment_swap m n (fx (B, - H)) (B, - H)). ring.
Qed.
Lemma minus_one_2 m : (-1) ^ m * (-1) ^ m = 1.
Proof. rewrite <- Rpow_mult_distr. replace (-1 * -1) with 1 by ring. apply pow1. Qed.
Lemma low_fan m n : fan_moment m n low_flange = triangle_moment m n (fx (B, - H)) (B, - H)
  + (1 + (-1) ^ m) * (triangle_moment m n (B, - H) (B, - Y) + triangle_moment m n (B, - Y) (X + r, - Y) + triangle_moment m n (X + r, - Y) (X, - Y))
  + triangle_moment m n (X, - Y) (fx (X, - Y)).
Proof.
  unfold low_flange. rewrite !fan_cons2, !fan_single. change (- B, - H) with (fx (B, - H)). change (- B, - Y) with (fx (B, - Y)).
  rewrite (tm_fx m n (B, - Y) (B, - H)), (triangle_moment_swap m n (B, - H) (B, - Y)).
  unfold fx; cbn [fst snd].
  rewrite (tm_row m n B (X + r) (- B) (- Y)), (tm_row m n (X + r) X (- B) (- Y)), (tm_row m n X (- X) (- B) (- Y)), (tm_row m n (- X) (- (X + r)) (- B) (- Y)).
  change (- X, - Y) with (fx (X, - Y)). change (- (X + r), - Y) with (fx (X + r, - Y)). change (- B, - Y) with (fx (B, - Y)).
  rewrite (tm_fx m n (X, - Y) (X + r, - Y)), (tm_fx m n (X + r, - Y) (B, - Y)).
  rewrite (triangle_moment_swap m n (X + r, - Y) (X, - Y)), (triangle_moment_swap m n (B, - Y) (X + r, - Y)). ring.
Qed.
Lemma high_fan m n : fan_moment m n high_flange = (-1) ^ n * fan_moment m n low_flange.
Proof.
  unfold high_flange, low_flange. rewrite !fan_cons2, !fan_single.
  replace (- B, Y) with (fy (- B, - Y)) by (unfold fy; cbn [fst snd]; f_equal; ring). replace (B, Y) with (fy (B, - Y)) by (unfold fy; cbn [fst snd]; f_equal; ring).
  replace (B, H) with (fy (B, - H)) by (unfold fy; cbn [fst snd]; f_equal; ring). replace (- B, H) with (fy (- B, - H)) by (unfold fy; cbn [fst snd]; f_equal; ring).
  rewrite !tm_fy, (triangle_moment_swap m n (B, - Y) (- B, - Y)), (triangle_moment_swap m n (B, - H) (B, - Y)), (triangle_moment_swap m n (- B, - H) (B, - H)), (triangle_moment_swap m n (- B, - Y) (- B, - H)). ring.
Qed.
Lemma web_fan m n : fan_moment m n web_ring = (1 + (-1) ^ m) * ((1 + (-1) ^ n) * triangle_moment m n (X, - Y) (X, - Y + r) + triangle_moment m n (X, - Y + r) (fy (X, - Y + r)))
  - (1 + (-1) ^ n) * triangle_moment m n (X, - Y) (fx (X, - Y)).
Proof.
  unfold web_ring. rewrite !fan_cons2, !fan_single.
  replace (X, Y) with (fy (X, - Y)) by (unfold fy; cbn [fst snd]; f_equal; ring). replace (- X, Y) with (fy (fx (X, - Y))) by (unfold fx, fy; cbn [fst snd]; f_equal; ring).
  change (- X, - Y) with (fx (X, - Y)). rewrite (tm_fy m n (X, - Y)). change (fy (fx (X, - Y))) with (fx (fy (X, - Y))). rewrite (tm_fx m n (fy (X, - Y)) (X, - Y)).
  rewrite (triangle_moment_swap m n (X, - Y) (fx (X, - Y))), (triangle_moment_swap m n (X, - Y) (fy (X, - Y))).
  assert (E : triangle_moment m n (X, - Y) (fy (X, - Y)) = (1 + (-1) ^ n) * triangle_moment m n (X, - Y) (X, - Y + r) + triangle_moment m n (X, - Y + r) (fy (X, - Y + r))).
  { unfold fy; cbn [fst snd]. rewrite (tm_col m n (- Y) (- Y + r) (- - Y) X), (tm_col m n (- Y + r) (- (- Y + r)) (- - Y) X).
    change (X, - (- Y + r)) with (fy (X, - Y + r)). change (X, - - Y) with (fy (X, - Y)). rewrite (tm_fy m n (X, - Y + r) (X, - Y)), (triangle_moment_swap m n (X, - Y) (X, - Y + r)). ring. }
  rewrite E. ring.
Qed.
Lemma region_pos m n p : 0 < fan_moment 0 0 p -> region_moment m n p = fan_moment m n p.
Proof. intros P. unfold region_moment. rewrite <- fan_area. destruct (Rlt_dec _ _); [lra|reflexivity]. Qed.
Lemma region_neg m n p : fan_moment 0 0 p < 0 -> region_moment m n p = - fan_moment m n p.
Proof. intros P. unfold region_moment. rewrite <- fan_area. destruct (Rlt_dec _ _); [reflexivity|lra]. Qed.
Lemma fillet_area_pos : 0 < fan_moment 0 0 (fillet_ring X (- Y) r).
Proof. rewrite fillet_00. pose proof k0_bounds. pose proof pi_bounds. apply Rmult_lt_0_compat; [apply pow_lt; lra|lra]. Qed.
Lemma rect_area x0 x1 y0 y1 : fan_moment 0 0 [(x0, y0); (x1, y0); (x1, y1); (x0, y1); (x0, y0)] = (x1 - x0) * (y1 - y0).
Proof. rewrite !fan_cons2, !fan_single, !tm_00. unfold cross; cbn [fst snd]. field. Qed.
Lemma parts_fan m n : lsum (map (region_moment m n) i_parts) =
  (1 + (-1) ^ m) * (1 + (-1) ^ n) * fan_moment m n (fillet_ring X (- Y) r) + (1 + (-1) ^ n) * fan_moment m n low_flange + fan_moment m n web_ring.
Proof.
  unfold i_parts, fillets. cbn [map app]. rewrite !lsum_cons, lsum_nil. pose proof fillet_area_pos as FA.
  assert (LF : fan_moment 0 0 (left_fillet X (- Y) r) = fan_moment 0 0 (fillet_ring X (- Y) r)) by (rewrite left_fillet_fan; ring).
  rewrite (region_neg m n (map fy (left_fillet X (- Y) r))) by (rewrite fan_fy, LF; cbn [pow]; lra).
  rewrite (region_neg m n (map fy (fillet_ring X (- Y) r))) by (rewrite fan_fy; cbn [pow]; lra).
  rewrite (region_pos m n (left_fillet X (- Y) r)) by (rewrite LF; exact FA). rewrite (region_pos m n (fillet_ring X (- Y) r)) by exact FA.
  rewrite (region_pos m n low_flange) by (unfold low_flange; rewrite rect_area; apply Rmult_lt_0_compat; lra).
  rewrite (region_pos m n high_flange) by (unfold high_flange; rewrite rect_area; apply Rmult_lt_0_compat; lra).
  rewrite (region_pos m n web_ring) by (unfold web_ring; rewrite rect_area; apply Rmult_lt_0_compat; lra).
  rewrite !fan_fy, left_fillet_fan, high_fan. ring.
Qed.
Lemma parts_tower m n : lsum (map (region_moment m n) i_parts) = fan_moment m n (tower_ring i_left i_right).
Proof.
  rewrite parts_fan, tower_fan, half_fan, low_fan, web_fan, fillet_path. rewrite (triangle_moment_swap m n (X, - Y) (X, - Y + r)), (triangle_moment_swap m n (X + r, - Y) (X, - Y)). ring.
Qed.
End I_section.
