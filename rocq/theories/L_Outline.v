(** Lemmas on outlines: moments of paths. *)
From Coquelicot Require Import Coquelicot.
From Coq Require Import Lra Lia.
From Verif Require Import Base S_Marin M_Marin L_Marin M_Geo M_Profile S_Profile M_Catalog S_Catalog M_Outline S_Outline.
Open Scope R_scope.
Open Scope list_scope.

(** * Edges *)
Lemma seg_affine_pow m n p q (c : R) :
  forall t, ex_derive (fun t => c * (fst (seg p q t) ^ m * snd (seg p q t) ^ n)) t.
Proof. intros t. unfold seg; cbn [fst snd]. auto_derive. tauto. Qed.
Lemma tm_same m n p : triangle_moment m n p p = 0.
Proof. pose proof (triangle_moment_swap m n p p). lra. Qed.
Lemma tm_split m n p q k : triangle_moment m n p q = triangle_moment m n p (between p q k) + triangle_moment m n (between p q k) q.
Proof.
  set (g := fun t => cross p q / (INR (m + n) + 2) * (fst (seg p q t) ^ m * snd (seg p q t) ^ n)).
  assert (Hex : forall a b, ex_RInt g a b).
  { intros a b. apply (ex_RInt_continuous (V := R_CompleteNormedModule)). intros z _. apply (ex_derive_continuous (V := R_NormedModule)). apply seg_affine_pow. }
  assert (E0 : triangle_moment m n p q = RInt g 0 1) by (symmetry; apply is_RInt_unique, triangle_moment_int).
  assert (E1 : triangle_moment m n p (between p q k) = RInt g 0 k).
  { rewrite <- (is_RInt_unique _ _ _ _ (triangle_moment_int m n p (between p q k))).
    transitivity (RInt (fun t => k * g (k * t + 0)) 0 1).
    - apply RInt_ext. intros t _. unfold g.
      replace (cross p (between p q k)) with (k * cross p q) by (unfold cross, between; cbn [fst snd]; ring).
      replace (seg p (between p q k) t) with (seg p q (k * t + 0)) by (unfold seg, between; cbn [fst snd]; f_equal; ring). unfold Rdiv. match goal with |- ?a = ?b => change (@eq R a b) end. ring.
    - pose proof (RInt_comp_lin g k 0 0 1) as H. rewrite Rmult_0_r, Rplus_0_l, Rmult_1_r, Rplus_0_r in H. rewrite <- H by apply Hex. reflexivity. }
  assert (E2 : triangle_moment m n (between p q k) q = RInt g k 1).
  { rewrite <- (is_RInt_unique _ _ _ _ (triangle_moment_int m n (between p q k) q)).
    transitivity (RInt (fun t => (1 - k) * g ((1 - k) * t + k)) 0 1).
    - apply RInt_ext. intros t _. unfold g.
      replace (cross (between p q k) q) with ((1 - k) * cross p q) by (unfold cross, between; cbn [fst snd]; ring).
      replace (seg (between p q k) q t) with (seg p q ((1 - k) * t + k)) by (unfold seg, between; cbn [fst snd]; f_equal; ring). unfold Rdiv. match goal with |- ?a = ?b => change (@eq R a b) end. ring.
    - pose proof (RInt_comp_lin g (1 - k) k 0 1) as H. rewrite Rmult_0_r, Rplus_0_l, Rmult_1_r in H.
      replace (1 - k + k) with 1 in H by ring. rewrite <- H by apply Hex. reflexivity. }
  rewrite E0, E1, E2. symmetry. apply (RInt_Chasles (V := R_CompleteNormedModule)); apply Hex.
Qed.
(** Points on a horizontal or vertical line. *)
Lemma tm_row m n x1 x2 x3 y : triangle_moment m n (x1, y) (x3, y) = triangle_moment m n (x1, y) (x2, y) + triangle_moment m n (x2, y) (x3, y).
Proof.
  destruct (Req_dec x1 x3) as [<-|N].
  - rewrite tm_same. rewrite (triangle_moment_swap m n (x1, y) (x2, y)). ring.
  - rewrite (tm_split m n (x1, y) (x3, y) ((x2 - x1) / (x3 - x1))).
    replace (between (x1, y) (x3, y) ((x2 - x1) / (x3 - x1))) with (x2, y); [reflexivity|].
    unfold between; cbn [fst snd]. f_equal; field; lra.
Qed.
Lemma tm_col m n y1 y2 y3 x : triangle_moment m n (x, y1) (x, y3) = triangle_moment m n (x, y1) (x, y2) + triangle_moment m n (x, y2) (x, y3).
Proof.
  destruct (Req_dec y1 y3) as [<-|N].
  - rewrite tm_same. rewrite (triangle_moment_swap m n (x, y1) (x, y2)). ring.
  - rewrite (tm_split m n (x, y1) (x, y3) ((y2 - y1) / (y3 - y1))).
    replace (between (x, y1) (x, y3) ((y2 - y1) / (y3 - y1))) with (x, y2); [reflexivity|].
    unfold between; cbn [fst snd]. f_equal; field; lra.
Qed.

(** * Paths *)
Lemma fan_single m n p : fan_moment m n [p] = 0.
Proof. reflexivity. Qed.
Lemma fan_join m n l1 p q l2 : fan_moment m n ((l1 ++ [p]) ++ q :: l2) = fan_moment m n (l1 ++ [p]) + triangle_moment m n p q + fan_moment m n (q :: l2).
Proof. rewrite <- app_assoc. cbn [app]. rewrite (fan_app_mid m n l1 p (q :: l2)), fan_cons2. ring. Qed.
Definition ends (l : list (R * R)) (a b : R * R) : Prop := hd_error l = Some a /\ hd_error (rev l) = Some b.
Lemma ends_cons l a b : ends l a b -> exists l', l = a :: l'.
Proof. intros [H _]. destruct l; cbn in H; [discriminate|]. injection H as <-. eauto. Qed.
Lemma ends_snoc l a b : ends l a b -> exists l', l = l' ++ [b].
Proof.
  intros [_ H]. destruct (rev l) as [|x k] eqn:E; cbn in H; [discriminate|]. injection H as <-.
  exists (rev k). rewrite <- (rev_involutive l), E. reflexivity.
Qed.
Lemma ends_rev l a b : ends l a b -> ends (rev l) b a.
Proof. intros [H1 H2]. split; [exact H2|]. now rewrite rev_involutive. Qed.
Lemma ends_map f l a b : ends l a b -> ends (map f l) (f a) (f b).
Proof. intros [H1 H2]. split; [|rewrite <- map_rev]; [destruct l|destruct (rev l)]; cbn in *; congruence. Qed.
Lemma ends_app l1 l2 a b c d : ends l1 a b -> ends l2 c d -> ends (l1 ++ l2) a d.
Proof.
  intros H1 H2. destruct (ends_cons _ _ _ H1) as [k ->]. destruct (ends_snoc _ _ _ H2) as [j ->]. split; [reflexivity|].
  rewrite app_assoc, rev_app_distr. reflexivity.
Qed.
Lemma ends_single a : ends [a] a a.
Proof. now split. Qed.
Lemma ends_pair a b : ends [a; b] a b.
Proof. now split. Qed.
Lemma fan_ends m n l1 l2 a b c d : ends l1 a b -> ends l2 c d -> fan_moment m n (l1 ++ l2) = fan_moment m n l1 + triangle_moment m n b c + fan_moment m n l2.
Proof. intros H1 H2. destruct (ends_snoc _ _ _ H1) as [k ->]. destruct (ends_cons _ _ _ H2) as [j ->]. apply fan_join. Qed.
Lemma ends_in l a b : ends l a b -> In a l /\ In b l.
Proof. intros H. split; [destruct (ends_cons _ _ _ H) as [k ->]; now left|destruct (ends_snoc _ _ _ H) as [j ->]; apply in_or_app; right; now left]. Qed.
Lemma edges_ends l1 l2 a b c d : ends l1 a b -> ends l2 c d -> edges (l1 ++ l2) = edges l1 ++ (b, c) :: edges l2.
Proof.
  intros H1 H2. destruct (ends_snoc _ _ _ H1) as [k ->]. destruct (ends_cons _ _ _ H2) as [j ->]. rewrite <- app_assoc. cbn [app].
  rewrite (edges_app_mid k b (c :: j)). reflexivity.
Qed.
Lemma fan_polygon m n l a b : ends l a b -> fan_moment m n (polygon_of l) = fan_moment m n l + triangle_moment m n b a.
Proof.
  intros H. destruct (ends_cons _ _ _ H) as [k E]. rewrite E at 1. cbn [polygon_of]. rewrite <- E.
  rewrite (fan_ends m n l [a] a b a a H (ends_single a)). rewrite fan_single. ring.
Qed.

(** * Mirrors *)
Definition fx (v : R * R) : R * R := (- fst v, snd v).
Definition fy (v : R * R) : R * R := (fst v, - snd v).
Lemma tm_fx m n p q : triangle_moment m n (fx p) (fx q) = - (-1) ^ m * triangle_moment m n p q.
Proof.
  rewrite <- (is_RInt_unique _ _ _ _ (triangle_moment_int m n (fx p) (fx q))).
  transitivity (RInt (fun t => scal (- (-1) ^ m) (cross p q / (INR (m + n) + 2) * (fst (seg p q t) ^ m * snd (seg p q t) ^ n))) 0 1).
  - apply RInt_ext. intros t _. change (scal (- (-1) ^ m) (cross p q / (INR (m + n) + 2) * (fst (seg p q t) ^ m * snd (seg p q t) ^ n)))
      with (- (-1) ^ m * (cross p q / (INR (m + n) + 2) * (fst (seg p q t) ^ m * snd (seg p q t) ^ n))).
    replace (cross (fx p) (fx q)) with (- cross p q) by (unfold cross, fx; cbn [fst snd]; ring).
    replace (fst (seg (fx p) (fx q) t)) with (-1 * fst (seg p q t)) by (unfold seg, fx; cbn [fst snd]; ring).
    replace (snd (seg (fx p) (fx q) t)) with (snd (seg p q t)) by (unfold seg, fx; cbn [fst snd]; ring).
    rewrite Rpow_mult_distr. unfold Rdiv. match goal with |- ?a = ?b => change (@eq R a b) end. ring.
  - rewrite (RInt_scal (V := R_CompleteNormedModule)); [|eexists; apply triangle_moment_int].
    rewrite (is_RInt_unique _ _ _ _ (triangle_moment_int m n p q)). reflexivity.
Qed.
Lemma tm_fy m n p q : triangle_moment m n (fy p) (fy q) = - (-1) ^ n * triangle_moment m n p q.
Proof.
  rewrite <- (is_RInt_unique _ _ _ _ (triangle_moment_int m n (fy p) (fy q))).
  transitivity (RInt (fun t => scal (- (-1) ^ n) (cross p q / (INR (m + n) + 2) * (fst (seg p q t) ^ m * snd (seg p q t) ^ n))) 0 1).
  - apply RInt_ext. intros t _. change (scal (- (-1) ^ n) (cross p q / (INR (m + n) + 2) * (fst (seg p q t) ^ m * snd (seg p q t) ^ n)))
      with (- (-1) ^ n * (cross p q / (INR (m + n) + 2) * (fst (seg p q t) ^ m * snd (seg p q t) ^ n))).
    replace (cross (fy p) (fy q)) with (- cross p q) by (unfold cross, fy; cbn [fst snd]; ring).
    replace (snd (seg (fy p) (fy q) t)) with (-1 * snd (seg p q t)) by (unfold seg, fy; cbn [fst snd]; ring).
    replace (fst (seg (fy p) (fy q) t)) with (fst (seg p q t)) by (unfold seg, fy; cbn [fst snd]; ring).
    rewrite Rpow_mult_distr. unfold Rdiv. match goal with |- ?a = ?b => change (@eq R a b) end. ring.
  - rewrite (RInt_scal (V := R_CompleteNormedModule)); [|eexists; apply triangle_moment_int].
    rewrite (is_RInt_unique _ _ _ _ (triangle_moment_int m n p q)). reflexivity.
Qed.
Lemma fan_scaled m n f c l : (forall p q, triangle_moment m n (f p) (f q) = c * triangle_moment m n p q) -> fan_moment m n (map f l) = c * fan_moment m n l.
Proof.
  intros H. unfold fan_moment. rewrite edges_map, map_map, <- lsum_map_scal. apply lsum_map_ext. intros e _. apply H.
Qed.
Lemma fan_fx m n l : fan_moment m n (map fx l) = - (-1) ^ m * fan_moment m n l.
Proof. apply fan_scaled. intros. apply tm_fx. Qed.
Lemma fan_fy m n l : fan_moment m n (map fy l) = - (-1) ^ n * fan_moment m n l.
Proof. apply fan_scaled. intros. apply tm_fy. Qed.

(** * Values up to the second order *)
Lemma tm_00 p q : triangle_moment 0 0 p q = cross p q / 2.
Proof. rewrite triangle_moment_edge. unfold marin_edge, coeff. cbn. unfold cross. field. Qed.
Lemma tm_10 p q : triangle_moment 1 0 p q = cross p q / 6 * (fst p + fst q).
Proof. rewrite triangle_moment_edge. unfold marin_edge, coeff. cbn. unfold cross. field. Qed.
Lemma tm_01 p q : triangle_moment 0 1 p q = cross p q / 6 * (snd p + snd q).
Proof. rewrite triangle_moment_edge. unfold marin_edge, coeff. cbn. unfold cross. field. Qed.
Lemma tm_20 p q : triangle_moment 2 0 p q = cross p q / 12 * (fst p ^ 2 + fst p * fst q + fst q ^ 2).
Proof. rewrite triangle_moment_edge. unfold marin_edge, coeff. cbn. unfold cross. field. Qed.
Lemma tm_02 p q : triangle_moment 0 2 p q = cross p q / 12 * (snd p ^ 2 + snd p * snd q + snd q ^ 2).
Proof. rewrite triangle_moment_edge. unfold marin_edge, coeff. cbn. unfold cross. field. Qed.
Lemma tm_11 p q : triangle_moment 1 1 p q = cross p q / 24 * (2 * fst p * snd p + fst p * snd q + fst q * snd p + 2 * fst q * snd q).
Proof. rewrite triangle_moment_edge. unfold marin_edge, coeff. cbn. unfold cross. field. Qed.
