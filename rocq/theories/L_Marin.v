From Coquelicot Require Import Coquelicot.
From Verif Require Import Base M_Marin S_Marin.

Lemma RIntU (f : R -> R) (a b l : R) : is_RInt f a b l -> RInt f a b = l.
Proof. exact (is_RInt_unique (V:=R_CompleteNormedModule) f a b l). Qed.

(** ** Beta integral *)
Lemma beta_int p q :
  is_RInt (fun t => t ^ p * (1 - t) ^ q) 0 1
    (INR (fact p) * INR (fact q) / INR (fact (p + q + 1))).
Proof.
  revert p; induction q as [|q IH]; intros p.
  - apply (is_RInt_ext (fun t => t ^ p)); [intros; cbn; lra|].
    replace (INR (fact p) * INR (fact 0) / INR (fact (p + 0 + 1)))
      with (1 ^ (S p) / INR (S p) - 0 ^ (S p) / INR (S p)).
    2:{ rewrite pow1, pow_i by lia.
        replace (p + 0 + 1)%nat with (S p) by lia.
        change (fact (S p)) with (S p * fact p)%nat. rewrite mult_INR.
        change (INR (fact 0)) with 1. field.
        split; [apply INR_fact_neq_0 | apply not_0_INR; lia]. }
    apply (is_RInt_derive (fun t => t ^ (S p) / INR (S p)) (fun t => t ^ p)).
    + intros x _. auto_derive; [exact I|].
      replace (Init.Nat.pred (S p)) with p by reflexivity.
      change (match p with O => 1 | S _ => INR p + 1 end) with (INR (S p)). field. apply not_0_INR; lia.
    + intros x _. apply (ex_derive_continuous (V:=R_NormedModule)). auto_derive; exact I.
  - assert (H := is_RInt_derive (fun t => t ^ (S p) * (1 - t) ^ (S q) / INR (S p))
      (fun t => t ^ p * (1 - t) ^ (S q) - INR (S q) / INR (S p) * (t ^ (S p) * (1 - t) ^ q)) 0 1).
    cbv beta in H.
    assert (Hp : INR (S p) <> 0) by (apply not_0_INR; lia).
    assert (H' := H (fun x _ => ltac:(
        auto_derive; [exact I|];
        change (Init.Nat.pred (S p)) with p; change (Init.Nat.pred (S q)) with q;
        change (match p with O => 1 | S _ => INR p + 1 end) with (INR (S p));
        change (match q with O => 1 | S _ => INR q + 1 end) with (INR (S q));
        cbn [pow]; unfold Rminus in *; field; exact Hp))).
    clear H. specialize (H' (fun x _ => ltac:(apply (ex_derive_continuous (V:=R_NormedModule)); auto_derive; exact I))).
    specialize (IH (S p)).
    apply (is_RInt_scal _ _ _ (INR (S q) / INR (S p))) in IH.
    assert (HH := is_RInt_plus _ _ _ _ _ _ H' IH).
    eapply is_RInt_ext in HH.
    2:{ intros x _. cbv [plus scal mult]; cbn. instantiate (1 := fun t => t ^ p * (1 - t) ^ (S q)). cbn. 
        unfold mult; cbn. ring. }
    replace (INR (fact p) * INR (fact (S q)) / INR (fact (p + S q + 1))) with
     (plus (minus (1 ^ S p * (1 - 1) ^ S q / INR (S p)) (0 ^ S p * (1 - 0) ^ S q / INR (S p)))
        (scal (INR (S q) / INR (S p)) (INR (fact (S p)) * INR (fact q) / INR (fact (S p + q + 1))))); [exact HH|].
    unfold plus, minus, scal, opp, plus; cbn -[INR fact]. unfold mult; cbn -[INR fact].
    replace (p + S q + 1)%nat with (S p + q + 1)%nat by lia.
    change (fact (S p)) with (S p * fact p)%nat. change (fact (S q)) with (S q * fact q)%nat.
    rewrite !mult_INR. change (S (p + q + 1)) with (S p + q + 1)%nat. field. 
    split; [apply INR_fact_neq_0|exact Hp].
Qed.

Lemma is_RInt_rsum (f : nat -> R -> R) (v : nat -> R) a b n :
  (forall i, (i < n)%nat -> is_RInt (f i) a b (v i)) ->
  is_RInt (fun t => rsum (fun i => f i t) n) a b (rsum v n).
Proof.
  induction n as [|n IH]; intros H; cbn [rsum].
  - apply (is_RInt_ext (fun _ => 0)); [reflexivity|].
    replace 0 with (scal (b - a) 0) at 1; [apply (@is_RInt_const R_NormedModule)|].
    unfold scal; cbn; unfold mult; cbn; lra.
  - apply (is_RInt_plus (V:=R_NormedModule)); [apply IH; auto | apply H; lia].
Qed.

Lemma binomial_rsum x y n :
  (x + y) ^ n = rsum (fun i => C n i * x ^ i * y ^ (n - i)) (n + 1).
Proof. rewrite binomial. replace (n + 1)%nat with (S n) by lia. rewrite rsum_f_R0. reflexivity. Qed.

Lemma coeff_identity m n j k :
  (j <= m)%nat -> (k <= n)%nat ->
  C m j * C n k * (INR (fact (j + k)) * INR (fact (m - j + (n - k))) / INR (fact (j + k + (m - j + (n - k)) + 1)))
  = coeff m n j k / (INR (comb (m + n) n) * (INR (m + n) + 1)).
Proof.
  intros Hj Hk. unfold coeff.
  rewrite !comb_C by lia. unfold C.
  replace (m + n - j - k)%nat with (m - j + (n - k))%nat by lia.
  replace (m - j + (n - k) - (n - k))%nat with (m - j)%nat by lia.
  replace (m + n - n)%nat with m by lia.
  replace (j + k - j)%nat with k by lia.
  replace (j + k + (m - j + (n - k)) + 1)%nat with (S (m + n)) by lia.
  change (fact (S (m + n))) with (S (m + n) * fact (m + n))%nat.
  rewrite mult_INR, S_INR.
  assert (INR (m + n) + 1 <> 0) by (rewrite <- S_INR; apply not_0_INR; lia).
  field. repeat split; try apply INR_fact_neq_0; assumption.
Qed.

(** The line integral of Y^m Z^n along a segment. *)
Lemma seg_int m n yi zi yj zj :
  is_RInt (fun t => ((1 - t) * yi + t * yj) ^ m * ((1 - t) * zi + t * zj) ^ n) 0 1
    (rsum (fun j => rsum (fun k => coeff m n j k * zi ^ (n - k) * zj ^ k) (n + 1)
       * yi ^ (m - j) * yj ^ j) (m + 1)
     / (INR (comb (m + n) n) * (INR (m + n) + 1))).
Proof.
  set (den := INR (comb (m + n) n) * (INR (m + n) + 1)).
  apply (is_RInt_ext (fun t =>
    rsum (fun j => rsum (fun k =>
      (C m j * C n k * yi ^ (m - j) * yj ^ j * zi ^ (n - k) * zj ^ k)
       * (t ^ (j + k) * (1 - t) ^ (m - j + (n - k)))) (n + 1)) (m + 1))).
  { intros t _.
    replace ((1 - t) * yi + t * yj) with (t * yj + (1 - t) * yi) by lra.
    replace ((1 - t) * zi + t * zj) with (t * zj + (1 - t) * zi) by lra.
    rewrite !binomial_rsum. rewrite <- rsum_scal_r. apply rsum_ext. intros j Hj.
    rewrite <- rsum_scal. apply rsum_ext. intros k Hk.
    rewrite !Rpow_mult_distr, !pow_add. ring. }
  unfold Rdiv. rewrite <- rsum_scal_r. apply is_RInt_rsum. intros j Hj.
  rewrite <- !rsum_scal_r. apply is_RInt_rsum. intros k Hk.
  replace (coeff m n j k * zi ^ (n - k) * zj ^ k * yi ^ (m - j) * yj ^ j * / den)
    with (scal (C m j * C n k * yi ^ (m - j) * yj ^ j * zi ^ (n - k) * zj ^ k)
      (INR (fact (j + k)) * INR (fact (m - j + (n - k))) / INR (fact (j + k + (m - j + (n - k)) + 1)))).
  2:{ unfold scal; cbn -[fact INR]; unfold mult; cbn -[fact INR].
      transitivity ((C m j * C n k * (INR (fact (j + k)) * INR (fact (m - j + (n - k))) / INR (fact (j + k + (m - j + (n - k)) + 1)))) * (yi ^ (m - j) * yj ^ j * zi ^ (n - k) * zj ^ k)); [ring|].
      rewrite coeff_identity by lia. fold den. unfold Rdiv. ring. }
  apply (is_RInt_scal (V:=R_NormedModule)). apply beta_int.
Qed.

Lemma den_pos m n : 0 < INR (comb (m + n) n) * (INR (m + n) + 1).
Proof.
  apply Rmult_lt_0_compat.
  - rewrite comb_C by lia. unfold C. apply Rdiv_lt_0_compat; [apply INR_fact_lt_0|].
    apply Rmult_lt_0_compat; apply INR_fact_lt_0.
  - assert (0 <= INR (m + n)) by apply pos_INR. lra.
Qed.

Lemma triangle_moment_edge m n p q :
  triangle_moment m n p q =
  marin_edge m n (fst p) (snd p) (fst q) (snd q)
    / (INR (comb (m + n) n) * (INR (m + n) + 1) * (INR (m + n) + 2)).
Proof.
  unfold triangle_moment.
  assert (Hd := den_pos m n). assert (Hp := pos_INR (m + n)).
  transitivity (RInt (fun t => (cross p q / (INR (m + n) + 2)) *
     (((1 - t) * fst p + t * fst q) ^ m * ((1 - t) * snd p + t * snd q) ^ n)) 0 1).
  { apply RInt_ext. intros t _.
    apply is_RInt_unique.
    apply (is_RInt_ext (fun r => (cross p q * (fst (seg p q t) ^ m * snd (seg p q t) ^ n)) * r ^ (m + n + 1))).
    { intros r _. rewrite !Rpow_mult_distr, !pow_add. cbn. ring. }
    replace (cross p q / (INR (m + n) + 2) * (((1 - t) * fst p + t * fst q) ^ m * ((1 - t) * snd p + t * snd q) ^ n))
      with (scal (cross p q * (fst (seg p q t) ^ m * snd (seg p q t) ^ n)) (/ (INR (m + n) + 2))).
    2:{ unfold scal; cbn; unfold mult; cbn. unfold Rdiv. ring. }
    apply (is_RInt_scal (V:=R_NormedModule)).
    assert (B := beta_int (m + n + 1) 0).
    replace (/ (INR (m + n) + 2)) with (INR (fact (m + n + 1)) * INR (fact 0) / INR (fact (m + n + 1 + 0 + 1))).
    - eapply is_RInt_ext; [|exact B]. intros x _; cbn; lra.
    - replace (m + n + 1 + 0 + 1)%nat with (S (m + n + 1)) by lia.
      change (fact (S (m + n + 1))) with (S (m + n + 1) * fact (m + n + 1))%nat.
      rewrite mult_INR, S_INR, (plus_INR (m + n) 1). change (INR 1) with 1. change (INR (fact 0)) with 1.
      field. split; [lra|]. apply INR_fact_neq_0. }
  apply is_RInt_unique.
  unfold marin_edge. 
  match goal with |- is_RInt _ _ _ (?S * _ / _) => set (s := S) end.
  replace (s * (fst p * snd q - fst q * snd p) / (INR (comb (m + n) n) * (INR (m + n) + 1) * (INR (m + n) + 2)))
    with (scal (cross p q / (INR (m + n) + 2)) (s / (INR (comb (m + n) n) * (INR (m + n) + 1)))).
  - apply (is_RInt_scal (V:=R_NormedModule)). apply seg_int.
  - unfold scal; cbn -[INR]; unfold mult; cbn -[INR]. unfold cross. field.
    assert (INR (comb (m + n) n) <> 0) by nra. repeat split; try lra. 
Qed.

Lemma lsum_map_cons {A} (f : A -> R) x l : lsum (map f (x :: l)) = f x + lsum (map f l).
Proof. apply lsum_cons. Qed.

Lemma marin_loop_edges m n ring :
  marin_loop (map fst ring) (map snd ring) m n =
  lsum (map (fun e => marin_edge m n (fst (fst e)) (snd (fst e)) (fst (snd e)) (snd (snd e))) (edges ring)).
Proof.
  unfold marin_loop. rewrite map_length.
  induction ring as [|p [|q tl] IH]; try reflexivity.
  change (edges (p :: q :: tl)) with ((p, q) :: edges (q :: tl)).
  etransitivity; [|symmetry; apply lsum_map_cons]. rewrite <- IH. clear IH.
  cbn [length map]. replace (S (S (length tl)) - 1)%nat with (S (length tl)) by lia.
  rewrite rsum_shift. cbn [nth fst snd]. f_equal.
  replace (S (length tl) - 1)%nat with (length tl) by lia.
  apply rsum_ext. reflexivity.
Qed.

Lemma ring_moment_ok ring m n :
  ring_moment ring m n = Ok (marin_loop (map fst ring) (map snd ring) m n
           / (INR (comb (m + n) n) * (INR (m + n) + 1) * (INR (m + n) + 2))).
Proof.
  unfold ring_moment, marin_integration. rewrite !map_length, Nat.ltb_irrefl, andb_false_r. reflexivity.
Qed.

Lemma lsum_map_div {A} (f : A -> R) c l : lsum (map f l) / c = lsum (map (fun x => f x / c) l).
Proof. induction l as [|x l IH]; cbn [map]; rewrite ?lsum_nil, ?lsum_cons, <- ?IH; lra. Qed.
Lemma lsum_map_ext {A} (f g : A -> R) l : (forall x, In x l -> f x = g x) -> lsum (map f l) = lsum (map g l).
Proof. intros H. f_equal. apply map_ext_in. exact H. Qed.
Lemma lsum_map_plus {A} (f g : A -> R) l : lsum (map (fun x => f x + g x) l) = lsum (map f l) + lsum (map g l).
Proof. induction l as [|x l IH]; cbn [map]; rewrite ?lsum_nil, ?lsum_cons, ?IH; lra. Qed.
Lemma lsum_map_scal {A} c (f : A -> R) l : lsum (map (fun x => c * f x) l) = c * lsum (map f l).
Proof. induction l as [|x l IH]; cbn [map]; rewrite ?lsum_nil, ?lsum_cons, ?IH; lra. Qed.

Lemma ring_moment_fan ring m n : ring_moment ring m n = Ok (fan_moment m n ring).
Proof.
  rewrite ring_moment_ok. f_equal. rewrite marin_loop_edges, lsum_map_div. unfold fan_moment.
  apply lsum_map_ext. intros e _. rewrite triangle_moment_edge. reflexivity.
Qed.

(** ** Green form *)
Lemma edge_green m n p q :
  RInt (fun t => fst (seg p q t) ^ (m + 1) / INR (m + 1) * snd (seg p q t) ^ n * (snd q - snd p)) 0 1
  = triangle_moment m n p q
    + (fst q ^ (m + 1) * snd q ^ (n + 1) - fst p ^ (m + 1) * snd p ^ (n + 1)) / (INR (m + 1) * (INR (m + n) + 2)).
Proof.
  destruct p as [a c], q as [b d]. cbn [fst snd seg].
  assert (Hp := pos_INR (m + n)). assert (Hm : 0 < INR (m + 1)) by (apply lt_0_INR; lia).
  apply is_RInt_unique.
  assert (D := is_RInt_derive (fun t => ((1 - t) * a + t * b) ^ (S m) * ((1 - t) * c + t * d) ^ (S n) / (INR (m + 1) * (INR (m + n) + 2)))
    (fun t => (INR (S m) * (b - a) * ((1 - t) * a + t * b) ^ m * ((1 - t) * c + t * d) ^ (S n)
       + INR (S n) * (d - c) * ((1 - t) * a + t * b) ^ (S m) * ((1 - t) * c + t * d) ^ n) / (INR (m + 1) * (INR (m + n) + 2))) 0 1).
  cbv beta in D.
  assert (D' := D (fun x _ => ltac:(
        auto_derive; [exact I|];
        change (Init.Nat.pred (S m)) with m; change (Init.Nat.pred (S n)) with n;
        change (match m with O => 1 | S _ => INR m + 1 end) with (INR (S m));
        change (match n with O => 1 | S _ => INR n + 1 end) with (INR (S n));
        unfold Rminus, Rdiv; cbn [pow]; ring))
     (fun x _ => ltac:(apply (ex_derive_continuous (V:=R_NormedModule)); auto_derive; exact I))).
  clear D.
  assert (T : is_RInt (fun t => (cross (a, c) (b, d) / (INR (m + n) + 2)) * (((1 - t) * a + t * b) ^ m * ((1 - t) * c + t * d) ^ n)) 0 1 (triangle_moment m n (a, c) (b, d))).
  { rewrite triangle_moment_edge. unfold marin_edge. cbn [fst snd].
    match goal with |- is_RInt _ _ _ (?S * _ / _) => set (s := S) end.
    replace (s * (a * d - b * c) / (INR (comb (m + n) n) * (INR (m + n) + 1) * (INR (m + n) + 2)))
    with (scal (cross (a,c) (b,d) / (INR (m + n) + 2)) (s / (INR (comb (m + n) n) * (INR (m + n) + 1)))).
    - apply (is_RInt_scal (V:=R_NormedModule)). apply seg_int.
    - assert (Hd := den_pos m n). unfold scal; cbn -[INR]; unfold mult; cbn -[INR]. unfold cross; cbn [fst snd]. field.
      assert (INR (comb (m + n) n) <> 0) by nra. repeat split; try lra. }
  assert (HS := is_RInt_plus _ _ _ _ _ _ T D').
  replace (triangle_moment m n (a, c) (b, d) + (b ^ (m + 1) * d ^ (n + 1) - a ^ (m + 1) * c ^ (n + 1)) / (INR (m + 1) * (INR (m + n) + 2)))
    with (plus (triangle_moment m n (a, c) (b, d))
       (minus (((1 - 1) * a + 1 * b) ^ S m * ((1 - 1) * c + 1 * d) ^ S n / (INR (m + 1) * (INR (m + n) + 2)))
        (((1 - 0) * a + 0 * b) ^ S m * ((1 - 0) * c + 0 * d) ^ S n / (INR (m + 1) * (INR (m + n) + 2))))).
  2:{ unfold plus, minus, opp, plus; cbn -[INR pow]. replace (m + 1)%nat with (S m) by lia. replace (n + 1)%nat with (S n) by lia.
      replace ((1 - 1) * a + 1 * b) with b by lra. replace ((1 - 1) * c + 1 * d) with d by lra.
      replace ((1 - 0) * a + 0 * b) with a by lra. replace ((1 - 0) * c + 0 * d) with c by lra.
      unfold Rdiv. ring. }
  eapply is_RInt_ext; [|exact HS].
  intros t _. cbv beta. unfold plus; cbn -[INR pow]. unfold cross; cbn [fst snd].
  replace (INR (S m)) with (INR (m + 1)) by (f_equal; lia).
  replace (m + 1)%nat with (S m) by lia. 
  assert (E : INR (m + n) + 2 = INR (S m) + INR (S n)) by (rewrite plus_INR, !S_INR; lra).
  assert (Hsm : 0 < INR (S m)) by (apply lt_0_INR; lia).
  assert (Hsn : 0 < INR (S n)) by (apply lt_0_INR; lia).
  rewrite E. cbn [pow]. field. lra.
Qed.

Lemma telescope (f : R * R -> R) ring d :
  lsum (map (fun e => f (snd e) - f (fst e)) (edges ring)) =
  match ring with [] => 0 | p :: _ => f (last ring d) - f p end.
Proof.
  induction ring as [|p [|q tl] IH].
  - reflexivity.
  - cbn; unfold lsum; cbn; lra.
  - change (edges (p :: q :: tl)) with ((p, q) :: edges (q :: tl)).
    change (last (p :: q :: tl) d) with (last (q :: tl) d).
    etransitivity; [apply lsum_map_cons|]. rewrite IH. cbn [fst snd]. lra.
Qed.

Lemma green_fan m n ring : closed ring -> green_moment m n ring = fan_moment m n ring.
Proof.
  intros Hc. unfold green_moment, fan_moment.
  rewrite (lsum_map_ext _ (fun e => triangle_moment m n (fst e) (snd e) +
     (fst (snd e) ^ (m + 1) * snd (snd e) ^ (n + 1) / (INR (m + 1) * (INR (m + n) + 2))
       - fst (fst e) ^ (m + 1) * snd (fst e) ^ (n + 1)  / (INR (m + 1) * (INR (m + n) + 2))))).
  2:{ intros [p q] _. cbn [fst snd]. rewrite edge_green. unfold Rdiv. ring. }
  rewrite lsum_map_plus.
  destruct ring as [|p tl]; [cbn; unfold lsum; cbn; lra|].
  assert (T := telescope (fun v => fst v ^ (m + 1) * snd v ^ (n + 1) / (INR (m + 1) * (INR (m + n) + 2))) (p :: tl) p).
  cbv beta iota in T. cbn [closed] in Hc. rewrite Hc in T. rewrite T. lra.
Qed.

Lemma fan_area ring : fan_moment 0 0 ring = shoelace ring.
Proof.
  unfold fan_moment, shoelace. apply lsum_map_ext. intros [p q] _. cbn [fst snd].
  rewrite triangle_moment_edge. unfold marin_edge, coeff, cross. cbn. field.
Qed.

(** ** Algebra of rings *)
Lemma edges_app_mid l1 p l2 : edges (l1 ++ p :: l2) = edges (l1 ++ [p]) ++ edges (p :: l2).
Proof.
  induction l1 as [|a l1 IH]; [reflexivity|].
  destruct l1 as [|b l1]; [reflexivity|].
  change (edges ((a :: b :: l1) ++ p :: l2)) with ((a, b) :: edges ((b :: l1) ++ p :: l2)).
  rewrite IH. reflexivity.
Qed.

Lemma edges_rev l : edges (rev l) = rev (map (fun e => (snd e, fst e)) (edges l)).
Proof.
  induction l as [|a l IH]; [reflexivity|].
  destruct l as [|b l]; [reflexivity|].
  change (edges (a :: b :: l)) with ((a, b) :: edges (b :: l)).
  cbn [map rev fst snd]. rewrite <- IH.
  change (rev (a :: b :: l)) with ((rev l ++ [b]) ++ [a]). rewrite <- app_assoc.
  change ([b] ++ [a]) with (b :: [a]). rewrite edges_app_mid. reflexivity.
Qed.

Lemma lsum_rev l : lsum (rev l) = lsum l.
Proof. induction l as [|x l IH]; [reflexivity|]. cbn [rev]. rewrite lsum_app, !lsum_cons, IH, lsum_nil. lra. Qed.

Lemma triangle_moment_int m n p q :
  is_RInt (fun t => (cross p q / (INR (m + n) + 2)) * (fst (seg p q t) ^ m * snd (seg p q t) ^ n)) 0 1 (triangle_moment m n p q).
Proof.
  destruct p as [a c], q as [b d]. assert (Hp := pos_INR (m + n)).
  rewrite triangle_moment_edge. unfold marin_edge. cbn [fst snd seg].
  match goal with |- is_RInt _ _ _ (?S * _ / _) => set (s := S) end.
  replace (s * (a * d - b * c) / (INR (comb (m + n) n) * (INR (m + n) + 1) * (INR (m + n) + 2)))
    with (scal (cross (a,c) (b,d) / (INR (m + n) + 2)) (s / (INR (comb (m + n) n) * (INR (m + n) + 1)))).
  - apply (is_RInt_scal (V:=R_NormedModule)). apply seg_int.
  - assert (Hd := den_pos m n). unfold scal; cbn -[INR]; unfold mult; cbn -[INR]. unfold cross; cbn [fst snd]. field.
    assert (INR (comb (m + n) n) <> 0) by nra. repeat split; try lra.
Qed.

Lemma triangle_moment_swap m n p q : triangle_moment m n q p = - triangle_moment m n p q.
Proof.
  assert (H := triangle_moment_int m n p q).
  apply is_RInt_swap in H.
  set (f := fun t : R => cross p q / (INR (m + n) + 2) * (fst (seg p q t) ^ m * snd (seg p q t) ^ n)) in *.
  assert (H2 : is_RInt f (-1 * 0 + 1) (-1 * 1 + 1) (opp (triangle_moment m n p q))).
  { replace (-1 * 0 + 1) with 1 by lra. replace (-1 * 1 + 1) with 0 by lra. exact H. }
  apply (is_RInt_comp_lin f) in H2.
  assert (H3 := triangle_moment_int m n q p).
  apply RIntU in H3. rewrite <- H3. clear H3.
  apply is_RInt_unique. eapply is_RInt_ext; [|exact H2].
  intros t _. unfold f, scal; cbn -[INR]; unfold mult; cbn -[INR].
  replace (1 - (-1 * t + 1)) with t by lra.
  replace (-1 * t + 1) with (1 - t) by lra.
  rewrite (Rplus_comm (t * fst p)), (Rplus_comm (t * snd p)).
  unfold cross, Rdiv. ring.
Qed.

Lemma fan_rev m n ring : fan_moment m n (rev ring) = - fan_moment m n ring.
Proof.
  unfold fan_moment. rewrite edges_rev, map_rev, map_map, lsum_rev.
  rewrite (lsum_map_ext _ (fun e => (-1) * triangle_moment m n (fst e) (snd e))).
  - rewrite lsum_map_scal. lra.
  - intros e _. cbn [fst snd]. rewrite triangle_moment_swap. lra.
Qed.

Lemma fan_app_mid m n l1 p l2 :
  fan_moment m n (l1 ++ p :: l2) = fan_moment m n (l1 ++ [p]) + fan_moment m n (p :: l2).
Proof. unfold fan_moment. rewrite edges_app_mid, map_app, lsum_app. reflexivity. Qed.

Lemma fan_pair m n p q : fan_moment m n [p; q] = triangle_moment m n p q.
Proof. unfold fan_moment. cbn [edges map]. rewrite lsum_cons, lsum_nil. cbn [fst snd]. lra. Qed.

Lemma fan_cons2 m n p q l : fan_moment m n (p :: q :: l) = triangle_moment m n p q + fan_moment m n (q :: l).
Proof. unfold fan_moment. change (edges (p :: q :: l)) with ((p, q) :: edges (q :: l)).
  rewrite lsum_map_cons. reflexivity. Qed.

Lemma fan_shift m n p l1 q l2 :
  fan_moment m n (p :: l1 ++ q :: l2 ++ [p]) = fan_moment m n (q :: l2 ++ p :: l1 ++ [q]).
Proof.
  change (p :: l1 ++ q :: l2 ++ [p]) with ((p :: l1) ++ q :: (l2 ++ [p])).
  change (q :: l2 ++ p :: l1 ++ [q]) with ((q :: l2) ++ p :: (l1 ++ [q])).
  rewrite (fan_app_mid _ _ (p :: l1)), (fan_app_mid _ _ (q :: l2)). cbn [app]. lra.
Qed.

Lemma fan_chord m n p l1 q l2 :
  fan_moment m n (p :: l1 ++ q :: l2 ++ [p]) =
  fan_moment m n (p :: l1 ++ [q; p]) + fan_moment m n (q :: l2 ++ [p; q]).
Proof.
  change (p :: l1 ++ q :: l2 ++ [p]) with ((p :: l1) ++ q :: (l2 ++ [p])).
  change (p :: l1 ++ [q; p]) with ((p :: l1) ++ q :: [p]).
  change (q :: l2 ++ [p; q]) with ((q :: l2) ++ p :: [q]).
  rewrite (fan_app_mid _ _ (p :: l1) q (l2 ++ [p])), (fan_app_mid _ _ (p :: l1) q [p]), (fan_app_mid _ _ (q :: l2) p [q]).
  rewrite !fan_pair, (triangle_moment_swap m n p q). cbn [app]. lra.
Qed.

(** Linear maps. *)

Lemma edges_map f l : edges (map f l) = map (fun e => (f (fst e), f (snd e))) (edges l).
Proof.
  induction l as [|p [|q l] IH]; try reflexivity.
  change (edges (p :: q :: l)) with ((p, q) :: edges (q :: l)).
  change (map f (p :: q :: l)) with (f p :: f q :: map f l).
  change (edges (f p :: f q :: map f l)) with ((f p, f q) :: edges (map f (q :: l))).
  rewrite IH. reflexivity.
Qed.

Lemma triangle_moment_lin m n a b c d p q :
  triangle_moment m n (lin a b c d p) (lin a b c d q) =
  (a * d - b * c) *
  rsum (fun i => rsum (fun j =>
    C m i * a ^ i * b ^ (m - i) * (C n j * c ^ j * d ^ (n - j))
      * triangle_moment (i + j) (m - i + (n - j)) p q) (n + 1)) (m + 1).
Proof.
  rewrite <- (RIntU _ _ _ _ (triangle_moment_int m n (lin a b c d p) (lin a b c d q))).
  apply is_RInt_unique.
  apply (is_RInt_ext (fun t => (a * d - b * c) * rsum (fun i => rsum (fun j =>
    C m i * a ^ i * b ^ (m - i) * (C n j * c ^ j * d ^ (n - j)) *
     (cross p q / (INR (i + j + (m - i + (n - j))) + 2)
        * (fst (seg p q t) ^ (i + j) * snd (seg p q t) ^ (m - i + (n - j))))) (n + 1)) (m + 1))).
  { intros t _.
    replace (cross (lin a b c d p) (lin a b c d q)) with ((a * d - b * c) * cross p q)
      by (unfold cross, lin; cbn [fst snd]; ring).
    replace (fst (seg (lin a b c d p) (lin a b c d q) t)) with (a * fst (seg p q t) + b * snd (seg p q t))
      by (unfold seg, lin; cbn [fst snd]; ring).
    replace (snd (seg (lin a b c d p) (lin a b c d q) t)) with (c * fst (seg p q t) + d * snd (seg p q t))
      by (unfold seg, lin; cbn [fst snd]; ring).
    rewrite !binomial_rsum. unfold Rdiv. rewrite !Rmult_assoc. f_equal.
    rewrite <- rsum_scal_r, <- !rsum_scal. apply rsum_ext. intros i Hi.
    rewrite <- !rsum_scal. apply rsum_ext. intros j Hj.
    replace (i + j + (m - i + (n - j)))%nat with (m + n)%nat by lia.
    rewrite !Rpow_mult_distr, !pow_add. ring. }
  apply (is_RInt_scal (V:=R_NormedModule)).
  apply is_RInt_rsum. intros i Hi. apply is_RInt_rsum. intros j Hj.
  apply (is_RInt_scal (V:=R_NormedModule)).
  apply triangle_moment_int.
Qed.

Lemma lsum_map_rsum {A} (f : A -> nat -> R) n l :
  lsum (map (fun x => rsum (f x) n) l) = rsum (fun i => lsum (map (fun x => f x i) l)) n.
Proof.
  induction l as [|x l IH]; cbn [map].
  - rewrite lsum_nil. symmetry. apply rsum_0. reflexivity.
  - rewrite lsum_cons, IH, <- rsum_plus. apply rsum_ext. intros i _. rewrite lsum_cons. reflexivity.
Qed.

Lemma fan_lin m n a b c d ring :
  fan_moment m n (map (lin a b c d) ring) =
  (a * d - b * c) *
  rsum (fun i => rsum (fun j =>
    C m i * a ^ i * b ^ (m - i) * (C n j * c ^ j * d ^ (n - j))
      * fan_moment (i + j) (m - i + (n - j)) ring) (n + 1)) (m + 1).
Proof.
  unfold fan_moment at 1. rewrite edges_map, map_map. cbn [fst snd].
  rewrite (lsum_map_ext _ _ _ (fun e _ => triangle_moment_lin m n a b c d (fst e) (snd e))).
  rewrite lsum_map_scal. f_equal.
  rewrite lsum_map_rsum. apply rsum_ext. intros i _.
  rewrite lsum_map_rsum. apply rsum_ext. intros j _.
  rewrite lsum_map_scal. reflexivity.
Qed.

(** ** Translation of closed rings *)

Lemma ex_RInt_edge (f : R -> R) : (forall x, ex_derive f x) -> ex_RInt f 0 1.
Proof.
  intros H. apply (ex_RInt_continuous (V:=R_CompleteNormedModule)).
  intros x _. apply (ex_derive_continuous (V:=R_NormedModule)). apply H.
Qed.

Definition green_edge (m n : nat) (p q : R * R) : R :=
  RInt (fun t => fst (seg p q t) ^ (m + 1) / INR (m + 1) * snd (seg p q t) ^ n * (snd q - snd p)) 0 1.

Lemma green_edge_int m n p q :
  is_RInt (fun t => fst (seg p q t) ^ (m + 1) / INR (m + 1) * snd (seg p q t) ^ n * (snd q - snd p)) 0 1 (green_edge m n p q).
Proof.
  apply (RInt_correct (V:=R_CompleteNormedModule)). apply ex_RInt_edge. intros x. unfold seg; cbn [fst snd].
  auto_derive. exact I.
Qed.

Lemma C_S m i : (i <= m)%nat -> C (S m) (S i) / INR (m + 1) = C m i / INR (i + 1).
Proof.
  intros H. unfold C. change (S m - S i)%nat with (m - i)%nat.
  change (fact (S m)) with (S m * fact m)%nat. change (fact (S i)) with (S i * fact i)%nat.
  rewrite !mult_INR. replace (m + 1)%nat with (S m) by lia. replace (i + 1)%nat with (S i) by lia.
  field. repeat split; try apply INR_fact_neq_0; apply not_0_INR; lia.
Qed.

(** potential of (z+v)^n dz *)
Lemma zedge_int n v p q :
  is_RInt (fun t => (snd (seg p q t) + v) ^ n * (snd q - snd p)) 0 1
    ((snd q + v) ^ (S n) / INR (S n) - (snd p + v) ^ (S n) / INR (S n)).
Proof.
  assert (Hn : INR (S n) <> 0) by (apply not_0_INR; lia).
  assert (D := is_RInt_derive (fun t => (snd (seg p q t) + v) ^ (S n) / INR (S n))
    (fun t => (snd (seg p q t) + v) ^ n * (snd q - snd p)) 0 1).
  unfold seg in *; cbn [fst snd] in *. cbv beta in D.
  assert (D' := D (fun x _ => ltac:(
        auto_derive; [exact I|];
        change (Init.Nat.pred (S n)) with n;
        change (match n with O => 1 | S _ => INR n + 1 end) with (INR (S n));
        unfold Rminus; field; exact Hn))
     (fun x _ => ltac:(apply (ex_derive_continuous (V:=R_NormedModule)); auto_derive; exact I))).
  replace ((1 - 1) * snd p + 1 * snd q) with (snd q) in D' by lra.
  replace ((1 - 0) * snd p + 0 * snd q) with (snd p) in D' by lra.
  exact D'.
Qed.

Lemma green_edge_shift m n u v p q :
  green_edge m n (shift u v p) (shift u v q) =
  rsum (fun i => rsum (fun j => C m i * u ^ (m - i) * (C n j * v ^ (n - j)) * green_edge i j p q) (n + 1)) (m + 1)
  + u ^ (m + 1) / INR (m + 1) * ((snd q + v) ^ (S n) / INR (S n) - (snd p + v) ^ (S n) / INR (S n)).
Proof.
  apply is_RInt_unique.
  apply (is_RInt_ext (fun t => plus
     (rsum (fun i => rsum (fun j => C m i * u ^ (m - i) * (C n j * v ^ (n - j)) *
          (fst (seg p q t) ^ (i + 1) / INR (i + 1) * snd (seg p q t) ^ j * (snd q - snd p))) (n + 1)) (m + 1))
     (scal (u ^ (m + 1) / INR (m + 1)) ((snd (seg p q t) + v) ^ n * (snd q - snd p))))).
  { intros t _. unfold plus, scal; cbn -[INR pow C seg]; unfold mult; cbn -[INR pow C seg].
    replace (fst (seg (shift u v p) (shift u v q) t)) with (fst (seg p q t) + u)
      by (unfold seg, shift; cbn [fst snd]; ring).
    replace (snd (seg (shift u v p) (shift u v q) t)) with (snd (seg p q t) + v)
      by (unfold seg, shift; cbn [fst snd]; ring).
    replace (snd q + v - (snd p + v)) with (snd q - snd p) by ring.
    set (Y := fst (seg p q t)). set (Z := snd (seg p q t)).
    transitivity (((Y + u) ^ (m + 1) / INR (m + 1) - u ^ (m + 1) / INR (m + 1)) * (Z + v) ^ n * (snd q - snd p)
       + u ^ (m + 1) / INR (m + 1) * ((Z + v) ^ n * (snd q - snd p))).
    2:{ unfold Rdiv; ring. }
    f_equal.
    replace ((Y + u) ^ (m + 1) / INR (m + 1) - u ^ (m + 1) / INR (m + 1))
      with (rsum (fun i => C m i * u ^ (m - i) * (Y ^ (i + 1) / INR (i + 1))) (m + 1)).
    2:{ replace (m + 1)%nat with (S m) by lia.
        rewrite (binomial_rsum Y u (S m)). replace (S m + 1)%nat with (S (S m)) by lia.
        rewrite (rsum_shift _ (S m)).
        replace (C (S m) 0) with 1
          by (unfold C; rewrite Nat.sub_0_r; change (fact 0) with 1%nat; change (INR 1) with 1; field; apply INR_fact_neq_0).
        change (Y ^ 0) with 1. rewrite Nat.sub_0_r.
        match goal with |- _ = (1 * 1 * _ + ?SS) / _ - _ => transitivity (SS / INR (S m)); [| unfold Rdiv; cbn [pow]; ring] end.
        unfold Rdiv. rewrite <- rsum_scal_r. apply rsum_ext. intros i Hi.
        assert (E := C_S m i ltac:(lia)). unfold Rdiv in E.
        replace (m + 1)%nat with (S m) in E by lia. change (S m - S i)%nat with (m - i)%nat.
        transitivity (C (S m) (S i) * / INR (S m) * (Y ^ S i * u ^ (m - i))); [rewrite E|ring].
        replace (i + 1)%nat with (S i) by lia. ring. }
    rewrite <- !rsum_scal_r. apply rsum_ext. intros i Hi.
    rewrite (binomial_rsum Z v n), <- rsum_scal, <- rsum_scal_r. apply rsum_ext. intros j Hj. ring. }
  apply (is_RInt_plus (V:=R_NormedModule)).
  - apply is_RInt_rsum. intros i Hi. apply is_RInt_rsum. intros j Hj.
    apply (is_RInt_scal (V:=R_NormedModule)). apply green_edge_int.
  - apply (is_RInt_scal (V:=R_NormedModule)). apply zedge_int.
Qed.

Lemma last_map {A B} (f : A -> B) l d : last (map f l) (f d) = f (last l d).
Proof. induction l as [|a [|b l] IH]; try reflexivity. exact IH. Qed.

Lemma closed_map f ring : closed ring -> closed (map f ring).
Proof.
  destruct ring as [|p l]; [exact (fun x => x)|]. unfold closed.
  intros H. change (f p :: map f l) with (map f (p :: l)).
  change (last (map f (p :: l)) (f p) = f p). rewrite last_map, H. reflexivity.
Qed.

Lemma fan_shift_closed m n u v ring : closed ring ->
  fan_moment m n (map (shift u v) ring) =
  rsum (fun i => rsum (fun j => C m i * u ^ (m - i) * (C n j * v ^ (n - j)) * fan_moment i j ring) (n + 1)) (m + 1).
Proof.
  intros Hc. rewrite <- green_fan by (apply closed_map; exact Hc).
  change (green_moment m n (map (shift u v) ring)) with
    (lsum (map (fun e => green_edge m n (fst e) (snd e)) (edges (map (shift u v) ring)))).
  rewrite edges_map, map_map. cbn [fst snd].
  rewrite (lsum_map_ext _ _ _ (fun e _ => green_edge_shift m n u v (fst e) (snd e))).
  rewrite lsum_map_plus, lsum_map_rsum.
  rewrite lsum_map_scal.
  replace (lsum (map (fun x => (snd (snd x) + v) ^ S n / INR (S n) - (snd (fst x) + v) ^ S n / INR (S n)) (edges ring))) with 0.
  2:{ destruct ring as [|p l]; [reflexivity|].
      assert (T := telescope (fun x => (snd x + v) ^ S n / INR (S n)) (p :: l) p).
      cbv beta iota in T. rewrite T. cbn [closed] in Hc. rewrite Hc. lra. }
  rewrite Rmult_0_r, Rplus_0_r. apply rsum_ext. intros i _.
  rewrite lsum_map_rsum. apply rsum_ext. intros j _. rewrite lsum_map_scal.
  f_equal. change (lsum (map (fun x => green_edge i j (fst x) (snd x)) (edges ring))) with (green_moment i j ring).
  apply green_fan. exact Hc.
Qed.

(** ** Trapezoids *)

Lemma side_int m n f za zb : affine f ->
  is_RInt (fun z => f z ^ (m + 1) / INR (m + 1) * z ^ n) za zb (green_edge m n (f za, za) (f zb, zb)).
Proof.
  intros (a & b & Hf).
  set (g := fun z => f z ^ (m + 1) / INR (m + 1) * z ^ n).
  assert (Hg : ex_RInt g za zb).
  { apply (ex_RInt_continuous (V:=R_CompleteNormedModule)). intros z _.
    apply (ex_derive_continuous (V:=R_NormedModule)).
    apply (ex_derive_ext (fun z => (a + b * z) ^ (m + 1) / INR (m + 1) * z ^ n)).
    { intros t. unfold g. rewrite Hf. reflexivity. }
    auto_derive. exact I. }
  replace (green_edge m n (f za, za) (f zb, zb)) with (RInt g za zb).
  { apply (RInt_correct (V:=R_CompleteNormedModule)). exact Hg. }
  symmetry. apply is_RInt_unique.
  apply (RInt_correct (V:=R_CompleteNormedModule)) in Hg.
  assert (H2 : is_RInt g ((zb - za) * 0 + za) ((zb - za) * 1 + za) (RInt g za zb)).
  { replace ((zb - za) * 0 + za) with za by lra. replace ((zb - za) * 1 + za) with zb by lra. exact Hg. }
  apply (is_RInt_comp_lin g) in H2.
  eapply is_RInt_ext; [|exact H2]. intros t _.
  unfold g, seg, scal; cbn -[INR pow]; unfold mult; cbn -[INR pow].
  replace ((1 - t) * f za + t * f zb) with (f ((zb - za) * t + za)) by (rewrite !Hf; ring).
  replace ((1 - t) * za + t * zb) with ((zb - za) * t + za) by ring.
  rewrite Rmult_comm. reflexivity.
Qed.

Lemma green_cons2 m n p q l : green_moment m n (p :: q :: l) = green_edge m n p q + green_moment m n (q :: l).
Proof. unfold green_moment. change (edges (p :: q :: l)) with ((p, q) :: edges (q :: l)).
  rewrite lsum_map_cons. reflexivity. Qed.
Lemma green_single m n p : green_moment m n [p] = 0.
Proof. reflexivity. Qed.

Lemma trapezoid_moment m n lo hi za zb : affine lo -> affine hi ->
  fan_moment m n (trapezoid_ring lo hi za zb) = trapezoid_integral m n lo hi za zb.
Proof.
  intros Hlo Hhi. rewrite <- green_fan by reflexivity.
  unfold trapezoid_ring. rewrite !green_cons2, green_single.
  assert (Z : forall a b z, green_edge m n (a, z) (b, z) = 0).
  { intros a b z. unfold green_edge. cbn [fst snd].
    rewrite (RInt_ext _ (fun _ => 0)).
    - rewrite RInt_const. unfold scal; cbn; unfold mult; cbn; lra.
    - intros t _. rewrite Rminus_diag_eq by reflexivity. apply Rmult_0_r. }
  rewrite !Z.
  unfold trapezoid_integral. symmetry. apply is_RInt_unique.
  assert (S1 := side_int m n hi za zb Hhi). assert (S2 := side_int m n lo zb za Hlo).
  apply is_RInt_swap in S2.
  assert (S3 := is_RInt_minus (V:=R_NormedModule) _ _ _ _ _ _ S1 S2).
  replace (0 + (green_edge m n (hi za, za) (hi zb, zb) + (0 + (green_edge m n (lo zb, zb) (lo za, za) + 0))))
   with (minus (green_edge m n (hi za, za) (hi zb, zb)) (opp (green_edge m n (lo zb, zb) (lo za, za)))).
  2:{ unfold minus, plus, opp; cbn. lra. }
  eapply is_RInt_ext; [|exact S3]. intros z _. cbv beta.
  symmetry. apply is_RInt_unique.
  assert (Hm : INR (m + 1) <> 0) by (apply not_0_INR; lia).
  assert (D := is_RInt_derive (fun y => y ^ (S m) / INR (m + 1) * z ^ n) (fun y => y ^ m * z ^ n) (lo z) (hi z)).
  replace (m + 1)%nat with (S m) in * by lia.
  apply D.
  - intros x _. auto_derive; [exact I|].
    change (Init.Nat.pred (S m)) with m.
    change (match m with O => 1 | S _ => INR m + 1 end) with (INR (S m)).
    field. exact Hm.
  - intros x _. apply (ex_derive_continuous (V:=R_NormedModule)). auto_derive. exact I.
Qed.

(** ** API-level lemmas *)
Lemma marin_index_error y z m n :
  marin_integration y z m n = Err IndexError <-> (1 < length y /\ length z < length y)%nat.
Proof.
  unfold marin_integration.
  destruct (Nat.ltb_spec 1 (length y)); destruct (Nat.ltb_spec (length z) (length y)); cbn [andb];
    split; intros; try discriminate; auto; lia.
Qed.

Lemma rect_spec w h oy oz ring :
  rectangle_ring w h oy oz = Ok ring <->
  (0 < w /\ 0 < h /\
   ring = trapezoid_ring (fun _ => oy - w / 2) (fun _ => oy + w / 2) (oz - h / 2) (oz + h / 2)).
Proof.
  unfold rectangle_ring, trapezoid_ring.
  destruct (Rleb_spec w 0); [split; [discriminate|]; intros (? & ? & _); lra|].
  destruct (Rleb_spec h 0); [split; [discriminate|]; intros (? & ? & _); lra|].
  replace (- w / 2 + oy) with (oy - w / 2) by lra. replace (w / 2 + oy) with (oy + w / 2) by lra.
  replace (- h / 2 + oz) with (oz - h / 2) by lra. replace (h / 2 + oz) with (oz + h / 2) by lra.
  split; [intros [= <-]; repeat split; lra|]. intros (_ & _ & ->). reflexivity.
Qed.

Lemma affine_const c : affine (fun _ => c).
Proof. exists c, 0. intros; lra. Qed.

Lemma trapezoid_integral_const m n a b za zb :
  trapezoid_integral m n (fun _ => a) (fun _ => b) za zb
  = (b ^ (m + 1) - a ^ (m + 1)) / INR (m + 1) * ((zb ^ (n + 1) - za ^ (n + 1)) / INR (n + 1)).
Proof.
  unfold trapezoid_integral.
  assert (P : forall k x y, is_RInt (fun t => t ^ k) x y ((y ^ (k + 1) - x ^ (k + 1)) / INR (k + 1))).
  { intros k x y.
    assert (Hk : INR (S k) <> 0) by (apply not_0_INR; lia).
    assert (D := is_RInt_derive (fun t => t ^ (S k) / INR (S k)) (fun t => t ^ k) x y).
    replace (k + 1)%nat with (S k) by lia.
    replace ((y ^ S k - x ^ S k) / INR (S k)) with (minus (y ^ S k / INR (S k)) (x ^ S k / INR (S k)))
      by (unfold minus, plus, opp; cbn -[INR pow]; field; exact Hk).
    apply D.
    - intros t _. auto_derive; [exact I|]. change (Init.Nat.pred (S k)) with k.
      change (match k with O => 1 | S _ => INR k + 1 end) with (INR (S k)). field. exact Hk.
    - intros t _. apply (ex_derive_continuous (V:=R_NormedModule)). auto_derive. exact I. }
  apply is_RInt_unique.
  apply (is_RInt_ext (fun z => scal ((b ^ (m + 1) - a ^ (m + 1)) / INR (m + 1)) (z ^ n))).
  { intros z _. symmetry. apply is_RInt_unique.
    apply (is_RInt_ext (fun y => scal (z ^ n) (y ^ m))).
    { intros y _. unfold scal; cbn; unfold mult; cbn. ring. }
    replace (scal ((b ^ (m + 1) - a ^ (m + 1)) / INR (m + 1)) (z ^ n))
      with (scal (z ^ n) ((b ^ (m + 1) - a ^ (m + 1)) / INR (m + 1)))
      by (unfold scal; cbn -[INR pow]; unfold mult; cbn -[INR pow]; ring).
    apply (is_RInt_scal (V:=R_NormedModule)). apply P. }
  apply (is_RInt_scal (V:=R_NormedModule)). apply P.
Qed.

Lemma rect_moments w h oy oz ring m n :
  rectangle_ring w h oy oz = Ok ring ->
  ring_moment ring m n =
    Ok (RInt (fun z => RInt (fun y => y ^ m * z ^ n) (oy - w / 2) (oy + w / 2)) (oz - h / 2) (oz + h / 2)).
Proof.
  intros H. apply rect_spec in H. destruct H as (_ & _ & ->).
  rewrite ring_moment_fan, trapezoid_moment by apply affine_const. reflexivity.
Qed.

Lemma rect_closed_form w h oy oz ring m n :
  rectangle_ring w h oy oz = Ok ring ->
  ring_moment ring m n = Ok (((oy + w / 2) ^ (m + 1) - (oy - w / 2) ^ (m + 1)) / INR (m + 1) *
       (((oz + h / 2) ^ (n + 1) - (oz - h / 2) ^ (n + 1)) / INR (n + 1))).
Proof.
  intros H. rewrite (rect_moments _ _ _ _ _ _ _ H). f_equal.
  exact (trapezoid_integral_const m n (oy - w / 2) (oy + w / 2) (oz - h / 2) (oz + h / 2)).
Qed.

Lemma rect_constants w h oy oz ring :
  rectangle_ring w h oy oz = Ok ring ->
  closed ring /\
  ring_moment ring 0 0 = Ok (w * h) /\ 0 < w * h /\
  ring_moment ring 1 0 = Ok (w * h * oy) /\
  ring_moment ring 0 1 = Ok (w * h * oz) /\
  ring_moment ring 0 2 = Ok (w * h ^ 3 / 12 + w * h * oz ^ 2) /\
  ring_moment ring 2 0 = Ok (w ^ 3 * h / 12 + w * h * oy ^ 2) /\
  ring_moment ring 1 1 = Ok (w * h * oy * oz).
Proof.
  intros H. rewrite !(rect_closed_form _ _ _ _ _ _ _ H).
  apply rect_spec in H. destruct H as (Hw & Hh & ->).
  repeat split; try (f_equal; cbn; field). nra.
Qed.
