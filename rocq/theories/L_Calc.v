From Coq Require Import String Ascii ZArith Lra Lia.
From Verif Require Import Base S_Marin M_Registry M_Bars L_Bars M_Calc S_Calc.
Open Scope R_scope.
Open Scope list_scope.

(** * Powers *)
Lemma pw_Rpower x y : 0 < x -> pw x y = Rpower x y.
Proof. intros H. unfold pw. destruct (Rltb_spec 0 x); [reflexivity|lra]. Qed.
Lemma pw_0 y : pw 0 y = 0.
Proof. unfold pw. destruct (Rltb_spec 0 0); [lra|reflexivity]. Qed.
Lemma pw_pos x y : 0 < x -> 0 < pw x y.
Proof. intros H. rewrite pw_Rpower by exact H. apply exp_pos. Qed.
Lemma pw_nonneg x y : 0 <= pw x y.
Proof. unfold pw. destruct (Rltb_spec 0 x); [apply Rlt_le, exp_pos|lra]. Qed.
Lemma pw_1 y : pw 1 y = 1.
Proof. rewrite pw_Rpower by lra. unfold Rpower. rewrite ln_1, Rmult_0_r. apply exp_0. Qed.
Lemma pw_lt x x' y : 0 < y -> 0 <= x < x' -> pw x y < pw x' y.
Proof.
  intros HY [[H | <-] H']; [|rewrite pw_0; apply pw_pos, H']. rewrite !pw_Rpower by lra. unfold Rpower. apply exp_increasing, Rmult_lt_compat_l; [exact HY|]. apply ln_increasing; assumption.
Qed.
Lemma pw_le x x' y : 0 < y -> 0 <= x <= x' -> pw x y <= pw x' y.
Proof. intros HY [H [H' | ->]]; [|lra]. apply Rlt_le, pw_lt; [exact HY|lra]. Qed.
Lemma pw_lt_1 x y : 0 < y -> 0 <= x < 1 -> pw x y < 1.
Proof. intros HY H. rewrite <- (pw_1 y). apply pw_lt; lra. Qed.
Lemma pw_le_1 x y : 0 < y -> 0 <= x <= 1 -> pw x y <= 1.
Proof. intros HY H. rewrite <- (pw_1 y). apply pw_le; lra. Qed.
Lemma pw_ge_1 x y : 0 < y -> 1 <= x -> 1 <= pw x y.
Proof. intros HY H. rewrite <- (pw_1 y) at 1. apply pw_le; lra. Qed.
Lemma pw_mult x y z : 0 <= x -> 0 <= y -> pw (x * y) z = pw x z * pw y z.
Proof.
  intros [H | <-] [H' | <-]; rewrite ?Rmult_0_l, ?Rmult_0_r, ?pw_0; try ring. rewrite !pw_Rpower by (try apply Rmult_lt_0_compat; assumption). apply eq_sym. apply Rpower_mult_distr; assumption.
Qed.
Lemma pw_pw x a b : 0 <= x -> pw (pw x a) b = pw x (a * b).
Proof. intros [H | <-]; [|rewrite !pw_0; reflexivity]. rewrite (pw_Rpower x), (pw_Rpower x) by exact H. rewrite pw_Rpower by apply exp_pos. apply Rpower_mult. Qed.
Lemma pw_nat x n : (0 < n)%nat -> 0 <= x -> pw x (INR n) = x ^ n.
Proof. intros HN [H | <-]; [rewrite pw_Rpower by exact H; now apply Rpower_pow|rewrite pw_0, pow_i by exact HN; reflexivity]. Qed.
Lemma pw_id x : 0 <= x -> pw x 1 = x.
Proof. intros H. change 1 with (INR 1). rewrite pw_nat by (auto with arith || exact H). ring. Qed.
(** pw x (p/q) is the q-th root of x^p. *)
Lemma pw_frac x a p q : (0 < p)%nat -> 0 <= x -> a * IZR (Z.of_nat q) = IZR (Z.of_nat p) -> pw x a ^ q = x ^ p.
Proof.
  intros HP HX E. rewrite <- !INR_IZR_INZ in E. destruct q as [|q]; [exfalso; assert (0 < INR p) by (apply lt_0_INR, HP); cbn in E; lra|].
  rewrite <- (pw_nat (pw x a)) by (lia || apply pw_nonneg). rewrite pw_pw by exact HX. rewrite E. apply pw_nat; [exact HP|exact HX].
Qed.
Lemma pow_lt_inc x y n : (0 < n)%nat -> 0 <= x < y -> x ^ n < y ^ n.
Proof.
  intros HN [H1 H2]. induction n as [|n IH]; [lia|]. destruct n as [|n]; [cbn; lra|]. assert (L : x ^ S n < y ^ S n) by (apply IH; lia).
  change (x * x ^ S n < y * y ^ S n). assert (0 <= x ^ S n) by (apply pow_le, H1). apply Rle_lt_trans with (x * y ^ S n); [apply Rmult_le_compat_l; lra|apply Rmult_lt_compat_r; lra].
Qed.
Lemma pow_le_iff x y n : (0 < n)%nat -> 0 <= x -> 0 <= y -> x ^ n <= y ^ n <-> x <= y.
Proof.
  intros HN HX HY. split; intros H; [|apply pow_incr; lra]. destruct (Rle_dec x y) as [L|L]; [exact L|exfalso]. pose proof (pow_lt_inc y x n HN ltac:(lra)). lra.
Qed.
Lemma pw_le_frac x a c p q : (0 < p)%nat -> (0 < q)%nat -> 0 <= x -> 0 <= c -> a * IZR (Z.of_nat q) = IZR (Z.of_nat p) -> x ^ p <= c ^ q -> pw x a <= c.
Proof. intros HP HQ HX HC E H. apply (pow_le_iff _ _ q HQ); [apply pw_nonneg|exact HC|]. rewrite (pw_frac x a p q HP HX E). exact H. Qed.
Lemma pw_ge_frac x a c p q : (0 < p)%nat -> (0 < q)%nat -> 0 <= x -> 0 <= c -> a * IZR (Z.of_nat q) = IZR (Z.of_nat p) -> c ^ q <= x ^ p -> c <= pw x a.
Proof. intros HP HQ HX HC E H. apply (pow_le_iff _ _ q HQ); [exact HC|apply pw_nonneg|]. rewrite (pw_frac x a p q HP HX E). exact H. Qed.
Lemma pw_gt_frac x a c p q : (0 < p)%nat -> (0 < q)%nat -> 0 <= x -> 0 <= c -> a * IZR (Z.of_nat q) = IZR (Z.of_nat p) -> c ^ q < x ^ p -> c < pw x a.
Proof.
  intros HP HQ HX HC E H. destruct (pw_ge_frac x a c p q HP HQ HX HC E ltac:(lra)) as [L|L]; [exact L|]. rewrite L, (pw_frac x a p q HP HX E) in H. lra.
Qed.
Lemma pw_lt_frac x a c p q : (0 < p)%nat -> (0 < q)%nat -> 0 <= x -> 0 <= c -> a * IZR (Z.of_nat q) = IZR (Z.of_nat p) -> x ^ p < c ^ q -> pw x a < c.
Proof.
  intros HP HQ HX HC E H. destruct (pw_le_frac x a c p q HP HQ HX HC E ltac:(lra)) as [L|L]; [exact L|]. rewrite <- L, (pw_frac x a p q HP HX E) in H. lra.
Qed.
(** Exponential bounds. *)
Lemma exp_quad x : 0 <= x -> 1 + x + x ^ 2 / 2 <= exp x.
Proof.
  intros [H | <-]; [|rewrite exp_0; lra].
  destruct (MVT_cor2 (fun t => exp t - (1 + t + t ^ 2 / 2)) (fun t => exp t - (1 + t)) 0 x H) as (c & E & I).
  { intros c _. apply derivable_pt_lim_minus; [apply derivable_pt_lim_exp|]. replace (1 + c) with (0 + 1 + (2 * c) / 2) by field.
    apply (derivable_pt_lim_plus (fun t => 1 + t) (fun t => t ^ 2 / 2)); [apply (derivable_pt_lim_plus (fun _ => 1) (fun t => t)); [apply derivable_pt_lim_const|apply derivable_pt_lim_id]|].
    unfold Rdiv. replace (2 * c * / 2) with (2 * c * / 2 + c ^ 2 * 0) by ring. apply (derivable_pt_lim_mult (fun t => t ^ 2) (fun _ => / 2)); [|apply derivable_pt_lim_const].
    replace (2 * c) with (INR 2 * c ^ pred 2) by (cbn; ring). apply derivable_pt_lim_pow. }
  rewrite exp_0 in E. pose proof (exp_ineq1_le c). assert (0 <= (exp c - (1 + c)) * (x - 0)) by (apply Rmult_le_pos; lra). lra.
Qed.

(** * Tables *)
Definition rising (l : list (R * R)) : Prop := forall p q, In (p, q) (edges l) -> fst p < fst q.
Lemma edges_cons2 (p q : R * R) l : edges (p :: q :: l) = (p, q) :: edges (q :: l).
Proof. reflexivity. Qed.
Lemma rising_tail p l : rising (p :: l) -> rising l.
Proof. intros H a b I. apply H. destruct l as [|q l]; [destruct I|]. rewrite edges_cons2. right. exact I. Qed.
Lemma last_indep {A} (l : list A) a b : l <> [] -> last l a = last l b.
Proof. induction l as [|x l IH]; intros H; [contradiction|]. destruct l as [|y l]; [reflexivity|]. change (last (y :: l) a = last (y :: l) b). apply IH. discriminate. Qed.
Lemma interp_on x : forall l p, rising (p :: l) -> fst p <= x -> l <> [] -> x <= fst (last l p) -> on_table (p :: l) x (interp_from x p l).
Proof.
  induction l as [|q l IH]; intros p HR HX NE HL; [contradiction|]. cbn [interp_from]. assert (HP : fst p < fst q) by (apply HR; rewrite edges_cons2; left; reflexivity).
  destruct (Rleb_spec x (fst q)) as [L|L].
  - exists p, q. split; [rewrite edges_cons2; left; reflexivity|]. split; [lra|]. field. lra.
  - destruct l as [|r l]; [cbn in HL; lra|]. destruct (IH q (rising_tail _ _ HR) ltac:(lra) ltac:(discriminate)) as (a & b & I & H).
    { change (last (q :: r :: l) p) with (last (r :: l) p) in HL. rewrite (last_indep (r :: l) p q) in HL by discriminate. exact HL. }
    exists a, b. split; [rewrite edges_cons2; right; exact I|exact H].
Qed.
Lemma np_interp_on x p q l : rising (p :: q :: l) -> fst p <= x <= fst (last (q :: l) p) -> on_table (p :: q :: l) x (np_interp x (p :: q :: l)).
Proof.
  intros HR [H1 H2]. cbn [np_interp]. destruct (Rleb_spec x (fst p)) as [L|L]; [|apply interp_on; [exact HR|lra|discriminate|exact H2]].
  exists p, q. split; [rewrite edges_cons2; left; reflexivity|]. assert (HP : fst p < fst q) by (apply HR; rewrite edges_cons2; left; reflexivity).
  split; [lra|]. replace x with (fst p) by lra. ring.
Qed.
(** The broken line of a rising table has one value at each x. *)
Lemma edge_bounds : forall l p a b, rising (p :: l) -> In (a, b) (edges (p :: l)) -> fst p <= fst a.
Proof.
  induction l as [|q l IH]; intros p a b HR I; [destruct I|]. rewrite edges_cons2 in I. assert (HP : fst p < fst q) by (apply HR; rewrite edges_cons2; left; reflexivity).
  destruct I as [E|I]; [injection E as <- <-; lra|]. pose proof (IH q a b (rising_tail _ _ HR) I). lra.
Qed.
Lemma table_unique : forall l x v w, rising l -> on_table l x v -> on_table l x w -> v = w.
Proof.
  assert (G : forall p q x v, fst p < fst q -> (v - snd p) * (fst q - fst p) = (snd q - snd p) * (x - fst p) -> v = snd p + (snd q - snd p) / (fst q - fst p) * (x - fst p)).
  { intros p q x v H E. apply (Rmult_eq_reg_r (fst q - fst p)); [|lra]. replace ((snd p + (snd q - snd p) / (fst q - fst p) * (x - fst p)) * (fst q - fst p)) with (snd p * (fst q - fst p) + (snd q - snd p) * (x - fst p)) by (field; lra). lra. }
  assert (END : forall p q, fst p < fst q -> snd p + (snd q - snd p) / (fst q - fst p) * (fst q - fst p) = snd q) by (intros; field; lra).
  assert (K : forall l p q x v, rising (p :: q :: l) -> fst p <= x <= fst q -> on_table (p :: q :: l) x v -> v = snd p + (snd q - snd p) / (fst q - fst p) * (x - fst p)).
  { intros l p q x v HR HX (a & b & I & HB & E). assert (HP : fst p < fst q) by (apply HR; rewrite edges_cons2; left; reflexivity). rewrite edges_cons2 in I. destruct I as [I|I]; [injection I as <- <-; apply G; assumption|].
    pose proof (edge_bounds l q a b (rising_tail _ _ HR) I) as Q. assert (x = fst q) by lra. assert (fst a = fst q) by lra. subst x. rewrite END by exact HP.
    destruct l as [|r l]; [destruct I|]. rewrite edges_cons2 in I. pose proof (rising_tail _ _ HR) as HR'. assert (HQ : fst q < fst r) by (apply HR'; rewrite edges_cons2; left; reflexivity).
    destruct I as [I|I]; [injection I as <- <-|pose proof (edge_bounds l r a b (rising_tail _ _ HR') I); lra]. rewrite Rminus_eq_0, Rmult_0_r in E. apply Rmult_integral in E. destruct E; lra. }
  induction l as [|p l IH]; intros x v w HR HV HW; [destruct HV as (a & b & [] & _)|]. destruct l as [|q l]; [destruct HV as (a & b & [] & _)|].
  assert (HP : fst p < fst q) by (apply HR; rewrite edges_cons2; left; reflexivity). destruct (Rle_dec x (fst q)) as [L|L].
  - assert (LO : forall v, on_table (p :: q :: l) x v -> fst p <= x) by (intros u (a & b & I & HB & _); pose proof (edge_bounds (q :: l) p a b HR I); lra).
    pose proof (LO v HV). rewrite (K l p q x v HR ltac:(lra) HV), (K l p q x w HR ltac:(lra) HW). reflexivity.
  - apply (IH x); [exact (rising_tail _ _ HR)| |].
    + destruct HV as (a & b & I & HB & E). rewrite edges_cons2 in I. destruct I as [I|I]; [injection I as <- <-; lra|]. exists a, b. split; [exact I|]. split; assumption.
    + destruct HW as (a & b & I & HB & E). rewrite edges_cons2 in I. destruct I as [I|I]; [injection I as <- <-; lra|]. exists a, b. split; [exact I|]. split; assumption.
Qed.
(** Monotone tables give monotone, bounded values. *)
Lemma table_between p q x v : fst p < fst q -> fst p <= x <= fst q -> (v - snd p) * (fst q - fst p) = (snd q - snd p) * (x - fst p) ->
  Rmin (snd p) (snd q) <= v <= Rmax (snd p) (snd q).
Proof.
  intros HP HX E. assert (EV : v = snd p + (snd q - snd p) * ((x - fst p) / (fst q - fst p))) by (apply (Rmult_eq_reg_r (fst q - fst p)); [|lra]; replace ((snd p + (snd q - snd p) * ((x - fst p) / (fst q - fst p))) * (fst q - fst p)) with (snd p * (fst q - fst p) + (snd q - snd p) * (x - fst p)) by (field; lra); lra).
  set (u := (x - fst p) / (fst q - fst p)) in *. assert (U : 0 <= u <= 1).
  { unfold u. split; [apply Rmult_le_pos; [lra|apply Rlt_le, Rinv_0_lt_compat; lra]|]. apply (Rmult_le_reg_r (fst q - fst p)); [lra|]. unfold Rdiv. rewrite Rmult_assoc, Rinv_l by lra. lra. }
  subst v. unfold Rmin, Rmax. destruct (Rle_dec (snd p) (snd q)); nra.
Qed.
Lemma interp_mono (s : R) : forall l p x y, s * s = 1 -> rising (p :: l) -> (forall a b, In (a, b) (edges (p :: l)) -> s * snd a <= s * snd b) -> fst p <= x <= y ->
  s * snd p <= s * interp_from x p l <= s * interp_from y p l.
Proof.
  intros l p x y S1. revert p x y. induction l as [|q l IH]; intros p x y HR HM HX; [cbn; lra|]. cbn [interp_from].
  assert (HP : fst p < fst q) by (apply HR; rewrite edges_cons2; left; reflexivity). assert (HS : s * snd p <= s * snd q) by (apply HM; rewrite edges_cons2; left; reflexivity).
  assert (C : forall x, fst p <= x <= fst q -> s * snd p <= s * (snd p + (snd q - snd p) / (fst q - fst p) * (x - fst p)) <= s * snd q).
  { intros z Z. replace (s * (snd p + (snd q - snd p) / (fst q - fst p) * (z - fst p))) with (s * snd p + (s * snd q - s * snd p) * ((z - fst p) / (fst q - fst p))) by (field; lra).
    set (u := (z - fst p) / (fst q - fst p)). assert (U : 0 <= u <= 1).
    { unfold u. split; [apply Rmult_le_pos; [lra|apply Rlt_le, Rinv_0_lt_compat; lra]|]. apply (Rmult_le_reg_r (fst q - fst p)); [lra|]. unfold Rdiv. rewrite Rmult_assoc, Rinv_l by lra. lra. }
    nra. }
  destruct (Rleb_spec x (fst q)) as [LX|LX]; destruct (Rleb_spec y (fst q)) as [LY|LY].
  - pose proof (C x ltac:(lra)). split; [lra|]. replace (s * (snd p + (snd q - snd p) / (fst q - fst p) * (x - fst p))) with (s * snd p + (s * snd q - s * snd p) * / (fst q - fst p) * (x - fst p)) by (field; lra).
    replace (s * (snd p + (snd q - snd p) / (fst q - fst p) * (y - fst p))) with (s * snd p + (s * snd q - s * snd p) * / (fst q - fst p) * (y - fst p)) by (field; lra).
    assert (0 <= (s * snd q - s * snd p) * / (fst q - fst p)) by (apply Rmult_le_pos; [lra|apply Rlt_le, Rinv_0_lt_compat; lra]). nra.
  - pose proof (C x ltac:(lra)). assert (M := IH q (fst q) y (rising_tail _ _ HR) ltac:(intros a b I; apply HM; rewrite edges_cons2; right; exact I) ltac:(lra)). lra.
  - lra.
  - assert (M := IH q x y (rising_tail _ _ HR) ltac:(intros a b I; apply HM; rewrite edges_cons2; right; exact I) ltac:(lra)). lra.
Qed.
Lemma np_interp_mono (s : R) p l x y : s * s = 1 -> rising (p :: l) -> (forall a b, In (a, b) (edges (p :: l)) -> s * snd a <= s * snd b) -> x <= y -> s * np_interp x (p :: l) <= s * np_interp y (p :: l).
Proof.
  intros S1 HR HM H. cbn [np_interp]. destruct (Rleb_spec x (fst p)) as [L|L]; destruct (Rleb_spec y (fst p)) as [L'|L']; try lra.
  - assert (M := interp_mono s l p (fst p) y S1 HR HM ltac:(lra)). lra.
  - apply (interp_mono s l p x y S1 HR HM). lra.
Qed.
Lemma interp_end : forall l p x, rising (p :: l) -> l <> [] -> fst (last l p) <= x -> interp_from x p l = snd (last l p).
Proof.
  induction l as [|q l IH]; intros p x HR NE HX; [contradiction|]. cbn [interp_from]. assert (HP : fst p < fst q) by (apply HR; rewrite edges_cons2; left; reflexivity).
  destruct l as [|r l].
  - cbn in HX |- *. destruct (Rleb_spec x (fst q)) as [L|L]; [|reflexivity]. replace x with (fst q) by lra. field. lra.
  - change (last (q :: r :: l) p) with (last (r :: l) p) in *. rewrite (last_indep (r :: l) p q) in * by discriminate. pose proof (rising_tail _ _ HR) as HR'.
    assert (Q : fst q < fst (last (r :: l) q)).
    { clear - HR'. revert q r HR'. induction l as [|t l IH]; intros q r HR; [apply HR; left; reflexivity|]. change (last (r :: t :: l) q) with (last (t :: l) q). rewrite (last_indep (t :: l) q r) by discriminate.
      assert (fst q < fst r) by (apply HR; left; reflexivity). pose proof (IH r t (rising_tail _ _ HR)). lra. }
    destruct (Rleb_spec x (fst q)); [lra|]. apply IH; [exact HR'|discriminate|exact HX].
Qed.

(** * Words *)
Lemma blank_space c : space_char c = true <-> blank c.
Proof.
  unfold space_char, blank. generalize (nat_of_ascii c) as n. intros n. rewrite orb_true_iff, !andb_true_iff, !Nat.leb_le. cbn [In]. lia.
Qed.
Lemma blanks_app a b : blanks (a ++ b)%string <-> blanks a /\ blanks b.
Proof. induction a as [|c a IH]; cbn; [tauto|]. rewrite IH. tauto. Qed.
Lemma sapp_assoc (a b c : string) : ((a ++ b) ++ c = a ++ (b ++ c))%string.
Proof. induction a as [|x a IH]; cbn; [reflexivity|now rewrite IH]. Qed.
Lemma sapp_nil (a : string) : (a ++ "" = a)%string.
Proof. induction a as [|x a IH]; cbn; [reflexivity|now rewrite IH]. Qed.
Lemma lstrip_split s : exists a, s = (a ++ lstrip s)%string /\ blanks a.
Proof.
  induction s as [|c s (a & E & B)]; [exists ""%string; split; [reflexivity|exact I]|]. cbn [lstrip]. destruct (space_char c) eqn:Q.
  - exists (String c a). split; [cbn; now rewrite <- E|]. split; [apply blank_space, Q|exact B].
  - exists ""%string. split; [reflexivity|exact I].
Qed.
Lemma rstrip_split s : exists b, s = (rstrip s ++ b)%string /\ blanks b.
Proof.
  induction s as [|c s (b & E & B)]; [exists ""%string; split; [reflexivity|exact I]|]. cbn [rstrip]. destruct (rstrip s) as [|d t] eqn:Q.
  - cbn in E. destruct (space_char c) eqn:W; [exists (String c b); split; [cbn; now rewrite E|split; [apply blank_space, W|exact B]]|exists b; split; [cbn; now rewrite E|exact B]].
  - exists b. split; [|exact B]. change (String c (String d t) ++ b)%string with (String c (String d t ++ b)). now rewrite <- E.
Qed.
Lemma strip_split s : exists a b, s = (a ++ str_strip s ++ b)%string /\ blanks a /\ blanks b.
Proof.
  destruct (lstrip_split s) as (a & E & B). destruct (rstrip_split (lstrip s)) as (b & E' & B'). exists a, b. unfold str_strip. rewrite <- E'. split; [exact E|]. split; assumption.
Qed.
Lemma lstrip_blanks a s : blanks a -> lstrip (a ++ s)%string = lstrip s.
Proof. induction a as [|c a IH]; cbn; [reflexivity|]. intros [H1 H2]. apply blank_space in H1. rewrite H1. apply IH, H2. Qed.
Lemma rstrip_of_blanks b : blanks b -> rstrip b = ""%string.
Proof. induction b as [|c b IH]; cbn; [reflexivity|]. intros [H1 H2]. apply blank_space in H1. rewrite (IH H2), H1. reflexivity. Qed.
Lemma rstrip_blanks s b : blanks b -> rstrip (s ++ b)%string = rstrip s.
Proof. intros B. induction s as [|c s IH]; cbn; [apply rstrip_of_blanks, B|]. now rewrite IH. Qed.
Lemma lstrip_app u b : blanks b -> rstrip (lstrip (u ++ b)%string) = rstrip (lstrip u).
Proof.
  intros B. induction u as [|c u IH]; cbn [lstrip append].
  - rewrite <- (sapp_nil b) at 1. rewrite lstrip_blanks by exact B. reflexivity.
  - destruct (space_char c); [exact IH|]. change (String c (u ++ b)%string) with (String c u ++ b)%string. apply rstrip_blanks, B.
Qed.
Lemma strip_blanks a u b : blanks a -> blanks b -> str_strip (a ++ u ++ b)%string = str_strip u.
Proof. intros A B. unfold str_strip. rewrite lstrip_blanks by exact A. apply lstrip_app, B. Qed.
Lemma upper_space c : space_char (upper_char c) = space_char c.
Proof. destruct c as [[] [] [] [] [] [] [] []]; vm_compute; reflexivity. Qed.
Lemma upper_lstrip s : lstrip (str_upper s) = str_upper (lstrip s).
Proof. induction s as [|c s IH]; cbn [str_upper lstrip]; [reflexivity|]. rewrite upper_space. destruct (space_char c); [exact IH|reflexivity]. Qed.
Lemma upper_rstrip s : rstrip (str_upper s) = str_upper (rstrip s).
Proof.
  induction s as [|c s IH]; cbn [str_upper rstrip]; [reflexivity|]. rewrite IH, upper_space. destruct (rstrip s); cbn [str_upper]; [destruct (space_char c); reflexivity|reflexivity].
Qed.
Lemma upper_strip s : str_strip (str_upper s) = str_upper (str_strip s).
Proof. unfold str_strip. now rewrite upper_lstrip, upper_rstrip. Qed.
Lemma same_word_upper s : forall t, same_word s t = true <-> str_upper s = str_upper t.
Proof.
  induction s as [|a s IH]; intros [|b t]; cbn [same_word str_upper]; try (split; [discriminate|discriminate]); [tauto|].
  rewrite andb_true_iff, Ascii.eqb_eq, IH. change fold_case with upper_char. split; [intros [-> ->]; reflexivity|intros E; injection E as E1 E2; auto].
Qed.
(** upper().strip() recognises exactly the word between white space. *)
Lemma written_upper w s : str_strip (str_upper w) = str_upper w -> str_strip (str_upper s) = str_upper w <-> written w s.
Proof.
  intros HW. split.
  - intros H. destruct (strip_split s) as (a & b & E & A & B). exists a, (str_strip s), b. split; [exact E|]. split; [exact A|]. split; [exact B|].
    apply same_word_upper. rewrite <- H. apply upper_strip.
  - intros (a & u & b & -> & A & B & W). apply same_word_upper in W. rewrite upper_strip, strip_blanks by assumption. rewrite <- upper_strip, <- W. exact HW.
Qed.
Lemma lower_space c : space_char (lower_char c) = space_char c.
Proof. destruct c as [[] [] [] [] [] [] [] []]; vm_compute; reflexivity. Qed.
Lemma lower_upper_char c : upper_char (lower_char c) = upper_char c.
Proof. destruct c as [[] [] [] [] [] [] [] []]; vm_compute; reflexivity. Qed.
Lemma upper_lower_char c : lower_char (upper_char c) = lower_char c.
Proof. destruct c as [[] [] [] [] [] [] [] []]; vm_compute; reflexivity. Qed.
Lemma upper_lower s : str_upper (lower s) = str_upper s.
Proof. induction s as [|c s IH]; cbn; [reflexivity|]. now rewrite lower_upper_char, IH. Qed.
Lemma lower_upper s : lower (str_upper s) = lower s.
Proof. induction s as [|c s IH]; cbn; [reflexivity|]. now rewrite upper_lower_char, IH. Qed.
Lemma lower_eq s t : lower s = lower t <-> str_upper s = str_upper t.
Proof. split; intros E; [rewrite <- (upper_lower s), E; apply upper_lower|rewrite <- (lower_upper s), E; apply lower_upper]. Qed.
Lemma lower_lstrip s : lstrip (lower s) = lower (lstrip s).
Proof. induction s as [|c s IH]; cbn [lower lstrip]; [reflexivity|]. rewrite lower_space. destruct (space_char c); [exact IH|reflexivity]. Qed.
Lemma lower_rstrip s : rstrip (lower s) = lower (rstrip s).
Proof.
  induction s as [|c s IH]; cbn [lower rstrip]; [reflexivity|]. rewrite IH, lower_space. destruct (rstrip s); cbn [lower]; [destruct (space_char c); reflexivity|reflexivity].
Qed.
Lemma lower_strip s : str_strip (lower s) = lower (str_strip s).
Proof. unfold str_strip. now rewrite lower_lstrip, lower_rstrip. Qed.
Lemma written_lower w s : str_strip (lower w) = lower w -> str_strip (lower s) = lower w <-> written w s.
Proof.
  intros HW. assert (HU : str_strip (str_upper w) = str_upper w) by (rewrite upper_strip; rewrite lower_strip in HW; apply lower_eq, HW).
  rewrite <- (written_upper w s HU). rewrite lower_strip, upper_strip. apply lower_eq.
Qed.
Lemma word_upper w s : str_upper s = str_upper w <-> same_word w s = true.
Proof. rewrite same_word_upper. split; intros H; symmetry; exact H. Qed.
Lemma word_lower w s : lower s = lower w <-> same_word w s = true.
Proof. rewrite lower_eq. apply word_upper. Qed.
Lemma Ok_inj {A} (x y : A) : Ok x = Ok y -> x = y.
Proof. intros E. now injection E. Qed.
