(** Lemmas for EC2:2004 crack control. *)
From Coq Require Import String ZArith Lra Lia.
From Verif Require Import Base M_Registry M_Calc S_Calc L_Calc M_Conc S_Conc L_Conc M_Crack S_Crack.
Open Scope R_scope.
Open Scope list_scope.

Ltac chk1 := cbv beta; match goal with
  | |- context [Rltb ?a ?b] => destruct (Rltb_spec a b)
  | |- context [Rleb ?a ?b] => destruct (Rleb_spec a b)
  | |- context [Reqb ?a ?b] => destruct (Reqb_spec a b)
  end; cbn [refuse bind orb andb negb].
Ltac chk := cbn [refuse bind orb andb negb]; repeat (chk1; try reflexivity; try (exfalso; lra)).
Lemma pdiv_ok a b : b <> 0 -> pdiv a b = Ok (a / b).
Proof. intros H. unfold pdiv. destruct (Reqb_spec b 0); [contradiction|reflexivity]. Qed.
Lemma pdiv_0 a b : b = 0 -> pdiv a b = Err ZeroDivisionError.
Proof. intros H. unfold pdiv. destruct (Reqb_spec b 0); [reflexivity|contradiction]. Qed.
Lemma pdiv_inv a b x : pdiv a b = Ok x -> b <> 0 /\ x * b = a.
Proof. unfold pdiv. destruct (Reqb_spec b 0); [discriminate|]. intros E. apply Ok_inj in E. subst. split; [assumption|field; assumption]. Qed.
Lemma refuse_inv c : refuse c = Ok tt <-> c = false.
Proof. destruct c; cbn; split; congruence. Qed.
(** An accepted list of checks. *)
Lemma bind_refuse {A} c (f : unit -> result A) x : bind (refuse c) f = Ok x -> c = false /\ f tt = Ok x.
Proof. destruct c; cbn; [discriminate|]. tauto. Qed.
Lemma one_of_spec s l : one_of s l = true <-> In s l.
Proof.
  unfold one_of. rewrite existsb_exists. split; [intros (x & I & E); apply String.eqb_eq in E; subst; exact I|]. intros I. exists s. split; [exact I|apply String.eqb_refl].
Qed.
(** The words of a list of upper (lower) case words. *)
Lemma one_of_upper l s : Forall (fun w => str_strip (str_upper w) = w /\ str_upper w = w) l -> one_of (str_strip (str_upper s)) l = true <-> exists w, In w l /\ written w s.
Proof.
  intros F. rewrite Forall_forall in F. rewrite one_of_spec. split.
  - intros I. destruct (F _ I) as [A B]. eexists. split; [exact I|]. apply written_upper; congruence.
  - intros (w & I & W). destruct (F _ I) as [A B]. apply (written_upper w) in W; [|congruence]. rewrite W, B. exact I.
Qed.
Lemma one_of_lower l s : Forall (fun w => str_strip (lower w) = w /\ lower w = w) l -> one_of (str_strip (lower s)) l = true <-> exists w, In w l /\ written w s.
Proof.
  intros F. rewrite Forall_forall in F. rewrite one_of_spec. split.
  - intros I. destruct (F _ I) as [A B]. eexists. split; [exact I|]. apply written_lower; congruence.
  - intros (w & I & W). destruct (F _ I) as [A B]. apply (written_lower w) in W; [|congruence]. rewrite W, B. exact I.
Qed.
Lemma eqb_lower w s : str_strip (lower w) = w -> lower w = w -> String.eqb (str_strip (lower s)) w = true <-> written w s.
Proof. intros A B. rewrite String.eqb_eq. rewrite <- (written_lower w s) by congruence. rewrite B. reflexivity. Qed.
Lemma written_fun w w' s : str_strip (lower w) = w -> lower w = w -> str_strip (lower w') = w' -> lower w' = w' -> written w s -> written w' s -> w = w'.
Proof. intros A B A' B' W W'. apply written_lower in W; [|congruence]. apply written_lower in W'; [|congruence]. congruence. Qed.

Definition spa_line (d : (R * R) * R) : R := fst (fst d) - 800 * snd (fst d).
Lemma present_phi d : In d (present ck_points_phi) -> (160 <= fst (fst d) <= 450) /\ (2 / 10 <= snd (fst d) <= 4 / 10) /\ 4 <= snd d <= 40.
Proof. intros I. cbn in I. repeat (destruct I as [<- | I]; [cbn [fst snd]; lra|]). destruct I. Qed.
Lemma present_spa d : In d (present ck_points_spa) -> (160 <= fst (fst d) <= 360) /\ (2 / 10 <= snd (fst d) <= 4 / 10) /\ (50 <= snd d <= 300) /\ -160 <= spa_line d <= 120.
Proof. intros I. unfold spa_line. cbn in I. repeat (destruct I as [<- | I]; [cbn [fst snd]; lra|]). destruct I. Qed.
Lemma mean_fst l : forall w, lsum (map (fun '(u, d) => u * spa_line d) (combine w l)) =
  lsum (map (fun '(a, d) => a * fst (fst d)) (combine w l)) - 800 * lsum (map (fun '(a, d) => a * snd (fst d)) (combine w l)).
Proof.
  induction l as [|d l IH]; intros w; [destruct w; cbn [combine map]; rewrite ?lsum_nil; ring|]. destruct w as [|a w]; [cbn [combine map]; rewrite ?lsum_nil; ring|]. cbn [combine map]. rewrite !lsum_cons, IH. unfold spa_line. ring.
Qed.
Lemma nodup_phi : NoDup (map fst ck_points_phi).
Proof.
  unfold ck_points_phi. rewrite map_fst_combine by reflexivity. apply NoDup_prod; unfold ck_y_phi, ck_x;
  repeat (apply NoDup_cons; [cbn [In]; let H := fresh in intros H; repeat (destruct H as [H|H]; [lra|]); destruct H|]); apply NoDup_nil.
Qed.
Lemma nodup_spa : NoDup (map fst ck_points_spa).
Proof.
  unfold ck_points_spa. rewrite map_fst_combine by reflexivity. apply NoDup_prod; unfold ck_y_spa, ck_x;
  repeat (apply NoDup_cons; [cbn [In]; let H := fresh in intros H; repeat (destruct H as [H|H]; [lra|]); destruct H|]); apply NoDup_nil.
Qed.
Lemma tabulated_in t pts s w v : (forall s row, In (s, row) t -> forall j w v, nth_error widths j = Some w -> nth_error row j = Some v -> In ((s, w), Some v) pts) -> tabulated t s w v -> In ((s, w), Some v) pts.
Proof. intros H (row & j & I & W & V). exact (H _ _ I _ _ _ W V). Qed.
Lemma in_nth {A} (l : list A) i x : nth_error l i = Some x -> In x l.
Proof. apply nth_error_In. Qed.
Ltac tab_in := intros s row I j w v W V; repeat (destruct I as [I|I];
  [apply pair_equal_spec in I; destruct I as [<- <-]; destruct j as [|[|[|j]]]; cbn in W, V; try discriminate;
   try (destruct j; discriminate); apply (f_equal (fun o => match o with Some z => z | None => 0 end)) in W, V; subst w v|]); try destruct I.
Lemma tab_phi s w v : tabulated largest_bar s w v -> In ((s, w), Some v) ck_points_phi.
Proof.
  apply tabulated_in. clear. unfold largest_bar. tab_in;
  match goal with |- In ?x _ => match eval cbn in (ck_points_phi) with ?l =>
    let rec go l n := match l with x :: _ => exact (nth_error_In ck_points_phi n (eq_refl (Some x))) | _ :: ?l' => go l' (Datatypes.S n) end in go l 0%nat end end.
Qed.
Lemma tab_spa s w v : tabulated largest_spacing s w v -> In ((s, w), Some v) ck_points_spa.
Proof.
  apply tabulated_in. clear. unfold largest_spacing. tab_in;
  match goal with |- In ?x _ => match eval cbn in (ck_points_spa) with ?l =>
    let rec go l n := match l with x :: _ => exact (nth_error_In ck_points_spa n (eq_refl (Some x))) | _ :: ?l' => go l' (Datatypes.S n) end in go l 0%nat end end.
Qed.
(** A choice between two words. *)
Lemma two_words {A} w1 w2 s (v1 v2 : A) : str_strip (lower w1) = w1 -> lower w1 = w1 -> str_strip (lower w2) = w2 -> lower w2 = w2 -> w1 <> w2 ->
  let r := if negb (one_of (str_strip (lower s)) [w1; w2]) then Err ValueError else Ok (if String.eqb (str_strip (lower s)) w1 then v1 else v2) in
  (written w1 s -> r = Ok v1) /\ (written w2 s -> r = Ok v2) /\ (~ written w1 s -> ~ written w2 s -> r = Err ValueError).
Proof.
  intros A1 B1 A2 B2 N r. rewrite <- (eqb_lower w1 s A1 B1), <- (eqb_lower w2 s A2 B2). subst r. unfold one_of. cbn [existsb]. rewrite !String.eqb_eq.
  destruct (String.eqb_spec (str_strip (lower s)) w1) as [E|E]; destruct (String.eqb_spec (str_strip (lower s)) w2) as [F|F]; cbn [orb negb]; repeat split; intros; try reflexivity; congruence.
Qed.
Lemma Rmax_div a b c : 0 < c -> Rmax (a / c) (b / c) = Rmax a b / c.
Proof. intros P. unfold Rdiv. rewrite !(Rmult_comm _ (/ c)). apply RmaxRmult, Rlt_le, Rinv_0_lt_compat, P. Qed.
Lemma Rmin_div a b c : 0 < c -> Rmin (a / c) (b / c) = Rmin a b / c.
Proof.
  intros P. pose proof (Rinv_0_lt_compat c P). unfold Rmin, Rdiv. destruct (Rle_dec a b) as [L|L], (Rle_dec (a * / c) (b * / c)) as [M|M]; try reflexivity; exfalso; [apply M, Rmult_le_compat_r; lra|]. apply Rnot_le_lt in L. apply (Rmult_lt_compat_r (/ c)) in L; lra.
Qed.
Lemma between a b u v p : 0 <= a -> 0 <= b -> 0 < a + b -> a * (u - p) + b * (v - p) = 0 -> u <= v -> u <= p <= v.
Proof.
  intros PA PB PS E L. split; apply Rnot_lt_le; intros H.
  - assert (0 < (a + b) * (u - p)) by (apply Rmult_lt_0_compat; lra). assert (b * (u - p) <= b * (v - p)) by (apply Rmult_le_compat_l; lra). lra.
  - assert (0 < (a + b) * (p - v)) by (apply Rmult_lt_0_compat; lra). assert (a * (u - p) <= a * (v - p)) by (apply Rmult_le_compat_l; lra). lra.
Qed.
(** The interpolation that only knows the points of the table. *)
Fixpoint at_points (l : list ((R * R) * option R)) (p : R * R) : option R :=
  match l with
  | [] => None
  | (q, o) :: l' => if Req_EM_T (fst q) (fst p) then if Req_EM_T (snd q) (snd p) then o else at_points l' p else at_points l' p
  end.
Lemma lsum_zero {A} (f : A -> R) l : lsum (map (fun '(a, d) => a * f d) (combine (repeat 0 (List.length l)) l)) = 0.
Proof. induction l as [|x l IH]; [apply lsum_nil|]. cbn [List.length repeat combine map]. rewrite lsum_cons, IH. ring. Qed.
Lemma lsum_repeat0 n : lsum (repeat 0 n) = 0.
Proof. induction n as [|n IH]; [apply lsum_nil|]. cbn [repeat]. rewrite lsum_cons, IH. ring. Qed.
Lemma at_points_mean l : forall p v, at_points l p = Some v -> exists w, mean_of (present l) w p v.
Proof.
  induction l as [|[q o] l IH]; intros p v H; [discriminate|]. cbn [at_points] in H.
  assert (STEP : at_points l p = Some v -> exists w, mean_of (present ((q, o) :: l)) w p v).
  { intros E. destruct (IH p v E) as (w & WL & WP & W1 & WX & WY & WV). unfold present. cbn [flat_map snd fst]. fold (present l). destruct o as [x|]; cbn [app]; [|exists w; repeat split; assumption]. exists (0 :: w). unfold mean_of. cbn [List.length combine map]. rewrite !lsum_cons. cbn [fst snd].
    rewrite WX, WY, WV, W1. repeat split; try ring; [congruence|]. constructor; [lra|exact WP]. }
  destruct (Req_EM_T (fst q) (fst p)) as [EX|]; [|exact (STEP H)]. destruct (Req_EM_T (snd q) (snd p)) as [EY|]; [|exact (STEP H)].
  subst o. unfold present. cbn [flat_map snd fst app]. fold (present l). exists (1 :: repeat 0 (List.length (present l))). unfold mean_of. cbn [List.length combine map]. rewrite !lsum_cons. cbn [fst snd].
  rewrite (lsum_zero (fun d => fst (fst d))), (lsum_zero (fun d => snd (fst d))), (lsum_zero (fun d => snd d)), lsum_repeat0, repeat_length. repeat split; try lra. constructor; [lra|]. apply Forall_forall. intros x I. apply repeat_spec in I. lra.
Qed.
Lemma at_points_own l : forall p v, at_points l p = Some v -> NoDup (map fst l) -> forall u, In (p, u) l -> u = Some v.
Proof.
  induction l as [|[q o] l IH]; intros p v H ND u I; [destruct I|]. cbn [map fst] in ND. inversion ND as [|? ? NI ND']; subst. cbn [at_points] in H. destruct I as [I|I].
  - injection I as -> ->. destruct (Req_EM_T (fst p) (fst p)); [|lra]. destruct (Req_EM_T (snd p) (snd p)); [|lra]. exact H.
  - destruct (Req_EM_T (fst q) (fst p)) as [EX|]; [|exact (IH p v H ND' u I)]. destruct (Req_EM_T (snd q) (snd p)) as [EY|]; [|exact (IH p v H ND' u I)]. exfalso. apply NI. apply in_map_iff. exists (p, u). split; [|exact I]. destruct p, q; cbn in *; congruence.
Qed.
Lemma at_points_in l : forall p o, NoDup (map fst l) -> In (p, o) l -> at_points l p = o.
Proof.
  induction l as [|[q o'] l IH]; intros p o ND I; [destruct I|]. cbn [map fst] in ND. inversion ND as [|? ? NI ND']; subst. cbn [at_points]. destruct I as [I|I].
  - injection I as -> ->. destruct (Req_EM_T (fst p) (fst p)); [|lra]. destruct (Req_EM_T (snd p) (snd p)); [|lra]. reflexivity.
  - destruct (Req_EM_T (fst q) (fst p)) as [EX|]; [|exact (IH p o ND' I)]. destruct (Req_EM_T (snd q) (snd p)) as [EY|]; [|exact (IH p o ND' I)]. exfalso. apply NI. apply in_map_iff. exists (p, o). split; [|exact I]. destruct p, q; cbn in *; congruence.
Qed.
