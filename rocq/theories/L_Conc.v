From Coq Require Import String ZArith Lra Lia.
From Verif Require Import Base S_Marin L_Marin M_Registry M_Calc S_Calc L_Calc M_Conc S_Conc.
Open Scope R_scope.
Open Scope list_scope.

Ltac rising_tac := let a := fresh in let b := fresh in let I := fresh in intros a b I; cbn [edges map] in I;
  repeat (destruct I as [I|I]; [injection I as <- <-; cbn [fst snd]; lra|]); destruct I.
Lemma rising_c1 : rising mc_eps_c1_table. Proof. rising_tac. Qed.
Lemma rising_clim : rising mc_eps_clim_table. Proof. rising_tac. Qed.
Lemma rising_k : rising mc_k_table. Proof. rising_tac. Qed.
Lemma rising_dry : rising e3_A_phi_dry. Proof. rising_tac. Qed.
Lemma rising_humid : rising e3_A_phi_humid. Proof. rising_tac. Qed.
(** A table with scaled ordinates. *)
Lemma on_table_scale l x v c : on_table l x v -> on_table (map (fun p => (fst p, snd p * c)) l) x (v * c).
Proof.
  intros (p & q & I & H & E). exists (fst p, snd p * c), (fst q, snd q * c). split; [|cbn [fst snd]; split; [exact H|]].
  - change (fst p, snd p * c, (fst q, snd q * c)) with ((fun e : (R * R) * (R * R) => ((fst (fst e), snd (fst e) * c), (fst (snd e), snd (snd e) * c))) (p, q)). rewrite edges_map. apply in_map with (f := fun e : (R * R) * (R * R) => ((fst (fst e), snd (fst e) * c), (fst (snd e), snd (snd e) * c))) in I. exact I.
  - transitivity ((v - snd p) * (fst q - fst p) * c); [ring|]. rewrite E. ring.
Qed.
Lemma graded_in t u fck p q l : t = p :: q :: l -> fst p = 12 -> fst (last (q :: l) p) = 120 -> rising t -> 12 <= fck <= 120 ->
  exists v, graded t u fck = Ok (v / u) /\ on_table t fck v /\ v = np_interp fck t.
Proof.
  intros -> E1 E2 HR HX. unfold graded. destruct (Rltb_spec fck 12); [lra|]. destruct (Rltb_spec 120 fck); [lra|]. cbn [orb].
  eexists. split; [reflexivity|]. split; [|reflexivity]. apply np_interp_on; [exact HR|]. rewrite E1, E2. exact HX.
Qed.
Lemma graded_out t u fck : ~ 12 <= fck <= 120 -> graded t u fck = Err ValueError.
Proof. intros H. unfold graded. destruct (Rltb_spec fck 12); [reflexivity|]. destruct (Rltb_spec 120 fck); [reflexivity|]. lra. Qed.
Lemma table_bounds l x v a b : rising l -> on_table l x v -> (forall p, In p l -> a <= snd p <= b) -> a <= v <= b.
Proof.
  intros HR (p & q & I & HX & E) HB. pose proof (HR p q I) as HP.
  assert (IP : In p l /\ In q l). { clear - I. induction l as [|x l IH]; [destruct I|]. destruct l as [|y l]; [destruct I|]. rewrite edges_cons2 in I. destruct I as [I|I]; [injection I as -> ->; cbn; tauto|]. destruct (IH I). cbn in *. tauto. }
  destruct IP as [Ip Iq]. pose proof (HB p Ip). pose proof (HB q Iq). pose proof (table_between p q x v HP HX E) as T. unfold Rmin, Rmax in T. destruct (Rle_dec (snd p) (snd q)); lra.
Qed.
(** Comparing two columns over the same abscissae. *)
Lemma interp_le : forall (l : list (R * R * R)) x p, rising (map fst (p :: l)) -> (forall r, In r (p :: l) -> snd (fst r) <= snd r) -> fst (fst p) <= x ->
  interp_from x (fst p) (map fst l) <= interp_from x (fst (fst p), snd p) (map (fun r => (fst (fst r), snd r)) l).
Proof.
  induction l as [|q l IH]; intros x p HR HB HX; cbn [map interp_from fst snd]; [apply HB; left; reflexivity|].
  cbn [map] in HR. assert (HP : fst (fst p) < fst (fst q)) by (apply HR; rewrite edges_cons2; left; reflexivity).
  pose proof (HB p (or_introl eq_refl)). pose proof (HB q (or_intror (or_introl eq_refl))).
  destruct (Rleb_spec x (fst (fst q))) as [L|L]; [|apply IH; [exact (rising_tail _ _ HR)|intros r I; apply HB; right; exact I|lra]].
  set (u := (x - fst (fst p)) / (fst (fst q) - fst (fst p))). assert (U : 0 <= u <= 1).
  { unfold u. split; [apply Rmult_le_pos; [lra|apply Rlt_le, Rinv_0_lt_compat; lra]|]. apply (Rmult_le_reg_r (fst (fst q) - fst (fst p))); [lra|]. unfold Rdiv. rewrite Rmult_assoc, Rinv_l by lra. lra. }
  replace (snd (fst p) + (snd (fst q) - snd (fst p)) / (fst (fst q) - fst (fst p)) * (x - fst (fst p))) with ((1 - u) * snd (fst p) + u * snd (fst q)) by (unfold u; field; lra).
  replace (snd p + (snd q - snd p) / (fst (fst q) - fst (fst p)) * (x - fst (fst p))) with ((1 - u) * snd p + u * snd q) by (unfold u; field; lra). nra.
Qed.

(** * Tension *)
Lemma mc_fctm_pos f : f <> 0 -> 0 < mc_fctm f.
Proof.
  intros H. unfold mc_fctm. assert (P : 0 < Rabs f) by (apply Rabs_pos_lt, H). destruct (Rleb_spec (Rabs f) 50); [apply Rmult_lt_0_compat; [lra|apply pw_pos, P]|].
  apply Rmult_lt_0_compat; [lra|]. rewrite <- ln_1. apply ln_increasing; [lra|]. unfold mc_fcm. rewrite (Rabs_pos_eq 8) by lra. lra.
Qed.
Lemma mc_fctm_low f : 0 <= f <= 50 -> mc_fctm f = 3 / 10 * pw f (2 / 3).
Proof. intros H. unfold mc_fctm. rewrite Rabs_pos_eq by lra. destruct (Rleb_spec f 50); [reflexivity|lra]. Qed.
Lemma mc_fctm_high f : 50 < f -> mc_fctm f = 212 / 100 * ln (18 / 10 + 1 / 10 * f).
Proof. intros H. unfold mc_fctm, mc_fcm. rewrite !Rabs_pos_eq by lra. destruct (Rleb_spec f 50); [lra|]. f_equal. f_equal. field. Qed.
Lemma cube_root x : 0 <= x -> pw x (1 / 3) ^ 3 = x.
Proof. intros H. rewrite (pw_frac x (1 / 3) 1 3) by (lia || exact H || (cbn; lra)). ring. Qed.
Lemma two_thirds x : 0 <= x -> pw x (2 / 3) ^ 3 = x ^ 2.
Proof. intros H. apply (pw_frac x (2 / 3) 2 3); [lia|exact H|cbn; lra]. Qed.
(** Comparing powers of fractions by integer arithmetic. *)
Lemma pow_frac_lt a b n c d m : (0 < b)%Z -> (0 < d)%Z -> (a ^ Z.of_nat n * d ^ Z.of_nat m < c ^ Z.of_nat m * b ^ Z.of_nat n)%Z -> (IZR a / IZR b) ^ n < (IZR c / IZR d) ^ m.
Proof.
  intros HB HD H. apply IZR_lt in H. rewrite !mult_IZR, <- !pow_IZR in H. apply IZR_lt in HB, HD. unfold Rdiv. rewrite !Rpow_mult_distr, !pow_inv.
  assert (PB : 0 < IZR b ^ n) by (apply pow_lt, HB). assert (PD : 0 < IZR d ^ m) by (apply pow_lt, HD). revert H PB PD. generalize (IZR a ^ n) (IZR b ^ n) (IZR c ^ m) (IZR d ^ m). intros A B C D H PB PD.
  apply Rmult_lt_reg_r with (B * D); [apply Rmult_lt_0_compat; assumption|]. replace (A * / B * (B * D)) with (A * D) by (field; lra). replace (C * / D * (B * D)) with (C * B) by (field; lra). exact H.
Qed.
(** ln(6.801) < 1.919811. *)
Lemma ln_bound : ln (6801 / 1000) < 1919811 / 1000000.
Proof.
  apply exp_lt_inv. rewrite exp_ln by lra. set (x := 1919811 / 1000000 / 32). replace (1919811 / 1000000) with (INR 32 * x) by (unfold x; cbn; field).
  assert (E : exp (INR 32 * x) = exp x ^ 32). { generalize 32%nat as n. induction n as [|n IH]; [cbn; rewrite Rmult_0_l; apply exp_0|]. rewrite S_INR, Rmult_plus_distr_r, exp_plus, IH, Rmult_1_l. cbn. ring. }
  rewrite E. assert (Q : 10617937 / 10000000 <= exp x). { eapply Rle_trans; [|apply exp_quad; unfold x; lra]. unfold x. lra. }
  apply Rlt_le_trans with ((10617937 / 10000000) ^ 32); [|apply pow_incr; lra]. rewrite <- (pow_1 (6801 / 1000)). apply pow_frac_lt; reflexivity.
Qed.
(** (120/17)^100 against 40^53 and 39.9^53. *)
Lemma pow_100_lo : (120 / 17) ^ 100 < 40 ^ 53.
Proof. replace (40 ^ 53) with ((40 / 1) ^ 53) by (f_equal; field). apply pow_frac_lt; reflexivity. Qed.
Lemma pow_100_hi : (399 / 10) ^ 53 <= (120 / 17) ^ 100.
Proof. apply Rlt_le, pow_frac_lt; reflexivity. Qed.

(** * Tables over a grid *)
Lemma mean_bound (l : list ((R * R) * R)) (f : (R * R) * R -> R) a b : forall w, List.length w = List.length l -> Forall (fun x => 0 <= x) w -> (forall d, In d l -> a <= f d <= b) ->
  a * lsum w <= lsum (map (fun '(u, d) => u * f d) (combine w l)) <= b * lsum w.
Proof.
  induction l as [|d l IH]; intros [|u w] L F B; try discriminate L; cbn [combine map]; rewrite ?lsum_nil, ?lsum_cons; [lra|].
  inversion F as [|? ? U F']; subst. injection L as L. specialize (IH w L F' (fun d' I => B d' (or_intror I))). pose proof (B d (or_introl eq_refl)). nra.
Qed.
Lemma map_fst_combine {A B} (a : list A) : forall b : list B, List.length a = List.length b -> map fst (combine a b) = a.
Proof. induction a as [|x a IH]; intros [|y b] L; try discriminate L; [reflexivity|]. cbn. f_equal. apply IH. now injection L. Qed.
Lemma NoDup_prod {A B} (xs : list A) (ys : list B) : NoDup xs -> NoDup ys -> NoDup (list_prod xs ys).
Proof.
  intros NX NY. induction NX as [|x xs I NX IH]; cbn [list_prod]; [constructor|]. induction ys as [|y ys IHy] in NY, IH |- *; cbn [map app]; [exact IH|].
  assert (G : forall zs, NoDup zs -> NoDup (map (fun y => (x, y)) zs ++ list_prod xs (y :: ys))).
  { intros zs NZ. induction NZ as [|z zs J NZ IHz]; cbn [map app]; [exact IH|]. constructor; [|exact IHz]. rewrite in_app_iff, in_map_iff, in_prod_iff. intros [(z' & E & J')|[E _]]; [injection E as ->; tauto|tauto]. }
  exact (G (y :: ys) NY).
Qed.
Lemma grid_mean xs ys vs w p v : mean_of (grid xs ys vs) w p v -> forall a b c d e f,
  (forall x, In x xs -> a <= x <= b) -> (forall y, In y ys -> c <= y <= d) -> (forall z, In z vs -> e <= z <= f) -> (a <= fst p <= b) /\ (c <= snd p <= d) /\ e <= v <= f.
Proof.
  intros (L & F & S1 & EX & EY & EV) a b c d e f HX HY HV.
  assert (I : forall q, In q (grid xs ys vs) -> In (fst (fst q)) xs /\ In (snd (fst q)) ys /\ In (snd q) vs).
  { intros [[x y] z] I. cbn. split; [|split]; [apply in_combine_l, in_prod_iff in I; tauto|apply in_combine_l, in_prod_iff in I; tauto|now apply in_combine_r in I]. }
  pose proof (mean_bound _ (fun q => fst (fst q)) a b w L F (fun q J => HX _ (proj1 (I q J)))) as B1. pose proof (mean_bound _ (fun q => snd (fst q)) c d w L F (fun q J => HY _ (proj1 (proj2 (I q J))))) as B2.
  pose proof (mean_bound _ (fun q => snd q) e f w L F (fun q J => HV _ (proj2 (proj2 (I q J))))) as B3. cbv beta in B1, B2, B3. rewrite EX in B1. rewrite EY in B2. rewrite EV in B3. rewrite S1 in *. lra.
Qed.
Lemma all_in (l : list R) (P : R -> Prop) : Forall P l -> forall x, In x l -> P x.
Proof. intros F x I. rewrite Forall_forall in F. apply F, I. Qed.
(** The corners of the rectangle have the rectangle as their hull. *)
Lemma corners x0 x1 xs vs x y : (exists m, xs = x0 :: m ++ [x1]) -> List.length vs = (List.length xs * 4)%nat -> x0 < x1 -> x0 <= x <= x1 -> 100 <= y <= 1000 -> exists w v, mean_of (grid xs e3_h vs) w (x, y) v.
Proof.
  intros (m & ->) L H HX HY. set (u := (x - x0) / (x1 - x0)). set (s := (y - 100) / 900).
  assert (U : 0 <= u <= 1). { assert (u * (x1 - x0) = x - x0) by (unfold u; field; lra). split; nra. } assert (V : 0 <= s <= 1) by (unfold s; lra).
  set (z := repeat 0 (4 * List.length m)). set (w := [(1 - u) * (1 - s); 0; 0; (1 - u) * s] ++ z ++ [u * (1 - s); 0; 0; u * s]).
  assert (Z0 : forall (g : (R * R) * R -> R) q, lsum (map (fun '(a, d) => a * g d) (combine (repeat 0 q) (combine (list_prod m e3_h) (firstn q (skipn 4 vs))))) = 0).
  { intros g q. generalize (combine (list_prod m e3_h) (firstn q (skipn 4 vs))). clear. induction q as [|q IH]; intros [|d l]; cbn [repeat combine map]; rewrite ?lsum_nil, ?lsum_cons; try reflexivity. rewrite IH. ring. }
  assert (LV : List.length vs = (4 + (4 * List.length m + 4))%nat) by (rewrite L; cbn [List.length]; rewrite app_length; cbn [List.length]; lia).
  assert (EV : exists a b c d e f g h mid, vs = [a; b; c; d] ++ mid ++ [e; f; g; h] /\ List.length mid = (4 * List.length m)%nat).
  { clear - LV. destruct vs as [|a [|b [|c [|d vs]]]]; try (cbn in LV; lia). cbn [List.length] in LV. assert (LW : List.length vs = (4 * List.length m + 4)%nat) by lia. clear LV.
    rewrite <- (firstn_skipn (4 * List.length m) vs). assert (LS : List.length (skipn (4 * List.length m) vs) = 4%nat) by (rewrite skipn_length; lia).
    destruct (skipn (4 * List.length m) vs) as [|e [|f [|g [|h [|]]]]]; try (cbn in LS; lia). exists a, b, c, d, e, f, g, h, (firstn (4 * List.length m) vs). split; [reflexivity|rewrite firstn_length; lia]. }
  destruct EV as (a & b & c & d & e & f & g & h & mid & -> & LM).
  assert (LP : List.length (list_prod m e3_h) = (4 * List.length m)%nat) by (rewrite prod_length; cbn; lia).
  assert (CA : forall (A B : Type) (p1 p2 : list A) (q1 q2 : list B), List.length p1 = List.length q1 -> combine (p1 ++ p2) (q1 ++ q2) = combine p1 q1 ++ combine p2 q2).
  { clear. intros A B p1. induction p1 as [|p p1 IH]; intros p2 [|q q1] q2 E; try discriminate E; [reflexivity|]. cbn. f_equal. apply IH. now injection E. }
  assert (EG : grid (x0 :: m ++ [x1]) e3_h ([a; b; c; d] ++ mid ++ [e; f; g; h]) = combine (list_prod [x0] e3_h) [a; b; c; d] ++ combine (list_prod m e3_h) mid ++ combine (list_prod [x1] e3_h) [e; f; g; h]).
  { unfold grid. change (x0 :: m ++ [x1]) with ([x0] ++ m ++ [x1]). assert (PA : forall p q : list R, list_prod (p ++ q) e3_h = list_prod p e3_h ++ list_prod q e3_h).
    { clear. induction p as [|z p IH]; intros q; [reflexivity|]. cbn [app list_prod]. now rewrite IH, app_assoc. }
    rewrite !PA, CA by reflexivity. f_equal. apply CA. rewrite LP, LM. reflexivity. }
  assert (SUM : forall k : (R * R) * R -> R, lsum (map (fun '(a, d) => a * k d) (combine w (grid (x0 :: m ++ [x1]) e3_h ([a; b; c; d] ++ mid ++ [e; f; g; h])))) =
    (1 - u) * (1 - s) * k ((x0, 100), a) + (1 - u) * s * k ((x0, 1000), d) + u * (1 - s) * k ((x1, 100), e) + u * s * k ((x1, 1000), h)).
  { intros k. rewrite EG. unfold w. rewrite CA by reflexivity. rewrite CA by (unfold z; rewrite repeat_length, combine_length; lia). rewrite !map_app, !lsum_app.
    assert (EZ : lsum (map (fun '(a, d) => a * k d) (combine z (combine (list_prod m e3_h) mid))) = 0).
    { unfold z. generalize (combine (list_prod m e3_h) mid). generalize (4 * List.length m)%nat. clear. intros q. induction q as [|q IH]; intros [|r l]; cbn [repeat combine map]; rewrite ?lsum_nil, ?lsum_cons; try reflexivity. rewrite IH. ring. }
    rewrite EZ. cbn [list_prod map app e3_h combine]. rewrite !lsum_cons, !lsum_nil. ring. }
  clear Z0. exists w. eexists. split; [|split; [|split; [|split; [|split]]]].
  - rewrite EG. unfold w. rewrite !app_length, !combine_length. unfold z. rewrite repeat_length, LP, LM. cbn. lia.
  - unfold w. repeat (apply Forall_cons; [nra|]). apply Forall_app. split; [unfold z; apply Forall_forall; intros q I; apply repeat_spec in I; lra|]. repeat (apply Forall_cons; [nra|]). constructor.
  - unfold w. rewrite !lsum_app, !lsum_cons, !lsum_nil. assert (EZ : lsum z = 0). { unfold z. generalize (4 * List.length m)%nat. clear. induction n as [|n IH]; cbn [repeat]; rewrite ?lsum_nil, ?lsum_cons; [reflexivity|]. rewrite IH. ring. } rewrite EZ. ring.
  - rewrite (SUM (fun q => fst (fst q))). cbn [fst snd]. unfold u. field. lra.
  - rewrite (SUM (fun q => snd (fst q))). cbn [fst snd]. unfold s. field.
  - reflexivity.
Qed.
(** A table lookup by interpolation. *)
Lemma table_lookup gd xs x0 x1 vs lo hi : interpolates gd -> (exists m, xs = x0 :: m ++ [x1]) -> List.length vs = (List.length xs * 4)%nat -> x0 < x1 -> NoDup xs -> Forall (fun x => x0 <= x <= x1) xs -> Forall (fun v => lo <= v <= hi) vs ->
  forall x y, (x0 <= x <= x1 /\ 100 <= y <= 1000 -> exists v, gd (grid xs e3_h vs) (x, y) = Some v /\ lo <= v <= hi /\ forall d, In ((x, y), d) (grid xs e3_h vs) -> v = d) /\
    (~ (x0 <= x <= x1 /\ 100 <= y <= 1000) -> gd (grid xs e3_h vs) (x, y) = None).
Proof.
  intros G HX LV HL ND FX FV x y. destruct (G (grid xs e3_h vs) (x, y)) as (G1 & G2 & G3).
  assert (FH : Forall (fun y => 100 <= y <= 1000) e3_h) by (unfold e3_h; repeat (apply Forall_cons; [lra|]); apply Forall_nil).
  split; intros H.
  - destruct (gd (grid xs e3_h vs) (x, y)) as [v|] eqn:E; [|exfalso; apply (G2 eq_refl); apply (corners x0 x1); tauto]. exists v. split; [reflexivity|]. destruct (G1 v eq_refl) as (w & M). split.
    + apply (grid_mean _ _ _ _ _ _ M x0 x1 100 1000 lo hi); apply all_in; assumption.
    + intros d I. assert (N : NoDup (map fst (grid xs e3_h vs))).
      { unfold grid. rewrite map_fst_combine by (rewrite prod_length; cbn [List.length e3_h]; lia). apply NoDup_prod; [exact ND|]. unfold e3_h. repeat (constructor; [cbn; intros Q; repeat destruct Q as [Q|Q]; try (lra || contradiction)|]). constructor. }
      specialize (G3 N _ I). cbn [fst snd] in G3. rewrite G3 in E. now injection E.
  - destruct (gd (grid xs e3_h vs) (x, y)) as [v|] eqn:E; [|reflexivity]. exfalso. apply H. destruct (G1 v eq_refl) as (w & M). pose proof (grid_mean _ _ _ _ _ _ M x0 x1 100 1000 lo hi (all_in _ _ FX) (all_in _ _ FH) (all_in _ _ FV)). cbn [fst snd] in *. tauto.
Qed.
(** Words after normalisation. *)
Lemma atm_words atm : one_of (str_strip (lower atm)) ["dry"; "humid"]%string = false <-> ~ written "dry" atm /\ ~ written "humid" atm.
Proof.
  rewrite <- (written_lower "dry" atm), <- (written_lower "humid" atm) by reflexivity. unfold one_of. cbn [existsb lower]. cbv [lower_char]. cbn.
  destruct (String.eqb_spec (str_strip (lower atm)) "dry"), (String.eqb_spec (str_strip (lower atm)) "humid"); cbn; split; intros; try discriminate; try tauto.
Qed.
Lemma class_words cls : one_of (str_strip (str_upper cls)) e3_classes = false <-> forall d w, In w (class_names d) -> ~ written w cls.
Proof.
  assert (W : forall w, str_strip (str_upper w) = str_upper w -> (str_strip (str_upper cls) = str_upper w <-> written w cls)) by (intros w E; apply written_upper, E).
  unfold one_of, e3_classes. split.
  - intros H d w I N. assert (E : str_strip (str_upper cls) = w). { destruct d; cbn [class_names In] in I; repeat (destruct I as [<- | I]; [match type of N with written ?x _ => exact (proj2 (W x eq_refl) N) end|]); destruct I. }
    rewrite E in H. destruct d; cbn [class_names In] in I; repeat (destruct I as [<- | I]; [discriminate H|]); destruct I.
  - intros H. cbn [existsb]. repeat match goal with |- context [String.eqb ?a ?b] => destruct (String.eqb_spec a b) as [E|_]; [exfalso|] end; [| | | | | |reflexivity];
      [apply (H slow "CS"%string)|apply (H normal "CN"%string)|apply (H rapid "CR"%string)|apply (H slow "SLOW"%string)|apply (H normal "NORMAL"%string)|apply (H rapid "RAPID"%string)]; try (cbn; tauto); match goal with |- written ?x _ => exact (proj1 (W x eq_refl) E) end.
Qed.
Lemma grid_nth xs : forall vs i j x y v, nth_error xs i = Some x -> nth_error e3_h j = Some y -> nth_error vs (4 * i + j) = Some v -> In ((x, y), v) (grid xs e3_h vs).
Proof.
  induction xs as [|x0 xs IH]; intros vs i j x y v HX HY HV; [destruct i; discriminate HX|].
  assert (J : (j < 4)%nat) by (change 4%nat with (List.length e3_h); apply nth_error_Some; rewrite HY; discriminate).
  destruct i as [|i].
  - injection HX as <-. unfold grid. cbn [list_prod]. cbn [Nat.mul Nat.add] in HV. clear IH.
    assert (G : forall (hs : list R) rest vs j, nth_error hs j = Some y -> nth_error vs j = Some v -> In ((x0, y), v) (combine (map (fun h => (x0, h)) hs ++ rest) vs)).
    { clear. induction hs as [|h hs IH]; intros rest [|u vs] [|j] HY HV; try discriminate HY; try discriminate HV; cbn.
      - injection HY as <-. injection HV as <-. now left.
      - right. apply (IH rest vs j); assumption. }
    apply (G e3_h _ vs j HY HV).
  - cbn [nth_error] in HX. destruct vs as [|a [|b [|c [|d vs]]]]; try (exfalso; revert HV; replace (4 * S i + j)%nat with (S (S (S (S (4 * i + j))))) by lia; cbn; destruct (4 * i + j)%nat; discriminate).
    assert (HV' : nth_error vs (4 * i + j) = Some v). { revert HV. replace (4 * S i + j)%nat with (S (S (S (S (4 * i + j))))) by lia. cbn. trivial. }
    specialize (IH vs i j x y v HX HY HV'). unfold grid in *. cbn. right. right. right. right. exact IH.
Qed.
