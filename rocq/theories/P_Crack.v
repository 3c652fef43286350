(** C38: EC2:2004 crack control. *)
From Coq Require Import String ZArith Lra Lia.
From Verif Require Import Base M_Registry M_Calc S_Calc L_Calc M_Conc S_Conc L_Conc M_Crack S_Crack L_Crack L_Creep.
Open Scope R_scope.
Open Scope list_scope.

(** Table 7.1N, whatever the case of the words and the white space around them; anything
    else, and the frequent combination with chlorides, is rejected. *)
Theorem C38_w_max : forall cls comb,
  (written "f" comb -> forall e, is_class e cls -> ck_w_max cls comb = match frequent_width e with Some w => Ok w | None => Err ValueError end) /\
  (written "qp" comb -> forall e, is_class e cls -> ck_w_max cls comb = Ok (permanent_width e)) /\
  (~ written "f" comb -> ~ written "qp" comb -> ck_w_max cls comb = Err ValueError) /\
  ((forall e, ~ is_class e cls) -> ck_w_max cls comb = Err ValueError).
Proof.
  intros cls comb. unfold ck_w_max. cbv zeta.
  pose proof (eqb_lower "f" comb eq_refl eq_refl) as F. pose proof (eqb_lower "qp" comb eq_refl eq_refl) as Q.
  assert (FQ : written "f" comb -> written "qp" comb -> False). { intros A B. pose proof (written_fun "f" "qp" comb eq_refl eq_refl eq_refl eq_refl A B). discriminate. }
  set (u := str_strip (str_upper cls)).
  assert (CL : forall e, is_class e cls <-> In u (exposure_names e)).
  { intros e. unfold is_class. rewrite <- (one_of_upper (exposure_names e) cls); [rewrite one_of_spec; reflexivity|]. destruct e; repeat constructor. }
  assert (O : forall l, one_of u l = true <-> In u l) by (intros; apply one_of_spec).
  pose proof (O ["X0"; "XC1"]%string) as O1. pose proof (O ["XC2"; "XC3"; "XC4"]%string) as O2. pose proof (O ["XC2"; "XC3"; "XC4"; "XD1"; "XD2"; "XS1"; "XS2"; "XS3"]%string) as O3.
  assert (D : forall e, In u (exposure_names e) -> forall e', In u (exposure_names e') -> e' = e). { intros e I e' I'. destruct e, e'; try reflexivity; cbn in I, I'; exfalso; repeat (destruct I as [I|I]; [rewrite <- I in I'; repeat (destruct I' as [I'|I']; [discriminate|]); destruct I'|]); destruct I. }
  assert (ALL : In u ["XC2"; "XC3"; "XC4"; "XD1"; "XD2"; "XS1"; "XS2"; "XS3"]%string <-> In u (exposure_names carbonation) \/ In u (exposure_names chlorides)).
  { change ["XC2"; "XC3"; "XC4"; "XD1"; "XD2"; "XS1"; "XS2"; "XS3"]%string with (exposure_names carbonation ++ exposure_names chlorides). apply in_app_iff. }
  change ["X0"; "XC1"]%string with (exposure_names very_dry) in *. change ["XC2"; "XC3"; "XC4"]%string with (exposure_names carbonation) in *.
  destruct (String.eqb (str_strip (lower comb)) "f"), (String.eqb (str_strip (lower comb)) "qp"); destruct (one_of u (exposure_names very_dry)); destruct (one_of u (exposure_names carbonation)); destruct (one_of u _);
  repeat split; intros; try tauto; try (match goal with e : exposure |- _ => match goal with H : is_class e _ |- _ => apply CL in H; pose proof (D e H) as DD; destruct e end end; cbn [frequent_width permanent_width]; try reflexivity; exfalso; intuition discriminate);
  try (match goal with H : forall e, ~ is_class e _ |- _ => exfalso; pose proof (H very_dry); pose proof (H carbonation); pose proof (H chlorides); rewrite CL in *; tauto end).
  all: try (match goal with |- _ = Err ValueError => fail 1 | H : is_class ?e _ |- _ => apply CL in H; pose proof (D e H very_dry); pose proof (D e H carbonation); pose proof (D e H chlorides); destruct e; cbn [frequent_width permanent_width]; try reflexivity; exfalso; intuition discriminate end).
Qed.
Print Assumptions C38_w_max.
(** Size coefficient: 1 up to 300 mm, 0.65 from 800 mm on, the straight line between;
    negative sizes rejected. *)
Theorem C38_k : (forall h, h < 0 -> ck_k h = Err ValueError) /\
  exists k, (forall h, 0 <= h -> ck_k h = Ok (k h)) /\ (forall h, h <= 300 -> k h = 1) /\ (forall h, 800 <= h -> k h = 65 / 100) /\
    (forall h, 300 <= h <= 800 -> (k h - 1) * 500 = (65 / 100 - 1) * (h - 300)) /\ never_rises (fun _ => True) k /\ forall a b, Rabs (k a - k b) <= 7 / 10000 * Rabs (a - b).
Proof.
  split; [intros h H; unfold ck_k; chk|].
  exists (fun h => if Rleb h 300 then 1 else if Rltb h 800 then 1 + (65 / 100 - 1) / (800 - 300) * (h - 300) else 65 / 100).
  split; [|split; [|split; [|split; [|split]]]]; cbv beta.
  - intros h H. unfold ck_k. chk.
  - intros h H. repeat chk1; lra.
  - intros h H. repeat chk1; lra.
  - intros h H. repeat chk1; lra.
  - intros x y _ _ H. cbv beta. repeat chk1; lra.
  - set (f := fun h : R => if Rleb h 300 then 1 else if Rltb h 800 then 1 + (65 / 100 - 1) / (800 - 300) * (h - 300) else 65 / 100). intros a b. change (Rabs (f a - f b) <= 7 / 10000 * Rabs (a - b)). assert (L : forall x y, x <= y -> f x - f y <= 7 / 10000 * (y - x) /\ f y <= f x). { intros x y H. unfold f. repeat chk1; lra. }
    destruct (Rle_dec a b) as [H|H]; [destruct (L a b H)|destruct (L b a ltac:(lra))]; unfold Rabs; repeat destruct (Rcase_abs _); lra.
Qed.
Print Assumptions C38_k.
(** Stress distribution coefficients. *)
Theorem C38_kc : forall h b fct, ck_kc_tension = 1 /\
  (0 < h -> 0 < b -> 0 < fct -> exists kc, (forall N, ck_kc_rect_area h b fct N = Ok (kc N)) /\ (forall N, 0 <= kc N <= 1) /\ kc 0 = 4 / 10 /\ never_rises (fun _ => True) kc /\
    (forall N, let s := N * 1000 / (b * h) in 0 < kc N < 1 -> kc N = 4 / 10 * (1 - (if Rle_dec 0 N then s / (3 / 2 * (h / Rmin h 1000) * fct) else s / (2 / 3 * fct))))) /\
  (forall N, h < 0 \/ b < 0 -> ck_kc_rect_area h b fct N = Err ValueError) /\
  (forall N, 0 <= h -> 0 <= b -> h = 0 \/ b = 0 \/ fct = 0 -> ck_kc_rect_area h b fct N = Err ZeroDivisionError).
Proof.
  intros h b fct. split; [reflexivity|]. split; [|split].
  - intros PH PB PF. set (hs := Rmin h 1000). assert (PS : 0 < hs) by (unfold hs, Rmin; destruct (Rle_dec _ _); lra). assert (LS : hs <= h) by apply Rmin_l.
    set (m := fun N => N * (1000 / (b * h) / ((if Rleb 0 N then 3 / 2 * (h / hs) else 2 / 3) * fct))). set (kc := fun N => Rmin (Rmax (4 / 10 * (1 - m N)) 0) 1).
    assert (P2 : 0 < h / hs) by (apply Rdiv_lt_0_compat; assumption). assert (PQ : 0 < 1000 / (b * h)) by (apply Rdiv_lt_0_compat; [lra|apply Rmult_lt_0_compat; assumption]).
    assert (MN : never_falls (fun _ => True) m).
    { intros x y _ _ H. unfold m. assert (PX : forall N, 0 < 1000 / (b * h) / ((if Rleb 0 N then 3 / 2 * (h / hs) else 2 / 3) * fct)). { intros N. apply Rdiv_lt_0_compat; [exact PQ|]. apply Rmult_lt_0_compat; [|exact PF]. chk1; lra. }
      pose proof (PX x) as A. pose proof (PX y) as B. revert A B. destruct (Rleb_spec 0 x), (Rleb_spec 0 y); intros A B; try lra; try (apply Rmult_le_compat_r; lra). apply Rle_trans with 0; [|apply Rmult_le_pos; lra]. apply Rlt_le. rewrite <- (Rmult_0_l (1000 / (b * h) / (2 / 3 * fct))). apply Rmult_lt_compat_r; lra. }
    exists kc. split; [|split; [|split; [|split]]].
    + intros N. unfold ck_kc_rect_area. fold hs. destruct (Rltb_spec h 0); [lra|]. destruct (Rltb_spec b 0); [lra|]. cbn [refuse bind].
      assert (EN : (if Rleb 0 N then Ok (15 / 10) else pdiv (2 * hs / 3) h) = Ok (if Rleb 0 N then 15 / 10 else 2 * hs / 3 / h)). { destruct (Rleb 0 N); [reflexivity|]. apply pdiv_ok; lra. }
      rewrite EN. cbn [bind]. assert (K1 : 0 < (if Rleb 0 N then 15 / 10 else 2 * hs / 3 / h)) by (destruct (Rleb 0 N); [lra|]; apply Rdiv_lt_0_compat; lra).
      rewrite (pdiv_ok (N * 1000) b) by lra. cbn [bind]. rewrite pdiv_ok by lra. cbn [bind]. rewrite (pdiv_ok h hs) by lra. cbn [bind]. rewrite pdiv_ok by lra. cbn [bind]. rewrite pdiv_ok by lra. cbn [bind]. rewrite pdiv_ok by lra. cbn [bind].
      unfold kc, m. do 5 f_equal. destruct (Rleb 0 N); field; repeat split; lra.
    + intros N. unfold kc. split; [|apply Rmin_r]. apply Rmin_glb; [apply Rmax_r|lra].
    + unfold kc, m. rewrite Rmult_0_l, Rmax_left, Rmin_left by (try rewrite Rmax_left; lra). lra.
    + intros x y _ _ H. unfold kc. apply Rle_min_compat_r. apply Rle_max_compat_r. pose proof (MN x y I I H). lra.
    + intros N s H. assert (E : kc N = 4 / 10 * (1 - m N)). { revert H. unfold kc. unfold Rmin, Rmax. repeat destruct (Rle_dec _ _); lra. } rewrite E. unfold m, s. destruct (Rleb_spec 0 N), (Rle_dec 0 N); try lra; fold hs; do 2 f_equal; field; repeat split; lra.
  - intros N H. unfold ck_kc_rect_area. destruct (Rltb_spec h 0); [reflexivity|]. destruct (Rltb_spec b 0); [reflexivity|lra].
  - intros N PH PB H. unfold ck_kc_rect_area. destruct (Rltb_spec h 0); [lra|]. destruct (Rltb_spec b 0); [lra|]. cbn [refuse bind]. destruct (Req_EM_T h 0) as [ZH|ZH].
    { destruct (Rleb 0 N); cbn [bind]; [|rewrite (pdiv_0 _ h ZH); reflexivity]. unfold pdiv at 1. destruct (Reqb b 0); cbn [bind]; [reflexivity|]. rewrite (pdiv_0 _ h ZH). reflexivity. }
    assert (K1 : exists k, (if Rleb 0 N then Ok (15 / 10) else pdiv (2 * Rmin h 1000 / 3) h) = Ok k) by (destruct (Rleb 0 N); [eexists; reflexivity|]; rewrite pdiv_ok by exact ZH; eexists; reflexivity).
    destruct K1 as [k ->]. cbn [bind]. unfold pdiv. repeat (match goal with |- context [Reqb ?a ?c] => destruct (Reqb_spec a c) end; cbn [bind]; try reflexivity). exfalso. destruct H as [H|[H|H]]; contradiction.
Qed.
Print Assumptions C38_kc.
Theorem C38_kc_flanges : forall F A fct, 0 < A -> 0 < fct -> exists kc, ck_kc_flanges_area F A fct = Ok kc /\ 1 / 2 <= kc /\ 900 * Rabs F <= kc * A * fct /\ (kc = 1 / 2 \/ kc * A * fct = 900 * Rabs F).
Proof.
  intros F A fct PA PF. unfold ck_kc_flanges_area. rewrite pdiv_ok by lra. cbn [bind]. rewrite pdiv_ok by lra. cbn [bind]. eexists. split; [reflexivity|].
  set (q := 9 / 10 * Rabs F * 1000 / A / fct). assert (E : q * A * fct = 900 * Rabs F) by (unfold q; field; lra). assert (0 < A * fct) by (apply Rmult_lt_0_compat; assumption).
  split; [pose proof (Rmax_r q (5 / 10)); lra|]. split.
  - rewrite <- E, !Rmult_assoc. apply Rmult_le_compat_r; [lra|apply Rmax_l].
  - unfold Rmax. destruct (Rle_dec _ _); [left; lra|right; exact E].
Qed.
Print Assumptions C38_kc_flanges.
(** Minimum reinforcement: As sigma_s = kc k |fct| Act, non-negative; out-of-range arguments
    are rejected; sigma_s = 0, which the checks let through, divides by zero. *)
Theorem C38_As_min : forall A_ct sigma_s fct k kc,
  (in_scope A_ct sigma_s k kc -> 0 < sigma_s -> exists As, ck_As_min A_ct sigma_s fct k kc = Ok As /\ 0 <= As /\ As * sigma_s = kc * k * Rabs fct * A_ct) /\
  (in_scope A_ct sigma_s k kc -> sigma_s = 0 -> ck_As_min A_ct sigma_s fct k kc = Err ZeroDivisionError) /\
  (~ in_scope A_ct sigma_s k kc -> ck_As_min A_ct sigma_s fct k kc = Err ValueError).
Proof.
  intros A_ct sigma_s fct k kc. unfold ck_As_min, in_scope. split; [|split].
  - intros (PA & _ & PK & PC) PS. chk. rewrite pdiv_ok by lra. eexists. split; [reflexivity|]. split; [|field; lra].
    apply Rmult_le_pos; [|apply Rlt_le, Rinv_0_lt_compat, PS]. repeat apply Rmult_le_pos; try lra. apply Rabs_pos.
  - intros (PA & _ & PK & PC) PS. chk. apply pdiv_0, PS.
  - intros H. chk.
Qed.
Print Assumptions C38_As_min.
(** Bond ratio of prestressing steel: for bars and tendons xi1^2 phi_p = xi phi_s, for
    tendons alone xi1^2 = xi. *)
Theorem C38_xi1 : forall xi phi_p phi_s,
  (15 / 100 <= xi <= 8 / 10 -> 0 < phi_p -> 0 <= phi_s -> exists x, ck_xi1 xi phi_p phi_s = Ok x /\ 0 < x /\ (0 < phi_s -> x ^ 2 * phi_p = xi * phi_s) /\ (phi_s = 0 -> x ^ 2 = xi)) /\
  (~ (15 / 100 <= xi <= 8 / 10 /\ 0 < phi_p /\ 0 <= phi_s) -> ck_xi1 xi phi_p phi_s = Err ValueError).
Proof.
  intros xi phi_p phi_s. unfold ck_xi1. split.
  - intros HX HP HS. destruct (Rleb_spec phi_p 0); [lra|]. destruct (Rltb_spec phi_s 0); [lra|]. destruct (Rltb_spec xi (15 / 100)); [lra|]. destruct (Rltb_spec (8 / 10) xi); [lra|]. cbn [refuse bind]. eexists. split; [reflexivity|].
    destruct (Rltb_spec 0 phi_s) as [P|P].
    + assert (Q : 0 < xi * phi_s / phi_p) by (apply Rdiv_lt_0_compat; [apply Rmult_lt_0_compat; lra|exact HP]). split; [apply sqrt_lt_R0, Q|]. split; [|lra]. intros _. rewrite pow2_sqrt by lra. field. lra.
    + split; [apply sqrt_lt_R0; lra|]. split; [lra|]. intros _. apply pow2_sqrt. lra.
  - intros H. chk; exfalso; apply H; lra.
Qed.
Print Assumptions C38_xi1.
(** With prestressing steel: As sigma_s + xi1 Ap delta_s = kc k |fct| Act, never above the
    area without it. *)
Theorem C38_As_min_p : forall A_ct sigma_s fct k kc Ap phi_s phi_p xi delta_s, in_scope A_ct sigma_s k kc -> 0 < sigma_s -> 0 <= Ap -> 0 <= delta_s ->
  (forall x, ck_xi1 xi phi_p phi_s = Ok x -> exists As As0, ck_As_min_p A_ct sigma_s fct k kc Ap phi_s phi_p xi delta_s = Ok As /\ ck_As_min A_ct sigma_s fct k kc = Ok As0 /\
    As * sigma_s + x * Ap * delta_s = kc * k * Rabs fct * A_ct /\ As <= As0 /\ (Ap = 0 \/ delta_s = 0 -> As = As0)) /\
  (ck_xi1 xi phi_p phi_s = Err ValueError -> ck_As_min_p A_ct sigma_s fct k kc Ap phi_s phi_p xi delta_s = Err ValueError).
Proof.
  intros A_ct sigma_s fct k kc Ap phi_s phi_p xi delta_s (PA & _ & PK & PC) PS PP PD.
  assert (E : ck_As_min_p A_ct sigma_s fct k kc Ap phi_s phi_p xi delta_s = bind (ck_xi1 xi phi_p phi_s) (fun e1 => Ok ((kc * k * Rabs fct * A_ct - e1 * Ap * delta_s) / sigma_s))).
  { unfold ck_As_min_p. destruct (Rltb_spec Ap 0); [lra|]. destruct (Rltb_spec delta_s 0); [lra|]. destruct (Rleb_spec A_ct 0); [lra|]. destruct (Rltb_spec sigma_s 0); [lra|]. destruct (Rltb_spec k (65 / 100)); [lra|]. destruct (Rltb_spec 1 k); [lra|]. destruct (Rltb_spec 1 kc); [lra|]. destruct (Rltb_spec kc 0); [lra|]. cbn [refuse bind orb].
    destruct (ck_xi1 xi phi_p phi_s); cbn [bind]; [apply pdiv_ok; lra|reflexivity]. }
  rewrite E. split.
  - intros x EX. rewrite EX. cbn [bind]. exists ((kc * k * Rabs fct * A_ct - x * Ap * delta_s) / sigma_s), (kc * k * Rabs fct * A_ct / sigma_s). split; [reflexivity|]. split; [unfold ck_As_min; chk; apply pdiv_ok; lra|].
    assert (PX : 0 <= x). { revert EX. unfold ck_xi1. chk; intros EX; try discriminate; apply Ok_inj in EX; subst x; apply sqrt_pos. }
    split; [field; lra|]. split.
    + apply Rmult_le_compat_r; [apply Rlt_le, Rinv_0_lt_compat, PS|]. assert (0 <= x * Ap * delta_s) by (repeat apply Rmult_le_pos; assumption). lra.
    + intros [Z|Z]; rewrite Z; field; lra.
  - intros EX. rewrite EX. reflexivity.
Qed.
Print Assumptions C38_As_min_p.
(** Arguments outside the scope are refused before anything is computed, and a zero
    stress cannot be met. *)
Theorem C38_As_min_p_checks : forall A_ct sigma_s fct k kc Ap phi_s phi_p xi delta_s,
  (~ in_scope A_ct sigma_s k kc \/ Ap < 0 \/ delta_s < 0 -> ck_As_min_p A_ct sigma_s fct k kc Ap phi_s phi_p xi delta_s = Err ValueError) /\
  (in_scope A_ct 0 k kc -> 0 <= Ap -> 0 <= delta_s -> forall x, ck_xi1 xi phi_p phi_s = Ok x -> ck_As_min_p A_ct 0 fct k kc Ap phi_s phi_p xi delta_s = Err ZeroDivisionError).
Proof.
  intros A_ct sigma_s fct k kc Ap phi_s phi_p xi delta_s. unfold in_scope, ck_As_min_p. split.
  - intros H. destruct (Rltb_spec Ap 0); [reflexivity|]. destruct (Rltb_spec delta_s 0); [reflexivity|]. destruct (Rleb_spec A_ct 0); [reflexivity|]. destruct (Rltb_spec sigma_s 0); [reflexivity|].
    destruct (Rltb_spec k (65 / 100)); [reflexivity|]. destruct (Rltb_spec 1 k); [reflexivity|]. destruct (Rltb_spec 1 kc); [reflexivity|]. destruct (Rltb_spec kc 0); [reflexivity|].
    exfalso. destruct H as [H|H]; [apply H; repeat split; lra|lra].
  - intros (PA & _ & PK & PC) PP PD x EX. destruct (Rltb_spec Ap 0); [lra|]. destruct (Rltb_spec delta_s 0); [lra|]. destruct (Rleb_spec A_ct 0); [lra|]. destruct (Rltb_spec 0 0); [lra|]. destruct (Rltb_spec k (65 / 100)); [lra|]. destruct (Rltb_spec 1 k); [lra|]. destruct (Rltb_spec 1 kc); [lra|]. destruct (Rltb_spec kc 0); [lra|]. cbn [refuse bind orb]. rewrite EX. cbn [bind]. unfold pdiv. destruct (Reqb_spec 0 0); [reflexivity|lra].
Qed.
Print Assumptions C38_As_min_p_checks.
(** Depth of the effective tension area: the least of its three bounds. *)
Theorem C38_hc_eff : forall h d x,
  (0 <= d <= h /\ 0 <= x <= h -> exists v, ck_hc_eff h d x = Ok v /\ 0 <= v /\ v <= 5 / 2 * (h - d) /\ v <= (h - x) / 3 /\ v <= h / 2 /\ (v = 5 / 2 * (h - d) \/ v = (h - x) / 3 \/ v = h / 2)) /\
  (~ (0 <= d <= h /\ 0 <= x <= h) -> ck_hc_eff h d x = Err ValueError).
Proof.
  intros h d x. unfold ck_hc_eff. split.
  - intros H. destruct (Rltb_spec h 0); [lra|]. destruct (Rltb_spec d 0); [lra|]. destruct (Rltb_spec x 0); [lra|]. destruct (Rltb_spec h d); [lra|]. destruct (Rltb_spec h x); [lra|]. cbn [refuse bind]. eexists. split; [reflexivity|].
    unfold Rmin. repeat destruct (Rle_dec _ _); repeat split; lra.
  - intros H. chk.
Qed.
Print Assumptions C38_hc_eff.
(** Largest bars without calculation.  With s = sigma_s - delta_s: nothing is required for
    s <= 0; at a tabulated stress and width the tabulated values, the diameter scaled by
    [bar_factor]; results lie in the range of the tables; outside the tables ValueError. *)
Theorem C38_As_min_2 : forall gd, interpolates_gaps gd -> forall wk sigma_s fct h_cr h d delta_s kc, 0 <= wk -> 0 <= fct -> 0 <= h_cr -> 0 <= d -> d < h -> (forall k, kc = Some k -> 0 <= k <= 1) ->
  let s := sigma_s - delta_s in let f := bar_factor fct h_cr h d kc in 0 <= f /\
  (s <= 0 -> ck_As_min_2 gd wk sigma_s fct h_cr h d delta_s kc = Ok (0, 0)) /\
  (0 < s -> (exists phi spa, ck_As_min_2 gd wk sigma_s fct h_cr h d delta_s kc = Ok (phi * f, spa)) \/ ck_As_min_2 gd wk sigma_s fct h_cr h d delta_s kc = Err ValueError) /\
  (forall phi spa, 0 < s -> ck_As_min_2 gd wk sigma_s fct h_cr h d delta_s kc = Ok (phi, spa) ->
    160 <= s <= 360 /\ 2 / 10 <= wk <= 4 / 10 /\ s <= 280 + 800 * (wk - 2 / 10) /\ 4 * f <= phi <= 40 * f /\ 50 <= spa <= 300 /\
    (forall v, tabulated largest_bar s wk v -> phi = v * f) /\ (forall v, tabulated largest_spacing s wk v -> spa = v)).
Proof.
  intros gd GD wk sigma_s fct h_cr h d delta_s kc PW PF PC PD LT PK s f.
  assert (F0 : 0 <= f). { unfold f, bar_factor. destruct kc as [k|]; apply Rmult_le_pos; try (apply Rlt_le, Rinv_0_lt_compat; lra). - destruct (PK k eq_refl). repeat apply Rmult_le_pos; lra. - repeat apply Rmult_le_pos; lra. }
  assert (E : ck_As_min_2 gd wk sigma_s fct h_cr h d delta_s kc = if Rleb s 0 then Ok (0, 0) else match gd ck_points_phi (s, wk), gd ck_points_spa (s, wk) with Some phi, Some spa => Ok (phi * f, spa) | _, _ => Err ValueError end).
  { unfold ck_As_min_2. destruct (Rltb_spec wk 0); [lra|]. destruct (Rltb_spec fct 0); [lra|]. destruct (Rltb_spec h_cr 0); [lra|]. destruct (Rltb_spec h 0); [lra|]. destruct (Rltb_spec d 0); [lra|].
    assert (EK : (match kc with Some kc => orb (Rltb kc 0) (Rltb 1 kc) | None => false end) = false). { destruct kc as [k|]; [|reflexivity]. destruct (PK k eq_refl). destruct (Rltb_spec k 0); [lra|]. destruct (Rltb_spec 1 k); [lra|reflexivity]. }
    rewrite EK. cbn [refuse bind]. fold s. destruct (Rleb s 0); [reflexivity|]. cbv zeta.
    assert (EF : (match kc with Some kc => pdiv (fct / (29 / 10) * kc * h_cr) (2 * (h - d)) | None => pdiv (fct / (29 / 10) * h_cr) (8 * (h - d)) end) = Ok f).
    { unfold f, bar_factor. destruct kc; rewrite pdiv_ok by lra; f_equal. field. lra. }
    rewrite EF. reflexivity. }
  rewrite E. split; [exact F0|]. split; [intros H; destruct (Rleb_spec s 0); [reflexivity|lra]|]. split.
  - intros H. destruct (Rleb_spec s 0); [lra|]. destruct (gd ck_points_phi (s, wk)) as [phi|]; [|right; reflexivity]. destruct (gd ck_points_spa (s, wk)) as [spa|]; [|right; reflexivity]. left. exists phi, spa. reflexivity.
  - intros phi spa H. destruct (Rleb_spec s 0); [lra|]. destruct (gd ck_points_phi (s, wk)) as [p|] eqn:GP; [|discriminate]. destruct (gd ck_points_spa (s, wk)) as [q|] eqn:GS; [|discriminate]. intros EE. apply Ok_inj in EE. apply pair_equal_spec in EE. destruct EE as [<- <-].
    destruct (GD _ _ _ GP) as ((w & WL & WP & W1 & WX & WY & WV) & TP). destruct (GD _ _ _ GS) as ((w' & WL' & WP' & W1' & WX' & WY' & WV') & TS). cbn [fst snd] in *.
    pose proof (mean_bound _ (fun d => snd d) 4 40 w WL WP (fun d I => proj2 (proj2 (present_phi d I)))) as B. cbv beta in B. rewrite WV, W1 in B.
    pose proof (mean_bound _ (fun d => fst (fst d)) 160 360 w' WL' WP' (fun d I => proj1 (present_spa d I))) as B1. cbv beta in B1. rewrite WX', W1' in B1.
    pose proof (mean_bound _ (fun d => snd (fst d)) (2 / 10) (4 / 10) w' WL' WP' (fun d I => proj1 (proj2 (present_spa d I)))) as B2. cbv beta in B2. rewrite WY', W1' in B2.
    pose proof (mean_bound _ (fun d => snd d) 50 300 w' WL' WP' (fun d I => proj1 (proj2 (proj2 (present_spa d I))))) as B3. cbv beta in B3. rewrite WV', W1' in B3.
    pose proof (mean_bound _ spa_line (-160) 120 w' WL' WP' (fun d I => proj2 (proj2 (proj2 (present_spa d I))))) as B4. rewrite mean_fst, WX', WY', W1' in B4.
    split; [lra|]. split; [lra|]. split; [lra|]. split; [split; apply Rmult_le_compat_r; lra|]. split; [lra|]. split.
    + intros v T. f_equal. pose proof (TP nodup_phi _ (tab_phi _ _ _ T)) as EV. injection EV as ->. reflexivity.
    + intros v T. pose proof (TS nodup_spa _ (tab_spa _ _ _ T)) as EV. injection EV as ->. reflexivity.
Qed.
Print Assumptions C38_As_min_2.
(** An effective depth larger than the depth is not rejected and gives a negative bar
    diameter; an equal one divides by zero. *)
Theorem C38_As_min_2_depth_refuted : forall gd, interpolates_gaps gd -> forall wk sigma_s fct h_cr h d, 0 <= wk -> 0 < fct -> 0 < h_cr -> 0 <= h -> 0 < sigma_s ->
  (h < d -> forall phi spa, ck_As_min_2 gd wk sigma_s fct h_cr h d 0 None = Ok (phi, spa) -> phi < 0) /\
  (h = d -> ck_As_min_2 gd wk sigma_s fct h_cr h d 0 None = Err ZeroDivisionError).
Proof.
  intros gd GD wk sigma_s fct h_cr h d PW PF PC PH PS. split; intros H; unfold ck_As_min_2; destruct (Rltb_spec wk 0); try lra; destruct (Rltb_spec fct 0); try lra; destruct (Rltb_spec h_cr 0); try lra; destruct (Rltb_spec h 0); try lra; destruct (Rltb_spec d 0); try lra; cbn [refuse bind]; cbv zeta; destruct (Rleb_spec (sigma_s - 0) 0); try lra.
  - intros phi spa. rewrite pdiv_ok by lra. cbn [bind]. destruct (gd ck_points_phi _) as [p|] eqn:GP; [|discriminate]. destruct (gd ck_points_spa _) as [q|]; [|discriminate]. intros E. apply Ok_inj in E. apply pair_equal_spec in E. destruct E as [<- _].
    destruct (GD _ _ _ GP) as ((w & WL & WP & W1 & WX & WY & WV) & TP). pose proof (mean_bound _ (fun d => snd d) 4 40 w WL WP (fun d I => proj2 (proj2 (present_phi d I)))) as B. cbv beta in B. rewrite WV, W1 in B.
    assert (N : fct / (29 / 10) * h_cr / (8 * (h - d)) < 0). { assert (0 < fct / (29 / 10) * h_cr) by (apply Rmult_lt_0_compat; lra). assert (/ (8 * (h - d)) < 0) by (apply Rinv_lt_0_compat; lra). unfold Rdiv. nra. } nra.
  - rewrite pdiv_0 by lra. reflexivity.
Qed.
Print Assumptions C38_As_min_2_depth_refuted.
(** Ratios. *)
Theorem C38_ratios : forall Es Ecm As x Ap Ac,
  (0 <= Es -> 0 < Ecm -> exists a, ck_alpha_e Es Ecm = Ok a /\ 0 <= a /\ a * Ecm = Es) /\ (Es < 0 \/ Ecm < 0 -> ck_alpha_e Es Ecm = Err ValueError) /\
  (0 <= As -> 0 <= x -> 0 <= Ap -> 0 < Ac -> exists r, ck_rho_p_eff As x Ap Ac = Ok r /\ 0 <= r /\ r * Ac = As + x * x * Ap) /\ (As < 0 \/ x < 0 \/ Ap < 0 \/ Ac < 0 -> ck_rho_p_eff As x Ap Ac = Err ValueError).
Proof.
  intros Es Ecm As x Ap Ac. unfold ck_alpha_e, ck_rho_p_eff. split; [|split; [|split]].
  - intros A B. destruct (Rltb_spec Es 0); [lra|]. destruct (Rltb_spec Ecm 0); [lra|]. cbn [refuse bind]. rewrite pdiv_ok by lra. eexists. split; [reflexivity|]. split; [apply Rmult_le_pos; [exact A|apply Rlt_le, Rinv_0_lt_compat, B]|field; lra].
  - intros H. chk.
  - intros A B Q D. destruct (Rltb_spec As 0); [lra|]. destruct (Rltb_spec x 0); [lra|]. destruct (Rltb_spec Ap 0); [lra|]. destruct (Rltb_spec Ac 0); [lra|]. cbn [refuse bind]. rewrite pdiv_ok by lra. eexists. split; [reflexivity|]. split; [|field; lra].
    apply Rmult_le_pos; [|apply Rlt_le, Rinv_0_lt_compat, D]. assert (0 <= x ^ 2 * Ap) by (apply Rmult_le_pos; [apply pow2_ge_0|exact Q]). lra.
  - intros H. chk.
Qed.
Print Assumptions C38_ratios.
(** Words for the load duration and the bond. *)
Theorem C38_words : forall s,
  (written "short" s -> ck_kt (PStr s) = Ok (6 / 10)) /\ (written "long" s -> ck_kt (PStr s) = Ok (4 / 10)) /\ (~ written "short" s -> ~ written "long" s -> ck_kt (PStr s) = Err ValueError) /\
  (written "bond" s -> ck_k1 (PStr s) = Ok (8 / 10)) /\ (written "plain" s -> ck_k1 (PStr s) = Ok (16 / 10)) /\ (~ written "bond" s -> ~ written "plain" s -> ck_k1 (PStr s) = Err ValueError) /\
  ck_kt PNotStr = Err TypeError /\ ck_k1 PNotStr = Err TypeError.
Proof.
  intros s. destruct (two_words "short" "long" s (6 / 10) (4 / 10) eq_refl eq_refl eq_refl eq_refl ltac:(discriminate)) as (A & B & C). destruct (two_words "bond" "plain" s (8 / 10) (16 / 10) eq_refl eq_refl eq_refl eq_refl ltac:(discriminate)) as (D & E & F).
  split; [exact A|]. split; [exact B|]. split; [exact C|]. split; [exact D|]. split; [exact E|]. split; [exact F|]. split; reflexivity.
Qed.
Print Assumptions C38_words.
(** Mean strain difference: at least 0.6 sigma/Es, at most sigma/Es, equal to the tension
    stiffening formula unless that is smaller; never falls with the steel stress.  A zero
    ratio or modulus, which the checks let through, divides by zero. *)
Theorem C38_strain : forall a rho kt fct Es, 0 <= a -> 0 <= rho -> 0 <= fct -> 0 <= Es -> kt = 6 / 10 \/ kt = 4 / 10 ->
  (0 < rho -> 0 < Es -> exists e, (forall s, 0 <= s -> ck_eps_sm_eps_cm s a rho kt fct Es = Ok (e s)) /\
    (forall s, 0 <= s -> 6 / 10 * s <= e s * Es <= s /\ s - kt * fct * (1 + a * rho) / rho <= e s * Es /\ (e s * Es = 6 / 10 * s \/ e s * Es = s - kt * fct * (1 + a * rho) / rho)) /\ increases (fun s => 0 <= s) e) /\
  (rho = 0 \/ Es = 0 -> forall s, 0 <= s -> ck_eps_sm_eps_cm s a rho kt fct Es = Err ZeroDivisionError).
Proof.
  intros a rho kt fct Es PA PR PF PE HK.
  assert (E0 : forall s, 0 <= s -> ck_eps_sm_eps_cm s a rho kt fct Es = do min_val <- pdiv (6 / 10 * s) Es; do b <- pdiv (kt * fct) rho; do c <- pdiv (s - b * (1 + a * rho)) Es; Ok (Rmax c min_val)).
  { intros s H. unfold ck_eps_sm_eps_cm. destruct (Rltb_spec s 0); [lra|]. destruct (Rltb_spec a 0); [lra|]. destruct (Rltb_spec rho 0); [lra|]. destruct (Rltb_spec fct 0); [lra|]. destruct (Rltb_spec Es 0); [lra|]. destruct (Reqb_spec kt (6 / 10)), (Reqb_spec kt (4 / 10)); cbn [refuse bind orb negb]; try reflexivity. tauto. }
  split.
  - intros QR QE. set (b := kt * fct * (1 + a * rho) / rho). assert (PB : 0 <= b). { unfold b. apply Rmult_le_pos; [|apply Rlt_le, Rinv_0_lt_compat, QR]. assert (0 <= a * rho) by (apply Rmult_le_pos; assumption). apply Rmult_le_pos; [apply Rmult_le_pos; [lra|exact PF]|lra]. }
    exists (fun s => Rmax (s - b) (6 / 10 * s) / Es). split; [|split].
    + intros s H. rewrite E0 by exact H. rewrite pdiv_ok by lra. cbn [bind]. rewrite pdiv_ok by lra. cbn [bind]. rewrite pdiv_ok by lra. cbn [bind]. f_equal.
      replace (kt * fct / rho * (1 + a * rho)) with b by (unfold b; field; lra). apply Rmax_div, QE.
    + intros s H. replace (Rmax (s - b) (6 / 10 * s) / Es * Es) with (Rmax (s - b) (6 / 10 * s)) by (field; lra). unfold Rmax. destruct (Rle_dec _ _); lra.
    + intros x y _ _ L. apply Rmult_lt_compat_r; [apply Rinv_0_lt_compat, QE|]. unfold Rmax. repeat destruct (Rle_dec _ _); lra.
  - intros H s PS. rewrite E0 by exact PS. unfold pdiv. destruct (Reqb_spec Es 0); [reflexivity|]. cbn [bind]. destruct (Reqb_spec rho 0); [reflexivity|]. tauto.
Qed.
Print Assumptions C38_strain.
(** Out-of-range arguments of the strain formula are rejected. *)
Theorem C38_strain_checks : forall s a rho kt fct Es, s < 0 \/ a < 0 \/ rho < 0 \/ fct < 0 \/ Es < 0 \/ (kt <> 6 / 10 /\ kt <> 4 / 10) -> ck_eps_sm_eps_cm s a rho kt fct Es = Err ValueError.
Proof.
  intros s a rho kt fct Es H. unfold ck_eps_sm_eps_cm. destruct (Rltb_spec s 0); [reflexivity|]. destruct (Rltb_spec a 0); [reflexivity|]. destruct (Rltb_spec rho 0); [reflexivity|]. destruct (Rltb_spec fct 0); [reflexivity|]. destruct (Rltb_spec Es 0); [reflexivity|].
  cbn [refuse bind]. destruct (Reqb_spec kt (6 / 10)), (Reqb_spec kt (4 / 10)); cbn [orb negb refuse bind]; try reflexivity; exfalso; intuition lra.
Qed.
Print Assumptions C38_strain_checks.
(** Equivalent diameter: between the diameters of the bars present, equal to either when
    only that one is present. *)
Theorem C38_phi_eq : forall (n1 n2 : Z) p1 p2, (0 <= n1)%Z -> (0 <= n2)%Z -> 0 <= p1 -> 0 <= p2 ->
  (0 < IZR n1 * p1 + IZR n2 * p2 -> exists p, ck_phi_eq (PInt n1) (PInt n2) p1 p2 = Ok p /\ Rmin p1 p2 <= p <= Rmax p1 p2 /\ p * (IZR n1 * p1 + IZR n2 * p2) = IZR n1 * (p1 * p1) + IZR n2 * (p2 * p2) /\
     (n1 = 0%Z -> p = p2) /\ (n2 = 0%Z -> p = p1) /\ ck_phi_eq (PInt n2) (PInt n1) p2 p1 = Ok p) /\
  (IZR n1 * p1 + IZR n2 * p2 = 0 -> ck_phi_eq (PInt n1) (PInt n2) p1 p2 = Err ZeroDivisionError).
Proof.
  intros n1 n2 p1 p2 Z1 Z2 P1 P2. apply IZR_le in Z1 as R1. apply IZR_le in Z2 as R2.
  assert (E : forall m1 m2 q1 q2, 0 <= IZR m1 -> 0 <= IZR m2 -> 0 <= q1 -> 0 <= q2 -> ck_phi_eq (PInt m1) (PInt m2) q1 q2 = pdiv (IZR m1 * q1 ^ 2 + IZR m2 * q2 ^ 2) (IZR m1 * q1 + IZR m2 * q2)).
  { intros m1 m2 q1 q2 A B C D. unfold ck_phi_eq, ck_int. cbn [num_val]. destruct (Rltb_spec (IZR m1) 0); [lra|]. destruct (Rltb_spec (IZR m2) 0); [lra|]. destruct (Rltb_spec q1 0); [lra|]. destruct (Rltb_spec q2 0); [lra|]. reflexivity. }
  rewrite !E by assumption. set (x := IZR n1) in *. set (y := IZR n2) in *. split.
  - intros H. rewrite (pdiv_ok _ (x * p1 + y * p2)) by lra. set (p := (x * p1 ^ 2 + y * p2 ^ 2) / (x * p1 + y * p2)). assert (EP : p * (x * p1 + y * p2) = x * (p1 * p1) + y * (p2 * p2)) by (unfold p; field; lra). exists p. split; [reflexivity|].
    assert (A1 : 0 <= x * p1) by (apply Rmult_le_pos; assumption). assert (A2 : 0 <= y * p2) by (apply Rmult_le_pos; assumption).
    assert (EE : x * p1 * (p1 - p) + y * p2 * (p2 - p) = 0) by nra. split; [|split; [exact EP|split; [|split]]].
    + unfold Rmin, Rmax. destruct (Rle_dec p1 p2); [apply (between (x * p1) (y * p2)); assumption|]. apply (between (y * p2) (x * p1)); lra.
    + intros Z. assert (ZX : x = 0) by (unfold x; rewrite Z; reflexivity). rewrite ZX in EE, H. assert (0 < y * p2) by lra. apply Rminus_diag_uniq_sym. nra.
    + intros Z. assert (ZY : y = 0) by (unfold y; rewrite Z; reflexivity). rewrite ZY in EE, H. assert (0 < x * p1) by lra. apply Rminus_diag_uniq_sym. nra.
    + rewrite pdiv_ok by lra. unfold p. f_equal. f_equal; ring.
  - intros H. apply pdiv_0, H.
Qed.
Print Assumptions C38_phi_eq.
Theorem C38_phi_eq_checks : forall n1 n2 p1 p2, 0 <= num_val n1 -> 0 <= num_val n2 ->
  ((exists x, n1 = PFloat x) \/ (exists x, n2 = PFloat x) -> ck_phi_eq n1 n2 p1 p2 = Err TypeError) /\
  (forall z1 z2, n1 = PInt z1 -> n2 = PInt z2 -> p1 < 0 \/ p2 < 0 -> ck_phi_eq n1 n2 p1 p2 = Err ValueError) /\
  (forall m, num_val m < 0 -> ck_phi_eq m n2 p1 p2 = Err ValueError /\ forall z, n1 = PInt z -> ck_phi_eq n1 m p1 p2 = Err ValueError).
Proof.
  intros n1 n2 p1 p2 H1 H2. unfold ck_phi_eq, ck_int. destruct (Rltb_spec (num_val n1) 0); [lra|]. destruct (Rltb_spec (num_val n2) 0); [lra|]. cbn [refuse bind]. split; [|split].
  - intros [[x ->]|[x ->]]; [reflexivity|]. destruct n1; reflexivity.
  - intros z1 z2 -> -> H. cbn [bind]. chk.
  - intros m HM. destruct (Rltb_spec (num_val m) 0); [|lra]. cbn [refuse bind]. split; [reflexivity|]. intros z ->. reflexivity.
Qed.
Print Assumptions C38_phi_eq_checks.
(** Crack spacing. *)
Theorem C38_spacing : forall c phi rho k1 k2 k3 k4, 0 <= c -> 0 <= phi -> 0 < rho -> k1 = 8 / 10 \/ k1 = 16 / 10 -> 1 / 2 <= k2 <= 1 ->
  let a := match k3 with Some x => x | None => 34 / 10 end in let b := match k4 with Some x => x | None => 425 / 1000 end in 0 <= a -> 0 <= b ->
  ck_w_spacing c phi = Ok (5 * c + 5 / 2 * phi) /\
  exists s, ck_sr_max_close c phi rho k1 k2 k3 k4 = Ok s /\ 0 <= s /\ (s - a * c) * rho = k1 * k2 * b * phi.
Proof.
  intros c phi rho k1 k2 k3 k4 HC HP HR HK1 HK2 a b HA HB. split; [unfold ck_w_spacing; chk; f_equal; lra|].
  unfold ck_sr_max_close, ck_k3, ck_k4. cbv zeta. fold a b. destruct (Rltb_spec c 0); [lra|]. destruct (Rltb_spec phi 0); [lra|]. destruct (Rltb_spec rho 0); [lra|]. destruct (Rltb_spec a 0); [lra|]. destruct (Rltb_spec b 0); [lra|]. destruct (Rltb_spec k2 (5 / 10)); [lra|]. destruct (Rltb_spec 1 k2); [lra|].
  assert (EK : orb (Reqb k1 (8 / 10)) (Reqb k1 (16 / 10)) = true) by (destruct (Reqb_spec k1 (8 / 10)), (Reqb_spec k1 (16 / 10)); cbn; try reflexivity; tauto). rewrite EK. cbn [refuse bind orb negb]. rewrite pdiv_ok by lra. cbn [bind]. eexists. split; [reflexivity|]. split; [|field; lra].
  assert (0 <= a * c) by (apply Rmult_le_pos; assumption). assert (0 <= k1 * k2 * b * phi / rho) by (apply Rmult_le_pos; [repeat apply Rmult_le_pos; lra|apply Rlt_le, Rinv_0_lt_compat, HR]). lra.
Qed.
Print Assumptions C38_spacing.
(** Rejected arguments of the spacing formulas. *)
Theorem C38_spacing_checks : forall c phi rho k1 k2 k3 k4,
  (c < 0 \/ phi < 0 \/ rho < 0 \/ (exists x, k3 = Some x /\ x < 0) \/ (exists x, k4 = Some x /\ x < 0) \/ (k1 <> 8 / 10 /\ k1 <> 16 / 10) \/ ~ 1 / 2 <= k2 <= 1 -> ck_sr_max_close c phi rho k1 k2 k3 k4 = Err ValueError) /\
  (c < 0 \/ phi < 0 -> ck_w_spacing c phi = Err ValueError) /\
  (0 <= k2 <= 1 -> ck_k2 k2 = Ok ((1 + k2) / 2)) /\ (~ 0 <= k2 <= 1 -> ck_k2 k2 = Err ValueError).
Proof.
  intros c phi rho k1 k2 k3 k4. split; [|split; [|split]].
  - intros H. unfold ck_sr_max_close. cbv zeta. destruct (Rltb_spec c 0); [reflexivity|]. destruct (Rltb_spec phi 0); [reflexivity|]. destruct (Rltb_spec rho 0); [reflexivity|]. cbn [refuse bind].
    match goal with |- context [Rltb ?x 0] => destruct (Rltb_spec x 0) as [?|N3]; [reflexivity|] end. cbn [refuse bind]. match goal with |- context [Rltb ?x 0] => destruct (Rltb_spec x 0) as [?|N4]; [reflexivity|] end. cbn [refuse bind].
    destruct (Reqb_spec k1 (8 / 10)), (Reqb_spec k1 (16 / 10)); cbn [orb negb refuse bind]; try reflexivity; destruct (Rltb_spec k2 (5 / 10)); try reflexivity; destruct (Rltb_spec 1 k2); try reflexivity; exfalso;
    (destruct H as [H|[H|[H|[(x & -> & H)|[(x & -> & H)|[H|H]]]]]]; try lra).
  - intros H. unfold ck_w_spacing. chk.
  - intros H. unfold ck_k2. chk.
  - intros H. unfold ck_k2. chk.
Qed.
Print Assumptions C38_spacing_checks.
Theorem C38_far : forall h x, (0 <= x <= h -> ck_sr_max_far h x = Ok (13 / 10 * (h - x))) /\ (~ 0 <= x <= h -> ck_sr_max_far h x = Err ValueError).
Proof. intros h x. unfold ck_sr_max_far. split; intros H; chk. Qed.
Print Assumptions C38_far.
(** Inclined reinforcement, angle in [0, pi/2]: positive, the spacing of the y (z) direction
    at 0 (pi/2), never above the larger of the two. *)
Theorem C38_theta : forall sy sz, 0 < sy -> 0 < sz -> exists f, (forall t, 0 <= t <= PI / 2 -> ck_sr_max_theta sy sz t = Ok (f t)) /\
  (forall t, 0 <= t <= PI / 2 -> 0 < f t <= Rmax sy sz /\ f t * (cos t * sz + sin t * sy) = sy * sz) /\ f 0 = sy /\ f (PI / 2) = sz.
Proof.
  intros sy sz PY PZ. pose proof PI_RGT_0 as PIP. assert (CS : forall t, 0 <= t <= PI / 2 -> 0 <= cos t /\ 0 <= sin t /\ 1 <= cos t + sin t).
  { intros t H. assert (0 <= cos t) by (apply cos_ge_0; lra). assert (0 <= sin t) by (apply sin_ge_0; lra). split; [assumption|]. split; [assumption|]. pose proof (sin2_cos2 t) as SC. unfold Rsqr in SC. nra. }
  assert (D : forall t, 0 <= t <= PI / 2 -> 0 < cos t * sz + sin t * sy). { intros t H. destruct (CS t H) as (A & B & C). assert (0 <= cos t * sz) by (apply Rmult_le_pos; lra). assert (0 <= sin t * sy) by (apply Rmult_le_pos; lra). destruct (Rle_lt_dec (cos t) 0); nra. }
  exists (fun t => sy * sz / (cos t * sz + sin t * sy)). split; [|split; [|split]].
  - intros t H. pose proof (D t H). unfold ck_sr_max_theta. destruct (Rltb_spec sy 0); [lra|]. destruct (Rltb_spec sz 0); [lra|]. cbn [refuse bind]. rewrite pdiv_ok by lra. cbn [bind]. rewrite pdiv_ok by lra. cbn [bind].
    assert (E : cos t / sy + sin t / sz = (cos t * sz + sin t * sy) / (sy * sz)) by (field; lra). rewrite E. assert (P : 0 < sy * sz) by (apply Rmult_lt_0_compat; assumption). rewrite pdiv_ok; [f_equal; field; lra|]. apply Rgt_not_eq, Rdiv_lt_0_compat; assumption.
  - intros t H. pose proof (D t H) as DT. destruct (CS t H) as (A & B & C). assert (P : 0 < sy * sz) by (apply Rmult_lt_0_compat; assumption). split; [|field; lra]. split; [apply Rdiv_lt_0_compat; assumption|].
    apply (Rmult_le_reg_r (cos t * sz + sin t * sy)); [exact DT|]. replace (sy * sz / (cos t * sz + sin t * sy) * (cos t * sz + sin t * sy)) with (sy * sz) by (field; lra).
    assert (E : sy * sz = Rmax sy sz * Rmin sy sz) by (unfold Rmax, Rmin; destruct (Rle_dec _ _); ring). rewrite E. assert (0 < Rmin sy sz) by (unfold Rmin; destruct (Rle_dec _ _); lra). assert (0 < Rmax sy sz) by (unfold Rmax; destruct (Rle_dec _ _); lra).
    apply Rmult_le_compat_l; [lra|]. pose proof (Rmin_l sy sz). pose proof (Rmin_r sy sz). apply Rle_trans with (cos t * Rmin sy sz + sin t * Rmin sy sz); [nra|]. apply Rplus_le_compat; apply Rmult_le_compat_l; lra.
  - cbv beta. rewrite cos_0, sin_0. field. lra.
  - cbv beta. rewrite cos_PI2, sin_PI2. field. lra.
Qed.
Print Assumptions C38_theta.
(** The documented rejection of angles outside [0, pi/2] is missing: at pi the spacing is
    negative. *)
Theorem C38_theta_refuted : forall sy sz, 0 < sy -> 0 < sz -> ck_sr_max_theta sy sz PI = Ok (- sy).
Proof.
  intros sy sz PY PZ. unfold ck_sr_max_theta. destruct (Rltb_spec sy 0); [lra|]. destruct (Rltb_spec sz 0); [lra|]. cbn [refuse bind]. rewrite pdiv_ok by lra. cbn [bind]. rewrite pdiv_ok by lra. cbn [bind]. rewrite cos_PI, sin_PI.
  replace (-1 / sy + 0 / sz) with (- / sy) by (field; lra). rewrite pdiv_ok; [f_equal; field; lra|]. apply Ropp_neq_0_compat, Rinv_neq_0_compat. lra.
Qed.
Print Assumptions C38_theta_refuted.
(** Crack width: the product, never negative, rising with either factor; hence, through the
    whole calculation, a non-negative width. *)
Theorem C38_wk : forall s e, (0 <= s -> 0 <= e -> ck_wk s e = Ok (s * e) /\ 0 <= s * e) /\ (s < 0 \/ e < 0 -> ck_wk s e = Err ValueError) /\
  (forall c phi rho k1 k2 k3 k4 sg a r kt fct Es sr em, ck_sr_max_close c phi rho k1 k2 k3 k4 = Ok sr -> ck_eps_sm_eps_cm sg a r kt fct Es = Ok em -> exists w, ck_wk sr em = Ok w /\ 0 <= w).
Proof.
  intros s e. unfold ck_wk at 1 2. split; [|split].
  - intros A B. split; [chk|apply Rmult_le_pos; assumption].
  - intros H. chk.
  - intros c phi rho k1 k2 k3 k4 sg a r kt fct Es sr em ES EE.
    assert (PS : 0 <= sr). { unfold ck_sr_max_close in ES. cbv zeta in ES. repeat (apply bind_refuse in ES; destruct ES as [?C ES]). destruct (pdiv _ rho) as [q|] eqn:EQ; cbn [bind] in ES; [|discriminate]. apply Ok_inj in ES. subst sr. apply pdiv_inv in EQ. destruct EQ as [NR EQ].
      apply Rltb_false in C, C0, C1, C2, C3. apply Bool.orb_false_elim in C5. destruct C5 as [C5 C6]. apply Rltb_false in C5, C6. apply Bool.negb_false_iff in C4. apply Bool.orb_true_iff in C4. assert (0 <= k1) by (destruct C4 as [C4|C4]; apply Reqb_true in C4; lra).
      set (x3 := match k3 with Some _ => _ | None => _ end) in *. set (x4 := match k4 with Some _ => _ | None => _ end) in *. assert (0 <= x3 * c) by (apply Rmult_le_pos; lra). assert (0 <= q). { assert (0 <= q * rho) by (rewrite EQ; repeat apply Rmult_le_pos; lra). apply Rnot_lt_le. intros L. nra. } lra. }
    assert (PE : 0 <= em). { unfold ck_eps_sm_eps_cm in EE. repeat (apply bind_refuse in EE; destruct EE as [?C EE]). destruct (pdiv (6 / 10 * sg) Es) as [q|] eqn:EQ; cbn [bind] in EE; [|discriminate]. destruct (pdiv _ r) as [b|]; cbn [bind] in EE; [|discriminate]. destruct (pdiv (sg - _) Es) as [v|]; cbn [bind] in EE; [|discriminate].
      apply Ok_inj in EE. subst em. apply pdiv_inv in EQ. destruct EQ as [NE EQ]. apply Rltb_false in C, C3. apply Rle_trans with q; [|apply Rmax_r]. apply Rnot_lt_le. intros L. nra. }
    exists (sr * em). split; [unfold ck_wk; chk|apply Rmult_le_pos; assumption].
Qed.
Print Assumptions C38_wk.
(** Restrained end: eps = 1/2 kc k fct (alpha + 1/rho)/Es. *)
Theorem C38_restraint : forall a rho kc k fct Es, 0 < a -> 0 < rho -> 0 < Es -> ck_eps_restraint_end a rho kc k fct Es * (2 * Es * rho) = kc * k * fct * (a * rho + 1).
Proof. intros. unfold ck_eps_restraint_end. field. lra. Qed.
Print Assumptions C38_restraint.

Example C38_cases : ck_w_max " xc1" "QP" = Ok (4 / 10) /\ ck_k 550 = Ok (825 / 1000) /\ ck_As_min 100000 200 3 1 (4 / 10) = Ok 600 /\ in_scope 100000 200 1 (4 / 10) /\
  ck_phi_eq (PInt 2) (PInt 1) 10 20 = Ok 15 /\ tabulated largest_bar 240 (3 / 10) 16 /\ is_class chlorides "xd2 ".
Proof.
  split; [reflexivity|]. split; [unfold ck_k; chk; f_equal; lra|]. split; [unfold ck_As_min; chk; rewrite pdiv_ok by lra; f_equal; rewrite Rabs_pos_eq by lra; lra|]. split; [unfold in_scope; lra|]. split.
  { destruct (C38_phi_eq 2 1 10 20) as [H _]; try lra; try lia. destruct H as (p & E & _ & EP & _); [lra|]. rewrite E. f_equal. lra. }
  split; [exists [20; 16; 12], 1%nat; cbn; tauto|]. exists "XD2"%string. split; [cbn; tauto|]. apply written_upper; reflexivity.
Qed.
(** The contract of the interpolation can be met, with the table's value at its points. *)
Example C38_interpolation_exists : exists gd, interpolates_gaps gd /\ ck_As_min_2 gd (3 / 10) 240 (29 / 10) 400 500 450 0 None = Ok (16, 200).
Proof.
  exists at_points. split; [intros l p v H; split; [exact (at_points_mean l p v H)|exact (at_points_own l p v H)]|].
  unfold ck_As_min_2. chk. rewrite pdiv_ok by lra. cbn [bind]. replace (240 - 0) with 240 by ring.
  assert (E1 : at_points ck_points_phi (240, 3 / 10) = Some 16) by (apply (at_points_in _ _ _ nodup_phi), tab_phi; exists [20; 16; 12], 1%nat; cbn; tauto).
  assert (E2 : at_points ck_points_spa (240, 3 / 10) = Some 200) by (apply (at_points_in _ _ _ nodup_spa), tab_spa; exists [250; 200; 100], 1%nat; cbn; tauto).
  rewrite E1, E2. do 2 f_equal. field.
Qed.
