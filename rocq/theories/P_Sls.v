(** C41: EC2:2023 steel laws and serviceability. *)
From Coq Require Import String Lra Lia.
From Verif Require Import Base M_Registry M_Calc S_Calc L_Calc M_Conc S_Conc L_Conc P_Conc M_Crack L_Crack M_Creep L_Creep M_Sls S_Sls L_Sls.
Open Scope R_scope.
Open Scope list_scope.

(** Design values: the characteristic value over the partial factor, never above it. *)
Theorem C41_design_values : forall f, f = st_fyd \/ f = st_eps_ud \/ f = st_fpd -> forall x g,
  (0 <= x -> 1 <= g -> exists y, f x g = Ok y /\ y * g = x /\ 0 <= y <= x) /\ (x < 0 \/ g < 1 -> f x g = Err ValueError).
Proof.
  intros f Hf x g. assert (E : f x g = st_fyd x g) by (destruct Hf as [-> |[-> | ->]]; reflexivity). rewrite E. unfold st_fyd. split.
  - intros X G. exists (x / g). chk. assert (Q : x / g * g = x) by (field; lra). split; [reflexivity|]. split; [exact Q|].
    assert (0 <= x / g) by (apply Rmult_le_pos; [lra|left; apply Rinv_0_lt_compat; lra]). split; [assumption|]. nra.
  - intros H. chk.
Qed.
Print Assumptions C41_design_values.
Example C41_design_values_500 : exists y, st_fyd 500 (115 / 100) = Ok y /\ y * (115 / 100) = 500.
Proof. destruct (C41_design_values st_fyd (or_introl eq_refl) 500 (115 / 100)) as [A _]. destruct A as (y & E & Q & _); [lra|lra|]. exists y. auto. Qed.

(** The stress in reinforcing steel over the strains up to the ultimate one: elastic,
    then the line to k times the yield stress, without jump and never falling. *)
Theorem C41_reinforcing_steel : forall fy k eu E, 0 < fy -> 0 < E -> 1 <= k -> fy < eu * E ->
  exists s, (forall e, 0 <= e <= eu -> st_sigma_s e fy k eu E = Ok (s e)) /\ bilinear E fy (k * fy) eu s /\
    never_falls (fun _ => True) s /\ (forall e, no_jump s e) /\ s 0 = 0 /\ s (fy / E) = fy /\ s eu = k * fy /\ (k = 1 -> forall e, 0 <= e -> st_sigma_s e fy k eu E = Ok (Rmin (e * E) fy)).
Proof.
  intros fy k eu E F P K N. pose proof (proj1 (yield_gt E fy eu P) N) as N'. assert (Y0 : 0 < fy / E) by (apply Rdiv_lt_0_compat; assumption). assert (NE : fy <> eu * E) by lra.
  pose proof (bil_bilinear E fy (k * fy) eu P NE) as BL. pose proof BL as [BA BB].
  assert (V : forall e, 0 <= e -> (e <= eu \/ k = 1) -> st_sigma_s e fy k eu E = Ok (bil E fy (k * fy) eu e)).
  { intros e E0 E1. unfold st_sigma_s, bil. assert (CK : refuse (Rltb eu e && Rltb 1 k)%bool = Ok tt) by (apply refuse_inv; repeat chk1; try reflexivity; lra). rewrite CK. clear CK.
    cbv zeta. destruct (Rltb_spec e 0); [lra|]. destruct (Rleb_spec eu 0); [lra|]. destruct (Rleb_spec E 0); [lra|]. destruct (Rleb_spec fy 0); [lra|]. destruct (Rltb_spec k 0); [lra|]. cbn [refuse bind].
    destruct (Rleb_spec e (fy / E)); [reflexivity|]. rewrite pdiv_ok by lra. cbn [bind]. f_equal. replace (k * fy - fy) with (fy * (k - 1)) by ring. reflexivity. }
  exists (bil E fy (k * fy) eu). split; [intros e H; apply V; lra|]. split; [exact BL|]. split; [apply bil_mono; nra|]. split; [intros e; apply bil_no_jump; exact P|].
  assert (U : fy / E * E = fy) by (field; lra).
  split; [rewrite BA by lra; ring|]. split; [rewrite BA by lra; exact U|]. split.
  - specialize (BB eu ltac:(lra)). apply Rmult_eq_reg_r with (eu * E - fy); lra.
  - intros K1 e H. rewrite V by auto. f_equal. subst k. destruct (Rle_dec (e * E) fy) as [L|L].
    + rewrite BA by exact L. rewrite Rmin_left by exact L. reflexivity.
    + rewrite Rmin_right by lra. specialize (BB e ltac:(lra)). apply Rmult_eq_reg_r with (eu * E - fy); lra.
Qed.
Print Assumptions C41_reinforcing_steel.
Example C41_reinforcing_steel_B500 : exists s, st_sigma_s (1 / 100) 500 (108 / 100) (5 / 100) 200000 = Ok s /\ 500 < s < 540.
Proof.
  destruct (C41_reinforcing_steel 500 (108 / 100) (5 / 100) 200000 ltac:(lra) ltac:(lra) ltac:(lra) ltac:(lra)) as (s & V & (_ & B) & _). exists (s (1 / 100)). split; [apply V; lra|]. specialize (B (1 / 100) ltac:(lra)). lra.
Qed.
(** What sigma_s refuses. *)
Theorem C41_reinforcing_steel_checks : forall e fy k eu E, e < 0 \/ eu <= 0 \/ (eu < e /\ 1 < k) \/ E <= 0 \/ fy <= 0 \/ k < 0 -> st_sigma_s e fy k eu E = Err ValueError.
Proof.
  intros e fy k eu E H. unfold st_sigma_s. cbv zeta. destruct (Rltb_spec e 0); [reflexivity|]. cbn [refuse bind]. destruct (Rleb_spec eu 0); [reflexivity|]. cbn [refuse bind].
  destruct (Rltb_spec eu e), (Rltb_spec 1 k); cbn [andb refuse bind]; try reflexivity; (destruct (Rleb_spec E 0); [reflexivity|]; cbn [refuse bind]; destruct (Rleb_spec fy 0); [reflexivity|]; cbn [refuse bind]; destruct (Rltb_spec k 0); [reflexivity|]; exfalso; lra).
Qed.
Print Assumptions C41_reinforcing_steel_checks.
(** A ratio k below 1 is refused only when negative, against the message of the check:
    the stress then falls after yield, and with no upper limit on the strain it ends
    below zero.  An ultimate strain equal to the yield strain divides by zero, one below
    it is never mentioned and the hardening branch is then not reached. *)
Theorem C41_reinforcing_steel_refuted : forall fy k eu E, 0 < fy -> 0 < E -> 0 < eu ->
  (0 <= k < 1 -> fy < eu * E -> (forall e, fy < e * E -> exists s, st_sigma_s e fy k eu E = Ok s /\ s < fy) /\ exists e, 0 < e /\ st_sigma_s e fy k eu E = Ok (- fy)) /\
  (0 <= k <= 1 -> fy = eu * E -> forall e, eu < e -> st_sigma_s e fy k eu E = Err ZeroDivisionError) /\
  (1 < k -> eu * E < fy -> forall e, 0 <= e <= eu -> st_sigma_s e fy k eu E = Ok (e * E)).
Proof.
  intros fy k eu E F P U. split; [|split].
  - intros K N. pose proof (proj1 (yield_gt E fy eu P) N) as N'. assert (Y0 : 0 < fy / E) by (apply Rdiv_lt_0_compat; assumption).
    set (m := fy * (1 - k) / (eu - fy / E)). assert (M : 0 < m) by (unfold m; apply Rdiv_lt_0_compat; [nra|lra]).
    assert (V : forall e, fy < e * E -> st_sigma_s e fy k eu E = Ok (fy - m * (e - fy / E))).
    { intros e H. pose proof (proj1 (yield_gt E fy e P) H) as H'. unfold st_sigma_s. cbv zeta. destruct (Rltb_spec e 0); [lra|]. destruct (Rleb_spec eu 0); [lra|]. destruct (Rltb_spec 1 k); [lra|]. rewrite Bool.andb_false_r.
      destruct (Rleb_spec E 0); [lra|]. destruct (Rleb_spec fy 0); [lra|]. destruct (Rltb_spec k 0); [lra|]. cbn [refuse bind]. destruct (Rleb_spec e (fy / E)); [lra|]. rewrite pdiv_ok by lra. cbn [bind]. f_equal. unfold m. field. lra. }
    split.
    + intros e H. exists (fy - m * (e - fy / E)). split; [apply V; exact H|]. pose proof (proj1 (yield_gt E fy e P) H). assert (0 < m * (e - fy / E)) by (apply Rmult_lt_0_compat; lra). lra.
    + assert (D : 0 < 2 * fy / m) by (apply Rdiv_lt_0_compat; lra). exists (fy / E + 2 * fy / m). split; [lra|]. rewrite V; [|apply yield_gt; lra]. f_equal. replace (fy / E + 2 * fy / m - fy / E) with (2 * fy / m) by ring. field. lra.
  - intros K N e L. assert (Q : fy / E = eu) by (rewrite N; field; lra). unfold st_sigma_s. cbv zeta. rewrite Q. destruct (Rltb_spec e 0); [lra|]. destruct (Rleb_spec eu 0); [lra|]. destruct (Rltb_spec 1 k); [lra|]. rewrite Bool.andb_false_r.
    destruct (Rleb_spec E 0); [lra|]. destruct (Rleb_spec fy 0); [lra|]. destruct (Rltb_spec k 0); [lra|]. cbn [refuse bind]. destruct (Rleb_spec e eu); [lra|]. rewrite pdiv_0 by lra. reflexivity.
  - intros K N e L. pose proof (proj1 (yield_lt E fy eu P) N). unfold st_sigma_s. cbv zeta. destruct (Rltb_spec e 0); [lra|]. destruct (Rleb_spec eu 0); [lra|]. destruct (Rltb_spec eu e); [lra|].
    destruct (Rleb_spec E 0); [lra|]. destruct (Rleb_spec fy 0); [lra|]. destruct (Rltb_spec k 0); [lra|]. cbn [andb refuse bind]. destruct (Rleb_spec e (fy / E)); [reflexivity|lra].
Qed.
Print Assumptions C41_reinforcing_steel_refuted.

(** The stress in prestressing steel. *)
Theorem C41_prestressing_steel : forall fy fu eu E, 0 < fy -> fy <= fu -> 0 < E -> fy < eu * E ->
  exists s, (forall e, 0 <= e <= eu -> st_sigma_p e fy fu eu E = Ok (s e)) /\ bilinear E fy fu eu s /\
    never_falls (fun _ => True) s /\ (forall e, no_jump s e) /\ s 0 = 0 /\ s (fy / E) = fy /\ s eu = fu /\ (fu = fy -> forall e, 0 <= e -> st_sigma_p e fy fu eu E = Ok (Rmin (e * E) fy)).
Proof.
  intros fy fu eu E F K P N. pose proof (proj1 (yield_gt E fy eu P) N) as N'. assert (Y0 : 0 < fy / E) by (apply Rdiv_lt_0_compat; assumption). assert (NE : fy <> eu * E) by lra.
  pose proof (bil_bilinear E fy fu eu P NE) as BL. pose proof BL as [BA BB].
  assert (V : forall e, 0 <= e -> (e <= eu \/ fu = fy) -> st_sigma_p e fy fu eu E = Ok (bil E fy fu eu e)).
  { intros e E0 E1. unfold st_sigma_p, bil. assert (CK : refuse (Rltb eu e && negb (Reqb fy fu))%bool = Ok tt) by (apply refuse_inv; repeat chk1; try reflexivity; lra). rewrite CK. clear CK.
    cbv zeta. destruct (Rltb_spec e 0); [lra|]. destruct (Rleb_spec eu 0); [lra|]. destruct (Rleb_spec E 0); [lra|]. destruct (Rleb_spec fy 0); [lra|]. destruct (Rltb_spec fu fy); [lra|]. cbn [refuse bind].
    destruct (Rleb_spec e (fy / E)); [reflexivity|]. rewrite pdiv_ok by lra. reflexivity. }
  exists (bil E fy fu eu). split; [intros e H; apply V; lra|]. split; [exact BL|]. split; [apply bil_mono; assumption|]. split; [intros e; apply bil_no_jump; exact P|].
  assert (U : fy / E * E = fy) by (field; lra).
  split; [rewrite BA by lra; ring|]. split; [rewrite BA by lra; exact U|]. split.
  - specialize (BB eu ltac:(lra)). apply Rmult_eq_reg_r with (eu * E - fy); lra.
  - intros K1 e H. rewrite V by auto. f_equal. subst fu. destruct (Rle_dec (e * E) fy) as [L|L].
    + rewrite BA by exact L. rewrite Rmin_left by exact L. reflexivity.
    + rewrite Rmin_right by lra. specialize (BB e ltac:(lra)). apply Rmult_eq_reg_r with (eu * E - fy); lra.
Qed.
Print Assumptions C41_prestressing_steel.
Example C41_prestressing_steel_Y1860 : exists s, st_sigma_p (2 / 100) 1640 1860 (35 / 1000) 190000 = Ok s /\ 1640 < s < 1860.
Proof.
  destruct (C41_prestressing_steel 1640 1860 (35 / 1000) 190000 ltac:(lra) ltac:(lra) ltac:(lra) ltac:(lra)) as (s & V & (_ & B) & _). exists (s (2 / 100)). split; [apply V; lra|]. specialize (B (2 / 100) ltac:(lra)). lra.
Qed.
Theorem C41_prestressing_steel_checks : forall e fy fu eu E, e < 0 \/ eu <= 0 \/ (eu < e /\ fy <> fu) \/ E <= 0 \/ fy <= 0 \/ fu < fy -> st_sigma_p e fy fu eu E = Err ValueError.
Proof.
  intros e fy fu eu E H. unfold st_sigma_p. cbv zeta. destruct (Rltb_spec e 0); [reflexivity|]. cbn [refuse bind]. destruct (Rleb_spec eu 0); [reflexivity|]. cbn [refuse bind].
  destruct (Rltb_spec eu e), (Reqb_spec fy fu); cbn [andb negb refuse bind]; try reflexivity; (destruct (Rleb_spec fy 0); [reflexivity|]; cbn [refuse bind]; destruct (Rltb_spec fu fy); [reflexivity|]; cbn [refuse bind]; destruct (Rleb_spec E 0); [reflexivity|]; exfalso; tauto || lra).
Qed.
Print Assumptions C41_prestressing_steel_checks.
(** With equal stresses and an ultimate strain equal to the yield strain the flat branch divides by zero. *)
Theorem C41_prestressing_steel_refuted : forall fy eu E, 0 < fy -> 0 < E -> fy = eu * E -> forall e, eu < e -> st_sigma_p e fy fy eu E = Err ZeroDivisionError.
Proof.
  intros fy eu E F P N e L. assert (Q : fy / E = eu) by (rewrite N; field; lra). assert (0 < eu) by (rewrite <- Q; apply Rdiv_lt_0_compat; assumption).
  unfold st_sigma_p. cbv zeta. rewrite Q. destruct (Rltb_spec e 0); [lra|]. destruct (Rleb_spec eu 0); [lra|]. destruct (Reqb_spec fy fy); [|lra]. rewrite Bool.andb_false_r.
  destruct (Rleb_spec fy 0); [lra|]. destruct (Rltb_spec fy fy); [lra|]. destruct (Rleb_spec E 0); [lra|]. cbn [refuse bind]. destruct (Rleb_spec e eu); [lra|]. rewrite pdiv_0 by lra. reflexivity.
Qed.
Print Assumptions C41_prestressing_steel_refuted.

(** The table of prestressing steels: every listed class of its kind of tendon, in any
    case and between blanks; everything else is refused. *)
Theorem C41_prestressing_table : forall cls el,
  (forall k c v, written (letter k) el -> In (c, v) (steels k) -> written c cls -> st_params cls el = Ok v /\ 0 < fst v < snd v) /\
  ((forall k c v, written (letter k) el -> In (c, v) (steels k) -> ~ written c cls) -> st_params cls el = Err ValueError).
Proof.
  intros cls el.
  assert (LET : forall k, written (letter k) el -> str_strip (str_upper el) = letter k) by (intros k W; apply written_upper in W; [rewrite W|]; destruct k; reflexivity).
  assert (UP : forall k c v, In (c, v) (steels k) -> str_strip (str_upper c) = str_upper c /\ str_upper c = c).
  { intros k c v I. destruct k; cbn in I; repeat (destruct I as [I|I]; [apply pair_equal_spec in I; destruct I as [<- _]; split; reflexivity|]); destruct I. }
  split.
  - intros k c v W I C. assert (E : st_params cls el = st_params cls (letter k)) by (unfold st_params; rewrite (LET k W); destruct k; reflexivity). rewrite E, params_find.
    destruct (UP _ _ _ I) as [U1 U2]. apply written_upper in C; [|exact U1]. rewrite C, U2. clear - I.
    destruct k; cbn in I; repeat (destruct I as [I|I]; [apply pair_equal_spec in I; destruct I as [<- <-]; split; [reflexivity|cbn [fst snd]; lra]|]); destruct I.
  - intros N. unfold st_params. cbv zeta.
    assert (G : forall k, str_strip (str_upper el) = letter k -> match dict_get (steels k) (str_strip (str_upper cls)) with Some v => Ok v | None => Err ValueError end = Err (A := R * R) ValueError).
    { intros k E. destruct (dict_get (steels k) (str_strip (str_upper cls))) as [v|] eqn:D; [|reflexivity]. exfalso.
      assert (W : written (letter k) el) by (apply written_upper; [destruct k; reflexivity|]; rewrite E; destruct k; reflexivity).
      assert (I : In (str_strip (str_upper cls), v) (steels k)).
      { clear - D. induction (steels k) as [|[c u] l IH]; [discriminate|]. cbn [dict_get] in D. destruct (String.eqb_spec (str_strip (str_upper cls)) c) as [Q|Q]; [injection D as ->; left; congruence|right; apply IH; exact D]. }
      apply (N k _ v W I). destruct (UP _ _ _ I) as [U1 U2]. apply written_upper; congruence. }
    unfold st_data. cbn [dict_get]. destruct (String.eqb_spec (str_strip (str_upper el)) "W") as [Q|Q]; [exact (G wires Q)|].
    destruct (String.eqb_spec (str_strip (str_upper el)) "S") as [Q2|Q2]; [exact (G strands Q2)|]. destruct (String.eqb_spec (str_strip (str_upper el)) "B") as [Q3|Q3]; [exact (G bars Q3)|reflexivity].
Qed.
Print Assumptions C41_prestressing_table.
Example C41_prestressing_table_strand : st_params " y1860 " "s" = Ok (1640, 1860).
Proof. reflexivity. Qed.
(** Y1560, which the signature and the documentation offer for wires, is always refused. *)
Theorem C41_prestressing_table_Y1560_refuted : forall el, st_params "Y1560" el = Err ValueError.
Proof.
  intros el. unfold st_params. cbv zeta. unfold st_data. cbn [dict_get]. destruct (String.eqb (str_strip (str_upper el)) "W"); [reflexivity|]. destruct (String.eqb (str_strip (str_upper el)) "S"); [reflexivity|]. destruct (String.eqb (str_strip (str_upper el)) "B"); reflexivity.
Qed.
Print Assumptions C41_prestressing_table_Y1560_refuted.

(** * Serviceability *)
(** kh: 0.8 up to 300 mm, 0.5 from 800 mm, a line in between; only the smaller side counts. *)
Theorem C41_kh : forall b h, let m := Rmin b h in 1 / 2 <= sl_kh b h <= 8 / 10 /\ sl_kh b h = sl_kh h b /\
  (m <= 3 / 10 -> sl_kh b h = 8 / 10) /\ (8 / 10 <= m -> sl_kh b h = 1 / 2) /\ (3 / 10 <= m <= 8 / 10 -> sl_kh b h = 8 / 10 - 6 / 10 * (m - 3 / 10)) /\
  (forall b' h', b <= b' -> h <= h' -> sl_kh b' h' <= sl_kh b h).
Proof.
  intros b h m. assert (C : sl_kh b h = sl_kh h b) by (unfold sl_kh; rewrite (Rmin_comm b h); reflexivity). unfold sl_kh in *. fold m in C |- *.
  repeat split; try exact C; try (intros; unfold Rmin at 1, Rmax; repeat destruct Rle_dec; lra).
  intros b' h' Hb Hh. assert (Q : m <= Rmin b' h') by (unfold m, Rmin; repeat destruct Rle_dec; lra). set (m' := Rmin b' h') in *. unfold Rmin, Rmax. repeat destruct Rle_dec; lra.
Qed.
Print Assumptions C41_kh.
(** Minimum reinforcement against yielding. *)
Theorem C41_As_min_y : forall b h fct fyk, 0 < b -> 0 < h -> 0 < fct -> 0 < fyk -> let F := sl_kh b h * fct * b * h in
  exists A1 A2, (forall N, sl_As_min_y N b h fct fyk = Ok (A1 N, A2 N)) /\
    (forall N, 0 <= A2 N <= A1 N /\ A1 N * fyk <= 5000 * F) /\
    never_falls (fun _ => True) A1 /\
    A1 0 * fyk = 2000 * F /\ A2 0 = 0 /\
    (forall N, 0 < A1 N -> A1 N * fyk < 5000 * F -> A1 N * fyk = 3 * N + 2000 * F) /\
    (forall N, 1000 * F <= N -> A1 N * fyk = 5000 * F /\ A2 N = A1 N) /\
    (forall N, 0 < A2 N < A1 N -> (A1 N + A2 N) * fyk = 10 * N).
Proof.
  intros b h fct fyk Hb Hh Hf Hy F. assert (K : 0 < sl_kh b h) by (pose proof (C41_kh b h) as (Q & _); lra).
  assert (F0 : 0 < F) by (unfold F; apply Rmult_lt_0_compat; [apply Rmult_lt_0_compat; [apply Rmult_lt_0_compat|]|]; assumption).
  set (A1 := fun N => Rmin (Rmax (3 * N + 2000 * F) 0) (5000 * F) / fyk). set (A2 := fun N => Rmin (Rmax (N / fyk * 10 - A1 N) 0) (A1 N)).
  assert (X : forall N, A1 N * fyk = Rmin (Rmax (3 * N + 2000 * F) 0) (5000 * F)) by (intros N; unfold A1; field; lra).
  assert (P : forall N, 0 <= A1 N) by (intros N; unfold A1; apply Rmult_le_pos; [unfold Rmin, Rmax; repeat destruct Rle_dec; lra|left; apply Rinv_0_lt_compat; exact Hy]).
  exists A1, A2. split; [|split; [|split; [|split; [|split; [|split; [|split]]]]]].
  - intros N. unfold sl_As_min_y. rewrite !pdiv_ok by lra. cbn [bind].
    assert (E : Rmin (Rmax ((3 / 10 * N / 1000 + 2 / 10 * sl_kh b h * fct * b * h) / fyk) 0) (5 / 10 * sl_kh b h * fct * b * h / fyk) * 10000 = A1 N).
    { replace 0 with (0 / fyk) at 1 by (unfold Rdiv; ring). rewrite Rmax_div, Rmin_div by exact Hy. unfold A1, F. unfold Rdiv. rewrite <- (Rmult_assoc _ (/ fyk) 10000) || idtac.
      rewrite (Rmult_comm _ (/ fyk)), Rmult_assoc, (Rmult_comm (/ fyk)). f_equal. unfold Rmin, Rmax. repeat destruct Rle_dec; lra. }
    rewrite E. reflexivity.
  - intros N. rewrite X. pose proof (P N). split; [unfold A2, Rmin, Rmax; repeat destruct Rle_dec; lra|unfold Rmin; destruct Rle_dec; lra].
  - intros x y _ _ L. apply Rmult_le_reg_r with fyk; [exact Hy|]. rewrite !X. unfold Rmin, Rmax; repeat destruct Rle_dec; lra.
  - rewrite X. unfold Rmin, Rmax; repeat destruct Rle_dec; lra.
  - unfold A2. pose proof (P 0). replace (0 / fyk * 10 - A1 0) with (- A1 0) by (unfold Rdiv; ring). unfold Rmin, Rmax; repeat destruct Rle_dec; lra.
  - intros N H1 H2. rewrite X in *. assert (0 < A1 N * fyk) by (apply Rmult_lt_0_compat; assumption). rewrite X in *. unfold Rmin, Rmax in *; repeat destruct Rle_dec; lra.
  - intros N H. assert (Q : A1 N * fyk = 5000 * F) by (rewrite X; unfold Rmin, Rmax; repeat destruct Rle_dec; lra). split; [exact Q|].
    unfold A2. assert (Z : A1 N <= N / fyk * 10 - A1 N). { apply Rmult_le_reg_r with fyk; [exact Hy|]. replace ((N / fyk * 10 - A1 N) * fyk) with (N * 10 - A1 N * fyk) by (field; lra). lra. }
    pose proof (P N). unfold Rmin, Rmax; repeat destruct Rle_dec; lra.
  - intros N H. assert (Q : A2 N = N / fyk * 10 - A1 N) by (unfold A2 in *; unfold Rmin, Rmax in *; repeat destruct Rle_dec; lra). rewrite Q. field. lra.
Qed.
Print Assumptions C41_As_min_y.
Example C41_As_min_y_case : exists A1 A2, sl_As_min_y 0 (3 / 10) (3 / 10) 3 500 = Ok (A1, A2) /\ A2 = 0 /\ A1 * 500 = 432.
Proof.
  destruct (C41_As_min_y (3 / 10) (3 / 10) 3 500 ltac:(lra) ltac:(lra) ltac:(lra) ltac:(lra)) as (A1 & A2 & V & _ & _ & A & B & _). exists (A1 0), (A2 0). split; [apply V|]. split; [exact B|]. rewrite A.
  destruct (C41_kh (3 / 10) (3 / 10)) as (_ & _ & K & _). rewrite K by (rewrite Rmin_left; lra). lra.
Qed.
(** The factor for the curvature: at least 1, growing with the distance of the bars
    from the face, for bars in the tension zone. *)
Theorem C41_k_1_r : forall h x, (forall ay, 0 <= ay -> ay < h - x -> exists k, sl_k_1_r h x ay = Ok k /\ 1 <= k /\ k * (h - x - ay) = h - x) /\ sl_k_1_r h x (h - x) = Err ZeroDivisionError /\
  (forall a a' k k', 0 <= a -> a < a' -> a' < h - x -> sl_k_1_r h x a = Ok k -> sl_k_1_r h x a' = Ok k' -> k < k').
Proof.
  intros h x. assert (V : forall ay, ay <> h - x -> sl_k_1_r h x ay = Ok ((h - x) / (h - ay - x))) by (intros ay N; unfold sl_k_1_r; apply pdiv_ok; lra).
  split; [|split].
  - intros ay A B. exists ((h - x) / (h - ay - x)). assert (Q : (h - x) / (h - ay - x) * (h - x - ay) = h - x) by (field; lra). split; [apply V; lra|]. split; [|exact Q].
    apply Rmult_le_reg_r with (h - x - ay); lra.
  - unfold sl_k_1_r. apply pdiv_0. lra.
  - intros a a' k k' A B C E E'. rewrite V in E, E' by lra. apply Ok_inj in E, E'. subst. unfold Rdiv. apply Rmult_lt_compat_l; [lra|]. apply Rinv_lt_contravar; [apply Rmult_lt_0_compat; lra|lra].
Qed.
Print Assumptions C41_k_1_r.
(** The mean strain difference, between (1 - kt) and 1 times the steel strain. *)
Theorem C41_strain : forall kt fct rho a Es, 0 <= kt < 1 -> 0 <= fct -> 0 <= a ->
  (0 < rho -> 0 < Es -> exists e, (forall s, sl_epssm_epscm s kt fct rho a Es = Ok (e s)) /\
    (forall s, 0 <= s -> (1 - kt) * s <= e s * Es <= s) /\
    (forall s, e s * Es = (1 - kt) * s \/ e s * Es = s - kt * fct * (1 + a * rho) / rho) /\ (forall s, (1 - kt) * s <= e s * Es /\ s - kt * fct * (1 + a * rho) / rho <= e s * Es) /\ increases (fun _ => True) e) /\
  (rho = 0 \/ Es = 0 -> forall s, sl_epssm_epscm s kt fct rho a Es = Err ZeroDivisionError).
Proof.
  intros kt fct rho a Es K F A. split.
  - intros R E. set (q := kt * fct * (1 + a * rho) / rho). assert (Q0 : 0 <= q).
    { unfold q. apply Rmult_le_pos; [|left; apply Rinv_0_lt_compat; exact R]. apply Rmult_le_pos; [apply Rmult_le_pos; lra|]. pose proof (Rmult_le_pos a rho A ltac:(lra)). lra. }
    set (e := fun s => Rmax (s - q) ((1 - kt) * s) / Es). assert (X : forall s, e s * Es = Rmax (s - q) ((1 - kt) * s)) by (intros s; unfold e; field; lra).
    exists e. split; [|split; [|split; [|split]]].
    + intros s. unfold sl_epssm_epscm. rewrite pdiv_ok by lra. cbn [bind]. rewrite pdiv_ok by lra. cbn [bind]. rewrite Rmax_div by exact E. unfold e. replace (s - kt * fct / rho * (1 + a * rho)) with (s - q) by (unfold q; field; lra). reflexivity.
    + intros s S0. rewrite X. assert ((1 - kt) * s <= s) by nra. unfold Rmax; destruct Rle_dec; lra.
    + intros s. rewrite X. unfold Rmax; destruct Rle_dec; auto.
    + intros s. rewrite X. unfold Rmax; destruct Rle_dec; lra.
    + intros x y _ _ L. apply Rmult_lt_reg_r with Es; [exact E|]. rewrite !X. assert ((1 - kt) * x < (1 - kt) * y) by nra. unfold Rmax; repeat destruct Rle_dec; lra.
  - intros H s. unfold sl_epssm_epscm. destruct (Req_dec rho 0) as [R|R]; [rewrite pdiv_0 by exact R; reflexivity|]. rewrite pdiv_ok by exact R. cbn [bind]. rewrite pdiv_0 by tauto. reflexivity.
Qed.
Print Assumptions C41_strain.
(** kfl: from 1 for a vanishing effective area down to 1/2 when it reaches the centroid. *)
Theorem C41_kfl : forall h xg, xg < h -> exists k, (forall hc, sl_kfl h xg hc = Ok (k hc)) /\ (forall hc, 1 / 2 <= k hc) /\ (forall hc, 0 <= hc -> k hc <= 1) /\ k 0 = 1 /\ (forall hc, h - xg <= hc -> k hc = 1 / 2) /\
  (forall hc, hc <= h - xg -> k hc * (2 * (h - xg)) = 2 * (h - xg) - hc) /\ never_rises (fun _ => True) k.
Proof.
  intros h xg L. set (k := fun hc => Rmax (5 / 10 * (1 + (h - xg - hc) / (h - xg))) (5 / 10)). set (d := h - xg) in *. assert (D : 0 < d) by (unfold d; lra).
  assert (Q : forall hc, (d - hc) / d * d = d - hc) by (intros; field; lra).
  assert (Q1 : forall hc, 0 <= hc -> (d - hc) / d <= 1) by (intros hc H; apply Rmult_le_reg_r with d; [exact D|]; rewrite Q; lra).
  assert (Q2 : forall hc, d <= hc -> (d - hc) / d <= 0) by (intros hc H; apply Rmult_le_reg_r with d; [exact D|]; rewrite Q; lra).
  assert (Q3 : forall hc, hc <= d -> 0 <= (d - hc) / d) by (intros hc H; apply Rmult_le_reg_r with d; [exact D|]; rewrite Q; lra).
  exists k. unfold k. fold d. split; [intros hc; unfold sl_kfl; rewrite pdiv_ok by lra; reflexivity|]. split; [intros hc; unfold Rmax; destruct Rle_dec; lra|].
  split; [intros hc H; pose proof (Q1 hc H); unfold Rmax; destruct Rle_dec; lra|]. split; [|split; [|split]].
  - replace ((d - 0) / d) with 1 by (field; lra). unfold Rmax; destruct Rle_dec; lra.
  - intros hc H. pose proof (Q2 hc H). unfold Rmax; destruct Rle_dec; lra.
  - intros hc H. pose proof (Q3 hc H). rewrite Rmax_left by lra. replace (5 / 10 * (1 + (d - hc) / d) * (2 * d)) with (d + (d - hc) / d * d) by lra. rewrite Q. lra.
  - intros x y _ _ H. assert ((d - y) / d <= (d - x) / d) by (apply Rmult_le_reg_r with d; [exact D|]; rewrite !Q; lra). unfold Rmax; repeat destruct Rle_dec; lra.
Qed.
Print Assumptions C41_kfl.
(** The mean crack spacing: the smaller of the two expressions. *)
Theorem C41_spacing : forall c kfl kb phi rho kw h x, 0 < rho -> 0 < kw -> exists s, sl_srm_cal c kfl kb phi rho kw h x = Ok s /\
  (s - 15 / 10 * c) * (72 / 10 * rho) <= kfl * kb * phi /\ s * kw <= 13 / 10 * (h - x) /\ ((s - 15 / 10 * c) * (72 / 10 * rho) = kfl * kb * phi \/ s * kw = 13 / 10 * (h - x)) /\
  (0 <= c -> 0 <= kfl -> 0 <= kb -> 0 <= phi -> x <= h -> 0 <= s).
Proof.
  intros c kfl kb phi rho kw h x R K. unfold sl_srm_cal. rewrite pdiv_ok by lra. cbn [bind]. rewrite pdiv_ok by lra. cbn [bind]. eexists. split; [reflexivity|].
  set (q := kfl * kb / (72 / 10) * phi / rho). set (r := 13 / 10 / kw). assert (Q : q * (72 / 10 * rho) = kfl * kb * phi) by (unfold q; field; lra). assert (R' : r * kw = 13 / 10) by (unfold r; field; lra).
  assert (R0 : 0 < r) by (unfold r; apply Rdiv_lt_0_compat; lra).
  assert (T : (r * (h - x)) * kw = 13 / 10 * (h - x)) by (rewrite <- R'; ring). unfold Rmin; destruct Rle_dec as [L|L]; split_Rabs || idtac.
  - assert (M : (15 / 10 * c + q) * kw <= r * (h - x) * kw) by (apply Rmult_le_compat_r; lra). replace (15 / 10 * c + q - 15 / 10 * c) with q by ring. split; [lra|]. split; [lra|]. split; [left; exact Q|].
    intros C0 A B P X. assert (0 <= q); [|lra]. unfold q. apply Rmult_le_pos; [|left; apply Rinv_0_lt_compat; exact R]. apply Rmult_le_pos; [|exact P]. apply Rmult_le_pos; [apply Rmult_le_pos; assumption|lra].
  - assert (M : (r * (h - x) - 15 / 10 * c) * (72 / 10 * rho) <= q * (72 / 10 * rho)) by (apply Rmult_le_compat_r; lra). split; [lra|]. split; [lra|]. split; [right; exact T|]. intros. apply Rmult_le_pos; lra.
Qed.
Print Assumptions C41_spacing.
(** The crack width: the product of its reported factors, equal to what wk_cal2 gives for
    them, and never negative for bars in the tension zone. *)
Theorem C41_crack_width : forall kw h xg hc c kb phi rho x s kt fct a Es, 0 < kw -> 0 <= c -> 0 <= kb -> 0 <= phi -> 0 < rho -> xg < h -> c + phi / 2 < h - x -> 0 <= s -> 0 <= kt < 1 -> 0 <= fct -> 0 <= a -> 0 < Es ->
  exists w k sr e kf, sl_wk_cal kw h xg hc c kb phi rho x s kt fct a Es = Ok (w, k, sr, e) /\ w = sl_wk_cal2 kw k sr e /\ w = kw * k * sr * e /\
    sl_k_1_r h x (c + phi / 2) = Ok k /\ sl_kfl h xg hc = Ok kf /\ sl_srm_cal c kf kb phi rho kw h x = Ok sr /\ sl_epssm_epscm s kt fct rho a Es = Ok e /\ 0 <= w /\ w <= 13 / 10 * k * (h - x) * (s / Es).
Proof.
  intros kw h xg hc c kb phi rho x s kt fct a Es Hw Hc Hkb Hp Hr Hg Hx Hs Hkt Hf Ha HE.
  destruct (C41_k_1_r h x) as (K & _). destruct (K (c + phi / 2) ltac:(lra) Hx) as (k & EK & K1 & _).
  destruct (C41_kfl h xg Hg) as (kf & EF & F1 & _). pose proof (F1 hc) as F1'.
  destruct (C41_spacing c (kf hc) kb phi rho kw h x Hr Hw) as (sr & ES & _ & S1 & _ & S0). specialize (S0 Hc ltac:(lra) Hkb Hp ltac:(lra)).
  destruct (C41_strain kt fct rho a Es Hkt Hf Ha) as ((e & EE & E1 & _) & _); [assumption..|]. specialize (E1 s Hs). specialize (EE s).
  assert (E0 : 0 <= e s) by (apply Rmult_le_reg_r with Es; [exact HE|]; rewrite Rmult_0_l; assert (0 <= (1 - kt) * s) by (apply Rmult_le_pos; lra); lra).
  exists (kw * k * sr * e s), k, sr, (e s), (kf hc). unfold sl_wk_cal. rewrite EK. cbn [bind]. rewrite EF. cbn [bind]. rewrite ES. cbn [bind]. rewrite EE. cbn [bind].
  split; [reflexivity|]. split; [reflexivity|]. split; [reflexivity|]. do 4 (split; [reflexivity || assumption|]). split.
  - apply Rmult_le_pos; [apply Rmult_le_pos; [apply Rmult_le_pos|]|]; lra.
  - assert (E2 : e s <= s / Es) by (apply Rmult_le_reg_r with Es; [exact HE|]; replace (s / Es * Es) with s by (field; lra); lra).
    replace (kw * k * sr * e s) with (k * (sr * kw) * e s) by ring. replace (13 / 10 * k * (h - x) * (s / Es)) with (k * (13 / 10 * (h - x)) * (s / Es)) by ring.
    apply Rmult_le_compat; [apply Rmult_le_pos; [lra|apply Rmult_le_pos; lra]|exact E0| |exact E2]. apply Rmult_le_compat_l; lra.
Qed.
Print Assumptions C41_crack_width.
Example C41_crack_width_case : exists w k sr e, sl_wk_cal (13 / 10) 500 250 100 30 (9 / 10) 16 (2 / 100) 150 250 (4 / 10) 3 7 200000 = Ok (w, k, sr, e) /\ 0 <= w.
Proof.
  destruct (C41_crack_width (13 / 10) 500 250 100 30 (9 / 10) 16 (2 / 100) 150 250 (4 / 10) 3 7 200000) as (w & k & sr & e & kf & E & _ & _ & _ & _ & _ & _ & P & _); [lra..|].
  exists w, k, sr, e. auto.
Qed.
(** Bars whose centre lies in the compression zone are not refused; the width is then negative. *)
Theorem C41_crack_width_refuted : forall kw h xg hc c kb phi rho x s kt fct a Es, 0 < kw -> 0 < c -> 0 <= kb -> 0 <= phi -> 0 < rho -> xg < h -> 0 < h - x -> h - x < c + phi / 2 -> 0 < s -> 0 <= kt < 1 -> 0 <= fct -> 0 <= a -> 0 < Es ->
  exists w k sr e, sl_wk_cal kw h xg hc c kb phi rho x s kt fct a Es = Ok (w, k, sr, e) /\ w < 0.
Proof.
  intros kw h xg hc c kb phi rho x s kt fct a Es Hw Hc Hkb Hp Hr Hg Hx Hx2 Hs Hkt Hf Ha HE.
  assert (EK : sl_k_1_r h x (c + phi / 2) = Ok ((h - x) / (h - (c + phi / 2) - x))) by (unfold sl_k_1_r; apply pdiv_ok; lra). set (k := (h - x) / (h - (c + phi / 2) - x)) in *.
  assert (K0 : k < 0). { assert (0 < (h - x) / (c + phi / 2 + x - h)) by (apply Rdiv_lt_0_compat; lra). replace k with (- ((h - x) / (c + phi / 2 + x - h))) by (unfold k; field; lra). lra. }
  destruct (C41_kfl h xg Hg) as (kf & EF & F1 & _). pose proof (F1 hc) as F1'.
  destruct (C41_spacing c (kf hc) kb phi rho kw h x Hr Hw) as (sr & ES & _ & _ & Q & S0). specialize (S0 ltac:(lra) ltac:(lra) Hkb Hp ltac:(lra)).
  assert (S1 : 0 < sr). { destruct Q as [Q|Q]; [|nra]. assert (0 <= kf hc * kb * phi) by (apply Rmult_le_pos; [apply Rmult_le_pos; lra|lra]). assert (0 <= sr - 15 / 10 * c); [|lra]. apply Rmult_le_reg_r with (72 / 10 * rho); lra. }
  destruct (C41_strain kt fct rho a Es Hkt Hf Ha) as ((e & EE & E1 & _) & _); [assumption..|]. specialize (E1 s ltac:(lra)). specialize (EE s).
  assert (E0 : 0 < e s) by (apply Rmult_lt_reg_r with Es; [exact HE|]; rewrite Rmult_0_l; assert (0 < (1 - kt) * s) by (apply Rmult_lt_0_compat; lra); lra).
  exists (kw * k * sr * e s), k, sr, (e s). unfold sl_wk_cal. rewrite EK. cbn [bind]. rewrite EF. cbn [bind]. rewrite ES. cbn [bind]. rewrite EE. cbn [bind]. split; [reflexivity|].
  replace (kw * k * sr * e s) with (- (kw * - k * sr * e s)) by ring. assert (0 < kw * - k * sr * e s); [|lra]. apply Rmult_lt_0_compat; [apply Rmult_lt_0_compat; [apply Rmult_lt_0_compat|]|]; lra.
Qed.
Print Assumptions C41_crack_width_refuted.
(** The long-term modulus. *)
Theorem C41_Ec_eff : forall fcm kE, 0 < fcm -> 0 < kE -> exists E a, 0 < E /\ E ^ 3 = kE ^ 3 * fcm /\ 1 <= a <= 125 / 100 /\ (88 <= fcm -> a = 1) /\ (fcm <= 88 -> a * (8 / 10 + 2 / 10 * (fcm / 88)) = 1) /\
  (forall phi, -1 < phi -> exists F, sl_Ec_eff fcm phi kE = Ok F /\ 0 < F /\ F * (1 + phi) = a * E) /\ sl_Ec_eff fcm (-1) kE = Err ZeroDivisionError.
Proof.
  intros fcm kE F K. exists (kE * pw fcm (1 / 3)), (sl_alpha_c fcm). pose proof (pw_pos fcm (1 / 3) F) as P. assert (C : pw fcm (1 / 3) ^ 3 = fcm).
  { rewrite (pw_frac fcm (1 / 3) 1 3); [cbn [pow]; lra|lia|lra|]. cbn [Z.of_nat Pos.of_succ_nat Pos.succ]. lra. }
  assert (EP : 0 < kE * pw fcm (1 / 3)) by (apply Rmult_lt_0_compat; assumption). set (D := 8 / 10 + 2 / 10 * (fcm / 88)). assert (D0 : 8 / 10 < D) by (unfold D; lra).
  assert (Q : 1 / D * D = 1) by (field; lra).
  assert (A1 : 1 / D < 125 / 100). { apply Rmult_lt_reg_r with D; lra. }
  assert (A2 : 88 <= fcm -> 1 / D <= 1) by (intros H; apply Rmult_le_reg_r with D; unfold D in *; lra). assert (A3 : fcm <= 88 -> 1 <= 1 / D) by (intros H; apply Rmult_le_reg_r with D; unfold D in *; lra).
  assert (AB : 1 <= sl_alpha_c fcm <= 125 / 100) by (unfold sl_alpha_c; fold D; unfold Rmax; destruct Rle_dec; lra).
  split; [exact EP|]. split; [rewrite Rpow_mult_distr, C; reflexivity|]. split; [exact AB|]. split; [intros H; unfold sl_alpha_c; fold D; apply Rmax_right; auto|].
  split; [intros H; unfold sl_alpha_c; fold D; rewrite Rmax_left by auto; exact Q|]. split.
  - intros phi H. unfold sl_Ec_eff. cbv zeta. rewrite pdiv_ok by lra. eexists. split; [reflexivity|]. split; [apply Rdiv_lt_0_compat; [apply Rmult_lt_0_compat|]; lra|field; lra].
  - unfold sl_Ec_eff. cbv zeta. apply pdiv_0. lra.
Qed.
Print Assumptions C41_Ec_eff.
(** Deflection: the sum of the two elastic deflections below the cracking moment, and
    above it the interpolation between cracked and uncracked stiffness. *)
Theorem C41_deflection : forall dl ds fck phi b h d As, 0 < fck -> 0 <= phi -> 0 < b -> 0 < h -> 0 < d -> 0 < As -> let Mcr := cracking_moment (e3_fctm fck) b h in let rho := As / (10000 * b * d) in
  0 < Mcr /\ (forall M, 0 < M < Mcr -> sl_delta_simpl dl ds fck phi b h d As M = Ok (dl + ds)) /\
  exists n E p G, sl_Ec_eff (mc_fcm fck 8) phi 9500 = Ok E /\ n * E = 200000 /\ 0 < p /\ p ^ 5 = (n * rho) ^ 3 /\ G * (27 / 10 * p * d ^ 3) = h ^ 3 /\
    forall M, Mcr <= M -> exists z kI kS, sl_delta_simpl dl ds fck phi b h d As M = Ok (kI * (dl + kS * ds)) /\ 1 / 2 <= z < 1 /\ (1 - z) * (2 * M ^ 2) = Mcr ^ 2 /\ kI = z * G + (1 - z) * 1 /\ 0 < kI /\ kS = 455 * rho ^ 2 - 35 * rho + 16 / 10 /\ 9 / 10 < kS.
Proof.
  intros dl ds fck phi b h d As Hf Hp Hb Hh Hd HA Mcr rho.
  assert (FT : 0 < e3_fctm fck) by (destruct (C34_fctm_2023 fck) as (_ & Q & _); apply Q; lra).
  assert (H2 : 0 < h ^ 2) by (apply pow_lt; exact Hh). assert (H3 : 0 < h ^ 3) by (apply pow_lt; exact Hh). assert (D3 : 0 < d ^ 3) by (apply pow_lt; exact Hd).
  assert (M0 : 0 < Mcr). { unfold Mcr, cracking_moment. apply Rmult_lt_0_compat; [lra|]. apply Rdiv_lt_0_compat; [apply Rmult_lt_0_compat; assumption|lra]. }
  assert (ME : e3_fctm fck * 1000 * b * h ^ 2 / 6 = Mcr) by (unfold Mcr, cracking_moment; field).
  assert (BD : 0 < 10000 * b * d) by (apply Rmult_lt_0_compat; lra).
  assert (R0 : 0 < rho) by (unfold rho; apply Rdiv_lt_0_compat; assumption). assert (RE : As / b / d * (1 / 10000) = rho) by (unfold rho; field; lra).
  assert (FC : 0 < mc_fcm fck 8) by (unfold mc_fcm; rewrite !Rabs_pos_eq by lra; lra).
  destruct (C41_Ec_eff (mc_fcm fck 8) 9500 FC ltac:(lra)) as (E0 & a & _ & _ & _ & _ & _ & V & _). destruct (V phi ltac:(lra)) as (E & EE & EP & _). clear V.
  set (n := 200000 / E). assert (N0 : 0 < n) by (unfold n; apply Rdiv_lt_0_compat; lra). assert (NE : n * E = 200000) by (unfold n; field; lra).
  assert (NR : 0 < n * rho) by (apply Rmult_lt_0_compat; assumption).
  set (p := pw (n * rho) (6 / 10)). assert (P0 : 0 < p) by (apply pw_pos; exact NR). assert (P5 : p ^ 5 = (n * rho) ^ 3) by (unfold p; apply pw_frac; [lia|lra|]; cbn [Z.of_nat Pos.of_succ_nat Pos.succ]; lra).
  set (G := 1 / (27 / 10 * p * (d / h) ^ 3)). assert (DH : 0 < d / h) by (apply Rdiv_lt_0_compat; assumption). assert (DH3 : 0 < (d / h) ^ 3) by (apply pow_lt; exact DH).
  assert (GD : 0 < 27 / 10 * p * (d / h) ^ 3) by (apply Rmult_lt_0_compat; [apply Rmult_lt_0_compat; lra|exact DH3]). assert (G0 : 0 < G) by (unfold G; apply Rdiv_lt_0_compat; [lra|exact GD]).
  assert (GE : G * (27 / 10 * p * d ^ 3) = h ^ 3) by (unfold G; field; lra).
  assert (V : forall M, 0 < M -> sl_delta_simpl dl ds fck phi b h d As M = Ok ((if Rltb M Mcr then 1 else (1 - 5 / 10 * (Mcr / M) ^ 2) * G + (1 - (1 - 5 / 10 * (Mcr / M) ^ 2))) * (dl + (if Rltb M Mcr then 1 else 455 * rho ^ 2 - 35 * rho + 16 / 10) * ds))).
  { intros M HM. unfold sl_delta_simpl. rewrite ME. cbv zeta. rewrite (pdiv_ok Mcr M) by lra. cbn [bind]. rewrite (pdiv_ok As b) by lra. cbn [bind]. rewrite (pdiv_ok (As / b) d) by lra. cbn [bind]. rewrite RE.
    change (e3_fcm fck 8) with (mc_fcm fck 8). rewrite EE. cbn [bind]. rewrite (pdiv_ok 200000 E) by lra. cbn [bind]. fold n. unfold sl_pow06. destruct (Rltb_spec (n * rho) 0); [lra|]. cbn [refuse bind]. fold p.
    rewrite (pdiv_ok d h) by lra. cbn [bind]. rewrite (pdiv_ok 1 (27 / 10 * p * (d / h) ^ 3)) by lra. cbn [bind]. fold G. reflexivity. }
  split; [exact M0|]. split.
  - intros M HM. rewrite V by lra. destruct (Rltb_spec M Mcr); [|lra]. f_equal. ring.
  - exists n, E, p, G. split; [exact EE|]. split; [exact NE|]. split; [exact P0|]. split; [exact P5|]. split; [exact GE|]. intros M HM.
    set (z := 1 - 5 / 10 * (Mcr / M) ^ 2). assert (MM : Mcr / M * M = Mcr) by (field; lra). assert (Q0 : 0 < Mcr / M) by (apply Rdiv_lt_0_compat; lra). assert (Q1 : Mcr / M <= 1) by (apply Rmult_le_reg_r with M; lra).
    assert (QQ : 0 < (Mcr / M) ^ 2 <= 1) by (split; [apply pow_lt; exact Q0|]; rewrite <- (pow1 2); apply pow_incr; lra).
    exists z, (z * G + (1 - z) * 1), (455 * rho ^ 2 - 35 * rho + 16 / 10). rewrite V by lra. destruct (Rltb_spec M Mcr); [lra|]. fold z. split; [f_equal; ring|]. split; [unfold z; lra|].
    split; [unfold z; field; lra|]. split; [reflexivity|]. assert (Z : 1 / 2 <= z < 1) by (unfold z; lra). split; [|split; [reflexivity|]].
    + assert (0 < z * G) by (apply Rmult_lt_0_compat; lra). lra.
    + pose proof (pow2_ge_0 (rho - 35 / 910)). replace ((rho - 35 / 910) ^ 2) with (rho ^ 2 - 70 / 910 * rho + 1225 / 828100) in H by field. lra.
Qed.
Print Assumptions C41_deflection.
Example C41_deflection_case : sl_delta_simpl 10 2 30 2 (3 / 10) (5 / 10) (45 / 100) 10 1 = Ok (10 + 2).
Proof.
  destruct (C41_deflection 10 2 30 2 (3 / 10) (5 / 10) (45 / 100) 10) as (_ & U & _); [lra..|]. apply U. unfold cracking_moment.
  assert (Q : 1 < pw 30 (2 / 3)) by (apply (pw_gt_frac 30 (2 / 3) 1 2 3); [lia|lia|lra|lra|cbn [Z.of_nat Pos.of_succ_nat Pos.succ]; lra|cbn [pow]; lra]).
  unfold e3_fctm. rewrite Rabs_pos_eq by lra. destruct (Rleb_spec 30 50); [|lra]. lra.
Qed.
(** Without load, or without reinforcement even far below the cracking moment, the
    function divides by zero; a negative area of reinforcement is refused. *)
Theorem C41_deflection_refuted : forall dl ds fck phi b h d As M, 0 < fck -> 0 <= phi -> 0 < b -> 0 < h -> 0 < d ->
  (M = 0 -> sl_delta_simpl dl ds fck phi b h d As M = Err ZeroDivisionError) /\ (M <> 0 -> As = 0 -> sl_delta_simpl dl ds fck phi b h d As M = Err ZeroDivisionError) /\
  (M <> 0 -> As < 0 -> sl_delta_simpl dl ds fck phi b h d As M = Err ValueError).
Proof.
  intros dl ds fck phi b h d As M Hf Hp Hb Hh Hd. unfold sl_delta_simpl. cbv zeta.
  assert (FC : 0 < mc_fcm fck 8) by (unfold mc_fcm; rewrite !Rabs_pos_eq by lra; lra).
  destruct (C41_Ec_eff (mc_fcm fck 8) 9500 FC ltac:(lra)) as (E0 & a & _ & _ & _ & _ & _ & V & _). destruct (V phi ltac:(lra)) as (E & EE & EP & _). clear V.
  assert (N0 : 0 < 200000 / E) by (apply Rdiv_lt_0_compat; lra). change (e3_fcm fck 8) with (mc_fcm fck 8).
  split; [intros ->; rewrite pdiv_0 by reflexivity; reflexivity|]. split; intros HM HA.
  - rewrite (pdiv_ok _ M) by exact HM. cbn [bind]. rewrite (pdiv_ok As b) by lra. cbn [bind]. rewrite (pdiv_ok (As / b) d) by lra. cbn [bind]. rewrite EE. cbn [bind]. rewrite (pdiv_ok 200000 E) by lra. cbn [bind].
    replace (200000 / E * (As / b / d * (1 / 10000))) with 0 by (rewrite HA; field; lra). unfold sl_pow06. destruct (Rltb_spec 0 0); [lra|]. cbn [refuse bind]. rewrite pw_0. rewrite (pdiv_ok d h) by lra. cbn [bind]. rewrite pdiv_0 by ring. reflexivity.
  - rewrite (pdiv_ok _ M) by exact HM. cbn [bind]. rewrite (pdiv_ok As b) by lra. cbn [bind]. rewrite (pdiv_ok (As / b) d) by lra. cbn [bind]. rewrite EE. cbn [bind]. rewrite (pdiv_ok 200000 E) by lra. cbn [bind].
    assert (Q : 200000 / E * (As / b / d * (1 / 10000)) < 0). { replace (200000 / E * (As / b / d * (1 / 10000))) with (- (200000 / E * (- As / (10000 * b * d)))) by (field; lra). assert (0 < 200000 / E * (- As / (10000 * b * d))); [|lra]. apply Rmult_lt_0_compat; [exact N0|]. apply Rdiv_lt_0_compat; [lra|]. apply Rmult_lt_0_compat; lra. }
    unfold sl_pow06. destruct (Rltb_spec (200000 / E * (As / b / d * (1 / 10000))) 0); [|lra]. reflexivity.
Qed.
Print Assumptions C41_deflection_refuted.
