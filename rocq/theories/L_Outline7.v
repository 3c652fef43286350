(** What is left of a corner. *)
From Coq Require Import Lra Lia.
From Verif Require Import Base L_Catalog2 S_Marin M_Marin L_Marin M_MarinInt L_MarinInt2 M_Geo L_Geo M_Profile S_Profile M_Catalog S_Catalog M_Outline S_Outline L_Outline L_Outline2 L_Outline3 L_Outline4 L_Outline5 L_Outline6.
Open Scope R_scope.
Open Scope list_scope.

(** Coordinates of v in the directions of the two sides of the corner B. *)
Definition along1 (A B C v : R * R) : R := ((fst v - fst B) * (snd C - snd B) - (fst C - fst B) * (snd v - snd B)) / - turn A B C.
Definition along2 (A B C v : R * R) : R := ((fst A - fst B) * (snd v - snd B) - (fst v - fst B) * (snd A - snd B)) / - turn A B C.
Lemma along_step A B C v w s t : turn A B C <> 0 -> fst w - fst v = s * (fst B - fst A) + t * (fst C - fst B) -> snd w - snd v = s * (snd B - snd A) + t * (snd C - snd B) ->
  along1 A B C w = along1 A B C v - s /\ along2 A B C w = along2 A B C v + t.
Proof.
  intros N E1 E2. assert (F1 : fst w = fst v + s * (fst B - fst A) + t * (fst C - fst B)) by lra. assert (F2 : snd w = snd v + s * (snd B - snd A) + t * (snd C - snd B)) by lra.
  unfold along1, along2. rewrite F1, F2. unfold turn in *. destruct A as [xa ya], B as [xb yb], C as [xc yc]; cbn [fst snd] in *. split; field; lra.
Qed.
Lemma along_point A B C k1 k2 s t v : turn A B C <> 0 -> let T1 := between B A k1 in let T2 := between B C k2 in
  v = (fst T1 + s * (fst B - fst T1) + t * (fst T2 - fst B), snd T1 + s * (snd B - snd T1) + t * (snd T2 - snd B)) ->
  along1 A B C v = k1 * (1 - s) /\ along2 A B C v = k2 * t.
Proof.
  intros N T1 T2 ->. unfold along1, along2, T1, T2, between, turn in *. destruct A as [xa ya], B as [xb yb], C as [xc yc]; cbn [fst snd] in *. split; field; lra.
Qed.
Lemma cross_along A B C v w : turn A B C <> 0 -> cross v w = cross B w - cross B v - turn A B C * (along1 A B C v * along2 A B C w - along1 A B C w * along2 A B C v).
Proof.
  intros N. unfold along1, along2, cross, turn in *. destruct A as [xa ya], B as [xb yb], C as [xc yc], v as [xv yv], w as [xw yw]; cbn [fst snd] in *. field. lra.
Qed.
Lemma corner_area A B C k1 k2 : turn A B C <> 0 -> 0 < k1 -> 0 < k2 -> forall q a b, ends q a b ->
  (forall v, In v q -> exists s t, 0 <= t <= s /\ s <= 1 /\ along1 A B C v = k1 * (1 - s) /\ along2 A B C v = k2 * t) ->
  (forall e, In e (edges q) -> exists s t, 0 <= s /\ 0 <= t /\
     fst (snd e) - fst (fst e) = s * (fst B - fst A) + t * (fst C - fst B) /\ snd (snd e) - snd (fst e) = s * (snd B - snd A) + t * (snd C - snd B)) ->
  forall s0 t0 s1 t1, along1 A B C a = k1 * (1 - s0) -> along2 A B C a = k2 * t0 -> along1 A B C b = k1 * (1 - s1) -> along2 A B C b = k2 * t1 ->
  exists th, 0 <= th <= k1 * k2 * ((t1 + (s1 - t1) * t1) - (t0 + (s0 - t0) * t0)) /\ fan_moment 0 0 q = (cross B b - cross B a - turn A B C * th) / 2.
Proof.
  intros N K1 K2. induction q as [|a' q IH]; intros a b E V D s0 t0 s1 t1 A1 A2 B1 B2; [destruct E; discriminate|].
  assert (a' = a) by (destruct E as [E _]; now injection E). subst a'. destruct q as [|c q].
  - assert (b = a) by (destruct E as [_ E]; now injection E). subst b. exists 0.
    assert (s1 = s0) by (apply (Rmult_eq_reg_l k1); lra). assert (t1 = t0) by (apply (Rmult_eq_reg_l k2); lra). subst s1 t1.
    rewrite fan_single. split; [split; [lra|right; ring]|]. field.
  - destruct (V c (or_intror (or_introl eq_refl))) as (s & t & H1 & H2 & C1 & C2).
    destruct (V a (or_introl eq_refl)) as (s' & t' & H1' & H2' & A1' & A2').
    assert (s' = s0) by (apply (Rmult_eq_reg_l k1); lra). assert (t' = t0) by (apply (Rmult_eq_reg_l k2); lra). subst s' t'.
    destruct (D (a, c) (or_introl eq_refl)) as (ds & dt & P1 & P2 & X & Y). cbn [fst snd] in X, Y.
    destruct (along_step A B C a c ds dt N X Y) as [S1 S2].
    assert (M1 : s0 <= s) by (apply (Rmult_le_reg_l k1); lra). assert (M2 : t0 <= t) by (apply (Rmult_le_reg_l k2); lra).
    destruct (IH c b (ends_tail _ _ _ _ E) (fun v I => V v (or_intror I)) (fun e I => D e (or_intror I)) s t s1 t1 C1 C2 B1 B2) as (th & T & FE).
    exists (k1 * k2 * ((1 - s0) * t - (1 - s) * t0) + th).
    rewrite fan_cons2, FE, tm_00, (cross_along A B C a c N), A1, A2, C1, C2. split; [|field].
    assert (G1 : 0 <= (1 - s0) * t - (1 - s) * t0).
    { replace ((1 - s0) * t - (1 - s) * t0) with ((1 - s0) * (t - t0) + (s - s0) * t0) by ring. pose proof (Rmult_le_pos (1 - s0) (t - t0) ltac:(lra) ltac:(lra)). pose proof (Rmult_le_pos (s - s0) t0 ltac:(lra) ltac:(lra)). lra. }
    assert (G2 : (1 - s0) * t - (1 - s) * t0 <= (t + (s - t) * t) - (t0 + (s0 - t0) * t0)).
    { pose proof (Rmult_le_pos (s - t) (t - t0) ltac:(lra) ltac:(lra)). pose proof (Rmult_le_pos (s0 - t0) (t - t0) ltac:(lra) ltac:(lra)). lra. }
    assert (KK : 0 < k1 * k2) by (apply Rmult_lt_0_compat; lra).
    pose proof (Rmult_le_pos (k1 * k2) _ ltac:(lra) G1). pose proof (Rmult_le_compat_l (k1 * k2) _ _ ltac:(lra) G2). lra.
Qed.
Lemma dist_turn A B C : Rabs (turn A B C) <= dist A B * dist B C.
Proof.
  unfold dist, turn. set (a := fst B - fst A). set (b := snd B - snd A). set (c := fst C - fst B). set (d := snd C - snd B).
  rewrite <- sqrt_mult_alt by (pose proof (pow2_ge_0 a); pose proof (pow2_ge_0 b); lra). rewrite <- sqrt_Rsqr_abs. apply sqrt_le_1_alt. unfold Rsqr.
  pose proof (pow2_ge_0 (a * c + b * d)). lra.
Qed.
Lemma dist_pos A B : 0 <= dist A B.
Proof. apply sqrt_pos. Qed.

Lemma cut r A B C p : turn A B C <> 0 -> cuts_corner r A B C p ->
  ends p A C /\
  (forall e, In e (edges p) -> exists s t, 0 <= s /\ 0 <= t /\
     fst (snd e) - fst (fst e) = s * (fst B - fst A) + t * (fst C - fst B) /\ snd (snd e) - snd (fst e) = s * (snd B - snd A) + t * (snd C - snd B)) /\
  exists th, 0 <= th <= r ^ 2 /\ fan_moment 0 0 p = (cross A B + cross B C) / 2 - (if Rlt_dec 0 (turn A B C) then th else - th) / 2.
Proof.
  intros N (T1 & T2 & q & k1 & k2 & K1 & K2 & L1 & L2 & ET1 & ET2 & H1 & H2 & V & D & P).
  assert (E : ends q T1 T2) by (split; assumption).
  assert (HA : forall e, e = (A, T1) -> exists s t, 0 <= s /\ 0 <= t /\
     fst (snd e) - fst (fst e) = s * (fst B - fst A) + t * (fst C - fst B) /\ snd (snd e) - snd (fst e) = s * (snd B - snd A) + t * (snd C - snd B)).
  { intros e ->. exists (1 - k1), 0. split; [lra|]. split; [lra|]. rewrite ET1. unfold between; cbn [fst snd]. split; ring. }
  assert (HC : forall e, e = (T2, C) -> exists s t, 0 <= s /\ 0 <= t /\
     fst (snd e) - fst (fst e) = s * (fst B - fst A) + t * (fst C - fst B) /\ snd (snd e) - snd (fst e) = s * (snd B - snd A) + t * (snd C - snd B)).
  { intros e ->. exists 0, (1 - k2). split; [lra|]. split; [lra|]. rewrite ET2. unfold between; cbn [fst snd]. split; ring. }
  destruct (corner_area A B C k1 k2 N ltac:(lra) ltac:(lra) q T1 T2 E) with (s0 := 0) (t0 := 0) (s1 := 1) (t1 := 1) as (th & TH & FQ).
  - intros v I. destruct (V v I) as (s & t & A1 & A2 & EV). exists s, t. split; [lra|]. split; [lra|]. rewrite ET1, ET2 in EV. now apply (along_point A B C k1 k2 s t v N).
  - exact D.
  - rewrite ET1. unfold along1, between, turn in *; cbn [fst snd]. field. lra.
  - rewrite ET1. unfold along2, between, turn in *; cbn [fst snd]. field. lra.
  - rewrite ET2. unfold along1, between, turn in *; cbn [fst snd]. field. lra.
  - rewrite ET2. unfold along2, between, turn in *; cbn [fst snd]. field. lra.
  - assert (FT : triangle_moment 0 0 A T1 + fan_moment 0 0 q + triangle_moment 0 0 T2 C = (cross A B + cross B C) / 2 - turn A B C * th / 2).
    { rewrite FQ, !tm_00, ET1, ET2. unfold cross, between; cbn [fst snd]. field. }
    assert (BD : exists th', 0 <= th' <= r ^ 2 /\ turn A B C * th = if Rlt_dec 0 (turn A B C) then th' else - th').
    { exists (Rabs (turn A B C) * th). assert (TT : th <= k1 * k2) by lra. pose proof (Rabs_pos (turn A B C)). pose proof (dist_turn A B C). pose proof (dist_pos A B). pose proof (dist_pos B C).
      split; [split; [apply Rmult_le_pos; lra|]|].
      - apply Rle_trans with ((dist A B * dist B C) * (k1 * k2)); [apply Rmult_le_compat; lra|]. replace (dist A B * dist B C * (k1 * k2)) with ((k1 * dist A B) * (k2 * dist B C)) by ring.
        replace (r ^ 2) with (r * r) by ring. apply Rmult_le_compat; try lra; apply Rmult_le_pos; lra.
      - destruct (Rlt_dec 0 (turn A B C)); [rewrite Rabs_right by lra; reflexivity|rewrite Rabs_left1 by lra; ring]. }
    destruct BD as (th' & B1 & B2).
    assert (FT' : triangle_moment 0 0 A T1 + fan_moment 0 0 q + triangle_moment 0 0 T2 C = (cross A B + cross B C) / 2 - (if Rlt_dec 0 (turn A B C) then th' else - th') / 2) by (rewrite FT, B2; reflexivity).
    destruct P as [-> |[[EA ->]|[[EC ->]|[EA [EC ->]]]]].
    + pose proof (ends_app _ _ _ _ _ _ E (ends_single C)) as E2. pose proof (ends_app _ _ _ _ _ _ (ends_single A) E2) as E3. split; [exact E3|]. split.
      * intros e I. change (A :: q ++ [C]) with ([A] ++ (q ++ [C])) in I. rewrite (edges_ends _ _ _ _ _ _ (ends_single A) E2) in I. cbn [edges app] in I. destruct I as [<-|I]; [now apply HA|].
        rewrite (edges_ends _ _ _ _ _ _ E (ends_single C)) in I. apply in_app_or in I. destruct I as [I|[<-|[]]]; [now apply D|now apply HC].
      * exists th'. split; [exact B1|]. change (A :: q ++ [C]) with ([A] ++ (q ++ [C])). rewrite (fan_ends 0 0 _ _ _ _ _ _ (ends_single A) E2), (fan_ends 0 0 _ _ _ _ _ _ E (ends_single C)), !fan_single. lra.
    + rewrite EA in *. rewrite <- EA in ET1. split; [apply (ends_app _ _ _ _ _ _ E (ends_single C))|]. split.
      * intros e I. rewrite (edges_ends _ _ _ _ _ _ E (ends_single C)) in I. apply in_app_or in I. destruct I as [I|[<-|[]]]; [now apply D|now apply HC].
      * exists th'. split; [exact B1|]. rewrite (fan_ends 0 0 _ _ _ _ _ _ E (ends_single C)), !fan_single. rewrite tm_same in FT'. lra.
    + rewrite EC in *. split; [apply (ends_app _ _ _ _ _ _ (ends_single A) E)|]. split.
      * intros e I. change (A :: q) with ([A] ++ q) in I. rewrite (edges_ends _ _ _ _ _ _ (ends_single A) E) in I. cbn [edges app] in I. destruct I as [<-|I]; [now apply HA|now apply D].
      * exists th'. split; [exact B1|]. change (A :: q) with ([A] ++ q). rewrite (fan_ends 0 0 _ _ _ _ _ _ (ends_single A) E), !fan_single. rewrite tm_same in FT'. lra.
    + rewrite EA, EC in *. split; [exact E|]. split; [exact D|]. exists th'. split; [exact B1|]. rewrite !tm_same in FT'. lra.
Qed.
