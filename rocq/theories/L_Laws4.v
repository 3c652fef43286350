From Coquelicot Require Import Coquelicot.
From Verif Require Import Base M_Laws S_Laws L_Laws L_LawsB L_LawsC M_Laws2 S_Laws2 L_Laws2 L_Laws3.

(** ** UserDefined: construction *)
Lemma removelast_rev (x : list R) : removelast (rev x) = rev (tl x).
Proof. destruct x as [|a x]; [reflexivity|]. cbn. apply removelast_last. Qed.
Lemma ud_reflect_odd x : ud_reflect x = odd_completion x.
Proof. unfold ud_reflect, odd_completion. rewrite removelast_rev. reflexivity. Qed.

Lemma ud_base_neg x y : (exists a, In a x /\ a < 0) -> ud_base x y = (x, y).
Proof.
  intros (a & Ha & Hn). unfold ud_base.
  assert (E : existsb (fun a => Rltb a 0) x = true).
  { apply existsb_exists. exists a. split; [exact Ha|]. apply Rltb_true. exact Hn. }
  rewrite E. reflexivity.
Qed.
Lemma ud_base_pos x y : (forall a, In a x -> 0 <= a) -> ud_base x y = (odd_completion x, odd_completion y).
Proof.
  intros H. unfold ud_base.
  destruct (existsb (fun a => Rltb a 0) x) eqn:E.
  - apply existsb_exists in E as (a & Ha & Hn). apply Rltb_true in Hn. specialize (H a Ha). lra.
  - rewrite !ud_reflect_odd. reflexivity.
Qed.
Lemma increasing_ge0 x : increasing x -> 0 <= nth 0 x 0 -> forall a, In a x -> 0 <= a.
Proof.
  intros Hi H0 a Ha. destruct (In_nth _ _ 0 Ha) as (k & Hk & <-). assert (A := nth0_le x k Hi Hk). lra.
Qed.
Lemma last_nth (x : list R) : last x 0 = nth (length x - 1) x 0.
Proof.
  induction x as [|a [|b x] IH]; [reflexivity..|]. rewrite last_cons2, IH. cbn [length].
  replace (S (S (length x)) - 1)%nat with (S (S (length x) - 1)) by lia. reflexivity.
Qed.

Lemma oc_length x : length (odd_completion x) = (length x - 1 + length x)%nat.
Proof. unfold odd_completion. rewrite app_length, map_length, rev_length. destruct x; cbn; lia. Qed.
Lemma oc_nth_lo x k : (k < length x - 1)%nat -> nth k (odd_completion x) 0 = - nth (length x - 1 - k) x 0.
Proof.
  intros H. destruct x as [|a x]; [cbn in H; lia|]. unfold odd_completion. cbn [tl length] in *.
  rewrite app_nth1 by (rewrite map_length, rev_length; lia).
  replace 0 with (- 0) at 1 by lra. rewrite map_nth. rewrite rev_nth by lia.
  replace (S (length x) - 1 - k)%nat with (S (length x - S k)) by lia. reflexivity.
Qed.
Lemma oc_nth_hi x k : (length x - 1 <= k)%nat -> nth k (odd_completion x) 0 = nth (k - (length x - 1)) x 0.
Proof.
  intros H. unfold odd_completion.
  assert (L : length (map Ropp (rev (tl x))) = (length x - 1)%nat) by (rewrite map_length, rev_length; destruct x; cbn; lia).
  rewrite app_nth2 by lia. rewrite L. reflexivity.
Qed.
Lemma oc_increasing x : increasing x -> 0 <= nth 0 x 0 -> increasing (odd_completion x).
Proof.
  intros Hi H0 i j Hij. rewrite oc_length in Hij.
  destruct (le_lt_dec (length x - 1) i) as [A|A]; destruct (le_lt_dec (length x - 1) j) as [B|B]; try lia.
  - rewrite !oc_nth_hi by lia. apply Hi. lia.
  - rewrite oc_nth_lo, oc_nth_hi by lia.
    assert (nth 0 x 0 < nth (length x - 1 - i) x 0) by (apply Hi; lia).
    assert (nth 0 x 0 <= nth (j - (length x - 1)) x 0) by (apply nth0_le; [exact Hi|lia]). lra.
  - rewrite !oc_nth_lo by lia. assert (nth (length x - 1 - j) x 0 < nth (length x - 1 - i) x 0) by (apply Hi; lia). lra.
Qed.
Definition antisym (X : list R) := forall i, (i < length X)%nat -> nth (length X - 1 - i) X 0 = - nth i X 0.
Lemma oc_antisym x : nth 0 x 0 = 0 -> antisym (odd_completion x).
Proof.
  intros H0 i Hi. rewrite oc_length in *.
  destruct (le_lt_dec (length x - 1) i) as [A|A].
  - destruct (Nat.eq_dec i (length x - 1)) as [->|N].
    + rewrite oc_nth_hi by lia. rewrite oc_nth_hi by lia.
      replace (length x - 1 + length x - 1 - (length x - 1) - (length x - 1))%nat with O by lia.
      replace (length x - 1 - (length x - 1))%nat with O by lia. lra.
    + rewrite oc_nth_lo by lia. rewrite oc_nth_hi by lia.
      replace (length x - 1 - (length x - 1 + length x - 1 - i))%nat with (i - (length x - 1))%nat by lia. reflexivity.
  - rewrite oc_nth_hi by lia. rewrite oc_nth_lo by lia.
    replace (length x - 1 + length x - 1 - i - (length x - 1))%nat with (length x - 1 - i)%nat by lia. lra.
Qed.
Lemma interp_odd X Y e : increasing X -> length X = length Y -> (2 <= length X)%nat -> antisym X -> antisym Y ->
  interp X Y (- e) = - interp X Y e.
Proof.
  intros Hi Hl H2 AX AY.
  assert (HL : last X 0 = - nth 0 X 0). { rewrite last_nth. rewrite <- (AX O) by lia. f_equal. lia. }
  destruct (Rlt_le_dec e (nth 0 X 0)) as [L|L].
  { rewrite (interp_left X Y e L). rewrite interp_right; [lra|assumption..|lra]. }
  destruct (Rlt_le_dec (last X 0) e) as [L2|L2].
  { rewrite (interp_right X Y e) by assumption. rewrite interp_left; lra. }
  destruct (locate X e Hi (conj L L2) H2) as (i & Hn & He).
  rewrite (interp_seg X Y i e) by assumption.
  set (n := length X) in *.
  assert (E1 : nth (n - 2 - i) X 0 = - nth (S i) X 0). { rewrite <- (AX (S i)) by (unfold n in *; lia). f_equal. unfold n; lia. }
  assert (E2 : nth (S (n - 2 - i)) X 0 = - nth i X 0). { rewrite <- (AX i) by (unfold n in *; lia). f_equal. unfold n in *; lia. }
  assert (F1 : nth (n - 2 - i) Y 0 = - nth (S i) Y 0). { rewrite <- (AY (S i)) by (rewrite <- Hl; lia). f_equal. rewrite <- Hl. unfold n in *; lia. }
  assert (F2 : nth (S (n - 2 - i)) Y 0 = - nth i Y 0). { rewrite <- (AY i) by (rewrite <- Hl; lia). f_equal. rewrite <- Hl. unfold n in *; lia. }
  rewrite (interp_seg X Y (n - 2 - i) (- e)); [|assumption..|unfold n in *; lia|rewrite E1, E2; lra].
  assert (nth i X 0 < nth (S i) X 0) by (apply Hi; lia).
  unfold chord. rewrite E1, E2, F1, F2. field. lra.
Qed.

Lemma ud_init_inv x y u flag l bx by_ : ud_base x y = (bx, by_) -> ud_init x y u flag = Ok l ->
  length x = length y /\ (flag <= 3)%nat /\ bx <> [] /\ ud_extend flag bx by_ = Ok (ud_x l, ud_y l) /\
  match u with None => ud_ult l = (nth 0 bx 0, last bx 0) | Some a => set_ultimate a = Ok (ud_ult l) end.
Proof.
  intros Hb. unfold ud_init. destruct (Nat.eqb_spec (length x) (length y)) as [E|E]; cbn [negb]; [|discriminate].
  rewrite Hb. destruct (Nat.ltb_spec 3 flag); [discriminate|].
  destruct bx as [|a bx]; [discriminate|].
  destruct (ud_extend flag (a :: bx) by_) as [[ex ey]|] eqn:Ee; cbn [bind]; [|discriminate].
  destruct u as [w|].
  - destruct (set_ultimate w) as [[p q]|]; cbn [bind]; [|discriminate]. intros [= <-]. cbn.
    repeat split; try lia; try discriminate.
  - intros [= <-]. cbn [ud_x ud_y ud_ult fst snd nth]. repeat split; try lia; try discriminate.
Qed.
Lemma ud_flag0 x y u l : (exists a, In a x /\ a < 0) -> ud_init x y u 0 = Ok l -> ud_x l = x /\ ud_y l = y.
Proof.
  intros Hn H. destruct (ud_init_inv _ _ _ _ _ _ _ (ud_base_neg x y Hn) H) as (_ & _ & _ & E & _).
  cbn in E. injection E as -> ->. auto.
Qed.
Lemma ud_flag0_pos x y u l : (forall a, In a x -> 0 <= a) -> ud_init x y u 0 = Ok l ->
  ud_x l = odd_completion x /\ ud_y l = odd_completion y.
Proof.
  intros Hn H. destruct (ud_init_inv _ _ _ _ _ _ _ (ud_base_pos x y Hn) H) as (_ & _ & _ & E & _).
  cbn in E. injection E as -> ->. auto.
Qed.
Lemma ud_init_completion x y u flag : increasing x -> nth 0 x 0 = 0 -> nth 0 y 0 = 0 -> length x = length y ->
  ud_init x y u flag = ud_init (odd_completion x) (odd_completion y) u flag.
Proof.
  intros Hi Hx Hy Hl. unfold ud_init. rewrite !oc_length, Hl, !Nat.eqb_refl. cbn [negb].
  rewrite (ud_base_pos x y) by (apply increasing_ge0; [exact Hi|lra]).
  assert (E : ud_base (odd_completion x) (odd_completion y) = (odd_completion x, odd_completion y)).
  { destruct (le_lt_dec (length x) 1) as [A|A].
    - destruct x as [|x0 [|]]; cbn in A; try lia; destruct y as [|y0 [|]]; cbn in Hl; try lia.
      + reflexivity.
      + cbn in Hx, Hy. subst. unfold odd_completion; cbn. unfold ud_base. cbn. destruct (Rltb_spec 0 0); [lra|]. reflexivity.
    - apply ud_base_neg. exists (nth 0 (odd_completion x) 0). split; [apply nth_In; rewrite oc_length; lia|].
      rewrite oc_nth_lo by lia. assert (nth 0 x 0 < nth (length x - 1 - 0) x 0) by (apply Hi; lia). lra. }
  rewrite E. reflexivity.
Qed.

(** Extended data. *)
Lemma ext_length (x : list R) a b : length (a :: x ++ [b]) = (length x + 2)%nat.
Proof. cbn. rewrite app_length. cbn. lia. Qed.
Lemma ext_nth_mid (x : list R) a b i : (i < length x)%nat -> nth (S i) (a :: x ++ [b]) 0 = nth i x 0.
Proof. intros H. cbn. apply app_nth1, H. Qed.
Lemma ext_nth_end (x : list R) a b : nth (S (length x)) (a :: x ++ [b]) 0 = b.
Proof. cbn. rewrite app_nth2, Nat.sub_diag by lia. reflexivity. Qed.
Lemma ext_increasing x a b : increasing x -> (1 <= length x)%nat -> a < nth 0 x 0 -> last x 0 < b -> increasing (a :: x ++ [b]).
Proof.
  intros Hi Hn Ha Hb i j Hij. rewrite ext_length in Hij.
  assert (Hmid : forall k, (k < length x)%nat -> a < nth k x 0 /\ nth k x 0 < b).
  { intros k Hk. assert (A := nth0_le x k Hi Hk). assert (B := nth_le_last x k Hi Hk). lra. }
  assert (Hab : a < b) by (destruct (Hmid O ltac:(lia)); lra).
  destruct i as [|i].
  - destruct (Nat.eq_dec j (S (length x))) as [->|N].
    + rewrite ext_nth_end. exact Hab.
    + destruct j as [|j]; [lia|]. rewrite ext_nth_mid by lia. cbn [nth]. apply Hmid. lia.
  - destruct j as [|j]; [lia|]. rewrite (ext_nth_mid x a b i) by lia.
    destruct (Nat.eq_dec j (length x)) as [->|N].
    + rewrite ext_nth_end. apply Hmid. lia.
    + rewrite ext_nth_mid by lia. apply Hi. lia.
Qed.

(** ** Parallel: values *)
Lemma fold_wsum (g : law -> R -> R) ws laws e s0 :
  fold_left (fun s wl => s + fst wl * g (snd wl) e) (combine ws laws) s0 = s0 + wsum ws (map g laws) e.
Proof.
  revert ws s0; induction laws as [|l laws IH]; intros [|w ws] s0; cbn [combine fold_left map wsum fst snd]; try lra.
  rewrite IH. cbn. lra.
Qed.
Lemma par_stress_sum p e : par_stress p e = wsum (pa_w p) (map lw_stress (pa_laws p)) e.
Proof. unfold par_stress. rewrite fold_wsum. lra. Qed.
Lemma par_tangent_sum p e : par_tangent p e = wsum (pa_w p) (map lw_tangent (pa_laws p)) e.
Proof. unfold par_tangent. rewrite fold_wsum. lra. Qed.

Lemma vadd_map (f g : R -> R) l : vadd (map f l) (map g l) = map (fun e => f e + g e) l.
Proof. unfold vadd. induction l as [|a l IH]; cbn; [reflexivity|]. rewrite IH. reflexivity. Qed.
Lemma par_arr_ok p eps :
  (forall l, In l (pa_laws p) -> lw_stress_arr l eps = (map (lw_stress l) eps, eps)) ->
  par_stress_arr p eps = (map (par_stress p) eps, eps).
Proof.
  intros H. unfold par_stress_arr.
  assert (G : forall ws laws (f : R -> R), (forall l, In l laws -> lw_stress_arr l eps = (map (lw_stress l) eps, eps)) ->
    fold_left (fun acc (wl : R * law) => let '(s, a) := acc in let '(v, a') := lw_stress_arr (snd wl) a in (vadd s (map (Rmult (fst wl)) v), a'))
      (combine ws laws) (map f eps, eps) = (map (fun e => f e + wsum ws (map lw_stress laws) e) eps, eps)).
  { intros ws laws. revert ws. induction laws as [|l laws IH]; intros [|w ws] f Hl; cbn [combine fold_left map wsum fst snd];
      try (f_equal; apply map_ext; intros; lra).
    rewrite (Hl l) by (left; reflexivity). rewrite map_map, vadd_map.
    rewrite (IH ws (fun e => f e + w * lw_stress l e)) by (intros; apply Hl; right; assumption).
    f_equal. apply map_ext. intros; lra. }
  rewrite G by exact H. f_equal. apply map_ext. intros e. rewrite par_stress_sum. lra.
Qed.

Lemma par_ult_spec p : pa_laws p <> [] -> exists a b, par_ult p = Some (a, b) /\
  (forall l, In l (pa_laws p) -> a <= fst (lw_ult l) /\ snd (lw_ult l) <= b) /\
  (exists l, In l (pa_laws p) /\ a = fst (lw_ult l)) /\ (exists l, In l (pa_laws p) /\ b = snd (lw_ult l)).
Proof.
  unfold par_ult. destruct (pa_laws p) as [|l0 laws]; [congruence|]. intros _. cbn [fold_left].
  assert (G : forall laws a b (seen : list law), 
     (forall l, In l seen -> a <= fst (lw_ult l) /\ snd (lw_ult l) <= b) ->
     (exists l, In l seen /\ a = fst (lw_ult l)) -> (exists l, In l seen /\ b = snd (lw_ult l)) ->
     exists a' b', fold_left (fun acc l => match acc with None => Some (lw_ult l)
        | Some (a, b) => Some (Rmin a (fst (lw_ult l)), Rmax b (snd (lw_ult l))) end) laws (Some (a, b)) = Some (a', b') /\
     (forall l, In l (seen ++ laws) -> a' <= fst (lw_ult l) /\ snd (lw_ult l) <= b') /\
     (exists l, In l (seen ++ laws) /\ a' = fst (lw_ult l)) /\ (exists l, In l (seen ++ laws) /\ b' = snd (lw_ult l))).
  { clear. intros laws. induction laws as [|l laws IH]; intros a b seen H1 H2 H3; cbn [fold_left].
    - exists a, b. rewrite app_nil_r. auto.
    - destruct (IH (Rmin a (fst (lw_ult l))) (Rmax b (snd (lw_ult l))) (seen ++ [l])) as (a' & b' & A & B & C & D).
      + intros l' Hl'. apply in_app_or in Hl' as [Hl'|[<-|[]]].
        * destruct (H1 l' Hl'). assert (X := Rmin_l a (fst (lw_ult l))). assert (Y := Rmax_l b (snd (lw_ult l))). lra.
        * split; [apply Rmin_r|apply Rmax_r].
      + destruct H2 as (l2 & I2 & ->). unfold Rmin. destruct (Rle_dec _ _).
        * exists l2. split; [apply in_or_app; left; exact I2|reflexivity].
        * exists l. split; [apply in_or_app; right; left; reflexivity|reflexivity].
      + destruct H3 as (l3 & I3 & ->). unfold Rmax. destruct (Rle_dec _ _).
        * exists l. split; [apply in_or_app; right; left; reflexivity|reflexivity].
        * exists l3. split; [apply in_or_app; left; exact I3|reflexivity].
      + exists a', b'. rewrite <- app_assoc in B, C, D. cbn in B, C, D. auto. }
  destruct (lw_ult l0) as [a b] eqn:E0.
  destruct (G laws a b [l0]) as (a' & b' & A & B & C & D).
  - intros l [<-|[]]. rewrite E0. cbn. lra.
  - exists l0. rewrite E0. split; [left|]; reflexivity.
  - exists l0. rewrite E0. split; [left|]; reflexivity.
  - exists a', b'. cbn in B, C, D. auto.
Qed.

(** With a non-constant strain field no law of this library rewrites strain[0],
    so the collected outputs are those of the original strain. *)
Lemma par_collect_same get laws s : (forall l, In l laws -> fst (get l s) = fst s) ->
  par_collect get laws s = (fst s, map (fun l => snd (get l s)) laws).
Proof.
  destruct s as [e0 e1]. unfold par_collect. cbn [fst snd].
  assert (G : forall acc, (forall l, In l laws -> fst (get l (e0, e1)) = e0) ->
    fold_left (fun a l => let '(e, outs) := a in let '(e', o) := get l (e, e1) in (e', outs ++ [o])) laws (e0, acc)
    = (e0, acc ++ map (fun l => snd (get l (e0, e1))) laws)).
  { induction laws as [|l laws IH]; intros acc H; cbn [fold_left map]; [rewrite app_nil_r; reflexivity|].
    assert (E := H l (or_introl eq_refl)). destruct (get l (e0, e1)) as [x o] eqn:Eg. cbn in E. subst x.
    rewrite IH by (intros; apply H; right; assumption). rewrite <- app_assoc. reflexivity. }
  intros H. rewrite (G [] H). reflexivity.
Qed.

(** ** Newton *)
Lemma newton_residual k st tg target : forall strain strain' d',
  newton k st tg target strain (target - st strain) = Ok (strain', d') -> d' = target - st strain'.
Proof.
  induction k as [|k IH]; intros strain strain' d'; cbn [newton].
  - destruct (Rleb _ _); intros [= <- <-]; reflexivity.
  - destruct (Rleb _ _); [intros [= <- <-]; reflexivity|].
    destruct (Reqb _ _); [discriminate|]. apply IH.
Qed.
Lemma strain_from_stress_sound st tg target e : strain_from_stress st tg target = Ok e ->
  Rabs (st e - target) <= / 10 ^ 12.
Proof.
  unfold strain_from_stress. destruct (newton 100 st tg target 0 (target - st 0)) as [[s d]|] eqn:E; cbn [bind]; [|discriminate].
  apply newton_residual in E. cbn [fst snd]. destruct (Rltb_spec (/ 10 ^ 12) (Rabs d)); [discriminate|].
  intros [= <-]. subst d. rewrite Rabs_minus_sym. lra.
Qed.
Lemma newton_err k st tg target : forall strain d x, newton k st tg target strain d = Err x -> x = ValueError.
Proof.
  induction k as [|k IH]; intros strain d x; cbn [newton]; destruct (Rleb _ _); try discriminate.
  destruct (Reqb _ _); [intros [= <-]; reflexivity|apply IH].
Qed.
Lemma strain_from_stress_err st tg target x : strain_from_stress st tg target = Err x -> x = ValueError \/ x = RuntimeError.
Proof.
  unfold strain_from_stress. destruct (newton _ _ _ _ _ _) as [[s d]|x'] eqn:E; cbn [bind].
  - destruct (Rltb _ _); [intros [= <-]; right; reflexivity|discriminate].
  - intros [= <-]. left. exact (newton_err _ _ _ _ _ _ _ E).
Qed.
(** Linear law: one step, exact. *)
Lemma newton_done k st tg target strain d : Rabs d <= / 10 ^ 12 -> newton k st tg target strain d = Ok (strain, d).
Proof. intros H. destruct k; cbn [newton]; destruct (Rleb_spec (Rabs d) (/ 10 ^ 12)); try lra; reflexivity. Qed.
Lemma newton_step k st tg target strain d : / 10 ^ 12 < Rabs d -> tg strain <> 0 ->
  newton (S k) st tg target strain d =
  newton k st tg target (strain + d / tg strain) (target - st (strain + d / tg strain)).
Proof.
  intros H Ht. cbn [newton]. destruct (Rleb_spec (Rabs d) (/ 10 ^ 12)); [lra|].
  destruct (Reqb_spec (tg strain) 0); [contradiction|reflexivity].
Qed.
Lemma newton_linear E target : E <> 0 -> strain_from_stress (fun e => E * e) (fun _ => E) target = Ok (target / E) \/
  (Rabs target <= / 10 ^ 12 /\ strain_from_stress (fun e => E * e) (fun _ => E) target = Ok 0).
Proof.
  intros HE. unfold strain_from_stress.
  replace (target - E * 0) with target by ring.
  assert (P : 0 < / 10 ^ 12) by (apply Rinv_0_lt_compat; lra).
  destruct (Rle_dec (Rabs target) (/ 10 ^ 12)) as [L|L].
  - right. split; [exact L|]. rewrite newton_done by exact L. cbn [bind snd fst].
    destruct (Rltb_spec (/ 10 ^ 12) (Rabs target)); [lra|reflexivity].
  - left. rewrite newton_step; [|lra|exact HE].
    replace (target - E * (0 + target / E)) with 0 by (field; exact HE).
    rewrite newton_done by (rewrite Rabs_R0; lra). cbn [bind snd fst]. rewrite Rabs_R0.
    destruct (Rltb_spec (/ 10 ^ 12) 0); [lra|]. f_equal. ring.
Qed.
