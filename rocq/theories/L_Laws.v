From Coquelicot Require Import Coquelicot.
From Verif Require Import Base M_Laws S_Laws.

Lemma masked_map {A B} (p : A -> bool) (f g : A -> B) l :
  masked (map p l) (map f l) (map g l) = map (fun x => if p x then f x else g x) l.
Proof. induction l as [|x l IH]; cbn; [reflexivity|]. rewrite IH. reflexivity. Qed.

Lemma masked_map_id {A} (p : A -> bool) (f : A -> A) l :
  masked (map p l) (map f l) l = map (fun x => if p x then f x else x) l.
Proof. rewrite <- (map_id l) at 3. apply masked_map. Qed.

Lemma isclose_near lim eps : isclose (/ 1000000) eps lim = true <-> near lim eps.
Proof. unfold isclose, near, tol. apply Rleb_true. Qed.
Lemma isclose_far lim eps : isclose (/ 1000000) eps lim = false <-> far lim eps.
Proof. unfold isclose, far, tol. apply Rleb_false. Qed.
Lemma tol_pos lim : 0 < tol lim.
Proof. unfold tol. assert (H := Rabs_pos lim). lra. Qed.
Lemma near_refl lim : near lim lim.
Proof. unfold near. replace (lim - lim) with 0 by lra. rewrite Rabs_R0. left; apply tol_pos. Qed.

Lemma prep_max lim eps : near (snd lim) eps -> prep lim eps = snd lim.
Proof. intros H. unfold prep. apply isclose_near in H. rewrite H. reflexivity. Qed.
Lemma prep_min lim eps : far (snd lim) eps -> near (fst lim) eps -> prep lim eps = fst lim.
Proof. intros H1 H. unfold prep. apply isclose_near in H. apply isclose_far in H1. rewrite H1, H. reflexivity. Qed.
Lemma prep_far lim eps : far (snd lim) eps -> far (fst lim) eps -> prep lim eps = eps.
Proof. intros H1 H. unfold prep. apply isclose_far in H. apply isclose_far in H1. rewrite H1, H. reflexivity. Qed.
Lemma near_or_far lim eps : near lim eps \/ far lim eps.
Proof. unfold near, far. lra. Qed.
Lemma prep_close lim eps : Rabs (prep lim eps - eps) <= Rmax (tol (fst lim)) (tol (snd lim)).
Proof.
  destruct (near_or_far (snd lim) eps) as [H|H]; [rewrite (prep_max _ _ H)|
   destruct (near_or_far (fst lim) eps) as [H2|H2]; [rewrite (prep_min _ _ H H2)|rewrite (prep_far _ _ H H2)]].
  - rewrite Rabs_minus_sym. eapply Rle_trans; [exact H|apply Rmax_r].
  - rewrite Rabs_minus_sym. eapply Rle_trans; [exact H2|apply Rmax_l].
  - replace (eps - eps) with 0 by lra. rewrite Rabs_R0. eapply Rle_trans; [left; apply (tol_pos (fst lim))|apply Rmax_l].
Qed.

Lemma prep_arr_map lim eps : separated lim -> prep_arr lim eps = map (prep lim) eps.
Proof.
  intros Hs. unfold prep_arr. rewrite masked_map_id. rewrite masked_map_id, map_map.
  apply map_ext. intros e. unfold prep.
  apply isclose_far in Hs.
  destruct (isclose _ e (snd lim)); [rewrite Hs|]; reflexivity.
Qed.

Ltac arr_norm := repeat (rewrite ?map_map; rewrite masked_map); rewrite ?map_map.

(** *** Elastic *)
Lemma elastic_init_ok E u l : elastic_init E u = Ok l -> 0 < E /\ el_E l = E.
Proof.
  unfold elastic_init. destruct (Rleb_spec E 0); [discriminate|].
  destruct u as [a|]; cbn.
  - destruct (set_ultimate a); cbn; [|discriminate]. intros [= <-]; cbn; lra.
  - intros [= <-]; cbn; lra.
Qed.

(** The ultimate strains are stored as (negative, positive), bracketing 0. *)
Lemma set_ultimate_ok a u : set_ultimate a = Ok u -> fst u <= 0 <= snd u.
Proof.
  destruct a as [x|[|n [|p t]]|]; cbn; try discriminate.
  - intros [= <-]; cbn. assert (H := Rabs_pos x). lra.
  - destruct (Rltb_spec p n); cbv zeta; rsplit1; try discriminate; rsplit1; try discriminate;
      intros [= <-]; cbn; lra.
Qed.

Lemma elastic_stress_arr_map l eps : elastic_stress_arr l eps = map (elastic_stress l) eps.
Proof. reflexivity. Qed.
Lemma elastic_tangent_arr_map l eps : elastic_tangent_arr l eps = map (elastic_tangent l) eps.
Proof. unfold elastic_tangent_arr, elastic_tangent. rewrite map_map. apply map_ext. intros; lra. Qed.
Lemma elastic_deriv l eps : is_derive (elastic_stress l) eps (elastic_tangent l eps).
Proof. unfold elastic_stress, elastic_tangent. auto_derive; [exact I|]. lra. Qed.
Lemma elastic_describes l e0 e1 : describes (fun _ => True) (elastic_stress l) e0 e1 (snd (elastic_marin l (e0, e1))).
Proof. cbn. eexists; split; [reflexivity|]. intros y _. cbn. unfold elastic_stress. ring. Qed.
Lemma elastic_describes_tangent l e0 e1 : describes (fun _ => True) (elastic_tangent l) e0 e1 (snd (elastic_marin_tangent l (e0, e1))).
Proof. cbn. eexists; split; [reflexivity|]. intros y _. cbn. unfold elastic_tangent. ring. Qed.

(** *** Local derivative helper *)
Lemma is_derive_local (f g : R -> R) x l a b :
  a < x < b -> (forall t, a < t < b -> f t = g t) -> is_derive g x l -> is_derive f x l.
Proof.
  intros [Ha Hb] He Hg. eapply is_derive_ext_loc; [|exact Hg].
  assert (L : locally x (fun t => a < t < b)).
  { apply filter_and; [apply (open_gt a)|apply (open_lt b)]; assumption. }
  eapply filter_imp; [|exact L]. intros t Ht. symmetry. apply He. exact Ht.
Qed.

(** An open interval around a strain far from a limit, all of it far from it. *)
Lemma far_interval lim x : far lim x -> exists a b, a < x < b /\ forall t, a < t < b -> far lim t.
Proof.
  unfold far. intros H.
  destruct (Rle_lt_dec lim x) as [L|L].
  - rewrite Rabs_pos_eq in H by lra. exists (lim + tol lim), (x + 1). split; [lra|].
    intros t Ht. assert (Hp := tol_pos lim). rewrite Rabs_pos_eq by lra. lra.
  - rewrite Rabs_left in H by lra. exists (x - 1), (lim - tol lim). split; [lra|].
    intros t Ht. assert (Hp := tol_pos lim). rewrite Rabs_left by lra. lra.
Qed.

Lemma far_both_interval l1 l2 x : far l1 x -> far l2 x ->
  exists a b, a < x < b /\ forall t, a < t < b -> far l1 t /\ far l2 t.
Proof.
  intros H1 H2. destruct (far_interval _ _ H1) as (a1 & b1 & I1 & F1).
  destruct (far_interval _ _ H2) as (a2 & b2 & I2 & F2).
  exists (Rmax a1 a2), (Rmin b1 b2). split.
  - split; [apply Rmax_lub_lt; lra|apply Rmin_glb_lt; lra].
  - intros t [Ta Tb]. assert (X1 := Rmax_l a1 a2). assert (X2 := Rmax_r a1 a2).
    assert (Y1 := Rmin_l b1 b2). assert (Y2 := Rmin_r b1 b2).
    split; [apply F1|apply F2]; lra.
Qed.

(** If [f = raw o prep] then at a strain far from both limits [f] inherits the
    derivative of any function agreeing with [raw] near that strain. *)
Lemma deriv_prep lim (f raw g : R -> R) x l a b :
  (forall e, f e = raw (prep lim e)) ->
  far (snd lim) x -> far (fst lim) x ->
  a < x < b -> (forall t, a < t < b -> raw t = g t) -> is_derive g x l -> is_derive f x l.
Proof.
  intros Hf H1 H2 Hx Hg Hd.
  destruct (far_both_interval _ _ _ H1 H2) as (c & d & Hc & Hfar).
  apply (is_derive_local f g x l (Rmax a c) (Rmin b d)).
  - split; [apply Rmax_lub_lt; lra|apply Rmin_glb_lt; lra].
  - intros t [Ta Tb]. assert (X1 := Rmax_l a c). assert (X2 := Rmax_r a c).
    assert (Y1 := Rmin_l b d). assert (Y2 := Rmin_r b d).
    destruct (Hfar t) as [F1 F2]; [lra|]. rewrite Hf, prep_far by assumption. apply Hg. lra.
  - exact Hd.
Qed.

(** *** ElasticPlastic *)
(** Well-formed parameters: what a user must supply. *)
Definition ep_wf (l : ep) : Prop :=
  0 < ep_E l /\ 0 < ep_fy l /\ 0 <= ep_Eh l /\ ep_sy l = ep_fy l / ep_E l /\
  match ep_su l with None => True | Some u => ep_sy l <= u end.

(** Three-branch form of the scalar stress at the snapped strain. *)
Definition ep_raw (l : ep) (e : R) : R :=
  match ep_su l with
  | None => if Rltb e (- ep_sy l) then ep_Eh l * (e + ep_sy l) - ep_fy l
            else if Rltb (ep_sy l) e then ep_Eh l * (e - ep_sy l) + ep_fy l
            else ep_E l * e
  | Some u => if Rltb u e then 0 else if Rltb e (- u) then 0 else
            if Rltb e (- ep_sy l) then ep_Eh l * (e + ep_sy l) - ep_fy l
            else if Rltb (ep_sy l) e then ep_Eh l * (e - ep_sy l) + ep_fy l
            else ep_E l * e
  end.

Lemma ep_stress_raw l e : ep_wf l -> ep_stress l e = ep_raw l (prep (ep_ult l) e).
Proof.
  intros (HE & Hfy & HEh & Hsy & Hu). unfold ep_stress, ep_raw.
  set (x := prep (ep_ult l) e). cbv zeta.
  assert (Hsy0 : 0 < ep_sy l) by (rewrite Hsy; apply Rdiv_lt_0_compat; lra).
  assert (HfyE : ep_fy l = ep_E l * ep_sy l) by (rewrite Hsy; field; lra).
  assert (K : (if Rltb (ep_fy l) (if Rltb (ep_E l * x) (- ep_fy l) then x * ep_Eh l - ep_fy l * (1 - ep_Eh l / ep_E l) else ep_E l * x)
     then x * ep_Eh l + ep_fy l * (1 - ep_Eh l / ep_E l)
     else if Rltb (ep_E l * x) (- ep_fy l) then x * ep_Eh l - ep_fy l * (1 - ep_Eh l / ep_E l) else ep_E l * x)
    = if Rltb x (- ep_sy l) then ep_Eh l * (x + ep_sy l) - ep_fy l
      else if Rltb (ep_sy l) x then ep_Eh l * (x - ep_sy l) + ep_fy l else ep_E l * x).
  { replace (ep_fy l * (1 - ep_Eh l / ep_E l)) with (ep_fy l - ep_Eh l * ep_sy l) by (rewrite Hsy; field; lra).
    destruct (Rltb_spec x (- ep_sy l)).
    - destruct (Rltb_spec (ep_E l * x) (- ep_fy l)); [|nra].
      destruct (Rltb_spec (ep_fy l) (x * ep_Eh l - (ep_fy l - ep_Eh l * ep_sy l))); [nra|]. ring.
    - destruct (Rltb_spec (ep_E l * x) (- ep_fy l)); [nra|].
      destruct (Rltb_spec (ep_sy l) x); destruct (Rltb_spec (ep_fy l) (ep_E l * x)); try nra; ring. }
  destruct (ep_su l) as [u|]; [|exact K].
  destruct (Rltb u x); cbn [orb]; [reflexivity|].
  destruct (Rltb x (- u)); [reflexivity|]. exact K.
Qed.

Lemma ep_stress_arr_map l eps : separated (ep_ult l) -> ep_stress_arr l eps = map (ep_stress l) eps.
Proof.
  intros Hs. unfold ep_stress_arr. rewrite (prep_arr_map _ _ Hs). cbv zeta.
  destruct (ep_su l) as [u|] eqn:Eu; arr_norm; apply map_ext; intros e;
    unfold ep_stress; rewrite Eu; cbv zeta; [|reflexivity].
  destruct (Rltb u (prep (ep_ult l) e)); cbn [orb];
  destruct (Rltb (prep (ep_ult l) e) (- u)); reflexivity.
Qed.

Lemma ep_tangent_arr_map l eps : 0 <= ep_sy l -> ep_tangent_arr l eps = map (ep_tangent l) eps.
Proof.
  intros Hsy. unfold ep_tangent_arr, ep_tangent. rewrite map_map.
  destruct (ep_su l) as [u|]; cbv zeta; rewrite !masked_map; apply map_ext; intros e.
  - destruct (Rltb_spec e (- u)); destruct (Rltb_spec u e); cbn [orb]; try reflexivity.
    destruct (Rltb_spec e (- ep_sy l)); destruct (Rltb_spec (ep_sy l) e);
      destruct (Rleb_spec (- ep_sy l) e); destruct (Rleb_spec e (ep_sy l)); cbn [andb]; lra.
  - destruct (Rltb_spec e (- ep_sy l)); destruct (Rltb_spec (ep_sy l) e);
      destruct (Rleb_spec (- ep_sy l) e); destruct (Rleb_spec e (ep_sy l)); cbn [andb]; lra.
Qed.

Lemma affine_deriv (a b x : R) : is_derive (fun t => a * t + b) x a.
Proof. auto_derive; [exact I|]. lra. Qed.

Lemma ep_sy_pos l : ep_wf l -> 0 < ep_sy l.
Proof. intros (HE & Hfy & _ & Hsy & _). rewrite Hsy. apply Rdiv_lt_0_compat; lra. Qed.

Lemma ep_deriv l x : ep_wf l ->
  far (fst (ep_ult l)) x -> far (snd (ep_ult l)) x -> x <> ep_sy l -> x <> - ep_sy l ->
  is_derive (ep_stress l) x (ep_tangent l x).
Proof.
  intros W F1 F2 N1 N2.
  assert (Hsy := ep_sy_pos l W).
  assert (Hx : forall e, ep_stress l e = ep_raw l (prep (ep_ult l) e)) by (intros; apply ep_stress_raw, W).
  assert (Hult : match ep_su l with None => True | Some u => x <> u /\ x <> - u end).
  { unfold ep_ult in *. destruct (ep_su l) as [u|]; [|trivial]. cbn in *. unfold far in *.
    assert (T1 := tol_pos u). assert (T2 := tol_pos (- u)).
    split; intros ->.
    - replace (u - u) with 0 in F2 by lra. rewrite Rabs_R0 in F2. lra.
    - replace (- u - - u) with 0 in F1 by lra. rewrite Rabs_R0 in F1. lra. }
  destruct W as (HE & Hfy & HEh & Hsye & Hu).
  assert (D0 : forall c y, is_derive (fun _ : R => c) y 0) by (intros; auto_derive; trivial).
  unfold ep_tangent.
  destruct (ep_su l) as [u|] eqn:Eu.
  - destruct Hult as [Nu1 Nu2].
    destruct (Rltb_spec u x) as [C|C].
    { cbn [orb]. eapply (deriv_prep _ _ (ep_raw l) (fun _ => 0) x _ u (x + 1) Hx F2 F1); [lra| |apply D0].
      intros t Ht. unfold ep_raw; rewrite Eu. destruct (Rltb_spec u t); lra. }
    destruct (Rltb_spec x (- u)) as [C2|C2].
    { cbn [orb]. eapply (deriv_prep _ _ (ep_raw l) (fun _ => 0) x _ (x - 1) (- u) Hx F2 F1); [lra| |apply D0].
      intros t Ht. unfold ep_raw; rewrite Eu. destruct (Rltb_spec u t); [lra|]. destruct (Rltb_spec t (- u)); lra. }
    cbn [orb].
    destruct (Rleb_spec (- ep_sy l) x) as [S1|S1]; cbn [andb].
    + destruct (Rleb_spec x (ep_sy l)) as [S2|S2].
      * eapply (deriv_prep _ _ (ep_raw l) (fun t => ep_E l * t + 0) x _ (- ep_sy l) (ep_sy l) Hx F2 F1); [lra| |apply affine_deriv].
        intros t Ht. unfold ep_raw; rewrite Eu. destruct (Rltb_spec u t); [lra|]. destruct (Rltb_spec t (- u)); [lra|].
        destruct (Rltb_spec t (- ep_sy l)); [lra|]. destruct (Rltb_spec (ep_sy l) t); lra.
      * eapply (deriv_prep _ _ (ep_raw l) (fun t => ep_Eh l * t + (ep_fy l - ep_Eh l * ep_sy l)) x _ (ep_sy l) u Hx F2 F1); [lra| |apply affine_deriv].
        intros t Ht. unfold ep_raw; rewrite Eu. destruct (Rltb_spec u t); [lra|]. destruct (Rltb_spec t (- u)); [lra|].
        destruct (Rltb_spec t (- ep_sy l)); [lra|]. destruct (Rltb_spec (ep_sy l) t); lra.
    + eapply (deriv_prep _ _ (ep_raw l) (fun t => ep_Eh l * t + (ep_Eh l * ep_sy l - ep_fy l)) x _ (- u) (- ep_sy l) Hx F2 F1); [lra| |apply affine_deriv].
      intros t Ht. unfold ep_raw; rewrite Eu. destruct (Rltb_spec u t); [lra|]. destruct (Rltb_spec t (- u)); [lra|].
      destruct (Rltb_spec t (- ep_sy l)); lra.
  - destruct (Rleb_spec (- ep_sy l) x) as [S1|S1]; cbn [andb].
    + destruct (Rleb_spec x (ep_sy l)) as [S2|S2].
      * eapply (deriv_prep _ _ (ep_raw l) (fun t => ep_E l * t + 0) x _ (- ep_sy l) (ep_sy l) Hx F2 F1); [lra| |apply affine_deriv].
        intros t Ht. unfold ep_raw; rewrite Eu.
        destruct (Rltb_spec t (- ep_sy l)); [lra|]. destruct (Rltb_spec (ep_sy l) t); lra.
      * eapply (deriv_prep _ _ (ep_raw l) (fun t => ep_Eh l * t + (ep_fy l - ep_Eh l * ep_sy l)) x _ (ep_sy l) (x + 1) Hx F2 F1); [lra| |apply affine_deriv].
        intros t Ht. unfold ep_raw; rewrite Eu.
        destruct (Rltb_spec t (- ep_sy l)); [lra|]. destruct (Rltb_spec (ep_sy l) t); lra.
    + eapply (deriv_prep _ _ (ep_raw l) (fun t => ep_Eh l * t + (ep_Eh l * ep_sy l - ep_fy l)) x _ (x - 1) (- ep_sy l) Hx F2 F1); [lra| |apply affine_deriv].
      intros t Ht. unfold ep_raw; rewrite Eu.
      destruct (Rltb_spec t (- ep_sy l)); lra.
Qed.

Lemma near_sym u e : near u e <-> near (- u) (- e).
Proof.
  unfold near, tol. rewrite Rabs_Ropp.
  replace (- e - - u) with (- (e - u)) by lra. rewrite Rabs_Ropp. tauto.
Qed.
Lemma far_sym u e : far u e <-> far (- u) (- e).
Proof.
  unfold far, tol. rewrite Rabs_Ropp.
  replace (- e - - u) with (- (e - u)) by lra. rewrite Rabs_Ropp. tauto.
Qed.
Lemma near_far_excl lim e : near lim e -> far lim e -> False.
Proof. unfold near, far. lra. Qed.

(** Symmetric limits wider than the tolerance: snapping is odd. *)
Lemma prep_odd u e : tol u < u -> prep (- u, u) (- e) = - prep (- u, u) e.
Proof.
  intros Hu.
  assert (X : near u e -> far (- u) e).
  { unfold near, far, tol. rewrite Rabs_Ropp. intros H.
    assert (Ht : / 1000000 + / 100000 * Rabs u < u) by exact Hu.
    assert (Hp := Rabs_pos u). apply Rabs_le_between in H.
    replace (e - - u) with (e + u) by lra. rewrite (Rabs_pos_eq (e + u)); lra. }
  destruct (near_or_far u e) as [H|H].
  - rewrite (prep_max (- u, u) e H).
    apply prep_min; cbn [fst snd].
    + apply far_sym. rewrite Ropp_involutive. apply X, H.
    + apply near_sym in H. exact H.
  - destruct (near_or_far (- u) e) as [H2|H2].
    + rewrite (prep_min (- u, u) e H H2). cbn [fst]. rewrite Ropp_involutive.
      apply prep_max. cbn [snd]. apply near_sym in H2. rewrite Ropp_involutive in H2. exact H2.
    + rewrite (prep_far (- u, u) e H H2).
      apply prep_far; cbn [fst snd].
      * apply far_sym in H2. rewrite Ropp_involutive in H2. exact H2.
      * apply far_sym in H. exact H.
Qed.

(** Half-width of the ultimate strain interval of ElasticPlastic. *)
Lemma ep_ult_sym l : ep_ult l = (- snd (ep_ult l), snd (ep_ult l)).
Proof. unfold ep_ult. destruct (ep_su l); cbn; [reflexivity|]. f_equal; lra. Qed.

Lemma ep_raw_odd l e : ep_wf l -> ep_raw l (- e) = - ep_raw l e.
Proof.
  intros W. assert (Hsy := ep_sy_pos l W). destruct W as (HE & Hfy & HEh & Hsye & Hu).
  unfold ep_raw. destruct (ep_su l) as [u|]; rsplit.
Qed.

Lemma ep_odd l e : ep_wf l -> tol (snd (ep_ult l)) < snd (ep_ult l) ->
  ep_stress l (- e) = - ep_stress l e.
Proof.
  intros W Ht. rewrite !ep_stress_raw by exact W. rewrite ep_ult_sym.
  rewrite prep_odd by exact Ht. apply ep_raw_odd, W.
Qed.

Lemma ep_raw_bound l e : ep_wf l ->
  match ep_su l with
  | None => Rabs (ep_raw l e) <= Rmax (ep_fy l) (ep_fy l + ep_Eh l * (Rabs e - ep_sy l))
  | Some u => Rabs (ep_raw l e) <= ep_fy l + ep_Eh l * (u - ep_sy l)
  end.
Proof.
  intros W. assert (Hsy := ep_sy_pos l W). destruct W as (HE & Hfy & HEh & Hsye & Hu).
  assert (HfyE : ep_fy l = ep_E l * ep_sy l) by (rewrite Hsye; field; lra).
  unfold ep_raw. destruct (ep_su l) as [u|].
  - assert (0 <= ep_Eh l * (u - ep_sy l)) by nra.
    rsplit; try (rewrite Rabs_R0; nra); apply Rabs_le; nra.
  - assert (X := Rmax_l (ep_fy l) (ep_fy l + ep_Eh l * (Rabs e - ep_sy l))).
    assert (Y := Rmax_r (ep_fy l) (ep_fy l + ep_Eh l * (Rabs e - ep_sy l))).
    rsplit.
    + eapply Rle_trans; [|exact Y]. rewrite (Rabs_left e) by lra. apply Rabs_le; nra.
    + eapply Rle_trans; [|exact Y]. rewrite (Rabs_pos_eq e) by lra. apply Rabs_le; nra.
    + eapply Rle_trans; [|exact X]. apply Rabs_le; nra.
Qed.

(** Monotone and Lipschitz inside the ultimate interval. *)
Lemma ep_raw_mono l a b : ep_wf l -> a <= b ->
  match ep_su l with None => True | Some u => - u <= a /\ b <= u end ->
  0 <= ep_raw l b - ep_raw l a <= Rmax (ep_E l) (ep_Eh l) * (b - a).
Proof.
  intros W Hab Hin. assert (Hsy := ep_sy_pos l W). destruct W as (HE & Hfy & HEh & Hsye & Hu).
  assert (HfyE : ep_fy l = ep_E l * ep_sy l) by (rewrite Hsye; field; lra).
  assert (X := Rmax_l (ep_E l) (ep_Eh l)). assert (Y := Rmax_r (ep_E l) (ep_Eh l)).
  set (M := Rmax (ep_E l) (ep_Eh l)) in *.
  unfold ep_raw. destruct (ep_su l) as [u|].
  - destruct (Rltb_spec u b); [lra|]. destruct (Rltb_spec b (- u)); [lra|].
    destruct (Rltb_spec u a); [lra|]. destruct (Rltb_spec a (- u)); [lra|].
    rsplit; split; nra.
  - rsplit; split; nra.
Qed.

(** *** marin descriptions of ElasticPlastic *)
Definition unsnapped (lim : R * R) (e : R) : Prop := prep lim e = e.

Lemma ep_describes l u e0 e1 : ep_wf l -> ep_su l = Some u ->
  describes (unsnapped (ep_ult l)) (ep_stress l) e0 e1 (snd (ep_marin l (e0, e1))).
Proof.
  intros W Eu. assert (Hsy := ep_sy_pos l W).
  assert (Hst : forall e, ep_stress l e = ep_raw l (prep (ep_ult l) e)) by (intros; apply ep_stress_raw, W).
  destruct W as (HE & Hfy & HEh & Hsye & Hu).
  assert (HfyE : ep_fy l = ep_E l * ep_sy l) by (rewrite Hsye; field; lra).
  assert (Hd : ep_fy l * (1 - ep_Eh l / ep_E l) = ep_fy l - ep_Eh l * ep_sy l) by (rewrite Hsye; field; lra).
  rewrite Eu in Hu.
  assert (Hult : ep_ult l = (- u, u)) by (unfold ep_ult; rewrite Eu; reflexivity).
  unfold ep_marin, ep_yield. rewrite Hult in *. cbv beta iota zeta. rewrite Hd.
  destruct (Reqb_spec e1 0) as [->|N].
  - cbn [snd].
    set (x := prep (- u, u) e0) in *.
    assert (G : forall c, (forall y, poly c y = ep_raw l x) ->
      describes (unsnapped (- u, u)) (ep_stress l) e0 0 (None, [c])).
    { intros c Hc. unfold describes; cbn [fst snd]. exists c; split; [reflexivity|].
      intros y _. replace (e0 + 0 * y) with e0 by lra. rewrite Hst. apply Hc. }
    unfold ep_raw in G. rewrite Eu in G. revert G.
    destruct (Rltb_spec (ep_sy l) x); cbn [andb].
    + destruct (Rleb_spec x u); cbn [andb]; intros G.
      * apply G. intros y; cbn [poly]. rsplit.
      * destruct (Rltb_spec x (- ep_sy l)); [lra|]. cbn [andb].
        destruct (Rleb_spec (Rabs x) (ep_sy l)) as [A|A].
        { apply Rabs_le_between in A. lra. }
        apply G. intros y; cbn [poly]. rsplit.
    + destruct (Rltb_spec x (- ep_sy l)); cbn [andb].
      * destruct (Rleb_spec (- u) x); intros G.
        { apply G. intros y; cbn [poly]. rsplit. }
        destruct (Rleb_spec (Rabs x) (ep_sy l)) as [A|A].
        { apply Rabs_le_between in A. lra. }
        apply G. intros y; cbn [poly]. rsplit.
      * intros G. destruct (Rleb_spec (Rabs x) (ep_sy l)) as [A|A].
        2:{ exfalso. assert (Rabs x <= ep_sy l) by (apply Rabs_le; lra). lra. }
        apply G. intros y; cbn [poly]. rsplit.
  - cbn [snd]. unfold describes; cbn [fst snd length combine]. split; [reflexivity|].
    intros y Hy. rewrite Hst. unfold unsnapped in Hy. rewrite Hy.
    set (x := e0 + e1 * y). unfold ep_raw. rewrite Eu. split.
    + intros r c [[= <- <-]|[[= <- <-]|[[= <- <-]|[]]]]; cbn [fst snd poly]; intros [L U];
        unfold x in *; rsplit; nra.
    + intros Hn. assert (H1 := Hn (- u, - ep_sy l) ltac:(cbn; auto)).
      assert (H2 := Hn (- ep_sy l, ep_sy l) ltac:(cbn; auto)).
      assert (H3 := Hn (ep_sy l, u) ltac:(cbn; auto)). cbn [fst snd] in *. 
      rsplit; exfalso; destruct (Rle_lt_dec x (- ep_sy l)); destruct (Rle_lt_dec x (ep_sy l)); 
       destruct (Rle_lt_dec x u); destruct (Rle_lt_dec (- u) x); try lra; tauto || (apply H2; lra) || (apply H1; lra) || (apply H3; lra).
Qed.

Lemma ep_describes_tangent l u e0 e1 : ep_wf l -> ep_su l = Some u ->
  describes (fun e => unsnapped (ep_ult l) e /\ e <> ep_sy l /\ e <> - ep_sy l)
    (ep_tangent l) e0 e1 (snd (ep_marin_tangent l (e0, e1))).
Proof.
  intros W Eu. assert (Hsy := ep_sy_pos l W).
  destruct W as (HE & Hfy & HEh & Hsye & Hu). rewrite Eu in Hu.
  assert (Hult : ep_ult l = (- u, u)) by (unfold ep_ult; rewrite Eu; reflexivity).
  unfold ep_marin_tangent, ep_yield, ep_tangent. rewrite Hult, Eu. cbv beta iota zeta.
  destruct (Reqb_spec e1 0) as [->|N].
  - cbn [snd].
    assert (G : forall c, (unsnapped (- u, u) e0 -> forall y, poly c y = (if orb (Rltb u e0) (Rltb e0 (- u)) then 0
        else if andb (Rleb (- ep_sy l) e0) (Rleb e0 (ep_sy l)) then ep_E l else ep_Eh l)) ->
      describes (fun e => unsnapped (- u, u) e /\ e <> ep_sy l /\ e <> - ep_sy l)
       (fun e => if orb (Rltb u e) (Rltb e (- u)) then 0
        else if andb (Rleb (- ep_sy l) e) (Rleb e (ep_sy l)) then ep_E l else ep_Eh l) e0 0 (None, [c])).
    { intros c Hc. unfold describes; cbn [fst snd]. exists c; split; [reflexivity|].
      intros y. replace (e0 + 0 * y) with e0 by lra. intros (Hs & _ & _). apply Hc. exact Hs. }
    repeat match goal with |- describes _ _ _ _ (if ?b then _ else _) => destruct b eqn:? end;
      apply G; clear G; unfold unsnapped; intros E; rewrite E in *; intros y; cbn [poly];
      repeat match goal with
      | H : andb _ _ = true |- _ => apply andb_prop in H; destruct H
      | H : andb _ _ = false |- _ => apply andb_false_iff in H
      | H : Rltb _ _ = true |- _ => apply Rltb_true in H
      | H : Rleb _ _ = true |- _ => apply Rleb_true in H
      | H : Rleb (Rabs _) _ = false |- _ => apply Rleb_false in H
      end.
    + rsplit.
    + rsplit.
    + match goal with H : Rabs _ <= _ |- _ => apply Rabs_le_between in H end. rsplit.
    + assert (Rabs e0 <= ep_sy l -> False) by lra.
      destruct (Rle_lt_dec (Rabs e0) (ep_sy l)); [lra|].
      match goal with H : ep_sy l < Rabs e0 |- _ => idtac end.
      assert (e0 < - ep_sy l \/ ep_sy l < e0).
      { unfold Rabs in *. destruct (Rcase_abs e0); lra. }
      rsplit;
      repeat match goal with H : _ \/ _ |- _ => destruct H end;
      repeat match goal with
      | H : Rltb _ _ = false |- _ => apply Rltb_false in H
      | H : Rleb _ _ = false |- _ => apply Rleb_false in H
      end; lra.
  - cbn [snd]. unfold describes; cbn [fst snd length combine]. split; [reflexivity|].
    intros y (_ & N1 & N2). set (x := e0 + e1 * y) in *. split.
    + intros r c [[= <- <-]|[[= <- <-]|[[= <- <-]|[]]]]; cbn [fst snd poly]; intros [L U]; rsplit.
    + intros Hn. assert (H1 := Hn (- u, - ep_sy l) ltac:(cbn; auto)).
      assert (H2 := Hn (- ep_sy l, ep_sy l) ltac:(cbn; auto)).
      assert (H3 := Hn (ep_sy l, u) ltac:(cbn; auto)). cbn [fst snd] in *.
      rsplit; exfalso; destruct (Rle_lt_dec x (- ep_sy l)); destruct (Rle_lt_dec x (ep_sy l)); 
       destruct (Rle_lt_dec x u); destruct (Rle_lt_dec (- u) x); try lra; tauto || (apply H2; lra) || (apply H1; lra) || (apply H3; lra).
Qed.

(** ** Real powers *)
Lemma pypow_pos x n : 0 < x -> pypow x n = Rpower x n.
Proof. intros H. unfold pypow. destruct (Reqb_spec x 0); [lra|reflexivity]. Qed.
Lemma pypow_0 n : n <> 0 -> pypow 0 n = 0.
Proof. intros H. unfold pypow. destruct (Reqb_spec 0 0); [|lra]. destruct (Reqb_spec n 0); [lra|reflexivity]. Qed.
Lemma pypow_1 n : pypow 1 n = 1.
Proof. rewrite pypow_pos by lra. unfold Rpower. rewrite ln_1, Rmult_0_r. apply exp_0. Qed.
Lemma pypow_ge0 x n : 0 <= pypow x n.
Proof. unfold pypow. rsplit. left. apply exp_pos. Qed.
Lemma pypow_mono x y n : 0 <= x <= y -> 0 < n -> pypow x n <= pypow y n.
Proof.
  intros [H0 Hxy] Hn. destruct (Req_dec x 0) as [->|N].
  - rewrite (pypow_0 n) by lra. apply pypow_ge0.
  - rewrite !pypow_pos by lra. apply Rle_Rpower_l; lra.
Qed.
Lemma pypow_le1 x n : 0 <= x <= 1 -> 0 < n -> pypow x n <= 1.
Proof. intros H Hn. rewrite <- (pypow_1 n). apply pypow_mono; lra. Qed.
Lemma pypow_2 x : 0 <= x -> pypow x 2 = x ^ 2.
Proof.
  intros [H|<-]; [|rewrite pypow_0 by lra; lra]. rewrite pypow_pos by exact H.
  replace 2 with (INR 2) by (cbn; lra). apply Rpower_pow. exact H.
Qed.
Lemma pypow_1r x : 0 <= x -> pypow x 1 = x.
Proof.
  intros [H|<-]; [|rewrite pypow_0; lra]. rewrite pypow_pos by exact H. apply Rpower_1. exact H.
Qed.

(** *** ParabolaRectangle *)
Definition pr_wf (l : pr) : Prop :=
  pr_fc l <= 0 /\ pr_eu l <= pr_e0 l /\ pr_e0 l < 0 /\ 0 < pr_n l.

Definition pr_raw (l : pr) (e : R) : R :=
  if Rltb 0 e then 0
  else if Rleb (pr_e0 l) e then pr_fc l * (1 - pypow (1 - e / pr_e0 l) (pr_n l))
  else if Rleb (pr_eu l) e then pr_fc l else 0.

Lemma pr_stress_raw l e : pr_wf l -> pr_stress l e = pr_raw l (prep (pr_ult l) e).
Proof.
  intros (H1 & H2 & H3 & H4). unfold pr_stress, pr_raw. cbv zeta. set (x := prep _ _).
  destruct (Rltb_spec 0 x); destruct (Rleb_spec (pr_e0 l) x); destruct (Rleb_spec x 0); cbn [andb]; try lra;
  destruct (Rleb_spec (pr_eu l) x); destruct (Rltb_spec x (pr_e0 l)); cbn [andb]; try lra; reflexivity.
Qed.

Lemma pr_stress_arr_map l eps : pr_wf l -> separated (pr_ult l) ->
  pr_stress_arr l eps = map (pr_stress l) eps.
Proof.
  intros W Hs. unfold pr_stress_arr. rewrite (prep_arr_map _ _ Hs). cbv zeta.
  arr_norm. apply map_ext. intros e. rewrite pr_stress_raw by exact W.
  destruct W as (H1 & H2 & H3 & H4). unfold pr_raw. set (x := prep _ e).
  destruct (Rltb_spec 0 x); [reflexivity|].
  destruct (Rltb_spec x (pr_eu l)); destruct (Rltb_spec x (pr_e0 l)); destruct (Rleb_spec x 0); destruct (Rleb_spec (pr_e0 l) x);
    destruct (Rleb_spec (pr_eu l) x); cbn [andb]; try lra; reflexivity.
Qed.

Lemma pr_tangent_arr_map l eps : pr_tangent_arr l eps = map (pr_tangent l) eps.
Proof.
  unfold pr_tangent_arr, pr_tangent. cbv zeta. arr_norm. apply map_ext. intros x.
  destruct (Rltb_spec 0 x); destruct (Rleb_spec x 0); destruct (Rltb_spec x (pr_e0 l)); destruct (Rleb_spec (pr_e0 l) x); cbn [andb]; try lra; reflexivity.
Qed.

Lemma div_neg_range e e0 : e0 < 0 -> e0 <= e <= 0 -> 0 <= 1 - e / e0 <= 1.
Proof.
  intros H [H1 H2]. assert (E : e / e0 = (- e) / (- e0)) by (field; lra).
  rewrite E. split.
  - assert (- e / - e0 <= 1); [|lra]. apply (Rmult_le_reg_r (- e0)); [lra|]. unfold Rdiv. rewrite Rmult_assoc, Rinv_l by lra. lra.
  - assert (0 <= - e / - e0); [|lra]. apply Rmult_le_pos; [lra|]. left. apply Rinv_0_lt_compat. lra.
Qed.
Lemma div_neg_range' e e0 : e0 < 0 -> e0 < e < 0 -> 0 < 1 - e / e0 < 1.
Proof.
  intros H [H1 H2]. assert (E : e / e0 = (- e) / (- e0)) by (field; lra).
  rewrite E. split.
  - assert (- e / - e0 < 1); [|lra]. apply (Rmult_lt_reg_r (- e0)); [lra|]. unfold Rdiv. rewrite Rmult_assoc, Rinv_l by lra. lra.
  - assert (0 < - e / - e0); [|lra]. apply Rdiv_lt_0_compat; lra.
Qed.

Lemma pr_raw_bounds l e : pr_wf l -> pr_fc l <= pr_raw l e <= 0.
Proof.
  intros (H1 & H2 & H3 & H4). unfold pr_raw. rsplit.
  assert (D := div_neg_range e (pr_e0 l) H3 ltac:(lra)).
  assert (P0 := pypow_ge0 (1 - e / pr_e0 l) (pr_n l)).
  assert (P1 := pypow_le1 (1 - e / pr_e0 l) (pr_n l) D H4). nra.
Qed.

Lemma pr_bounds l e : pr_wf l -> pr_fc l <= pr_stress l e <= 0.
Proof. intros W. rewrite pr_stress_raw by exact W. apply pr_raw_bounds, W. Qed.

Lemma pr_raw_mono l a b : pr_wf l -> pr_eu l <= a -> a <= b -> b <= 0 -> pr_raw l a <= pr_raw l b.
Proof.
  intros W Ha Hab Hb. assert (B := pr_raw_bounds l b W). destruct W as (H1 & H2 & H3 & H4).
  unfold pr_raw in *.
  destruct (Rltb_spec 0 a); [lra|]. destruct (Rltb_spec 0 b); [lra|].
  destruct (Rleb_spec (pr_e0 l) a).
  - destruct (Rleb_spec (pr_e0 l) b); [|lra].
    assert (D := div_neg_range a (pr_e0 l) H3 ltac:(lra)).
    assert (D2 := div_neg_range b (pr_e0 l) H3 ltac:(lra)).
    assert (pypow (1 - a / pr_e0 l) (pr_n l) <= pypow (1 - b / pr_e0 l) (pr_n l)).
    { apply pypow_mono; [|exact H4]. split; [lra|].
      assert (b / pr_e0 l <= a / pr_e0 l); [|lra].
      unfold Rdiv. assert (/ pr_e0 l < 0) by (apply Rinv_lt_0_compat; lra). nra. }
    nra.
  - destruct (Rleb_spec (pr_eu l) a); lra.
Qed.

Lemma pr_deriv l x : pr_wf l ->
  far (fst (pr_ult l)) x -> far (snd (pr_ult l)) x -> x <> 0 -> x <> pr_e0 l ->
  is_derive (pr_stress l) x (pr_tangent l x).
Proof.
  intros W F1 F2 N1 N2.
  assert (Hx : forall e, pr_stress l e = pr_raw l (prep (pr_ult l) e)) by (intros; apply pr_stress_raw, W).
  assert (Nu : x <> pr_eu l).
  { cbn in F1. unfold far in F1. intros ->. replace (pr_eu l - pr_eu l) with 0 in F1 by lra. rewrite Rabs_R0 in F1.
    assert (T := tol_pos (pr_eu l)). lra. }
  destruct W as (H1 & H2 & H3 & H4).
  assert (D0 : forall c y, is_derive (fun _ : R => c) y 0) by (intros; auto_derive; trivial).
  unfold pr_tangent.
  destruct (Rltb_spec 0 x).
  { destruct (Rleb_spec (pr_e0 l) x); destruct (Rleb_spec x 0); cbn [andb]; try lra;
    (eapply (deriv_prep _ _ (pr_raw l) (fun _ => 0) x _ 0 (x + 1) Hx F2 F1); [lra| |apply D0];
    intros t Ht; unfold pr_raw; rsplit). }
  destruct (Rleb_spec (pr_e0 l) x) as [A|A]; destruct (Rleb_spec x 0) as [B|B]; cbn [andb]; try lra.
  - eapply (deriv_prep _ _ (pr_raw l) (fun t => pr_fc l * (1 - Rpower (1 - t / pr_e0 l) (pr_n l))) x _ (pr_e0 l) 0 Hx F2 F1); [lra| |].
    + intros t Ht. unfold pr_raw. destruct (Rltb_spec 0 t); [lra|]. destruct (Rleb_spec (pr_e0 l) t); [|lra].
      assert (D := div_neg_range' t (pr_e0 l) H3 ltac:(lra)). rewrite pypow_pos by lra. reflexivity.
    + assert (D := div_neg_range' x (pr_e0 l) H3 ltac:(lra)). rewrite pypow_pos by lra.
      replace (pr_n l * pr_fc l / pr_e0 l * Rpower (1 - x / pr_e0 l) (pr_n l - 1))
        with (pr_n l * pr_fc l / pr_e0 l * (Rpower (1 - x / pr_e0 l) (pr_n l) / (1 - x / pr_e0 l))).
      2:{ f_equal. replace (pr_n l - 1) with (pr_n l + - (1)) by lra. rewrite Rpower_plus, Rpower_Ropp, Rpower_1 by lra. reflexivity. }
      unfold Rpower. auto_derive; [lra|]. 
      replace (1 + - (x * / pr_e0 l)) with (1 - x / pr_e0 l) by (unfold Rdiv; lra).
      set (E := exp _). field. split; [|lra]. intros K.
      assert (x = pr_e0 l) by lra. lra.
  - destruct (Rle_lt_dec (pr_eu l) x) as [C|C].
    + eapply (deriv_prep _ _ (pr_raw l) (fun _ => pr_fc l) x _ (pr_eu l) (pr_e0 l) Hx F2 F1); [lra| |apply D0].
      intros t Ht; unfold pr_raw; rsplit.
    + eapply (deriv_prep _ _ (pr_raw l) (fun _ => 0) x _ (x - 1) (pr_eu l) Hx F2 F1); [lra| |apply D0].
      intros t Ht; unfold pr_raw; rsplit.
Qed.

Lemma pr_parab l e : pr_e0 l < 0 -> pr_n l = 2 -> pr_e0 l <= e <= 0 ->
  pr_fc l * (1 - pypow (1 - e / pr_e0 l) (pr_n l)) = pr_fc l * (2 * (e / pr_e0 l) - (e / pr_e0 l) ^ 2).
Proof.
  intros H3 Hn He. rewrite Hn, pypow_2; [ring|]. apply (div_neg_range e (pr_e0 l) H3 He).
Qed.

Lemma pr_describes l e0 e1 : pr_wf l -> pr_n l = 2 ->
  describes (unsnapped (pr_ult l)) (pr_stress l) e0 e1 (snd (pr_marin2 l (e0, e1))).
Proof.
  intros W Hn.
  assert (Hst : forall e, pr_stress l e = pr_raw l (prep (pr_ult l) e)) by (intros; apply pr_stress_raw, W).
  destruct W as (H1 & H2 & H3 & H4).
  unfold pr_marin2. cbv beta iota zeta.
  destruct (Reqb_spec e1 0) as [->|N].
  - cbn [snd]. set (x := prep (pr_ult l) e0) in *.
    assert (G : forall c, (forall y, poly c y = pr_raw l x) ->
      describes (unsnapped (pr_ult l)) (pr_stress l) e0 0 (None, [c])).
    { intros c Hc. unfold describes; cbn [fst snd]. exists c; split; [reflexivity|].
      intros y _. replace (e0 + 0 * y) with e0 by lra. rewrite Hst. apply Hc. }
    unfold pr_raw in G.
    destruct (Rltb_spec 0 x); [apply G; intros y; cbn [poly]; lra|].
    destruct (Rltb_spec (pr_e0 l) x).
    { apply G. intros y. destruct (Rleb_spec (pr_e0 l) x); [|lra].
      rewrite pr_parab by (assumption || lra). cbn [poly]. field. lra. }
    destruct (Rleb_spec (pr_eu l) x).
    { apply G. intros y. destruct (Rleb_spec (pr_e0 l) x); [|cbn [poly]; lra].
      assert (x = pr_e0 l) as -> by lra. rewrite pr_parab by (assumption || lra). cbn [poly]. field. lra. }
    apply G. intros y. destruct (Rleb_spec (pr_e0 l) x); [lra|]. cbn [poly]; lra.
  - cbn [snd]. unfold describes; cbn [fst snd length combine]. split; [reflexivity|].
    intros y Hy. rewrite Hst. unfold unsnapped in Hy. rewrite Hy.
    unfold pr_raw. split.
    + intros r c [[= <- <-]|[[= <- <-]|[]]]; cbn [fst snd]; intros [L U].
      * destruct (Rltb_spec 0 (e0 + e1 * y)); [lra|].
        destruct (Rleb_spec (pr_e0 l) (e0 + e1 * y)); [|lra].
        rewrite pr_parab by (assumption || lra). cbn [poly]. field. lra.
      * destruct (Rltb_spec 0 (e0 + e1 * y)); [lra|].
        destruct (Rleb_spec (pr_e0 l) (e0 + e1 * y)).
        { rewrite pr_parab by (assumption || lra). assert (e0 + e1 * y = pr_e0 l) as -> by lra. cbn [poly]. field. lra. }
        destruct (Rleb_spec (pr_eu l) (e0 + e1 * y)); [|lra]. cbn [poly]. lra.
    + intros Hn'. assert (A := Hn' (pr_e0 l, 0) ltac:(cbn; auto)).
      assert (B := Hn' (pr_eu l, pr_e0 l) ltac:(cbn; auto)). cbn [fst snd] in *.
      destruct (Rltb_spec 0 (e0 + e1 * y)); [reflexivity|].
      destruct (Rleb_spec (pr_e0 l) (e0 + e1 * y)); [exfalso; apply A; lra|].
      destruct (Rleb_spec (pr_eu l) (e0 + e1 * y)); [exfalso; apply B; lra|]. reflexivity.
Qed.

Lemma pr_describes_tangent l e0 e1 : pr_wf l -> pr_n l = 2 ->
  describes (fun e => unsnapped (pr_ult l) e /\ e <> pr_e0 l /\ e <> 0)
   (pr_tangent l) e0 e1 (snd (pr_marin_tangent2 l (e0, e1))).
Proof.
  intros (H1 & H2 & H3 & H4) Hn.
  assert (P : forall e, pr_e0 l <= e <= 0 -> pr_n l * pr_fc l / pr_e0 l * pypow (1 - e / pr_e0 l) (pr_n l - 1)
     = 2 * pr_fc l / pr_e0 l * (1 - e / pr_e0 l)).
  { intros e He. rewrite Hn. replace (2 - 1) with 1 by lra. rewrite pypow_1r; [reflexivity|].
    apply (div_neg_range e (pr_e0 l) H3 He). }
  unfold pr_marin_tangent2. cbv beta iota zeta. unfold pr_tangent.
  destruct (Reqb_spec e1 0) as [->|N].
  - cbn [snd].
    match goal with |- describes ?ok ?f _ _ _ =>
    assert (G : forall c, (unsnapped (pr_ult l) e0 -> e0 <> pr_e0 l -> e0 <> 0 -> forall y, poly c y = f e0) ->
      describes ok f e0 0 (None, [c])) end.
    { intros c Hc. unfold describes; cbn [fst snd]. exists c; split; [reflexivity|].
      intros y. replace (e0 + 0 * y) with e0 by lra. intros (S & N1 & N2). apply Hc; assumption. }
    unfold unsnapped in *. set (x := prep (pr_ult l) e0) in *.
    destruct (Rltb_spec 0 x).
    { apply G. intros E N1 N2 y. rewrite E in *. destruct (Rleb_spec (pr_e0 l) e0); destruct (Rleb_spec e0 0); cbn [andb poly]; lra. }
    destruct (Rltb_spec (pr_e0 l) x).
    { apply G. intros E N1 N2 y. rewrite E in *. destruct (Rleb_spec (pr_e0 l) e0); destruct (Rleb_spec e0 0); cbn [andb]; try lra.
      rewrite P by lra. cbn [poly]. field. lra. }
    apply G. intros E N1 N2 y. rewrite E in *. destruct (Rleb_spec (pr_e0 l) e0); destruct (Rleb_spec e0 0); cbn [andb poly]; lra.
  - cbn [snd]. unfold describes; cbn [fst snd length combine]. split; [reflexivity|].
    intros y (_ & N1 & N2). split.
    + intros r c [[= <- <-]|[[= <- <-]|[]]]; cbn [fst snd]; intros [L U].
      * destruct (Rleb_spec (pr_e0 l) (e0 + e1 * y)); destruct (Rleb_spec (e0 + e1 * y) 0); cbn [andb]; try lra.
        rewrite P by lra. cbn [poly]. field. lra.
      * destruct (Rleb_spec (pr_e0 l) (e0 + e1 * y)); destruct (Rleb_spec (e0 + e1 * y) 0); cbn [andb poly]; lra.
    + intros Hn'. assert (A := Hn' (pr_e0 l, 0) ltac:(cbn; auto)). cbn [fst snd] in *.
      destruct (Rleb_spec (pr_e0 l) (e0 + e1 * y)); destruct (Rleb_spec (e0 + e1 * y) 0); cbn [andb]; try reflexivity.
      exfalso; apply A; lra.
Qed.

(** *** BilinearCompression *)
Definition bil_wf (l : bil) : Prop :=
  bi_fc l <= 0 /\ bi_ecu l <= bi_ec l /\ bi_ec l < 0 /\ bi_E l = bi_fc l / bi_ec l.

Lemma bil_init_wf fc ec u l : bil_init fc ec u = Ok l ->
  (exists v, u = Some v /\ bi_ecu l = - Rabs v) /\ bi_fc l = - Rabs fc /\ bi_ec l = - Rabs ec /\ bi_ec l < 0 /\ bi_E l = bi_fc l / bi_ec l.
Proof.
  unfold bil_init. destruct u as [v|]; [|discriminate]. destruct (Reqb_spec ec 0); [discriminate|].
  intros [= <-]. cbn. assert (H := Rabs_pos_lt ec ltac:(assumption)).
  repeat split; try lra. exists v; split; reflexivity.
Qed.

Definition bil_raw (l : bil) (e : R) : R :=
  if Rltb 0 e then 0 else if Rleb (bi_ec l) e then bi_E l * e
  else if Rleb (bi_ecu l) e then bi_fc l else 0.

Lemma bil_E_props l : bil_wf l -> 0 <= bi_E l /\ bi_fc l = bi_E l * bi_ec l.
Proof.
  intros (H1 & H2 & H3 & H4). split.
  - rewrite H4. replace (bi_fc l / bi_ec l) with ((- bi_fc l) * / (- bi_ec l)) by (field; lra).
    apply Rmult_le_pos; [lra|]. left. apply Rinv_0_lt_compat. lra.
  - rewrite H4. field. lra.
Qed.

Lemma bil_stress_raw l e : bil_wf l -> bil_stress l e = bil_raw l (prep (bil_ult l) e).
Proof.
  intros W. destruct (bil_E_props l W) as [HE Hfc]. destruct W as (H1 & H2 & H3 & H4).
  unfold bil_stress, bil_raw. cbv zeta. set (x := prep _ _).
  destruct (Rltb_spec 0 x); [reflexivity|]. cbn [orb].
  destruct (Rltb_spec x (bi_ecu l)); destruct (Rleb_spec (bi_ec l) x); destruct (Rleb_spec (bi_ecu l) x); try lra.
  - apply Rmax_left. nra.
  - apply Rmax_right. nra.
Qed.

Lemma bil_stress_arr_map l eps : separated (bil_ult l) -> bil_stress_arr l eps = map (bil_stress l) eps.
Proof.
  intros Hs. unfold bil_stress_arr. rewrite (prep_arr_map _ _ Hs). cbv zeta.
  arr_norm. apply map_ext. intros e. unfold bil_stress. cbv zeta. set (x := prep _ e).
  destruct (Rltb_spec x (bi_ecu l)); destruct (Rltb_spec 0 x); cbn [orb]; try reflexivity.
  destruct (Rltb_spec (bi_E l * x) (bi_fc l)).
  - rewrite Rmax_right; lra.
  - rewrite Rmax_left; lra.
Qed.

Lemma bil_tangent_arr_map l eps : (forall e, In e eps -> e <> 0 /\ e <> bi_ec l) ->
  bil_tangent_arr l eps = map (bil_tangent l) eps.
Proof.
  intros H. unfold bil_tangent_arr, bil_tangent. cbv zeta. arr_norm. apply map_ext_in. intros x Hx.
  destruct (H x Hx). 
  destruct (Rltb_spec x (bi_ec l)); destruct (Rleb_spec 0 x); destruct (Rltb_spec (bi_ec l) x); destruct (Rleb_spec x 0); cbn [andb]; lra.
Qed.

Lemma bil_bounds l e : bil_wf l -> bi_fc l <= bil_stress l e <= 0.
Proof.
  intros W. rewrite bil_stress_raw by exact W. destruct (bil_E_props l W) as [HE Hfc].
  destruct W as (H1 & H2 & H3 & H4). unfold bil_raw. rsplit. nra.
Qed.

Lemma bil_raw_mono l a b : bil_wf l -> bi_ecu l <= a -> a <= b -> b <= 0 -> bil_raw l a <= bil_raw l b.
Proof.
  intros W Ha Hab Hb. destruct (bil_E_props l W) as [HE Hfc].
  destruct W as (H1 & H2 & H3 & H4). unfold bil_raw. rsplit; nra.
Qed.

Lemma bil_deriv l x : bil_wf l ->
  far (fst (bil_ult l)) x -> far (snd (bil_ult l)) x -> x <> 0 -> x <> bi_ec l ->
  is_derive (bil_stress l) x (bil_tangent l x).
Proof.
  intros W F1 F2 N1 N2.
  assert (Hx : forall e, bil_stress l e = bil_raw l (prep (bil_ult l) e)) by (intros; apply bil_stress_raw, W).
  assert (Nu : x <> bi_ecu l).
  { cbn in F1. unfold far in F1. intros ->. replace (bi_ecu l - bi_ecu l) with 0 in F1 by lra. rewrite Rabs_R0 in F1.
    assert (T := tol_pos (bi_ecu l)). lra. }
  destruct W as (H1 & H2 & H3 & H4).
  assert (D0 : forall c y, is_derive (fun _ : R => c) y 0) by (intros; auto_derive; trivial).
  unfold bil_tangent.
  destruct (Rltb_spec (bi_ec l) x) as [A|A]; destruct (Rleb_spec x 0) as [B|B]; cbn [andb].
  - eapply (deriv_prep _ _ (bil_raw l) (fun t => bi_E l * t + 0) x _ (bi_ec l) 0 Hx F2 F1); [lra| |apply affine_deriv].
    intros t Ht; unfold bil_raw; rsplit.
  - eapply (deriv_prep _ _ (bil_raw l) (fun _ => 0) x _ 0 (x + 1) Hx F2 F1); [lra| |apply D0].
    intros t Ht; unfold bil_raw; rsplit.
  - destruct (Rle_lt_dec (bi_ecu l) x) as [C|C].
    + eapply (deriv_prep _ _ (bil_raw l) (fun _ => bi_fc l) x _ (bi_ecu l) (bi_ec l) Hx F2 F1); [lra| |apply D0].
      intros t Ht; unfold bil_raw; rsplit.
    + eapply (deriv_prep _ _ (bil_raw l) (fun _ => 0) x _ (x - 1) (bi_ecu l) Hx F2 F1); [lra| |apply D0].
      intros t Ht; unfold bil_raw; rsplit.
  - lra.
Qed.

Lemma bil_describes l e0 e1 : bil_wf l ->
  describes (unsnapped (bil_ult l)) (bil_stress l) e0 e1 (snd (bil_marin l (e0, e1))).
Proof.
  intros W. destruct (bil_E_props l W) as [HE Hfc].
  assert (Hst : forall e, bil_stress l e = bil_raw l (prep (bil_ult l) e)) by (intros; apply bil_stress_raw, W).
  destruct W as (H1 & H2 & H3 & H4).
  unfold bil_marin. cbv beta iota zeta.
  destruct (Reqb_spec e1 0) as [->|N].
  - cbn [snd]. set (x := prep (bil_ult l) e0) in *.
    assert (G : forall c, (forall y, poly c y = bil_raw l x) ->
      describes (unsnapped (bil_ult l)) (bil_stress l) e0 0 (None, [c])).
    { intros c Hc. unfold describes; cbn [fst snd]. exists c; split; [reflexivity|].
      intros y _. replace (e0 + 0 * y) with e0 by lra. rewrite Hst. apply Hc. }
    unfold bil_raw in G.
    destruct (Rltb_spec 0 x); [apply G; intros y; cbn [poly]; lra|].
    destruct (Rltb_spec (bi_ec l) x); [apply G; intros y; cbn [poly]; rsplit|].
    destruct (Rleb_spec (bi_ecu l) x).
    + apply G; intros y; cbn [poly]. destruct (Rleb_spec (bi_ec l) x); [|lra].
      assert (x = bi_ec l) as -> by lra. lra.
    + apply G; intros y; cbn [poly]; rsplit.
  - cbn [snd]. unfold describes; cbn [fst snd length combine]. split; [reflexivity|].
    intros y Hy. rewrite Hst. unfold unsnapped in Hy. rewrite Hy. set (x := e0 + e1 * y).
    unfold bil_raw. split.
    + intros r c [[= <- <-]|[[= <- <-]|[]]]; cbn [fst snd poly]; intros [L U]; unfold x in *.
      * rsplit; nra.
      * destruct (Rltb_spec 0 (e0 + e1 * y)); [lra|]. destruct (Rleb_spec (bi_ec l) (e0 + e1 * y)).
        { assert (e0 + e1 * y = bi_ec l) as -> by lra. lra. } 
        rsplit.
    + intros Hn'. assert (A := Hn' (bi_ec l, 0) ltac:(cbn; auto)).
      assert (B := Hn' (bi_ecu l, bi_ec l) ltac:(cbn; auto)). cbn [fst snd] in *.
      destruct (Rltb_spec 0 x); [reflexivity|].
      destruct (Rleb_spec (bi_ec l) x); [exfalso; apply A; lra|].
      destruct (Rleb_spec (bi_ecu l) x); [exfalso; apply B; lra|]. reflexivity.
Qed.

Lemma bil_describes_tangent l e0 e1 : bil_wf l ->
  describes (fun e => unsnapped (bil_ult l) e /\ e <> bi_ec l)
   (bil_tangent l) e0 e1 (snd (bil_marin_tangent l (e0, e1))).
Proof.
  intros (H1 & H2 & H3 & H4).
  unfold bil_marin_tangent. cbv beta iota zeta. unfold bil_tangent.
  destruct (Reqb_spec e1 0) as [->|N].
  - cbn [snd].
    match goal with |- describes ?ok ?f _ _ _ =>
    assert (G : forall c, (unsnapped (bil_ult l) e0 -> e0 <> bi_ec l -> forall y, poly c y = f e0) ->
      describes ok f e0 0 (None, [c])) end.
    { intros c Hc. unfold describes; cbn [fst snd]. exists c; split; [reflexivity|].
      intros y. replace (e0 + 0 * y) with e0 by lra. intros (S & N1). apply Hc; assumption. }
    unfold unsnapped in *. set (x := prep (bil_ult l) e0) in *.
    destruct (Rltb_spec 0 x).
    { apply G. intros E N1 y. rewrite E in *. cbn [poly]. destruct (Rltb_spec (bi_ec l) e0); destruct (Rleb_spec e0 0); cbn [andb]; lra. }
    destruct (Rltb_spec (bi_ec l) x).
    { apply G. intros E N1 y. rewrite E in *. cbn [poly]. destruct (Rltb_spec (bi_ec l) e0); destruct (Rleb_spec e0 0); cbn [andb]; lra. }
    apply G. intros E N1 y. rewrite E in *. cbn [poly]. destruct (Rltb_spec (bi_ec l) e0); destruct (Rleb_spec e0 0); cbn [andb]; lra.
  - cbn [snd]. unfold describes; cbn [fst snd length combine]. split; [reflexivity|].
    intros y (_ & N1). set (x := e0 + e1 * y) in *. split.
    + intros r c [[= <- <-]|[[= <- <-]|[]]]; cbn [fst snd poly]; intros [L U];
       destruct (Rltb_spec (bi_ec l) x); destruct (Rleb_spec x 0); cbn [andb]; lra.
    + intros Hn'. assert (A := Hn' (bi_ec l, 0) ltac:(cbn; auto)). cbn [fst snd] in *.
      destruct (Rltb_spec (bi_ec l) x); destruct (Rleb_spec x 0); cbn [andb]; try reflexivity.
      exfalso; apply A; lra.
Qed.

(** *** Sargin *)
(** Parameters for which the rational function has no pole between the crushing
    strain and zero. *)
Definition sargin_wf (l : sargin) : Prop :=
  sa_fc l <= 0 /\ sa_ec1 l < 0 /\ sa_ecu1 l < 0 /\
  0 < 1 + (sa_k l - 2) * (sa_ecu1 l / sa_ec1 l).

Definition val (r : result R) : R := match r with Ok v => v | Err _ => 0 end.

Lemma ratio_range a b e : a < 0 -> b <= e <= 0 -> 0 <= e / a <= b / a.
Proof.
  intros Ha [H1 H2]. assert (/ a < 0) by (apply Rinv_lt_0_compat; lra).
  unfold Rdiv. split; nra.
Qed.

Lemma sargin_den l e : sargin_wf l -> sa_ecu1 l <= e <= 0 -> 0 < 1 + (sa_k l - 2) * (e / sa_ec1 l).
Proof.
  intros (H1 & H2 & H3 & H4) He. assert (R := ratio_range _ _ _ H2 He).
  set (u := sa_ecu1 l / sa_ec1 l) in *. set (t := e / sa_ec1 l) in *.
  destruct (Rle_lt_dec 0 (sa_k l - 2)); nra.
Qed.

Lemma sargin_stress_in l e : sargin_wf l -> sa_ecu1 l <= prep (sargin_ult l) e <= 0 ->
  sargin_stress l e = Ok (sargin_raw l (prep (sargin_ult l) e)).
Proof.
  intros W He. assert (D := sargin_den l _ W He). destruct W as (H1 & H2 & H3 & H4).
  unfold sargin_stress. cbv zeta.
  destruct (Reqb_spec (sa_ec1 l) 0); [lra|].
  destruct (Reqb_spec (1 + (sa_k l - 2) * (prep (sargin_ult l) e / sa_ec1 l)) 0); [lra|].
  destruct (Rltb_spec (prep (sargin_ult l) e) (sa_ecu1 l)); [lra|].
  destruct (Rltb_spec 0 (prep (sargin_ult l) e)); [lra|]. reflexivity.
Qed.

Lemma sargin_stress_cases l e v : sargin_stress l e = Ok v ->
  v = if orb (Rltb (prep (sargin_ult l) e) (sa_ecu1 l)) (Rltb 0 (prep (sargin_ult l) e)) then 0
      else sargin_raw l (prep (sargin_ult l) e).
Proof.
  unfold sargin_stress. cbv zeta. destruct (Reqb _ _); [discriminate|]. destruct (Reqb _ _); [discriminate|].
  destruct (orb _ _); intros [= <-]; reflexivity.
Qed.

Lemma sargin_raw_bounds l e : sargin_wf l -> sa_ecu1 l <= e <= 0 ->
  sa_fc l <= sargin_raw l e /\ (sa_ecu1 l / sa_ec1 l <= sa_k l -> sargin_raw l e <= 0).
Proof.
  intros W He. assert (D := sargin_den l e W He). destruct W as (H1 & H2 & H3 & H4).
  assert (R := ratio_range _ _ _ H2 He). unfold sargin_raw. cbv zeta.
  set (t := e / sa_ec1 l) in *. set (d := 1 + (sa_k l - 2) * t) in *.
  assert (Hd : 0 < / d) by (apply Rinv_0_lt_compat; exact D).
  assert (E : sa_fc l * (sa_k l * t - t ^ 2) / d - sa_fc l = (- sa_fc l) * (1 - t) ^ 2 * / d).
  { unfold d in *. field. lra. }
  split.
  - assert (0 <= (- sa_fc l) * (1 - t) ^ 2 * / d).
    { apply Rmult_le_pos; [|lra]. apply Rmult_le_pos; [lra|]. apply pow2_ge_0. }
    lra.
  - intros Hk. unfold Rdiv. assert (0 <= (sa_k l * t - t ^ 2)) by nra.
    assert (0 <= (- sa_fc l) * (sa_k l * t - t ^ 2) * / d).
    { apply Rmult_le_pos; [|lra]. apply Rmult_le_pos; lra. }
    lra.
Qed.

Lemma sargin_bounds l e v : sargin_wf l -> sargin_stress l e = Ok v ->
  sa_fc l <= v /\ (sa_ecu1 l / sa_ec1 l <= sa_k l -> v <= 0).
Proof.
  intros W Hv. apply sargin_stress_cases in Hv. subst v.
  destruct (Rltb_spec (prep (sargin_ult l) e) (sa_ecu1 l)); cbn [orb]; [destruct W; lra|].
  destruct (Rltb_spec 0 (prep (sargin_ult l) e)); [destruct W; lra|].
  apply sargin_raw_bounds; [exact W|lra].
Qed.

Lemma sargin_peak l : sargin_wf l -> sa_k l <> 1 -> sargin_raw l (sa_ec1 l) = sa_fc l.
Proof.
  intros (H1 & H2 & H3 & H4) Hk. unfold sargin_raw. cbv zeta.
  replace (sa_ec1 l / sa_ec1 l) with 1 by (field; lra). field. lra.
Qed.

Lemma sargin_arr_map l eps : separated (sargin_ult l) ->
  (forall e, In e eps -> is_ok (sargin_stress l e)) ->
  map (@Ok R) (sargin_stress_arr l eps) = map (sargin_stress l) eps.
Proof.
  intros Hs Hok. unfold sargin_stress_arr. rewrite (prep_arr_map _ _ Hs). cbv zeta.
  arr_norm. apply map_ext_in. intros e He. destruct (Hok e He) as [v Hv]. rewrite Hv.
  apply sargin_stress_cases in Hv. subst v. f_equal.
  destruct (Rltb_spec 0 (prep (sargin_ult l) e)); destruct (Rltb_spec (prep (sargin_ult l) e) (sa_ecu1 l)); reflexivity.
Qed.

Lemma sargin_tangent_arr_map l eps :
  (forall e, In e eps -> is_ok (sargin_tangent l e)) ->
  map (@Ok R) (sargin_tangent_arr l eps) = map (sargin_tangent l) eps.
Proof.
  intros Hok. unfold sargin_tangent_arr. cbv zeta.
  arr_norm. apply map_ext_in. intros e He. destruct (Hok e He) as [v Hv]. revert Hv.
  unfold sargin_tangent. destruct (Reqb _ _); [discriminate|]. destruct (Reqb _ _); [discriminate|].
  intros _.
  destruct (Rltb_spec 0 e); destruct (Rltb_spec e (sa_ecu1 l)); reflexivity.
Qed.

Lemma sargin_deriv l x : sargin_wf l ->
  far (fst (sargin_ult l)) x -> far (snd (sargin_ult l)) x -> sa_ecu1 l < x < 0 ->
  exists d, sargin_tangent l x = Ok d /\ is_derive (fun e => val (sargin_stress l e)) x d.
Proof.
  intros W F1 F2 Hx. assert (D := sargin_den l x W ltac:(lra)).
  exists (sargin_raw_tangent l x). split.
  - assert (D' := D). destruct W as (H1 & H2 & H3 & H4). unfold sargin_tangent.
    destruct (Reqb_spec (sa_ec1 l) 0); [lra|].
    destruct (Reqb_spec (1 + (sa_k l - 2) * (x / sa_ec1 l)) 0); [lra|].
    destruct (Rltb_spec x (sa_ecu1 l)); [lra|].
    destruct (Rltb_spec 0 x); [lra|]. reflexivity.
  - destruct (far_both_interval _ _ _ F1 F2) as (c & d & Hc & Hfar).
    apply (is_derive_local _ (sargin_raw l) x _ (Rmax c (sa_ecu1 l)) (Rmin d 0)).
    + split; [apply Rmax_lub_lt; lra|apply Rmin_glb_lt; lra].
    + intros t [Ta Tb]. assert (X1 := Rmax_l c (sa_ecu1 l)). assert (X2 := Rmax_r c (sa_ecu1 l)).
      assert (Y1 := Rmin_l d 0). assert (Y2 := Rmin_r d 0).
      destruct (Hfar t) as [G1 G2]; [lra|].
      assert (P := prep_far (sargin_ult l) t G2 G1).
      rewrite (sargin_stress_in l t W) by (rewrite P; lra). rewrite P. reflexivity.
    + destruct W as (H1 & H2 & H3 & H4). unfold sargin_raw, sargin_raw_tangent. cbv zeta.
      assert (Dn : 1 + (sa_k l - 2) * (x * / sa_ec1 l) <> 0) by (unfold Rdiv in D; lra).
      auto_derive; [lra|].
      field. split; [lra|]. intros K.
      assert (K2 : sa_ec1 l * (1 + (sa_k l - 2) * (x * / sa_ec1 l)) = 0) by (rewrite <- K; field; lra).
      apply Rmult_integral in K2. destruct K2; [lra|contradiction].
Qed.
