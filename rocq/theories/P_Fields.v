(** C57: every material law reaches the exact integrator as one stress-strain curve. *)
From Coquelicot Require Import Coquelicot.
From Verif Require Import Base S_Marin M_Marin M_Laws S_Laws L_Laws L_LawsB L_LawsC M_Laws2 S_Laws2 L_Laws2 L_Laws3 L_Laws4 L_Laws5 M_Section M_Discr S_Discr L_Discr M_Fiber S_Fiber M_MarinInt S_MarinInt L_MarinInt4 S_Frame P_Frame S_Section S_Gross S_Exact M_Fields S_Fields L_Fields L_Fields2 L_Fields3 P_Exact.

Theorem C57_elastic : forall E u l, elastic_init E u = Ok l ->
  represented (elastic_law l) (fun _ => True) (fun e => E * e) (fun _ => E) /\
  slope_of (fun e => E * e) (fun _ => E) /\ own_curve (elastic_law l) (fun _ => True) (fun e => E * e) /\ in_one (elastic_law l).
Proof.
  intros E u l H. destruct (elastic_init_ok _ _ _ H) as [P <-].
  assert (R0 : represented (elastic_law l) (fun _ => True) (fun e => el_E l * e) (fun _ => el_E l)) by (intros e0 r _ _; apply elastic_field).
  split; [exact R0|]. split; [exists []; intros e _; auto_derive; [exact I|ring]|]. split; [|intros e0 r; split; reflexivity].
  eapply own_from; [exact R0|]. intros e. apply elastic_describes.
Qed.
Print Assumptions C57_elastic.
Theorem C57_elasticplastic : forall E fy Eh u l, ep_init E fy Eh (Some u) = Ok l -> 0 < fy -> 0 <= Eh -> fy / E <= u ->
  represented (ep_law l) (settled (- u, u)) (ep_curve E fy Eh u) (ep_slope E fy Eh u) /\
  slope_of (ep_curve E fy Eh u) (ep_slope E fy Eh u) /\ own_curve (ep_law l) (settled (- u, u)) (ep_curve E fy Eh u) /\ in_pieces (ep_law l).
Proof.
  intros E fy Eh u l H Hf Hh Hu.
  assert (R0 : represented (ep_law l) (settled (- u, u)) (ep_curve E fy Eh u) (ep_slope E fy Eh u)) by (intros e0 r Hr Hs; apply (ep_field E fy Eh u l e0 r); assumption).
  assert (W : ep_wf l) by (eapply ep_init_wf; [exact H|exact Hf|exact Hh|intros v [= <-]; exact Hu]).
  split; [exact R0|]. destruct (ep_init_inv _ _ _ _ _ H) as [HE El].
  assert (Sy : 0 < fy / E) by now apply Rdiv_lt_0_compat.
  split; [apply ep_slope_of; assumption|]. split.
  - eapply own_from; [exact R0|]. intros e. eapply describes_weaken; [|apply (ep_describes l u); [exact W|rewrite El; reflexivity]].
    intros z Z. apply settled_prep. rewrite El. exact Z.
  - intros e0 r P. rewrite El. cbn [ep_law lw_marin lw_marin_tangent]. unfold ep_marin, ep_marin_tangent, ep_yield. cbn [ep_E ep_fy ep_Eh ep_su ep_sy]. cbv zeta.
    destruct (Reqb_spec r 0); [exfalso; lra|]. cbn [fst snd].
    split; (eexists; exists (- (fy / E), fy / E); split; [reflexivity|]; split; [cbn; auto|cbn; lra]).
Qed.
Print Assumptions C57_elasticplastic.
Theorem C57_parabolarectangle : forall fc p u, 0 <= fc -> 0 < p <= u ->
  let l := pr_law_n (pr_init fc p u 2) in
  represented l (settled (- u, 100)) (pr_curve fc p u) (pr_slope fc p u) /\
  slope_of (pr_curve fc p u) (pr_slope fc p u) /\ own_curve l (settled (- u, 100)) (pr_curve fc p u) /\ in_pieces l.
Proof.
  intros fc p u F P l.
  assert (M1 : lw_marin l = pr_marin2 (pr_init fc p u 2) /\ lw_marin_tangent l = pr_marin_tangent2 (pr_init fc p u 2)).
  { unfold l, pr_law_n. cbn [lw_marin lw_marin_tangent]. change (pr_n (pr_init fc p u 2)) with 2. destruct (Reqb_spec 2 2); [split; reflexivity|congruence]. }
  destruct M1 as [M1 M2].
  assert (R0 : represented l (settled (- u, 100)) (pr_curve fc p u) (pr_slope fc p u)).
  { intros e0 r Hr Hs. rewrite M1, M2. apply pr_field; assumption. }
  split; [exact R0|]. split; [apply pr_slope_of; exact P|]. split.
  - eapply own_from; [exact R0|]. intros e. rewrite M1. eapply describes_weaken; [|apply pr_describes; [apply pr_init_wf; [lra|rewrite !Rabs_right by lra; lra|lra]|reflexivity]].
    intros z Z. apply settled_prep. unfold pr_ult, pr_init. cbn [pr_eu]. rewrite Rabs_right by lra. exact Z.
  - intros e0 r Pr. rewrite M1, M2. unfold pr_marin2, pr_marin_tangent2, pr_init. cbn [pr_fc pr_e0 pr_eu]. cbv zeta.
    destruct (Reqb_spec r 0); [exfalso; lra|]. cbn [fst snd]. rewrite (Rabs_right p) by lra.
    split; (eexists; exists (- p, 0); split; [reflexivity|]; split; [cbn; auto|cbn; lra]).
Qed.
Print Assumptions C57_parabolarectangle.
Theorem C57_bilinear : forall fc p u l, bil_init fc p (Some u) = Ok l -> Rabs p <= Rabs u ->
  let f := bil_curve (Rabs fc) (Rabs p) (Rabs u) in exists t,
  represented (bil_law l) (settled (- Rabs u, 100)) f t /\ slope_of f t /\ own_curve (bil_law l) (settled (- Rabs u, 100)) f /\ in_pieces (bil_law l).
Proof.
  intros fc p u l H U f. exists (bil_tangent l).
  split; [intros e0 r Hr Hs; apply bil_field; assumption|]. split; [apply bil_slope; assumption|]. split; [apply bil_own; assumption|].
  intros e0 r P. unfold bil_init in H. destruct (Reqb_spec p 0) as [|Np]; [discriminate|]. injection H as <-.
  assert (Q : 0 < Rabs p) by (apply Rabs_pos_lt; exact Np).
  cbn [bil_law lw_marin lw_marin_tangent]. unfold bil_marin, bil_marin_tangent. cbn [bi_fc bi_ec bi_ecu bi_E].
  destruct (Reqb_spec r 0); [exfalso; lra|]. cbn [fst snd].
  split; (eexists; exists (- Rabs p, 0); split; [reflexivity|]; split; [cbn; auto|cbn; lra]).
Qed.
Print Assumptions C57_bilinear.
Theorem C57_userdefined : forall x y u flag l, ud_init x y u flag = Ok l -> increasing x -> nth 0 x 0 < 0 -> 0 < last x 0 ->
  exists f t, data_curve flag x y f /\
  represented (ud_law l) (settled (ud_ult l)) f t /\ slope_of f t /\ own_curve (ud_law l) (settled (ud_ult l)) f /\ in_pieces (ud_law l).
Proof.
  intros x y u flag l H I N P. destruct (two_sided_init x y u flag l N H) as (L & Fl & E & _).
  destruct (extend_increasing _ _ _ _ _ E L I N P) as (I' & L' & G').
  assert (R0 : represented (ud_law l) (settled (ud_ult l)) (interp (ud_x l) (ud_y l)) (ud_tangent l)).
  { intros e0 r Hr Hs. apply ud_field; assumption. }
  exists (interp (ud_x l) (ud_y l)), (ud_tangent l). split; [|split; [exact R0|]].
  - split; [intros i e Hi He; eapply extend_mid; eassumption|]. split; [intros e He; eapply extend_right; eassumption|].
    split; [intros e He; eapply extend_left; eassumption|].
    assert (G := two_sided_len x I N P).
    assert (Q : 100 * nth 0 x 0 <= nth 0 (ud_x l) 0 /\ last (ud_x l) 0 <= 100 * last x 0).
    { destruct (extend_shape _ _ _ _ _ E L G) as [(_ & -> & _)|(_ & ya & yb & -> & _)]; [lra|].
      rewrite (last_nth (_ :: _)), ext_length. replace (length x + 2 - 1)%nat with (S (length x)) by lia. rewrite ext_nth_end. cbn [nth]. lra. }
    intros e [He|He]; [apply interp_left; lra|apply interp_right; [exact L'|exact I'|lra]].
  - split; [apply interp_slope; assumption|]. split; [intros e S0; apply ud_stress_settled; exact S0|].
    intros e0 r Pr. apply ud_pieces; assumption.
Qed.
Print Assumptions C57_userdefined.
(** Data given for non-negative strains only: the odd completion. *)
Theorem C57_userdefined_odd : forall x y u flag l, ud_init x y u flag = Ok l -> increasing x -> nth 0 x 0 = 0 -> nth 0 y 0 = 0 -> (2 <= length x)%nat ->
  exists f t, data_curve flag (odd_completion x) (odd_completion y) f /\
  represented (ud_law l) (settled (ud_ult l)) f t /\ slope_of f t /\ own_curve (ud_law l) (settled (ud_ult l)) f /\ in_pieces (ud_law l).
Proof.
  intros x y u flag l H I X Y G.
  assert (L : length x = length y).
  { unfold ud_init in H. destruct (Nat.eqb_spec (length x) (length y)); [assumption|discriminate]. }
  rewrite (ud_init_completion x y u flag I X Y L) in H.
  apply (C57_userdefined _ _ _ _ _ H).
  - apply oc_increasing; [exact I|lra].
  - rewrite oc_nth_lo by lia. assert (Z := I 0%nat (length x - 1 - 0)%nat ltac:(lia)). lra.
  - rewrite last_nth, oc_length, oc_nth_hi by lia. replace (length x - 1 + length x - 1 - (length x - 1))%nat with (length x - 1)%nat by lia.
    assert (Z := I 0%nat (length x - 1)%nat ltac:(lia)). lra.
Qed.
Print Assumptions C57_userdefined_odd.
(** Laws without a Marin form of their own: the polygon through their stresses at the
    tenths of the ultimate strain. *)
Theorem C57_parabolarectangle_general : forall fc p u n, fc <> 0 -> p <> 0 -> Rabs p <= Rabs u -> 0 < n -> n <> 2 -> tol (Rabs u) < Rabs u / 10 ->
  let l := pr_law_n (pr_init fc p u n) in exists f t, polygon_at_tenths (- Rabs u) (lw_stress l) f /\
  represented l (settled (- Rabs u, 0)) f t /\ slope_of f t /\ in_pieces l.
Proof.
  intros fc p u n F P U N N2 T l.
  assert (W : pr_wf (pr_init fc p u n)) by (apply pr_init_wf; assumption).
  destruct (compr_field _ _ _ (pr_compr (pr_init fc p u n) W ltac:(cbn [pr_init pr_fc]; assert (X := Rabs_pos_lt fc F); lra)
    ltac:(cbn [pr_init pr_eu]; rewrite Ropp_involutive; unfold tol in *; rewrite Rabs_Ropp; exact T))) as (f & t & A & B & C & D).
  exists f, t. assert (M1 : lw_marin l = by_default ud_marin (fun a => (pr_stress_arr (pr_init fc p u n) a, prep_arr (pr_ult (pr_init fc p u n)) a)) (pr_ult (pr_init fc p u n)) /\
     lw_marin_tangent l = by_default ud_marin_tangent (fun a => (pr_stress_arr (pr_init fc p u n) a, prep_arr (pr_ult (pr_init fc p u n)) a)) (pr_ult (pr_init fc p u n))).
  { unfold l, pr_law_n. cbn [lw_marin lw_marin_tangent]. change (pr_n (pr_init fc p u n)) with n. destruct (Reqb_spec n 2); [congruence|split; reflexivity]. }
  destruct M1 as [M1 M2]. split; [exact A|]. split; [|split; [exact B|]].
  - intros e0 r Hr Hs. rewrite M1, M2. apply C; assumption.
  - intros e0 r Hr. rewrite M1, M2. apply D. exact Hr.
Qed.
Print Assumptions C57_parabolarectangle_general.
Theorem C57_popovics : forall fc ec ecu Ec l, popovics_init fc ec ecu Ec = Ok l -> fc <> 0 -> ecu <> 0 ->
  Rabs fc / Rabs ec < (match Ec with None => 5000 * sqrt (Rabs fc) | Some m => m end) -> tol (Rabs ecu) < Rabs ecu / 10 ->
  Rabs fc <= Rabs (popovics_stress l (- Rabs ecu)) * 1000000 ->
  exists f t, polygon_at_tenths (- Rabs ecu) (lw_stress (popovics_law l)) f /\
  represented (popovics_law l) (settled (- Rabs ecu, 0)) f t /\ slope_of f t /\ in_pieces (popovics_law l).
Proof.
  intros fc ec ecu Ec l H H1 H2 H3 T B0.
  destruct (popovics_init_wf _ _ _ _ _ H H1 H2 H3) as (W & F & _ & U). rewrite <- U in *.
  destruct (compr_field _ _ _ (popovics_compr l W ltac:(rewrite F; assert (X := Rabs_pos_lt fc H1); lra)
     ltac:(rewrite U, Ropp_involutive; unfold tol in *; rewrite Rabs_Ropp, Rabs_Rabsolu in *; exact T)
     ltac:(pose proof (popovics_bounds l (po_ecu l) W) as Bd; rewrite (Rabs_left1 (popovics_stress _ _)) in B0 by apply Bd; rewrite F, Ropp_involutive; exact B0)))
    as (f & t & A & B & C & D).
  exists f, t. split; [exact A|]. split; [exact C|]. split; [exact B|exact D].
Qed.
Print Assumptions C57_popovics.
Theorem C57_sargin : forall fc e1 eu k, fc <> 0 -> e1 <> 0 -> eu <> 0 ->
  0 < 1 + (k - 2) * (Rabs eu / Rabs e1) -> Rabs eu / Rabs e1 < k -> tol (Rabs eu) < Rabs eu / 10 ->
  let l := sargin_law (sargin_init fc e1 eu k) in
  Rabs fc <= - lw_stress l (- Rabs eu) * 1000000 ->
  exists f t, polygon_at_tenths (- Rabs eu) (lw_stress l) f /\ represented l (settled (- Rabs eu, 0)) f t /\ slope_of f t /\ in_pieces l.
Proof.
  intros fc e1 eu k F H1 H2 D K T l B. unfold l in *. clear l. cbn [sargin_law lw_stress] in *. set (l := sargin_init fc e1 eu k) in *.
  assert (W : sargin_wf l) by (apply sargin_init_wf; assumption).
  assert (U : 0 < Rabs eu) by (apply Rabs_pos_lt; exact H2).
  destruct (sargin_compr l W) as [Cm V]; cbn [l sargin_init sa_fc sa_ecu1] in *.
  - assert (X := Rabs_pos_lt fc F). lra.
  - rewrite Ropp_involutive. unfold tol in *. rewrite Rabs_Ropp. exact T.
  - rewrite Ropp_involutive. rewrite (sargin_stress_in l (- Rabs eu) W) in B.
    + cbn [or_zero] in B. rewrite settled_prep in B by (apply tol_settled; lra). exact B.
    + apply prep_in; cbn [l sargin_init sa_ecu1]; lra.
  - destruct (compr_field _ _ _ Cm) as (f & t & A & B' & C & D'). exists f, t. split; [|split; [exact C|split; [exact B'|exact D']]].
    eapply polygon_ext; [|exact A]. intros j J. apply V.
    assert (0 <= INR j <= 10). { split; [apply pos_INR|]. replace 10 with (INR 10) by (cbn; lra). apply le_INR. lia. } nra.
Qed.
Print Assumptions C57_sargin.
(** Parallel laws that all answer in ranges, or all without: the weighted sum of the curves. *)
Theorem C57_parallel : forall laws w p oks fs ts, par_init laws (Some w) = Ok p -> laws <> [] ->
  length oks = length laws -> length fs = length laws -> length ts = length laws ->
  (forall i, (i < length laws)%nat -> represented (nth i laws (par_law p)) (nth i oks (fun _ => True)) (nth i fs (fun _ => 0)) (nth i ts (fun _ => 0))) ->
  (forall l, In l laws -> in_pieces l) \/ (forall l, In l laws -> in_one l) ->
  represented (par_law p) (fun e => forall i, (i < length oks)%nat -> nth i oks (fun _ => True) e) (wsum w fs) (wsum w ts).
Proof.
  intros laws w p oks fs ts H NE Lo Lf Lt R0 PI e0 r Hr Hs.
  assert (Hp : pa_laws p = laws /\ pa_w p = w).
  { unfold par_init in H. destruct (length w =? length laws)%nat; [|discriminate]. injection H as <-. split; reflexivity. }
  destruct Hp as [P1 P2].
  assert (FM : forall l, In l laws -> fst (lw_marin l (e0, r)) = e0 /\ fst (lw_marin_tangent l (e0, r)) = e0).
  { intros l Hl. destruct (In_nth _ _ (par_law p) Hl) as (i & Hi & <-). destruct (R0 i Hi e0 r Hr) as [[A _] [B _]]; [intros Z; apply Hs; [exact Z|lia]|]. split; assumption. }
  assert (Gen : forall (get : law -> R * R -> R * marin_out) (us : list (R -> R)), length us = length laws ->
     (forall l, In l laws -> fst (get l (e0, r)) = e0) ->
     (forall i, (i < length laws)%nat -> field_of (get (nth i laws (par_law p)) (e0, r)) (nth i us (fun _ => 0)) e0 r) ->
     Forall2 (fun o f => field_of (e0, o) f e0 r) (map (fun l => snd (get l (e0, r))) laws) us).
  { intros get us Lu Fg Fi. clear -Lu Fg Fi. revert us Lu Fi. induction laws as [|l laws IH]; intros [|f us] Lu Fi; cbn [length] in Lu; try lia; [constructor|].
    cbn [map]. constructor.
    - specialize (Fi 0%nat ltac:(cbn; lia)). cbn [nth] in Fi. rewrite (surjective_pairing (get l (e0, r))) in Fi. rewrite (Fg l (or_introl eq_refl)) in Fi. exact Fi.
    - apply IH; [intros l' Hl'; apply Fg; right; exact Hl'|lia|]. intros i Hi. apply (Fi (S i)). cbn; lia. }
  cbn [par_law lw_marin lw_marin_tangent]. unfold par_marin, par_marin_tangent. rewrite P1, P2.
  rewrite !par_collect_same by (intros l Hl; apply FM; exact Hl). cbn [fst snd].
  split.
  - destruct (par_field (map (fun l => snd (lw_marin l (e0, r))) laws) w fs e0 r) as (out & E & Fo).
    + apply Gen; [exact Lf|intros l Hl; apply FM; exact Hl|]. intros i Hi. apply R0; [exact Hi|exact Hr|]. intros Z. apply Hs; [exact Z|lia].
    + destruct (Rle_lt_or_eq_dec 0 r Hr) as [Pr|Zr].
      * destruct PI as [PI|PI]; [right|left].
        { split; [intros X; apply map_eq_nil in X; congruence|]. intros o Ho. apply in_map_iff in Ho as (l & <- & Hl). apply (PI l Hl e0 r Pr). }
        { intros o Ho. apply in_map_iff in Ho as (l & <- & Hl). apply (PI l Hl e0 r). }
      * left. intros o Ho. apply in_map_iff in Ho as (l & <- & Hl). destruct (In_nth _ _ (par_law p) Hl) as (i & Hi & <-).
        destruct (R0 i Hi e0 r Hr) as [[_ A] _]; [intros Z; apply Hs; [exact Z|lia]|]. destruct (fst (snd (lw_marin (nth i laws (par_law p)) (e0, r)))); [destruct A; lra|reflexivity].
    + rewrite E. exact Fo.
  - destruct (par_field (map (fun l => snd (lw_marin_tangent l (e0, r))) laws) w ts e0 r) as (out & E & Fo).
    + apply Gen; [exact Lt|intros l Hl; apply FM; exact Hl|]. intros i Hi. apply R0; [exact Hi|exact Hr|]. intros Z. apply Hs; [exact Z|lia].
    + destruct (Rle_lt_or_eq_dec 0 r Hr) as [Pr|Zr].
      * destruct PI as [PI|PI]; [right|left].
        { split; [intros X; apply map_eq_nil in X; congruence|]. intros o Ho. apply in_map_iff in Ho as (l & <- & Hl). apply (PI l Hl e0 r Pr). }
        { intros o Ho. apply in_map_iff in Ho as (l & <- & Hl). apply (PI l Hl e0 r). }
      * left. intros o Ho. apply in_map_iff in Ho as (l & <- & Hl). destruct (In_nth _ _ (par_law p) Hl) as (i & Hi & <-).
        destruct (R0 i Hi e0 r Hr) as [_ [_ A]]; [intros Z; apply Hs; [exact Z|lia]|]. destruct (fst (snd (lw_marin_tangent (nth i laws (par_law p)) (e0, r)))); [destruct A; lra|reflexivity].
    + rewrite E. exact Fo.
Qed.
Print Assumptions C57_parallel.

(** The section: forces are the area integral of the curves, the stiffness that of their
    slopes; only the laws of the bars have to agree between scalars and arrays. *)
Theorem C57_section : forall laws fs ts g e0 ky kz,
  drawn g -> (forall b, In b (cg_bars g) -> batched (laws (br_law b))) ->
  (forall s, In s (cg_surf g) -> exists ok, represented (laws (sf_law s)) ok (fs (sf_law s)) (ts (sf_law s)) /\ (ky = 0 -> kz = 0 -> ok e0)) ->
  (exists data, marin_forces laws g (e0, ky, kz) None = Ok (area_forces fs laws g (e0, ky, kz), data)) /\
  exists K data, marin_stiffness laws g (e0, ky, kz) None = Ok (K, data) /\
    (forall i j, (i < 3)%nat -> (j < 3)%nat -> K i j =
       over_surfaces ts (fun y z => arm i y z * arm j y z) e0 ky kz (cg_surf g) + stiff (bar_fibres laws g) e0 ky kz i j).
Proof.
  intros laws fs ts g e0 ky kz [D1 D2] B S0.
  assert (B' := tamed_batched laws g B).
  assert (F : forall s, In s (cg_surf g) -> field_of (lw_marin (tamed laws g (sf_law s)) (e0, sqrt (kz ^ 2 + ky ^ 2))) (fs (sf_law s)) e0 (sqrt (kz ^ 2 + ky ^ 2)) /\
     field_of (lw_marin_tangent (tamed laws g (sf_law s)) (e0, sqrt (kz ^ 2 + ky ^ 2))) (ts (sf_law s)) e0 (sqrt (kz ^ 2 + ky ^ 2))).
  { intros s Hs. destruct (tamed_marin laws g (sf_law s)) as [-> ->]. destruct (S0 s Hs) as (ok & R0 & O). apply R0; [apply sqrt_pos|].
    intros Z. apply sqrt_eq_0 in Z; [|nra]. assert (ky = 0) by nra. assert (kz = 0) by nra. auto. }
  split.
  - destruct (C21_forces_area (tamed laws g) fs g e0 ky kz B') as (d & E).
    + intros s Hs. destruct (D1 s Hs) as [X Y]. split; [exact X|]. split; [exact Y|]. apply F. exact Hs.
    + exact D2.
    + rewrite forces_tamed, area_tamed in E. exists d. exact E.
  - destruct (C21_stiffness_area (tamed laws g) ts g e0 ky kz B') as (K & d & E & G).
    + intros s Hs. destruct (D1 s Hs) as [X Y]. split; [exact X|]. split; [exact Y|]. apply F. exact Hs.
    + exact D2.
    + rewrite stiffness_tamed in E. rewrite fibres_tamed in G. exists K, d. split; [exact E|exact G].
Qed.
Print Assumptions C57_section.

(** How far the polygon is from a smooth law with an M-Lipschitz tangent: at most
    M h^2 / 8 with h a tenth of the ultimate strain. *)
Theorem C57_polygon_error : forall u s ds M f, u < 0 -> polygon_at_tenths u s f ->
  (forall e, u <= e <= 0 -> is_derive s e (ds e)) ->
  (forall x y, u <= x -> x <= y -> y <= 0 -> Rabs (ds y - ds x) <= M * (y - x)) ->
  forall e, u <= e <= 0 -> Rabs (f e - s e) <= M * (u / 10) ^ 2 / 8.
Proof.
  intros u s ds M f U [_ P] D L e E.
  assert (X : exists k w, (k < 10)%nat /\ 0 <= w <= 1 /\ e = u * ((INR k + w) / 10)).
  { assert (V : 0 <= e / u * 10 <= 10).
    { assert (0 <= e / u). { replace (e / u) with (- e * / - u) by (field; lra). apply Rmult_le_pos; [lra|apply Rlt_le, Rinv_0_lt_compat; lra]. }
      assert (e / u <= 1). { apply Rmult_le_reg_r with (- u); [lra|]. replace (e / u * - u) with (- e) by (field; lra). lra. } lra. }
    assert (K : forall n, (n <= 10)%nat -> e / u * 10 <= INR n -> exists k w, (k < 10)%nat /\ 0 <= w <= 1 /\ e / u * 10 = INR k + w).
    { induction n as [|n IH]; intros Hn H.
      - exists 0%nat, 0. split; [lia|]. split; [lra|]. cbn in *. lra.
      - destruct (Rle_dec (e / u * 10) (INR n)) as [A|A]; [apply IH; [lia|exact A]|].
        exists n, (e / u * 10 - INR n). rewrite S_INR in H. split; [lia|]. split; [lra|]. ring. }
    destruct (K 10%nat (le_n _)) as (k & w & Hk & W & Q); [cbn; lra|]. exists k, w. split; [exact Hk|]. split; [exact W|]. rewrite <- Q. field. lra. }
  destruct X as (k & w & Hk & W & ->). rewrite (P k Hk w W).
  assert (B : 0 <= INR k <= 9). { split; [apply pos_INR|]. replace 9 with (INR 9) by (cbn; lra). apply le_INR. lia. }
  assert (C := chord_error s ds M (u * (INR (S k) / 10)) (u * (INR k / 10)) (1 - w)). cbv zeta in C. rewrite S_INR in *.
  replace (u * ((INR k + 1) / 10) + (1 - w) * (u * (INR k / 10) - u * ((INR k + 1) / 10))) with (u * ((INR k + w) / 10)) in C by field.
  replace (1 - (1 - w)) with w in C by ring.
  replace (u * (INR k / 10) - u * ((INR k + 1) / 10)) with (- (u / 10)) in C by field. replace ((- (u / 10)) ^ 2) with ((u / 10) ^ 2) in C by ring.
  replace ((1 - w) * s (u * (INR k / 10)) + w * s (u * ((INR k + 1) / 10))) with (w * s (u * ((INR k + 1) / 10)) + (1 - w) * s (u * (INR k / 10))) by ring.
  apply C; [nra|lra| |].
  - intros t Ht. apply D. split; nra.
  - intros x y X1 X2 X3. apply L; nra.
Qed.
Print Assumptions C57_polygon_error.

(** A plate of bilinear concrete, whatever the strains. *)
Example C57_section_example : exists l, bil_init 30 (2/1000) (Some (35/10000)) = Ok l /\
  forall e0 ky kz, (ky = 0 -> kz = 0 -> settled (- (35/10000), 100) e0) ->
  exists data, marin_forces (fun _ => bil_law l) plate (e0, ky, kz) None =
    Ok (area_forces (fun _ => bil_curve 30 (2/1000) (35/10000)) (fun _ => bil_law l) plate (e0, ky, kz), data).
Proof.
  assert (R1 : Rabs (2/1000) = 2/1000) by (apply Rabs_right; lra). assert (R2 : Rabs (35/10000) = 35/10000) by (apply Rabs_right; lra).
  assert (R3 : Rabs 30 = 30) by (apply Rabs_right; lra).
  assert (I : exists l, bil_init 30 (2/1000) (Some (35/10000)) = Ok l) by (unfold bil_init; destruct (Reqb_spec (2/1000) 0); [exfalso; lra|eexists; reflexivity]).
  destruct I as (l & I). exists l. split; [exact I|]. intros e0 ky kz S0.
  destruct (C57_bilinear _ _ _ _ I ltac:(lra)) as (t & R0 & _). rewrite R1, R2, R3 in R0.
  apply (C57_section (fun _ => bil_law l) (fun _ => bil_curve 30 (2/1000) (35/10000)) (fun _ => t) plate e0 ky kz).
  - exact plate_drawn.
  - intros b [].
  - intros s _. exists (settled (- (35/10000), 100)). split; [exact R0|exact S0].
Qed.
(** Steel and concrete in parallel, data points and Sargin's law. *)
Example C57_parallel_example : exists ls lb p f t,
  ep_init 200000 400 1000 (Some (25/1000)) = Ok ls /\ bil_init 30 (2/1000) (Some (35/10000)) = Ok lb /\
  par_init [ep_law ls; bil_law lb] (Some [1/100; 99/100]) = Ok p /\
  represented (par_law p) (fun e => settled (- (25/1000), 25/1000) e /\ settled (- (35/10000), 100) e) f t /\
  (forall e, f e = 1/100 * ep_curve 200000 400 1000 (25/1000) e + 99/100 * bil_curve 30 (2/1000) (35/10000) e).
Proof.
  assert (R1 : Rabs (2/1000) = 2/1000) by (apply Rabs_right; lra). assert (R2 : Rabs (35/10000) = 35/10000) by (apply Rabs_right; lra).
  assert (R3 : Rabs 30 = 30) by (apply Rabs_right; lra).
  assert (I : exists l, bil_init 30 (2/1000) (Some (35/10000)) = Ok l) by (unfold bil_init; destruct (Reqb_spec (2/1000) 0); [exfalso; lra|eexists; reflexivity]).
  destruct I as (lb & I).
  assert (J : exists l, ep_init 200000 400 1000 (Some (25/1000)) = Ok l).
  { unfold ep_init. rsplit; try (exfalso; lra); try (eexists; reflexivity); exfalso; lra. }
  destruct J as (ls & J). exists ls, lb. eexists.
  destruct (C57_bilinear _ _ _ _ I ltac:(lra)) as (tb & Rb & _ & _ & Pb). rewrite R1, R2, R3 in Rb.
  destruct (C57_elasticplastic _ _ _ _ _ J ltac:(lra) ltac:(lra) ltac:(lra)) as (Rs & _ & _ & Ps).
  set (fs := ep_curve 200000 400 1000 (25/1000)) in *. set (fb := bil_curve 30 (2/1000) (35/10000)) in *. set (ts := ep_slope 200000 400 1000 (25/1000)) in *.
  exists (wsum [1/100; 99/100] [fs; fb]), (wsum [1/100; 99/100] [ts; tb]).
  split; [exact J|]. split; [exact I|]. split; [reflexivity|]. split; [|intros e; cbn [wsum]; ring].
  assert (Q := C57_parallel [ep_law ls; bil_law lb] [1/100; 99/100] _ [settled (- (25/1000), 25/1000); settled (- (35/10000), 100)] [fs; fb] [ts; tb] eq_refl ltac:(discriminate) eq_refl eq_refl eq_refl).
  intros e0 r Hr Hs. apply Q; [| |exact Hr|].
  - intros [|[|i]] Hi; cbn [nth length] in *; [exact Rs|exact Rb|lia].
  - left. intros l [<-|[<-|[]]]; assumption.
  - intros Z i Hi. destruct (Hs Z) as [S1 S2]. destruct i as [|[|i]]; cbn [nth length] in *; [exact S1|exact S2|lia].
Qed.
Example C57_polygon_example : exists f t,
  represented (sargin_law (sargin_init 35 (2/1000) (35/10000) 2)) (settled (- (35/10000), 0)) f t /\
  (forall e, - (35/10000) <= e <= 0 -> Rabs (f e - -35 * (2 * (- e / (2/1000)) - (- e / (2/1000)) ^ 2)) <= 27/100).
Proof.
  set (l := sargin_init 35 (2/1000) (35/10000) 2).
  assert (R1 : Rabs (2/1000) = 2/1000) by (apply Rabs_right; lra). assert (R2 : Rabs (35/10000) = 35/10000) by (apply Rabs_right; lra).
  assert (R3 : Rabs 35 = 35) by (apply Rabs_right; lra).
  assert (W : sargin_wf l) by (apply sargin_init_wf; rewrite ?R1, ?R2; lra).
  set (s := fun e => -35 * (2 * (- e / (2/1000)) - (- e / (2/1000)) ^ 2)).
  assert (Hv : forall e, settled (- (35/10000), 100) e -> - (35/10000) <= e <= 0 -> or_zero (sargin_stress l e) = s e).
  { intros e S0 E. rewrite (sargin_ok_compr l e W); [|unfold sargin_ult; cbn [l sargin_init sa_ecu1]; rewrite R2; exact S0|cbn [l sargin_init sa_ecu1]; rewrite R2; exact E].
    cbn [or_zero]. unfold s, l, sargin_init. cbn [sa_fc sa_ec1 sa_k]. rewrite R1, R3. cbv zeta. field. }
  assert (S1 : forall e, - (35/10000) + / 10000 <= e <= 0 -> settled (- (35/10000), 100) e).
  { intros e E. left. cbn [fst snd]. unfold far, tol. rewrite (Rabs_right 100), (Rabs_left (e - 100)) by lra.
    rewrite (Rabs_left (- (35 / 10000))) by lra. rewrite (Rabs_right (e - _)) by lra. lra. }
  destruct (C57_sargin 35 (2/1000) (35/10000) 2 ltac:(lra) ltac:(lra) ltac:(lra) ltac:(rewrite R1, R2; lra) ltac:(rewrite R1, R2; lra) ltac:(unfold tol; rewrite !R2; lra))
    as (f & t & P & R0 & _).
  { cbn [sargin_law lw_stress]. fold l. rewrite R2, R3, Hv by (try (apply tol_settled; lra); lra). unfold s. replace (- - (35/10000) / (2/1000)) with (7/4) by field. lra. }
  fold l in R0, P. rewrite R2 in R0, P. exists f, t. split; [exact R0|]. intros e E.
  assert (P2 : polygon_at_tenths (- (35/10000)) s f).
  { eapply polygon_ext; [|exact P]. intros k K. cbn [sargin_law lw_stress].
    assert (0 <= INR k <= 10). { split; [apply pos_INR|]. replace 10 with (INR 10) by (cbn; lra). apply le_INR. lia. }
    apply Hv; [|nra]. destruct (Nat.eq_dec k 10) as [-> | N]; [replace (- (35/10000) * (INR 10 / 10)) with (- (35/10000)) by (cbn; field); apply tol_settled; lra|].
    apply S1. assert (INR k <= 9). { replace 9 with (INR 9) by (cbn; lra). apply le_INR. lia. } lra. }
  eapply Rle_trans; [apply (C57_polygon_error (- (35/10000)) s (fun e => 35 * (2 / (2/1000)) + 70 * (e / (2/1000) ^ 2)) (70 / (2/1000) ^ 2) f ltac:(lra) P2)|].
  - intros x _. unfold s. auto_derive; [exact I|]. field.
  - intros x y _ XY _. replace (_ - _) with (70 / (2/1000) ^ 2 * (y - x)) by field. rewrite Rabs_right; [lra|]. apply Rle_ge. apply Rmult_le_pos; [|lra]. lra.
  - exact E.
  - lra.
Qed.
