(** Property C29: sampling of the interaction domains. *)
From Verif Require Import Base M_Marin M_Laws M_Laws2 M_Fiber M_MarinInt S_Fiber L_Fiber M_Section S_Section L_Section3 M_Domain S_Domain L_Domain L_Domain3 S_History L_Section4 L_Section5 L_Domain2 P_Fiber P_Section.
From Coq Require Import Lra Lia.

(** ** How many profiles *)
(** With a requested total every field gets its share of it (1, 2, 15, 10, 3 and 4 parts of 35, rounded down), or its
    minimum if that is more; at most five profiles of the total are lost. *)
Theorem C29_numbers : forall num m1 m2 m3 m4 m5 m6 n1 n2 n3 n4 n5 n6,
  process_num num m1 m2 m3 m4 m5 m6 = (n1, n2, n3, n4, n5, n6) ->
  (m1 <= n1 /\ m2 <= n2 /\ m3 <= n3 /\ m4 <= n4 /\ m5 <= n5 /\ m6 <= n6)%Z /\
  ((0 <= num)%Z -> larger_of m1 (share num 1) n1 /\ larger_of m2 (share num 2) n2 /\ larger_of m3 (share num 15) n3 /\
     larger_of m4 (share num 10) n4 /\ larger_of m5 (share num 3) n5 /\ larger_of m6 (share num 4) n6 /\
     (num - 5 <= n1 + n2 + n3 + n4 + n5 + n6)%Z).
Proof.
  intros num m1 m2 m3 m4 m5 m6 n1 n2 n3 n4 n5 n6 E. unfold process_num in E. injection E as <- <- <- <- <- <-. split; [lia|]. intros H.
  pose proof (attempt_spec num 1 H). pose proof (attempt_spec num 2 H). pose proof (attempt_spec num 15 H).
  pose proof (attempt_spec num 10 H). pose proof (attempt_spec num 3 H). pose proof (attempt_spec num 4 H).
  assert (G : forall w m, (35 * attempt num w <= num * w < 35 * attempt num w + 35)%Z -> larger_of m (share num w) (Z.max (attempt num w) m)).
  { intros w m B. exists (attempt num w). split; [exact B|]. apply Z.max_comm. }
  repeat match goal with |- _ /\ _ => split end; try (apply G; lia). lia.
Qed.
Print Assumptions C29_numbers.
(** The requested total itself is not always reached: 69 gives 64. *)
Theorem C29_total_refuted : exists num n1 n2 n3 n4 n5 n6,
  process_num num 1 2 15 10 3 4 = (n1, n2, n3, n4, n5, n6) /\ (n1 + n2 + n3 + n4 + n5 + n6 < num)%Z.
Proof. exists 69%Z. do 6 eexists. split; [vm_compute; reflexivity|lia]. Qed.
Print Assumptions C29_total_refuted.
(** One direction: the requested numbers, field by field. *)
Theorem C29_count : forall t g theta f ps nums, ultimate_profiles t g theta f = Ok (ps, nums) ->
  Z.of_nat (length ps) = (fd_n1 f + fd_n2 f + fd_n3 f + fd_n4 f + fd_n5 f + fd_n6 f)%Z /\ length nums = length ps /\
  (forall i n, nth_error [fd_n1 f; fd_n2 f; fd_n3 f; fd_n4 f; fd_n5 f; fd_n6 f] i = Some n -> Z.of_nat (count_occ Nat.eq_dec nums (S i)) = n).
Proof.
  intros t g theta f ps nums E. unfold ultimate_profiles in E.
  destruct (balanced _ true _) as [[[yn0 yp0] sy]|]; cbn [bind] in E; [|discriminate].
  destruct (balanced _ false _) as [[[yn yp] sb]|]; cbn [bind] in E; [|discriminate].
  destruct (field_nums f) as [ns|] eqn:EN; cbn [bind] in E; [|discriminate].
  destruct (field_pairs _ _ _ _ _ _ _ _ _) as [prs|] eqn:EP; cbn [bind] in E; [|discriminate].
  injection E as <- <-. apply field_pairs_length in EP. destruct EP as (P & _ & L). unfold sumZ, wanted in *. cbn [fold_right In] in *.
  unfold field_nums in EN. destruct (orb _ _); [discriminate|]. injection EN as <-. rewrite map_length. split; [lia|].
  assert (Q : forall n, In n [fd_n1 f; fd_n2 f; fd_n3 f; fd_n4 f; fd_n5 f; fd_n6 f] -> (0 <= n)%Z) by (intros n I; apply P; cbn in I; tauto).
  pose proof (Q (fd_n1 f)) as Q1. pose proof (Q (fd_n2 f)) as Q2. pose proof (Q (fd_n3 f)) as Q3. pose proof (Q (fd_n4 f)) as Q4. pose proof (Q (fd_n5 f)) as Q5. pose proof (Q (fd_n6 f)) as Q6.
  cbn [In] in *. specialize (Q1 ltac:(tauto)). specialize (Q2 ltac:(tauto)). specialize (Q3 ltac:(tauto)). specialize (Q4 ltac:(tauto)). specialize (Q5 ltac:(tauto)). specialize (Q6 ltac:(tauto)).
  split; [rewrite !app_length, !repeat_length; lia|].
  intros i n I. rewrite !count_occ_app, !count_repeat.
  destruct i as [|[|[|[|[|[|i]]]]]]; cbn [nth_error Nat.eqb] in *; try (injection I as <-; lia). destruct i; discriminate.
Qed.
Print Assumptions C29_count.
(** The N-M domain has one force triple and one field number per profile; the
    complete domain joins both directions without their common end profiles. *)
Theorem C29_nm : forall ig t ms g theta f complete s d s', nm_domain ig t ms g theta f complete s = (Ok d, s') ->
  let total := (fd_n1 f + fd_n2 f + fd_n3 f + fd_n4 f + fd_n5 f + fd_n6 f)%Z in
  length (dm_forces d) = length (dm_strains d) /\ length (dm_fields d) = length (dm_strains d) /\
  Z.of_nat (length (dm_strains d)) = (if complete then total + Z.max 0 (total - 2) else total)%Z /\
  (exists ps more nums, dm_strains d = ps ++ more /\ ultimate_profiles t g theta f = Ok (ps, nums)).
Proof.
  intros ig t ms g theta f complete s d s' E total. unfold nm_domain, abind, alift in E.
  destruct (ultimate_profiles t g theta f) as [[ps nums]|] eqn:U; [|discriminate].
  pose proof (C29_count _ _ _ _ _ _ U) as (L1 & L2 & _).
  destruct complete.
  - destruct (ultimate_profiles t g (theta + PI) f) as [[qs nums']|] eqn:U'; [|discriminate].
    pose proof (C29_count _ _ _ _ _ _ U') as (L3 & L4 & _). cbn [fst snd aret] in E.
    destruct (integrate_all ig (Some ms) g (ps ++ inner_rev qs) s) as [[F|] s1] eqn:EI; cbn [aret] in E; [|discriminate].
    pose proof (integrate_all_length _ _ _ _ _ _ _ EI) as LI. injection E as E0 E9; subst d. clear E9. cbn [dm_forces dm_strains dm_fields].
    rewrite LI, !app_length, !inner_rev_length. split; [reflexivity|]. split; [lia|]. split; [fold total in L1, L3; lia|].
    exists ps, (inner_rev qs), nums. split; reflexivity.
  - cbn [fst snd aret] in E.
    destruct (integrate_all ig (Some ms) g ps s) as [[F|] s1] eqn:EI; cbn [aret] in E; [|discriminate].
    pose proof (integrate_all_length _ _ _ _ _ _ _ EI) as LI. injection E as E0 E9; subst d. clear E9. cbn [dm_forces dm_strains dm_fields].
    split; [exact LI|]. split; [exact L2|]. split; [exact L1|]. exists ps, [], nums. rewrite app_nil_r. split; reflexivity.
Qed.
Print Assumptions C29_nm.
(** A complete domain goes on with the profiles of the opposite direction, backwards and without its two end profiles. *)
Theorem C29_nm_complete : forall ig t ms g theta f s d s', nm_domain ig t ms g theta f true s = (Ok d, s') ->
  exists ps nums qs nums', ultimate_profiles t g theta f = Ok (ps, nums) /\ ultimate_profiles t g (theta + PI) f = Ok (qs, nums') /\
  (forall a m b, qs = a :: m ++ [b] -> dm_strains d = ps ++ rev m) /\
  (forall a m b, nums' = a :: m ++ [b] -> dm_fields d = nums ++ rev m).
Proof.
  intros ig t ms g theta f s d s' E. unfold nm_domain, abind, alift in E.
  destruct (ultimate_profiles t g theta f) as [[ps nums]|] eqn:U; [|discriminate].
  destruct (ultimate_profiles t g (theta + PI) f) as [[qs nums']|] eqn:U'; [|discriminate]. cbn [fst snd aret] in E.
  destruct (integrate_all ig (Some ms) g (ps ++ inner_rev qs) s) as [[F|] s1] eqn:EI; cbn [aret] in E; [|discriminate].
  injection E as E0 E9. subst d. cbn [dm_strains dm_fields]. exists ps, nums, qs, nums'. split; [reflexivity|]. split; [reflexivity|].
  split; intros a m b ->; rewrite inner_rev_spec; reflexivity.
Qed.
Print Assumptions C29_nm_complete.
(** The N-M-M domain keeps the field numbers of the last angle only: there are
    num_theta times as many profiles as field numbers. *)
Theorem C29_nmm : forall ig t g num_theta f s d s', nmm_domain ig t g num_theta f s = (Ok d, s') ->
  let total := (fd_n1 f + fd_n2 f + fd_n3 f + fd_n4 f + fd_n5 f + fd_n6 f)%Z in
  length (dm_forces d) = length (dm_strains d) /\ Z.of_nat (length (dm_strains d)) = (Z.of_nat num_theta * total)%Z /\
  Z.of_nat (length (dm_fields d)) = total /\ (1 <= num_theta)%nat.
Proof.
  intros ig t g k f s d s' E total. unfold nmm_domain, abind, alift in E.
  destruct (all_profiles t g f _ None) as [[ps last]|] eqn:U; [|discriminate]. cbn [fst snd] in E.
  destruct (integrate_all ig None g ps s) as [[F|] s1] eqn:EI; [|discriminate].
  pose proof (integrate_all_length _ _ _ _ _ _ _ EI) as LI. destruct last as [nums|]; [|discriminate]. injection E as E0 E9; subst d. clear E9. cbn [dm_forces dm_strains dm_fields].
  assert (G : forall thetas last0 ps0 last1, all_profiles t g f thetas last0 = Ok (ps0, last1) ->
    Z.of_nat (length ps0) = (Z.of_nat (length thetas) * total)%Z /\
    ((thetas = [] /\ last1 = last0) \/ (thetas <> [] /\ exists ns, last1 = Some ns /\ Z.of_nat (length ns) = total))).
  { clear. induction thetas as [|th rest IH]; intros last0 ps0 last1 E; cbn [all_profiles] in E.
    - injection E as <- <-. split; [cbn; lia|]. left. split; reflexivity.
    - destruct (ultimate_profiles t g th f) as [[qs ns]|] eqn:U; cbn [bind] in E; [|discriminate].
      destruct (C29_count _ _ _ _ _ _ U) as (L1 & L2 & _). cbn [snd] in E.
      destruct (all_profiles t g f rest (Some ns)) as [[rs ls]|] eqn:V; cbn [bind fst snd] in E; [|discriminate]. injection E as <- <-.
      destruct (IH _ _ _ V) as (L3 & C). fold total in L1. split; [rewrite app_length; cbn [length]; lia|]. right. split; [discriminate|].
      destruct C as [[_ ->]|[_ C]]; [exists ns; split; [reflexivity|lia]|exact C]. }
  destruct (G _ _ _ _ U) as (L & C). rewrite linspace_length in L. split; [exact LI|]. split; [exact L|].
  destruct C as [[_ X]|[NE (ns & X & LN)]]; [discriminate|]. injection X as <-. split; [exact LN|].
  destruct k; [exfalso; apply NE; reflexivity|lia].
Qed.
Print Assumptions C29_nmm.
(** The N-M-M domain is made of the profiles of num_theta directions that go round once, one after the other. *)
Theorem C29_nmm_directions : forall ig t g num_theta f s d s', nmm_domain ig t g num_theta f s = (Ok d, s') ->
  exists blocks, dm_strains d = concat blocks /\ length blocks = num_theta /\
  (forall i b, nth_error blocks i = Some b -> exists a nums, round_angle num_theta i a /\ ultimate_profiles t g a f = Ok (b, nums)).
Proof.
  intros ig t g k f s d s' E. pose proof (C29_nmm _ _ _ _ _ _ _ _ E) as (_ & _ & _ & K). unfold nmm_domain, abind, alift in E.
  destruct (all_profiles t g f _ None) as [[ps last]|] eqn:U; [|discriminate]. cbn [fst snd] in E.
  destruct (integrate_all ig None g ps s) as [[F|] s1] eqn:EI; [|discriminate].
  destruct last as [nums|]; [|discriminate]. injection E as E0 E9; subst d. clear E9. cbn [dm_strains].
  assert (G : forall thetas last0 ps0 last1, all_profiles t g f thetas last0 = Ok (ps0, last1) ->
    exists blocks, ps0 = concat blocks /\ length blocks = length thetas /\
      (forall i b, nth_error blocks i = Some b -> exists a ns, nth_error thetas i = Some a /\ ultimate_profiles t g a f = Ok (b, ns))).
  { clear. induction thetas as [|th rest IH]; intros last0 ps0 last1 E; cbn [all_profiles] in E.
    - injection E as <- <-. exists []. split; [reflexivity|]. split; [reflexivity|]. intros [|i] b X; discriminate.
    - destruct (ultimate_profiles t g th f) as [[qs ns]|] eqn:U; cbn [bind] in E; [|discriminate].
      cbn [snd] in E. destruct (all_profiles t g f rest (Some ns)) as [[rs ls]|] eqn:V; cbn [bind fst snd] in E; [|discriminate]. injection E as <- <-.
      destruct (IH _ _ _ V) as (bl & -> & L & B). exists (qs :: bl). split; [reflexivity|]. split; [cbn [length]; now rewrite L|].
      intros [|i] b X; [|apply (B i b X)]. injection X as <-. exists th, ns. split; [reflexivity|exact U]. }
  destruct (G _ _ _ _ U) as (bl & -> & L & B). rewrite linspace_length in L. exists bl. split; [reflexivity|]. split; [exact L|].
  intros i b X. assert (I : (i < k)%nat) by (rewrite <- L; apply nth_error_Some; congruence).
  destruct (B i b X) as (a & ns & N & UP). destruct (round_angles k K i I) as (a' & N' & RA). rewrite N in N'. injection N' as <-. now exists a, ns.
Qed.
Print Assumptions C29_nmm_directions.
Theorem C29_nmm_fields_refuted : forall ig t g num_theta f s d s', (2 <= num_theta)%nat -> nmm_domain ig t g num_theta f s = (Ok d, s') ->
  length (dm_strains d) <> 0%nat -> length (dm_fields d) <> length (dm_strains d).
Proof. intros ig t g k f s d s' K E N X. destruct (C29_nmm _ _ _ _ _ _ _ _ E) as (_ & L & LF & _). nia. Qed.
Print Assumptions C29_nmm_fields_refuted.

(** ** Which profiles *)
(** The forces of the domain are the fibre resultants of its profiles. *)
Theorem C29_forces : forall laws mesher t ms g theta f complete s d s',
  (forall k, batched (laws k)) -> cg_surf g <> [] \/ cg_bars g <> [] -> 0 < ms <= 1 -> uses_mesh mesher g ms ms s ->
  nm_domain (fiber_integ laws mesher) t ms g theta f complete s = (Ok d, s') ->
  let F := section_fibres laws (fun x => mesher x (surface_area x * ms)) g in
  dm_forces d = map (fun p => let '(e0, ky, kz) := p in (axial F e0 ky kz, moment_y F e0 ky kz, moment_z F e0 ky kz)) (dm_strains d).
Proof.
  intros laws mesher t ms g theta f complete s d s' B NE M U E F. unfold nm_domain, abind, alift in E.
  destruct (ultimate_profiles t g theta f) as [[ps nums]|]; [|discriminate].
  assert (G : forall u, (match integrate_all (fiber_integ laws mesher) (Some ms) g (fst u) s with
     | (Ok a, s'0) => aret {| dm_strains := fst u; dm_forces := a; dm_fields := snd u |} s'0 | (Err e, s'0) => (Err e, s'0) end) = (Ok d, s') ->
     dm_forces d = map (fun p => let '(e0, ky, kz) := p in (axial F e0 ky kz, moment_y F e0 ky kz, moment_z F e0 ky kz)) (dm_strains d)).
  { intros u. destruct (integrate_all_fiber laws mesher g ms (Some ms) (fst u) B NE M s U) as (s1 & ->). intros X. injection X as X0 X9; subst d. cbn [dm_forces dm_strains].
    apply map_ext. intros [[e0 ky] kz]. reflexivity. }
  destruct complete.
  - destruct (ultimate_profiles t g (theta + PI) f) as [[qs nums']|]; [|discriminate]. exact (G _ E).
  - exact (G _ E).
Qed.
Print Assumptions C29_forces.
(** The last profile is uniform compression; with linear spacing, or at least
    two profiles in the first field, the first one is uniform tension. *)
Theorem C29_ends : forall t g theta f ps nums yn0 yp0 sy yn yp sb,
  ultimate_profiles t g theta f = Ok (ps, nums) ->
  balanced (tr_rc t) true (items_of t (rotate_geo (- theta) g)) = Ok (yn0, yp0, sy) ->
  balanced (tr_rc t) false (items_of t (rotate_geo (- theta) g)) = Ok (yn, yp, sb) -> yp < yn ->
  (exists front p, ps = front ++ [p] /\ uniform p (if tr_rc t then strain_at sy yn0 else strain_at sb yn)) /\
  ((fd_t1 f = Linear /\ 1 <= fd_n1 f \/ 2 <= fd_n1 f)%Z -> exists p rest, ps = p :: rest /\ uniform p (strain_at sb yp)).
Proof.
  intros t g theta f ps nums yn0 yp0 sy yn yp sb E BY BB YY. unfold ultimate_profiles in E. rewrite BY in E. cbn [bind] in E. rewrite BB in E. cbn [bind] in E.
  destruct (field_nums f) as [ns|]; cbn [bind] in E; [|discriminate].
  fold (strain_at sb yp) (strain_at sb yn) (strain_at sy yp0) (strain_at sy yn0) in E. unfold p_e0, p_ky in E.
  fold (strain_at sb yp) (strain_at sb yn) (strain_at sy yp0) (strain_at sy yn0) in E.
  unfold field_pairs in E.
  destruct (np_space _ 0 (fd_n1 f) _ _) as [f1|] eqn:E1; cbn [bind] in E; [|discriminate].
  destruct (np_space 0 _ (fd_n2 f) _ _) as [f2|]; cbn [bind] in E; [|discriminate].
  destruct (np_space _ _ (fd_n3 f) _ _) as [f3|]; cbn [bind] in E; [|discriminate].
  destruct (np_space _ 0 (fd_n4 f) _ _) as [f4|]; cbn [bind] in E; [|discriminate].
  destruct (np_space 0 _ (fd_n5 f) _ _) as [f5|]; cbn [bind] in E; [|discriminate].
  destruct (np_space _ _ (fd_n6 f - 1) _ _) as [f6|]; cbn [bind] in E; [|discriminate].
  injection E as <- _. split.
  - rewrite !map_app, !app_assoc. cbn [map]. eexists. eexists. split; [reflexivity|]. intros y z. rewrite pair_strain by exact YY. cbn [fst snd].
    destruct (tr_rc t).
    + unfold Rminus at 1. unfold Rminus at 1. rewrite Rplus_opp_r. rewrite Ropp_0. unfold Rdiv at 1. rewrite !Rmult_0_l, Rplus_0_l. field. lra.
    + field. lra.
  - intros N. destruct (np_space_first _ _ _ _ _ E1 N) as (r & ->). cbn [map app]. eexists. eexists. split; [reflexivity|].
    intros y z. rewrite pair_strain by exact YY. cbn [fst snd]. field. lra.
Qed.
Print Assumptions C29_ends.
(** Every profile respects the ultimate strains of a part of the section, if
    the uniform ones among them do so for this part. *)
Theorem C29_within : forall t g theta f ps nums yn0 yp0 sy yn yp sb m,
  let gr := rotate_geo (- theta) g in let h := yn - m in
  let epy := strain_at sy yp0 in let eny := strain_at sy yn0 in let epb := strain_at sb yp in let enb := strain_at sb yn in
  ultimate_profiles t g theta f = Ok (ps, nums) ->
  balanced (tr_rc t) true (items_of t gr) = Ok (yn0, yp0, sy) ->
  balanced (tr_rc t) false (items_of t gr) = Ok (yn, yp, sb) ->
  (forall k y, fst (tr_ult t k y) <= 0 <= snd (tr_ult t k y)) ->
  (forall s, In s (cg_surf g) -> sf_ext s <> []) ->
  lowest theta g m -> m <= 10 ^ 16 -> enb < 0 -> 0 <= epy <= epb -> m <= yp -> (tr_rc t = true -> yn - (1 - eny / enb) * h <> yp) ->
  spaceable (fd_t1 f) epb 0 -> spaceable (fd_t2 f) 0 enb -> spaceable (fd_t3 f) epb epy -> spaceable (fd_t4 f) epy 0 ->
  spaceable (fd_t5 f) 0 (enb * (h - (yn - yp)) / h) -> spaceable (fd_t6 f) (enb * (h - (yn - yp)) / h) (if tr_rc t then eny else enb) ->
  let tolerates k := fst (tr_ult t k false) <= enb /\ epb <= snd (tr_ult t k false) /\ (tr_rc t = true -> fst (tr_ult t k false) <= eny <= snd (tr_ult t k false)) in
  forall p, In p ps ->
    (forall s v, In s (cg_surf g) -> In v (sf_ext s) -> tolerates (sf_law s) ->
       fst (tr_ult t (sf_law s) false) <= strain_in p (fst v) (snd v) <= snd (tr_ult t (sf_law s) false)) /\
    (forall b, In b (cg_bars g) -> tolerates (br_law b) ->
       fst (tr_ult t (br_law b) false) <= strain_in p (br_y b) (br_z b) <= snd (tr_ult t (br_law b) false)).
Proof.
  intros t g theta f ps nums yn0 yp0 sy yn yp sb m gr h epy eny epb enb E BY BB LIM NEX LOW M16 EN EY MY RC S1 S2 S3 S4 S5 S6 tolerates p I.
  assert (NEG : forall s, In s (cg_surf gr) -> sf_ext s <> []).
  { intros s HS. apply in_map_iff in HS. destruct HS as (s0 & <- & HS). cbn [rotate_surface sf_ext]. specialize (NEX s0 HS). destruct (sf_ext s0); [contradiction|discriminate]. }
  destruct (C27_within_limits t gr false yn yp sb LIM NEG BB) as (WS & WB & _ & _ & YY).
  destruct (C27_attained t gr false yn yp sb LIM NEG BB) as (AT & _).
  assert (EP : 0 <= epb) by (destruct AT as [(s & v & _ & _ & _ & X)|(b & _ & _ & X)]; unfold epb; rewrite X; apply LIM).
  unfold ultimate_profiles in E. fold gr in E. rewrite BY in E. cbn [bind] in E. rewrite BB in E. cbn [bind] in E.
  destruct (field_nums f) as [ns|]; cbn [bind] in E; [|discriminate].
  assert (MYE : min_y gr = m) by (unfold gr; now apply min_y_spec). rewrite MYE in E.
  unfold p_e0, p_ky in E. fold (strain_at sb yp) (strain_at sb yn) (strain_at sy yp0) (strain_at sy yn0) in E. fold h epy eny epb enb in E.
  destruct (field_pairs f (tr_rc t) epb enb epy eny yn yp h) as [prs|] eqn:EF; cbn [bind] in E; [|discriminate]. injection E as <- _.
  apply in_map_iff in I. destruct I as (x & <- & I).
  assert (KEY : forall y z lo hi, lo <= strain_at sb (turned theta y z) <= hi -> lo <= enb -> epb <= hi -> (tr_rc t = true -> lo <= eny <= hi) ->
     lo <= strain_in (pair_profile theta yn yp x) y z <= hi).
  { intros y z lo hi H1 H2 H3 H4. rewrite pair_strain by exact YY.
    set (w := (turned theta y z - yp) / (yn - yp)).
    replace ((yn - turned theta y z) / (yn - yp)) with (1 - w) by (unfold w; field; lra).
    assert (X : strain_at sb (turned theta y z) = enb * w + epb * (1 - w)) by (unfold enb, epb, w, strain_at; field; lra).
    rewrite X in H1.
    apply (field_pairs_within _ _ _ _ _ _ _ _ _ _ EF); try assumption; try lra. unfold h. lra. }
  assert (Z : forall v, snd (rot (- theta) v) = turned theta (fst v) (snd v)).
  { intros [y z]. unfold rot, turned. cbn [fst snd]. rewrite cos_neg, sin_neg. ring. }
  assert (FF : forall k, (if tr_rc t then (false && tr_conc t k)%bool else false) = false) by (intros k; destruct (tr_rc t); reflexivity).
  split.
  - intros s v HS HV (T1 & T2 & T3). apply KEY; try assumption.
    assert (HS' : In (rotate_surface (- theta) s) (cg_surf gr)) by (apply in_map; exact HS).
    specialize (WS _ (turned theta (fst v) (snd v)) HS'). rewrite FF in WS. cbn [rotate_surface sf_law] in WS. apply WS.
    assert (HV' : In (rot (- theta) v) (sf_ext (rotate_surface (- theta) s))) by (cbn [rotate_surface sf_ext]; apply in_map; exact HV).
    exists (rot (- theta) v), (rot (- theta) v). split; [exact HV'|]. split; [exact HV'|]. rewrite Z. lra.
  - intros b HB (T1 & T2 & T3). apply KEY; try assumption.
    assert (HB' : In (rotate_bar (- theta) b) (cg_bars gr)) by (apply in_map; exact HB).
    specialize (WB _ HB'). cbn [rotate_bar br_law br_z] in WB. rewrite Z in WB. cbn [fst snd] in WB. destruct (tr_rc t); exact WB.
Qed.
Print Assumptions C29_within.
(** ** Which profiles *)
(** Fields 1 and 2: the positive strain is the ultimate one, the negative one runs from it to zero and on to its ultimate
    value.  Fields 3, 4, 5: the negative strain is the ultimate one, the positive one runs to its yield value, to zero and to
    the value at which the lowest vertex has no strain.  Field 6: from there to uniform strain; in reinforced concrete about
    the point with the strain eps_c2 (the pivot), otherwise about the top. *)
Theorem C29_profiles : forall t g theta f ps nums yn0 yp0 sy yn yp sb m lim,
  let gr := rotate_geo (- theta) g in
  let epy := strain_at sy yp0 in let eny := strain_at sy yn0 in let epb := strain_at sb yp in let enb := strain_at sb yn in
  let last := if tr_rc t then eny else enb in
  ultimate_profiles t g theta f = Ok (ps, nums) ->
  balanced (tr_rc t) true (items_of t gr) = Ok (yn0, yp0, sy) ->
  balanced (tr_rc t) false (items_of t gr) = Ok (yn, yp, sb) ->
  yp < yn -> (forall s, In s (cg_surf g) -> sf_ext s <> []) -> lowest theta g m -> m < yn -> m <= 10 ^ 16 ->
  lim * (yn - m) = enb * (yp - m) ->
  in_field f ps nums 1 (fun i p e => spaced (fd_t1 f) epb 0 (field_size f 1) i e /\ has_at theta p yn e /\ has_at theta p yp epb) /\
  in_field f ps nums 2 (fun i p e => spaced (fd_t2 f) 0 enb (field_size f 2) i e /\ has_at theta p yn e /\ has_at theta p yp epb) /\
  in_field f ps nums 3 (fun i p e => spaced (fd_t3 f) epb epy (field_size f 3) i e /\ has_at theta p yn enb /\ has_at theta p yp e) /\
  in_field f ps nums 4 (fun i p e => spaced (fd_t4 f) epy 0 (field_size f 4) i e /\ has_at theta p yn enb /\ has_at theta p yp e) /\
  in_field f ps nums 5 (fun i p e => spaced (fd_t5 f) 0 lim (field_size f 5) i e /\ has_at theta p yn enb /\ has_at theta p yp e) /\
  in_field f ps nums 6 (fun i p e =>
    ((S i < field_size f 6)%nat -> spaced (fd_t6 f) lim last (field_size f 6 - 1) i e) /\ (S i = field_size f 6 -> e = last) /\
    has_at theta p yp e /\ (tr_rc t = false -> has_at theta p yn enb) /\
    (tr_rc t = true -> enb <> 0 -> forall yc, enb * (yc - m) = eny * (yn - m) -> yc <> yp -> has_at theta p yc eny)).
Proof.
  intros t g theta f ps nums yn0 yp0 sy yn yp sb m lim gr epy eny epb enb last E BY BB YY NEX LOW MY M16 LIM.
  unfold ultimate_profiles in E. fold gr in E. rewrite BY in E. cbn [bind] in E. rewrite BB in E. cbn [bind] in E.
  destruct (field_nums f) as [ns|] eqn:EN; cbn [bind] in E; [|discriminate].
  unfold p_e0, p_ky in E. fold (strain_at sb yp) (strain_at sb yn) (strain_at sy yp0) (strain_at sy yn0) in E. fold epy eny epb enb in E.
  assert (MYE : min_y gr = m) by (unfold gr; now apply min_y_spec). rewrite MYE in E.
  destruct (field_pairs f (tr_rc t) epb enb epy eny yn yp (yn - m)) as [prs|] eqn:EF; cbn [bind] in E; [|discriminate]. injection E as <- <-.
  pose proof (field_pairs_length _ _ _ _ _ _ _ _ _ _ EF) as (POS & N6 & _).
  assert (P1 : forall k, (k < 6)%nat -> (0 <= nth k (wanted f) 0)%Z) by (intros k K; apply POS, nth_In; exact K).
  pose proof (P1 0%nat ltac:(lia)) as Q1. pose proof (P1 1%nat ltac:(lia)) as Q2. pose proof (P1 2%nat ltac:(lia)) as Q3.
  pose proof (P1 3%nat ltac:(lia)) as Q4. pose proof (P1 4%nat ltac:(lia)) as Q5. pose proof (P1 5%nat ltac:(lia)) as Q6.
  unfold wanted in Q1, Q2, Q3, Q4, Q5, Q6. cbn [nth] in Q1, Q2, Q3, Q4, Q5, Q6. clear P1 POS.
  unfold field_nums in EN. destruct (orb _ _); [discriminate|]. apply Ok_inj in EN. subst ns.
  unfold field_pairs in EF.
  assert (LE : enb * (yn - m - (yn - yp)) / (yn - m) = lim).
  { apply Rmult_eq_reg_r with (yn - m); [|lra]. rewrite LIM. field. lra. }
  rewrite LE in EF.
  destruct (np_space epb 0 (fd_n1 f) _ _) as [f1|] eqn:E1; cbn [bind] in EF; [|discriminate].
  destruct (np_space 0 enb (fd_n2 f) _ _) as [f2|] eqn:E2; cbn [bind] in EF; [|discriminate].
  destruct (np_space epb epy (fd_n3 f) _ _) as [f3|] eqn:E3; cbn [bind] in EF; [|discriminate].
  destruct (np_space epy 0 (fd_n4 f) _ _) as [f4|] eqn:E4; cbn [bind] in EF; [|discriminate].
  destruct (np_space 0 lim (fd_n5 f) _ _) as [f5|] eqn:E5; cbn [bind] in EF; [|discriminate].
  fold last in EF. destruct (np_space lim last (fd_n6 f - 1) _ _) as [f6|] eqn:E6; cbn [bind] in EF; [|discriminate].
  apply Ok_inj in EF.
  pose proof (np_space_length _ _ _ _ _ _ E1) as [_ L1]. pose proof (np_space_length _ _ _ _ _ _ E2) as [_ L2].
  pose proof (np_space_length _ _ _ _ _ _ E3) as [_ L3]. pose proof (np_space_length _ _ _ _ _ _ E4) as [_ L4].
  pose proof (np_space_length _ _ _ _ _ _ E5) as [_ L5]. pose proof (np_space_length _ _ _ _ _ _ E6) as [_ L6].
  pose proof (np_space_values _ _ _ _ _ E1) as V1. pose proof (np_space_values _ _ _ _ _ E2) as V2.
  pose proof (np_space_values _ _ _ _ _ E3) as V3. pose proof (np_space_values _ _ _ _ _ E4) as V4.
  pose proof (np_space_values _ _ _ _ _ E5) as V5. pose proof (np_space_values _ _ _ _ _ E6) as V6.
  clear E1 E2 E3 E4 E5 E6.
  set (zp := yn - (1 - eny / enb) * (yn - m)) in EF.
  set (F6 := fun e => (if tr_rc t then - (eny - e) * (zp - yn) / (zp - yp) + eny else enb, e)) in EF.
  set (A1 := map (fun e : R => (e, epb)) f1) in EF. set (A2 := map (fun e : R => (e, epb)) f2) in EF.
  set (A3 := map (fun e : R => (enb, e)) f3) in EF. set (A4 := map (fun e : R => (enb, e)) f4) in EF. set (A5 := map (fun e : R => (enb, e)) f5) in EF.
  assert (K1 : length A1 = Z.to_nat (fd_n1 f)) by (unfold A1; now rewrite map_length).
  assert (K2 : length A2 = Z.to_nat (fd_n2 f)) by (unfold A2; now rewrite map_length).
  assert (K3 : length A3 = Z.to_nat (fd_n3 f)) by (unfold A3; now rewrite map_length).
  assert (K4 : length A4 = Z.to_nat (fd_n4 f)) by (unfold A4; now rewrite map_length).
  assert (K5 : length A5 = Z.to_nat (fd_n5 f)) by (unfold A5; now rewrite map_length).
  set (R1 := repeat 1%nat (Z.to_nat (fd_n1 f))). set (R2 := repeat 2%nat (Z.to_nat (fd_n2 f))). set (R3 := repeat 3%nat (Z.to_nat (fd_n3 f))).
  set (R4 := repeat 4%nat (Z.to_nat (fd_n4 f))). set (R5 := repeat 5%nat (Z.to_nat (fd_n5 f))).
  assert (G : forall (F : R -> R * R) pre l post rpre rpost n k i e, prs = pre ++ map F l ++ post -> 
     R1 ++ R2 ++ R3 ++ R4 ++ R5 ++ repeat 6%nat (Z.to_nat (fd_n6 f)) = rpre ++ repeat k n ++ rpost ->
     length pre = field_start f k -> length rpre = field_start f k -> (i < n)%nat -> nth_error l i = Some e ->
     nth_error (map (pair_profile theta yn yp) prs) (field_start f k + i) = Some (pair_profile theta yn yp (F e)) /\
     nth_error (R1 ++ R2 ++ R3 ++ R4 ++ R5 ++ repeat 6%nat (Z.to_nat (fd_n6 f))) (field_start f k + i) = Some k).
  { intros F pre l post rpre rpost n k i e EP ER H1 H2 I V. rewrite EP, ER. split.
    - rewrite nth_error_map. rewrite <- H1. rewrite (nth_map_block F pre l post i e V). reflexivity.
    - rewrite <- H2. now apply nth_repeat_block. }
  assert (ST : field_start f 1 = 0%nat /\ field_start f 2 = Z.to_nat (fd_n1 f) /\ field_start f 3 = (Z.to_nat (fd_n1 f) + Z.to_nat (fd_n2 f))%nat /\
     field_start f 4 = (Z.to_nat (fd_n1 f) + Z.to_nat (fd_n2 f) + Z.to_nat (fd_n3 f))%nat /\
     field_start f 5 = (Z.to_nat (fd_n1 f) + Z.to_nat (fd_n2 f) + Z.to_nat (fd_n3 f) + Z.to_nat (fd_n4 f))%nat /\
     field_start f 6 = (Z.to_nat (fd_n1 f) + Z.to_nat (fd_n2 f) + Z.to_nat (fd_n3 f) + Z.to_nat (fd_n4 f) + Z.to_nat (fd_n5 f))%nat).
  { unfold field_start, wanted, sumZ. cbn [Nat.sub firstn fold_right]. lia. }
  destruct ST as (T1 & T2 & T3 & T4 & T5 & T6).
  assert (LR : length R1 = Z.to_nat (fd_n1 f) /\ length R2 = Z.to_nat (fd_n2 f) /\ length R3 = Z.to_nat (fd_n3 f) /\ length R4 = Z.to_nat (fd_n4 f) /\ length R5 = Z.to_nat (fd_n5 f))
    by (unfold R1, R2, R3, R4, R5; rewrite !repeat_length; repeat split).
  destruct LR as (U1 & U2 & U3 & U4 & U5).
  pose proof (fun x => proj1 (pair_at theta yn yp x YY)) as HN. pose proof (fun x => proj2 (pair_at theta yn yp x YY)) as HP.
  unfold in_field. change (field_size f 1) with (Z.to_nat (fd_n1 f)). change (field_size f 2) with (Z.to_nat (fd_n2 f)). change (field_size f 3) with (Z.to_nat (fd_n3 f)).
  change (field_size f 4) with (Z.to_nat (fd_n4 f)). change (field_size f 5) with (Z.to_nat (fd_n5 f)). change (field_size f 6) with (Z.to_nat (fd_n6 f)).
  repeat match goal with |- _ /\ _ => split end; intros i I.
  - destruct (V1 i I) as (e & N & SP). exists (pair_profile theta yn yp (e, epb)), e.
    destruct (G (fun e => (e, epb)) [] f1 (A2 ++ A3 ++ A4 ++ A5 ++ map F6 (f6 ++ [last])) [] (R2 ++ R3 ++ R4 ++ R5 ++ repeat 6%nat (Z.to_nat (fd_n6 f))) (Z.to_nat (fd_n1 f)) 1%nat i e) as [G1 G2];
      [now rewrite <- EF|reflexivity|now rewrite T1|now rewrite T1|exact I|exact N|].
    split; [exact G1|]. split; [exact G2|]. split; [exact SP|]. split; [exact (HN (e, epb))|exact (HP (e, epb))].
  - destruct (V2 i I) as (e & N & SP). exists (pair_profile theta yn yp (e, epb)), e.
    destruct (G (fun e => (e, epb)) A1 f2 (A3 ++ A4 ++ A5 ++ map F6 (f6 ++ [last])) R1 (R3 ++ R4 ++ R5 ++ repeat 6%nat (Z.to_nat (fd_n6 f))) (Z.to_nat (fd_n2 f)) 2%nat i e) as [G1 G2];
      [now rewrite <- EF|reflexivity|lia|lia|exact I|exact N|].
    split; [exact G1|]. split; [exact G2|]. split; [exact SP|]. split; [exact (HN (e, epb))|exact (HP (e, epb))].
  - destruct (V3 i I) as (e & N & SP). exists (pair_profile theta yn yp (enb, e)), e.
    destruct (G (fun e => (enb, e)) (A1 ++ A2) f3 (A4 ++ A5 ++ map F6 (f6 ++ [last])) (R1 ++ R2) (R4 ++ R5 ++ repeat 6%nat (Z.to_nat (fd_n6 f))) (Z.to_nat (fd_n3 f)) 3%nat i e) as [G1 G2];
      [rewrite <- EF, <- app_assoc; reflexivity|rewrite <- app_assoc; reflexivity|rewrite app_length; lia|rewrite app_length; lia|exact I|exact N|].
    split; [exact G1|]. split; [exact G2|]. split; [exact SP|]. split; [exact (HN (enb, e))|exact (HP (enb, e))].
  - destruct (V4 i I) as (e & N & SP). exists (pair_profile theta yn yp (enb, e)), e.
    destruct (G (fun e => (enb, e)) (A1 ++ A2 ++ A3) f4 (A5 ++ map F6 (f6 ++ [last])) (R1 ++ R2 ++ R3) (R5 ++ repeat 6%nat (Z.to_nat (fd_n6 f))) (Z.to_nat (fd_n4 f)) 4%nat i e) as [G1 G2];
      [rewrite <- EF, <- !app_assoc; reflexivity|rewrite <- !app_assoc; reflexivity|rewrite !app_length; lia|rewrite !app_length; lia|exact I|exact N|].
    split; [exact G1|]. split; [exact G2|]. split; [exact SP|]. split; [exact (HN (enb, e))|exact (HP (enb, e))].
  - destruct (V5 i I) as (e & N & SP). exists (pair_profile theta yn yp (enb, e)), e.
    destruct (G (fun e => (enb, e)) (A1 ++ A2 ++ A3 ++ A4) f5 (map F6 (f6 ++ [last])) (R1 ++ R2 ++ R3 ++ R4) (repeat 6%nat (Z.to_nat (fd_n6 f))) (Z.to_nat (fd_n5 f)) 5%nat i e) as [G1 G2];
      [rewrite <- EF, <- !app_assoc; reflexivity|rewrite <- !app_assoc; reflexivity|rewrite !app_length; lia|rewrite !app_length; lia|exact I|exact N|].
    split; [exact G1|]. split; [exact G2|]. split; [exact SP|]. split; [exact (HN (enb, e))|exact (HP (enb, e))].
  - assert (V : exists e, nth_error (f6 ++ [last]) i = Some e /\ ((S i < Z.to_nat (fd_n6 f))%nat -> spaced (fd_t6 f) lim last (Z.to_nat (fd_n6 f) - 1) i e) /\ (S i = Z.to_nat (fd_n6 f) -> e = last)).
    { destruct (Nat.lt_ge_cases (S i) (Z.to_nat (fd_n6 f))) as [J|J].
      - destruct (V6 i ltac:(lia)) as (e & N & SP). exists e. split; [rewrite nth_error_app1 by lia; exact N|]. split; [|lia]. intros _.
        replace (Z.to_nat (fd_n6 f) - 1)%nat with (Z.to_nat (fd_n6 f - 1)) by lia. exact SP.
      - exists last. split; [rewrite nth_error_app2 by lia; replace (i - length f6)%nat with 0%nat by lia; reflexivity|]. split; [lia|reflexivity]. }
    destruct V as (e & N & SP & SL). exists (pair_profile theta yn yp (F6 e)), e.
    destruct (G F6 (A1 ++ A2 ++ A3 ++ A4 ++ A5) (f6 ++ [last]) [] (R1 ++ R2 ++ R3 ++ R4 ++ R5) [] (Z.to_nat (fd_n6 f)) 6%nat i e) as [G1 G2];
      [rewrite <- EF, <- !app_assoc, app_nil_r; reflexivity|rewrite <- !app_assoc, app_nil_r; reflexivity|rewrite !app_length; lia|rewrite !app_length; lia|exact I|exact N|].
    split; [exact G1|]. split; [exact G2|]. split; [exact SP|]. split; [exact SL|]. split; [exact (HP (F6 e))|]. split.
    + intros RC. generalize (HN (F6 e)). unfold F6. rewrite RC. cbn [fst]. tauto.
    + intros RC NB yc YC NE y z TY. rewrite pair_strain by exact YY. rewrite TY. unfold F6. rewrite RC. cbn [fst snd].
      assert (Z : zp = yc).
      { apply Rmult_eq_reg_l with enb; [|exact NB]. apply Rplus_eq_reg_r with (- (enb * m)). replace (enb * yc + - (enb * m)) with (enb * (yc - m)) by ring. rewrite YC. unfold zp. field. exact NB. }
      rewrite Z. field. split; [lra|]. intros X. apply NE. lra.
Qed.
Print Assumptions C29_profiles.
(** A negative number of profiles is refused, and so is a last field without any. *)
Theorem C29_negative_refused : forall t g theta f yn0 yp0 sy yn yp sb,
  let gr := rotate_geo (- theta) g in
  balanced (tr_rc t) true (items_of t gr) = Ok (yn0, yp0, sy) -> balanced (tr_rc t) false (items_of t gr) = Ok (yn, yp, sb) ->
  (exists n, In n (wanted f) /\ n < 0)%Z \/ fd_n6 f = 0%Z -> ultimate_profiles t g theta f = Err ValueError.
Proof.
  intros t g theta f yn0 yp0 sy yn yp sb gr BY BB H.
  unfold ultimate_profiles. fold gr. rewrite BY. cbn [bind]. rewrite BB. cbn [bind].
  destruct (field_nums f) as [ns|x] eqn:EN; cbn [bind].
  - destruct (field_pairs _ _ _ _ _ _ _ _ _) as [prs|x] eqn:EF; cbn [bind].
    + apply field_pairs_length in EF. destruct EF as (P & Q & _). destruct H as [(n & I & N)|H]; [specialize (P n I); lia|lia].
    + f_equal. unfold field_pairs in EF.
      assert (NP : forall a b n ty ep y, np_space a b n ty ep = Err y -> y = ValueError).
      { intros a b n ty ep y. unfold np_space. destruct (n <? 0)%Z; [congruence|].
        assert (GE : forall a b k, geomspace a b k ep = Err y -> y = ValueError) by (intros a' b' k; unfold geomspace; destruct (orb _ _); [congruence|discriminate]).
        destruct ty; try congruence. destruct (andb _ _); [apply GE|]. destruct (n =? 0)%Z; [congruence|]. destruct (Reqb b 0);
          (destruct (geomspace _ _ _ ep) as [r|y'] eqn:Q; cbn [bind]; [discriminate|]; intros E; inversion E; subst y'; exact (GE _ _ _ Q)). }
      repeat match goal with E : (do _ <- np_space ?a ?b ?n ?ty ?ep; _) = _ |- _ =>
        let Q := fresh "Q" in destruct (np_space a b n ty ep) as [?|?] eqn:Q; cbn [bind] in E; [clear Q|apply NP in Q; congruence] end.
      discriminate.
  - f_equal. unfold field_nums in EN. destruct (orb _ _); [congruence|discriminate].
Qed.
Print Assumptions C29_negative_refused.
(** Any other numbers (zero included, but in the last field) are accepted with linear and quadratic spacing,
    and an unknown spacing is refused. *)
Definition spacings (f : fields) : list spacing := [fd_t1 f; fd_t2 f; fd_t3 f; fd_t4 f; fd_t5 f; fd_t6 f].
Theorem C29_accepted : forall t g theta f yn0 yp0 sy yn yp sb,
  let gr := rotate_geo (- theta) g in
  balanced (tr_rc t) true (items_of t gr) = Ok (yn0, yp0, sy) -> balanced (tr_rc t) false (items_of t gr) = Ok (yn, yp, sb) ->
  (forall n, In n (wanted f) -> 0 <= n)%Z -> (1 <= fd_n6 f)%Z ->
  ((forall ty, In ty (spacings f) -> ty = Linear \/ ty = Quadratic) -> exists ps nums, ultimate_profiles t g theta f = Ok (ps, nums)) /\
  (In OtherSpacing (spacings f) -> ultimate_profiles t g theta f = Err ValueError).
Proof.
  intros t g theta f yn0 yp0 sy yn yp sb gr BY BB W W6.
  assert (N : forall n, In n (wanted f) -> (n <? 0)%Z = false) by (intros n H; apply Z.ltb_ge; auto).
  assert (NP : forall a b n ty ep y, np_space a b n ty ep = Err y -> y = ValueError).
  { intros a b n ty ep y. unfold np_space. destruct (n <? 0)%Z; [congruence|].
    assert (GE : forall a b k, geomspace a b k ep = Err y -> y = ValueError) by (intros a' b' k; unfold geomspace; destruct (orb _ _); [congruence|discriminate]).
    destruct ty; try congruence. destruct (andb _ _); [apply GE|]. destruct (n =? 0)%Z; [congruence|]. destruct (Reqb b 0);
      (destruct (geomspace _ _ _ ep) as [r|y'] eqn:Q; cbn [bind]; [discriminate|]; intros E; inversion E; subst y'; exact (GE _ _ _ Q)). }
  assert (NS : forall a b n ty ep, (n <? 0)%Z = false -> ty = Linear \/ ty = Quadratic -> exists l, np_space a b n ty ep = Ok l).
  { intros a b n ty ep E [-> | ->]; unfold np_space; rewrite E; eauto. }
  assert (NO : forall a b n ep, np_space a b n OtherSpacing ep = Err ValueError).
  { intros a b n ep. unfold np_space. now destruct (n <? 0)%Z. }
  assert (B6 : (fd_n6 f - 1 <? 0)%Z = false) by (apply Z.ltb_ge; lia).
  unfold wanted in N. cbn [In] in N.
  unfold ultimate_profiles. fold gr. rewrite BY. cbn [bind]. rewrite BB. cbn [bind].
  unfold field_nums. rewrite (N (fd_n1 f)), (N (fd_n2 f)), (N (fd_n3 f)), (N (fd_n4 f)), (N (fd_n5 f)), (N (fd_n6 f)) by tauto. cbn [orb bind].
  unfold spacings. cbn [In]. split.
  - intros T. unfold field_pairs.
    edestruct (NS (p_e0 sb + p_ky sb * yp) 0 (fd_n1 f) (fd_t1 f) false) as (l1 & ->); [apply N; tauto|apply T; tauto|]. cbn [bind].
    edestruct (NS 0 (p_e0 sb + p_ky sb * yn) (fd_n2 f) (fd_t2 f) false) as (l2 & ->); [apply N; tauto|apply T; tauto|]. cbn [bind].
    edestruct (NS (p_e0 sb + p_ky sb * yp) (p_e0 sy + p_ky sy * yp0) (fd_n3 f) (fd_t3 f) false) as (l3 & ->); [apply N; tauto|apply T; tauto|]. cbn [bind].
    edestruct (NS (p_e0 sy + p_ky sy * yp0) 0 (fd_n4 f) (fd_t4 f) false) as (l4 & ->); [apply N; tauto|apply T; tauto|]. cbn [bind].
    match goal with |- context [np_space 0 ?b (fd_n5 f) _ _] => edestruct (NS 0 b (fd_n5 f) (fd_t5 f) false) as (l5 & ->); [apply N; tauto|apply T; tauto|] end. cbn [bind].
    match goal with |- context [np_space ?a ?b (fd_n6 f - 1) _ _] => edestruct (NS a b (fd_n6 f - 1)%Z (fd_t6 f) false) as (l6 & ->); [exact B6|apply T; tauto|] end. cbn [bind].
    eauto.
  - intros O. unfold field_pairs.
    assert (E : forall prs, field_pairs f (tr_rc t) (p_e0 sb + p_ky sb * yp) (p_e0 sb + p_ky sb * yn) (p_e0 sy + p_ky sy * yp0) (p_e0 sy + p_ky sy * yn0) yn yp (yn - min_y gr) = prs -> prs = Err ValueError).
    { intros prs <-. unfold field_pairs.
      destruct O as [O|[O|[O|[O|[O|[O|[]]]]]]]; rewrite O;
      repeat first [rewrite NO; reflexivity | match goal with |- (do _ <- np_space ?a ?b ?n ?ty ?ep; _) = _ =>
        let Q := fresh "Q" in destruct (np_space a b n ty ep) as [?|?] eqn:Q; cbn [bind];  [|apply NP in Q; congruence] end]; rewrite NO in *; discriminate. }
    unfold field_pairs in E. rewrite (E _ eq_refl). reflexivity.
Qed.
Print Assumptions C29_accepted.
(** Hypotheses are met: the default sampling of a unit square. *)
Definition default_fields : fields := {| fd_n1 := 1; fd_n2 := 2; fd_n3 := 15; fd_n4 := 10; fd_n5 := 3; fd_n6 := 4;
  fd_t1 := Linear; fd_t2 := Linear; fd_t3 := Geometric; fd_t4 := Linear; fd_t5 := Linear; fd_t6 := Linear |}.
Lemma upright_square : rotate_geo (- 0) square = square.
Proof.
  unfold rotate_geo, square, rotate_surface, ex_surface, rot. cbn [cg_surf cg_bars map sf_ext sf_ints sf_law fst snd].
  rewrite Ropp_0, cos_0, sin_0. repeat match goal with |- context [(?a * ?b - ?c * ?d, ?e)] => replace (a * b - c * d) with b by ring end.
  repeat match goal with |- context [(?x, ?a * ?b + ?c * ?d)] => replace (a * b + c * d) with d by ring end. reflexivity.
Qed.
Lemma square_balanced u y : 0 < u < 10 ^ 9 -> balanced false y (items_of (sym_traits u) square) = Ok (1, 0, (u, - (2 * u), 0)).
Proof.
  intros U. unfold balanced, items_of, square, sym_traits. cbn [cg_surf cg_bars map app list_prod tr_ult tr_conc].
  assert (LO : ring_min (sf_ext ex_surface) = 0).
  { apply Rle_antisym; [apply (ring_min_spec (sf_ext ex_surface) (0, 0)); now left|].
    destruct (ring_min_in (sf_ext ex_surface)) as (v & Hv & <-); [discriminate|]. cbn in Hv. destruct Hv as [<-|[<-|[<-|[<-|[<-|[]]]]]]; cbn; lra. }
  assert (HI : ring_max (sf_ext ex_surface) = 1).
  { apply Rle_antisym; [|apply (ring_max_spec (sf_ext ex_surface) (1, 1)); cbn; tauto].
    destruct (ring_max_in (sf_ext ex_surface)) as (v & Hv & <-); [discriminate|]. cbn in Hv. destruct Hv as [<-|[<-|[<-|[<-|[<-|[]]]]]]; cbn; lra. }
  rewrite LO, HI. cbn [fold_left]. unfold pair_step. cbn [im_lo im_hi im_ult im_conc fst snd andb orb negb].
  destruct (Rleb_spec 1 0); [lra|].
  replace (- (u - - u) / (0 - 1)) with (2 * u) by field. destruct (Rltb_spec (2 * u) (10 ^ 10)); [|cbn [pow] in *; lra].
  apply f_equal. apply f_equal2; [reflexivity|]. apply f_equal2; [|reflexivity]. apply f_equal2; ring.
Qed.
Example C29_example : let u := 1/1000 in let t := sym_traits u in let gr := rotate_geo (- 0) square in
  exists ps nums sb, ultimate_profiles t square 0 default_fields = Ok (ps, nums) /\ ps <> [] /\
  (forall y, balanced (tr_rc t) y (items_of t gr) = Ok (1, 0, sb)) /\ strain_at sb 1 < 0 /\ 0 <= strain_at sb 0 <= strain_at sb 0 /\ lowest 0 square 0 /\
  spaceable Geometric (strain_at sb 0) (strain_at sb 0) /\
  fst (tr_ult t 0 false) <= strain_at sb 1 /\ strain_at sb 0 <= snd (tr_ult t 0 false).
Proof.
  intros u t gr. assert (BB : forall y, balanced (tr_rc t) y (items_of t gr) = Ok (1, 0, (u, - (2 * u), 0))).
  { intros y. unfold gr, t. rewrite upright_square. apply square_balanced. unfold u. cbn [pow]. lra. }
  assert (S0 : p_e0 (u, - (2 * u), 0) + p_ky (u, - (2 * u), 0) * 0 = u) by (unfold p_e0, p_ky; cbn; ring).
  destruct (ultimate_profiles t square 0 default_fields) as [[ps nums]|e] eqn:E.
  - exists ps, nums, (u, - (2 * u), 0). split; [reflexivity|]. split.
    { pose proof (C29_count _ _ _ _ _ _ E) as (L & _). intros ->. cbn in L. discriminate. }
    split; [exact BB|]. unfold strain_at. cbn [fst snd]. split; [unfold u; lra|]. split; [unfold u; lra|]. split.
    { unfold lowest, turned, square. cbn [cg_surf]. rewrite cos_0, sin_0. split.
      - intros s v [<- |[]] Hv. cbn in Hv. destruct Hv as [<-|[<-|[<-|[<-|[<-|[]]]]]]; cbn [fst snd]; lra.
      - exists ex_surface, (0, 0). split; [now left|]. split; [now left|]. cbn [fst snd]. ring. }
    split; [intros _; left; unfold u; nra|]. cbn. unfold u. lra.
  - exfalso. unfold ultimate_profiles in E. fold gr in E. rewrite !BB in E. cbn [bind] in E. unfold field_nums in E. cbn [default_fields fd_n1 fd_n2 fd_n3 fd_n4 fd_n5 fd_n6 Z.ltb Z.compare orb bind] in E.
    rewrite S0 in E. unfold field_pairs, np_space in E. cbn [default_fields fd_n1 fd_n2 fd_n3 fd_n4 fd_n5 fd_n6 fd_t1 fd_t2 fd_t3 fd_t4 fd_t5 fd_t6 Z.sub Z.add Z.opp Z.pos_sub Pos.pred_double Z.ltb Z.compare orb bind] in E.
    destruct (Reqb_spec u 0) as [X|_]; [unfold u in X; lra|]. cbn [negb andb] in E. unfold geomspace in E. destruct (Reqb_spec u 0) as [X|_]; [unfold u in X; lra|]. cbn [orb bind] in E. discriminate.
Qed.
(** "The first profile is uniform tension": false with one profile and another
    spacing, whatever the section. *)
Theorem C29_first_refuted : forall t g theta f ps nums yn yp sb,
  fd_n1 f = 1%Z -> fd_t1 f <> Linear -> ultimate_profiles t g theta f = Ok (ps, nums) ->
  balanced (tr_rc t) false (items_of t (rotate_geo (- theta) g)) = Ok (yn, yp, sb) -> yp < yn -> strain_at sb yp <> 0 ->
  exists p rest, ps = p :: rest /\ ~ uniform p (strain_at sb yp).
Proof.
  intros t g theta f ps nums yn yp sb N1 T1 E BB YY NZ. unfold ultimate_profiles in E.
  destruct (balanced _ true _) as [[[yn0 yp0] sy]|]; cbn [bind] in E; [|discriminate]. rewrite BB in E. cbn [bind] in E.
  destruct (field_nums f) as [ns|]; cbn [bind] in E; [|discriminate].
  unfold field_pairs in E. rewrite N1 in E.
  destruct (np_space _ 0 1 _ _) as [f1|] eqn:E1; cbn [bind] in E; [|discriminate]. apply np_space_single in E1; [|exact T1]. subst f1.
  destruct (np_space 0 _ (fd_n2 f) _ _) as [f2|]; cbn [bind] in E; [|discriminate].
  destruct (np_space _ _ (fd_n3 f) _ _) as [f3|]; cbn [bind] in E; [|discriminate].
  destruct (np_space _ 0 (fd_n4 f) _ _) as [f4|]; cbn [bind] in E; [|discriminate].
  destruct (np_space 0 _ (fd_n5 f) _ _) as [f5|]; cbn [bind] in E; [|discriminate].
  destruct (np_space _ _ (fd_n6 f - 1) _ _) as [f6|]; cbn [bind] in E; [|discriminate].
  injection E as <- _. cbn [map app]. eexists. eexists. split; [reflexivity|].
  intros U. specialize (U (- sin theta * yn) (cos theta * yn)). rewrite pair_strain in U by exact YY. cbn [fst snd] in U.
  assert (T : turned theta (- sin theta * yn) (cos theta * yn) = yn).
  { unfold turned. pose proof (sin2_cos2 theta) as SC. unfold Rsqr in SC. replace yn with ((sin theta * sin theta + cos theta * cos theta) * yn) at 3 by (rewrite SC; ring). ring. }
  rewrite T in U. apply NZ. unfold Rdiv in U. rewrite (Rminus_diag_eq yn yn eq_refl) in U. rewrite Rmult_0_l, Rmult_0_l, Rmult_0_r, Rplus_0_l in U. symmetry. exact U.
Qed.
Print Assumptions C29_first_refuted.
(** "Within the ultimate strains everywhere": false if the parts have different
    limits; here the upper bar is asked to stretch by 0.05 instead of 0.02. *)
Definition uneven : traits := {| tr_ult := fun k _ => if Nat.eqb k 0 then (- (5/100), 5/100) else (- (1/100), 2/100); tr_conc := fun _ => false; tr_rc := false |}.
Definition uneven_bars : compound := {| cg_surf := [];
  cg_bars := [ {| br_y := 0; br_z := -1; br_area := 1; br_law := 0 |}; {| br_y := 0; br_z := 1; br_area := 1; br_law := 1 |} ] |}.
Theorem C29_within_refuted : exists t g b p ps nums, (forall k y, fst (tr_ult t k y) <= 0 <= snd (tr_ult t k y)) /\
  ultimate_profiles t g 0 default_fields = Ok (p :: ps, nums) /\ In b (cg_bars g) /\ strain_in p (br_y b) (br_z b) > snd (tr_ult t (br_law b) false).
Proof.
  assert (UP : rotate_geo (- 0) uneven_bars = uneven_bars).
  { unfold rotate_geo, uneven_bars, rotate_bar, rot. cbn [cg_surf cg_bars map br_y br_z br_area br_law fst snd]. rewrite Ropp_0, cos_0, sin_0.
    repeat f_equal; ring. }
  assert (BB : forall y, balanced false y (items_of uneven uneven_bars) = Ok (1, -1, (2/100, - (3/100), 0))).
  { intros y. unfold balanced, items_of, uneven_bars, uneven. cbn [cg_surf cg_bars map app list_prod br_z br_law tr_ult tr_conc Nat.eqb].
    cbn [fold_left]. unfold pair_step. cbn [im_lo im_hi im_ult im_conc fst snd andb orb negb].
    destruct (Rleb_spec (-1) (-1)); [|lra]. destruct (Rleb_spec 1 (-1)); [lra|]. destruct (Rleb_spec (-1) 1); [|lra]. destruct (Rleb_spec 1 1); [|lra].
    destruct (Rltb_spec (- (5/100 - - (1/100)) / (-1 - 1)) (10 ^ 10)); [|cbn [pow] in *; lra].
    apply f_equal. apply f_equal2; [reflexivity|]. apply f_equal2; [|reflexivity]. apply f_equal2; lra. }
  destruct (ultimate_profiles uneven uneven_bars 0 default_fields) as [[ps nums]|e] eqn:E.
  - destruct (C29_ends uneven uneven_bars 0 default_fields ps nums 1 (-1) (2/100, - (3/100), 0) 1 (-1) (2/100, - (3/100), 0) E) as (_ & F);
      [rewrite UP; apply BB|rewrite UP; apply BB|lra|].
    destruct F as (p & rest & -> & U); [left; split; [reflexivity|cbn; lia]|].
    exists uneven, uneven_bars, {| br_y := 0; br_z := 1; br_area := 1; br_law := 1 |}, p, rest, nums. split; [|split; [exact E|split; [cbn; tauto|]]].
    + intros k y. unfold uneven. cbn [tr_ult]. destruct (Nat.eqb k 0); cbn [fst snd]; lra.
    + rewrite U. unfold strain_at. cbn. lra.
  - exfalso. unfold ultimate_profiles in E. rewrite UP in E. change (tr_rc uneven) with false in E. rewrite !BB in E. cbn [bind] in E. unfold field_nums in E. cbn [default_fields fd_n1 fd_n2 fd_n3 fd_n4 fd_n5 fd_n6 Z.ltb Z.compare orb bind] in E.
    assert (S0 : p_e0 (2/100, - (3/100), 0) + p_ky (2/100, - (3/100), 0) * -1 = 5/100) by (unfold p_e0, p_ky; cbn; lra).
    rewrite S0 in E. unfold field_pairs, np_space in E. cbn [default_fields fd_n1 fd_n2 fd_n3 fd_n4 fd_n5 fd_n6 fd_t1 fd_t2 fd_t3 fd_t4 fd_t5 fd_t6 Z.sub Z.add Z.opp Z.pos_sub Pos.pred_double Z.ltb Z.compare orb bind] in E.
    unfold geomspace in E. destruct (Reqb_spec (5/100) 0) as [X|_]; [lra|]. cbn [negb andb orb bind] in E. discriminate.
Qed.
Print Assumptions C29_within_refuted.
