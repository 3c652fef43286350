From Coquelicot Require Import Coquelicot.
From Verif Require Import Base M_Marin S_Marin L_Marin M_Laws S_Laws M_Laws2 S_Laws2 M_Fiber S_Fiber L_Fiber M_MarinInt S_MarinInt L_MarinInt.

(** * Iterated integrals against boundary integrals *)
Lemma slice_int (c0 c1 c2 Y : R) : RInt (fun y => c0 + y * c1 + y ^ 2 * c2) 0 Y = Y * c0 + Y ^ 2 / 2 * c1 + Y ^ 3 / 3 * c2.
Proof.
  apply RIntU.
  pose proof (is_RInt_derive (V:=R_CompleteNormedModule) (fun y => y * c0 + y ^ 2 / 2 * c1 + y ^ 3 / 3 * c2) (fun y => c0 + y * c1 + y ^ 2 * c2) 0 Y) as D.
  replace (Y * c0 + Y ^ 2 / 2 * c1 + Y ^ 3 / 3 * c2) with
    (minus (Y * c0 + Y ^ 2 / 2 * c1 + Y ^ 3 / 3 * c2) (0 * c0 + 0 ^ 2 / 2 * c1 + 0 ^ 3 / 3 * c2))
    by (unfold minus, plus, opp; cbn; field).
  apply D.
  - intros x _. auto_derive; [exact I|]. toR. field.
  - intros x _. apply (ex_derive_continuous (V:=R_NormedModule)). auto_derive. exact I.
Qed.

Lemma region_poly phi g0 g1 g2 ring : (forall y z, phi y z = g0 z + y * g1 z + y ^ 2 * g2 z) ->
  eint g0 -> eint g1 -> eint g2 ->
  region_integral phi ring = gfield 0 g0 ring + gfield 1 g1 ring + gfield 2 g2 ring.
Proof.
  intros H E0 E1 E2. unfold region_integral, gfield. rewrite <- !lsum_map_plus. apply lsum_map_ext. intros [p q] _.
  cbn [fst snd]. apply RIntU.
  apply (is_RInt_ext (fun t => plus (plus (gfun 0 g0 p q t) (gfun 1 g1 p q t)) (gfun 2 g2 p q t))).
  { intros t _. unfold gfun.
    rewrite (RInt_ext _ (fun y => g0 (snd (seg p q t)) + y * g1 (snd (seg p q t)) + y ^ 2 * g2 (snd (seg p q t)))) by (intros; apply H).
    rewrite slice_int. unfold plus; cbn. field. }
  apply (is_RInt_plus (V:=R_NormedModule)); [apply (is_RInt_plus (V:=R_NormedModule))|]; now apply gedge_correct.
Qed.

(** * Orientation *)
Lemma shoe_shoelace r : shoe r = shoelace r.
Proof.
  unfold shoelace. induction r as [|p r IH]; [reflexivity|]. destruct r as [|q r]; [reflexivity|].
  change (shoe (p :: q :: r)) with ((fst p * snd q - fst q * snd p) / 2 + shoe (q :: r)).
  change (edges (p :: q :: r)) with ((p, q) :: edges (q :: r)). rewrite map_cons, lsum_cons, IH. reflexivity.
Qed.
Lemma orient_ext_ccw r : orient_ext r = ccw_ring r.
Proof.
  unfold orient_ext, ccw_ring. rewrite <- shoe_shoelace.
  destruct (Rltb_spec (shoe r) 0); destruct (Rlt_dec (shoe r) 0); try reflexivity; contradiction.
Qed.
Lemma orient_int_cw r : orient_int r = cw_ring r.
Proof.
  unfold orient_int, cw_ring. rewrite <- shoe_shoelace.
  destruct (Rltb_spec 0 (shoe r)); destruct (Rlt_dec 0 (shoe r)); try reflexivity; contradiction.
Qed.
Lemma closed_rev r : closed r -> closed (rev r).
Proof.
  destruct r as [|p r]; [auto|]. unfold closed. intros C. cbn [rev].
  destruct (rev r) as [|x l] eqn:E.
  - reflexivity.
  - cbn [app]. change (x :: l ++ [p]) with ((x :: l) ++ [p]). rewrite last_last.
    assert (r = rev l ++ [x]) by (rewrite <- (rev_involutive r), E; reflexivity). subst r.
    change (p :: rev l ++ [x]) with ((p :: rev l) ++ [x]) in C. rewrite last_last in C. auto.
Qed.
Lemma oriented_closed s : closed (sf_ext s) -> (forall r, In r (sf_ints s) -> closed r) ->
  forall r, In r (oriented s) -> closed r.
Proof.
  intros C1 C2 r [<-|I].
  - unfold orient_ext. destruct (Rltb _ _); [now apply closed_rev|assumption].
  - apply in_map_iff in I. destruct I as (r' & <- & I). unfold orient_int. destruct (Rltb _ _); [apply closed_rev|]; auto.
Qed.
Lemma surface_integral_oriented phi s : surface_integral phi s = lsum (map (region_integral phi) (oriented s)).
Proof.
  unfold surface_integral, oriented. cbn [map]. rewrite lsum_cons, orient_ext_ccw, map_map. f_equal.
  apply lsum_map_ext. intros r _. now rewrite orient_int_cw.
Qed.

(** * One surface *)
Definition jm (m off : nat) (f : R -> R) (e0 e1 : R) (rings : list (list (R * R))) : R :=
  lsum (map (gfield m (fun z => f (e0 + e1 * z) * z ^ off)) rings).

Lemma surface_entries_ok l what e0 e1 s f : what <> IOther ->
  field_of (ask what l (e0, e1)) f e0 e1 -> closed (sf_ext s) -> (forall r, In r (sf_ints s) -> closed r) ->
  (forall off, eint (fun z => f (e0 + e1 * z) * z ^ off)) /\
  exists es, surface_entries l what e0 e1 s = Ok (e0, es) /\
    forall m off, lsum (map (fun e => coeff_sum e m off) es) = jm m off f e0 e1 (oriented s).
Proof.
  intros W [F0 F] C1 C2. pose proof (oriented_closed s C1 C2) as C.
  assert (SE : surface_entries l what e0 e1 s =
     let '(e0', (rs, cs)) := ask what l (e0, e1) in
     match rs with
     | None => match cs with [] => Err IndexError | c :: _ => Ok (e0', map (fun ring => (c, ring)) (oriented s)) end
     | Some rs => do es <- range_entries e0' e1 (oriented s) rs cs; Ok (e0', es)
     end).
  { unfold surface_entries, ask. destruct what; try congruence; reflexivity. }
  rewrite SE. destruct (ask what l (e0, e1)) as [e0' [rs cs]]. cbn [fst snd] in *. subst e0'.
  destruct rs as [rs|].
  - destruct F as (P & T & bad & D).
    assert (FIN : forall off z, ~ In z (map (fun x => (x - e0) / e1) (bad ++ map fst rs ++ map snd rs)) ->
       pieces e0 e1 off (combine rs cs) z = f (e0 + e1 * z) * z ^ off).
    { intros off z N. apply (pieces_describe bad f e0 e1 rs cs z off P D T). intros I. apply N.
      apply in_map_iff. exists (e0 + e1 * z). split; [field; lra|exact I]. }
    split.
    + intros off. apply (eint_finite (pieces e0 e1 off (combine rs cs)) _ _ (FIN off)). now apply eint_pieces.
    + destruct D as [DL _]. cbn [fst snd] in DL.
      destruct (range_entries_ok e0 e1 (oriented s) rs cs P DL (proj1 T) C) as (es & E & V).
      rewrite E. cbn [bind]. exists es. split; [reflexivity|]. intros m off. rewrite V. unfold jm.
      apply lsum_map_ext. intros ring _. symmetry.
      apply (gfield_finite m _ _ _ ring (FIN off)). now apply eint_pieces.
  - destruct F as (c & Ec & D). cbn [snd] in Ec. subst cs.
    assert (EQ : forall off z, poly c z * z ^ off = f (e0 + e1 * z) * z ^ off).
    { intros off z. rewrite (D z I). reflexivity. }
    split.
    + intros off. apply (eint_finite (fun z => poly c z * z ^ off) _ []); [intros; apply EQ|apply eint_poly].
    + eexists. split; [reflexivity|]. intros m off. rewrite map_map. unfold jm. apply lsum_map_ext. intros ring I.
      rewrite coeff_sum_field by now apply C. apply gfield_ext. intros; apply EQ.
Qed.

(** * All surfaces *)
Definition jsum (m off : nat) (fs : nat -> R -> R) (e0 e1 : R) (ss : list surface) : R :=
  lsum (map (fun s => jm m off (fs (sf_law s)) e0 e1 (oriented s)) ss).
Definition good_surfaces (laws : nat -> law) (what : integrand) (fs : nat -> R -> R) (e0 e1 : R) (ss : list surface) : Prop :=
  forall s, In s ss -> field_of (ask what (laws (sf_law s)) (e0, e1)) (fs (sf_law s)) e0 e1 /\
    closed (sf_ext s) /\ (forall r, In r (sf_ints s) -> closed r).
Lemma surfaces_entries_ok laws what fs e0 e1 ss : what <> IOther -> good_surfaces laws what fs e0 e1 ss ->
  exists es, surfaces_entries laws what e0 e1 ss = Ok (e0, es) /\
    forall m off, lsum (map (fun e => coeff_sum e m off) es) = jsum m off fs e0 e1 ss.
Proof.
  intros W. induction ss as [|s ss IH]; intros G.
  - exists []. split; [reflexivity|]. intros; reflexivity.
  - destruct (G s (or_introl eq_refl)) as (F & C1 & C2).
    destruct (surface_entries_ok (laws (sf_law s)) what e0 e1 s _ W F C1 C2) as (_ & es & E & V).
    destruct IH as (es' & E' & V'). { intros s' I. apply G. now right. }
    cbn [surfaces_entries]. rewrite E. cbn [bind fst snd]. rewrite E'. cbn [bind fst snd].
    eexists. split; [reflexivity|]. intros m off. rewrite map_app, lsum_app, V, V'.
    unfold jsum. cbn [map]. now rewrite lsum_cons.
Qed.

(** Integral of a quadratic in (y, z) times the field. *)
Definition quadratic (a b c d e f y z : R) : R := a + b * y + c * z + d * y ^ 2 + e * y * z + f * z ^ 2.
Lemma surfaces_integral laws what fs e0 e1 ss ca cb cc cd ce cf (phi : surface -> R -> R -> R) :
  what <> IOther -> good_surfaces laws what fs e0 e1 ss ->
  (forall s y z, phi s y z = fs (sf_law s) (e0 + e1 * z) * quadratic ca cb cc cd ce cf y z) ->
  lsum (map (fun s => surface_integral (phi s) s) ss) =
  ca * jsum 0 0 fs e0 e1 ss + cb * jsum 1 0 fs e0 e1 ss + cc * jsum 0 1 fs e0 e1 ss
  + cd * jsum 2 0 fs e0 e1 ss + ce * jsum 1 1 fs e0 e1 ss + cf * jsum 0 2 fs e0 e1 ss.
Proof.
  intros W G H. unfold jsum. rewrite <- !lsum_map_scal, <- !lsum_map_plus. apply lsum_map_ext. intros s I.
  destruct (G s I) as (F & C1 & C2).
  destruct (surface_entries_ok (laws (sf_law s)) what e0 e1 s _ W F C1 C2) as (EI & _).
  rewrite surface_integral_oriented. unfold jm. rewrite <- !lsum_map_scal, <- !lsum_map_plus. apply lsum_map_ext. intros ring _.
  set (f := fs (sf_law s)) in *.
  assert (S : forall k off, eint (fun z => k * (f (e0 + e1 * z) * z ^ off))).
  { intros k off m p q. apply (ex_RInt_ext (fun t => scal k (gfun m (fun z => f (e0 + e1 * z) * z ^ off) p q t))).
    { intros t _. rewrite scal_R. unfold gfun. toR. ring. }
    apply (ex_RInt_scal (V:=R_NormedModule)). apply EI. }
  pose (t := fun k off z => k * (f (e0 + e1 * z) * z ^ off)).
  assert (St : forall k off, eint (t k off)) by exact S. clear S.
  assert (Sf : forall m k off, gfield m (t k off) ring = k * gfield m (fun z => f (e0 + e1 * z) * z ^ off) ring).
  { intros m k off. apply gfield_scal, EI. }
  assert (P1 : eint (fun z => t ca 0%nat z + t cc 1%nat z)) by (apply eint_plus; apply St).
  rewrite (region_poly (phi s)
    (fun z => (fun z => t ca 0%nat z + t cc 1%nat z) z + t cf 2%nat z)
    (fun z => t cb 0%nat z + t ce 1%nat z)
    (t cd 0%nat) ring).
  - rewrite (gfield_plus 0 (fun z => t ca 0%nat z + t cc 1%nat z) (t cf 2%nat) ring P1 (St _ _)).
    rewrite (gfield_plus 0 (t ca 0%nat) (t cc 1%nat) ring (St _ _) (St _ _)).
    rewrite (gfield_plus 1 (t cb 0%nat) (t ce 1%nat) ring (St _ _) (St _ _)).
    rewrite !Sf. ring.
  - intros y z. rewrite H. fold f. unfold quadratic, t. ring.
  - exact (eint_plus _ _ P1 (St _ _)).
  - exact (eint_plus _ _ (St _ _) (St _ _)).
  - apply St.
Qed.

(** * Rotation *)
Lemma atan2_spec ky kz : let r := sqrt (kz ^ 2 + ky ^ 2) in r * cos (atan2 kz ky) = ky /\ r * sin (atan2 kz ky) = kz.
Proof.
  cbv zeta. set (r := sqrt (kz ^ 2 + ky ^ 2)).
  assert (AT : forall x y, 0 < x -> sqrt (y ^ 2 + x ^ 2) * cos (atan (y / x)) = x /\ sqrt (y ^ 2 + x ^ 2) * sin (atan (y / x)) = y).
  { intros x y Hx.
    assert (Q : sqrt (y ^ 2 + x ^ 2) = x * sqrt (1 + (y / x) ^ 2)).
    { rewrite <- (sqrt_Rsqr x) at 2 by lra. rewrite <- sqrt_mult; [|apply Rle_0_sqr|pose proof (pow2_ge_0 (y / x)); lra].
      f_equal. unfold Rsqr. field. lra. }
    assert (QP : 0 < sqrt (1 + (y / x) ^ 2)) by (apply sqrt_lt_R0; pose proof (pow2_ge_0 (y / x)); lra).
    rewrite Q, cos_atan, sin_atan. unfold Rsqr. replace (1 + y / x * (y / x)) with (1 + (y / x) ^ 2) by ring.
    split; field; lra. }
  unfold atan2. destruct (Rltb_spec 0 ky) as [A|A].
  - apply AT. exact A.
  - destruct (Rltb_spec ky 0) as [B|B].
    + destruct (AT (- ky) (- kz) ltac:(lra)) as [H1 H2].
      replace (sqrt ((- kz) ^ 2 + (- ky) ^ 2)) with r in * by (unfold r; f_equal; ring).
      replace (- kz / - ky) with (kz / ky) in * by (field; lra).
      destruct (Rleb_spec 0 kz).
      * rewrite neg_cos, neg_sin. split; lra.
      * replace (atan (kz / ky) - PI) with (- (PI - atan (kz / ky))) by ring.
        rewrite cos_neg, sin_neg, Rtrigo_facts.cos_pi_minus, sin_PI_x. split; lra.
    + assert (ky = 0) by lra. subst ky.
      destruct (Rltb_spec 0 kz) as [C|C].
      * assert (r = kz). { unfold r. replace (kz ^ 2 + 0 ^ 2) with (Rsqr kz) by (unfold Rsqr; ring). apply sqrt_Rsqr. lra. }
        rewrite H, cos_PI2, sin_PI2. split; ring.
      * destruct (Rltb_spec kz 0) as [D|D].
        -- assert (r = - kz). { unfold r. replace (kz ^ 2 + 0 ^ 2) with (Rsqr (- kz)) by (unfold Rsqr; ring). apply sqrt_Rsqr. lra. }
           rewrite cos_neg, sin_neg, H, cos_PI2, sin_PI2. split; ring.
        -- assert (kz = 0) by lra. subst kz.
           assert (r = 0). { unfold r. replace (0 ^ 2 + 0 ^ 2) with 0 by ring. apply sqrt_0. }
           rewrite H. split; ring.
Qed.

Lemma rotated_strain e0 ky kz y' z' : let a := - atan2 kz ky in
  plane_strain e0 ky kz (back_y a y' z') (back_z a y' z') = e0 + sqrt (kz ^ 2 + ky ^ 2) * z'.
Proof.
  cbv zeta. destruct (atan2_spec ky kz) as [A B]. set (r := sqrt (kz ^ 2 + ky ^ 2)) in *. set (th := atan2 kz ky) in *.
  unfold plane_strain, back_y, back_z. rewrite cos_neg, sin_neg.
  pose proof (sin2_cos2 th) as P. unfold Rsqr in P.
  rewrite <- A, <- B at 1. 
  replace (e0 + r * cos th * (cos th * z' - - sin th * y') - r * sin th * (cos th * y' + - sin th * z'))
    with (e0 + r * ((sin th * sin th + cos th * cos th) * z')) by ring.
  rewrite P. ring.
Qed.
Lemma rot_back a p : back_y a (fst (rot a p)) (snd (rot a p)) = fst p /\ back_z a (fst (rot a p)) (snd (rot a p)) = snd p.
Proof.
  unfold back_y, back_z, rot; cbn [fst snd]. pose proof (sin2_cos2 a) as P. unfold Rsqr in P.
  split.
  - replace (cos a * (cos a * fst p - sin a * snd p) + sin a * (sin a * fst p + cos a * snd p)) with
      ((sin a * sin a + cos a * cos a) * fst p) by ring. rewrite P; ring.
  - replace (cos a * (sin a * fst p + cos a * snd p) - sin a * (cos a * fst p - sin a * snd p)) with
      ((sin a * sin a + cos a * cos a) * snd p) by ring. rewrite P; ring.
Qed.
Lemma rot_rot a p : rot (- a) (rot a p) = p.
Proof.
  pose proof (rot_back a p) as [A B]. unfold back_y, back_z in *. unfold rot at 1.
  rewrite cos_neg, sin_neg. destruct p as [y z]. cbn [fst snd] in *. f_equal; lra.
Qed.
Lemma rotate_surface_turned a s : rotate_surface a s = turned a s.
Proof. reflexivity. Qed.

(** * Bars *)
Lemma bar_values_ok laws what e0 e1 g : (forall k, batched (laws k)) -> what <> IOther ->
  bar_values laws what e0 e1 g = Ok (map (pick what (laws (gr_law g))) (map (z_strain e0 e1) (gr_fibres g))).
Proof.
  intros B H. unfold bar_values. destruct (B (gr_law g)) as [B1 B2].
  destruct what; try congruence; cbn [pick]; destruct (gr_scalar g); rewrite ?B1, ?B2; reflexivity.
Qed.
Definition bentry (f : R -> R) (e0 e1 : R) (x : fibre) : R * R * R := (fb_y x, fb_z x, f (z_strain e0 e1 x) * fb_a x).
Lemma bars_entries_ok laws what e0 e1 gs : (forall k, batched (laws k)) -> what <> IOther ->
  bars_entries laws what e0 e1 gs = Ok (flat_map (fun g => map (bentry (pick what (laws (gr_law g))) e0 e1) (gr_fibres g)) gs).
Proof.
  intros B H. induction gs as [|g gs IH]; cbn [bars_entries flat_map]; [reflexivity|].
  rewrite bar_values_ok, IH by assumption. cbn [bind]. do 2 f_equal.
  clear. induction (gr_fibres g) as [|x l IH]; cbn; [reflexivity|]. now rewrite IH.
Qed.
Lemma bars_sum laws what e0 e1 bs (h : R * R * R -> R) :
  lsum (map h (flat_map (fun g => map (bentry (pick what (laws (gr_law g))) e0 e1) (gr_fibres g)) (bar_groups bs))) =
  lsum (map (fun b => h (br_y b, br_z b, pick what (laws (br_law b)) (e0 + e1 * br_z b) * br_area b)) bs).
Proof.
  unfold bar_groups. rewrite lsum_flat, map_map. cbn [gr_fibres gr_law].
  rewrite <- (lsum_map_ext (fun kv => lsum (map (fun f => h (bentry (pick what (laws (fst kv))) e0 e1 f)) (snd kv)))).
  2:{ intros kv _. now rewrite map_map. }
  rewrite (group_bars_sum (fun k f => h (bentry (pick what (laws k)) e0 e1 f))). reflexivity.
Qed.

(** sizes of the groups *)
Lemma add_bar_count d k f : NoDup (map fst d) ->
  NoDup (map fst (add_bar d k f)) /\
  (forall k' fs', In (k', fs') (add_bar d k f) ->
     (k' <> k /\ In (k', fs') d) \/ (k' = k /\ ((exists fs, In (k, fs) d /\ fs' = fs ++ [f]) \/ (~ In k (map fst d) /\ fs' = [f])))).
Proof.
  induction d as [|[k0 fs0] d IH]; intros ND; cbn [add_bar].
  - split; [constructor; [intros []|constructor]|]. intros k' fs' [E|[]]. inversion E; subst. right. split; [reflexivity|]. right. auto.
  - inversion ND as [|? ? N1 N2]; subst. destruct (Nat.eqb_spec k0 k) as [->|NE].
    + split; [exact ND|]. intros k' fs' [E|I].
      * inversion E; subst. right. split; [reflexivity|]. left. exists fs0. split; [now left|reflexivity].
      * left. split; [|now right]. intros ->. apply N1. apply in_map_iff. exists (k, fs'). auto.
    + destruct (IH N2) as [IH1 IH2]. split.
      * cbn [map fst]. constructor; [|exact IH1]. intros I. apply in_map_iff in I. destruct I as ([k1 fs1] & E & I). cbn in E. subst k1.
        destruct (IH2 _ _ I) as [[_ J]|[-> _]]; [|congruence]. apply N1. apply in_map_iff. exists (k0, fs1). auto.
      * intros k' fs' [E|I].
        -- inversion E; subst. left. split; [exact NE|now left].
        -- destruct (IH2 _ _ I) as [[A J]|[-> [(fs & J & ->)|[J ->]]]].
           ++ left. split; [exact A|now right].
           ++ right. split; [reflexivity|]. left. exists fs. split; [now right|reflexivity].
           ++ right. split; [reflexivity|]. right. split; [|reflexivity]. cbn. intros [E|E]; [congruence|contradiction].
Qed.
Lemma add_bar_keys d k f k' : In k' (map fst (add_bar d k f)) <-> k' = k \/ In k' (map fst d).
Proof.
  induction d as [|[k0 fs0] d IH]; cbn [add_bar]; [cbn; intuition|].
  destruct (Nat.eqb_spec k0 k) as [->|NE]; cbn [map fst In] in *; [intuition|]. rewrite IH. intuition.
Qed.
Lemma group_bars_count bs : NoDup (map fst (group_bars bs)) /\
  forall k fs, In (k, fs) (group_bars bs) -> length fs = count_law k bs /\ (0 < length fs)%nat.
Proof.
  unfold group_bars.
  enough (G : forall bs0 d, NoDup (map fst d) ->
     (forall k fs, In (k, fs) d -> length fs = count_law k bs0 /\ (0 < length fs)%nat) ->
     (forall k, ~ In k (map fst d) -> count_law k bs0 = 0%nat) ->
     let d' := fold_left (fun d b => add_bar d (br_law b) (fibre_of_bar b)) bs d in
     NoDup (map fst d') /\ forall k fs, In (k, fs) d' -> length fs = count_law k (bs0 ++ bs) /\ (0 < length fs)%nat).
  { apply (G [] []); [constructor|intros ? ? []|reflexivity]. }
  induction bs as [|b bs IH]; intros bs0 d ND C Z d'; cbn [fold_left] in d'.
  - subst d'. rewrite app_nil_r. auto.
  - subst d'. replace (bs0 ++ b :: bs) with ((bs0 ++ [b]) ++ bs) by (rewrite <- app_assoc; reflexivity).
    destruct (add_bar_count d (br_law b) (fibre_of_bar b) ND) as [ND' M].
    assert (CL : forall k, count_law k (bs0 ++ [b]) = (count_law k bs0 + if (br_law b =? k)%nat then 1 else 0)%nat).
    { intros k. unfold count_law. rewrite filter_app, app_length. cbn [filter]. destruct (_ =? _)%nat; reflexivity. }
    apply IH; [exact ND'| |].
    + intros k fs I. rewrite CL. destruct (M k fs I) as [[NE J]|[-> [(fs0 & J & ->)|[J ->]]]].
      * destruct (C k fs J). destruct (Nat.eqb_spec (br_law b) k); [congruence|]. lia.
      * destruct (C _ _ J). rewrite Nat.eqb_refl, app_length. cbn. lia.
      * rewrite (Z _ J), Nat.eqb_refl. cbn. lia.
    + intros k I. rewrite add_bar_keys in I. rewrite CL. rewrite Z by tauto.
      destruct (Nat.eqb_spec (br_law b) k); [exfalso; apply I; now left|reflexivity].
Qed.
Lemma group_bars_in bs k fs : In (k, fs) (group_bars bs) -> exists b, In b bs /\ br_law b = k.
Proof.
  intros I. destruct (group_bars_count bs) as [_ C]. destruct (C k fs I) as [L P]. rewrite L in P. unfold count_law in P.
  destruct (filter (fun b => (br_law b =? k)%nat) bs) as [|b l] eqn:E; [cbn in P; lia|].
  assert (J : In b (filter (fun b => (br_law b =? k)%nat) bs)) by (rewrite E; now left).
  apply filter_In in J. destruct J as [J Q]. apply Nat.eqb_eq in Q. eauto.
Qed.
Lemma homogeneous_ok bs : (forall b b', In b bs -> In b' bs -> count_law (br_law b) bs = count_law (br_law b') bs) ->
  homogeneous (bar_groups bs) = true.
Proof.
  intros H. unfold homogeneous, bar_groups. destruct (group_bars bs) as [|[k fs] l] eqn:E; [reflexivity|]. cbn [map snd fst].
  apply forallb_forall. intros g I. apply in_map_iff in I. destruct I as ([k' fs'] & <- & I). cbn [gr_fibres snd].
  apply Nat.eqb_eq.
  assert (I1 : In (k, fs) (group_bars bs)) by (rewrite E; now left).
  assert (I2 : In (k', fs') (group_bars bs)) by (rewrite E; now right).
  destruct (group_bars_in _ _ _ I1) as (b1 & J1 & <-). destruct (group_bars_in _ _ _ I2) as (b2 & J2 & <-).
  rewrite (proj1 (proj2 (group_bars_count bs) _ _ I1)), (proj1 (proj2 (group_bars_count bs) _ _ I2)). now apply H.
Qed.
Lemma count_rotate a k bs : count_law k (map (rotate_bar a) bs) = count_law k bs.
Proof.
  unfold count_law. induction bs as [|b bs IH]; [reflexivity|]. cbn [map filter rotate_bar br_law].
  destruct (br_law b =? k)%nat; cbn [length]; [f_equal|]; exact IH.
Qed.
Lemma homogeneous_rotate a bs : (forall b b', In b bs -> In b' bs -> count_law (br_law b) bs = count_law (br_law b') bs) ->
  homogeneous (bar_groups (map (rotate_bar a) bs)) = true.
Proof.
  intros H. apply homogeneous_ok. intros b b' I I'. apply in_map_iff in I, I'.
  destruct I as (c & <- & I). destruct I' as (c' & <- & I').
  change (br_law (rotate_bar a c)) with (br_law c). change (br_law (rotate_bar a c')) with (br_law c').
  rewrite !count_rotate. exact (H c c' I I').
Qed.
