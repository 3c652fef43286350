From Verif Require Import Base M_Marin M_Laws M_Laws2 M_Fiber S_Fiber L_Fiber M_MarinInt S_MarinInt M_Section S_Section L_Section L_Section2.

(** * Balanced failure *)
Definition pair_chi (rc y : bool) (g h : item) : R := (tension_limit y g - compression_limit rc y h) / (im_hi h - im_lo g).
Lemma used_limit rc y h : fst (im_ult h (if orb (andb rc (im_conc h)) (negb rc) then y else false)) = compression_limit rc y h.
Proof. unfold compression_limit. destruct rc, (im_conc h), y; reflexivity. Qed.
(** The fold keeps the smallest curvature seen so far together with its pair. *)
Definition seen (rc y : bool) (ps : list (item * item)) (acc : option (R * R * R * R)) : Prop :=
  match acc with
  | None => forall g h, In (g, h) ps -> im_hi h <= im_lo g \/ 10 ^ 10 <= pair_chi rc y g h
  | Some (chi, e0, yn, yp) =>
      (exists g h, In (g, h) ps /\ im_lo g < im_hi h /\ chi = pair_chi rc y g h /\ yn = im_hi h /\ yp = im_lo g /\
                   e0 = compression_limit rc y h + chi * yn /\ chi < 10 ^ 10) /\
      (forall g h, In (g, h) ps -> im_hi h <= im_lo g \/ chi <= pair_chi rc y g h)
  end.
Lemma pair_step_seen rc y ps acc g h : seen rc y ps acc -> seen rc y (ps ++ [(g, h)]) (pair_step rc y acc (g, h)).
Proof.
  intros H. unfold pair_step. rewrite used_limit. fold (tension_limit y g).
  assert (CH : im_lo g < im_hi h -> - (tension_limit y g - compression_limit rc y h) / (im_lo g - im_hi h) = pair_chi rc y g h).
  { intros L. unfold pair_chi. field. split; lra. }
  destruct (Rleb_spec (im_hi h) (im_lo g)) as [L|L].
  - destruct acc as [[[[chi e0] yn] yp]|]; cbn in *.
    + destruct H as ((g0 & h0 & I & R) & M). split; [exists g0, h0; split; [apply in_or_app; now left|exact R]|].
      intros g1 h1 I1. apply in_app_or in I1. destruct I1 as [I1|[I1|[]]]; [now apply M|]. inversion I1; subst. now left.
    + intros g1 h1 I1. apply in_app_or in I1. destruct I1 as [I1|[I1|[]]]; [now apply H|]. inversion I1; subst. now left.
  - assert (L' : im_lo g < im_hi h) by lra. rewrite (CH L').
    destruct acc as [[[[chi e0] yn] yp]|]; cbn [seen] in *.
    + destruct H as ((g0 & h0 & I & R1 & R2 & R3 & R4 & R5 & R6) & M).
      destruct (Rltb_spec (pair_chi rc y g h) chi) as [Q|Q]; cbn [seen].
      * split.
        { exists g, h. split; [apply in_or_app; right; now left|]. repeat split; try assumption. lra. }
        intros g1 h1 I1. apply in_app_or in I1. destruct I1 as [I1|[I1|[]]]; [destruct (M g1 h1 I1); [now left|right; lra]|].
        inversion I1; subst. right. lra.
      * split.
        { exists g0, h0. split; [apply in_or_app; now left|]. repeat split; assumption. }
        intros g1 h1 I1. apply in_app_or in I1. destruct I1 as [I1|[I1|[]]]; [now apply M|]. inversion I1; subst. right. lra.
    + destruct (Rltb_spec (pair_chi rc y g h) (10 ^ 10)) as [Q|Q]; cbn [seen].
      * split.
        { exists g, h. split; [apply in_or_app; right; now left|]. repeat split; assumption. }
        intros g1 h1 I1. apply in_app_or in I1. destruct I1 as [I1|[I1|[]]]; [destruct (H g1 h1 I1); [now left|right; lra]|].
        inversion I1; subst. right. lra.
      * intros g1 h1 I1. apply in_app_or in I1. destruct I1 as [I1|[I1|[]]]; [now apply H|]. inversion I1; subst. right. lra.
Qed.
Lemma fold_seen rc y : forall l ps acc, seen rc y ps acc -> seen rc y (ps ++ l) (fold_left (pair_step rc y) l acc).
Proof.
  induction l as [|[g h] l IH]; intros ps acc H; [rewrite app_nil_r; exact H|].
  cbn [fold_left]. replace (ps ++ (g, h) :: l) with ((ps ++ [(g, h)]) ++ l) by (rewrite <- app_assoc; reflexivity).
  apply IH. now apply pair_step_seen.
Qed.
Lemma balanced_cases rc y items : seen rc y (list_prod items items) (fold_left (pair_step rc y) (list_prod items items) None).
Proof. apply (fold_seen rc y (list_prod items items) [] None). intros g h []. Qed.

Lemma balanced_sound rc y items yn yp p :
  (forall i j, In i items -> In j items -> compression_limit rc y i <= tension_limit y j) ->
  balanced rc y items = Ok (yn, yp, p) ->
  (forall i, In i items -> part_within rc y p i) /\
  yp < yn /\ p_kz p = 0 /\ p_ky p <= 0 /\
  (exists g h, In g items /\ In h items /\ yp = im_lo g /\ yn = im_hi h /\
     strain_at p yp = tension_limit y g /\ strain_at p yn = compression_limit rc y h).
Proof.
  intros SEP. unfold balanced. pose proof (balanced_cases rc y items) as HS.
  destruct (fold_left _ _ None) as [[[[chi e0] yn0] yp0]|]; [|discriminate]. intros H. inversion H; subst yn0 yp0 p. clear H.
  cbn [seen] in HS. destruct HS as ((g & h & I & L & HC & Hn & Hp & He & _) & M).
  apply in_prod_iff in I. destruct I as (Ig & Ih).
  assert (CH : chi * (yn - yp) = tension_limit y g - compression_limit rc y h).
  { rewrite HC, Hn, Hp. unfold pair_chi. field. lra. }
  assert (C0 : 0 <= chi).
  { rewrite HC. unfold pair_chi. pose proof (SEP h g Ih Ig). apply Rmult_le_pos; [lra|]. apply Rlt_le, Rinv_0_lt_compat. lra. }
  unfold strain_at, p_kz, p_ky. cbn [fst snd].
  assert (ST : forall z, e0 + - chi * z = compression_limit rc y h + chi * (yn - z)) by (intros; rewrite He; ring).
  assert (LE : forall a b, im_lo a < im_hi b -> In a items -> In b items -> chi * (im_hi b - im_lo a) <= tension_limit y a - compression_limit rc y b).
  { intros a b Hab Ia Ib. destruct (M a b) as [X|X]; [apply in_prod_iff; now split|lra|]. unfold pair_chi in X.
    apply (Rmult_le_compat_r (im_hi b - im_lo a)) in X; [|lra]. unfold Rdiv in X. rewrite Rmult_assoc, Rinv_l, Rmult_1_r in X by lra. exact X. }
  split; [|split; [lra|split; [reflexivity|split; [lra|]]]].
  - intros i Ii z (Z1 & Z2). unfold strain_at. cbn [fst snd]. rewrite ST. split.
    + destruct (Rlt_dec yp (im_hi i)) as [Q|Q].
      * pose proof (LE g i ltac:(lra) Ig Ii) as X. rewrite <- Hp in X. nra.
      * pose proof (SEP i g Ii Ig) as X. assert (z <= yp) by lra. nra.
    + destruct (Rlt_dec (im_lo i) yn) as [Q|Q].
      * pose proof (LE i h ltac:(lra) Ii Ih) as X. rewrite <- Hn in X. nra.
      * pose proof (SEP h i Ih Ii) as X. assert (yn <= z) by lra. nra.
  - exists g, h. repeat split; try assumption; rewrite ST; lra.
Qed.
Lemma balanced_err rc y items e : balanced rc y items = Err e -> e = UnboundLocalError /\
  forall g h, In g items -> In h items -> im_hi h <= im_lo g \/ 10 ^ 10 <= pair_chi rc y g h.
Proof.
  unfold balanced. pose proof (balanced_cases rc y items) as HS.
  destruct (fold_left _ _ None) as [[[[chi e0] yn0] yp0]|]; [discriminate|]. intros H. inversion H. split; [reflexivity|].
  intros g h Ig Ih. apply HS. apply in_prod_iff. now split.
Qed.

(** Rings. *)
Lemma ring_min_spec r v : In v r -> ring_min r <= snd v.
Proof.
  destruct r as [|p q]; [intros []|]. cbn [ring_min].
  assert (G : forall (q : list (R * R)) m, fold_left (fun m (v : R * R) => Rmin m (snd v)) q m <= m /\ forall v, In v q -> fold_left (fun m (v : R * R) => Rmin m (snd v)) q m <= snd v).
  { clear. induction q as [|x q IH]; intros m; cbn [fold_left]; [split; [lra|intros ? []]|].
    destruct (IH (Rmin m (snd x))) as (A & B). pose proof (Rmin_l m (snd x)). pose proof (Rmin_r m (snd x)).
    split; [lra|]. intros v [<-|H1]; [lra|]. now apply B. }
  destruct (G q (snd p)) as (A & B). intros [<-|H]; [exact A|now apply B].
Qed.
Lemma ring_max_spec r v : In v r -> snd v <= ring_max r.
Proof.
  destruct r as [|p q]; [intros []|]. cbn [ring_max].
  assert (G : forall (q : list (R * R)) m, m <= fold_left (fun m (v : R * R) => Rmax m (snd v)) q m /\ forall v, In v q -> snd v <= fold_left (fun m (v : R * R) => Rmax m (snd v)) q m).
  { clear. induction q as [|x q IH]; intros m; cbn [fold_left]; [split; [lra|intros ? []]|].
    destruct (IH (Rmax m (snd x))) as (A & B). pose proof (Rmax_l m (snd x)). pose proof (Rmax_r m (snd x)).
    split; [lra|]. intros v [<-|H1]; [lra|]. now apply B. }
  destruct (G q (snd p)) as (A & B). intros [<-|H]; [exact A|now apply B].
Qed.
Lemma ring_min_in r : r <> [] -> exists v, In v r /\ snd v = ring_min r.
Proof.
  destruct r as [|p q]; [intros []; reflexivity|]. intros _. cbn [ring_min].
  assert (G : forall (q : list (R * R)) m, fold_left (fun m (v : R * R) => Rmin m (snd v)) q m = m \/ exists v, In v q /\ snd v = fold_left (fun m (v : R * R) => Rmin m (snd v)) q m).
  { clear. induction q as [|x q IH]; intros m; cbn [fold_left]; [now left|].
    destruct (IH (Rmin m (snd x))) as [E|(v & I & E)].
    - rewrite E. unfold Rmin. destruct (Rle_dec m (snd x)); [now left|]. right. exists x. split; [now left|reflexivity].
    - right. exists v. split; [now right|exact E]. }
  destruct (G q (snd p)) as [E|(v & I & E)]; [exists p; split; [now left|now rewrite E]|exists v; split; [now right|exact E]].
Qed.
Lemma ring_max_in r : r <> [] -> exists v, In v r /\ snd v = ring_max r.
Proof.
  destruct r as [|p q]; [intros []; reflexivity|]. intros _. cbn [ring_max].
  assert (G : forall (q : list (R * R)) m, fold_left (fun m (v : R * R) => Rmax m (snd v)) q m = m \/ exists v, In v q /\ snd v = fold_left (fun m (v : R * R) => Rmax m (snd v)) q m).
  { clear. induction q as [|x q IH]; intros m; cbn [fold_left]; [now left|].
    destruct (IH (Rmax m (snd x))) as [E|(v & I & E)].
    - rewrite E. unfold Rmax. destruct (Rle_dec m (snd x)); [right; exists x; split; [now left|reflexivity]|now left].
    - right. exists v. split; [now right|exact E]. }
  destruct (G q (snd p)) as [E|(v & I & E)]; [exists p; split; [now left|now rewrite E]|exists v; split; [now right|exact E]].
Qed.

(** * Limit loads *)
Lemma limit_load_value ig t ms g s nmin nmax s' : reuse_safe ig g -> limit_load ig t ms g s = (Ok (nmin, nmax), s') ->
  exists yn yp p, balanced (tr_rc t) false (items_of t g) = Ok (yn, yp, p) /\
    (exists F, fst (fst F) = nmin /\ exists d, ig_forces ig g (strain_at p yn, 0, 0) (st_data s) (Some ms) = Ok (F, d) /\
      exists G, fst (fst G) = nmax /\ exists d', ig_forces ig g (strain_at p yp, 0, 0) (Some d) None = Ok (G, d') /\ s' = keep_data d s).
Proof.
  intros RS. unfold limit_load, abind, alift. destruct (balanced _ _ _) as [[[yn yp] p]|]; [|discriminate].
  fold (strain_at p yn) (strain_at p yp). unfold p_e0, p_ky. fold (strain_at p yn) (strain_at p yp).
  destruct (ig_forces ig g (strain_at p yn, 0, 0) (st_data s) (Some ms)) as [[F d]|] eqn:E1; [|discriminate].
  destruct (ig_forces ig g (strain_at p yp, 0, 0) (Some d) None) as [[G d']|] eqn:E2; [|discriminate].
  intros H. inversion H; subst. exists yn, yp, p. split; [reflexivity|]. exists F. split; [reflexivity|]. exists d. split; [exact E1|].
  exists G. split; [reflexivity|]. exists d'. split; [exact E2|reflexivity].
Qed.
