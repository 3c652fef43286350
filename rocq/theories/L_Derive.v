(** Proofs about from_geometry. *)
From Verif Require Import Base M_Marin M_Laws M_Laws2 M_Fiber M_MarinInt M_Section M_Geo S_Geo L_Geo M_Gross M_Derive S_Derive.
From Coq Require Import String Lia.
Open Scope R_scope.
Open Scope list_scope.

Definition extends (w w' : world) : Prop := (w_next w <= w_next w')%nat /\ forall i, (i < w_next w)%nat -> w_laws w' i = w_laws w i.
Lemma extends_refl w : extends w w.
Proof. split; [lia|reflexivity]. Qed.
Lemma extends_trans a b c : extends a b -> extends b c -> extends a c.
Proof. intros [H1 H2] [K1 K2]. split; [lia|]. intros i I. rewrite K2 by lia. apply H2. exact I. Qed.
Lemma twin_later w1 w2 w3 m m' : elastic_twin w1 w2 m m' -> extends w2 w3 -> elastic_twin w1 w3 m m'.
Proof.
  intros (A & B & C & D) [E F]. split; [lia|split; [exact B|split; [exact C|]]]. intros e. rewrite F by lia. apply D.
Qed.
Lemma twin_earlier w0 w1 w2 m m' : extends w0 w1 -> (mt_id m < w_next w0)%nat -> elastic_twin w1 w2 m m' -> elastic_twin w0 w2 m m'.
Proof.
  intros [E F] M (A & B & C & D). split; [lia|split; [exact B|split; [exact C|]]]. intros e. rewrite <- (F (mt_id m)) by exact M. apply D.
Qed.

Lemma copy_ok m w : 0 < lw_tangent (w_laws w (mt_id m)) 0 -> exists m' w', elastic_copy m w = Ok (m', w') /\
  elastic_twin w w' m m' /\ mt_id m' = w_next w /\ w_next w' = S (w_next w) /\ w_names w' = w_names w /\ extends w w'.
Proof.
  intros P. unfold elastic_copy, elastic_init. destruct (Rleb_spec (lw_tangent (w_laws w (mt_id m)) 0) 0); [lra|]. cbn [bind].
  eexists _, _. split; [reflexivity|]. cbn [mt_id w_next w_names w_laws mt_density mt_is_concrete].
  split; [|split; [reflexivity|split; [reflexivity|split; [reflexivity|]]]].
  - unfold elastic_twin. cbn [mt_id w_next w_names w_laws mt_density mt_is_concrete]. split; [lia|split; [reflexivity|split; [reflexivity|]]].
    intros e. rewrite Nat.eqb_refl. split; reflexivity.
  - split; cbn [w_next w_laws]; [lia|]. intros i I. destruct (Nat.eqb_spec i (w_next w)); [lia|reflexivity].
Qed.
Lemma copy_fails m w : lw_tangent (w_laws w (mt_id m)) 0 <= 0 -> elastic_copy m w = Err ValueError.
Proof. intros P. unfold elastic_copy, elastic_init. destruct (Rleb_spec (lw_tangent (w_laws w (mt_id m)) 0) 0); [reflexivity|lra]. Qed.

Definition copied (w w' : world) (s s' : surf) : Prop := same_outline s s' /\ elastic_twin w w' (sg_mat s) (sg_mat s') /\ sg_concrete s' = false.
Definition bar_copied (w w' : world) (p p' : pnt) : Prop := same_bar p p' /\ elastic_twin w w' (pg_mat p) (pg_mat p').

Lemma copy_surfaces l : forall w, (forall s, In s l -> (mt_id (sg_mat s) < w_next w)%nat /\ 0 < lw_tangent (w_laws w (mt_id (sg_mat s))) 0) ->
  exists l' w', walk (surf_from None) l w = Ok (l', w') /\ Forall2 (copied w w') l l' /\
    map (fun s => mt_id (sg_mat s)) l' = seq (w_next w) (List.length l) /\ w_next w' = (w_next w + List.length l)%nat /\ extends w w' /\
    map sg_name l' = map Auto (seq (w_names w) (List.length l)).
Proof.
  induction l as [|s l IH]; intros w H.
  - exists [], w. cbn. repeat split; [constructor|lia|lia].
  - destruct (H s (or_introl eq_refl)) as [I P]. destruct (copy_ok (sg_mat s) w P) as (m' & w1 & E & T & ID & NX & NM & EX).
    cbn [walk]. unfold surf_from at 1. cbn [choose]. rewrite E. cbn [bind fst snd]. unfold named, new_surf, new_name. cbn [fst snd].
    set (w2 := {| w_names := S (w_names w1); w_next := w_next w1; w_laws := w_laws w1 |}).
    assert (EX2 : extends w w2) by exact EX.
    destruct (IH w2) as (l' & w' & W & F & IDS & NX' & EX' & NMS).
    { intros s' I'. destruct (H s' (or_intror I')) as [J Q]. split; [cbn; lia|]. rewrite (proj2 EX2) by exact J. exact Q. }
    rewrite W. cbn [bind fst snd]. eexists _, _. split; [reflexivity|]. split; [|split; [|split; [|split]]].
    + constructor.
      * split; [split; [reflexivity|split; [reflexivity|eexists; reflexivity]]|]. cbn [sg_mat sg_concrete]. split.
        { eapply twin_later; [exact T|]. exact EX'. }
        { destruct T as (_ & C & _). rewrite C. reflexivity. }
      * assert (HI : forall s', In s' l -> (mt_id (sg_mat s') < w_next w)%nat) by (intros s' I'; exact (proj1 (H s' (or_intror I')))).
        clear - F EX2 HI. induction F as [|a b la lb HF FF IHF]; [constructor|]. constructor; [|apply IHF; intros; apply HI; right; assumption].
        destruct HF as (A & B & C). split; [exact A|]. split; [|exact C]. eapply twin_earlier; [exact EX2|apply HI; left; reflexivity|exact B].
    + cbn [map sg_mat List.length seq]. rewrite ID. f_equal. rewrite IDS. cbn [w2 w_next]. rewrite NX. reflexivity.
    + rewrite NX'. cbn [w2 w_next List.length]. lia.
    + eapply extends_trans; [exact EX2|exact EX'].
    + cbn [map sg_name List.length seq]. rewrite NMS. cbn [w2 w_names]. rewrite NM. reflexivity.
Qed.
Lemma copy_bars l : forall w, (forall p, In p l -> (mt_id (pg_mat p) < w_next w)%nat /\ 0 < lw_tangent (w_laws w (mt_id (pg_mat p))) 0) ->
  exists l' w', walk (pnt_from None) l w = Ok (l', w') /\ Forall2 (bar_copied w w') l l' /\
    map (fun p => mt_id (pg_mat p)) l' = seq (w_next w) (List.length l) /\ w_next w' = (w_next w + List.length l)%nat /\ extends w w'.
Proof.
  induction l as [|p l IH]; intros w H.
  - exists [], w. cbn. repeat split; [constructor|lia|lia].
  - destruct (H p (or_introl eq_refl)) as [I P]. destruct (copy_ok (pg_mat p) w P) as (m' & w1 & E & T & ID & NX & NM & EX).
    cbn [walk]. unfold pnt_from at 1. cbn [choose]. rewrite E. cbn [bind fst snd].
    destruct (IH w1) as (l' & w' & W & F & IDS & NX' & EX').
    { intros s' I'. destruct (H s' (or_intror I')) as [J Q]. split; [lia|]. rewrite (proj2 EX) by exact J. exact Q. }
    rewrite W. cbn [bind fst snd]. eexists _, _. split; [reflexivity|]. split; [|split; [|split]].
    + constructor.
      * split; [repeat split|]. cbn [pg_mat]. eapply twin_later; [exact T|exact EX'].
      * assert (HI : forall s', In s' l -> (mt_id (pg_mat s') < w_next w)%nat) by (intros s' I'; exact (proj1 (H s' (or_intror I')))).
        clear - F EX HI. induction F as [|a b la lb HF FF IHF]; [constructor|]. constructor; [|apply IHF; intros; apply HI; right; assumption].
        destruct HF as (A & B). split; [exact A|]. eapply twin_earlier; [exact EX|apply HI; left; reflexivity|exact B].
    + cbn [map pg_mat List.length seq]. rewrite ID. f_equal. rewrite IDS, NX. reflexivity.
    + rewrite NX'. cbn [List.length]. lia.
    + eapply extends_trans; [exact EX|exact EX'].
Qed.
Lemma parts_of ss ps : compound_of (map PSurf ss ++ map PPnt ps) = {| cp_surf := ss; cp_pnt := ps; cp_rc := RcNone |}.
Proof.
  rewrite compound_of_spec. rewrite !flat_map_app. f_equal.
  - replace (flat_map part_surfaces (map PPnt ps)) with (@nil surf) by (induction ps; [reflexivity|cbn; assumption]).
    rewrite app_nil_r. induction ss; [reflexivity|]. cbn. f_equal. exact IHss.
  - replace (flat_map part_points (map PSurf ss)) with (@nil pnt) by (induction ss; [reflexivity|cbn; assumption]).
    cbn. induction ps; [reflexivity|]. cbn. f_equal. exact IHps.
Qed.

Lemma elastic_from g w : lives_in w g -> (forall m, In m (materials_of g) -> 0 < lw_tangent (w_laws w (mt_id m)) 0) ->
  exists g' w', comp_from None g w = Ok (g', w') /\
    Forall2 (copied w w') (cp_surf g) (cp_surf g') /\ Forall2 (bar_copied w w') (cp_pnt g) (cp_pnt g') /\
    map mt_id (materials_of g') = seq (w_next w) (List.length (materials_of g)) /\
    extends w w' /\ map sg_name (cp_surf g') = map Auto (seq (w_names w) (List.length (cp_surf g))) /\ cp_rc g' = RcNone.
Proof.
  intros L P. unfold materials_of, lives_in in *.
  destruct (copy_surfaces (cp_surf g) w) as (ss & w1 & W1 & F1 & I1 & N1 & E1 & NM).
  { intros s I. split; [apply L|apply P]; apply in_or_app; left; apply in_map; exact I. }
  destruct (copy_bars (cp_pnt g) w1) as (ps & w2 & W2 & F2 & I2 & N2 & E2).
  { intros p I. assert (J : In (pg_mat p) (map sg_mat (cp_surf g) ++ map pg_mat (cp_pnt g))) by (apply in_or_app; right; apply in_map; exact I).
    pose proof (L _ J). split; [lia|]. rewrite (proj2 E1) by assumption. apply P. exact J. }
  unfold comp_from. rewrite W1. cbn [bind fst snd]. rewrite W2. cbn [bind fst snd]. rewrite parts_of.
  eexists _, _. split; [reflexivity|]. cbn [cp_surf cp_pnt cp_rc]. split; [|split; [|split; [|split; [|split; [exact NM|reflexivity]]]]].
  - clear - F1 E2. induction F1 as [|a b la lb HF FF IHF]; constructor; [|exact IHF].
    destruct HF as (A & B & C). split; [exact A|split; [|exact C]]. eapply twin_later; eassumption.
  - assert (HI : forall p, In p (cp_pnt g) -> (mt_id (pg_mat p) < w_next w)%nat).
    { intros p I. apply L. apply in_or_app. right. apply in_map. exact I. }
    clear - F2 E1 HI. induction F2 as [|a b la lb HF FF IHF]; constructor; [|apply IHF; intros; apply HI; right; assumption].
    destruct HF as (A & B). split; [exact A|]. eapply twin_earlier; [exact E1|apply HI; left; reflexivity|exact B].
  - rewrite map_app, !map_map, I1, I2, N1, app_length, !map_length, seq_app. reflexivity.
  - eapply extends_trans; eassumption.
Qed.

Lemma elastic_from_fails g w m : lives_in w g -> In m (materials_of g) -> lw_tangent (w_laws w (mt_id m)) 0 <= 0 ->
  comp_from None g w = Err ValueError.
Proof.
  intros L I B. unfold materials_of, lives_in in *. unfold comp_from.
  assert (X : forall l w0, extends w w0 -> (forall s, In s l -> (mt_id (sg_mat s) < w_next w)%nat) -> walk (surf_from None) l w0 = Err ValueError \/
    exists l' w', walk (surf_from None) l w0 = Ok (l', w') /\ extends w w' /\ (forall s, In s l -> 0 < lw_tangent (w_laws w (mt_id (sg_mat s))) 0)).
  { induction l as [|s l IH]; intros w0 E H.
    - right. exists [], w0. split; [reflexivity|split; [exact E|]]. intros s [].
    - cbn [walk]. unfold surf_from at 1 3. cbn [choose]. destruct (Rlt_le_dec 0 (lw_tangent (w_laws w0 (mt_id (sg_mat s))) 0)) as [P|P].
      + destruct (copy_ok (sg_mat s) w0 P) as (m' & w1 & -> & _ & _ & NX & NM & EX). cbn [bind fst snd]. unfold named, new_surf, new_name. cbn [fst snd].
        destruct (IH {| w_names := S (w_names w1); w_next := w_next w1; w_laws := w_laws w1 |}) as [-> | (l' & w' & -> & E' & P')].
        { eapply extends_trans; [exact E|exact EX]. } { intros; apply H; right; assumption. }
        * left. reflexivity.
        * right. cbn [bind fst snd]. eexists _, _. split; [reflexivity|split; [exact E'|]]. intros s' [<- | I']; [|apply P'; exact I'].
          rewrite <- (proj2 E) by (apply H; left; reflexivity). exact P.
      + left. rewrite copy_fails by exact P. reflexivity. }
  assert (Y : forall l w0, extends w w0 -> (forall s, In s l -> (mt_id (pg_mat s) < w_next w)%nat) -> walk (pnt_from None) l w0 = Err ValueError \/
    exists l' w', walk (pnt_from None) l w0 = Ok (l', w') /\ (forall s, In s l -> 0 < lw_tangent (w_laws w (mt_id (pg_mat s))) 0)).
  { induction l as [|s l IH]; intros w0 E H.
    - right. exists [], w0. split; [reflexivity|]. intros s [].
    - cbn [walk]. unfold pnt_from at 1 3. cbn [choose]. destruct (Rlt_le_dec 0 (lw_tangent (w_laws w0 (mt_id (pg_mat s))) 0)) as [P|P].
      + destruct (copy_ok (pg_mat s) w0 P) as (m' & w1 & -> & _ & _ & NX & NM & EX). cbn [bind fst snd].
        destruct (IH w1) as [-> | (l' & w' & -> & P')].
        { eapply extends_trans; [exact E|exact EX]. } { intros; apply H; right; assumption. }
        * left. reflexivity.
        * right. cbn [bind fst snd]. eexists _, _. split; [reflexivity|]. intros s' [<- | I']; [|apply P'; exact I'].
          rewrite <- (proj2 E) by (apply H; left; reflexivity). exact P.
      + left. rewrite copy_fails by exact P. reflexivity. }
  destruct (X (cp_surf g) w (extends_refl w)) as [-> | (l' & w' & -> & E' & P')]; [intros; apply L, in_or_app; left; apply in_map; assumption|reflexivity|].
  cbn [bind fst snd]. destruct (Y (cp_pnt g) w' E') as [-> | (l2 & w2 & -> & P2)]; [intros; apply L, in_or_app; right; apply in_map; assumption|reflexivity|].
  exfalso. apply in_app_or in I. destruct I as [I|I]; apply in_map_iff in I; destruct I as (s & <- & I).
  - specialize (P' s I). lra.
  - specialize (P2 s I). lra.
Qed.

Lemma given_surfaces m l : forall w, exists l' w', walk (surf_from (Some m)) l w = Ok (l', w') /\
  Forall2 (fun s s' => same_outline s s' /\ sg_mat s' = m /\ sg_concrete s' = mt_is_concrete m) l l' /\
  w_next w' = w_next w /\ w_laws w' = w_laws w /\ map sg_name l' = map Auto (seq (w_names w) (List.length l)).
Proof.
  induction l as [|s l IH]; intros w.
  - exists [], w. cbn. repeat split. constructor.
  - cbn [walk]. unfold surf_from at 1. cbn [choose bind fst snd]. unfold named, new_surf, new_name. cbn [fst snd].
    destruct (IH {| w_names := S (w_names w); w_next := w_next w; w_laws := w_laws w |}) as (l' & w' & -> & F & N & LW & NM).
    cbn [bind fst snd]. eexists _, _. split; [reflexivity|]. split; [|split; [exact N|split; [exact LW|]]].
    + constructor; [|exact F]. split; [split; [reflexivity|split; [reflexivity|eexists; reflexivity]]|]. cbn. split; [reflexivity|]. destruct (mt_is_concrete m); reflexivity.
    + cbn [map sg_name List.length seq]. rewrite NM. reflexivity.
Qed.
Lemma given_bars m l : forall w, exists l', walk (pnt_from (Some m)) l w = Ok (l', w) /\
  Forall2 (fun p p' => same_bar p p' /\ pg_mat p' = m) l l'.
Proof.
  induction l as [|s l IH]; intros w.
  - exists []. cbn. split; [reflexivity|constructor].
  - cbn [walk]. unfold pnt_from at 1. cbn [choose bind fst snd]. destruct (IH w) as (l' & -> & F). cbn [bind fst snd]. eexists. split; [reflexivity|].
    constructor; [|exact F]. repeat split.
Qed.
Lemma given_from m g w : exists g' w', comp_from (Some m) g w = Ok (g', w') /\
  Forall2 (fun s s' => same_outline s s' /\ sg_mat s' = m /\ sg_concrete s' = mt_is_concrete m) (cp_surf g) (cp_surf g') /\
  Forall2 (fun p p' => same_bar p p' /\ pg_mat p' = m) (cp_pnt g) (cp_pnt g') /\
  w_next w' = w_next w /\ w_laws w' = w_laws w /\ map sg_name (cp_surf g') = map Auto (seq (w_names w) (List.length (cp_surf g))).
Proof.
  destruct (given_surfaces m (cp_surf g) w) as (ss & w1 & W1 & F1 & N1 & L1 & NM). destruct (given_bars m (cp_pnt g) w1) as (ps & W2 & F2).
  unfold comp_from. rewrite W1. cbn [bind fst snd]. rewrite W2. cbn [bind fst snd]. rewrite parts_of.
  eexists _, _. split; [reflexivity|]. cbn [cp_surf cp_pnt]. repeat (split; [assumption|]). exact NM.
Qed.

(** ** Gross properties of the elastic copy *)
Section Alike.
Variables (laws laws' : nat -> law) (dens dens' : nat -> option R).
Definition alike_s (s s' : surface) : Prop := sf_ext s' = sf_ext s /\ sf_ints s' = sf_ints s /\
  lw_tangent (laws' (sf_law s')) 0 = lw_tangent (laws (sf_law s)) 0 /\ dens' (sf_law s') = dens (sf_law s).
Definition alike_b (b b' : bar) : Prop := br_y b' = br_y b /\ br_z b' = br_z b /\ br_area b' = br_area b /\
  lw_tangent (laws' (br_law b')) 0 = lw_tangent (laws (br_law b)) 0 /\ dens' (br_law b') = dens (br_law b).
Definition alike (c c' : compound) : Prop := Forall2 alike_s (cg_surf c) (cg_surf c') /\ Forall2 alike_b (cg_bars c) (cg_bars c').
Lemma alike_map {A B} (P : A -> A -> Prop) (f f' : A -> B) l l' : (forall a b, P a b -> f' b = f a) -> Forall2 P l l' -> map f' l' = map f l.
Proof. intros H. induction 1; [reflexivity|]. cbn. f_equal; [apply H|]; assumption. Qed.
Lemma alike_surface_area s s' : alike_s s s' -> surface_area s' = surface_area s.
Proof. intros (A & B & _). unfold surface_area. rewrite A, B. reflexivity. Qed.
Lemma alike_dummy c c' : alike c c' -> dummy c' = dummy c.
Proof.
  intros [F G]. unfold dummy. f_equal.
  - apply (alike_map alike_s); [|exact F]. intros a b (-> & -> & _). reflexivity.
  - apply (alike_map alike_b); [|exact G]. intros a b (-> & -> & -> & _). reflexivity.
Qed.
Lemma alike_numbers l l' : Forall2 alike_s l l' -> forall k, number_surfaces k l' = number_surfaces k l.
Proof. induction 1 as [|a b la lb (E & F & _) FF IH]; intros k; [reflexivity|]. cbn [number_surfaces]. rewrite E, F, IH. reflexivity. Qed.
Lemma alike_number_bars l l' : Forall2 alike_b l l' -> forall k, number_bars k l' = number_bars k l.
Proof. induction 1 as [|a b la lb (E & F & G & _) FF IH]; intros k; [reflexivity|]. cbn [number_bars]. rewrite E, F, G, IH. reflexivity. Qed.
Lemma mapM_same {A B C} (f : A -> result C) (f' : B -> result C) (l : list A) (l' : list B) : Forall2 (fun a b => f' b = f a) l l' -> mapM f' l' = mapM f l.
Proof. induction 1 as [|a b la lb E FF IH]; [reflexivity|]. cbn [mapM]. rewrite E, IH. reflexivity. Qed.
Lemma alike_elasticise c c' : alike c c' -> elasticise laws' c' = elasticise laws c.
Proof.
  intros [F G]. unfold elasticise.
  rewrite (mapM_same (fun k => elastic_init (lw_tangent (laws k) 0) None) (fun k => elastic_init (lw_tangent (laws' k) 0) None)
     (map sf_law (cg_surf c) ++ map br_law (cg_bars c)) (map sf_law (cg_surf c') ++ map br_law (cg_bars c'))).
  - rewrite (alike_numbers _ _ F), (alike_number_bars _ _ G). assert (LL : List.length (cg_surf c') = List.length (cg_surf c)) by (clear - F; induction F; cbn; congruence). rewrite LL. reflexivity.
  - apply Forall2_app.
    + clear - F. induction F as [|a b la lb (E & E' & T & _) FF IH]; constructor; [rewrite T; reflexivity|exact IH].
    + clear - G. induction G as [|a b la lb (E & E' & A & T & _) FF IH]; constructor; [rewrite T; reflexivity|exact IH].
Qed.
Lemma alike_translate u v c c' : alike c c' -> alike (translate_geo u v c) (translate_geo u v c').
Proof.
  intros [F G]. split; cbn [translate_geo cg_surf cg_bars].
  - clear - F. induction F as [|a b la lb (E & E' & T & D) FF IH]; constructor; [|exact IH]. cbn. unfold alike_s. cbn. rewrite E, E'. repeat split; assumption.
  - clear - G. induction G as [|a b la lb (E & E' & A & T & D) FF IH]; constructor; [|exact IH]. unfold alike_b. cbn. rewrite E, E'. repeat split; assumption.
Qed.
Lemma alike_gross mk eig un ms c c' : alike c c' -> gross_properties mk laws' dens' eig un ms c' = gross_properties mk laws dens eig un ms c.
Proof.
  intros H. pose proof H as [F G]. unfold gross_properties.
  rewrite (alike_map alike_s surface_area surface_area _ _ alike_surface_area F).
  rewrite (alike_map alike_s (fun s => surface_area s * lw_tangent (laws (sf_law s)) 0) (fun s => surface_area s * lw_tangent (laws' (sf_law s)) 0) _ _) with (2 := F)
    by (intros a b A; rewrite (alike_surface_area _ _ A); destruct A as (_ & _ & -> & _); reflexivity).
  rewrite (alike_map alike_b (fun b => br_area b * lw_tangent (laws (br_law b)) 0) (fun b => br_area b * lw_tangent (laws' (br_law b)) 0) _ _) with (2 := G)
    by (intros a b (_ & _ & -> & -> & _); reflexivity).
  rewrite (alike_map alike_s (fun s => match dens (sf_law s) with Some d => surface_area s * d * / 10 ^ 9 | None => 0 end)
             (fun s => match dens' (sf_law s) with Some d => surface_area s * d * / 10 ^ 9 | None => 0 end) _ _) with (2 := F)
    by (intros a b A; rewrite (alike_surface_area _ _ A); destruct A as (_ & _ & _ & ->); reflexivity).
  rewrite (alike_map alike_b (fun b => match dens (br_law b) with Some d => br_area b * d * / 10 ^ 9 | None => 0 end)
             (fun b => match dens' (br_law b) with Some d => br_area b * d * / 10 ^ 9 | None => 0 end) _ _) with (2 := G)
    by (intros a b (_ & _ & -> & _ & ->); reflexivity).
  rewrite (alike_map alike_b br_area br_area _ _) with (2 := G) by (intros a b (_ & _ & -> & _); reflexivity).
  rewrite (alike_dummy _ _ H), (alike_elasticise _ _ H).
  destruct un as [p|]; [|reflexivity]. cbn [bind].
  destruct (area_moments mk unit_laws ms (dummy c)) as [[[[[a1 a2] a3] a4] a5]|]; [|reflexivity]. cbn [bind].
  destruct (elasticise laws c) as [eg|]; [|reflexivity]. cbn [bind].
  destruct (area_moments mk (snd eg) ms (fst eg)) as [[[[[b1 b2] b3] b4] b5]|]; [|reflexivity]. cbn [bind]. cbv zeta.
  set (ea := lsum _). pose proof (alike_translate (- (b2 / ea)) (- (b1 / ea)) _ _ H) as HT.
  rewrite (alike_dummy _ _ HT), (alike_elasticise _ _ HT). reflexivity.
Qed.
End Alike.

Lemma gross_from mk eig un ms g w g' w' dens dens' : lives_in w g -> comp_from None g w = Ok (g', w') ->
  (forall m, In m (materials_of g) -> 0 < lw_tangent (w_laws w (mt_id m)) 0) ->
  (forall m, In m (materials_of g) -> dens (mt_id m) = mt_density m) -> (forall m, In m (materials_of g') -> dens' (mt_id m) = mt_density m) ->
  gross_properties mk (w_laws w') dens' eig un ms (forget g') = gross_properties mk (w_laws w) dens eig un ms (forget g).
Proof.
  intros L E P D D'. destruct (elastic_from g w L P) as (g2 & w2 & E2 & F1 & F2 & _). rewrite E in E2. injection E2 as <- <-.
  apply alike_gross. unfold materials_of in *. split; cbn [forget cg_surf cg_bars].
  - assert (HD : forall s, In s (cp_surf g) -> dens (mt_id (sg_mat s)) = mt_density (sg_mat s)) by (intros; apply D, in_or_app; left; apply in_map; assumption).
    assert (HD' : forall s, In s (cp_surf g') -> dens' (mt_id (sg_mat s)) = mt_density (sg_mat s)) by (intros; apply D', in_or_app; left; apply in_map; assumption).
    clear - F1 HD HD'. induction F1 as [|a b la lb ((A & _) & T & _) FF IH]; [constructor|]. cbn [map]. constructor.
    + unfold alike_s. cbn. rewrite A, HD, HD' by (left; reflexivity). destruct T as (_ & _ & TD & T). repeat split; [apply T|exact TD].
    + apply IH; intros; [apply HD|apply HD']; right; assumption.
  - assert (HD : forall s, In s (cp_pnt g) -> dens (mt_id (pg_mat s)) = mt_density (pg_mat s)) by (intros; apply D, in_or_app; right; apply in_map; assumption).
    assert (HD' : forall s, In s (cp_pnt g') -> dens' (mt_id (pg_mat s)) = mt_density (pg_mat s)) by (intros; apply D', in_or_app; right; apply in_map; assumption).
    clear - F2 HD HD'. induction F2 as [|a b la lb ((A & B & _) & T) FF IH]; [constructor|]. cbn [map]. constructor.
    + unfold alike_b, pg_area. cbn. unfold pg_area. rewrite A, B, HD, HD' by (left; reflexivity). destruct T as (_ & _ & TD & T). repeat split; [apply T|exact TD].
    + apply IH; intros; [apply HD|apply HD']; right; assumption.
Qed.
