(** Lemmas for C50: the whole computation. *)
From Coquelicot Require Import Coquelicot.
From Verif Require Import Base M_Marin S_Marin L_Marin M_Laws S_Laws L_Laws L_LawsC M_Laws2 S_Laws2 L_Laws2 M_Fiber S_Fiber L_Fiber P_Fiber M_MarinInt S_MarinInt L_MarinInt L_MarinInt2 L_MarinInt3 L_MarinInt4 M_Section S_Section L_Section L_Section2 M_Gross S_Gross L_Gross L_Gross2 M_Geo M_Cracked S_Cracked L_Cracked L_Cracked2 L_Cracked3 L_Cracked4 L_Cracked5.
From Coq Require Import Lra Lia Permutation.

Lemma temporary_ok laws theta g : (forall s, In s (cp_surf g) -> sg_concrete s = true) ->
  (forall k, in_use (forget g) k -> 0 < stiffness0 laws k) ->
  temporary laws theta g = Ok (tg theta (forget g), tl (stiffness0 laws) (forget g),
    fun i => nth i (map sg_density (cp_surf g) ++ map pg_density (cp_pnt g)) None).
Proof.
  intros CC EP. unfold temporary, cracked_laws.
  rewrite (mapM_all _ (fun x : bool * nat => if fst x then ncl (stiffness0 laws (snd x)) else elastic_law {| el_E := stiffness0 laws (snd x); el_u := None |})).
  - cbn [bind]. unfold tg, tl. f_equal. f_equal. f_equal.
    + f_equal. cbn [rotate_geo cg_surf]. now rewrite map_length.
    + assert (X : map (fun x : bool * nat => if fst x then ncl (stiffness0 laws (snd x)) else elastic_law {| el_E := stiffness0 laws (snd x); el_u := None |})
          (map (fun s => (sg_concrete s, mt_id (sg_mat s))) (cp_surf g) ++ map (fun p => (false, mt_id (pg_mat p))) (cp_pnt g))
        = map (fun k => ncl (stiffness0 laws k)) (map sf_law (cg_surf (forget g))) ++ map (fun k => elastic_law {| el_E := stiffness0 laws k; el_u := None |}) (map br_law (cg_bars (forget g)))).
      { rewrite map_app. cbn [forget cg_surf cg_bars]. rewrite !map_map. f_equal. apply map_ext_in. intros s I. cbn [fst snd sf_law]. now rewrite (CC s I). }
      now rewrite X.
  - intros x I. apply in_app_or in I. destruct I as [I|I]; apply in_map_iff in I; destruct I as (s & <- & I); cbn [fst snd].
    + rewrite (CC s I). apply ncl_init.
    + assert (P : 0 < stiffness0 laws (mt_id (pg_mat s))).
      { apply EP. right. exists {| br_y := fst (pg_at s); br_z := snd (pg_at s); br_area := pg_area s; br_law := mt_id (pg_mat s) |}. split; [|reflexivity].
        cbn [forget cg_bars]. apply in_map_iff. eauto. }
      unfold cracked_law, elastic_init, stiffness0 in *. destruct (Rleb_spec (lw_tangent (laws (mt_id (pg_mat s))) 0) 0) as [N|N]; [lra|]. reflexivity.
Qed.

(** Weights attached to the parts by position. *)
Lemma number_surf_pos {A} (F : A -> surface) (w : nat -> R) (W : A -> R) (G : surface -> R) l : forall k,
  (forall s j, G {| sf_ext := sf_ext s; sf_ints := sf_ints s; sf_law := j |} = G s) ->
  (forall i a, nth_error l i = Some a -> w (k + i)%nat = W a) ->
  lsum (map (fun s => w (sf_law s) * G s) (number_surfaces k (map F l))) = lsum (map (fun a => W a * G (F a)) l).
Proof.
  induction l as [|a l IH]; intros k GI H; [reflexivity|]. cbn [map number_surfaces]. rewrite !lsum_cons. cbn [sf_law]. f_equal.
  - rewrite GI. f_equal. rewrite <- (H 0%nat a eq_refl). f_equal. lia.
  - apply IH; [exact GI|]. intros i b N. rewrite <- (H (S i) b N). f_equal. lia.
Qed.
Lemma number_bars_pos {A} (F : A -> bar) (w : nat -> R) (W : A -> R) (G : bar -> R) l : forall k,
  (forall s j, G {| br_y := br_y s; br_z := br_z s; br_area := br_area s; br_law := j |} = G s) ->
  (forall i a, nth_error l i = Some a -> w (k + i)%nat = W a) ->
  lsum (map (fun s => w (br_law s) * G s) (number_bars k (map F l))) = lsum (map (fun a => W a * G (F a)) l).
Proof.
  induction l as [|a l IH]; intros k GI H; [reflexivity|]. cbn [map number_bars]. rewrite !lsum_cons. cbn [br_law]. f_equal.
  - rewrite GI. f_equal. rewrite <- (H 0%nat a eq_refl). f_equal. lia.
  - apply IH; [exact GI|]. intros i b N. rewrite <- (H (S i) b N). f_equal. lia.
Qed.
Lemma surf_law_free phi s j : surface_integral phi {| sf_ext := sf_ext s; sf_ints := sf_ints s; sf_law := j |} = surface_integral phi s.
Proof. reflexivity. Qed.

Section Run.
Variables (laws : nat -> law) (eig : eigen) (un : compound -> union) (cutter : shapely_split) (centroid : polygon -> R * R) (ms theta : R) (g : comp).
Let g0 := forget g.
Let E := stiffness0 laws.
Hypothesis CC : forall s, In s (cp_surf g) -> sg_concrete s = true.
Hypothesis RC : rings_closed g0.
Hypothesis MO : moderate g0.
Hypothesis EP : forall k, in_use g0 k -> 0 < E k.
Hypothesis SO : forall s, In s (cp_surf g) -> solid (plain (outline theta s)).
Hypothesis CU : forall s c, In s (cp_surf g) -> cuts_at cutter centroid (outline theta s) c.
Hypothesis ONE : exists p, In p (cp_pnt g) /\ pg_diam p <> 0.

Lemma g0_surf s : In s (cg_surf g0) -> exists s1, In s1 (cp_surf g) /\ s = {| sf_ext := pl_ext (sg_poly s1); sf_ints := pl_ints (sg_poly s1); sf_law := mt_id (sg_mat s1) |}.
Proof. unfold g0. cbn [forget cg_surf]. intros I. apply in_map_iff in I. destruct I as (s1 & <- & I). eauto. Qed.
Lemma area_pos p : 0 <= pg_area p /\ (pg_diam p <> 0 -> 0 < pg_area p).
Proof.
  unfold pg_area. pose proof PI_RGT_0 as P. split.
  - assert (0 <= pg_diam p ^ 2) by apply pow2_ge_0. nra.
  - intros N. assert (0 < pg_diam p ^ 2) by (apply pow2_gt_0; exact N). nra.
Qed.
Lemma g0_area b : In b (cg_bars g0) -> 0 <= br_area b.
Proof. unfold g0. cbn [forget cg_bars]. intros I. apply in_map_iff in I. destruct I as (p & <- & _). apply area_pos. Qed.
Lemma g0_one : exists b, In b (cg_bars g0) /\ 0 < br_area b.
Proof.
  destruct ONE as (p & I & N). exists {| br_y := fst (pg_at p); br_z := snd (pg_at p); br_area := pg_area p; br_law := mt_id (pg_mat p) |}. split.
  - unfold g0. cbn [forget cg_bars]. apply in_map_iff. eauto.
  - cbn [br_area]. now apply area_pos.
Qed.
Lemma height_bound y z : y ^ 2 + z ^ 2 <= (10 ^ 6) ^ 2 -> - BIG <= height theta y z <= BIG.
Proof.
  intros H. assert (Q : height theta y z ^ 2 <= BIG ^ 2).
  { replace (BIG ^ 2) with ((10 ^ 6) ^ 2) by (unfold BIG; cbn [pow]; lra). unfold height. pose proof (sin2_cos2 theta) as Q. unfold Rsqr in Q.
    assert (0 <= (cos theta * y + sin theta * z) ^ 2) by apply pow2_ge_0.
    assert ((cos theta * z - sin theta * y) ^ 2 + (cos theta * y + sin theta * z) ^ 2 = y ^ 2 + z ^ 2).
    { transitivity ((sin theta * sin theta + cos theta * cos theta) * (y ^ 2 + z ^ 2)); [ring|rewrite Q; ring]. }
    lra. }
  assert (0 < BIG) by (unfold BIG; lra). split; nra.
Qed.
Lemma turn_height v : snd (turn (- theta) v) = height theta (fst v) (snd v).
Proof. unfold turn, height. cbn [snd]. rewrite cos_neg, sin_neg. ring. Qed.

Lemma equilibrium_here : weighted E (fun _ _ => 1) g0 <= 10 ^ 24 ->
  (Rabs (first_moment E theta g0 0) <= 1000 \/ forall m j, first_moment E theta g0 (100 * (IZR m / 2 ^ j)) <> 0) ->
  exists e, fst (fixed_curvature (marin_integ (tl E g0)) (tg theta g0) 0 curv 0 st_init) = Ok (e, curv, 0) /\
    Rabs (first_moment E theta g0 (- e / curv)) <= 1000.
Proof.
  intros EB NZ.
  destruct (equilibrium (T E g0) (tl E g0) (tg theta g0)) as (e & X & Y).
  - apply tl_batched.
  - intros s I. destruct (tg_surf E theta g0 s I) as (s0 & I0 & E1 & E2 & E3 & E4). split; [now rewrite E3|].
    assert (O : okay (turned (- theta) s0)) by (apply turned_okay; exact (RC s0 I0)). split.
    + split; [rewrite E1; exact (proj1 O)|rewrite E2; exact (proj2 O)].
    + destruct MO as [MS _]. split.
      * intros v J. rewrite E1 in J. cbn [turned sf_ext] in J. apply in_map_iff in J. destruct J as (u & <- & J). rewrite turn_height. apply height_bound. apply (MS s0 u I0). now left.
      * intros r v J K. rewrite E2 in J. cbn [turned sf_ints] in J. apply in_map_iff in J. destruct J as (r0 & <- & J).
        apply in_map_iff in K. destruct K as (u & <- & K). rewrite turn_height. apply height_bound. apply (MS s0 u I0). right. eauto.
  - intros b I. destruct (tg_bar E theta g0 b I) as (b0 & I0 & _ & _ & E3 & E4). now rewrite E3.
  - intros b b' I I'. unfold tg in *. cbn [cg_bars] in *. rewrite !number_bars_count by assumption. reflexivity.
  - intros s I. destruct (tg_surf E theta g0 s I) as (s0 & I0 & E1 & E2 & _). destruct (g0_surf s0 I0) as (s1 & I1 & ->).
    intros f F1 F2. specialize (SO s1 I1 f F1 F2). unfold surface_integral in *. rewrite E1, E2. exact SO.
  - intros s I. destruct (tg_surf E theta g0 s I) as (s0 & I0 & _ & _ & E3 & _). rewrite E3. apply EP. left. eauto.
  - intros b I. destruct (tg_bar E theta g0 b I) as (b0 & I0 & _ & A & E3 & _). rewrite E3, A. split; [apply EP; right; eauto|now apply g0_area].
  - intros b I. destruct (tg_bar E theta g0 b I) as (b0 & I0 & Z & _). rewrite Z. apply height_bound. now apply MO.
  - destruct g0_one as (b & I & P).
    assert (N : exists b', In b' (cg_bars (tg theta g0)) /\ br_area b' = br_area b).
    { unfold tg. cbn [cg_bars rotate_geo]. revert I. generalize (length (cg_surf g0)). induction (cg_bars g0) as [|x l IH]; intros n I; [contradiction|].
      cbn [map number_bars]. destruct I as [<-|I].
      - eexists. split; [now left|]. reflexivity.
      - destruct (IH (S n) I) as (b' & J & Q). exists b'. split; [now right|exact Q]. }
    destruct N as (b' & J & Q). exists b'. split; [exact J|]. now rewrite Q.
  - rewrite ea_first by exact RC. exact EB.
  - destruct NZ as [NZ|NZ]; [left|right].
    + now rewrite moment_first.
    + intros m j. rewrite moment_first. apply NZ.
  - exists e. split; [exact X|]. now rewrite <- (moment_first E theta g0).
Qed.

Lemma cuts_here c s : In s (cg_surf g0) -> cuts_at cutter centroid (poly_of (turned (- theta) s)) c.
Proof. intros I. destruct (g0_surf s I) as (s1 & I1 & ->). exact (CU s1 c I1). Qed.
Let dens : nat -> option R := fun i => nth i (map sg_density (cp_surf g) ++ map pg_density (cp_pnt g)) None.
Lemma dens_surf i s : nth_error (cp_surf g) i = Some s -> dens (0 + i)%nat = sg_density s.
Proof.
  intros N. assert (L : (i < length (cp_surf g))%nat) by (apply nth_error_Some; rewrite N; discriminate).
  unfold dens. change (0 + i)%nat with i. rewrite app_nth1 by (now rewrite map_length). apply nth_error_nth. now rewrite nth_error_map, N.
Qed.
Lemma dens_bar i p : nth_error (cp_pnt g) i = Some p -> dens (length (cg_surf g0) + i)%nat = pg_density p.
Proof.
  intros N. unfold g0, dens. cbn [forget cg_surf]. rewrite map_length. rewrite app_nth2 by (rewrite map_length; lia). rewrite map_length.
  replace (length (cp_surf g) + i - length (cp_surf g))%nat with i by lia. apply nth_error_nth. now rewrite nth_error_map, N.
Qed.
Lemma piece_area c q : In q (cg_surf (cracked theta g0 cutter centroid c)) -> surface_area q = surface_integral (fun _ _ => 1) q.
Proof.
  intros I. assert (O : okay q) by exact (cracked_closed E theta g0 cutter centroid c (cuts_here c) q I).
  rewrite surf_area by exact O. rewrite (surf_poly _ 1 0 0 0 0 0) by (exact O || (intros; ring)). ring.
Qed.
Lemma pieces_sum (w : nat -> R) c : lsum (map (fun s => w (sf_law s) * surface_area s) (cg_surf (cracked theta g0 cutter centroid c)))
  = lsum (map (fun s => w (sf_law s) * part_above c (fun _ _ => 1) s) (cg_surf (tg theta g0))).
Proof.
  transitivity (lsum (map (fun s => w (sf_law s) * surface_integral (fun _ _ => 1) s) (cg_surf (cracked theta g0 cutter centroid c)))).
  { apply lsum_map_ext. intros q I. now rewrite (piece_area c q I). }
  unfold cracked, cut. cbn [rotate_geo cg_surf]. rewrite map_map, lsum_flat_map. apply lsum_map_ext. intros s I.
  destruct (tg_surf E theta g0 s I) as (s0 & I0 & E1 & E2 & _).
  assert (CS : cuts_at cutter centroid (poly_of s) c) by (unfold poly_of; rewrite E1, E2; apply (cuts_here c s0 I0)).
  destruct (upper_spec cutter centroid c s CS) as [HP HI].
  specialize (HI 1 0 0 0 0 0). cbv zeta in HI.
  transitivity (w (sf_law s) * lsum (map (surface_integral (fun _ _ => 1)) (upper_part cutter centroid c s))).
  - rewrite <- lsum_map_scal. apply lsum_map_ext. intros q J. destruct (HP q J) as (O & _ & L). rewrite rotate_surface_turned. cbn [turned sf_law]. rewrite L. f_equal.
    change (surface_integral (fun _ _ => 1) (turned theta q) = surface_integral (fun _ _ => 1) q).
    now rewrite (turned_integral theta _ 1 0 0 0 0 0) by (exact O || (intros; ring)).
  - f_equal. etransitivity; [|etransitivity; [exact HI|]].
    + apply lsum_map_ext. intros q _. apply surf_ext. intros; ring.
    + unfold part_above. apply surf_ext. intros y z. destruct (Rlt_dec c z); [ring|reflexivity].
Qed.
Lemma run e r p : reinforced_concrete g = Ok (true, r) ->
  fst (fixed_curvature (marin_integ (tl E g0)) (tg theta g0) 0 curv 0 st_init) = Ok (e, curv, 0) ->
  let c := - e / curv in let cr := cracked theta g0 cutter centroid c in
  (un cr = ManyPolygons -> cracked_properties marin_integ laws eig un cutter centroid ms theta g = Err AttributeError) /\
  (un cr = OnePolygon p -> exists r, cracked_properties marin_integ laws eig un cutter centroid ms theta g = Ok (Some (r, cr)) /\
    classical (cracked_integral (fun _ => 1) theta c g0) (cracked_integral E theta c g0) r /\
    gp_perimeter r = p /\ gp_area r = lsum (map (area_above theta c) (cp_surf g)) /\ gp_area_reinforcement r = lsum (map pg_area (cp_pnt g)) /\
    gp_mass r = lsum (map (fun s => kg (sg_density s) * area_above theta c s) (cp_surf g)) + lsum (map (fun b => kg (pg_density b) * pg_area b) (cp_pnt g)) /\
    gp_ea r * (height theta (gp_cy r) (gp_cz r) - c) = first_moment E theta g0 c).
Proof.
  intros RCT X c cr.
  assert (CP : cracked_properties marin_integ laws eig un cutter centroid ms theta g =
    do r <- gross_properties marin_integ (tl E g0) dens eig (un cr) (1/100) cr; Ok (Some (r, cr))).
  { unfold cracked_properties. rewrite RCT. cbn [bind fst negb]. rewrite (temporary_ok laws theta g CC EP). cbn [bind]. fold g0 E dens.
    change cracked_curvature with curv. rewrite X. cbn [bind]. reflexivity. }
  rewrite CP. clear CP. split; [intros ->; reflexivity|]. intros ->.
  assert (RCC : rings_closed cr) by exact (cracked_closed E theta g0 cutter centroid c (cuts_here c)).
  assert (ST : forall phi, weighted (stiffness0 (tl E g0)) phi cr = weighted (T E g0) phi cr).
  { intros phi. unfold weighted. f_equal; apply lsum_map_ext; intros; now rewrite T_tangent. }
  destruct (gross_method marin_integ (tl E g0) dens eig p (1/100) cr weighted RCC) as (r' & Q & CL & PE & AR & RE & _ & _ & MA).
  - intros k U. rewrite T_tangent. exact (cracked_used E theta g0 cutter centroid c (cuts_here c) EP k U).
  - left. split; reflexivity.
  - rewrite ST. apply Rgt_not_eq. exact (cracked_stiff E theta g0 cutter centroid c (cuts_here c) EP g0_area g0_one).
  - exists r'. rewrite Q. cbn [bind]. split; [reflexivity|].
    assert (WC : forall f phi ca cb cc cd ce cf, (forall y z, phi y z = ca + cb * y + cc * z + cd * y ^ 2 + ce * y * z + cf * z ^ 2) ->
      weighted (fun k => f (T E g0 k)) phi cr = cracked_integral (fun k => f (E k)) theta c g0 phi).
    { intros. now apply (weighted_cracked E theta g0 cutter centroid c (cuts_here c) f phi ca cb cc cd ce cf). }
    split; [|split; [exact PE|split; [|split; [|split]]]].
    + refine (classical_agree _ _ _ _ _ _ CL). intros phi ca cb cc cd ce cf H. split.
      * exact (WC (fun _ => 1) phi ca cb cc cd ce cf H).
      * rewrite ST. exact (WC (fun x => x) phi ca cb cc cd ce cf H).
    + rewrite AR. pose proof (pieces_sum (fun _ => 1) c) as PS. fold cr in PS.
      etransitivity; [|etransitivity; [exact PS|]].
      * apply lsum_map_ext. intros; ring.
      * unfold tg, g0. cbn [cg_surf rotate_geo forget]. rewrite map_map.
        etransitivity; [apply (number_surf_pos _ (fun _ => 1) (fun _ => 1) (part_above c (fun _ _ => 1))); reflexivity|].
        apply lsum_map_ext. intros s _. rewrite Rmult_1_l, rotate_surface_turned. reflexivity.
    + rewrite RE. transitivity (lsum (map snd (map (fun b => (br_y b, br_z b, br_area b)) (cg_bars cr)))); [now rewrite map_map|].
      unfold cr. rewrite bars_back. unfold g0. cbn [forget cg_bars]. rewrite !map_map. reflexivity.
    + rewrite MA, lsum_app. f_equal.
      * pose proof (pieces_sum (fun k => kg (dens k)) c) as PS. fold cr in PS.
        etransitivity; [|etransitivity; [exact PS|]].
        { apply lsum_map_ext. intros s _. unfold kg. destruct (dens (sf_law s)); [unfold Rdiv; ring|ring]. }
        unfold tg, g0. cbn [cg_surf rotate_geo forget]. rewrite map_map.
        etransitivity; [apply (number_surf_pos _ (fun k => kg (dens k)) (fun s => kg (sg_density s)) (part_above c (fun _ _ => 1))); [reflexivity|]|].
        { intros i s N. now rewrite (dens_surf i s N). }
        apply lsum_map_ext. intros s _. rewrite rotate_surface_turned. reflexivity.
      * unfold cr, cracked, cut. cbn [cg_bars rotate_geo]. rewrite map_map.
        transitivity (lsum (map (fun b => kg (dens (br_law b)) * br_area b) (cg_bars (tg theta g0)))).
        { apply lsum_map_ext. intros s _. unfold kg. cbn [rotate_bar br_law br_area]. destruct (dens (br_law s)); [unfold Rdiv; ring|ring]. }
        unfold tg. cbn [cg_bars]. replace (cg_bars (rotate_geo (- theta) g0)) with (map (fun p => rotate_bar (- theta) {| br_y := fst (pg_at p); br_z := snd (pg_at p); br_area := pg_area p; br_law := mt_id (pg_mat p) |}) (cp_pnt g))
          by (unfold g0; cbn [rotate_geo forget cg_bars]; now rewrite map_map).
        etransitivity; [apply (number_bars_pos _ (fun k => kg (dens k)) (fun s => kg (pg_density s)) br_area); [reflexivity|]|].
        { intros i s N. now rewrite (dens_bar i s N). }
        reflexivity.
    + destruct CL as (C1 & _ & _ & _ & _ & _ & _ & _ & _ & _ & _ & CY & CZ & _).
      rewrite !ST in *. unfold first_moment.
      pose proof (WC (fun x => x) (fun y z => height theta y z - c) (- c) (- sin theta) (cos theta) 0 0 0 ltac:(intros; unfold height; ring)) as W1. cbv beta in W1.
      change (fun k => E k) with E in W1. change (fun k => T E g0 k) with (T E g0) in W1. rewrite <- W1. pose proof (weighted_ql (T E g0) cr RCC (fun y z => height theta y z - c) (- c) (- sin theta) (cos theta) 0 0 0 ltac:(intros; unfold height; ring)) as W2.
      cbv beta in W2. rewrite W2, C1. unfold height. rewrite <- CY, <- CZ. ring.
Qed.
End Run.
