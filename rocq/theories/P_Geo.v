(** Motions of geometries (C31), compound geometries (C33), cutting lines (C45),
    rectangles (C46). *)
From Verif Require Import Base M_Marin S_Marin L_Marin M_Laws M_Laws2 M_Fiber L_Fiber M_MarinInt L_MarinInt2 M_Section M_Gross M_Geo S_Geo L_Geo.
From Coq Require Import Lra Lia String.
Open Scope R_scope.
Open Scope list_scope.

(** * C31 *)
(** Every motion of a compound geometry moves all vertices and bars with one
    distance preserving map and keeps order, material, density, concrete flag,
    areas; bars keep name and label. *)
Theorem C31_motion_is_isometry : forall m f g c, motion_map m = Ok f ->
  (forall s, In s (cp_surf g) -> well_made s /\ sound_rings (sg_poly s)) ->
  exists g' c', apply_motion m g c = Ok (g', c') /\ isometry f /\
    Forall2 (image_of f) (cp_surf g) (cp_surf g') /\ Forall2 (image_of_point f) (cp_pnt g) (cp_pnt g').
Proof. intros m f g c M H. destruct (motion_image m f g c M H) as (g' & A & B). exists g'. eexists. split; [exact A|exact B]. Qed.
Print Assumptions C31_motion_is_isometry.

(** Which map it is. *)
Theorem C31_translate_map : forall dx dy, exists f, motion_map (Translate dx dy) = Ok f /\ forall p, f p = (fst p + dx, snd p + dy).
Proof. intros. eexists. split; [reflexivity|]. intros p. unfold translate_map, affine. f_equal; ring. Qed.
Print Assumptions C31_translate_map.
Theorem C31_rotate_map : forall a o, exists f f', motion_map (Rotate a o true) = Ok f /\ motion_map (Rotate (a * 180 / PI) o false) = Ok f' /\
  forall p, turned_by a o p (f p) /\ f' p = f p.
Proof.
  intros a o. eexists. eexists. split; [reflexivity|]. split; [reflexivity|]. intros p. split.
  - unfold turned_by, rotate_map, affine. cbn [fst snd]. split; ring.
  - unfold rotate_map. replace (a * 180 / PI * PI / 180) with a by (field; apply PI_neq0). reflexivity.
Qed.
Print Assumptions C31_rotate_map.
Theorem C31_mirror_map : forall a b, a <> b -> exists f, motion_map (Mirror [a; b]) = Ok f /\
  (forall p, mirror_image a b p (f p)) /\ (forall p, f (f p) = p) /\ f a = a /\ f b = b.
Proof.
  intros [x1 y1] [x2 y2] NE. destruct (mirror_explicit x1 y1 x2 y2) as (f & F & E). exists f. split; [exact F|].
  destruct (mirror_angle x1 y1 x2 y2 NE) as (r & HR & HX & HY). set (th := atan2 (y2 - y1) (x2 - x1)) in *. pose proof (cs1 th) as N.
  set (c := cos th) in *. set (s := sin th) in *. cbv zeta in E.
  split; [|split; [|split]].
  - intros [x y]. rewrite E. unfold mirror_image, affine. cbn [fst snd]. rewrite HX, HY. split.
    + transitivity (r * (c * (x - x1) + s * (y - y1)) * ((c ^ 2 + s ^ 2) - 1)); [ring|]. rewrite N. ring.
    + assert (Q : forall u v, (c ^ 2 + s ^ 2) * u = (c ^ 2 + s ^ 2) * v -> u = v) by (intros u v; rewrite N; lra).
      apply Rminus_diag_uniq. transitivity (r / 2 * (s * (x - x1) - c * (y - y1)) * (1 - (c ^ 2 + s ^ 2))); [field|]. rewrite N. ring.
  - intros [x y]. rewrite !E. unfold affine. cbn [fst snd].
    assert (Q : (c ^ 2 - s ^ 2) * (c ^ 2 - s ^ 2) + (2 * c * s) * (2 * c * s) = 1) by (transitivity ((c ^ 2 + s ^ 2) ^ 2); [ring|]; rewrite N; ring).
    f_equal.
    + transitivity (((c ^ 2 - s ^ 2) * (c ^ 2 - s ^ 2) + (2 * c * s) * (2 * c * s)) * (x - x1) + x1); [ring|]. rewrite Q. ring.
    + transitivity (((c ^ 2 - s ^ 2) * (c ^ 2 - s ^ 2) + (2 * c * s) * (2 * c * s)) * (y - y1) + y1); [ring|]. rewrite Q. ring.
  - rewrite E. unfold affine. cbn [fst snd]. f_equal; ring.
  - rewrite E. unfold affine. cbn [fst snd]. assert (X2 : x2 = x1 + r * c) by lra. assert (Y2 : y2 = y1 + r * s) by lra. rewrite X2, Y2. f_equal.
    + transitivity (x1 + r * c * (c ^ 2 + s ^ 2)); [ring|]. rewrite N. ring.
    + transitivity (y1 + r * s * (c ^ 2 + s ^ 2)); [ring|]. rewrite N. ring.
Qed.
Print Assumptions C31_mirror_map.
(** An axis that is not a line of two points is refused (unless there is nothing to mirror). *)
Theorem C31_mirror_bad_axis : forall axis g c, List.length axis <> 2%nat -> cp_surf g <> [] \/ cp_pnt g <> [] ->
  apply_motion (Mirror axis) g c = Err ValueError.
Proof.
  intros axis g c HL NE. assert (X : mirror_map axis = Err ValueError).
  { unfold mirror_map, mirror_matrix. destruct axis as [|[x1 y1] [|[x2 y2] [|]]]; try reflexivity. now contradiction HL. }
  unfold apply_motion. cbn [motion_map]. rewrite X. destruct (cp_surf g); [destruct (cp_pnt g)|]; [|reflexivity|reflexivity]. destruct NE; contradiction.
Qed.
Print Assumptions C31_mirror_bad_axis.

(** Composition laws, for the geometry a user gets back (vertices, bars,
    materials, flags; names of surfaces are counted up). *)
Definition same_content (g g' : comp) : Prop :=
  Forall2 (fun s s' => sg_poly s = sg_poly s' /\ sg_mat s = sg_mat s' /\ sg_concrete s = sg_concrete s') (cp_surf g) (cp_surf g') /\
  cp_pnt g = cp_pnt g'.
Lemma same_moves f h k g c c1 : (forall p, h (f p) = k p) ->
  same_content (fst (move_comp h (fst (move_comp f g c)) c1)) (fst (move_comp k g c)).
Proof.
  intros H. destruct (move_comp_spec f g c) as (ss & T & ->). cbn [fst].
  destruct (move_comp_spec k g c) as (ks & TK & ->). cbn [fst].
  destruct (move_comp_spec h {| cp_surf := ss; cp_pnt := map (move_pnt f) (cp_pnt g); cp_rc := RcNone |} c1) as (hs & TH & ->). cbn [fst cp_surf cp_pnt] in *.
  destruct (traverse_move f (cp_surf g) c) as (l1 & c1' & T1 & _ & F1 & _). rewrite T in T1. injection T1 as <- <-.
  destruct (traverse_move k (cp_surf g) c) as (l2 & c2' & T2 & _ & F2 & _). rewrite TK in T2. injection T2 as <- <-.
  destruct (traverse_move h ss c1) as (l3 & c3' & T3 & _ & F3 & _). rewrite TH in T3. injection T3 as <- <-.
  split; cbn [cp_surf cp_pnt].
  - clear T TK TH. revert ks hs F2 F3. induction F1 as [|s s1 l l1 P1 _ IH]; intros ks hs F2 F3; inversion F2; inversion F3; subst; constructor.
    + destruct P1 as (A1 & A2 & A3 & _). destruct H2 as (B1 & B2 & B3 & _). destruct H7 as (D1 & D2 & D3 & _).
      rewrite D1, D2, D3, B1, B2, B3, A1, A2, A3. split; [|split; [reflexivity|destruct (mt_is_concrete (sg_mat s)); reflexivity]].
      unfold map_poly. cbn [pl_ext pl_ints]. rewrite !map_map. f_equal; [apply map_ext; exact H|]. apply map_ext. intros r. rewrite map_map. apply map_ext. exact H.
    + apply IH; assumption.
  - rewrite map_map. apply map_ext. intros p. unfold move_pnt. cbn. rewrite H. reflexivity.
Qed.
Theorem C31_compose : forall g c,
  (forall a b a' b', exists g1 c1 g2 c2 g3 c3, apply_motion (Translate a b) g c = Ok (g1, c1) /\ apply_motion (Translate a' b') g1 c1 = Ok (g2, c2) /\
      apply_motion (Translate (a + a') (b + b')) g c = Ok (g3, c3) /\ same_content g2 g3) /\
  (forall a a' o, exists g1 c1 g2 c2 g3 c3, apply_motion (Rotate a o true) g c = Ok (g1, c1) /\ apply_motion (Rotate a' o true) g1 c1 = Ok (g2, c2) /\
      apply_motion (Rotate (a + a') o true) g c = Ok (g3, c3) /\ same_content g2 g3) /\
  (forall x y, x <> y -> exists g1 c1 g2 c2 g3 c3, apply_motion (Mirror [x; y]) g c = Ok (g1, c1) /\ apply_motion (Mirror [x; y]) g1 c1 = Ok (g2, c2) /\
      apply_motion (Translate 0 0) g c = Ok (g3, c3) /\ same_content g2 g3).
Proof.
  intros g c.
  assert (GO : forall m1 m2 m3 f1 f2 f3, motion_map m1 = Ok f1 -> motion_map m2 = Ok f2 -> motion_map m3 = Ok f3 -> (forall p, f2 (f1 p) = f3 p) ->
    exists g1 c1 g2 c2 g3 c3, apply_motion m1 g c = Ok (g1, c1) /\ apply_motion m2 g1 c1 = Ok (g2, c2) /\ apply_motion m3 g c = Ok (g3, c3) /\ same_content g2 g3).
  { intros m1 m2 m3 f1 f2 f3 M1 M2 M3 H.
    exists (fst (move_comp f1 g c)), (snd (move_comp f1 g c)).
    exists (fst (move_comp f2 (fst (move_comp f1 g c)) (snd (move_comp f1 g c)))), (snd (move_comp f2 (fst (move_comp f1 g c)) (snd (move_comp f1 g c)))).
    exists (fst (move_comp f3 g c)), (snd (move_comp f3 g c)).
    split; [rewrite (apply_ok m1 f1 g c M1); now rewrite <- surjective_pairing|].
    split; [rewrite (apply_ok m2 f2 _ _ M2); now rewrite <- surjective_pairing|].
    split; [rewrite (apply_ok m3 f3 g c M3); now rewrite <- surjective_pairing|]. apply same_moves. exact H. }
  split; [|split].
  - intros a b a' b'. apply (GO (Translate a b) (Translate a' b') (Translate (a + a') (b + b')) _ _ _ eq_refl eq_refl eq_refl). intros p. unfold translate_map, affine. cbn [fst snd]. f_equal; ring.
  - intros a a' o. apply (GO (Rotate a o true) (Rotate a' o true) (Rotate (a + a') o true) _ _ _ eq_refl eq_refl eq_refl). intros p. unfold rotate_map, affine. cbn [fst snd]. rewrite cos_plus, sin_plus. f_equal; ring.
  - intros x y NE. destruct (C31_mirror_map x y NE) as (f & F & _ & II & _). apply (GO (Mirror [x; y]) (Mirror [x; y]) (Translate 0 0) f f (translate_map 0 0) F F eq_refl).
    intros p. rewrite II. unfold translate_map, affine. destruct p. cbn [fst snd]. f_equal; ring.
Qed.
Print Assumptions C31_compose.

(** The integrators' model of a moved section (C21, C25, C30) is this one. *)
Theorem C31_link : forall g c a,
  (forall dx dy, forget (fst (move_comp (translate_map dx dy) g c)) = translate_geo dx dy (forget g)) /\
  forget (fst (move_comp (rotate_map a (0, 0) true) g c)) = rotate_geo a (forget g).
Proof.
  intros g c a.
  assert (GO : forall f g2, (forall p, f p = g2 p) -> forget (fst (move_comp f g c)) =
    {| cg_surf := map (fun s => {| sf_ext := map g2 (sf_ext s); sf_ints := map (map g2) (sf_ints s); sf_law := sf_law s |}) (cg_surf (forget g));
       cg_bars := map (fun b => {| br_y := fst (g2 (br_y b, br_z b)); br_z := snd (g2 (br_y b, br_z b)); br_area := br_area b; br_law := br_law b |}) (cg_bars (forget g)) |}).
  { intros f g2 H. destruct (move_comp_spec f g c) as (ss & T & ->). cbn [fst]. unfold forget. cbn [cp_surf cp_pnt cg_surf cg_bars]. f_equal.
    - destruct (traverse_move f (cp_surf g) c) as (l1 & c1' & T1 & _ & F1 & _). rewrite T in T1. injection T1 as <- <-. clear T.
      induction F1 as [|s s1 l l1 (P1 & P2 & _) _ IH]; [reflexivity|]. cbn [map]. rewrite IH. f_equal. rewrite P1, P2. cbn [map_poly pl_ext pl_ints sf_ext sf_ints sf_law].
      f_equal; [apply map_ext; exact H|]. apply map_ext. intros r. apply map_ext. exact H.
    - rewrite !map_map. apply map_ext. intros p. cbn. rewrite H. destruct (pg_at p). reflexivity. }
  split.
  - intros dx dy. rewrite (GO (translate_map dx dy) (move dx dy)) by (intros p; unfold translate_map, affine, move; f_equal; ring). reflexivity.
  - rewrite (GO (rotate_map a (0, 0) true) (rot a)) by (intros p; unfold rotate_map, affine, rot; cbn [fst snd]; f_equal; ring). reflexivity.
Qed.
Print Assumptions C31_link.

(** Code fact: surfaces lose name and group label in every motion. *)
Theorem C31_surface_labels_refuted : forall m f g c, motion_map m = Ok f ->
  exists g' c', apply_motion m g c = Ok (g', c') /\ Forall (fun s => sg_group s = None) (cp_surf g') /\
    map sg_name (cp_surf g') = map Auto (seq c (List.length (cp_surf g))).
Proof.
  intros m f g c M. rewrite (apply_ok m f g c M). destruct (move_comp_spec f g c) as (ss & T & ->). eexists. eexists. split; [reflexivity|]. cbn [cp_surf].
  destruct (traverse_move f (cp_surf g) c) as (l1 & c1' & T1 & _ & F1 & N). rewrite T in T1. injection T1 as <- <-. split; [|exact N].
  clear T N. induction F1 as [|s s1 l l1 (_ & _ & _ & P) _ IH]; constructor; assumption.
Qed.
Print Assumptions C31_surface_labels_refuted.

(** * C33 *)
Theorem C33_nested_construction : forall l,
  cp_surf (compound_of (map build l)) = flat_map tree_surfaces l /\ cp_pnt (compound_of (map build l)) = flat_map tree_points l.
Proof.
  intros l. rewrite compound_of_spec. cbn [cp_surf cp_pnt]. induction l as [|t l [I1 I2]]; [split; reflexivity|]. cbn [map flat_map].
  destruct (build_spec t) as [-> ->]. rewrite I1, I2. split; reflexivity.
Qed.
Print Assumptions C33_nested_construction.
Theorem C33_addition : forall a b d,
  cp_surf (add_part a b) = part_surfaces a ++ part_surfaces b /\ cp_pnt (add_part a b) = part_points a ++ part_points b /\
  cp_surf (add_part (PComp (add_part a b)) d) = cp_surf (add_part a (PComp (add_part b d))) /\
  cp_pnt (add_part (PComp (add_part a b)) d) = cp_pnt (add_part a (PComp (add_part b d))) /\
  comp_area (add_part a b) = comp_area (compound_of [a]) + comp_area (compound_of [b]).
Proof.
  intros a b d. unfold add_part. rewrite !compound_of_spec. cbn [flat_map cp_surf cp_pnt part_surfaces part_points]. rewrite !app_nil_r, !app_assoc.
  repeat split. unfold comp_area. cbn [cp_surf].
  assert (X : forall l x, fold_left (fun a0 s => a0 + sg_area s) l x = x + lsum (map sg_area l)).
  { induction l as [|s l IH]; intros x; cbn [fold_left map]; [rewrite lsum_nil; ring|]. rewrite IH, lsum_cons. ring. }
  rewrite !X, map_app, lsum_app. ring.
Qed.
Print Assumptions C33_addition.
Theorem C33_area_is_sum : forall g, comp_area g = lsum (map sg_area (cp_surf g)).
Proof.
  intros g. unfold comp_area. assert (X : forall l x, fold_left (fun a0 s => a0 + sg_area s) l x = x + lsum (map sg_area l)).
  { induction l as [|s l IH]; intros x; cbn [fold_left map]; [rewrite lsum_nil; ring|]. rewrite IH, lsum_cons. ring. }
  rewrite X. ring.
Qed.
Print Assumptions C33_area_is_sum.
(** The extents contain all vertices of all surfaces and touch one on each side. *)
Theorem C33_extents : forall g,
  (forall s v, In s (cp_surf g) -> In v (pl_ext (sg_poly s)) -> vertex_in (comp_extents g) v) /\
  (cp_surf g <> [] -> (forall s, In s (cp_surf g) -> pl_ext (sg_poly s) <> []) ->
   (forall s v, In s (cp_surf g) -> In v (pl_ext (sg_poly s)) -> Rabs (fst v) < 10 ^ 16 /\ Rabs (snd v) < 10 ^ 16) ->
   let has P := exists s v, In s (cp_surf g) /\ In v (pl_ext (sg_poly s)) /\ P v in
   let '(x0, x1, y0, y1) := comp_extents g in
   has (fun v => x0 = fst v) /\ has (fun v => x1 = fst v) /\ has (fun v => y0 = snd v) /\ has (fun v => y1 = snd v)).
Proof.
  intros g. pose proof (ext_fold (cp_surf g) (10 ^ 16, - 10 ^ 16, 10 ^ 16, - 10 ^ 16)) as X.
  change (fold_left ext_step (cp_surf g) (10 ^ 16, - 10 ^ 16, 10 ^ 16, - 10 ^ 16)) with (comp_extents g) in X.
  destruct (comp_extents g) as [[[a b] c] d]. cbv beta zeta in X. destruct X as (H1 & H2 & H3 & H4 & HB & HT). split; [exact HB|].
  intros NE NR BD has. destruct (HT NR) as (T1 & T2 & T3 & T4).
  destruct (cp_surf g) as [|s ss] eqn:ES; [contradiction|]. pose proof (NR s (or_introl eq_refl)) as NS. destruct (pl_ext (sg_poly s)) as [|v r] eqn:EV; [contradiction|].
  assert (IV : In v (pl_ext (sg_poly s))) by (rewrite EV; now left).
  destruct (BD s v (or_introl eq_refl) IV) as [B1 B2]. apply Rabs_def2 in B1. apply Rabs_def2 in B2.
  pose proof (HB s v (or_introl eq_refl) IV) as HV. unfold vertex_in in HV.
  split; [|split; [|split]].
  - destruct T1 as [T|T]; [exfalso; rewrite T in HV; lra|exact T].
  - destruct T2 as [T|T]; [exfalso; rewrite T in HV; lra|exact T].
  - destruct T3 as [T|T]; [exfalso; rewrite T in HV; lra|exact T].
  - destruct T4 as [T|T]; [exfalso; rewrite T in HV; lra|exact T].
Qed.
Print Assumptions C33_extents.
Definition conc : material := {| mt_id := 0; mt_is_concrete := true; mt_density := Some 2500 |}.
Definition steel : material := {| mt_id := 1; mt_is_concrete := false; mt_density := Some 7850 |}.
Definition unit_poly : polygon := {| pl_ext := [(0, 0); (1, 0); (1, 1); (0, 1); (0, 0)]; pl_ints := [] |}.
Definition block : surf := {| sg_poly := unit_poly; sg_mat := conc; sg_concrete := true; sg_name := Auto 0; sg_group := Some "web"%string |}.
Definition outside_bar : pnt := {| pg_at := (5, 5); pg_diam := 1/10; pg_mat := steel; pg_name := Auto 1; pg_group := None |}.
(** Code fact: bars are not considered by the extents. *)
Theorem C33_extents_ignore_bars_refuted : exists g p, In p (cp_pnt g) /\ cp_surf g <> [] /\ ~ vertex_in (comp_extents g) (pg_at p).
Proof.
  exists (compound_of [PSurf block; PPnt outside_bar]), outside_bar. split; [now left|]. split; [discriminate|].
  intros H. unfold vertex_in in H. cbn in H. destruct H as [[_ H] _].
  unfold Rmax, Rmin in H. repeat (match goal with _ : context[Rle_dec ?a ?b] |- _ => destruct (Rle_dec a b) end); lra.
Qed.
Print Assumptions C33_extents_ignore_bars_refuted.
(** Subtraction keeps order, materials and bars; a point changes nothing. *)
Theorem C33_subtraction : forall diff g other c g' c', comp_sub diff g other c = Ok (g', c') ->
  map sg_mat (cp_surf g') = map sg_mat (cp_surf g) /\ cp_pnt g' = cp_pnt g /\
  (forall p, other = PPnt p -> g' = g) /\
  (forall o, other = PSurf o -> Forall2 (fun s s' => diff (sg_poly s) (sg_poly o) = Some (sg_poly s')) (cp_surf g) (cp_surf g')) /\
  (forall s', In s' (cp_surf g') -> (forall p, other <> PPnt p) -> sg_concrete s' = mt_is_concrete (sg_mat s')).
Proof.
  intros diff g other c g' c' H. unfold comp_sub in H.
  assert (X : forall l c ss c1, traverseE (fun s => surf_sub diff s other) l c = Ok (ss, c1) ->
    map sg_mat ss = map sg_mat l /\ (forall o, other = PSurf o -> Forall2 (fun s s' => diff (sg_poly s) (sg_poly o) = Some (sg_poly s')) l ss) /\
    (forall s', In s' ss -> sg_concrete s' = mt_is_concrete (sg_mat s'))).
  { clear. induction l as [|s l IH]; intros c ss c1 H; cbn [traverseE] in H.
    - injection H as <- <-. repeat split; [intros; constructor|intros s' []].
    - unfold surf_sub in H at 1. destruct (match other with PSurf o => _ | _ => _ end) as [q|] eqn:D; [|discriminate]. cbn [bind fst snd] in H.
      destruct (traverseE _ l _) as [[r c2]|e] eqn:T; [|discriminate]. cbn [bind fst snd] in H. injection H as <- <-.
      destruct (IH _ _ _ T) as (A & B & C). unfold new_surf, new_name. cbn [fst map sg_mat]. split; [rewrite A; reflexivity|]. split.
      + intros o ->. constructor; [exact D|apply B; reflexivity].
      + intros s' [<- | J]; [cbn; destruct (mt_is_concrete (sg_mat s)); reflexivity|apply C, J]. }
  assert (Y : (exists p, other = PPnt p) \/ (forall p, other <> PPnt p)).
  { destruct other as [s|p|h|]; [right; discriminate|left; exists p; reflexivity|right; discriminate|right; discriminate]. }
  destruct Y as [(p & ->)|NP].
  - injection H as <- <-. repeat split; [intros o Q; discriminate|]. intros s' _ Q. exfalso. exact (Q p eq_refl).
  - assert (H' : exists ss c1, traverseE (fun s => surf_sub diff s other) (cp_surf g) c = Ok (ss, c1) /\ g' = compound_of (map PSurf ss ++ map PPnt (cp_pnt g))).
    { destruct other as [s|p|h|]; [|exfalso; exact (NP p eq_refl)| |];
      (destruct (traverseE _ (cp_surf g) c) as [[ss c1]|e] eqn:T; [|discriminate]; cbn [bind fst snd] in H; injection H as <- <-; exists ss, c1; split; reflexivity). }
    destruct H' as (ss & c1 & T & ->). destruct (X _ _ _ _ T) as (A & B & C).
    rewrite compound_of_spec, !flat_map_app. destruct (flat_surf ss) as [-> ->]. destruct (flat_pnt (fun p => p) (cp_pnt g)) as [FP1 FP2]; change (fun p : pnt => PPnt p) with PPnt in FP1, FP2; rewrite FP1, FP2. rewrite app_nil_r, map_id. cbn [cp_surf cp_pnt app].
    split; [exact A|]. split; [reflexivity|]. split; [intros p Q; exfalso; exact (NP p Q)|]. split; [exact B|]. intros s' J _. exact (C s' J).
Qed.
Print Assumptions C33_subtraction.
(** Code fact: a concrete flag given by the user is lost in a subtraction. *)
Theorem C33_subtraction_flag_refuted : exists s o diff s' c',
  sg_concrete s = true /\ surf_sub diff s (PSurf o) 0 = Ok (s', c') /\ sg_concrete s' = false /\ sg_group s' <> sg_group s.
Proof.
  exists {| sg_poly := unit_poly; sg_mat := steel; sg_concrete := true; sg_name := Auto 0; sg_group := Some "web"%string |}, block, (fun p _ => Some p).
  eexists. eexists. split; [reflexivity|]. split; [reflexivity|]. split; [reflexivity|discriminate].
Qed.
Print Assumptions C33_subtraction_flag_refuted.
(** Reinforced concrete: any concrete surface; reading twice gives the same. *)
Theorem C33_reinforced_concrete : forall l, let g := compound_of l in
  exists b g', reinforced_concrete g = Ok (b, g') /\ (b = true <-> exists s, In s (cp_surf g) /\ sg_concrete s = true) /\
    reinforced_concrete g' = Ok (b, g') /\ cp_surf g' = cp_surf g /\ cp_pnt g' = cp_pnt g.
Proof.
  intros l g. unfold reinforced_concrete. replace (cp_rc g) with RcNone by (unfold g; rewrite compound_of_spec; reflexivity).
  eexists. eexists. split; [reflexivity|]. split; [apply existsb_exists|]. repeat split.
Qed.
Print Assumptions C33_reinforced_concrete.
(** From a MultiPolygon: one surface per polygon, in order, materials matched or refused... *)
Theorem C33_multipolygon : forall ps ms c,
  (List.length ps = List.length ms -> exists g c', compound_of_multi ps (ManyMaterials ms) c = Ok (g, c') /\
     map sg_poly (cp_surf g) = ps /\ map sg_mat (cp_surf g) = ms /\ cp_pnt g = []) /\
  (List.length ps <> List.length ms -> compound_of_multi ps (ManyMaterials ms) c = Err ValueError) /\
  (forall m, exists g c', compound_of_multi ps (OneMaterial m) c = Ok (g, c') /\ map sg_poly (cp_surf g) = ps /\
     (forall s, In s (cp_surf g) -> sg_mat s = m) /\ cp_pnt g = []).
Proof.
  intros ps ms c. split; [|split].
  - intros HL. unfold compound_of_multi, process_multi. rewrite (proj2 (Nat.eqb_eq _ _) HL). cbn [bind]. eexists. eexists. split; [reflexivity|]. cbn [cp_surf cp_pnt].
    assert (X : forall l c, map sg_poly (fst (traverse (fun pm => new_surf (fst pm) (snd pm) false None None) l c)) = map fst l /\
       map sg_mat (fst (traverse (fun pm => new_surf (fst pm) (snd pm) false None None) l c)) = map snd l).
    { clear. induction l as [|[p m] l IH]; intros c; [split; reflexivity|]. cbn [traverse]. unfold new_surf at 1 3, new_name. cbn [fst snd].
      destruct (IH (S c)) as [I1 I2]. destruct (traverse _ l (S c)) as [r c']. cbn [fst map] in *. rewrite I1, I2. split; reflexivity. }
    destruct (X (combine ps ms) c) as [E1 E2]. split; [etransitivity; [exact E1|]|split; [etransitivity; [exact E2|]|reflexivity]].
    + clear E1 E2 X. revert ms HL. induction ps as [|p ps IH]; intros [|m ms] HL; try discriminate; [reflexivity|]. cbn [combine map fst]. f_equal. apply IH. now injection HL.
    + clear E1 E2 X. revert ms HL. induction ps as [|p ps IH]; intros [|m ms] HL; try discriminate; [reflexivity|]. cbn [combine map snd]. f_equal. apply IH. now injection HL.
  - intros HL. unfold compound_of_multi, process_multi. rewrite (proj2 (Nat.eqb_neq _ _) HL). reflexivity.
  - intros m. unfold compound_of_multi, process_multi. cbn [bind]. eexists. eexists. split; [reflexivity|]. cbn [cp_surf cp_pnt].
    assert (X : forall l c, map sg_poly (fst (traverse (fun p => new_surf p m false None None) l c)) = l /\
       forall s, In s (fst (traverse (fun p => new_surf p m false None None) l c)) -> sg_mat s = m).
    { clear. induction l as [|p l IH]; intros c; [split; [reflexivity|intros s []]|]. cbn [traverse]. unfold new_surf at 1 3, new_name. 
      destruct (IH (S c)) as [I1 I2]. destruct (traverse _ l (S c)) as [r c']. cbn [fst map] in *. rewrite I1. split; [reflexivity|]. intros s [<- | J]; [reflexivity|now apply I2]. }
    destruct (X ps c) as [E1 E2]. split; [exact E1|]. split; [exact E2|reflexivity].
Qed.
Print Assumptions C33_multipolygon.
(** ... code facts: without materials all polygons are dropped silently, and the
    resulting object does not know whether it is reinforced concrete. *)
Theorem C33_multipolygon_refuted : forall ps c,
  (exists g c', compound_of_multi ps NoMaterials c = Ok (g, c') /\ cp_surf g = []) /\
  (forall ms g c', compound_of_multi ps ms c = Ok (g, c') -> reinforced_concrete g = Err AttributeError).
Proof.
  intros ps c. split; [eexists; eexists; split; reflexivity|]. intros ms g c' H. unfold compound_of_multi in H.
  destruct (process_multi ps ms c) as [x|e]; [|discriminate]. cbn [bind] in H. injection H as <- <-. reflexivity.
Qed.
Print Assumptions C33_multipolygon_refuted.

(** * C45: cutting lines *)
Theorem C45_line_through_point : forall p theta bbox, let l := line_point_angle p theta bbox in
  on_line p theta (fst l) /\ on_line p theta (snd l).
Proof.
  intros p theta [[[b0 b1] b2] b3] l. unfold l, line_point_angle, on_line. destruct (Rltb_spec (/ 10 ^ 8) (Rabs (cos theta))) as [H|H]; cbn [fst snd].
  - assert (NC : cos theta <> 0) by (intros Q; rewrite Q, Rabs_R0 in H; assert (0 < / 10 ^ 8) by (apply Rinv_0_lt_compat, pow_lt; lra); lra).
    split; field; exact NC.
  - assert (NS : sin theta <> 0).
    { intros Q. pose proof (sin2_cos2 theta) as N. rewrite Q in N. unfold Rsqr in N.
      assert (/ 10 ^ 8 <= / 10) by (apply Rinv_le_contravar; [lra|]; cbn [pow]; lra).
      assert (C1 : Rabs (cos theta) <= / 10) by lra. assert (cos theta * cos theta = Rabs (cos theta) * Rabs (cos theta)) by (rewrite <- Rabs_mult, Rabs_pos_eq; [reflexivity|nra]).
      pose proof (Rabs_pos (cos theta)). nra. }
    split; field; exact NS.
Qed.
Print Assumptions C45_line_through_point.
(** Unless nearly vertical it spans the box sideways. *)
Theorem C45_line_spans : forall p theta b0 b1 b2 b3, / 10 ^ 8 < Rabs (cos theta) ->
  let l := line_point_angle p theta (b0, b1, b2, b3) in fst (fst l) < b0 /\ b2 < fst (snd l).
Proof.
  intros p theta b0 b1 b2 b3 H l. unfold l, line_point_angle. destruct (Rltb_spec (/ 10 ^ 8) (Rabs (cos theta))); [|contradiction]. cbn [fst snd]. lra.
Qed.
Print Assumptions C45_line_spans.
(** Code fact: a vertical line stops at the largest abscissa instead of the
    largest ordinate, below the top of a box that is higher than wide. *)
Theorem C45_vertical_line_refuted : forall p b0 b1 b2 b3, b2 + /1000 < b3 ->
  snd (snd (line_point_angle p (PI / 2) (b0, b1, b2, b3))) < b3.
Proof.
  intros p b0 b1 b2 b3 H. unfold line_point_angle. rewrite cos_PI2, Rabs_R0.
  destruct (Rltb_spec (/ 10 ^ 8) 0) as [Q|_]; [assert (0 < / 10 ^ 8) by (apply Rinv_0_lt_compat, pow_lt; lra); lra|]. cbn [fst snd]. exact H.
Qed.
Print Assumptions C45_vertical_line_refuted.
(** Splitting sorts the pieces by the side their centroid lies on, each exactly once, in order. *)
Theorem C45_split_sides : forall (A : Type) line (pieces : list A) centroid, let r := split_pieces line pieces centroid in
  (forall x, In x (fst r) <-> In x pieces /\ left_of (fst line) (snd line) (centroid x)) /\
  (forall x, In x (snd r) <-> In x pieces /\ ~ left_of (fst line) (snd line) (centroid x)) /\
  (List.length (fst r) + List.length (snd r))%nat = List.length pieces.
Proof.
  intros A line pieces centroid.
  assert (X : forall l acc, fold_left (fun (acc : list A * list A) g =>
    if is_ccw3 (fst line) (snd line) (centroid g) then (fst acc ++ [g], snd acc) else (fst acc, snd acc ++ [g])) l acc =
    (fst acc ++ filter (fun g => is_ccw3 (fst line) (snd line) (centroid g)) l, snd acc ++ filter (fun g => negb (is_ccw3 (fst line) (snd line) (centroid g))) l)).
  { induction l as [|x l IH]; intros [u v]; cbn [fold_left filter]; [now rewrite !app_nil_r|]. rewrite IH.
    destruct (is_ccw3 _ _ (centroid x)); cbn [fst snd negb]; rewrite <- app_assoc; reflexivity. }
  intros r. unfold r, split_pieces. rewrite X. cbn [fst snd app].
  assert (IS : forall x, is_ccw3 (fst line) (snd line) (centroid x) = true <-> left_of (fst line) (snd line) (centroid x)).
  { intros x. unfold is_ccw3, left_of. apply Rltb_true. }
  split; [|split].
  - intros x. rewrite filter_In, IS. reflexivity.
  - intros x. rewrite filter_In, negb_true_iff. split; intros [I H]; split; try exact I.
    + intros Q. apply IS in Q. congruence.
    + destruct (is_ccw3 _ _ (centroid x)) eqn:E; [|reflexivity]. exfalso. apply H, IS, E.
  - clear. induction pieces as [|x l IH]; [reflexivity|]. cbn [filter]. destruct (is_ccw3 _ _ (centroid x)); cbn [negb List.length]; lia.
Qed.
Print Assumptions C45_split_sides.

(** * C46: rectangles *)
Theorem C46_rectangle : forall w h m cf o name group c, 0 < w -> 0 < h ->
  (o = None \/ exists y z, o = Some [y; z]) ->
  let '(oy, oz) := match o with Some [y; z] => (y, z) | _ => (0, 0) end in
  exists s c', rectangle w h m cf o name group c = Ok (s, c') /\ well_made s /\ sound_rings (sg_poly s) /\ sg_area s = w * h /\
    surf_extents s = (oy - w / 2, oy + w / 2, oz - h / 2, oz + h / 2) /\ sg_mat s = m /\ sg_group s = group.
Proof.
  intros w h m cf o name group c HW HH HO. unfold rectangle. destruct (Rleb_spec w 0); [lra|]. destruct (Rleb_spec h 0); [lra|].
  assert (X : exists oy oz, match o with None => Ok (0, 0) | Some [a; b] => Ok (a, b) | Some _ => Err ValueError end = Ok (oy, oz) /\ match o with Some [y; z] => (y, z) | _ => (0, 0) end = (oy, oz)).
  { destruct HO as [-> | (y & z & ->)]; eexists; eexists; split; reflexivity. }
  destruct X as (oy & oz & -> & ->). cbn [bind fst snd].
  set (ring := [_; _; _; _; _]). unfold new_surf.
  assert (EN : exists nm c', new_name name c = (nm, c')) by (destruct (new_name name c); eexists; eexists; reflexivity). destruct EN as (nm & c' & ->).
  eexists. eexists. split; [reflexivity|]. cbn [sg_poly sg_mat sg_group sg_concrete].
  split; [unfold well_made; cbn; intros ->; reflexivity|]. split; [split; [reflexivity|intros r []]|]. split.
  - unfold sg_area, poly_area. cbn [sg_poly pl_ext pl_ints map]. rewrite lsum_nil, shoe_shoelace. unfold ring, shoelace. cbn. unfold cross. cbn [fst snd].
    match goal with |- Rabs ?x - 0 = _ => replace x with (w * h) by field end. rewrite Rabs_pos_eq; [ring|]. nra.
  - split; [|split; reflexivity]. unfold surf_extents, bounds. cbn [sg_poly pl_ext]. unfold ring. cbn [fold_min fold_max fold_left fst snd].
    assert (T4 : forall a b c d a' b' c' d' : R, a = a' -> b = b' -> c = c' -> d = d' -> (a, b, c, d) = (a', b', c', d')) by (intros; subst; reflexivity).
    apply T4; repeat (match goal with
      | |- context[Rmin ?a ?b] => first [rewrite (Rmin_left a b) by lra|rewrite (Rmin_right a b) by lra]
      | |- context[Rmax ?a ?b] => first [rewrite (Rmax_left a b) by lra|rewrite (Rmax_right a b) by lra] end); lra.
Qed.
Print Assumptions C46_rectangle.
Theorem C46_rectangle_rejects : forall w h m cf o name group c,
  w <= 0 \/ h <= 0 \/ (exists l, o = Some l /\ List.length l <> 2%nat) -> rectangle w h m cf o name group c = Err ValueError.
Proof.
  intros w h m cf o name group c H. unfold rectangle. destruct (Rleb_spec w 0); [reflexivity|]. destruct (Rleb_spec h 0); [reflexivity|].
  destruct H as [H|[H|(l & -> & H)]]; [lra|lra|]. destruct l as [|a [|b [|]]]; try reflexivity. now contradiction H.
Qed.
Print Assumptions C46_rectangle_rejects.

(** * Non-vacuity *)
Example geo_example : comp := compound_of [PSurf block; PPnt outside_bar].
Example C31_applies : (exists f, motion_map (Mirror [(0, 0); (1, 2)]) = Ok f) /\ forall s, In s (cp_surf geo_example) -> well_made s /\ sound_rings (sg_poly s).
Proof.
  split; [destruct (C31_mirror_map (0, 0) (1, 2)) as (f & F & _); [intros Q; injection Q; lra|exists f; exact F]|].
  intros s [<- | []]. split; [intros _; reflexivity|]. split; [reflexivity|intros r []].
Qed.
Example C33_tree_example : cp_surf (compound_of (map build [TNode [TSurf block; TNode [TPnt outside_bar; TSurf block]]; TPnt outside_bar])) = [block; block].
Proof. destruct (C33_nested_construction [TNode [TSurf block; TNode [TPnt outside_bar; TSurf block]]; TPnt outside_bar]) as [-> _]. reflexivity. Qed.
