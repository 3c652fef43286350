From Verif Require Import Base M_Marin S_Marin L_Marin M_Laws M_Laws2 M_Fiber L_Fiber M_MarinInt L_MarinInt2 M_Section M_Gross M_Geo S_Geo.
From Coq Require Import Lra Lia String.
Open Scope R_scope.
Open Scope list_scope.

Lemma shoelace_affine a b d e x0 y0 r : closed r ->
  shoelace (map (affine a b d e x0 y0) r) = (a * e - b * d) * shoelace r.
Proof.
  intros Hc. rewrite <- !fan_area.
  replace (map (affine a b d e x0 y0) r) with (map (shift x0 y0) (map (lin a b d e) r)) by (rewrite map_map; reflexivity).
  rewrite fan_shift_closed by (now apply L_Marin.closed_map). cbn [rsum Nat.add Nat.sub pow]. rewrite fan_lin. cbn [rsum Nat.add Nat.sub pow].
  assert (C00 : C 0 0 = 1) by (unfold C; cbn; field). rewrite C00. ring.
Qed.
Lemma area_affine a b d e x0 y0 p : sound_rings p -> Rabs (a * e - b * d) = 1 -> poly_area (map_poly (affine a b d e x0 y0) p) = poly_area p.
Proof.
  intros [CE CI] HD. unfold poly_area, map_poly. cbn [pl_ext pl_ints].
  assert (X : forall r, closed r -> Rabs (shoe (map (affine a b d e x0 y0) r)) = Rabs (shoe r)).
  { intros r Hr. rewrite !shoe_shoelace, shoelace_affine by exact Hr. rewrite Rabs_mult, HD. ring. }
  rewrite X by exact CE. f_equal. rewrite map_map. apply lsum_map_ext. intros r I. apply X, CI, I.
Qed.
(** Every motion is an affine map with an orthogonal linear part. *)
Definition orth (a b d e : R) : Prop := a ^ 2 + d ^ 2 = 1 /\ b ^ 2 + e ^ 2 = 1 /\ a * b + d * e = 0.
Lemma orth_isometry a b d e x0 y0 : orth a b d e -> isometry (affine a b d e x0 y0).
Proof.
  intros (H1 & H2 & H3) [x y] [u v]. unfold dist2, affine. cbn [fst snd].
  transitivity ((a ^ 2 + d ^ 2) * (x - u) ^ 2 + (b ^ 2 + e ^ 2) * (y - v) ^ 2 + 2 * (a * b + d * e) * ((x - u) * (y - v))); [ring|].
  rewrite H1, H2, H3. ring.
Qed.
Lemma orth_det a b d e : orth a b d e -> Rabs (a * e - b * d) = 1.
Proof.
  intros (H1 & H2 & H3). assert (D : (a * e - b * d) ^ 2 = 1).
  { transitivity ((a ^ 2 + d ^ 2) * (b ^ 2 + e ^ 2) - (a * b + d * e) ^ 2); [ring|]. rewrite H1, H2, H3. ring. }
  assert ((a * e - b * d - 1) * (a * e - b * d + 1) = 0) by (replace ((a * e - b * d - 1) * (a * e - b * d + 1)) with ((a * e - b * d) ^ 2 - 1) by ring; lra).
  apply Rmult_integral in H. destruct H as [H|H].
  - replace (a * e - b * d) with 1 by lra. apply Rabs_R1.
  - replace (a * e - b * d) with (-1) by lra. rewrite Rabs_left; lra.
Qed.
Lemma cs1 a : cos a ^ 2 + sin a ^ 2 = 1.
Proof. pose proof (sin2_cos2 a). unfold Rsqr in H. nra. Qed.
Lemma mirror_explicit x1 y1 x2 y2 : let th := atan2 (y2 - y1) (x2 - x1) in let c := cos th in let s := sin th in
  exists f, mirror_map [(x1, y1); (x2, y2)] = Ok f /\
  forall p, f p = affine (c ^ 2 - s ^ 2) (2 * c * s) (2 * c * s) (s ^ 2 - c ^ 2) (x1 - (c ^ 2 - s ^ 2) * x1 - 2 * c * s * y1) (y1 - 2 * c * s * x1 - (s ^ 2 - c ^ 2) * y1) p.
Proof.
  intros th c s. unfold mirror_map, mirror_matrix. cbn [bind]. fold th. fold c s.
  assert (DT : m3_det (m3_of 1 0 (- x1) 0 1 (- y1) 0 0 1) = 1) by (unfold m3_det, m3_of; ring).
  assert (DR : m3_det (m3_of c s 0 (- s) c 0 0 0 1) = 1) by (unfold m3_det, m3_of; transitivity (c ^ 2 + s ^ 2); [ring|apply cs1]).
  eexists. split; [reflexivity|]. intros [x y]. unfold affine. cbn [fst snd].
  unfold m3_inv. rewrite DT, DR. unfold m3_mul. cbn [m3_of]. pose proof (cs1 th) as N. fold c s in N. 
  f_equal; field_simplify; replace (s ^ 2) with (1 - c ^ 2) by lra; ring.
Qed.
Lemma mirror_angle x1 y1 x2 y2 : let th := atan2 (y2 - y1) (x2 - x1) in (x1, y1) <> (x2, y2) ->
  exists r, 0 < r /\ x2 - x1 = r * cos th /\ y2 - y1 = r * sin th.
Proof.
  intros th NE. destruct (atan2_spec (x2 - x1) (y2 - y1)) as [A B]. exists (sqrt ((y2 - y1) ^ 2 + (x2 - x1) ^ 2)).
  split; [|split; symmetry; assumption]. apply sqrt_lt_R0.
  pose proof (pow2_ge_0 (y2 - y1)). pose proof (pow2_ge_0 (x2 - x1)).
  destruct (Req_dec x1 x2) as [->|N1]; [destruct (Req_dec y1 y2) as [->|N2]; [now contradiction NE|]|].
  - assert (0 < (y2 - y1) ^ 2) by (destruct (Rtotal_order y1 y2) as [?|[?|?]]; [nra|contradiction|nra]). lra.
  - assert (0 < (x2 - x1) ^ 2) by (destruct (Rtotal_order x1 x2) as [?|[?|?]]; [nra|contradiction|nra]). lra.
Qed.
Lemma motion_affine m f : motion_map m = Ok f -> exists a b d e x0 y0, orth a b d e /\ forall p, f p = affine a b d e x0 y0 p.
Proof.
  destruct m as [dx dy|a o rad|axis]; cbn [motion_map]; intros H.
  - injection H as <-. exists 1, 0, 0, 1, dx, dy. split; [unfold orth; repeat split; ring|reflexivity].
  - injection H as <-. unfold rotate_map. set (t := if rad then a else _). exists (cos t), (- sin t), (sin t), (cos t). eexists. eexists.
    split; [|reflexivity]. pose proof (cs1 t). unfold orth. repeat split; [lra| |ring]. replace ((- sin t) ^ 2) with (sin t ^ 2) by ring. lra.
  - destruct axis as [|[x1 y1] [|[x2 y2] [|]]]; try discriminate.
    destruct (mirror_explicit x1 y1 x2 y2) as (f' & F & E). rewrite F in H. injection H as <-.
    do 6 eexists. split; [|exact E]. set (th := atan2 (y2 - y1) (x2 - x1)). pose proof (cs1 th) as N. unfold orth.
    assert (Q : (cos th ^ 2 - sin th ^ 2) ^ 2 + (2 * cos th * sin th) ^ 2 = 1).
    { transitivity ((cos th ^ 2 + sin th ^ 2) ^ 2); [ring|]. rewrite N. ring. }
    split; [exact Q|]. split; [rewrite <- Q; ring|ring].
Qed.

(** Traversals. *)
Lemma traverse_move f l c : exists l' c', traverse (move_surf f) l c = (l', c') /\ c' = (c + List.length l)%nat /\
  Forall2 (fun s s' => sg_poly s' = map_poly f (sg_poly s) /\ sg_mat s' = sg_mat s /\
     sg_concrete s' = (if mt_is_concrete (sg_mat s) then true else sg_concrete s) /\ sg_group s' = None) l l' /\
  map sg_name l' = map Auto (seq c (List.length l)).
Proof.
  revert c. induction l as [|s l IH]; intros c; cbn [traverse].
  - exists [], c. repeat split; [cbn; lia|constructor].
  - unfold move_surf at 1, new_surf, new_name. destruct (IH (S c)) as (l' & c' & -> & E & F & N). exists ({| sg_poly := map_poly f (sg_poly s); sg_mat := sg_mat s;
      sg_concrete := if mt_is_concrete (sg_mat s) then true else sg_concrete s; sg_name := Auto c; sg_group := None |} :: l'), c'.
    split; [reflexivity|]. split; [cbn [List.length]; lia|]. split; [constructor; [repeat split|exact F]|]. cbn [map List.length seq sg_name]. rewrite N. reflexivity.
Qed.
Lemma fold_snoc {A} (l acc : list A) : fold_left (fun a s => a ++ [s]) l acc = acc ++ l.
Proof. revert acc. induction l as [|x l IH]; intros acc; cbn [fold_left]; [now rewrite app_nil_r|]. rewrite IH, <- app_assoc. reflexivity. Qed.
Lemma process_spec l : process_list l = (flat_map part_surfaces l, flat_map part_points l).
Proof.
  unfold process_list.
  assert (X : forall acc, fold_left (fun (acc : list surf * list pnt) (x : part) =>
    match x with
    | PSurf s => (fst acc ++ [s], snd acc)
    | PComp g => (fold_left (fun a s => a ++ [s]) (cp_surf g) (fst acc), fold_left (fun a p => a ++ [p]) (cp_pnt g) (snd acc))
    | PPnt p => (fst acc, snd acc ++ [p])
    | POther => acc
    end) l acc = (fst acc ++ flat_map part_surfaces l, snd acc ++ flat_map part_points l)).
  { induction l as [|x l IH]; intros [ss ps]; cbn [fold_left flat_map]; [now rewrite !app_nil_r|].
    rewrite IH. destruct x; cbn [fst snd part_surfaces part_points]; rewrite ?fold_snoc, ?app_nil_l, ?app_assoc; reflexivity. }
  rewrite X. reflexivity.
Qed.
Lemma compound_of_spec l : compound_of l = {| cp_surf := flat_map part_surfaces l; cp_pnt := flat_map part_points l; cp_rc := RcNone |}.
Proof. unfold compound_of. rewrite process_spec. reflexivity. Qed.
Lemma flat_surf (l : list surf) : flat_map part_surfaces (map PSurf l) = l /\ flat_map part_points (map PSurf l) = [].
Proof. induction l as [|x l [I1 I2]]; [split; reflexivity|]. cbn [map flat_map part_surfaces part_points]. rewrite I1, I2. split; reflexivity. Qed.
Lemma flat_pnt {A} (f : A -> pnt) (l : list A) : flat_map part_surfaces (map (fun p => PPnt (f p)) l) = [] /\ flat_map part_points (map (fun p => PPnt (f p)) l) = map f l.
Proof. induction l as [|x l [I1 I2]]; [split; reflexivity|]. cbn [map flat_map part_surfaces part_points]. rewrite I1, I2. split; reflexivity. Qed.
Lemma move_comp_spec f g c : exists ss, traverse (move_surf f) (cp_surf g) c = (ss, (c + List.length (cp_surf g))%nat) /\
  move_comp f g c = ({| cp_surf := ss; cp_pnt := map (move_pnt f) (cp_pnt g); cp_rc := RcNone |}, (c + List.length (cp_surf g))%nat).
Proof.
  destruct (traverse_move f (cp_surf g) c) as (ss & c' & T & -> & _). exists ss. split; [exact T|]. unfold move_comp. rewrite T.
  rewrite compound_of_spec, !flat_map_app. destruct (flat_surf ss) as [-> ->]. destruct (flat_pnt (move_pnt f) (cp_pnt g)) as [-> ->]. rewrite app_nil_r. reflexivity.
Qed.
(** Result of a motion. *)
Lemma apply_ok m f g c : motion_map m = Ok f -> apply_motion m g c = Ok (move_comp f g c).
Proof.
  intros M. unfold apply_motion. rewrite M. destruct (cp_surf g) as [|s ss] eqn:ES; [destruct (cp_pnt g) as [|p ps] eqn:EP|]; [|reflexivity|reflexivity].
  unfold move_comp. rewrite ES, EP. reflexivity.
Qed.
Lemma Forall2_impl {A B} (P Q : A -> B -> Prop) l l' : (forall a b, In a l -> P a b -> Q a b) -> Forall2 P l l' -> Forall2 Q l l'.
Proof. intros H F. induction F; constructor; [apply H; [now left|assumption]|]. apply IHF. intros. apply H; [now right|assumption]. Qed.
Lemma map_poly_ext f g p : (forall x, f x = g x) -> map_poly f p = map_poly g p.
Proof. intros H. unfold map_poly. f_equal; [now apply map_ext|]. apply map_ext. intros r. now apply map_ext. Qed.
Lemma motion_image m f g c : motion_map m = Ok f ->
  (forall s, In s (cp_surf g) -> well_made s /\ sound_rings (sg_poly s)) ->
  exists g', apply_motion m g c = Ok (g', (c + List.length (cp_surf g))%nat) /\ isometry f /\
    Forall2 (image_of f) (cp_surf g) (cp_surf g') /\ Forall2 (image_of_point f) (cp_pnt g) (cp_pnt g').
Proof.
  intros M HW. rewrite (apply_ok m f g c M). destruct (move_comp_spec f g c) as (ss & T & ->). eexists. split; [reflexivity|]. cbn [cp_surf cp_pnt].
  destruct (motion_affine m f M) as (a & b & d & e & x0 & y0 & O & AF).
  split.
  { intros p q. rewrite !AF. now apply orth_isometry. }
  split.
  - destruct (traverse_move f (cp_surf g) c) as (l' & c'' & T' & _ & F & _). rewrite T in T'. injection T' as <- <-.
    eapply Forall2_impl; [|exact F]. intros s s' I (E1 & E2 & E3 & _). destruct (HW s I) as [WM SR].
    unfold image_of, sg_density, sg_area. rewrite E1, E2, E3. split; [reflexivity|]. split; [reflexivity|]. split; [reflexivity|].
    split; [unfold well_made in WM; destruct (mt_is_concrete (sg_mat s)); [symmetry; now apply WM|reflexivity]|]. split; [reflexivity|].
    rewrite (map_poly_ext f (affine a b d e x0 y0)) by exact AF. apply area_affine; [exact SR|]. now apply orth_det.
  - generalize (cp_pnt g). induction l as [|p l IH]; constructor; [|exact IH]. repeat split.
Qed.

(** Nested construction. *)
Section TreeInd.
  Variable P : tree -> Prop.
  Hypothesis HS : forall s, P (TSurf s).
  Hypothesis HP : forall p, P (TPnt p).
  Hypothesis HN : forall l, Forall P l -> P (TNode l).
  Fixpoint tree_ind2 (t : tree) : P t :=
    match t with
    | TSurf s => HS s | TPnt p => HP p
    | TNode l => HN l ((fix go l : Forall P l := match l with [] => Forall_nil P | x :: r => Forall_cons x (tree_ind2 x) (go r) end) l)
    end.
End TreeInd.
Lemma node_surfaces l : tree_surfaces (TNode l) = flat_map tree_surfaces l.
Proof. cbn [tree_surfaces]. induction l as [|x l IH]; [reflexivity|]. cbn [flat_map]. now rewrite <- IH. Qed.
Lemma node_points l : tree_points (TNode l) = flat_map tree_points l.
Proof. cbn [tree_points]. induction l as [|x l IH]; [reflexivity|]. cbn [flat_map]. now rewrite <- IH. Qed.
Lemma node_build l : build (TNode l) = PComp (compound_of (map build l)).
Proof. cbn [build]. do 2 f_equal. all: induction l as [|x l IH]; [reflexivity|]; cbn [map]; now rewrite <- IH. Qed.
Lemma build_spec t : part_surfaces (build t) = tree_surfaces t /\ part_points (build t) = tree_points t.
Proof.
  induction t as [s|p|l IH] using tree_ind2; [split; reflexivity|split; reflexivity|].
  rewrite node_build, node_surfaces, node_points, compound_of_spec. cbn [part_surfaces part_points cp_surf cp_pnt].
  rewrite !flat_map_concat_map, !map_map. induction IH as [|x l [H1 H2] _ IH2]; [split; reflexivity|]. cbn [map List.concat]. destruct IH2 as [E1 E2]. rewrite E1, E2, H1, H2. split; reflexivity.
Qed.

(** Extents. *)
Lemma Rmin_dec x y : {Rmin x y = x} + {Rmin x y = y}.
Proof. unfold Rmin. destruct (Rle_dec x y); [left|right]; reflexivity. Qed.
Lemma Rmax_dec x y : {Rmax x y = x} + {Rmax x y = y}.
Proof. unfold Rmax. destruct (Rle_dec x y); [right|left]; reflexivity. Qed.
Lemma fold_min_le f r v : In v r -> fold_min f r <= f v.
Proof.
  destruct r as [|p q]; [intros []|]. cbn [fold_min]. intros I.
  assert (X : forall q m, fold_left (fun m v => Rmin m (f v)) q m <= m /\ forall w, In w q -> fold_left (fun m v => Rmin m (f v)) q m <= f w).
  { clear. induction q as [|u q IH]; intros m; cbn [fold_left]; [split; [lra|intros w []]|].
    destruct (IH (Rmin m (f u))) as [A B]. pose proof (Rmin_l m (f u)). pose proof (Rmin_r m (f u)). split; [lra|]. intros w [<- | J]; [lra|]. now apply B. }
  destruct (X q (f p)) as [A B]. destruct I as [<- | I]; [exact A|now apply B].
Qed.
Lemma fold_max_ge f r v : In v r -> f v <= fold_max f r.
Proof.
  destruct r as [|p q]; [intros []|]. cbn [fold_max]. intros I.
  assert (X : forall q m, m <= fold_left (fun m v => Rmax m (f v)) q m /\ forall w, In w q -> f w <= fold_left (fun m v => Rmax m (f v)) q m).
  { clear. induction q as [|u q IH]; intros m; cbn [fold_left]; [split; [lra|intros w []]|].
    destruct (IH (Rmax m (f u))) as [A B]. pose proof (Rmax_l m (f u)). pose proof (Rmax_r m (f u)). split; [lra|]. intros w [<- | J]; [lra|]. now apply B. }
  destruct (X q (f p)) as [A B]. destruct I as [<- | I]; [exact A|now apply B].
Qed.
Lemma fold_min_in f r : r <> [] -> exists v, In v r /\ fold_min f r = f v.
Proof.
  destruct r as [|p q]; [contradiction|]. intros _. cbn [fold_min].
  assert (X : forall q m, (exists v, In v q /\ fold_left (fun m v => Rmin m (f v)) q m = f v) \/ fold_left (fun m v => Rmin m (f v)) q m = m).
  { clear. induction q as [|u q IH]; intros m; cbn [fold_left]; [right; reflexivity|].
    destruct (IH (Rmin m (f u))) as [(v & J & E)|E]; [left; exists v; split; [now right|exact E]|]. rewrite E. destruct (Rmin_dec m (f u)) as [D|D]; rewrite D; [right; reflexivity|left; exists u; split; [now left|reflexivity]]. }
  destruct (X q (f p)) as [(v & J & E)|E]; [exists v; split; [now right|exact E]|exists p; split; [now left|exact E]].
Qed.
Lemma fold_max_in f r : r <> [] -> exists v, In v r /\ fold_max f r = f v.
Proof.
  destruct r as [|p q]; [contradiction|]. intros _. cbn [fold_max].
  assert (X : forall q m, (exists v, In v q /\ fold_left (fun m v => Rmax m (f v)) q m = f v) \/ fold_left (fun m v => Rmax m (f v)) q m = m).
  { clear. induction q as [|u q IH]; intros m; cbn [fold_left]; [right; reflexivity|].
    destruct (IH (Rmax m (f u))) as [(v & J & E)|E]; [left; exists v; split; [now right|exact E]|]. rewrite E. destruct (Rmax_dec m (f u)) as [D|D]; rewrite D; [right; reflexivity|left; exists u; split; [now left|reflexivity]]. }
  destruct (X q (f p)) as [(v & J & E)|E]; [exists v; split; [now right|exact E]|exists p; split; [now left|exact E]].
Qed.
Definition ext_step (e : R * R * R * R) (s : surf) : R * R * R * R :=
    let '(mnx, mxx, mny, mxy) := e in
    let '(x0, x1, y0, y1) := surf_extents s in
    (Rmin mnx x0, Rmax mxx x1, Rmin mny y0, Rmax mxy y1).
Lemma ext_fold l : forall e, let '(a, b, c, d) := e in let '(a', b', c', d') := fold_left ext_step l e in
  a' <= a /\ b <= b' /\ c' <= c /\ d <= d' /\
  (forall s v, In s l -> In v (pl_ext (sg_poly s)) -> vertex_in (a', b', c', d') v) /\
  ((forall s, In s l -> pl_ext (sg_poly s) <> []) ->
   (a' = a \/ exists s v, In s l /\ In v (pl_ext (sg_poly s)) /\ a' = fst v) /\
   (b' = b \/ exists s v, In s l /\ In v (pl_ext (sg_poly s)) /\ b' = fst v) /\
   (c' = c \/ exists s v, In s l /\ In v (pl_ext (sg_poly s)) /\ c' = snd v) /\
   (d' = d \/ exists s v, In s l /\ In v (pl_ext (sg_poly s)) /\ d' = snd v)).
Proof.
  induction l as [|s l IH]; intros [[[a b] c] d]; cbn [fold_left].
  - repeat split; try lra; try (intros ? ? []); now left.
  - unfold ext_step at 2, surf_extents, bounds. set (r := pl_ext (sg_poly s)).
    set (e := (Rmin a (fold_min fst r), Rmax b (fold_max fst r), Rmin c (fold_min snd r), Rmax d (fold_max snd r))).
    specialize (IH e). unfold e in IH at 1. destruct (fold_left ext_step l e) as [[[a' b'] c'] d'].
    destruct IH as (H1 & H2 & H3 & H4 & HB & HT).
    pose proof (Rmin_l a (fold_min fst r)). pose proof (Rmin_r a (fold_min fst r)). pose proof (Rmax_l b (fold_max fst r)). pose proof (Rmax_r b (fold_max fst r)).
    pose proof (Rmin_l c (fold_min snd r)). pose proof (Rmin_r c (fold_min snd r)). pose proof (Rmax_l d (fold_max snd r)). pose proof (Rmax_r d (fold_max snd r)).
    split; [lra|]. split; [lra|]. split; [lra|]. split; [lra|]. split.
    + intros s0 v [<- | J] K; [|exact (HB s0 v J K)]. fold r in K. unfold vertex_in.
      pose proof (fold_min_le fst r v K). pose proof (fold_max_ge fst r v K). pose proof (fold_min_le snd r v K). pose proof (fold_max_ge snd r v K). lra.
    + intros NE. destruct (HT (fun t J => NE t (or_intror J))) as (T1 & T2 & T3 & T4). assert (NR : r <> []) by (apply (NE s); now left).
      assert (UP : forall (P : (R * R) -> Prop), (exists s0 v, In s0 l /\ In v (pl_ext (sg_poly s0)) /\ P v) -> exists s0 v, In s0 (s :: l) /\ In v (pl_ext (sg_poly s0)) /\ P v).
      { intros P (s0 & v & J & K & Q). exists s0, v. split; [now right|]. split; assumption. }
      split; [|split; [|split]].
      * destruct T1 as [T|T]; [|right; exact (UP (fun v => a' = fst v) T)]. destruct (Rmin_dec a (fold_min fst r)) as [D|D]; rewrite D in T; [now left|].
        right. destruct (fold_min_in fst r NR) as (v & J & E). exists s, v. split; [now left|]. split; [exact J|congruence].
      * destruct T2 as [T|T]; [|right; exact (UP (fun v => b' = fst v) T)]. destruct (Rmax_dec b (fold_max fst r)) as [D|D]; rewrite D in T; [now left|].
        right. destruct (fold_max_in fst r NR) as (v & J & E). exists s, v. split; [now left|]. split; [exact J|congruence].
      * destruct T3 as [T|T]; [|right; exact (UP (fun v => c' = snd v) T)]. destruct (Rmin_dec c (fold_min snd r)) as [D|D]; rewrite D in T; [now left|].
        right. destruct (fold_min_in snd r NR) as (v & J & E). exists s, v. split; [now left|]. split; [exact J|congruence].
      * destruct T4 as [T|T]; [|right; exact (UP (fun v => d' = snd v) T)]. destruct (Rmax_dec d (fold_max snd r)) as [D|D]; rewrite D in T; [now left|].
        right. destruct (fold_max_in snd r NR) as (v & J & E). exists s, v. split; [now left|]. split; [exact J|congruence].
Qed.
