(** Lemmas for C59: forces and stiffness of a section assembled from pieces. *)
From Coquelicot Require Import Coquelicot.
From Coq Require Import Permutation FunctionalExtensionality Lra Lia.
From Verif Require Import Base M_Marin S_Marin L_Marin M_Laws S_Laws M_Laws2 S_Laws2 M_Fiber S_Fiber L_Fiber M_MarinInt S_MarinInt L_MarinInt L_MarinInt2 L_MarinInt3 L_MarinInt4 L_Frame L_Frame4 S_Mesh L_Mesh L_Mesh2 M_Section S_Section L_Section M_Domain S_History L_History S_Frame S_Turn L_Turn L_Turn2 L_Turn3 L_Turn4 S_Move L_Move L_Move2 L_Move3 S_Pieces.

(** Edge sums. *)
Definition edge_sum (m : nat) (g : R -> R) (l : list ((R * R) * (R * R))) : R := lsum (map (fun e => gedge m g (fst e) (snd e)) l).
Lemma edge_sum_app m g k l : edge_sum m g (k ++ l) = edge_sum m g k + edge_sum m g l.
Proof. unfold edge_sum. rewrite map_app, lsum_app. reflexivity. Qed.
Lemma edge_sum_flat {X} m g (f : X -> list ((R * R) * (R * R))) l : edge_sum m g (flat_map f l) = lsum (map (fun x => edge_sum m g (f x)) l).
Proof. induction l as [|x l IH]; [reflexivity|]. cbn [flat_map map]. rewrite edge_sum_app, IH, lsum_cons. reflexivity. Qed.
Lemma edge_sum_same m g k l : eint g -> same_boundary k l -> edge_sum m g k = edge_sum m g l.
Proof.
  intros E. induction 1 as [k l P|p q l|p q t l T|k l _ IH|k l n _ IH1 _ IH2].
  - unfold edge_sum. induction P; cbn [map]; rewrite ?lsum_cons; lra.
  - unfold edge_sum. cbn [map fst snd]. rewrite !lsum_cons, (gedge_rev m g p q E). lra.
  - unfold edge_sum. cbn [map fst snd]. rewrite !lsum_cons, (gedge_split m g p q t E T). lra.
  - now symmetry.
  - congruence.
Qed.
Lemma jm_edges m off f e0 e1 s : jm m off f e0 e1 (oriented s) = edge_sum m (fun z => f (e0 + e1 * z) * z ^ off) (surface_edges s).
Proof.
  unfold jm, oriented, surface_edges. cbn [map]. rewrite lsum_cons, edge_sum_app, edge_sum_flat, orient_ext_ccw, map_map. f_equal.
  apply lsum_map_ext. intros q _. rewrite orient_int_cw. reflexivity.
Qed.
Lemma jm_pieces m off f e0 e1 s l : (forall k, eint (fun z => f (e0 + e1 * z) * z ^ k)) -> pieces_of s l ->
  lsum (map (fun p => jm m off f e0 e1 (oriented p)) l) = jm m off f e0 e1 (oriented s).
Proof.
  intros E (_ & _ & _ & B). rewrite jm_edges, <- (edge_sum_same m _ _ _ (E off) B), edge_sum_flat.
  apply lsum_map_ext. intros p _. apply jm_edges.
Qed.
(** Turning. *)
Lemma rot_seg a p q t : rot a (seg p q t) = seg (rot a p) (rot a q) t.
Proof. unfold rot, seg. cbn [fst snd]. f_equal; ring. Qed.
Lemma same_rot a l m : same_boundary l m -> same_boundary (map (pair_map (rot a)) l) (map (pair_map (rot a)) m).
Proof.
  induction 1 as [l m P|p q l|p q t l T|l m _ IH|l m n _ IH1 _ IH2].
  - apply sb_perm. now apply Permutation_map.
  - cbn. apply sb_cancel.
  - cbn [map]. unfold pair_map at 1 2 4. cbn [fst snd]. rewrite rot_seg. now apply sb_join.
  - now apply sb_sym.
  - now apply sb_trans with (map (pair_map (rot a)) m).
Qed.
Lemma surface_edges_rot a s : surface_edges (rotate_surface a s) = map (pair_map (rot a)) (surface_edges s).
Proof.
  unfold surface_edges, rotate_surface. cbn [sf_ext sf_ints]. rewrite map_app. f_equal.
  - change (map (rot a)) with (map (turn a)). rewrite turn_ccw, edges_map. reflexivity.
  - induction (sf_ints s) as [|r l IH]; cbn [map flat_map]; [reflexivity|]. rewrite map_app, <- IH. f_equal. change (map (rot a)) with (map (turn a)). rewrite turn_cw, edges_map. reflexivity.
Qed.
Lemma hull_rot a l p : in_hull l p -> in_hull (map (rot a) l) (rot a p).
Proof. induction 1 as [p I|p q t T _ IH1 _ IH2]; [apply hull_vertex, in_map, I|]. rewrite rot_seg. now apply hull_between. Qed.
Lemma pieces_rot a s l : pieces_of s l -> pieces_of (rotate_surface a s) (map (rotate_surface a) l).
Proof.
  intros (A & B & C & D). split; [|split; [|split]].
  - intros p I. apply in_map_iff in I. destruct I as (p0 & <- & I). destruct (A p0 I) as (L & N & H). cbn [rotate_surface sf_law sf_ext]. split; [exact L|]. split.
    + intros Z. apply map_eq_nil in Z. exact (N Z).
    + intros v J. apply in_map_iff in J. destruct J as (v0 & <- & J). apply hull_rot, H, J.
  - cbn [rotate_surface sf_ext]. intros v J. apply in_map_iff in J. destruct J as (v0 & <- & J). destruct (B v0 J) as (p & I & K).
    exists (rotate_surface a p). split; [now apply in_map|]. cbn [rotate_surface sf_ext]. now apply in_map.
  - cbn [rotate_surface sf_ext]. intros Z. apply map_eq_nil in Z. exact (C Z).
  - rewrite surface_edges_rot. apply (same_rot a) in D. replace (flat_map surface_edges (map (rotate_surface a) l)) with (map (pair_map (rot a)) (flat_map surface_edges l)); [exact D|].
    clear. induction l as [|p l IH]; [reflexivity|]. cbn [flat_map map]. rewrite map_app, IH, surface_edges_rot. reflexivity.
Qed.
Lemma assembled_rot a g g' : assembled g g' -> assembled (rotate_geo a g) (rotate_geo a g').
Proof.
  intros (ls & F & S' & B). exists (map (map (rotate_surface a)) ls). cbn [rotate_geo cg_surf cg_bars]. split; [|split].
  - clear S'. induction F as [|s l ss ls P F IH]; [constructor|]. cbn [map]. constructor; [exact (pieces_rot a s l P)|exact IH].
  - rewrite S'. apply concat_map.
  - now rewrite B.
Qed.
Lemma closed_rot a r : closed r -> closed (map (rot a) r).
Proof. destruct r as [|q m]; [trivial|]. unfold closed. intros C. exact (eq_trans (last_map (rot a) (q :: m) q) (f_equal (rot a) C)). Qed.
(** Entries. *)
Lemma entries_app laws what r l m : forall e, surfaces_entries laws what e r (l ++ m) =
  bind (surfaces_entries laws what e r l) (fun x => bind (surfaces_entries laws what (fst x) r m) (fun y => Ok (fst y, snd x ++ snd y))).
Proof.
  induction l as [|s l IH]; intros e; cbn [app surfaces_entries bind fst snd].
  - destruct (surfaces_entries laws what e r m) as [[u v]|]; reflexivity.
  - destruct (surface_entries _ what e r s) as [[u v]|]; cbn [bind fst snd]; [|reflexivity]. rewrite IH.
    destruct (surfaces_entries laws what u r l) as [[u1 v1]|]; cbn [bind fst snd]; [|reflexivity].
    destruct (surfaces_entries laws what u1 r m) as [[u2 v2]|]; cbn [bind fst snd]; [|reflexivity]. rewrite app_assoc. reflexivity.
Qed.
Section Entries.
Variables (laws : nat -> law) (what : integrand) (fs : nat -> R -> R).
Hypothesis W : what <> IOther.
(** What the pieces of a surface need. *)
Definition again (s : surface) : Prop := forall e, ask what (laws (sf_law s)) (fst (ask what (laws (sf_law s)) (e, 0)), 0) = ask what (laws (sf_law s)) (e, 0).
Lemma bending_pieces ss ls e r : good_laws laws what fs ss -> good_laws laws what fs (concat ls) -> Forall2 pieces_of ss ls -> 0 < r ->
  exists es es', surfaces_entries laws what e r ss = Ok (e, es) /\ surfaces_entries laws what e r (concat ls) = Ok (e, es') /\
  forall i j, es_moment es' i j = es_moment es i j.
Proof.
  intros G G' F P.
  assert (GS : forall xs, good_laws laws what fs xs -> good_surfaces laws what fs e r xs).
  { intros xs H s I. destruct (H s I) as (C & CI & FO & _). exact (conj (FO e r P) (conj C CI)). }
  destruct (surfaces_entries_ok laws what fs e r ss W (GS ss G)) as (es & E & M).
  destruct (surfaces_entries_ok laws what fs e r (concat ls) W (GS _ G')) as (es' & E' & M').
  exists es, es'. split; [exact E|]. split; [exact E'|]. intros i j. unfold es_moment. rewrite M, M'. clear E E' M M' es es' GS G'.
  induction F as [|s l ss ls O F IH]; [reflexivity|]. cbn [concat]. unfold jsum. rewrite map_app, lsum_app. cbn [map]. rewrite lsum_cons. f_equal.
  - destruct (G s (or_introl eq_refl)) as (C & CI & FO & _).
    rewrite <- (jm_pieces i j (fs (sf_law s)) e r s l (proj1 (surface_entries_ok (laws (sf_law s)) what e r s (fs (sf_law s)) W (FO e r P) C CI)) O).
    apply lsum_map_ext. intros p I. destruct O as (A & _). rewrite (proj1 (A p I)). reflexivity.
  - apply IH. intros x I. exact (G x (or_intror I)).
Qed.
(** One surface under uniform strain. *)
Lemma uniform_one s e : closed (sf_ext s) -> (forall q, In q (sf_ints s) -> closed q) -> uniform_output (ask what (laws (sf_law s)) (e, 0)) ->
  exists v es, (forall x, ask what (laws (sf_law s)) (x, 0) = ask what (laws (sf_law s)) (e, 0) -> surface_entries (laws (sf_law s)) what x 0 s = Ok (fst (ask what (laws (sf_law s)) (e, 0)), es)) /\
  (exists c, snd (ask what (laws (sf_law s)) (e, 0)) = (None, [v :: c])) /\ forall i j, es_moment es i j = v * jm i j (fun _ => 1) 0 0 (oriented s).
Proof.
  intros C CI (v & c & EV & Z). exists v. eexists. split; [|split; [exists c; exact EV|]].
  - intros x EX. unfold surface_entries.
    assert (EY : match what with IStress => Ok (lw_marin (laws (sf_law s)) (x, 0)) | IModulus => Ok (lw_marin_tangent (laws (sf_law s)) (x, 0)) | IOther => Err ValueError end = Ok (ask what (laws (sf_law s)) (e, 0))) by (rewrite <- EX; destruct what; [reflexivity..|contradiction]).
    rewrite EY. cbn [bind]. destruct (ask what (laws (sf_law s)) (e, 0)) as [e1 o]. cbn [snd] in EV. subst o. cbn [fst]. reflexivity.
  - intros i j. unfold es_moment. rewrite map_map, jm_fan by (intros q; apply oriented_closed; assumption). rewrite <- lsum_scal. apply lsum_map_ext. intros q _. apply coeff_constant, Z.
Qed.
Lemma uniform_block k l e : l <> [] -> (forall p, In p l -> sf_law p = k /\ closed (sf_ext p) /\ (forall q, In q (sf_ints p) -> closed q)) ->
  uniform_output (ask what (laws k) (e, 0)) -> ask what (laws k) (fst (ask what (laws k) (e, 0)), 0) = ask what (laws k) (e, 0) ->
  exists v es, surfaces_entries laws what e 0 l = Ok (fst (ask what (laws k) (e, 0)), es) /\ (exists c, snd (ask what (laws k) (e, 0)) = (None, [v :: c])) /\
  forall i j, es_moment es i j = v * lsum (map (fun p => jm i j (fun _ => 1) 0 0 (oriented p)) l).
Proof.
  intros NE H U AG.
  assert (X : forall x, ask what (laws k) (x, 0) = ask what (laws k) (e, 0) -> forall l, (forall p, In p l -> sf_law p = k /\ closed (sf_ext p) /\ (forall q, In q (sf_ints p) -> closed q)) ->
    exists v es, surfaces_entries laws what x 0 l = Ok (match l with [] => x | _ => fst (ask what (laws k) (e, 0)) end, es) /\ (exists c, snd (ask what (laws k) (e, 0)) = (None, [v :: c])) /\
    forall i j, es_moment es i j = v * lsum (map (fun p => jm i j (fun _ => 1) 0 0 (oriented p)) l)).
  { intros x EX m. revert x EX. induction m as [|p m IH]; intros x EX HH.
    - destruct U as (v & c & EV & _). exists v, []. split; [reflexivity|]. split; [exists c; exact EV|]. intros i j. cbn [map]. unfold es_moment. cbn [map]. rewrite lsum_nil. ring.
    - destruct (HH p (or_introl eq_refl)) as (LK & C & CI).
      destruct (uniform_one p e C CI ltac:(rewrite LK; exact U)) as (v & es & E & (c & EC) & M). rewrite LK in E, EC.
      destruct (IH (fst (ask what (laws k) (e, 0))) AG (fun q I => HH q (or_intror I))) as (v2 & es2 & E2 & (c2 & EC2) & M2).
      assert (EV : v2 = v) by congruence. subst v2. exists v, (es ++ es2). split; [|split; [exists c; exact EC|]].
      + cbn [surfaces_entries]. rewrite LK, (E x EX). cbn [bind fst snd]. rewrite E2. cbn [bind fst snd]. destruct m; reflexivity.
      + intros i j. rewrite es_moment_app, M, M2. cbn [map]. rewrite lsum_cons. ring. }
  destruct (X e eq_refl l H) as (v & es & E & R1 & R2). exists v, es. split; [|split; assumption]. destruct l; [contradiction|exact E].
Qed.
Lemma pieces_nonempty s l : pieces_of s l -> l <> [].
Proof. intros (_ & B & C & _) ->. destruct (sf_ext s) as [|v m]; [congruence|]. destruct (B v (or_introl eq_refl)) as (p & [] & _). Qed.
Lemma uniform_pieces ss ls : good_laws laws what fs ss -> good_laws laws what fs (concat ls) -> (forall s, In s ss -> again s) -> Forall2 pieces_of ss ls -> forall e,
  exists e1 es es', surfaces_entries laws what e 0 ss = Ok (e1, es) /\ surfaces_entries laws what e 0 (concat ls) = Ok (e1, es') /\
  forall i j, es_moment es' i j = es_moment es i j.
Proof.
  intros G G' AG F. revert G G' AG. induction F as [|s l ss ls O F IH]; intros G G' AG e; [exists e, [], []; split; [|split]; reflexivity|].
  destruct (G s (or_introl eq_refl)) as (C & CI & _ & U). pose proof (AG s (or_introl eq_refl) e) as AE.
  destruct (uniform_one s e C CI (U e)) as (v & es & E & (c & EC) & M).
  assert (HL : forall p, In p l -> sf_law p = sf_law s /\ closed (sf_ext p) /\ (forall q, In q (sf_ints p) -> closed q)).
  { intros p I. destruct (G' p ltac:(cbn [concat]; apply in_or_app; left; exact I)) as (C1 & C2 & _). exact (conj (proj1 (proj1 O p I)) (conj C1 C2)). }
  destruct (uniform_block (sf_law s) l e (pieces_nonempty s l O) HL (U e) AE) as (v2 & es2 & E2 & (c2 & EC2) & M2).
  assert (EV : v2 = v) by congruence. subst v2.
  destruct (IH (fun x I => G x (or_intror I)) (fun x I => G' x ltac:(cbn [concat]; apply in_or_app; right; exact I)) (fun x I => AG x (or_intror I)) (fst (ask what (laws (sf_law s)) (e, 0)))) as (e2 & es3 & es4 & E3 & E4 & M3).
  exists e2, (es ++ es3), (es2 ++ es4). split; [|split].
  - cbn [surfaces_entries]. rewrite (E e eq_refl). cbn [bind fst snd]. rewrite E3. reflexivity.
  - cbn [concat]. rewrite entries_app, E2. cbn [bind fst snd]. rewrite E4. reflexivity.
  - intros i j. rewrite !es_moment_app, M, M2, M3. f_equal. f_equal. apply jm_pieces; [|exact O]. intros k. exact (eint_one k).
Qed.
Lemma entries_pieces ss ls e r : good_laws laws what fs ss -> good_laws laws what fs (concat ls) -> (forall s, In s ss -> again s) -> Forall2 pieces_of ss ls -> 0 <= r ->
  exists e1 es es', surfaces_entries laws what e r ss = Ok (e1, es) /\ surfaces_entries laws what e r (concat ls) = Ok (e1, es') /\
  forall i j, es_moment es' i j = es_moment es i j.
Proof.
  intros G G' AG F P. destruct (Rle_lt_or_eq_dec 0 r P) as [Q|<-].
  - destruct (bending_pieces ss ls e r G G' F Q) as (es & es' & E & E' & M). exists e, es, es'. auto.
  - exact (uniform_pieces ss ls G G' AG F e).
Qed.
End Entries.
