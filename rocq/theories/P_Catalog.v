(** Property C52: the catalogue of steel profiles. *)
From Coq Require Import String DecimalString Lra Lia.
From Verif Require Import Base M_ProfileTable M_Catalog S_Catalog L_Catalog L_Catalog2.
Open Scope R_scope.
Open Scope list_scope.

Lemma measure_dim f name row k v : In (name, row) (rows f) -> measure f name k v -> v = dim_of f row k.
Proof.
  intros I (row' & i & z & I' & K & Z & V).
  assert (row' = row).
  { pose proof (names_unique f) as ND. revert I I' ND. generalize (rows f). induction l as [|[n r] l IH]; [intros []|].
    intros I I' ND. cbn [map fst] in ND. inversion ND as [|x y NI ND']; subst. destruct I as [E|I], I' as [E'|I'].
    - congruence.
    - injection E as -> ->. exfalso. apply NI. change name with (fst (name, row')). now apply in_map.
    - injection E' as -> ->. exfalso. apply NI. change name with (fst (name, row)). now apply in_map.
    - now apply IH. }
  subst row'. pose proof (row_lengths f name row I) as L. unfold dim_of, raw.
  assert (KD : NoDup (keys f)) by (apply nodupb_spec; destruct f; vm_compute; reflexivity).
  assert (G : forall ks vs j, List.length vs = List.length ks -> NoDup ks -> nth_error ks j = Some k -> nth_error vs j = Some z -> dget k (combine ks (map tenths vs)) = Some (tenths z)).
  { induction ks as [|a ks IH]; intros vs j E N Kj Zj; [destruct j; discriminate|]. destruct vs as [|w vs]; [discriminate|]. inversion N as [|x y NI N']; subst. cbn [map combine dget].
    destruct j as [|j]; cbn [nth_error] in Kj, Zj.
    - injection Kj as ->. injection Zj as ->. now rewrite String.eqb_refl.
    - destruct (String.eqb_spec k a) as [-> |NE]; [exfalso; apply NI; now apply nth_error_In in Kj|]. apply (IH vs j); [now injection E|exact N'|exact Kj|exact Zj]. }
  rewrite (G (keys f) row i L KD K Z). unfold tenths. lra.
Qed.

(** ** Look-up *)
(** After any history of requests: a listed profile (asked for by name, or by number where that is allowed) gives, as polygon of
    the class and as polygon of an object, the outline drawn with the dimensions of the table; the object has these dimensions.
    Any other name or number is refused with ValueError by both.  The list of names never changes. *)
Theorem C52_lookup : forall history f n, let t := after history imported in
  (forall name, asked f n name -> listed f name ->
     exists s o, fst (get_polygon f n t) = Ok s /\ create f n t = Ok o /\ st_shape o = s /\ drawing f name s /\
       (forall k v, In (k, v) (st_dims o) <-> measure f name k v /\ k <> "d"%string)) /\
  ((forall name, asked f n name -> ~ listed f name) -> fst (get_polygon f n t) = Err ValueError /\ create f n t = Err ValueError) /\
  profiles f t = map fst (rows f).
Proof.
  intros history f n t. assert (H : state_ok t) by (apply state_after, state_imported). destruct (find_spec t f n H) as [FL FU]. split; [|split].
  - intros name A (row & I). destruct (FL name row A I) as (d & F & B). pose proof (row_lengths f name row I) as L.
    exists (shape_of f row), {| st_dims := map (fun k => (k, dim_of f row k)) (public f); st_shape := shape_of f row |}.
    split; [unfold get_polygon; rewrite F, (completed_basis f row d L B); cbn [fst]; now apply drawn_shape|].
    split; [exact (create_basis f row name n t d L F B)|]. split; [reflexivity|]. split; [now apply shape_drawing|].
    intros k v. cbn [st_dims]. rewrite in_map_iff. unfold public. split.
    + intros (k' & E & K). injection E as <- <-. apply filter_In in K. destruct K as [K D]. split; [now apply dim_measure|]. intros ->. discriminate.
    + intros [M D]. exists k. split; [f_equal; symmetry; now apply (measure_dim f name row)|]. apply filter_In. split.
      * destruct M as (r' & i & z & _ & K & _). now apply nth_error_In in K.
      * apply Bool.negb_true_iff. now apply String.eqb_neq.
  - intros A. specialize (FU A). unfold get_polygon, create. rewrite FU. split; reflexivity.
  - unfold profiles. now apply state_names.
Qed.
Print Assumptions C52_lookup.
(** Earlier requests do not change an answer. *)
Theorem C52_history : forall history q, fst (ask q (after history imported)) = fst (ask q imported).
Proof.
  intros history q. set (t := after history imported). assert (H : state_ok t) by (apply state_after, state_imported). pose proof state_imported as H0.
  assert (F2 : forall f n, (exists name row, asked f n name /\ In (name, row) (rows f)) \/ (forall name, asked f n name -> ~ listed f name)).
  { intros f n. destruct (find f n imported) as [[k d]|e] eqn:F.
    - left. destruct (find_listed _ _ _ _ _ H0 F) as (row & I & _). exists k, row. split; [|exact I].
      unfold find in F. destruct (key_of f n) as [k'|] eqn:K; [|discriminate]. destruct (dget k' (imported f)); [|discriminate]. injection F as -> ->.
      destruct n as [s|z]; cbn [key_of] in K; [left; congruence|]. right. destruct f; try discriminate; injection K as <-; eexists z, _; (split; [reflexivity|]; split; [reflexivity|reflexivity]).
    - right. intros name A (row & I). destruct (proj1 (find_spec imported f n H0) name row A I) as (d & F' & _). congruence. }
  destruct q as [f n|f n|f]; cbn [ask].
  - assert (E : fst (get_polygon f n t) = fst (get_polygon f n imported)).
    { destruct (F2 f n) as [(name & row & A & I)|N].
      - destruct (proj1 (C52_lookup history f n) name A (ex_intro _ row I)) as (s & _ & P & _ & _ & _ & _). fold t in P. rewrite P.
        destruct (proj1 (find_spec imported f n H0) name row A I) as (d & F & B). destruct (proj1 (find_spec t f n H) name row A I) as (d' & F' & B').
        pose proof (row_lengths f name row I) as L. unfold get_polygon in P |- *. rewrite F' in P. rewrite F. rewrite (completed_basis f row d' L B') in P. rewrite (completed_basis f row d L B).
        cbn [fst] in *. congruence.
      - transitivity (@Err shape ValueError); [exact (proj1 (proj1 (proj2 (C52_lookup history f n)) N))|]. symmetry. exact (proj1 (proj1 (proj2 (C52_lookup [] f n)) N)). }
    destruct (get_polygon f n t) as [r t1], (get_polygon f n imported) as [r0 t0]. cbn [fst] in *. congruence.
  - cbn [fst]. f_equal. destruct (F2 f n) as [(name & row & A & I)|N].
    + pose proof (row_lengths f name row I) as L.
      destruct (proj1 (find_spec imported f n H0) name row A I) as (d & F & B). destruct (proj1 (find_spec t f n H) name row A I) as (d' & F' & B').
      rewrite (create_basis f row name n t d' L F' B'), (create_basis f row name n imported d L F B). reflexivity.
    + transitivity (@Err steel ValueError); [exact (proj2 (proj1 (proj2 (C52_lookup history f n)) N))|]. symmetry. exact (proj2 (proj1 (proj2 (C52_lookup [] f n)) N)).
  - cbn [fst]. f_equal. unfold profiles. now rewrite (state_names t f H), (state_names imported f H0).
Qed.
Print Assumptions C52_history.

(** ** The tables *)
(** Every profile of the catalogue has dimensions that fit together. *)
Theorem C52_fits : forall f name s, drawing f name s -> fits s.
Proof.
  intros f name s D.
  assert (X : exists row, In (name, row) (rows f) /\ s = shape_of f row).
  { assert (MD := measure_dim f name). unfold drawing in D. cbv zeta in D. destruct f; decompose [ex and] D;
      match goal with M : measure _ name "h" _ |- _ => pose proof M as (row & _ & _ & I & _) end; exists row; (split; [exact I|]);
      repeat match goal with M : measure _ name _ _ |- _ => apply (MD row _ _ I) in M; subst end; unfold shape_of; try reflexivity.
    destruct (Rleb_spec (dim_of UPN row "h") 300); auto. match goal with H : _ < _ -> _ |- _ => apply H; lra end. }
  destruct X as (row & I & ->). apply fit_spec; [now apply (row_lengths f name)|now apply (all_fit f name)].
Qed.
Print Assumptions C52_fits.
(** Names are unique, and what they say is so: the height of the profiles that can be asked for by number, the legs and the
    thickness of the angles. *)
Theorem C52_names : forall f,
  NoDup (profiles f imported) /\
  (forall p name h, by_number f = Some p -> measure f name "h" h -> exists z, name = (p ++ numeral z)%string /\ h = IZR z) /\
  (f = Lf \/ f = LI -> forall name h b t, measure f name "h" h -> measure f name "b" b -> measure f name "t" t ->
     exists sh sb st, name = ("L" ++ sh ++ "x" ++ sb ++ "x" ++ st)%string /\ shown sh h /\ shown sb b /\ shown st t).
Proof.
  intros f. split; [|split].
  - unfold profiles. rewrite (state_names imported f state_imported). apply names_unique.
  - intros p name h P M. pose proof M as (row & _ & _ & I & _). pose proof (heights f p name row P I) as C. pose proof (row_lengths f name row I) as L.
    apply (measure_dim f name row _ _ I) in M.
    assert (HD : exists z r, row = z :: r /\ h = tenths z).
    { destruct row as [|z r]; [destruct f; discriminate|]. exists z, r. split; [reflexivity|]. rewrite M. destruct f; reflexivity. }
    destruct HD as (z & r & -> & ->). unfold heightb in C. cbn [snd fst] in C. apply Bool.andb_true_iff in C. destruct C as [C1 C2]. apply Z.eqb_eq in C1. apply String.eqb_eq in C2.
    exists (z / 10)%Z. split; [exact C2|]. unfold tenths. rewrite <- C1 at 1. rewrite mult_IZR. field.
  - intros FL name h b t MH MB MT. destruct MH as (row & ih & zh & I & KH & ZH & VH).
    pose proof (angles f name row FL I) as C. pose proof (row_lengths f name row I) as L.
    assert (E : forall k v, measure f name k v -> v = dim_of f row k) by (intros k v M; now apply (measure_dim f name row)).
    apply E in MB. apply E in MT. assert (MH : h = dim_of f row "h") by (apply E; exists row, ih, zh; auto).
    unfold angleb in C. cbn [fst snd] in C.
    destruct FL as [-> | ->]; cbn [keys] in L; (destruct row as [|x [|y [|w [|r1 [|r2 [|? ?]]]]]]; try discriminate); cbn in MH, MB, MT;
      (destruct (cut_x name) as [[hb st]|]; [|discriminate]); (destruct (cut_x hb) as [[[|l sh] sb]|]; try discriminate);
      apply Bool.andb_true_iff in C; destruct C as [C1 C2]; apply String.eqb_eq in C1;
      (destruct (read_tenths sh) as [th|] eqn:R1; [|discriminate]); (destruct (read_tenths sb) as [tb|] eqn:R2; [|discriminate]); (destruct (read_tenths st) as [tt|] eqn:R3; [|discriminate]);
      apply Bool.andb_true_iff in C2; destruct C2 as [C2 C5]; apply Bool.andb_true_iff in C2; destruct C2 as [C3 C4]; apply Z.eqb_eq in C3, C4, C5; subst th tb tt;
      exists sh, sb, st; (split; [exact C1|]); subst h b t; repeat split; now apply read_tenths_spec.
Qed.
Print Assumptions C52_names.
(** Where the name ends with the mass of a metre, it agrees with the area of the section within three per cent (steel of
    7850 kg per cubic metre): no row of these tables has a wrong dimension of consequence. *)
Theorem C52_masses : forall f name h b tw tf r, by_mass f ->
  measure f name "h" h -> measure f name "b" b -> measure f name "tw" tw -> measure f name "tf" tf -> measure f name "r" r ->
  exists m, mass_in_name name m /\ Rabs (785 / 100000 * i_area h b tw tf r - m) <= 3 / 100 * m.
Proof.
  intros f name h b tw tf r BM MH MB MW MF MR. destruct MH as (row & ih & zh & I & KH & ZH & VH).
  pose proof (masses f name row BM I) as C. pose proof (row_lengths f name row I) as L.
  assert (E : forall k v, measure f name k v -> v = dim_of f row k) by (intros k v M; now apply (measure_dim f name row)).
  apply E in MB, MW, MF, MR. assert (MH : h = dim_of f row "h") by (apply E; exists row, ih, zh; auto).
  assert (KE : keys f = keys HD) by (unfold by_mass in BM; cbn [In] in BM; repeat (destruct BM as [<-|BM]; [reflexivity|]); destruct BM).
  unfold dim_of, raw in *. rewrite KE in *. clear E KH ZH VH ih zh KE.
  cbn [keys] in L. destruct row as [|x [|y [|w [|z [|q [|? ?]]]]]]; try discriminate. cbn in MH, MB, MW, MF, MR. subst h b tw tf r.
  unfold massb in C. cbn [fst snd] in C. destruct (cut_x name) as [[front s]|]; [|discriminate].
  apply Bool.andb_true_iff in C. destruct C as [C1 C2]. destruct (read_tenths (drop_hash s)) as [m|] eqn:RT; [|discriminate].
  exists (tenths m). split.
  - exists front, (drop_hash s). split; [now apply read_tenths_spec|]. apply Bool.orb_true_iff in C1. destruct C1 as [C1|C1]; apply String.eqb_eq in C1; tauto.
  - cbv zeta in C2. apply Bool.andb_true_iff in C2. destruct C2 as [C2 C3]. apply Z.leb_le, IZR_le in C2. apply Z.leb_le, IZR_le in C3.
    change (10 ^ 7)%Z with 10000000%Z in *. repeat (rewrite ?plus_IZR, ?mult_IZR, ?minus_IZR in C2, C3).
    assert (Q2 : IZR (q ^ 2) = IZR q ^ 2) by (symmetry; exact (pow_IZR q 2)). rewrite Q2 in *.
    pose proof pi_bounds as PB. unfold i_area, tenths. assert (Q0 : 0 <= IZR q ^ 2) by apply pow2_ge_0.
    assert (B1 : 857 / 1000 * IZR q ^ 2 <= (4 - PI) * IZR q ^ 2) by (apply Rmult_le_compat_r; lra).
    assert (B2 : (4 - PI) * IZR q ^ 2 <= 860 / 1000 * IZR q ^ 2) by (apply Rmult_le_compat_r; lra).
    set (P := (4 - PI) * IZR q ^ 2) in *. set (Y := IZR y * IZR z) in *. set (V := (IZR x - 2 * IZR z) * IZR w) in *.
    replace (785 / 100000 * (2 * (IZR y / 10 * (IZR z / 10)) + (IZR x / 10 - 2 * (IZR z / 10)) * (IZR w / 10) + (4 - PI) * (IZR q / 10) ^ 2))
      with (785 / 10000000 * (2 * Y + V + P)) by (unfold Y, V, P; field).
    apply Rabs_le. lra.
Qed.
Print Assumptions C52_masses.

(** Concrete profiles: asked for by name, by number, after other requests; and a number no table has. *)
Example C52_applies :
  asked IPE (Number 200) "IPE200" /\ listed IPE "IPE200" /\ measure IPE "IPE200" "tf" (85 / 10) /\
  fst (get_polygon IPE (Number 200) (after [Polygon UPN (Text "UPN300"); New LI (Text "L120x80x8"); Polygon UPN (Number 300)] imported)) = Ok (ShI (2000 / 10) (1000 / 10) (56 / 10) (85 / 10) (120 / 10)) /\
  fst (get_polygon UPN (Number 300) (after [Polygon UPN (Text "UPN300")] imported)) = Ok (ShTaperU (3000 / 10) (1000 / 10) (100 / 10) (160 / 10) (160 / 10) (80 / 10) (8 / 100) (1000 / 10 / 2)) /\
  create IPE (Number 201) imported = Err ValueError /\ create HE (Number 200) imported = Err ValueError /\
  by_mass Wf /\ listed Wf "W460x190x67#".
Proof.
  split; [right; exists 200%Z, "IPE"%string; repeat split|]. split; [eexists; unfold rows, rows_IPE; cbn [In]; do 6 right; left; reflexivity|].
  split; [eexists _, 3%nat, 85%Z; split; [unfold rows, rows_IPE; cbn [In]; do 6 right; left; reflexivity|]; split; [reflexivity|]; split; [reflexivity|lra]|].
  split.
  { pose proof (C52_history [Polygon UPN (Text "UPN300"); New LI (Text "L120x80x8"); Polygon UPN (Number 300)] (Polygon IPE (Number 200))) as H. cbn [ask] in H.
    destruct (get_polygon IPE (Number 200) (after _ imported)) as [r t1]. cbn [fst] in H |- *.
    destruct (get_polygon IPE (Number 200) imported) as [r0 t0] eqn:E0. cbn [fst] in H. injection H as ->. change r0 with (fst (r0, t0)). rewrite <- E0. reflexivity. }
  split.
  { set (t := after _ imported). assert (H : state_ok t) by (unfold t; apply state_after, state_imported). clearbody t. unfold get_polygon.
    assert (I : In ("UPN300"%string, [3000; 1000; 100; 160; 160; 80; 2320]%Z) (rows UPN)) by (apply (nth_error_In (rows UPN) 13); reflexivity).
    destruct (proj1 (find_spec t UPN (Number 300) H) "UPN300"%string _ ltac:(right; exists 300%Z, "UPN"%string; repeat split) I) as (d & F' & B).
    rewrite F'. rewrite (completed_basis UPN [3000; 1000; 100; 160; 160; 80; 2320]%Z d eq_refl B). cbn [fst]. rewrite drawn_shape by reflexivity. unfold shape_of. cbv zeta.
    destruct (Rleb_spec (dim_of UPN [3000; 1000; 100; 160; 160; 80; 2320]%Z "h") 300) as [X|X]; [reflexivity|]. exfalso. apply X.
    change (tenths 3000 <= 300). unfold tenths. lra. }
  split; [vm_compute; reflexivity|]. split; [vm_compute; reflexivity|]. split; [unfold by_mass; cbn; tauto|].
  assert (G : existsb (fun r => String.eqb (fst r) "W460x190x67#") (rows Wf) = true) by (vm_compute; reflexivity).
  apply existsb_exists in G. destruct G as ([n row] & I & E). apply String.eqb_eq in E. cbn [fst] in E. subst n. now exists row.
Qed.
