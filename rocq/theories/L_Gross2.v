From Verif Require Import Base M_Marin S_Marin L_Marin M_Laws M_Laws2 S_Laws M_Fiber S_Fiber L_Fiber M_MarinInt S_MarinInt L_MarinInt L_MarinInt2 L_MarinInt3 L_MarinInt4 M_Section M_Gross S_Gross P_Fiber P_MarinInt L_Gross.
From Coq Require Import Lra Lia.

(** * Fibre integrator *)
Definition tri_term (phi : R -> R -> R) (t : (R * R) * (R * R) * (R * R)) : R :=
  let '(p, q, r) := t in Rabs (shoelace [p; q; r; p]) * phi ((fst p + fst q + fst r) / 3) ((snd p + snd q + snd r) / 3).
Lemma lumped_fibres (els : nat -> elastic) mesh phi g :
  lsum (map (fun f => m_tangent f 0 * (m_a f * phi (m_y f) (m_z f))) (section_fibres (fun k => elastic_law (els k)) mesh g))
  = lumped (fun k => el_E (els k)) mesh phi g.
Proof.
  unfold section_fibres, lumped. rewrite map_app, lsum_app. f_equal.
  - generalize (cg_surf g). induction l as [|s l IH]; [reflexivity|]. cbn [flat_map map]. rewrite map_app, lsum_app, lsum_cons, IH. f_equal.
    rewrite <- lsum_map_scal, map_map. apply lsum_map_ext. intros [[p q] r] _. reflexivity.
  - rewrite map_map. reflexivity.
Qed.
Lemma lumped_ext E mesh phi psi g : (forall y z, phi y z = psi y z) -> lumped E mesh phi g = lumped E mesh psi g.
Proof.
  intros H. unfold lumped. f_equal; apply lsum_map_ext; intros x _; [|rewrite H; reflexivity]. f_equal. apply lsum_map_ext. intros [[p q] r] _. rewrite H. reflexivity.
Qed.
Lemma lumped_lin E mesh phi psi chi a b c g :
  lumped E mesh (fun y z => a * phi y z + b * psi y z + c * chi y z) g = a * lumped E mesh phi g + b * lumped E mesh psi g + c * lumped E mesh chi g.
Proof.
  unfold lumped. fold (tri_term phi) (tri_term psi) (tri_term chi) (tri_term (fun y z => a * phi y z + b * psi y z + c * chi y z)).
  assert (HT : forall l, lsum (map (tri_term (fun y z => a * phi y z + b * psi y z + c * chi y z)) l) =
      a * lsum (map (tri_term phi) l) + b * lsum (map (tri_term psi) l) + c * lsum (map (tri_term chi) l)).
  { induction l as [|[[p q] r] l IH]; cbn [map]; rewrite ?lsum_nil, ?lsum_cons; [ring|]. rewrite IH. unfold tri_term. ring. }
  assert (HS : forall l : list surface, lsum (map (fun s => E (sf_law s) * lsum (map (tri_term (fun y z => a * phi y z + b * psi y z + c * chi y z)) (mesh s))) l) =
      a * lsum (map (fun s => E (sf_law s) * lsum (map (tri_term phi) (mesh s))) l) + b * lsum (map (fun s => E (sf_law s) * lsum (map (tri_term psi) (mesh s))) l)
      + c * lsum (map (fun s => E (sf_law s) * lsum (map (tri_term chi) (mesh s))) l)).
  { induction l as [|s l IH]; cbn [map]; rewrite ?lsum_nil, ?lsum_cons; [ring|]. rewrite IH, HT. ring. }
  assert (HB : forall l, lsum (map (fun b0 => E (br_law b0) * (br_area b0 * (a * phi (br_y b0) (br_z b0) + b * psi (br_y b0) (br_z b0) + c * chi (br_y b0) (br_z b0)))) l) =
      a * lsum (map (fun b0 => E (br_law b0) * (br_area b0 * phi (br_y b0) (br_z b0))) l) + b * lsum (map (fun b0 => E (br_law b0) * (br_area b0 * psi (br_y b0) (br_z b0))) l)
      + c * lsum (map (fun b0 => E (br_law b0) * (br_area b0 * chi (br_y b0) (br_z b0))) l)).
  { induction l as [|s l IH]; cbn [map]; rewrite ?lsum_nil, ?lsum_cons; [ring|]. rewrite IH. ring. }
  change (fun t : (R * R) * (R * R) * (R * R) => let '(p, q, r) := t in Rabs (shoelace [p; q; r; p]) * (a * phi ((fst p + fst q + fst r) / 3) ((snd p + snd q + snd r) / 3) +
     b * psi ((fst p + fst q + fst r) / 3) ((snd p + snd q + snd r) / 3) + c * chi ((fst p + fst q + fst r) / 3) ((snd p + snd q + snd r) / 3)))
   with (tri_term (fun y z => a * phi y z + b * psi y z + c * chi y z)).
  rewrite HS, HB. unfold tri_term. ring.
Qed.
Lemma area_fiber mesher (els : nat -> elastic) g ms : 0 < ms <= 1 -> cg_surf g <> [] \/ cg_bars g <> [] ->
  let W phi := lumped (fun k => el_E (els k)) (fun s => mesher s (surface_area s * ms)) phi g in
  area_moments (fun laws => fiber_integ laws mesher) (fun k => elastic_law (els k)) ms g =
  Ok (W (fun _ z => z), W (fun y _ => y), W (fun _ z => z ^ 2), W (fun y _ => y ^ 2), W (fun y z => y * z)).
Proof.
  intros HM NE W. set (L := fun k => elastic_law (els k)).
  assert (LB : forall k, batched (L k)) by (intros; apply elastic_batched).
  set (mesh := fun s => mesher s (surface_area s * ms)). set (F := section_fibres L mesh g).
  destruct (C19_forces L mesher g 0 1 0 ms LB HM NE) as (d & F1 & _).
  destruct (C19_forces L mesher g 0 0 (-1) ms LB HM NE) as (d' & F2 & _).
  pose proof (C19_reuse_data L mesher g 0 1 0 0 0 (-1) ms _ _ d d' LB F1 F2) as F3.
  fold mesh F in F1, F2, F3.
  assert (HX : forall phi, W phi = lsum (map (fun f => m_tangent f 0 * (m_a f * phi (m_y f) (m_z f))) F)) by (intros phi; symmetry; apply lumped_fibres).
  assert (HT : forall f e, In f F -> m_sigma f e = m_tangent f 0 * e).
  { intros f e I. unfold F, section_fibres in I. apply in_app_iff in I. destruct I as [I|I].
    - apply in_flat_map in I. destruct I as (s & _ & I). apply in_map_iff in I. destruct I as ([[p q] r] & <- & _). reflexivity.
    - apply in_map_iff in I. destruct I as (b & <- & _). reflexivity. }
  assert (HA : forall phi e0 ky kz, (forall y z, phi y z = plane_strain e0 ky kz y z) -> axial F e0 ky kz = W phi).
  { intros phi e0 ky kz H. rewrite HX. unfold axial. apply lsum_map_ext. intros f I. rewrite (HT f _ I), H. ring. }
  assert (HY : forall phi e0 ky kz, (forall y z, phi y z = plane_strain e0 ky kz y z * z) -> moment_y F e0 ky kz = W phi).
  { intros phi e0 ky kz H. rewrite HX. unfold moment_y. apply lsum_map_ext. intros f I. rewrite (HT f _ I), H. ring. }
  assert (HZ : forall phi e0 ky kz, (forall y z, phi y z = plane_strain e0 ky kz y z * y) -> moment_z F e0 ky kz = - W phi).
  { intros phi e0 ky kz H. rewrite HX. unfold moment_z. f_equal. apply lsum_map_ext. intros f I. rewrite (HT f _ I), H. ring. }
  rewrite (HA (fun _ z => z)), (HY (fun _ z => z ^ 2)), (HZ (fun y z => y * z)) in F1 by (intros; unfold plane_strain; ring).
  rewrite (HA (fun y _ => y)), (HY (fun y z => y * z)), (HZ (fun y _ => y ^ 2)) in F3 by (intros; unfold plane_strain; ring).
  unfold area_moments. cbn [fiber_integ ig_forces]. fold L. rewrite F1. cbn [bind]. rewrite F3. cbn [bind].
  replace (- W (fun y z => y * z) * -1) with (W (fun y z => y * z)) by ring.
  replace (- W (fun y _ => y ^ 2) * -1) with (W (fun y _ => y ^ 2)) by ring.
  rewrite isclose_refl; [reflexivity|]. apply Rlt_le, Rinv_0_lt_compat, pow_lt. lra.
Qed.

(** Meshing the auxiliary geometries. *)
Definition blind (mesher : surface -> R -> list ((R * R) * (R * R) * (R * R))) (l : list surface) : Prop :=
  forall s a k, In s l -> mesher {| sf_ext := sf_ext s; sf_ints := sf_ints s; sf_law := k |} a = mesher s a.
Lemma moved_tri_0 t : moved_tri 0 0 t = t.
Proof. destruct t as [[[a b] [c d]] [e f]]. unfold moved_tri. cbn [fst snd]. rewrite !Rplus_0_r. reflexivity. Qed.
Lemma move0_ring (r : list (R * R)) : map (fun p => (fst p + 0, snd p + 0)) r = r.
Proof. induction r as [|[a b] r IH]; [reflexivity|]. cbn [map fst snd]. rewrite IH, !Rplus_0_r. reflexivity. Qed.
Lemma rigid_blind mesher l : (forall s, In s l -> rigid mesher s) -> blind mesher l.
Proof.
  intros H s a k I. specialize (H s I a 0 0 k). rewrite move0_ring in H.
  replace (map (map (fun p : R * R => (fst p + 0, snd p + 0))) (sf_ints s)) with (sf_ints s) in H
    by (generalize (sf_ints s); induction l0 as [|r l0 IH]; [reflexivity|]; cbn [map]; rewrite <- IH, move0_ring; reflexivity).
  rewrite H. clear H. generalize (mesher s a). induction l0 as [|t l0 IH]; [reflexivity|]. cbn [map]. now rewrite IH, moved_tri_0.
Qed.
Lemma number_surf_lumped E F mesher phi ms l k : blind mesher l -> (forall i s, nth_error l i = Some s -> E (k + i)%nat = F (sf_law s)) ->
  lsum (map (fun s => E (sf_law s) * lsum (map (tri_term phi) (mesher s (surface_area s * ms)))) (number_surfaces k l))
  = lsum (map (fun s => F (sf_law s) * lsum (map (tri_term phi) (mesher s (surface_area s * ms)))) l).
Proof.
  revert k. induction l as [|s l IH]; intros k B H; [reflexivity|]. cbn [number_surfaces map]. rewrite !lsum_cons. f_equal.
  - cbn [sf_law]. rewrite <- (H 0%nat s eq_refl), Nat.add_0_r. f_equal. rewrite B by now left. reflexivity.
  - apply IH; [intros t a j I; apply B; now right|]. intros i t J. rewrite <- (H (S i) t J). f_equal. lia.
Qed.
Lemma area_fiber_dummy mesher g ms : 0 < ms <= 1 -> cg_surf g <> [] \/ cg_bars g <> [] -> blind mesher (cg_surf g) ->
  let W phi := lumped (fun _ => 1) (fun s => mesher s (surface_area s * ms)) phi g in
  area_moments (fun laws => fiber_integ laws mesher) unit_laws ms (dummy g) =
  Ok (W (fun _ z => z), W (fun y _ => y), W (fun _ z => z ^ 2), W (fun y _ => y ^ 2), W (fun y z => y * z)).
Proof.
  intros HM NE B W. unfold unit_laws.
  assert (NE' : cg_surf (dummy g) <> [] \/ cg_bars (dummy g) <> []).
  { destruct NE as [N|N]; [left|right]; cbn [dummy cg_surf cg_bars]; intros Q; apply N; eapply map_eq_nil, Q. }
  rewrite (area_fiber mesher (fun _ => {| el_E := 1; el_u := None |}) (dummy g) ms HM NE').
  assert (HW : forall phi, lumped (fun _ => 1) (fun s => mesher s (surface_area s * ms)) phi (dummy g) = W phi).
  { intros phi. unfold W, lumped, dummy. cbn [cg_surf cg_bars]. rewrite !map_map. f_equal. apply lsum_map_ext. intros s I. rewrite (B s _ 0%nat I). reflexivity. }
  cbn [el_E]. rewrite !HW. reflexivity.
Qed.
Lemma area_fiber_elastic mesher laws g ms : 0 < ms <= 1 -> cg_surf g <> [] \/ cg_bars g <> [] -> blind mesher (cg_surf g) ->
  (forall k, In k (used g) -> 0 < stiffness0 laws k) ->
  let W phi := lumped (stiffness0 laws) (fun s => mesher s (surface_area s * ms)) phi g in
  exists eg, elasticise laws g = Ok eg /\
  area_moments (fun laws => fiber_integ laws mesher) (snd eg) ms (fst eg) =
  Ok (W (fun _ z => z), W (fun y _ => y), W (fun _ z => z ^ 2), W (fun y _ => y ^ 2), W (fun y z => y * z)).
Proof.
  intros HM NE B HE W. unfold elasticise. fold (used g).
  change (fun k => elastic_init (lw_tangent (laws k) 0) None) with (fun k => elastic_init (stiffness0 laws k) None).
  rewrite (elastic_all_ok (stiffness0 laws) (used g) HE). cbn [bind].
  eexists. split; [reflexivity|]. cbn [fst snd].
  set (ls := map (fun k => {| el_E := stiffness0 laws k; el_u := None |}) (used g)).
  rewrite (area_fiber mesher (fun i => nth i ls {| el_E := 1; el_u := None |}) _ ms HM).
  - assert (HW : forall phi, lumped (fun k => el_E (nth k ls {| el_E := 1; el_u := None |})) (fun s => mesher s (surface_area s * ms)) phi
       {| cg_surf := number_surfaces 0 (cg_surf g); cg_bars := number_bars (length (cg_surf g)) (cg_bars g) |} = W phi).
    { intros phi. unfold W, lumped. cbn [cg_surf cg_bars]. f_equal.
      - apply (number_surf_lumped (fun k => el_E (nth k ls {| el_E := 1; el_u := None |})) (stiffness0 laws) mesher phi ms); [exact B|].
        intros i s J. cbn [Nat.add]. unfold ls, used.
        assert (N : nth_error (map (fun k => {| el_E := stiffness0 laws k; el_u := None |}) (map sf_law (cg_surf g) ++ map br_law (cg_bars g))) i = Some {| el_E := stiffness0 laws (sf_law s); el_u := None |}).
        { rewrite map_app, nth_error_app1; [|rewrite !map_length; apply nth_error_Some; congruence]. rewrite map_map. now apply map_nth_error with (f := fun x => {| el_E := stiffness0 laws (sf_law x); el_u := None |}). }
        rewrite (nth_error_nth _ _ _ N). reflexivity.
      - apply (number_bars_weighted (fun k => el_E (nth k ls {| el_E := 1; el_u := None |})) (stiffness0 laws)). intros i s J. unfold ls, used.
        assert (N : nth_error (map (fun k => {| el_E := stiffness0 laws k; el_u := None |}) (map sf_law (cg_surf g) ++ map br_law (cg_bars g))) (length (cg_surf g) + i) = Some {| el_E := stiffness0 laws (br_law s); el_u := None |}).
        { rewrite map_app, nth_error_app2; [|rewrite !map_length; lia]. rewrite !map_length.
          replace (length (cg_surf g) + i - length (cg_surf g))%nat with i by lia.
          rewrite map_map. now apply map_nth_error with (f := fun x => {| el_E := stiffness0 laws (br_law x); el_u := None |}). }
        rewrite (nth_error_nth _ _ _ N). reflexivity. }
    rewrite !HW. reflexivity.
  - cbn [cg_surf cg_bars]. destruct NE as [N|N]; [left|right]; intros Q; apply N; [destruct (cg_surf g)|destruct (cg_bars g)]; [reflexivity|discriminate|reflexivity|discriminate].
Qed.
Lemma area_moved u v s : okay s -> surface_area (translate_surface u v s) = surface_area s.
Proof. intros O. rewrite (surf_area _ (okay_move u v s O)), (surf_area s O). apply (SM_move u v s O). Qed.
Lemma lumped_moved E mesher phi u v ms g : rings_closed g -> (forall s, In s (cg_surf g) -> rigid mesher s) ->
  lumped E (fun s => mesher s (surface_area s * ms)) phi (translate_geo u v g)
  = lumped E (fun s => mesher s (surface_area s * ms)) (fun y z => phi (y + u) (z + v)) g.
Proof.
  intros RC RG. unfold lumped, translate_geo. cbn [cg_surf cg_bars]. rewrite !map_map. f_equal.
  apply lsum_map_ext. intros s I. cbn [translate_surface sf_law]. f_equal.
  change ({| sf_ext := map (move u v) (sf_ext s); sf_ints := map (map (move u v)) (sf_ints s); sf_law := sf_law s |}) with (translate_surface u v s).
  rewrite (area_moved u v s (RC s I)). pose proof (RG s I (surface_area s * ms) u v (sf_law s)) as H.
  change (mesher (translate_surface u v s) (surface_area s * ms) = map (moved_tri u v) (mesher s (surface_area s * ms))) in H. rewrite H, map_map.
  apply lsum_map_ext. intros [[[a b] [c d]] [e f]] _. cbn [moved_tri fst snd].
  replace ((a + u + (c + u) + (e + u)) / 3) with ((a + c + e) / 3 + u) by field.
  replace ((b + v + (d + v) + (f + v)) / 3) with ((b + d + f) / 3 + v) by field. f_equal. f_equal.
  rewrite <- !fan_area. pose proof (shoelace_move u v [(a, b); (c, d); (e, f); (a, b)]) as Q. rewrite <- !fan_area in Q. apply Q. reflexivity.
Qed.
Lemma blind_move mesher u v g : (forall s, In s (cg_surf g) -> rigid mesher s) -> blind mesher (cg_surf (translate_geo u v g)).
Proof.
  intros H s a k I. apply in_map_iff in I. destruct I as (s0 & <- & I). specialize (H s0 I).
  pose proof (H a u v k) as P1. pose proof (H a u v (sf_law s0)) as P2. cbn [translate_surface sf_ext sf_ints sf_law].
  etransitivity; [exact P1|]. symmetry. exact P2.
Qed.
Lemma gross_fiber laws mesher dens eig p ms g : rings_closed g -> 0 < ms <= 1 -> (forall k, in_use g k -> 0 < stiffness0 laws k) ->
  (forall s, In s (cg_surf g) -> rigid mesher s /\ fills (mesher s (surface_area s * ms)) s) ->
  let mesh s := mesher s (surface_area s * ms) in
  let A phi := lumped (fun _ => 1) mesh phi g in let W phi := lumped (stiffness0 laws) mesh phi g in
  W (fun _ _ => 1) <> 0 ->
  exists r, gross_properties (fun l => fiber_integ l mesher) laws dens eig (OnePolygon p) ms g = Ok r /\ classical A W r /\
    gp_perimeter r = p /\ gp_area r = lsum (map surface_area (cg_surf g)) /\ gp_area_reinforcement r = lsum (map br_area (cg_bars g)) /\
    (gp_i11 r, gp_i22 r, gp_theta r) = principal eig (gp_iyy_c r) (gp_izz_c r) (gp_iyz_c r) /\
    (gp_e_i11 r, gp_e_i22 r, gp_e_theta r) = principal eig (gp_e_iyy_c r) (gp_e_izz_c r) (gp_e_iyz_c r) /\
    gp_mass r = lsum (map (fun s => match dens (sf_law s) with Some d => surface_area s * d * / 10 ^ 9 | None => 0 end) (cg_surf g)
                    ++ map (fun b => match dens (br_law b) with Some d => br_area b * d * / 10 ^ 9 | None => 0 end) (cg_bars g)).
Proof.
  intros RC HM HE HR mesh A W HN.
  assert (NE : cg_surf g <> [] \/ cg_bars g <> []).
  { destruct g as [[|s ss] [|b bs]]; cbn [cg_surf cg_bars]; [|right; discriminate|left; discriminate|left; discriminate].
    exfalso. apply HN. unfold W, lumped. cbn. lra. }
  assert (RG : forall s, In s (cg_surf g) -> rigid mesher s) by (intros s I; apply HR, I).
  pose proof (rigid_blind mesher (cg_surf g) RG) as BL.
  assert (HE' : forall k, In k (used g) -> 0 < stiffness0 laws k) by (intros k I; apply HE, used_in, I).
  set (cy := W (fun y _ => y) / W (fun _ _ => 1)). set (cz := W (fun _ z => z) / W (fun _ _ => 1)).
  pose proof (rings_move (- cy) (- cz) g RC) as RT. pose proof (blind_move mesher (- cy) (- cz) g RG) as BT.
  set (tg := translate_geo (- cy) (- cz) g) in *.
  assert (NT : cg_surf tg <> [] \/ cg_bars tg <> []).
  { unfold tg. destruct NE as [N|N]; [left|right]; cbn [translate_geo cg_surf cg_bars]; intros Q; apply N; eapply map_eq_nil, Q. }
  destruct (area_fiber_elastic mesher laws g ms HM NE BL HE') as (eg & G1 & G2).
  assert (HT : forall k, In k (used tg) -> 0 < stiffness0 laws k) by (unfold tg; rewrite used_move; exact HE').
  destruct (area_fiber_elastic mesher laws tg ms HM NT BT HT) as (etg & T1 & T2).
  cbv beta zeta in G2, T2.
  assert (SH : forall E phi, lumped E mesh phi tg = lumped E mesh (fun y z => phi (y - cy) (z - cz)) g).
  { intros E phi. unfold tg, mesh. rewrite (lumped_moved E mesher phi (- cy) (- cz) ms g RC RG). apply lumped_ext. intros. unfold Rminus. reflexivity. }
  apply (gross_from (fun l => fiber_integ l mesher) laws dens eig p ms g eg etg cy cz A W); try reflexivity.
  - rewrite lsum_app. unfold W, lumped. f_equal.
    + apply lsum_map_ext. intros s I. destruct (HR s I) as [_ FI]. unfold fills in FI.
      rewrite (surf_area s (RC s I)). unfold mesh, stiffness0.
      assert (QQ : lsum (map (fun t : (R * R) * (R * R) * (R * R) => let '(p0, q, r) := t in Rabs (shoelace [p0; q; r; p0]) * 1) (mesher s (surface_area s * ms))) = SM 0 0 s).
      { rewrite <- (Rmult_1_l (SM 0 0 s)). transitivity (surface_integral (fun _ _ => 1) s).
        - rewrite <- FI. apply lsum_map_ext. intros [[a b] c] _. ring.
        - rewrite (surf_poly (fun _ _ => 1) 1 0 0 0 0 0 s (RC s I)) by (intros; ring). ring. }
      rewrite QQ. ring.
    + apply lsum_map_ext. intros b _. unfold stiffness0. ring.
  - exact HN.
  - exact (area_fiber_dummy mesher g ms HM NE BL).
  - exact G1.
  - exact G2.
  - fold tg. pose proof (area_fiber_dummy mesher tg ms HM NT BT) as D. cbv beta zeta in D. fold mesh in D. rewrite !(SH (fun _ => 1)) in D. eexists. eexists. exact D.
  - exact T1.
  - fold mesh in T2. rewrite !(SH (stiffness0 laws)) in T2. eexists. eexists. exact T2.
Qed.

(** * Consequences *)
Definition quadratic_linear (A : (R -> R -> R) -> R) : Prop := forall phi ca cb cc cd ce cf,
  (forall y z, phi y z = ca + cb * y + cc * z + cd * y ^ 2 + ce * y * z + cf * z ^ 2) ->
  A phi = ca * A (fun _ _ => 1) + cb * A (fun y _ => y) + cc * A (fun _ z => z) + cd * A (fun y _ => y ^ 2) + ce * A (fun y z => y * z) + cf * A (fun _ z => z ^ 2).
Lemma weighted_ql E g : rings_closed g -> quadratic_linear (fun phi => weighted E phi g).
Proof.
  intros RC phi ca cb cc cd ce cf H. cbv beta. rewrite (weighted_poly E phi ca cb cc cd ce cf g RC H).
  rewrite (weighted_poly E (fun _ _ => 1) 1 0 0 0 0 0 g RC) by (intros; ring).
  rewrite (weighted_poly E (fun y _ => y) 0 1 0 0 0 0 g RC) by (intros; ring).
  rewrite (weighted_poly E (fun _ z => z) 0 0 1 0 0 0 g RC) by (intros; ring).
  rewrite (weighted_poly E (fun y _ => y ^ 2) 0 0 0 1 0 0 g RC) by (intros; ring).
  rewrite (weighted_poly E (fun y z => y * z) 0 0 0 0 1 0 g RC) by (intros; ring).
  rewrite (weighted_poly E (fun _ z => z ^ 2) 0 0 0 0 0 1 g RC) by (intros; ring). ring.
Qed.
Lemma lumped_ql E mesh g : quadratic_linear (fun phi => lumped E mesh phi g).
Proof.
  intros phi ca cb cc cd ce cf H. cbv beta.
  rewrite (lumped_ext E mesh phi (fun y z => 1 * (ca * 1 + cb * y + cc * z) + 1 * (cd * y ^ 2 + ce * (y * z) + cf * z ^ 2) + 0 * 0) g) by (intros; rewrite H; ring).
  rewrite (lumped_lin E mesh (fun y z => ca * 1 + cb * y + cc * z) (fun y z => cd * y ^ 2 + ce * (y * z) + cf * z ^ 2) (fun _ _ => 0) 1 1 0 g).
  rewrite (lumped_lin E mesh (fun _ _ => 1) (fun y _ => y) (fun _ z => z) ca cb cc g).
  rewrite (lumped_lin E mesh (fun y _ => y ^ 2) (fun y z => y * z) (fun _ z => z ^ 2) cd ce cf g). ring.
Qed.
Lemma integrates_ql mk ms g I E : rings_closed g -> integrates mk ms g I -> quadratic_linear (fun phi => I E phi g).
Proof.
  intros RC [(_ & ->)|(mesher & _ & _ & _ & ->)]; [now apply weighted_ql|]. exact (lumped_ql E (fun s => mesher s (surface_area s * ms)) g).
Qed.
Lemma gross_method mk laws dens eig p ms g I : rings_closed g -> (forall k, in_use g k -> 0 < stiffness0 laws k) -> integrates mk ms g I ->
  let A phi := I (fun _ => 1) phi g in let W phi := I (stiffness0 laws) phi g in
  W (fun _ _ => 1) <> 0 ->
  exists r, gross_properties mk laws dens eig (OnePolygon p) ms g = Ok r /\ classical A W r /\
    gp_perimeter r = p /\ gp_area r = lsum (map surface_area (cg_surf g)) /\ gp_area_reinforcement r = lsum (map br_area (cg_bars g)) /\
    (gp_i11 r, gp_i22 r, gp_theta r) = principal eig (gp_iyy_c r) (gp_izz_c r) (gp_iyz_c r) /\
    (gp_e_i11 r, gp_e_i22 r, gp_e_theta r) = principal eig (gp_e_iyy_c r) (gp_e_izz_c r) (gp_e_iyz_c r) /\
    gp_mass r = lsum (map (fun s => match dens (sf_law s) with Some d => surface_area s * d * / 10 ^ 9 | None => 0 end) (cg_surf g)
                    ++ map (fun b => match dens (br_law b) with Some d => br_area b * d * / 10 ^ 9 | None => 0 end) (cg_bars g)).
Proof.
  intros RC HE [(-> & ->)|(mesher & -> & HM & HR & ->)] A W HN.
  - exact (gross_marin laws dens eig p ms g RC HE HN).
  - exact (gross_fiber laws mesher dens eig p ms g RC HM HE HR HN).
Qed.
Lemma area_spec g : rings_closed g -> lsum (map surface_area (cg_surf g)) = lsum (map (surface_integral (fun _ _ => 1)) (cg_surf g)).
Proof.
  intros RC. apply lsum_map_ext. intros s I. rewrite (surf_area s (RC s I)), (surf_poly (fun _ _ => 1) 1 0 0 0 0 0 s (RC s I)) by (intros; ring). ring.
Qed.
Lemma steiner_of A W r : quadratic_linear A -> quadratic_linear W -> classical A W r -> 
  gp_e_iyy_c r = gp_e_iyy r - gp_ea r * gp_cz r ^ 2 /\
  gp_e_izz_c r = gp_e_izz r - gp_ea r * gp_cy r ^ 2 /\
  gp_e_iyz_c r = gp_e_iyz r - gp_ea r * (gp_cy r * gp_cz r) /\
  gp_iyy_c r = gp_iyy r - 2 * gp_cz r * gp_sy r + gp_cz r ^ 2 * A (fun _ _ => 1) /\
  gp_izz_c r = gp_izz r - 2 * gp_cy r * gp_sz r + gp_cy r ^ 2 * A (fun _ _ => 1) /\
  gp_iyz_c r = gp_iyz r - gp_cy r * gp_sy r - gp_cz r * gp_sz r + gp_cy r * gp_cz r * A (fun _ _ => 1).
Proof.
  intros QA QW (H1 & H2 & H3 & H4 & H5 & H6 & H7 & H8 & H9 & H10 & H11 & H12 & H13 & H14 & H15 & H16 & H17 & H18 & H19).
  rewrite H14, H15, H16, H17, H18, H19, H1, H2, H3, H4, H5, H6, H9, H10, H11.
  set (cy := gp_cy r) in *. set (cz := gp_cz r) in *. clearbody cy cz.
  rewrite (QW (fun _ z => (z - cz) ^ 2) (cz ^ 2) 0 (- 2 * cz) 0 0 1) by (intros; ring).
  rewrite (QW (fun y _ => (y - cy) ^ 2) (cy ^ 2) (- 2 * cy) 0 1 0 0) by (intros; ring).
  rewrite (QW (fun y z => (y - cy) * (z - cz)) (cy * cz) (- cz) (- cy) 0 1 0) by (intros; ring).
  rewrite (QA (fun _ z => (z - cz) ^ 2) (cz ^ 2) 0 (- 2 * cz) 0 0 1) by (intros; ring).
  rewrite (QA (fun y _ => (y - cy) ^ 2) (cy ^ 2) (- 2 * cy) 0 1 0 0) by (intros; ring).
  rewrite (QA (fun y z => (y - cy) * (z - cz)) (cy * cz) (- cz) (- cy) 0 1 0) by (intros; ring).
  rewrite <- H12, <- H13.
  split; [ring|]. split; [ring|]. split; [ring|]. split; [ring|]. split; ring.
Qed.
(** additivity *)
Lemma weighted_both E phi g h : weighted E phi (both g h) = weighted E phi g + weighted E phi h.
Proof. unfold weighted, both. cbn [cg_surf cg_bars]. rewrite !map_app, !lsum_app. ring. Qed.
Lemma lumped_both E mesh phi g h : lumped E mesh phi (both g h) = lumped E mesh phi g + lumped E mesh phi h.
Proof. unfold lumped, both. cbn [cg_surf cg_bars]. rewrite !map_app, !lsum_app. ring. Qed.
Lemma integrates_both mk ms g h I : integrates mk ms (both g h) I ->
  integrates mk ms g I /\ integrates mk ms h I /\ (forall E phi, I E phi (both g h) = I E phi g + I E phi h).
Proof.
  intros [(-> & ->)|(mesher & -> & HM & HR & ->)].
  - split; [left; split; reflexivity|]. split; [left; split; reflexivity|]. intros. apply weighted_both.
  - split; [right; exists mesher; split; [reflexivity|]; split; [exact HM|]; split; [|reflexivity]; intros s J; apply HR; cbn [both cg_surf]; apply in_app_iff; now left|].
    split; [right; exists mesher; split; [reflexivity|]; split; [exact HM|]; split; [|reflexivity]; intros s J; apply HR; cbn [both cg_surf]; apply in_app_iff; now right|].
    intros. apply lumped_both.
Qed.
(** translation *)
Lemma move_move u v a b p : (fst (move u v p) + a, snd (move u v p) + b) = (fst p + (u + a), snd p + (v + b)).
Proof. unfold move. cbn [fst snd]. f_equal; ring. Qed.
Lemma rigid_moved mesher u v s : rigid mesher s -> rigid mesher (translate_surface u v s).
Proof.
  intros H a x y k. cbn [translate_surface sf_ext sf_ints].
  assert (M1 : forall r : list (R * R), map (fun p => (fst p + x, snd p + y)) (map (move u v) r) = map (fun p => (fst p + (u + x), snd p + (v + y))) r).
  { intros r. rewrite map_map. apply map_ext. intros p. apply move_move. }
  rewrite M1. assert (M2 : map (map (fun p => (fst p + x, snd p + y))) (map (map (move u v)) (sf_ints s)) = map (map (fun p => (fst p + (u + x), snd p + (v + y)))) (sf_ints s)).
  { rewrite map_map. apply map_ext. intros r. apply M1. }
  rewrite M2, (H a (u + x) (v + y) k). pose proof (H a u v (sf_law s)) as H2. unfold translate_surface. 
  change (mesher {| sf_ext := map (move u v) (sf_ext s); sf_ints := map (map (move u v)) (sf_ints s); sf_law := sf_law s |} a = map (moved_tri u v) (mesher s a)) in H2.
  rewrite H2, map_map. apply map_ext. intros [[[b c] [d e]] [f g]]. cbn [moved_tri fst snd]. rewrite !Rplus_assoc. reflexivity.
Qed.
Lemma fills_moved mesher u v ms s : okay s -> rigid mesher s -> fills (mesher s (surface_area s * ms)) s ->
  fills (mesher (translate_surface u v s) (surface_area (translate_surface u v s) * ms)) (translate_surface u v s).
Proof.
  intros O RG F. unfold fills in *. rewrite (area_moved u v s O).
  rewrite (surf_poly (fun _ _ => 1) 1 0 0 0 0 0 _ (okay_move u v s O)) by (intros; ring).
  destruct (SM_move u v s O) as (-> & _). 
  rewrite (surf_poly (fun _ _ => 1) 1 0 0 0 0 0 s O) in F by (intros; ring).
  pose proof (RG (surface_area s * ms) u v (sf_law s)) as H.
  change (mesher (translate_surface u v s) (surface_area s * ms) = map (moved_tri u v) (mesher s (surface_area s * ms))) in H. rewrite H, map_map.
  transitivity (SM 0 0 s).
  - transitivity (1 * SM 0 0 s + 0 * SM 1 0 s + 0 * SM 0 1 s + 0 * SM 2 0 s + 0 * SM 1 1 s + 0 * SM 0 2 s); [|ring]. rewrite <- F. apply lsum_map_ext.
    intros [[[a b] [c d]] [e f]] _. cbn [moved_tri fst snd].
    f_equal. rewrite <- !fan_area. pose proof (shoelace_move u v [(a, b); (c, d); (e, f); (a, b)]) as Q. rewrite <- !fan_area in Q. apply Q. reflexivity.
  - assert (Z : SM 1 0 (translate_surface u v s) = SM 1 0 (translate_surface u v s)) by reflexivity. ring.
Qed.
Lemma integrates_moved mk ms g I u v : rings_closed g -> integrates mk ms g I ->
  integrates mk ms (translate_geo u v g) I /\
  (forall E phi ca cb cc cd ce cf, (forall y z, phi y z = ca + cb * y + cc * z + cd * y ^ 2 + ce * y * z + cf * z ^ 2) ->
     I E phi (translate_geo u v g) = I E (fun y z => phi (y + u) (z + v)) g).
Proof.
  intros RC [(-> & ->)|(mesher & -> & HM & HR & ->)].
  - split; [left; split; reflexivity|]. intros E phi ca cb cc cd ce cf H. exact (weighted_moved E u v phi ca cb cc cd ce cf g RC H).
  - split.
    + right. exists mesher. split; [reflexivity|]. split; [exact HM|]. split; [|reflexivity].
      intros s J. apply in_map_iff in J. destruct J as (s0 & <- & J). destruct (HR s0 J) as [RG F]. split; [now apply rigid_moved|].
      apply fills_moved; [exact (RC s0 J)|exact RG|exact F].
    + intros E phi _ _ _ _ _ _ _. apply (lumped_moved E mesher phi u v ms g RC). intros s J. apply HR, J.
Qed.
Lemma in_use_moved u v g k : in_use (translate_geo u v g) k <-> in_use g k.
Proof. rewrite <- !used_in, used_move. reflexivity. Qed.

(** * Principal axes *)
Lemma principal_spec eig a b c : eigen_ok eig -> let '(i11, i22, th) := principal eig a b c in
  i22 <= i11 /\ i11 + i22 = a + b /\ i11 * i22 = a * b - c ^ 2 /\ 0 <= th <= PI /\ exists s, s ^ 2 = sin th ^ 2 /\ eigenvector a b c i11 (cos th, s).
Proof.
  intros HK. specialize (HK a b c). unfold principal. destruct (eig a b c) as [[l0 l1] [v0 v1]]. destruct HK as (T & D & V0 & V1).
  assert (X : forall l v, eigenvector a b c l v -> exists s, s ^ 2 = sin (acos (1 * fst v + 0 * snd v)) ^ 2 /\ eigenvector a b c l (cos (acos (1 * fst v + 0 * snd v)), s)).
  { intros l [x y] V. cbn [fst snd]. exists y. assert (N : x ^ 2 + y ^ 2 = 1) by apply V.
    replace (1 * x + 0 * y) with x by ring. assert (-1 <= x <= 1) by (split; nra).
    rewrite cos_acos by assumption. split; [|exact V]. rewrite sin_acos by assumption. rewrite pow2_sqrt by (unfold Rsqr; nra). unfold Rsqr. nra. }
  destruct (Rltb_spec l0 l1) as [L|L].
  - split; [lra|]. split; [lra|]. split; [lra|]. split; [apply acos_bound|]. apply X, V1.
  - split; [lra|]. split; [lra|]. split; [lra|]. split; [apply acos_bound|]. apply X, V0.
Qed.
Lemma quad_bound P Q c x y : 0 <= P -> 0 <= Q -> P * Q = c ^ 2 -> 0 <= P * x ^ 2 - 2 * c * (x * y) + Q * y ^ 2.
Proof.
  intros HP HQ H. destruct (Req_dec P 0) as [Z|Z].
  - assert (c = 0) by (subst P; nra). subst P c. nra.
  - assert (P * (P * x ^ 2 - 2 * c * (x * y) + Q * y ^ 2) = (P * x - c * y) ^ 2) by (replace (P * (P * x ^ 2 - 2 * c * (x * y) + Q * y ^ 2)) with (P ^ 2 * x ^ 2 - 2 * P * c * (x * y) + (P * Q) * y ^ 2) by ring; rewrite H; ring).
    apply Rmult_le_reg_l with P; [lra|]. rewrite Rmult_0_r, H0. apply pow2_ge_0.
Qed.
Lemma extremal a b c i11 i22 t : i22 <= i11 -> i11 + i22 = a + b -> i11 * i22 = a * b - c ^ 2 -> i22 <= inertia_about a b c t <= i11.
Proof.
  intros L T D. unfold inertia_about. pose proof (sin2_cos2 t) as N. unfold Rsqr in N. set (x := cos t) in *. set (y := sin t) in *. clearbody x y.
  assert (M1 : (i11 - a) * (i11 - b) = c ^ 2) by nra. assert (M2 : (a - i22) * (b - i22) = c ^ 2) by nra.
  assert (P1 : 0 <= i11 - a /\ 0 <= i11 - b) by (split; nra). assert (P2 : 0 <= a - i22 /\ 0 <= b - i22) by (split; nra).
  pose proof (quad_bound (i11 - a) (i11 - b) c x y (proj1 P1) (proj2 P1) M1).
  pose proof (quad_bound (a - i22) (b - i22) (- c) x y (proj1 P2) (proj2 P2) ltac:(nra)).
  assert (N1 : i11 * (y * y + x * x) = i11) by (rewrite N; ring). assert (N2 : i22 * (y * y + x * x) = i22) by (rewrite N; ring).
  split; lra.
Qed.
(** A closed form of the eigenvectors. *)
Definition unit2 (x y : R) : R * R := (x / sqrt (x ^ 2 + y ^ 2), y / sqrt (x ^ 2 + y ^ 2)).
Definition eig2 (sg : R) : eigen := fun a b c =>
  if Reqb c 0 then ((a, b), ((sg, 0), (0, sg))) else
  let d := sqrt (((a - b) / 2) ^ 2 + c ^ 2) in
  let l0 := (a + b) / 2 + d in let l1 := (a + b) / 2 - d in
  ((l0, l1), (unit2 (sg * c) (sg * (l0 - a)), unit2 (sg * c) (sg * (l1 - a)))).
Lemma unit2_vec a b c l sg : sg ^ 2 = 1 -> c <> 0 -> c * c + b * (l - a) = l * (l - a) -> eigenvector a b c l (unit2 (sg * c) (sg * (l - a))).
Proof.
  intros S1 NC H. unfold unit2, eigenvector. cbn [fst snd]. set (n := (sg * c) ^ 2 + (sg * (l - a)) ^ 2).
  assert (NP : 0 < n).
  { assert (C2 : 0 < c ^ 2) by (destruct (Rtotal_order c 0) as [?|[?|?]]; [nra|contradiction|nra]).
    replace n with (sg ^ 2 * (c ^ 2 + (l - a) ^ 2)) by (unfold n; ring). rewrite S1. pose proof (pow2_ge_0 (l - a)). lra. }
  assert (SP : 0 < sqrt n) by now apply sqrt_lt_R0. assert (SQ : sqrt n * sqrt n = n) by (apply sqrt_sqrt; lra). 
  split; [field; lra|]. split.
  - replace (c * (sg * c / sqrt n) + b * (sg * (l - a) / sqrt n)) with (sg * (c * c + b * (l - a)) / sqrt n) by (field; lra). rewrite H. field. lra.
  - replace ((sg * c / sqrt n) ^ 2 + (sg * (l - a) / sqrt n) ^ 2) with (n / (sqrt n * sqrt n)) by (unfold n at 1; field; lra). rewrite SQ. field. lra.
Qed.
Lemma eig2_ok sg : sg ^ 2 = 1 -> eigen_ok (eig2 sg).
Proof.
  intros S1 a b c. unfold eig2. destruct (Reqb_spec c 0) as [->|NC].
  - unfold eigenvector. cbn [fst snd]. repeat split; try ring; nra.
  - set (d := sqrt _). assert (DD : d * d = ((a - b) / 2) ^ 2 + c ^ 2) by (apply sqrt_sqrt; pose proof (pow2_ge_0 ((a - b) / 2)); pose proof (pow2_ge_0 c); lra).
    split; [field|].
    split; [replace (((a + b) / 2 + d) * ((a + b) / 2 - d)) with (((a + b) / 2) ^ 2 - d * d) by ring; rewrite DD; field|].
    split; apply unit2_vec; try assumption.
    + replace (((a + b) / 2 + d) * ((a + b) / 2 + d - a)) with (b * ((a + b) / 2 + d - a) + (d * d - ((a - b) / 2) ^ 2)) by field. rewrite DD. ring.
    + replace (((a + b) / 2 - d) * ((a + b) / 2 - d - a)) with (b * ((a + b) / 2 - d - a) + (d * d - ((a - b) / 2) ^ 2)) by field. rewrite DD. ring.
Qed.
