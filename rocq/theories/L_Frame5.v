(** Rectangles are solid in every direction. *)
From Coquelicot Require Import Coquelicot.
From Coq Require Import FunctionalExtensionality Lra Lia.
From Verif Require Import Base M_Marin S_Marin L_Marin M_Laws S_Laws M_Laws2 S_Laws2 M_Fiber S_Fiber L_Fiber M_MarinInt L_MarinInt L_MarinInt2 L_MarinInt3 L_MarinInt4 L_Frame L_Frame2 L_Frame3 L_Frame4
  M_Section M_Gross M_Geo M_Cracked S_Cracked L_Cracked7 S_MarinInt.

Lemma tame_continuous (f : R -> R) : (forall x, continuous f x) -> tame f.
Proof.
  intros C n. apply everywhere_continuous. intros x. apply (continuous_mult (fun x => x ^ n) f); [|apply C].
  apply derive_continuous. auto_derive. exact I.
Qed.
Lemma slice_continuous (f : R -> R) k0 k1 k2 (Y z : R) : (forall x, continuous f x) -> continuous (fun z => RInt (fun y => f (k0 + k1 * z + k2 * y)) 0 Y) z.
Proof.
  intros C. assert (EF : everywhere f) by (apply everywhere_continuous; exact C).
  destruct (Req_dec k2 0) as [-> |N].
  - apply (continuous_ext (fun z => Y * f (k0 + k1 * z))).
    + intros x. rewrite (RInt_ext _ (fun _ => f (k0 + k1 * x))) by (intros; f_equal; ring). rewrite RInt_const. change (scal ?a ?b) with (a * b). toR. ring.
    + apply (continuous_mult (fun _ => Y) (fun z => f (k0 + k1 * z))); [apply continuous_const|apply along; exact C].
  - apply (continuous_ext (fun z => / k2 * (prim f ((k0 + k2 * Y) + k1 * z) - prim f (k0 + k1 * z)))).
    + intros x. replace (k0 + k2 * Y + k1 * x) with ((k0 + k1 * x) + k2 * Y) by ring. rewrite <- (prim_line f (k0 + k1 * x) k2 Y EF). unfold prim.
      rewrite <- RInt_scal' by (apply everywhere_line; exact EF). apply RInt_ext. intros y _. toR. field. exact N.
    + apply (continuous_mult (fun _ => / k2) (fun z => prim f ((k0 + k2 * Y) + k1 * z) - prim f (k0 + k1 * z))); [apply continuous_const|].
      apply (continuous_minus (fun z => prim f ((k0 + k2 * Y) + k1 * z)) (fun z => prim f (k0 + k1 * z))); apply along; intros; apply prim_continuous; exact EF.
Qed.
Lemma rect_iterated (phi : R -> R -> R) y0 y1 z0 z1 :
  (forall Y (z : R), continuous (fun z => RInt (fun y => phi y z) 0 Y) z) ->
  region_integral phi (rect y0 y1 z0 z1) = RInt (fun z => RInt (fun y => phi y z) 0 y1 - RInt (fun y => phi y z) 0 y0) z0 z1.
Proof.
  intros C. pose (S := fun Y z => RInt (fun y => phi y z) 0 Y).
  assert (ES : forall Y, everywhere (S Y)) by (intros Y; apply everywhere_continuous; exact (C Y)).
  assert (V : forall Y a b, RInt (fun t => S Y (a + (b - a) * t) * (b - a)) 0 1 = RInt (S Y) a b).
  { intros Y a b. replace (RInt (S Y) a b) with (RInt (S Y) ((b - a) * 0 + a) ((b - a) * 1 + a)) by (f_equal; ring).
    rewrite <- (RInt_comp_lin (V := R_CompleteNormedModule) (S Y) (b - a) a 0 1) by apply ES.
    apply RInt_ext. intros t _. change (scal ?a ?b) with (a * b). rewrite (Rplus_comm a). toR. ring. }
  change (region_integral phi (rect y0 y1 z0 z1) = RInt (fun z => S y1 z - S y0 z) z0 z1).
  rewrite RInt_minus' by apply ES. unfold region_integral, rect. cbn [edges map lsum fold_left fst snd].
  assert (H0 : forall (g : R -> R) k, k = 0 -> RInt (fun t => g t * k) 0 1 = 0).
  { intros g k ->. rewrite (RInt_ext _ (fun _ => 0)) by (intros; apply Rmult_0_r). rewrite RInt_const. change (scal ?a ?b) with (a * b). toR. ring. }
  rewrite (H0 _ (z0 - z0)), (H0 _ (z1 - z1)) by ring.
  rewrite <- (V y1 z0 z1). rewrite <- (opp_RInt_swap (V := R_CompleteNormedModule) (S y0) z1 z0) by apply ES. rewrite <- (V y0 z1 z0).
  change (opp ?x) with (- x). 
  replace (RInt (fun t => RInt (fun y => phi y (snd (seg (y1, z0) (y1, z1) t))) 0 (fst (seg (y1, z0) (y1, z1) t)) * (z1 - z0)) 0 1) with (RInt (fun t => S y1 (z0 + (z1 - z0) * t) * (z1 - z0)) 0 1).
  2:{ apply RInt_ext. intros t _. unfold seg, S. cbn [fst snd]. replace ((1 - t) * y1 + t * y1) with y1 by ring. replace ((1 - t) * z0 + t * z1) with (z0 + (z1 - z0) * t) by ring. reflexivity. }
  replace (RInt (fun t => RInt (fun y => phi y (snd (seg (y0, z1) (y0, z0) t))) 0 (fst (seg (y0, z1) (y0, z0) t)) * (z0 - z1)) 0 1) with (RInt (fun t => S y0 (z1 + (z0 - z1) * t) * (z0 - z1)) 0 1).
  2:{ apply RInt_ext. intros t _. unfold seg, S. cbn [fst snd]. replace ((1 - t) * y0 + t * y0) with y0 by ring. replace ((1 - t) * z1 + t * z0) with (z1 + (z0 - z1) * t) by ring. reflexivity. }
  toR. unfold lsum. cbn [fold_right fold_left]. ring.
Qed.
Lemma rect_solid_turned a y0 y1 z0 z1 k : y0 < y1 -> z0 < z1 -> solid (turned a {| sf_ext := rect y0 y1 z0 z1; sf_ints := []; sf_law := k |}).
Proof.
  intros HY HZ f C P. assert (CF : forall x, continuous f x) by (intros x; apply continuity_pt_filterlim; apply C).
  set (s := {| sf_ext := rect y0 y1 z0 z1; sf_ints := []; sf_law := k |}).
  assert (E : surface_integral (fun _ z => f z) (turned a s) = surface_integral (fun y z => f (0 + cos a * z + sin a * y)) s).
  { pose proof (surface_frames f 0 1 a (cos a) (- sin a) 1 0 0 0 0 0 s (fun _ => tame_continuous f CF) ltac:(ring) ltac:(ring) (rect_closed y0 y1 z0 z1) ltac:(intros ? [])) as E.
    etransitivity; [|etransitivity; [exact E|]].
    - f_equal. extensionality y. extensionality z. pose proof (sin2_cos2 a) as T. unfold Rsqr in T. unfold plane_strain, back_y, back_z, quadratic.
      replace (0 + cos a * (cos a * z - sin a * y) - - sin a * (cos a * y + sin a * z)) with ((sin a * sin a + cos a * cos a) * z) by ring. rewrite T, Rmult_1_l. ring.
    - f_equal. extensionality y. extensionality z. unfold plane_strain, quadratic. replace (0 + cos a * z - - sin a * y) with (0 + cos a * z + sin a * y) by ring. ring. }
  rewrite E. unfold surface_integral, s. cbn [sf_ext sf_ints map]. rewrite rect_ccw by assumption.
  assert (SC : forall Y (z : R), continuous (fun z => RInt (fun y => f (0 + cos a * z + sin a * y)) 0 Y) z) by (intros; apply slice_continuous; exact CF).
  rewrite (rect_iterated (fun y z => f (0 + cos a * z + sin a * y))) by exact SC.
  replace (lsum []) with 0 by reflexivity. rewrite Rplus_0_r.
  assert (EG : forall z, everywhere (fun y => f (0 + cos a * z + sin a * y))) by (intros z; apply everywhere_continuous; intros y; apply along; exact CF).
  apply RInt_ge_0; [lra| |].
  - apply everywhere_minus; apply everywhere_continuous; apply SC.
  - intros z _. change (0 <= prim (fun y => f (0 + cos a * z + sin a * y)) y1 - prim (fun y => f (0 + cos a * z + sin a * y)) y0). rewrite prim_diff by apply EG. apply RInt_ge_0; [lra|apply EG|intros; apply P].
Qed.
