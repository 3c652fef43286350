(** Lemmas for C64: the work of force differences, on fibres and in the limit of fine meshes. *)
From Coquelicot Require Import Coquelicot.
From Coq Require Import FunctionalExtensionality Lra Lia Permutation.
From Verif Require Import Base M_Marin S_Marin L_Marin M_Laws S_Laws L_Laws M_Laws2 S_Laws2 L_LawsC M_Fiber S_Fiber L_Fiber M_MarinInt L_MarinInt L_MarinInt2 L_MarinInt3 L_MarinInt4
  L_Frame L_Frame2 L_Frame3 L_Frame4 M_Section S_Section L_Section4 P_Fiber P_MarinInt M_Gross S_Gross L_Gross L_Cracked3 S_MarinInt S_Exact L_Exact S_Frame P_Frame S_Mesh L_Mesh L_Mesh2 L_Mesh3 P_Mesh S_Curved S_Unique L_Refine.

Notation at_strain p f := (plane_strain (fst (fst p)) (snd (fst p)) (snd p) (m_y f) (m_z f)) (only parsing).
Definition resultants (F : list mfibre) (p : R * R * R) : R * R * R :=
  (axial F (fst (fst p)) (snd (fst p)) (snd p), moment_y F (fst (fst p)) (snd (fst p)) (snd p), moment_z F (fst (fst p)) (snd (fst p)) (snd p)).
Definition works (p q : R * R * R) (f : mfibre) : R := (m_sigma f (at_strain q f) - m_sigma f (at_strain p f)) * m_a f * (at_strain q f - at_strain p f).
Lemma fibre_work F p q : work p q (resultants F p) (resultants F q) = lsum (map (works p q) F).
Proof.
  unfold work, resultants. cbn [fst snd]. rewrite !fsum_axial, !fsum_my, !fsum_mz. unfold fsum.
  induction F as [|f F IH]; [cbn [map]; rewrite !lsum_nil; ring|]. cbn [map]. rewrite !lsum_cons, <- IH. unfold works, plane_strain. ring.
Qed.
Lemma rises_works m L lo hi f x y a : rises m L lo hi f -> 0 <= a -> lo <= x <= hi -> lo <= y <= hi ->
  m * (a * (y - x) ^ 2) <= (f y - f x) * a * (y - x) <= L * (a * (y - x) ^ 2).
Proof.
  intros H A X Y.
  assert (G : m * (y - x) ^ 2 <= (f y - f x) * (y - x) <= L * (y - x) ^ 2).
  { destruct (Rle_dec x y) as [O|O].
    - destruct (H x y) as (H1 & H2); try lra. apply (Rmult_le_compat_r (y - x)) in H1, H2; lra.
    - destruct (H y x) as (H1 & H2); try lra. apply (Rmult_le_compat_r (x - y)) in H1, H2; lra. }
  destruct G as (G1 & G2). apply (Rmult_le_compat_r a) in G1, G2; lra.
Qed.
Definition tri_sum (mesh : surface -> list tri) (h : nat -> R -> R -> R -> R) (g : compound) : R :=
  lsum (map (fun s => lsum (map (fun t => let '(p, q, r) := t in
      h (sf_law s) ((fst p + fst q + fst r) / 3) ((snd p + snd q + snd r) / 3) (Rabs (shoelace [p; q; r; p]))) (mesh s))) (cg_surf g))
  + lsum (map (fun b => h (br_law b) (br_y b) (br_z b) (br_area b)) (cg_bars g)).
Lemma fibre_sum laws mesh g (psi : mfibre -> R) : lsum (map psi (section_fibres laws mesh g)) = tri_sum mesh (fun k y z a => psi (mfibre_at (laws k) y z a)) g.
Proof.
  unfold section_fibres, tri_sum. rewrite map_app, lsum_app, L_Fiber.lsum_flat. f_equal.
  - apply lsum_map_ext. intros s _. rewrite map_map. apply lsum_map_ext. intros [[p q] r] _. reflexivity.
  - rewrite map_map. reflexivity.
Qed.
Lemma lumped_sum w mesh phi g : lumped w mesh phi g = tri_sum mesh (fun k y z a => w k * (a * phi y z)) g.
Proof.
  unfold lumped, tri_sum. f_equal. apply lsum_map_ext. intros s _. rewrite <- lsum_map_scal. apply lsum_map_ext. intros [[p q] r] _. ring.
Qed.
Lemma tri_sum_le mesh h h' g : (forall s p q r, In s (cg_surf g) -> In (p, q, r) (mesh s) ->
    let y := (fst p + fst q + fst r) / 3 in let z := (snd p + snd q + snd r) / 3 in let a := Rabs (shoelace [p; q; r; p]) in h (sf_law s) y z a <= h' (sf_law s) y z a) ->
  (forall b, In b (cg_bars g) -> h (br_law b) (br_y b) (br_z b) (br_area b) <= h' (br_law b) (br_y b) (br_z b) (br_area b)) ->
  tri_sum mesh h g <= tri_sum mesh h' g.
Proof.
  intros HS HB. unfold tri_sum. apply Rplus_le_compat.
  - apply lsum_le. intros s I. apply lsum_le. intros [[p q] r] T. exact (HS s p q r I T).
  - apply lsum_le. exact HB.
Qed.
Lemma section_work laws mesh g p q (m L lo hi : nat -> R) :
  (forall s, In s (cg_surf g) -> rises (m (sf_law s)) (L (sf_law s)) (lo (sf_law s)) (hi (sf_law s)) (lw_stress (laws (sf_law s)))) ->
  (forall b, In b (cg_bars g) -> 0 <= br_area b /\ rises (m (br_law b)) (L (br_law b)) (lo (br_law b)) (hi (br_law b)) (lw_stress (laws (br_law b)))) ->
  centroids_kept mesh g p lo hi -> centroids_kept mesh g q lo hi -> bars_kept g p lo hi -> bars_kept g q lo hi ->
  lumped m mesh (apart p q) g <= lsum (map (works p q) (section_fibres laws mesh g)) <= lumped L mesh (apart p q) g.
Proof.
  intros RS RB CP CQ BP BQ. rewrite fibre_sum, !lumped_sum. unfold works, apart.
  split; apply tri_sum_le; cbv zeta; cbn [mfibre_at m_sigma m_a m_y m_z].
  - intros s a b c I T. apply (rises_works _ _ _ _ _ _ _ _ (RS s I)); [apply Rabs_pos|exact (CP s a b c I T)|exact (CQ s a b c I T)].
  - intros b I. destruct (RB b I) as (A & RR). apply (rises_works _ _ _ _ _ _ _ _ RR A); [exact (BP b I)|exact (BQ b I)].
  - intros s a b c I T. apply (rises_works _ _ _ _ _ _ _ _ (RS s I)); [apply Rabs_pos|exact (CP s a b c I T)|exact (CQ s a b c I T)].
  - intros b I. destruct (RB b I) as (A & RR). apply (rises_works _ _ _ _ _ _ _ _ RR A); [exact (BP b I)|exact (BQ b I)].
Qed.

(** * Fine meshes *)
Definition curve_law (f : R -> R) : law :=
  {| lw_stress := f; lw_tangent := fun _ => 0; lw_stress_arr := fun a => (map f a, a); lw_tangent_arr := fun a => (map (fun _ => 0) a, a);
     lw_marin := fun s => (fst s, (None, [])); lw_marin_tangent := fun s => (fst s, (None, [])); lw_ult := (0, 0) |}.
Definition bare (g : compound) : compound := {| cg_surf := cg_surf g; cg_bars := [] |}.
Definition regular (f : R -> R) (p : R * R * R) : Prop := let r := sqrt (snd p ^ 2 + snd (fst p) ^ 2) in
  (forall off, eint (fun z => f (fst (fst p) + r * z) * z ^ off)) /\ (r <> 0 -> tame f).
Lemma field_regular l f s p : field_of (lw_marin l (fst (fst p), sqrt (snd p ^ 2 + snd (fst p) ^ 2))) f (fst (fst p)) (sqrt (snd p ^ 2 + snd (fst p) ^ 2)) ->
  closed (sf_ext s) -> (forall q, In q (sf_ints s) -> closed q) -> regular f p.
Proof.
  intros FO C1 C2. split.
  - destruct (surface_entries_ok l IStress _ _ s f ltac:(discriminate) FO C1 C2) as (EI & _). exact EI.
  - intros N. apply (field_tame IStress l f _ _ ltac:(discriminate) FO N). apply sqrt_pos.
Qed.
Section Fine.
Variables (fs : nat -> R -> R) (mesh : surface -> list tri) (g : compound) (p : R * R * R) (L lo hi : nat -> R) (Y Z : R).
Hypothesis CL : rings_closed g.
Hypothesis RE : forall s, In s (cg_surf g) -> regular (fs (sf_law s)) p.
Hypothesis KM : kept_in mesh g p lo hi Y Z.
Hypothesis LL : forall s, In s (cg_surf g) -> let k := sf_law s in 0 <= L k /\
  (forall e e', lo k <= e <= hi k -> lo k <= e' <= hi k -> Rabs (fs k e - fs k e') <= L k * Rabs (e - e')).
Definition fine (n : nat) (s : surface) : list tri := refine n (mesh s).
Lemma kept_fine n : kept_in (fine n) g p lo hi Y Z.
Proof.
  intros s I. destruct (KM s I) as (T & B). split; [apply triangulates_refine, T|].
  apply (corners_refine (fun v => Rabs (fst v) <= Y /\ Rabs (snd v) <= Z /\ lo (sf_law s) <= plane_strain (fst (fst p)) (snd (fst p)) (snd p) (fst v) (snd v) <= hi (sf_law s)) n); [|exact B].
  intros u v (U1 & U2 & U3) (V1 & V2 & V3). apply Rabs_le_between in U1, U2, V1, V2. unfold seg. cbn [fst snd].
  split; [apply Rabs_le; lra|]. split; [apply Rabs_le; lra|]. unfold plane_strain in *. lra.
Qed.
Lemma centroids_fine n : centroids_kept (fine n) g p lo hi.
Proof.
  intros s a b c I T. destruct (kept_fine n s I) as (_ & B).
  destruct (B _ a T) as (_ & _ & A1); [cbn; auto|]. destruct (B _ b T) as (_ & _ & A2); [cbn; auto|]. destruct (B _ c T) as (_ & _ & A3); [cbn; auto|].
  unfold plane_strain in *. lra.
Qed.
Let C := (Rabs (snd (fst p)) + Rabs (snd p)) * (2 * (Y + Z)) * lsum (map (fun s => L (sf_law s) * surface_integral (fun _ _ => 1) s) (cg_surf g)).
Lemma fine_near n ca cb cc W : (forall s t v, In s (cg_surf g) -> In t (fine n s) -> corner t v -> Rabs (ca + cb * fst v + cc * snd v) <= W) ->
  Rabs (fsum ca cb cc (section_fibres (fun k => curve_law (fs k)) (fine n) (bare g)) (fst (fst p)) (snd (fst p)) (snd p)
    - over_surfaces fs (fun y z => ca + cb * y + cc * z) (fst (fst p)) (snd (fst p)) (snd p) (cg_surf g)) <= C * W / 2 ^ n.
Proof.
  intros HW.
  assert (G : forall s, In s (cg_surf g) -> closed (sf_ext s) /\ (forall q, In q (sf_ints s) -> closed q) /\
    (forall off, eint (fun z => fs (sf_law s) (fst (fst p) + sqrt (snd p ^ 2 + snd (fst p) ^ 2) * z) * z ^ off)) /\ (sqrt (snd p ^ 2 + snd (fst p) ^ 2) <> 0 -> tame (fs (sf_law s)))).
  { intros s I. destruct (CL s I) as (C1 & C2). destruct (RE s I) as (E1 & E2). auto. }
  pose proof (agreement (fun k => curve_law (fs k)) fs (fine n) (bare g) (fst (fst p)) (snd (fst p)) (snd p) L lo hi (2 * (Y + Z) / 2 ^ n) W G ca cb cc) as A.
  assert (Z0 : fsum ca cb cc (bar_fibres (fun k => curve_law (fs k)) (bare g)) (fst (fst p)) (snd (fst p)) (snd p) = 0)
    by (unfold fsum, bar_fibres; cbn [bare cg_bars map]; now rewrite lsum_nil).
  rewrite Z0, Rplus_0_r in A. cbn [bare cg_surf] in A.
  replace (C * W / 2 ^ n) with ((Rabs (snd (fst p)) + Rabs (snd p)) * (2 * (Y + Z) / 2 ^ n) * lsum (map (fun s => L (sf_law s) * surface_integral (fun _ _ => 1) s) (cg_surf g)) * W)
    by (unfold C; field; apply pow_nonzero; lra).
  apply A.
  - intros s I. apply (kept_fine n s I).
  - intros s t I T. apply (size_refine (2 * (Y + Z)) n (mesh s)); [|exact T].
    intros t0 T0. apply size_corners. intros v V. destruct (proj2 (KM s I) t0 v T0 V) as (? & ? & _). split; assumption.
  - exact HW.
  - intros s t v I T V. apply (proj2 (kept_fine n s I) t v T V).
  - intros s I. destruct (LL s I) as (A1 & A2). split; [exact A1|]. split; [reflexivity|exact A2].
Qed.
End Fine.

Definition surface_forces (fs : nat -> R -> R) (g : compound) (p : R * R * R) : R * R * R :=
  (over_surfaces fs (fun _ _ => 1) (fst (fst p)) (snd (fst p)) (snd p) (cg_surf g),
   over_surfaces fs (fun _ z => z) (fst (fst p)) (snd (fst p)) (snd p) (cg_surf g),
   over_surfaces fs (fun y _ => - y) (fst (fst p)) (snd (fst p)) (snd p) (cg_surf g)).
Definition lipschitz_on (fs : nat -> R -> R) (g : compound) (L lo hi : nat -> R) : Prop := forall s, In s (cg_surf g) -> let k := sf_law s in 0 <= L k /\
  (forall e e', lo k <= e <= hi k -> lo k <= e' <= hi k -> Rabs (fs k e - fs k e') <= L k * Rabs (e - e')).
Lemma forces_limit fs mesh g p L lo hi Y Z : rings_closed g -> (forall s, In s (cg_surf g) -> regular (fs (sf_law s)) p) -> kept_in mesh g p lo hi Y Z -> lipschitz_on fs g L lo hi ->
  exists C, 0 <= C /\ forall n, let F := resultants (section_fibres (fun k => curve_law (fs k)) (fine mesh n) (bare g)) p in let G := surface_forces fs g p in
    Rabs (fst (fst F) - fst (fst G)) <= C / 2 ^ n /\ Rabs (snd (fst F) - snd (fst G)) <= C / 2 ^ n /\ Rabs (snd F - snd G) <= C / 2 ^ n.
Proof.
  intros CL RE KM LL.
  set (C := (Rabs (snd (fst p)) + Rabs (snd p)) * (2 * (Y + Z)) * lsum (map (fun s => L (sf_law s) * surface_integral (fun _ _ => 1) s) (cg_surf g))).
  exists (Rabs (C * 1) + Rabs (C * Z) + Rabs (C * Y)). pose proof (Rabs_pos (C * 1)). pose proof (Rabs_pos (C * Z)). pose proof (Rabs_pos (C * Y)). split; [lra|].
  intros n. cbv zeta. unfold resultants, surface_forces. cbn [fst snd].
  assert (P : 0 < / 2 ^ n) by (apply Rinv_0_lt_compat, pow_lt; lra).
  assert (UP : forall a b, a <= b / 2 ^ n -> Rabs b <= Rabs (C * 1) + Rabs (C * Z) + Rabs (C * Y) -> a <= (Rabs (C * 1) + Rabs (C * Z) + Rabs (C * Y)) / 2 ^ n).
  { intros a b A Bd. apply Rle_trans with (1 := A). unfold Rdiv. apply Rmult_le_compat_r; [lra|]. pose proof (Rle_abs b). lra. }
  pose proof (fun ca cb cc W => fine_near fs mesh g p L lo hi Y Z CL RE KM LL n ca cb cc W) as N. cbv zeta in N. fold C in N.
  pose proof (fun s t v I T V => proj2 (kept_fine mesh g p lo hi Y Z KM n s I) t v T V) as KB.
  repeat apply conj.
  - apply (UP _ (C * 1)); [|lra]. rewrite fsum_axial. replace (fun _ _ : R => 1) with (fun y z : R => 1 + 0 * y + 0 * z) by (apply functional_extensionality; intros y; apply functional_extensionality; intros z; ring).
    apply N. intros s t v _ _ _. replace (1 + 0 * fst v + 0 * snd v) with 1 by ring. rewrite Rabs_R1. lra.
  - apply (UP _ (C * Z)); [|lra]. rewrite fsum_my. replace (fun _ z : R => z) with (fun y z : R => 0 + 0 * y + 1 * z) by (apply functional_extensionality; intros y; apply functional_extensionality; intros z; ring).
    apply N. intros s t v I T V. replace (0 + 0 * fst v + 1 * snd v) with (snd v) by ring. apply (KB s t v I T V).
  - apply (UP _ (C * Y)); [|lra]. rewrite fsum_mz. replace (fun y _ : R => - y) with (fun y z : R => 0 + -1 * y + 0 * z) by (apply functional_extensionality; intros y; apply functional_extensionality; intros z; ring).
    apply N. intros s t v I T V. replace (0 + -1 * fst v + 0 * snd v) with (- fst v) by ring. rewrite Rabs_Ropp. apply (KB s t v I T V).
Qed.
Lemma work_limit fs mesh g p q L lo hi Y Z : rings_closed g ->
  (forall s, In s (cg_surf g) -> regular (fs (sf_law s)) p /\ regular (fs (sf_law s)) q) ->
  kept_in mesh g p lo hi Y Z -> kept_in mesh g q lo hi Y Z -> lipschitz_on fs g L lo hi ->
  exists C, 0 <= C /\ forall n,
    Rabs (lsum (map (works p q) (section_fibres (fun k => curve_law (fs k)) (fine mesh n) (bare g))) - work p q (surface_forces fs g p) (surface_forces fs g q)) <= C / 2 ^ n.
Proof.
  intros CL RE KP KQ LL.
  destruct (forces_limit fs mesh g p L lo hi Y Z CL (fun s I => proj1 (RE s I)) KP LL) as (A & A0 & HA).
  destruct (forces_limit fs mesh g q L lo hi Y Z CL (fun s I => proj2 (RE s I)) KQ LL) as (B & B0 & HB).
  set (a := Rabs (fst (fst q) - fst (fst p))). set (b := Rabs (snd (fst q) - snd (fst p))). set (c := Rabs (snd q - snd p)).
  assert (Pa : 0 <= a) by apply Rabs_pos. assert (Pb : 0 <= b) by apply Rabs_pos. assert (Pc : 0 <= c) by apply Rabs_pos.
  exists ((A + B) * (a + b + c)). split; [apply Rmult_le_pos; lra|]. intros n. rewrite <- fibre_work.
  destruct (HA n) as (A1 & A2 & A3). destruct (HB n) as (B1 & B2 & B3). cbv zeta in *.
  set (Fp := resultants _ p) in *. set (Fq := resultants _ q) in *. set (Gp := surface_forces fs g p) in *. set (Gq := surface_forces fs g q) in *.
  replace (work p q Fp Fq - work p q Gp Gq) with
    (((fst (fst Fq) - fst (fst Gq)) - (fst (fst Fp) - fst (fst Gp))) * (fst (fst q) - fst (fst p))
     + ((snd (fst Fq) - snd (fst Gq)) - (snd (fst Fp) - snd (fst Gp))) * (snd (fst q) - snd (fst p))
     + ((snd Fq - snd Gq) - (snd Fp - snd Gp)) * (snd q - snd p)) by (unfold work; ring).
  assert (T : forall x y d, Rabs x <= B / 2 ^ n -> Rabs y <= A / 2 ^ n -> Rabs ((x - y) * d) <= (A + B) * Rabs d / 2 ^ n).
  { intros x y d X Yy. rewrite Rabs_mult. replace ((A + B) * Rabs d / 2 ^ n) with ((A / 2 ^ n + B / 2 ^ n) * Rabs d) by (field; apply pow_nonzero; lra).
    apply Rmult_le_compat_r; [apply Rabs_pos|]. apply Rabs_le. apply Rabs_le_between in X, Yy. lra. }
  pose proof (T _ _ (fst (fst q) - fst (fst p)) B1 A1) as T1. pose proof (T _ _ (snd (fst q) - snd (fst p)) B2 A2) as T2. pose proof (T _ _ (snd q - snd p) B3 A3) as T3.
  fold a in T1. fold b in T2. fold c in T3.
  replace ((A + B) * (a + b + c) / 2 ^ n) with ((A + B) * a / 2 ^ n + (A + B) * b / 2 ^ n + (A + B) * c / 2 ^ n) by (field; apply pow_nonzero; lra).
  eapply Rle_trans; [apply Rabs_triang|]. apply Rplus_le_compat; [|exact T3]. eapply Rle_trans; [apply Rabs_triang|]. apply Rplus_le_compat; assumption.
Qed.
Lemma line_regular w p : regular (fun e => w * e) p.
Proof.
  assert (F : forall e r, field_of (e, (None, [[w * e; w * r]])) (fun x => w * x) e r).
  { intros e r. split; [reflexivity|]. cbn [fst snd]. unfold describes. cbn [fst snd]. eexists. split; [reflexivity|]. intros y _. unfold poly. ring. }
  set (l := {| lw_stress := fun _ => 0; lw_tangent := fun _ => 0; lw_stress_arr := fun a => (map (fun _ => 0) a, a); lw_tangent_arr := fun a => (map (fun _ => 0) a, a);
     lw_marin := fun s => (fst s, (None, [[w * fst s; w * snd s]])); lw_marin_tangent := fun s => (fst s, (None, [])); lw_ult := (0, 0) |}).
  apply (field_regular l (fun e => w * e) {| sf_ext := []; sf_ints := []; sf_law := 0 |} p).
  - cbn [l lw_marin fst snd]. apply F.
  - reflexivity.
  - intros q [].
Qed.
Definition gap (p q : R * R * R) : R * R * R := (fst (fst q) - fst (fst p), snd (fst q) - snd (fst p), snd q - snd p).
Lemma spread_limit w mesh g p q lo hi Y Z : rings_closed g -> kept_in mesh g p lo hi Y Z ->
  exists C, 0 <= C /\ forall n, Rabs (lumped w (fine mesh n) (apart p q) (bare g) - weighted w (apart p q) (bare g)) <= C / 2 ^ n.
Proof.
  intros CL KM. set (d := gap p q). set (M := Rabs (fst (fst d)) + Rabs (snd (fst d)) * Z + Rabs (snd d) * Y).
  assert (KD : forall x y z, In x [0; 1] -> Rabs y <= Y -> Rabs z <= Z -> - M <= plane_strain (x * fst (fst d)) (x * snd (fst d)) (x * snd d) y z <= M).
  { intros x y z X HY HZ. apply Rabs_le_between. unfold plane_strain, M.
    assert (0 <= Rabs x <= 1). { destruct X as [<-|[<-|[]]]; rewrite ?Rabs_R0, ?Rabs_R1; lra. }
    pose proof (Rabs_pos (fst (fst d))). pose proof (Rabs_pos (snd (fst d))). pose proof (Rabs_pos (snd d)). pose proof (Rabs_pos y). pose proof (Rabs_pos z).
    replace (x * fst (fst d) + x * snd (fst d) * z - x * snd d * y) with (x * (fst (fst d) + snd (fst d) * z - snd d * y)) by ring.
    rewrite Rabs_mult. set (v := Rabs (fst (fst d) + snd (fst d) * z - snd d * y)).
    assert (V : v <= Rabs (fst (fst d)) + Rabs (snd (fst d)) * Z + Rabs (snd d) * Y).
    { unfold v. eapply Rle_trans; [apply Rabs_triang|]. rewrite Rabs_Ropp, (Rabs_mult (snd d)). apply Rplus_le_compat; [|apply Rmult_le_compat_l; lra].
      eapply Rle_trans; [apply Rabs_triang|]. rewrite (Rabs_mult (snd (fst d))). apply Rplus_le_compat; [lra|apply Rmult_le_compat_l; lra]. }
    assert (0 <= v) by apply Rabs_pos. apply Rle_trans with (1 * v); [apply Rmult_le_compat_r; lra|lra]. }
  assert (K0 : kept_in mesh g (0, 0, 0) (fun _ => - M) (fun _ => M) Y Z).
  { intros s I. destruct (KM s I) as (T & B). split; [exact T|]. intros t v T0 V. destruct (B t v T0 V) as (HY & HZ & _). split; [exact HY|]. split; [exact HZ|]. cbn [fst snd].
    pose proof (KD 0 (fst v) (snd v) ltac:(cbn; auto) HY HZ) as X. rewrite !Rmult_0_l in X. exact X. }
  assert (K1 : kept_in mesh g d (fun _ => - M) (fun _ => M) Y Z).
  { intros s I. destruct (KM s I) as (T & B). split; [exact T|]. intros t v T0 V. destruct (B t v T0 V) as (HY & HZ & _). split; [exact HY|]. split; [exact HZ|].
    pose proof (KD 1 (fst v) (snd v) ltac:(cbn; auto) HY HZ) as X. rewrite !Rmult_1_l in X. exact X. }
  destruct (work_limit (fun k e => w k * e) mesh g (0, 0, 0) d (fun k => Rabs (w k)) (fun _ => - M) (fun _ => M) Y Z CL) as (C & C0 & H).
  - intros s _. split; apply line_regular.
  - exact K0.
  - exact K1.
  - intros s _. split; [apply Rabs_pos|]. intros e e' _ _. right. rewrite <- Rabs_mult. f_equal. ring.
  - exists C. split; [exact C0|]. intros n. specialize (H n).
    assert (E1 : lsum (map (works (0, 0, 0) d) (section_fibres (fun k => curve_law (fun e => w k * e)) (fine mesh n) (bare g))) = lumped w (fine mesh n) (apart p q) (bare g)).
    { rewrite fibre_sum, lumped_sum. f_equal. apply functional_extensionality. intros k. apply functional_extensionality. intros y. apply functional_extensionality. intros z. apply functional_extensionality. intros a.
      unfold works, apart, d, gap, plane_strain. cbn [mfibre_at curve_law lw_stress m_sigma m_a m_y m_z fst snd]. ring. }
    assert (E2 : work (0, 0, 0) d (surface_forces (fun k e => w k * e) g (0, 0, 0)) (surface_forces (fun k e => w k * e) g d) = weighted w (apart p q) (bare g)).
    { unfold weighted. cbn [bare cg_surf cg_bars map]. rewrite lsum_nil, Rplus_0_r. unfold work, surface_forces, over_surfaces. cbn [fst snd].
      destruct d as [[a b] c] eqn:Ed. cbn [fst snd].
      assert (D : forall y z, apart p q y z = (a + b * z - c * y) ^ 2).
      { intros y z. unfold d, gap in Ed. injection Ed as <- <- <-. unfold apart, plane_strain. ring. }
      revert CL D. unfold rings_closed. clear. intros CL D. induction (cg_surf g) as [|s l IH]; [cbn [map]; rewrite !lsum_nil; ring|].
      cbn [map]. rewrite !lsum_cons, <- IH by (intros x I; apply CL; now right). specialize (CL s (or_introl eq_refl)).
      rewrite !(surf_poly (fun y z => w (sf_law s) * plane_strain 0 0 0 y z * 1) 0 0 0 0 0 0 s CL) by (intros; unfold plane_strain; ring).
      rewrite !(surf_poly (fun y z => w (sf_law s) * plane_strain 0 0 0 y z * z) 0 0 0 0 0 0 s CL) by (intros; unfold plane_strain; ring).
      rewrite !(surf_poly (fun y z => w (sf_law s) * plane_strain 0 0 0 y z * - y) 0 0 0 0 0 0 s CL) by (intros; unfold plane_strain; ring).
      rewrite !(surf_poly (fun y z => w (sf_law s) * plane_strain a b c y z * 1) (w (sf_law s) * a) (- w (sf_law s) * c) (w (sf_law s) * b) 0 0 0 s CL) by (intros; unfold plane_strain; ring).
      rewrite !(surf_poly (fun y z => w (sf_law s) * plane_strain a b c y z * z) 0 0 (w (sf_law s) * a) 0 (- w (sf_law s) * c) (w (sf_law s) * b) s CL) by (intros; unfold plane_strain; ring).
      rewrite !(surf_poly (fun y z => w (sf_law s) * plane_strain a b c y z * - y) 0 (- w (sf_law s) * a) 0 (w (sf_law s) * c) (- w (sf_law s) * b) 0 s CL) by (intros; unfold plane_strain; ring).
      rewrite (surf_poly (apart p q) (a ^ 2) (- 2 * a * c) (2 * a * b) (c ^ 2) (- 2 * b * c) (b ^ 2) s CL) by (intros; rewrite D; ring). ring. }
    rewrite E1, E2 in H. exact H.
Qed.
