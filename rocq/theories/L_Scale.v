(** Lemmas for C62: moments of joined and of scaled sections. *)
From Coquelicot Require Import Coquelicot.
From Coq Require Import Permutation FunctionalExtensionality Lra Lia.
From Verif Require Import Base M_Marin S_Marin L_Marin M_Laws S_Laws L_Laws M_Laws2 S_Laws2 M_Fiber S_Fiber L_Fiber M_MarinInt S_MarinInt L_MarinInt L_MarinInt2 L_MarinInt3
  M_Section S_Turn L_Turn L_Turn2 L_Turn3 L_Turn4 L_Move L_Move3 S_Order L_Order L_Order2 L_Order3 S_Scale.

(** * The exact integrator *)
Definition bar_part (laws : nat -> law) (what : integrand) (e0 r : R) (bs : list bar) (i j : nat) : R :=
  lsum (map (fun b => pick what (laws (br_law b)) (e0 + r * br_z b) * br_area b * (br_y b ^ i * br_z b ^ j)) bs).
Definition all_moments (laws : nat -> law) (what : integrand) (fs : nat -> R -> R) (a e0 r : R) (g : compound) (i j : nat) : R :=
  jsum i j fs e0 r (map (rotate_surface a) (cg_surf g)) + bar_part laws what e0 r (map (rotate_bar a) (cg_bars g)) i j.
Definition tilt (ky kz : R) : R := - atan2 kz ky.
Definition bend (ky kz : R) : R := sqrt (kz ^ 2 + ky ^ 2).

Lemma marin_moments laws what fs g e0 ky kz : (forall k, batched (laws k)) -> what <> IOther -> outlined g -> equal_groups g -> described_at what laws fs g (e0, ky, kz) ->
  exists es bs gs, m_prepare laws g (e0, ky, kz) what None = Ok (tilt ky kz, es, bs, gs) /\
    forall i j, es_moment es i j + vm i j bs = all_moments laws what fs (tilt ky kz) e0 (bend ky kz) g i j.
Proof.
  intros B W OU Q DE.
  destruct (prep_ok laws what fs g e0 ky kz B W) as (es & bs & gs & E & _ & J & V).
  - intros s I. split; [exact (DE s I)|exact (OU s I)].
  - exact Q.
  - exists es, bs, gs. split; [exact E|]. intros i j. unfold es_moment, vm, all_moments. f_equal; [apply J|].
    rewrite (V (fun x => snd x * (fst (fst x) ^ i * snd (fst x) ^ j))). reflexivity.
Qed.
Lemma stiff_ext es bs es' bs' : (forall i j, es_moment es i j + vm i j bs = es_moment es' i j + vm i j bs') -> eq3 (m_stiff_rot es bs) (m_stiff_rot es' bs').
Proof.
  intros H i j Hi Hj. rewrite (stiff_matrix es bs i j Hi Hj), (stiff_matrix es' bs' i j Hi Hj).
  unfold matrix_of. rewrite !H. reflexivity.
Qed.
Definition turned_matrix (a : R) (M : nat -> nat -> R) : mat3 := mmul (mmul (mtr (m_T a)) (matrix_of M)) (m_T a).
Lemma modulus_of a es bs M : (forall i j, es_moment es i j + vm i j bs = M i j) -> eq3 (m_integrate_modulus a es bs) (turned_matrix a M).
Proof.
  intros H i j Hi Hj. unfold m_integrate_modulus, turned_matrix, mmul.
  assert (S : forall u v, (u < 3)%nat -> (v < 3)%nat -> m_stiff_rot es bs u v = matrix_of M u v).
  { intros u v Hu Hv. rewrite (stiff_matrix es bs u v Hu Hv). unfold matrix_of. rewrite !H. reflexivity. }
  rewrite !S by lia. reflexivity.
Qed.
Lemma marin_forces_of laws fs g e0 ky kz : (forall k, batched (laws k)) -> outlined g -> equal_groups g -> described_at IStress laws fs g (e0, ky, kz) ->
  let M := all_moments laws IStress fs (tilt ky kz) e0 (bend ky kz) g in
  exists d, marin_forces laws g (e0, ky, kz) None = Ok (spun3 (- tilt ky kz) (M 0%nat 0%nat, M 0%nat 1%nat, - M 1%nat 0%nat), d).
Proof.
  intros B OU Q DE M. destruct (marin_moments laws IStress fs g e0 ky kz B ltac:(discriminate) OU Q DE) as (es & bs & gs & E & H).
  unfold marin_forces. rewrite E. cbn [bind]. eexists. rewrite stress_frame. cbv zeta. rewrite !H. reflexivity.
Qed.
Lemma marin_stiffness_of laws fs g e0 ky kz : (forall k, batched (laws k)) -> outlined g -> equal_groups g -> described_at IModulus laws fs g (e0, ky, kz) ->
  let M := all_moments laws IModulus fs (tilt ky kz) e0 (bend ky kz) g in
  exists K d, marin_stiffness laws g (e0, ky, kz) None = Ok (K, d) /\ eq3 K (turned_matrix (tilt ky kz) M).
Proof.
  intros B OU Q DE M. destruct (marin_moments laws IModulus fs g e0 ky kz B ltac:(discriminate) OU Q DE) as (es & bs & gs & E & H).
  unfold marin_stiffness. rewrite E. cbn [bind]. do 2 eexists. split; [reflexivity|]. apply modulus_of, H.
Qed.
(** Joined sections. *)
Lemma moments_joined laws what fs a e0 r g1 g2 i j : all_moments laws what fs a e0 r (joined g1 g2) i j = all_moments laws what fs a e0 r g1 i j + all_moments laws what fs a e0 r g2 i j.
Proof. unfold all_moments, jsum, bar_part, joined. cbn [cg_surf cg_bars]. rewrite !map_app, !lsum_app. ring. Qed.
(** Scaled sections. *)
Section Scaled.
Variable l : R.
Hypothesis L : 0 < l.
Lemma larger_rot a p : rot a (larger l p) = larger l (rot a p).
Proof. unfold rot, larger. cbn [fst snd]. f_equal; ring. Qed.
Lemma rotate_larger a s : rotate_surface a (larger_surface l s) = larger_surface l (rotate_surface a s).
Proof.
  unfold rotate_surface, larger_surface. cbn [sf_ext sf_ints sf_law]. f_equal; rewrite !map_map; apply map_ext.
  - apply larger_rot.
  - intros q. rewrite !map_map. apply map_ext. apply larger_rot.
Qed.
Lemma rotate_larger_bar a b : rotate_bar a (larger_bar l b) = larger_bar l (rotate_bar a b).
Proof. unfold rotate_bar, larger_bar, rot. cbn [br_y br_z br_area br_law fst snd]. f_equal; ring. Qed.
Lemma shoe_larger r : shoe (map (larger l) r) = l ^ 2 * shoe r.
Proof. induction r as [|p [|q r] IH]; [cbn; ring..|]. cbn [map shoe] in *. rewrite IH. unfold larger. cbn [fst snd]. field. Qed.
Lemma oriented_larger s : oriented (larger_surface l s) = map (map (larger l)) (oriented s).
Proof.
  assert (L2 : 0 < l ^ 2) by (apply pow_lt; exact L).
  unfold oriented, larger_surface. cbn [sf_ext sf_ints map]. f_equal.
  - unfold orient_ext. rewrite shoe_larger. destruct (Rltb_spec (l ^ 2 * shoe (sf_ext s)) 0), (Rltb_spec (shoe (sf_ext s)) 0); rewrite ?map_rev; try reflexivity; exfalso; nra.
  - rewrite !map_map. apply map_ext. intros q. unfold orient_int. rewrite shoe_larger.
    destruct (Rltb_spec 0 (l ^ 2 * shoe q)), (Rltb_spec 0 (shoe q)); rewrite ?map_rev; try reflexivity; exfalso; nra.
Qed.
Lemma edges_larger r : edges (map (larger l) r) = map (fun e => (larger l (fst e), larger l (snd e))) (edges r).
Proof. induction r as [|p [|q r] IH]; [reflexivity..|]. cbn [map edges] in *. now rewrite IH. Qed.
Lemma gedge_larger m off f e0 r p q : eint (fun z => f (e0 + r * z) * z ^ off) ->
  gedge m (fun z => f (e0 + r / l * z) * z ^ off) (larger l p) (larger l q) = l ^ (m + off + 2) * gedge m (fun z => f (e0 + r * z) * z ^ off) p q.
Proof.
  intros I. unfold gedge. specialize (I m p q).
  transitivity (RInt (fun t => scal (l ^ (m + off + 2)) (gfun m (fun z => f (e0 + r * z) * z ^ off) p q t)) 0 1).
  - apply RInt_ext. intros t _. unfold gfun, seg, larger. cbn [fst snd].
    replace ((1 - t) * (l * fst p) + t * (l * fst q)) with (l * ((1 - t) * fst p + t * fst q)) by ring.
    replace ((1 - t) * (l * snd p) + t * (l * snd q)) with (l * ((1 - t) * snd p + t * snd q)) by ring.
    set (y := (1 - t) * fst p + t * fst q). set (z := (1 - t) * snd p + t * snd q).
    replace (r / l * (l * z)) with (r * z) by (field; lra). rewrite !Rpow_mult_distr, !pow_add. match goal with |- _ = scal ?c ?x => change (scal c x) with (c * x) end. set (F := f (e0 + r * z)). set (k := INR (m + 1)). replace (l ^ 2) with (l * l) by ring. replace (l ^ 1) with l by ring.
    toR. field. apply not_0_INR. lia.
  - exact (RInt_scal _ 0 1 _ I).
Qed.
Lemma jm_larger m off f e0 r rings : eint (fun z => f (e0 + r * z) * z ^ off) ->
  jm m off f e0 (r / l) (map (map (larger l)) rings) = l ^ (m + off + 2) * jm m off f e0 r rings.
Proof.
  intros I. unfold jm. rewrite map_map, <- (lsum_scal (l ^ (m + off + 2)) (gfield m (fun z => f (e0 + r * z) * z ^ off)) rings). f_equal. apply map_ext. intros ring. unfold gfield.
  rewrite edges_larger, map_map, <- (lsum_scal (l ^ (m + off + 2)) (fun e => gedge m (fun z => f (e0 + r * z) * z ^ off) (fst e) (snd e)) (edges ring)). f_equal. apply map_ext. intros e. cbn [fst snd]. now apply gedge_larger.
Qed.
Lemma bar_part_larger laws what e0 r bs i j : bar_part laws what e0 (r / l) (map (larger_bar l) bs) i j = l ^ (i + j + 2) * bar_part laws what e0 r bs i j.
Proof.
  unfold bar_part. rewrite map_map, <- (lsum_scal (l ^ (i + j + 2)) (fun b => pick what (laws (br_law b)) (e0 + r * br_z b) * br_area b * (br_y b ^ i * br_z b ^ j)) bs).
  apply lsum_map_ext. intros b _. cbn [larger_bar br_y br_z br_area br_law]. replace (r / l * (l * br_z b)) with (r * br_z b) by (field; lra).
  rewrite !Rpow_mult_distr, !pow_add. ring.
Qed.
Lemma moments_larger laws what fs a e0 r g i j : what <> IOther -> outlined g ->
  (forall s, In s (cg_surf g) -> field_of (ask what (laws (sf_law s)) (e0, r)) (fs (sf_law s)) e0 r) ->
  all_moments laws what fs a e0 (r / l) (larger_section l g) i j = l ^ (i + j + 2) * all_moments laws what fs a e0 r g i j.
Proof.
  intros W OU DE. unfold all_moments, larger_section. cbn [cg_surf cg_bars]. rewrite !map_map.
  rewrite (map_ext (fun x => rotate_surface a (larger_surface l x)) (fun x => larger_surface l (rotate_surface a x)) (rotate_larger a)).
  rewrite (map_ext (fun x => rotate_bar a (larger_bar l x)) (fun x => larger_bar l (rotate_bar a x)) (rotate_larger_bar a)).
  rewrite <- (map_map (rotate_bar a) (larger_bar l)), bar_part_larger, Rmult_plus_distr_l. f_equal.
  unfold jsum. rewrite !map_map, <- lsum_scal. apply lsum_map_ext. intros s I. rewrite oriented_larger. apply jm_larger.
  cbn [larger_surface rotate_surface sf_law]. destruct (OU s I) as (C1 & C2).
  destruct (surface_entries_ok (laws (sf_law s)) what e0 r s (fs (sf_law s)) W (DE s I) C1 C2) as (H & _). apply H.
Qed.
Lemma bend_larger ky kz : bend (ky / l) (kz / l) = bend ky kz / l.
Proof.
  unfold bend. replace ((kz / l) ^ 2 + (ky / l) ^ 2) with ((kz ^ 2 + ky ^ 2) / (l * l)) by (field; lra).
  rewrite sqrt_div_alt by nra. rewrite sqrt_square by lra. reflexivity.
Qed.
Lemma sign_larger x : Rltb 0 (x / l) = Rltb 0 x /\ Rltb (x / l) 0 = Rltb x 0 /\ Rleb 0 (x / l) = Rleb 0 x.
Proof.
  assert (E : x = l * (x / l)) by (field; lra). set (y := x / l) in *. rewrite E.
  split; [|split].
  - destruct (Rltb_spec 0 y), (Rltb_spec 0 (l * y)); try reflexivity; exfalso; nra.
  - destruct (Rltb_spec y 0), (Rltb_spec (l * y) 0); try reflexivity; exfalso; nra.
  - destruct (Rleb_spec 0 y), (Rleb_spec 0 (l * y)); try reflexivity; exfalso; nra.
Qed.
Lemma tilt_larger ky kz : tilt (ky / l) (kz / l) = tilt ky kz.
Proof.
  unfold tilt, atan2. destruct (sign_larger ky) as (-> & -> & _). destruct (sign_larger kz) as (-> & -> & ->).
  destruct (Rltb_spec 0 ky); [|destruct (Rltb_spec ky 0)]; [replace (kz / l / (ky / l)) with (kz / ky) by (field; lra); reflexivity..|reflexivity].
Qed.
End Scaled.

(** * The fibre integrator *)
Definition law_entry (laws : nat -> law) (what : integrand) (p : profile) (k : nat) (f : fibre) : R * R * R :=
  (fb_y f, fb_z f, ans what (laws k) (fibre_strain p f) * fb_a f).
Definition all_entries (laws : nat -> law) (what : integrand) (p : profile) (mesher : surface -> R -> list mtri) (m : R) (g : compound) : list (R * R * R) :=
  flat_map (fun s => map (law_entry laws what p (sf_law s)) (map fibre_of_triangle (mesher s (surface_area s * m)))) (cg_surf g) ++
  map (fun b => law_entry laws what p (br_law b) (fibre_of_bar b)) (cg_bars g).
Lemma add_bar_entries laws what p d k f :
  Permutation (flat_map (fun kv => map (law_entry laws what p (fst kv)) (snd kv)) (add_bar d k f))
    (flat_map (fun kv => map (law_entry laws what p (fst kv)) (snd kv)) d ++ [law_entry laws what p k f]).
Proof.
  induction d as [|[j fs] d IH]; [apply Permutation_refl|]. cbn [add_bar]. destruct (Nat.eqb_spec j k) as [->|N]; cbn [flat_map fst snd].
  - rewrite map_app, <- !app_assoc. apply Permutation_app_head. cbn [map app]. apply Permutation_cons_append.
  - rewrite <- app_assoc. apply Permutation_app_head, IH.
Qed.
Lemma bar_groups_entries laws what p bs : Permutation (entries_at laws what (fibre_strain p) (bar_groups bs)) (map (fun b => law_entry laws what p (br_law b) (fibre_of_bar b)) bs).
Proof.
  unfold entries_at, bar_groups. rewrite flat_map_concat_map, map_map. cbn [gr_fibres gr_law].
  assert (T : forall d, Permutation (flat_map (fun kv => map (law_entry laws what p (fst kv)) (snd kv)) (fold_left (fun d b => add_bar d (br_law b) (fibre_of_bar b)) bs d))
    (flat_map (fun kv => map (law_entry laws what p (fst kv)) (snd kv)) d ++ map (fun b => law_entry laws what p (br_law b) (fibre_of_bar b)) bs)).
  { induction bs as [|b bs IH]; intros d; [cbn [fold_left map]; rewrite app_nil_r; apply Permutation_refl|]. cbn [fold_left map].
    eapply perm_trans; [apply IH|]. change (?x :: ?y) with ([x] ++ y). rewrite app_assoc. apply Permutation_app_tail, add_bar_entries. }
  rewrite <- flat_map_concat_map. exact (T []).
Qed.
Lemma fiber_entries laws mesher what g p m : (forall k, batched (laws k)) -> what <> IOther -> 0 < m <= 1 ->
  match prepare_input laws mesher g p what None (Some m) with
  | Ok (v, d) => Permutation v (all_entries laws what p mesher m g) | Err e => e = ValueError /\ cg_surf g = [] /\ cg_bars g = [] end.
Proof.
  intros B W M. unfold prepare_input, triangulate. destruct (Rleb_spec m 0); [lra|]. destruct (Rltb_spec 1 m); [lra|]. cbn [orb bind].
  rewrite prepared by assumption. cbn [bind]. set (D := map _ _ ++ bar_groups _).
  assert (PE : Permutation (entries_at laws what (fibre_strain p) D) (all_entries laws what p mesher m g)).
  { unfold D, all_entries, entries_at at 1. rewrite flat_map_app. apply Permutation_app; [|apply bar_groups_entries].
    rewrite flat_map_concat_map, map_map, <- flat_map_concat_map. apply Permutation_refl. }
  destruct D eqn:ED; [|exact PE]. split; [reflexivity|]. unfold D in ED. apply app_eq_nil in ED as (E1 & E2). apply map_eq_nil in E1. split; [exact E1|].
  destruct (cg_bars g) as [|b bs]; [reflexivity|]. exfalso. pose proof (Permutation_length (bar_groups_entries laws what p (b :: bs))) as PL. rewrite E2 in PL. discriminate.
Qed.
Lemma fiber_empty laws mesher what g p m : cg_surf g = [] -> cg_bars g = [] -> exists e, prepare_input laws mesher g p what None m = Err e.
Proof.
  intros E1 E2. unfold prepare_input, triangulate. rewrite E1, E2. destruct (_ || _)%bool; cbn [bind map app]; [eauto|].
  change (bar_groups []) with (@nil group). cbn [app prepare_groups bind]. eauto.
Qed.
Lemma stress_vm v : f_integrate_stress v = (vm 0 0 v, vm 0 1 v, - vm 1 0 v).
Proof.
  unfold f_integrate_stress, vm. apply pair3; [..|rewrite <- lsum_map_opp]; apply lsum_map_ext; intros x _; cbn [pow]; ring.
Qed.
Lemma modulus_vm v : eq3 (f_integrate_modulus v) (matrix_of (fun i j => vm i j v)).
Proof.
  intros i j Hi Hj. unfold f_integrate_modulus, vm.
  destruct i as [|[|[|i]]], j as [|[|[|j]]]; try (exfalso; lia); cbn [matrix_of]; try rewrite <- lsum_map_opp; apply lsum_map_ext; intros x _; cbn [pow]; ring.
Qed.
Lemma vm_perm i j v v' : Permutation v v' -> vm i j v' = vm i j v.
Proof. intros P. exact (lsum_perm_map _ _ _ P). Qed.
Lemma vm_app i j u v : vm i j (u ++ v) = vm i j u + vm i j v.
Proof. unfold vm. rewrite map_app, lsum_app. reflexivity. Qed.
Lemma entries_joined laws what p mesher m g1 g2 i j : vm i j (all_entries laws what p mesher m (joined g1 g2)) = vm i j (all_entries laws what p mesher m g1) + vm i j (all_entries laws what p mesher m g2).
Proof. unfold all_entries, joined. cbn [cg_surf cg_bars]. rewrite flat_map_app, map_app, !vm_app. ring. Qed.
(** Scaled triangles and bars. *)
Lemma surface_area_larger l s : 0 < l -> surface_area (larger_surface l s) = l ^ 2 * surface_area s.
Proof.
  intros L. assert (L2 : 0 < l ^ 2) by (apply pow_lt; exact L). unfold surface_area, larger_surface. cbn [sf_ext sf_ints]. rewrite shoe_larger, Rabs_mult, (Rabs_right (l ^ 2)) by lra.
  rewrite map_map, (lsum_map_ext (fun r => Rabs (shoe (map (larger l) r))) (fun r => l ^ 2 * Rabs (shoe r))), lsum_scal; [ring|].
  intros r _. rewrite shoe_larger, Rabs_mult, (Rabs_right (l ^ 2)) by lra. reflexivity.
Qed.
Lemma triangle_larger l t : 0 < l -> fibre_of_triangle (let '(p, q, r) := t in (larger l p, larger l q, larger l r)) =
  {| fb_y := l * fb_y (fibre_of_triangle t); fb_z := l * fb_z (fibre_of_triangle t); fb_a := l ^ 2 * fb_a (fibre_of_triangle t) |}.
Proof.
  intros L. assert (L2 : 0 < l ^ 2) by (apply pow_lt; exact L). destruct t as [[p q] r]. unfold fibre_of_triangle, larger. cbn [fst snd fb_y fb_z fb_a]. f_equal; [field|field|].
  set (A := fst p * snd q - snd p * fst q + (fst q * snd r - snd q * fst r) + (fst r * snd p - snd r * fst p)).
  match goal with |- Rabs ?x * _ = _ => replace x with (l ^ 2 * A) by (unfold A; ring) end. rewrite Rabs_mult, (Rabs_right (l ^ 2)) by lra. ring.
Qed.
Lemma larger_entry l laws what p k f : 0 < l ->
  law_entry laws what (flatter l p) k {| fb_y := l * fb_y f; fb_z := l * fb_z f; fb_a := l ^ 2 * fb_a f |} =
  (let '(y, z, v) := law_entry laws what p k f in (l * y, l * z, l ^ 2 * v)).
Proof.
  intros L. destruct p as [[e ky] kz]. unfold law_entry, flatter, fibre_strain, p_e0, p_ky, p_kz. cbn [fst snd fb_y fb_z fb_a].
  replace (e - kz / l * (l * fb_y f) + ky / l * (l * fb_z f)) with (e - kz * fb_y f + ky * fb_z f) by (field; lra). apply pair3; ring.
Qed.
Lemma entries_larger l laws what p mesher m g : 0 < l -> mesher_scales mesher l g ->
  all_entries laws what (flatter l p) mesher m (larger_section l g) =
  map (fun x => let '(y, z, v) := x in (l * y, l * z, l ^ 2 * v)) (all_entries laws what p mesher m g).
Proof.
  intros L MS. unfold all_entries, larger_section. cbn [cg_surf cg_bars]. rewrite map_app. f_equal.
  - rewrite !flat_map_concat_map, concat_map, !map_map. f_equal. apply map_ext_in. intros s I.
    rewrite surface_area_larger by exact L. replace (l ^ 2 * surface_area s * m) with (l ^ 2 * (surface_area s * m)) by ring. rewrite (MS s _ I), !map_map.
    apply map_ext. intros t. rewrite triangle_larger by exact L. cbn [larger_surface sf_law]. apply larger_entry, L.
  - rewrite !map_map. apply map_ext. intros b. exact (larger_entry l laws what p (br_law b) (fibre_of_bar b) L).
Qed.
Lemma vm_larger l i j v : vm i j (map (fun x => let '(y, z, w) := x in (l * y, l * z, l ^ 2 * w)) v) = l ^ (i + j + 2) * vm i j v.
Proof.
  unfold vm. rewrite map_map, <- (lsum_scal (l ^ (i + j + 2)) (fun x : R * R * R => snd x * (fst (fst x) ^ i * snd (fst x) ^ j)) v).
  apply lsum_map_ext. intros [[y z] w] _. cbn [fst snd]. rewrite !Rpow_mult_distr, !pow_add. ring.
Qed.
