(** Lemmas for C56: interaction domains and Newton's method on the turned section. *)
From Coq Require Import FunctionalExtensionality Lra Lia.
From Verif Require Import Base M_Marin M_Laws M_Laws2 M_Fiber S_Fiber L_Fiber M_MarinInt S_MarinInt L_MarinInt3 M_Section S_Section L_Section M_Domain S_History L_History S_Frame S_Turn L_Turn.

Lemma spun3_length a v : norm3 (spun3 a v) = norm3 v.
Proof.
  destruct v as [[x y] z]. unfold norm3, spun3, spun. cbn [fst snd]. f_equal.
  pose proof (sin2_cos2 a) as P. unfold Rsqr in P.
  transitivity (x ^ 2 + (sin a * sin a + cos a * cos a) * (y ^ 2 + z ^ 2)); [ring|]. rewrite P. ring.
Qed.
Lemma spun3_add a u v : spun3 a (add3 u v) = add3 (spun3 a u) (spun3 a v).
Proof. unfold spun3, add3, spun. cbn [fst snd]. apply pair3; ring. Qed.
Lemma spun3_sub a u v : spun3 a (sub3 u v) = sub3 (spun3 a u) (spun3 a v).
Proof. unfold spun3, sub3, spun. cbn [fst snd]. apply pair3; ring. Qed.

Lemma ultimate_turned t g theta phi f :
  ultimate_profiles t (rotate_geo phi g) (theta + phi) f =
  rmap (fun u => (map (spun3 phi) (fst u), snd u)) (ultimate_profiles t g theta f).
Proof.
  unfold ultimate_profiles. rewrite same_geo.
  destruct (balanced (tr_rc t) true (items_of t (rotate_geo (- theta) g))) as [[[yn0 yp0] sy]|]; cbn [bind rmap]; [|reflexivity].
  destruct (balanced (tr_rc t) false (items_of t (rotate_geo (- theta) g))) as [[[yn yp] sb]|]; cbn [bind rmap]; [|reflexivity].
  destruct (field_nums f); cbn [bind rmap]; [|reflexivity].
  match goal with |- context [bind ?x _] => destruct x as [prs|] end; cbn [bind rmap]; [|reflexivity].
  f_equal. cbn [fst snd]. f_equal. rewrite map_map. apply map_ext. intros x. unfold pair_profile, spun3, spun. cbn [fst snd].
  rewrite cos_plus, sin_plus. apply pair3; ring.
Qed.
Lemma inner_rev_map {A B} (h : A -> B) l : inner_rev (map h l) = map h (inner_rev l).
Proof.
  unfold inner_rev. rewrite map_rev. f_equal. 
  assert (R : removelast (map h l) = map h (removelast l)).
  { induction l as [|x l IH]; [reflexivity|]. destruct l; [reflexivity|]. cbn [map removelast] in *. rewrite IH. reflexivity. }
  rewrite R. destruct (removelast l); reflexivity.
Qed.

(** Matrix of the turned section. *)
Definition turn_matrix (a : R) (K : nat -> nat -> R) : nat -> nat -> R :=
  let T i j := match i, j with 0%nat, 0%nat => 1 | 1%nat, 1%nat => cos a | 1%nat, 2%nat => - sin a | 2%nat, 1%nat => sin a | 2%nat, 2%nat => cos a | _, _ => 0 end in
  fun i j => lsum (map (fun k => lsum (map (fun l => T i k * K k l * T j l) [0%nat; 1%nat; 2%nat])) [0%nat; 1%nat; 2%nat]).
Definition eq3 (K L : nat -> nat -> R) : Prop := forall i j, (i < 3)%nat -> (j < 3)%nat -> K i j = L i j.
Lemma eq3_all K L : eq3 K L -> K 0%nat 0%nat = L 0%nat 0%nat /\ K 0%nat 1%nat = L 0%nat 1%nat /\ K 0%nat 2%nat = L 0%nat 2%nat /\
  K 1%nat 0%nat = L 1%nat 0%nat /\ K 1%nat 1%nat = L 1%nat 1%nat /\ K 1%nat 2%nat = L 1%nat 2%nat /\
  K 2%nat 0%nat = L 2%nat 0%nat /\ K 2%nat 1%nat = L 2%nat 1%nat /\ K 2%nat 2%nat = L 2%nat 2%nat.
Proof. intros H. repeat split; apply H; lia. Qed.
Lemma det_eq K L : eq3 K L -> det3 K = det3 L.
Proof. intros H. destruct (eq3_all _ _ H) as (A & B & C & D & E & F & G & I & J). unfold det3. congruence. Qed.
Lemma put_eq K L c v : eq3 K L -> eq3 (put_col K c v) (put_col L c v).
Proof. intros H i j Hi Hj. unfold put_col. destruct (j =? c)%nat; [reflexivity|]. now apply H. Qed.
Lemma solve_eq K L v : eq3 K L -> solve3 K v = solve3 L v.
Proof. intros H. unfold solve3. rewrite (det_eq K L H), !(det_eq _ _ (put_eq K L _ v H)). reflexivity. Qed.

Ltac entries := unfold turn_matrix; cbn [map]; rewrite ?lsum_cons; change (lsum []) with 0; cbv beta iota.
Lemma det_turn a K : det3 (turn_matrix a K) = det3 K.
Proof.
  pose proof (sin2_cos2 a) as P. unfold Rsqr in P. set (s := sin a) in *. set (c := cos a) in *.
  assert (P2 : s * s = 1 - c * c) by lra. unfold det3. entries. fold s c.
  generalize (K 0%nat 0%nat) (K 0%nat 1%nat) (K 0%nat 2%nat) (K 1%nat 0%nat) (K 1%nat 1%nat) (K 1%nat 2%nat) (K 2%nat 0%nat) (K 2%nat 1%nat) (K 2%nat 2%nat).
  intros. ring [P2].
Qed.
Definition times (K : nat -> nat -> R) (x : R * R * R) : R * R * R :=
  let row i := K i 0%nat * fst (fst x) + K i 1%nat * snd (fst x) + K i 2%nat * snd x in (row 0%nat, row 1%nat, row 2%nat).
Lemma times_turn a K x : times (turn_matrix a K) (spun3 a x) = spun3 a (times K x).
Proof.
  pose proof (sin2_cos2 a) as P. unfold Rsqr in P. unfold times, spun3, spun. cbn [fst snd]. entries. set (s := sin a) in *. set (c := cos a) in *.
  assert (P2 : s * s = 1 - c * c) by lra. destruct x as [[x y] z]. cbn [fst snd].
  generalize (K 0%nat 0%nat) (K 0%nat 1%nat) (K 0%nat 2%nat) (K 1%nat 0%nat) (K 1%nat 1%nat) (K 1%nat 2%nat) (K 2%nat 0%nat) (K 2%nat 1%nat) (K 2%nat 2%nat).
  intros. apply pair3; ring [P2].
Qed.
Lemma solve_times K v x : solve3 K v = Ok x -> times K x = v.
Proof.
  unfold solve3. destruct (Reqb_spec (det3 K) 0) as [|N]; [discriminate|]. intros H. injection H as <-.
  destruct v as [[v0 v1] v2]. unfold times. cbn [fst snd]. unfold det3 in *. unfold put_col. cbn [Nat.eqb fst snd].
  set (k00 := K 0%nat 0%nat) in *. set (k01 := K 0%nat 1%nat) in *. set (k02 := K 0%nat 2%nat) in *.
  set (k10 := K 1%nat 0%nat) in *. set (k11 := K 1%nat 1%nat) in *. set (k12 := K 1%nat 2%nat) in *.
  set (k20 := K 2%nat 0%nat) in *. set (k21 := K 2%nat 1%nat) in *. set (k22 := K 2%nat 2%nat) in *.
  apply pair3; field; exact N.
Qed.
Lemma solve_unique K x : det3 K <> 0 -> solve3 K (times K x) = Ok x.
Proof.
  intros N. unfold solve3. destruct (Reqb_spec (det3 K) 0) as [|_]; [contradiction|]. f_equal.
  destruct x as [[x0 x1] x2]. unfold times. cbn [fst snd]. unfold det3 in *. unfold put_col. cbn [Nat.eqb fst snd].
  set (k00 := K 0%nat 0%nat) in *. set (k01 := K 0%nat 1%nat) in *. set (k02 := K 0%nat 2%nat) in *.
  set (k10 := K 1%nat 0%nat) in *. set (k11 := K 1%nat 1%nat) in *. set (k12 := K 1%nat 2%nat) in *.
  set (k20 := K 2%nat 0%nat) in *. set (k21 := K 2%nat 1%nat) in *. set (k22 := K 2%nat 2%nat) in *.
  apply pair3; field; exact N.
Qed.
Lemma solve_turn a K L v : eq3 L (turn_matrix a K) -> solve3 L (spun3 a v) = rmap (spun3 a) (solve3 K v).
Proof.
  intros H. rewrite (solve_eq _ _ _ H). destruct (solve3 K v) as [x|e] eqn:E; cbn [rmap].
  - rewrite <- (solve_times K v x E), <- times_turn. apply solve_unique. rewrite det_turn.
    unfold solve3 in E. destruct (Reqb_spec (det3 K) 0); [discriminate|assumption].
  - unfold solve3 in *. rewrite det_turn. destruct (Reqb (det3 K) 0); [congruence|discriminate].
Qed.

Section Turn2.
Variables (ig : integ) (t : traits) (ms : R) (g : compound) (phi : R) (D D' : list group).
Hypothesis CO : coherent ig g (Some ms) D.
Hypothesis CO' : coherent ig (rotate_geo phi g) (Some ms) D'.
Hypothesis TF : forall p m, rmap fst (ig_forces ig (rotate_geo phi g) (spun3 phi p) (Some D') m) = rmap (spun3 phi) (rmap fst (ig_forces ig g p (Some D) m)).
Let g' := rotate_geo phi g.

Lemma turn_forces p m s s' : has D s -> has D' s' ->
  fst (forces_k ig g' (spun3 phi p) m s') = rmap (spun3 phi) (fst (forces_k ig g p m s)) /\
  snd (forces_k ig g' (spun3 phi p) m s') = s' /\ snd (forces_k ig g p m s) = s.
Proof.
  intros HS HS'. pose proof HS as (d & DS & E). pose proof HS' as (d' & DS' & E'). unfold forces_k. rewrite DS, DS'.
  pose proof (TF p m) as X. rewrite <- (co_forces _ _ _ _ CO' _ (spun3 phi p) d' D' m m E'), <- (co_forces _ _ _ _ CO _ p d D m m E) in X. fold g' in X.
  destruct (ig_forces ig g' (spun3 phi p) (Some d') m) as [[F e]|e], (ig_forces ig g p (Some d) m) as [[F2 e2]|e2]; cbn [rmap fst] in X; try discriminate;
    cbn [fst snd rmap].
  - rewrite (keep_has D'), (keep_has D) by assumption. split; [|split]; congruence.
  - split; [|split]; congruence.
Qed.
Lemma turn_all m ps s s' : has D s -> has D' s' ->
  fst (integrate_all ig m g' (map (spun3 phi) ps) s') = rmap (map (spun3 phi)) (fst (integrate_all ig m g ps s)).
Proof.
  intros HS HS'. revert s s' HS HS'. induction ps as [|p ps IH]; intros s s' HS HS'; [reflexivity|]. cbn [map integrate_all].
  destruct (turn_forces p m s s' HS HS') as (X & Y & Z).
  match goal with |- fst (abind _ ?f _) = rmap _ (fst (abind _ ?h _)) => set (F' := f); set (F := h) end. unfold abind.
  destruct (forces_k ig g' (spun3 phi p) m s') as [[V|e] w'], (forces_k ig g p m s) as [[W|e2] w]; cbn [fst snd rmap] in *; try discriminate; [|congruence].
  subst w w'. unfold F, F'. specialize (IH s s' HS HS').
  match goal with |- fst (abind _ ?f _) = rmap _ (fst (abind _ ?h _)) => set (G' := f); set (G := h) end. unfold abind.
  destruct (integrate_all ig m g' (map (spun3 phi) ps) s') as [[r'|e'] v'], (integrate_all ig m g ps s) as [[r|e] v]; cbn [fst snd rmap] in *; try discriminate.
  - unfold G, G'. cbn [aret fst rmap]. cbn [map]. congruence.
  - congruence.
Qed.
Lemma turn_domain theta f complete s s' : has D s -> has D' s' ->
  fst (nm_domain ig t ms g' (theta + phi) f complete s') = rmap (spun_domain phi) (fst (nm_domain ig t ms g theta f complete s)).
Proof.
  intros HS HS'.
  assert (U : forall u s1 s1', has D s1 -> has D' s1' -> forall us us' : list profile * list nat, us' = (map (spun3 phi) (fst us), snd us) -> us = u ->
    fst (abind (integrate_all ig (Some ms) g' (fst us')) (fun F => aret {| dm_strains := fst us'; dm_forces := F; dm_fields := snd us' |}) s1') =
    rmap (spun_domain phi) (fst (abind (integrate_all ig (Some ms) g (fst us)) (fun F => aret {| dm_strains := fst us; dm_forces := F; dm_fields := snd us |}) s1))).
  { intros u s1 s1' H1 H1' us us' -> _. cbn [fst snd]. pose proof (turn_all (Some ms) (fst us) s1 s1' H1 H1') as X.
    unfold abind. destruct (integrate_all ig (Some ms) g' (map (spun3 phi) (fst us)) s1') as [[r'|e'] v'], (integrate_all ig (Some ms) g (fst us) s1) as [[r|e] v];
      cbn [fst snd rmap] in *; try discriminate; [|congruence]. injection X as ->. reflexivity. }
  unfold nm_domain. unfold g' at 1 2. replace (theta + phi + PI) with ((theta + PI) + phi) by ring. rewrite !ultimate_turned. unfold alift.
  unfold abind at 1 5. destruct (ultimate_profiles t g theta f) as [u|e]; cbn [rmap]; [|reflexivity].
  destruct complete.
  - unfold abind at 1 2 4 5. destruct (ultimate_profiles t g (theta + PI) f) as [v|e]; cbn [rmap]; [|reflexivity].
    unfold aret at 1 3. cbn [fst snd]. rewrite inner_rev_map, <- map_app.
    exact (U _ s s' HS HS' (fst u ++ inner_rev (fst v), snd u ++ inner_rev (snd v)) _ eq_refl eq_refl).
  - exact (U _ s s' HS HS' u _ eq_refl eq_refl).
Qed.

Hypothesis TK : forall p m, match ig_modulus ig g p (Some D) m, ig_modulus ig g' (spun3 phi p) (Some D') m with
  | Ok (K, _), Ok (K', _) => eq3 K' (turn_matrix phi K) | Err e, Err e' => e = e' | _, _ => False end.
Lemma turn_newton loads tol mx K0 K0' : match K0, K0' with None, None => True | Some K, Some K' => eq3 K' (turn_matrix phi K) | _, _ => False end ->
  forall fuel num strain s s', has D s -> has D' s' ->
  fst (newton_loop fuel ig ms g' (spun3 phi loads) tol K0' num mx (spun3 phi strain) s') =
  rmap (spun3 phi) (fst (newton_loop fuel ig ms g loads tol K0 num mx strain s)).
Proof.
  intros HK. induction fuel as [|k IH]; intros num strain s s' HS HS'; cbn [newton_loop].
  { destruct (mx <=? num)%nat; reflexivity. }
  unfold integrate_profile. destruct (turn_forces strain (Some ms) s s' HS HS') as (X & Y & Z).
  match goal with |- fst (abind _ ?f _) = rmap _ (fst (abind _ ?h _)) => set (F' := f); set (F := h) end. unfold abind.
  destruct (forces_k ig g' (spun3 phi strain) (Some ms) s') as [[V|e] w'], (forces_k ig g strain (Some ms) s) as [[W|e2] w]; cbn [fst snd rmap] in *; try discriminate; [|congruence].
  subst w w'. unfold F, F'. clear F F'. assert (EV : V = spun3 phi W) by congruence. subst V. clear X.
  assert (REST : forall K K', eq3 K' (turn_matrix phi K) ->
    fst (abind (alift (solve3 K' (sub3 (spun3 phi loads) (spun3 phi W)))) (fun d => if Rltb (norm3 d) tol then if (mx <=? S num)%nat then afail StopIteration else aret (add3 (spun3 phi strain) d)
        else newton_loop k ig ms g' (spun3 phi loads) tol K0' (S num) mx (add3 (spun3 phi strain) d)) s') =
    rmap (spun3 phi) (fst (abind (alift (solve3 K (sub3 loads W))) (fun d => if Rltb (norm3 d) tol then if (mx <=? S num)%nat then afail StopIteration else aret (add3 strain d)
        else newton_loop k ig ms g loads tol K0 (S num) mx (add3 strain d)) s))).
  { intros K K' EK. rewrite <- spun3_sub, (solve_turn phi K K' _ EK). unfold alift, abind. destruct (solve3 K (sub3 loads W)) as [d|e]; cbn [rmap]; [|reflexivity].
    rewrite spun3_length, <- spun3_add. destruct (Rltb (norm3 d) tol); [destruct (mx <=? S num)%nat; reflexivity|]. now apply IH. }
  destruct K0 as [K|], K0' as [K'|]; try contradiction.
  - unfold aret at 1 3. unfold abind at 1 3. apply REST. exact HK.
  - pose proof HS as (d & DS & E). pose proof HS' as (d' & DS' & E'). pose proof (TK strain None) as TT.
    pose proof (co_modulus _ _ _ _ CO g strain d D None None E) as E1. pose proof (co_modulus _ _ _ _ CO' g' (spun3 phi strain) d' D' None None E') as E2.
    unfold abind at 1 3. rewrite DS, DS'.
    destruct (ig_modulus ig g strain (Some D) None) as [[K u]|e], (ig_modulus ig g' (spun3 phi strain) (Some D') None) as [[K' u']|e']; try contradiction;
    destruct (ig_modulus ig g strain (Some d) None) as [[L w]|x], (ig_modulus ig g' (spun3 phi strain) (Some d') None) as [[L' w']|x']; cbn [rmap fst] in E1, E2; try discriminate.
    + assert (L = K) by congruence. assert (L' = K') by congruence. subst. apply REST. exact TT.
    + cbn [fst rmap]. congruence.
Qed.
Lemma turn_strain loads i mx tol s s' : has D s -> has D' s' ->
  fst (strain_profile ig ms g' (spun3 phi loads) i mx tol s') = rmap (spun3 phi) (fst (strain_profile ig ms g loads i mx tol s)).
Proof.
  intros HS HS'. unfold strain_profile. pose proof HS as (d & DS & E). pose proof HS' as (d' & DS' & E'). rewrite DS, DS'.
  assert (Z0 : spun3 phi (0, 0, 0) = (0, 0, 0)) by (unfold spun3, spun; cbn [fst snd]; apply pair3; ring).
  pose proof (TK (0, 0, 0) None) as TT. rewrite Z0 in TT.
  pose proof (co_modulus _ _ _ _ CO g (0, 0, 0) d D None None E) as E1. pose proof (co_modulus _ _ _ _ CO' g' (0, 0, 0) d' D' None None E') as E2.
  destruct (ig_modulus ig g (0, 0, 0) (Some D) None) as [[K u]|e], (ig_modulus ig g' (0, 0, 0) (Some D') None) as [[K' u']|e']; try contradiction;
  destruct (ig_modulus ig g (0, 0, 0) (Some d) None) as [[L w]|x], (ig_modulus ig g' (0, 0, 0) (Some d') None) as [[L' w']|x']; cbn [rmap fst] in E1, E2; try discriminate.
  - assert (L = K) by congruence. assert (L' = K') by congruence. subst.
    rewrite (keep_has D' w' s' HS'), (keep_has D w s HS). pose proof (turn_newton loads tol mx (if i then Some K else None) (if i then Some K' else None)) as T. 
    rewrite Z0 in T || idtac. specialize (T ltac:(destruct i; [exact TT|exact Logic.I]) (S mx) 0%nat (0, 0, 0) s s' HS HS'). rewrite Z0 in T. exact T.
  - cbn [fst rmap]. congruence.
Qed.
End Turn2.
