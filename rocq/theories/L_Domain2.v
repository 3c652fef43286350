From Verif Require Import Base M_Marin M_Laws M_Laws2 M_Fiber M_MarinInt S_Fiber L_Fiber M_Section S_Section L_Section3 M_Domain S_Domain L_Domain S_History L_History L_Section4 L_Section5.
From Coq Require Import Lra Lia.

(** Fibre resultants of a profile. *)
Definition resultants (F : list mfibre) (p : R * R * R) : R * R * R :=
  (axial F (p_e0 p) (p_ky p) (p_kz p), moment_y F (p_e0 p) (p_ky p) (p_kz p), moment_z F (p_e0 p) (p_ky p) (p_kz p)).
Lemma forces_all laws mesher g ms m s p : (forall k, batched (laws k)) -> nonempty g -> 0 < ms <= 1 ->
  uses_mesh mesher g ms (mesh_of m) s ->
  exists s', forces_k (fiber_integ laws mesher) g p m s = (Ok (resultants (section_fibres laws (fun x => mesher x (surface_area x * ms)) g) p), s') /\
    uses_mesh mesher g ms ms s' /\ st_data s' <> None /\ st_lim s' = st_lim s.
Proof.
  intros B NE M U. destruct (triangulate_ok mesher g ms M) as (e & T). destruct (forces_ok laws mesher g p ms e B NE T) as (FR & FD). cbv zeta in FR, FD.
  unfold forces_k. unfold uses_mesh in U. destruct s as [[d|] l]; cbn [st_data] in *.
  - destruct U as (e' & T' & SM). rewrite T in T'. inversion T'; subst e'.
    pose proof (co_forces _ _ _ _ (fiber_coherent laws mesher g ms e B T) g p d e m (Some ms) (proj1 (same_mesh_eqd d e) SM)) as CO.
    cbn [ig_forces fiber_integ] in CO |- *. rewrite FD in CO. cbn [rmap fst] in CO.
    destruct (fiber_forces laws mesher g p (Some d) m) as [[F x]|]; [|discriminate]. cbn [rmap fst] in CO. injection CO as ->.
    eexists. split; [reflexivity|]. split; [exists e; split; assumption|]. split; [discriminate|reflexivity].
  - cbn [ig_forces fiber_integ]. assert (EQ : fiber_forces laws mesher g p None m = fiber_forces laws mesher g p None (Some ms)).
    { destruct m; cbn [mesh_of] in U; subst; reflexivity. }
    rewrite EQ, FR. eexists. split; [reflexivity|]. split; [exists e; split; [exact T|reflexivity]|]. split; [discriminate|reflexivity].
Qed.
Lemma integrate_all_fiber laws mesher g ms m ps : (forall k, batched (laws k)) -> nonempty g -> 0 < ms <= 1 -> forall s,
  uses_mesh mesher g ms (mesh_of m) s -> 
  exists s', integrate_all (fiber_integ laws mesher) m g ps s = (Ok (map (resultants (section_fibres laws (fun x => mesher x (surface_area x * ms)) g)) ps), s').
Proof.
  intros B NE M. induction ps as [|p ps IH]; intros s U.
  - eexists. reflexivity.
  - cbn [integrate_all map]. unfold abind. destruct (forces_all laws mesher g ms m s p B NE M U) as (s1 & -> & U1 & D1 & _).
    destruct (IH s1) as (s2 & ->); [|eexists; reflexivity].
    unfold uses_mesh in *. destruct (st_data s1); [exact U1|contradiction].
Qed.
Lemma count_repeat n i k : count_occ Nat.eq_dec (repeat i n) k = if Nat.eqb i k then n else 0%nat.
Proof.
  induction n as [|n IH]; cbn [repeat count_occ]; [destruct (Nat.eqb i k); reflexivity|]. rewrite IH.
  destruct (Nat.eq_dec i k), (Nat.eqb_spec i k); try contradiction; reflexivity.
Qed.
Lemma removelast_length {A} (l : list A) : length (removelast l) = (length l - 1)%nat.
Proof. induction l as [|a [|b l] IH]; [reflexivity|reflexivity|]. change (removelast (a :: b :: l)) with (a :: removelast (b :: l)). cbn [length] in *. lia. Qed.
Lemma inner_rev_length {A} (l : list A) : length (inner_rev l) = (length l - 2)%nat.
Proof. unfold inner_rev. rewrite rev_length. pose proof (removelast_length l). destruct (removelast l); cbn [tl length] in *; lia. Qed.
Lemma integrate_all_length ig m g ps : forall s F s', integrate_all ig m g ps s = (Ok F, s') -> length F = length ps.
Proof.
  induction ps as [|p ps IH]; intros s F s' E; cbn [integrate_all] in E.
  - injection E as <- <-. reflexivity.
  - unfold abind in E. destruct (forces_k ig g p m s) as [[x|] s1]; [|discriminate].
    destruct (integrate_all ig m g ps s1) as [[r|] s2] eqn:E2; [|discriminate]. injection E as <- <-. cbn [length]. f_equal. exact (IH _ _ _ E2).
Qed.
Lemma np_space_single a ty l : ty <> Linear -> np_space a 0 1 ty false = Ok l -> l = [0].
Proof.
  intros N E. unfold np_space in E. cbn [Z.ltb Z.compare] in E. destruct ty; [contradiction| | |discriminate].
  - destruct (Reqb_spec 0 0); [|lra]. cbn [negb andb Z.eqb Z.sub Z.add Z.opp Z.pos_sub Z.to_nat] in E. unfold geomspace in E. destruct (orb _ _); [discriminate|]. cbn [seq map bind app] in E. now injection E as <-.
  - injection E as <-. cbn [Z.to_nat Pos.to_nat Pos.iter_op linspace seq map]. unfold linspace. cbn. f_equal. ring.
Qed.
