(** C67: section objects: identity, name and stored gross properties. *)
From Coq Require Import String DecimalString DecimalNat Lra Lia.
From Verif Require Import Base M_Marin S_MarinInt M_Laws M_Laws2 M_Fiber S_Fiber P_Fiber M_MarinInt M_Section M_Gross S_Gross S_Fiber S_Marin P_Fiber L_Gross L_Gross2 P_Gross M_Life P_Gross.

(** * Identity *)
Lemma write_same s c n : write_counter s c n c = Some n.
Proof. unfold write_counter. destruct (list_eq_dec Nat.eq_dec c c); [reflexivity|congruence]. Qed.
Lemma write_other s c n d : d <> c -> write_counter s c n d = s d.
Proof. intros N. unfold write_counter. destruct (list_eq_dec Nat.eq_dec d c); [congruence|reflexivity]. Qed.
Lemma read_own s c n : s c = Some n -> read_counter s c = n.
Proof. intros E. destruct c; cbn [read_counter]; rewrite E; reflexivity. Qed.
(** A class with its own counter only counts up. *)
Lemma own_up cs : forall s c n j i, s c = Some n -> nth_error cs j = Some c -> nth_error (new_ids cs s) j = Some i -> (n <= i)%nat.
Proof.
  induction cs as [|d cs IH]; intros s c n j i E X Y; [destruct j; discriminate|]. cbn [new_ids] in Y. destruct j as [|j]; cbn [nth_error] in X, Y.
  - injection X as ->. injection Y as <-. unfold new_id. cbn [fst]. rewrite (read_own _ _ _ E). lia.
  - destruct (list_eq_dec Nat.eq_dec c d) as [->|N].
    + assert (S n <= i)%nat; [|lia]. refine ((fun E2 => IH _ d (S n) j i E2 X Y) _). unfold new_id. cbn [snd]. rewrite write_same, (read_own _ _ _ E). reflexivity.
    + refine ((fun E2 => IH _ c n j i E2 X Y) _). unfold new_id. cbn [snd]. rewrite write_other by exact N. exact E.
Qed.
(** Of two sections of one class the later one has the larger id, whatever other
    sections are created before, between and after. *)
Theorem C67_ids_differ : forall cs s c i j ni nj, (i < j)%nat -> nth_error cs i = Some c -> nth_error cs j = Some c ->
  nth_error (new_ids cs s) i = Some ni -> nth_error (new_ids cs s) j = Some nj -> (ni < nj)%nat.
Proof.
  induction cs as [|d cs IH]; intros s c i j ni nj L X Y P Q; [destruct i; discriminate|]. cbn [new_ids] in P, Q.
  destruct j as [|j]; [lia|]. destruct i as [|i]; cbn [nth_error] in *.
  - injection X as ->. injection P as <-. refine ((fun E2 => own_up cs _ c _ j nj E2 Y Q) _). unfold new_id. cbn [snd fst]. apply write_same.
  - apply (IH _ c i j ni nj ltac:(lia) X Y P Q).
Qed.
Print Assumptions C67_ids_differ.
(** If all sections are of one class, they are numbered 0, 1, 2, ... *)
Theorem C67_ids_count : forall c n, new_ids (repeat c n) counters0 = seq 0 n.
Proof.
  intros c n. destruct n as [|n]; [reflexivity|]. cbn [repeat new_ids seq].
  assert (Z : read_counter counters0 c = 0%nat) by (induction c as [|k p IH]; [reflexivity|exact IH]).
  unfold new_id at 1. cbn [fst]. rewrite Z. f_equal.
  assert (G : forall m k s, s c = Some k -> new_ids (repeat c m) s = seq k m).
  { induction m as [|m IH]; intros k s E; [reflexivity|]. cbn [repeat new_ids seq]. unfold new_id. cbn [fst snd]. rewrite (read_own _ _ _ E). f_equal.
    apply IH, write_same. }
  apply G. unfold new_id. cbn [snd]. rewrite Z. apply write_same.
Qed.
Print Assumptions C67_ids_count.
(** The counter is not shared by different classes: a section of another class, even of
    a class derived from GenericSection, can have an id that is already taken. *)
Theorem C67_ids_shared_refuted : exists k, new_ids [generic_section; k :: nil; k :: generic_section; generic_section] counters0 = [0; 0; 1; 1]%nat /\ k <> 0%nat.
Proof. exists 1%nat. split; [reflexivity|discriminate]. Qed.
Print Assumptions C67_ids_shared_refuted.
Lemma uint_inj a b : NilEmpty.string_of_uint a = NilEmpty.string_of_uint b -> a = b.
Proof. intros E. pose proof (NilEmpty.usu a) as A. pose proof (NilEmpty.usu b) as B. rewrite E in A. congruence. Qed.
(** Automatic names tell the sections of one class apart; a given name is kept; an
    unnamed GenericSection is always called GenericSection. *)
Theorem C67_names :
  (forall cs s c i j ni nj, i <> j -> nth_error cs i = Some c -> nth_error cs j = Some c ->
     nth_error (new_ids cs s) i = Some ni -> nth_error (new_ids cs s) j = Some nj -> section_name None ni <> section_name None nj) /\
  (forall x i, section_name (Some x) i = x /\ section_name (generic_name (Some x)) i = x) /\
  (forall i, section_name (generic_name None) i = "GenericSection"%string) /\
  (forall i, exists digits, section_name None i = ("Section_" ++ digits)%string /\ NilEmpty.uint_of_string digits = Some (Nat.to_uint i)).
Proof.
  split; [|split; [split; reflexivity|split; [reflexivity|intros i; eexists; split; [reflexivity|apply NilEmpty.usu]]]]. intros cs s c i j ni nj N X Y P Q E.
  assert (ni = nj) by (unfold section_name in E; cbn in E; injection E as E; apply uint_inj in E; apply Unsigned.to_uint_inj; exact E).
  destruct (Nat.lt_total i j) as [L|[L|L]]; [|exact (N L)|].
  - pose proof (C67_ids_differ _ _ _ _ _ _ _ L X Y P Q). lia.
  - pose proof (C67_ids_differ _ _ _ _ _ _ _ L Y X Q P). lia.
Qed.
Print Assumptions C67_names.

(** * Stored gross properties *)
(** However often they are read, the answer is what one calculation on the geometry gives;
    after the first success nothing is calculated again, a failure is tried again each time. *)
Theorem C67_gross_once : forall calc g n,
  let '(l, s) := reads calc n (stored_new g) in
  so_geo s = g /\ length l = n /\
  (forall k x b, nth_error l k = Some (x, b) -> x = calc g /\ (b = true <-> k = 0%nat \/ exists e, calc g = Err e)).
Proof.
  intros calc g n. destruct (calc g) as [r|e] eqn:E.
  - assert (A : forall m s, so_gross s = Some r -> so_geo s = g -> reads calc m s = (repeat (Ok r, false) m, s)).
    { induction m as [|m IH]; intros s H G; [reflexivity|]. cbn [reads repeat]. unfold read_gross. rewrite H, (IH s H G). reflexivity. }
    destruct n as [|n]; [cbn; split; [reflexivity|]; split; [reflexivity|]; intros [|k] x b H; discriminate|].
    cbn [reads]. unfold read_gross, stored_new. cbn [so_gross so_geo]. rewrite E, (A n {| so_geo := g; so_gross := Some r |} eq_refl eq_refl). cbn [so_geo length]. split; [reflexivity|].
    split; [rewrite repeat_length; reflexivity|]. intros [|k] x b H; cbn [nth_error] in H.
    + injection H as <- <-. split; [reflexivity|]. split; [left; reflexivity|reflexivity].
    + apply nth_error_In, repeat_spec in H. injection H as -> ->. split; [reflexivity|]. split; [discriminate|intros [X|(e & X)]; discriminate].
  - assert (A : forall m, reads calc m (stored_new g) = (repeat (Err e, true) m, stored_new g)).
    { induction m as [|m IH]; [reflexivity|]. cbn [reads repeat]. unfold read_gross at 1. cbn [stored_new so_gross so_geo]. rewrite E. fold (stored_new g). rewrite IH. reflexivity. }
    rewrite A. split; [reflexivity|]. split; [apply repeat_length|]. intros k x b H. apply nth_error_In, repeat_spec in H. injection H as -> ->.
    split; [reflexivity|]. split; [intros _; right; exists e; reflexivity|reflexivity].
Qed.
Print Assumptions C67_gross_once.
(** Replacing the geometry of a section does not renew gross properties that were read before. *)
Theorem C67_gross_renewed_refuted : forall calc g g' r, calc g = Ok r -> 
  fst (fst (read_gross calc (set_geometry g' (snd (read_gross calc (stored_new g)))))) = Ok r.
Proof. intros calc g g' r E. unfold read_gross at 2. cbn [stored_new so_gross so_geo]. rewrite E. reflexivity. Qed.
Print Assumptions C67_gross_renewed_refuted.
(** Before the first reading it is the new geometry that counts. *)
Theorem C67_gross_new_geometry : forall calc g g', fst (fst (read_gross calc (set_geometry g' (stored_new g)))) = calc g'.
Proof. intros calc g g'. unfold read_gross. cbn. destruct (calc g'); reflexivity. Qed.
Print Assumptions C67_gross_new_geometry.
(** With the real calculation: after the bars are removed, the stored reinforcement area is still 18. *)
Definition ex_plain : compound := {| cg_surf := [ex_surface]; cg_bars := [] |}.
Example C67_gross_example : exists r r',
  let calc := gross_properties marin_integ ex_laws (fun _ => Some 1) (eig2 1) (OnePolygon 4) (1/100) in
  calc ex_geo = Ok r /\ calc ex_plain = Ok r' /\ gp_area_reinforcement r = 18 /\ gp_area_reinforcement r' = 0 /\
  fst (fst (read_gross calc (set_geometry ex_plain (snd (read_gross calc (stored_new ex_geo)))))) = Ok r.
Proof.
  assert (ST : forall k, 0 < stiffness0 ex_laws k) by (intros k; unfold stiffness0; cbn; unfold elastic_tangent; cbn; pose proof (pos_INR k); lra).
  assert (RC : forall bs, rings_closed {| cg_surf := [ex_surface]; cg_bars := bs |}) by (intros bs x [<-|[]]; split; [reflexivity|intros q []]).
  destruct (C30_integrals marin_integ ex_laws (fun _ => Some 1) (eig2 1) 4 (1/100) ex_geo weighted (RC _) (fun k _ => ST k) (or_introl (conj eq_refl eq_refl))) as (r & E & _ & _ & _ & A).
  { rewrite (proj2 C30_marin_applies). lra. }
  destruct (C30_integrals marin_integ ex_laws (fun _ => Some 1) (eig2 1) 4 (1/100) ex_plain weighted (RC _) (fun k _ => ST k) (or_introl (conj eq_refl eq_refl))) as (r' & E' & _ & _ & _ & A').
  { unfold weighted, ex_plain. cbn [cg_surf cg_bars map]. rewrite !lsum_cons, !lsum_nil, ex_area_one. unfold stiffness0. cbn. unfold elastic_tangent. cbn. lra. }
  exists r, r'. intros calc. split; [exact E|]. split; [exact E'|]. split; [|split; [|exact (C67_gross_renewed_refuted calc ex_geo ex_plain r E)]].
  - rewrite A. cbn. unfold lsum. cbn. lra.
  - rewrite A'. reflexivity.
Qed.
Example C67_names_example : section_name None 17 = "Section_17"%string /\ section_name (Some "Deck"%string) 17 = "Deck"%string.
Proof. split; reflexivity. Qed.
