(** C66: comparing and printing section properties. *)
From Coq Require Import String Ascii Lra Lia.
From Verif Require Import Base M_Gross M_Report S_Report.

Lemma close_each a b rtol atol : allclose (map snd (gp_fields a)) (map snd (gp_fields b)) rtol atol = true <-> each (agrees rtol atol) a b.
Proof.
  unfold allclose, each, agrees. cbn [gp_fields map combine forallb fst snd].
  rewrite !andb_true_iff, !Rleb_true. tauto.
Qed.
(** The comparison answers true exactly when every quantity agrees with the other object's. *)
Theorem C66_isclose : forall a b rtol atol,
  exists x, gp_isclose a (Some b) rtol atol = Some x /\ (x = true <-> each (agrees rtol atol) a b).
Proof. intros a b r t. eexists. split; [reflexivity|]. apply close_each. Qed.
Print Assumptions C66_isclose.
Lemma is_each a b rtol atol : gp_isclose a (Some b) rtol atol = Some true <-> each (agrees rtol atol) a b.
Proof. unfold gp_isclose. rewrite <- close_each. split; [intros [= E]; exact E|intros ->; reflexivity]. Qed.
Lemma each_impl (P Q : R -> R -> Prop) a b : (forall x y, P x y -> Q x y) -> each P a b -> each Q a b.
Proof. intros I. unfold each. repeat (intros (X & Y); split; [exact (I _ _ X)|clear X; revert Y]). apply I. Qed.
Lemma each_flip (P Q : R -> R -> Prop) a b : (forall x y, P x y -> Q y x) -> each P a b -> each Q b a.
Proof. intros I. unfold each. repeat (intros (X & Y); split; [exact (I _ _ X)|clear X; revert Y]). apply I. Qed.
Lemma each_trans (P Q T : R -> R -> Prop) a b c : (forall x y z, P x y -> Q y z -> T x z) -> each P a b -> each Q b c -> each T a c.
Proof.
  intros I. unfold each. repeat (intros (X & Y) (X' & Y'); split; [exact (I _ _ _ X X')|clear X X'; revert Y Y']). apply I.
Qed.
Lemma each_all (P : R -> R -> Prop) a b : (forall x y, P x y) -> each P a b.
Proof. intros I. unfold each. repeat split; apply I. Qed.
Lemma each_eq a b : each eq a b <-> a = b.
Proof.
  split; [|intros ->; unfold each; repeat split].
  destruct a, b. unfold each. cbn. intros H. repeat match type of H with _ /\ _ => let X := fresh in destruct H as (X & H); subst end. subst. reflexivity.
Qed.
(** With tolerances that are not negative everything is close to itself, larger
    tolerances accept more, no tolerance is equality, and tolerances add up along a chain. *)
Theorem C66_laws : forall a b c rtol atol,
  (0 <= rtol -> 0 <= atol -> gp_isclose a (Some a) rtol atol = Some true) /\
  (forall rtol' atol', rtol <= rtol' -> atol <= atol' -> gp_isclose a (Some b) rtol atol = Some true -> gp_isclose a (Some b) rtol' atol' = Some true) /\
  (gp_isclose a (Some b) 0 0 = Some true <-> a = b) /\
  (forall rtol' atol', 0 <= rtol -> gp_isclose a (Some b) rtol atol = Some true -> gp_isclose b (Some c) rtol' atol' = Some true ->
     gp_isclose a (Some c) (rtol + rtol' + rtol * rtol') (atol + atol' + rtol * atol') = Some true) /\
  (0 <= rtol < 1 -> gp_isclose a (Some b) rtol atol = Some true -> gp_isclose b (Some a) (rtol / (1 - rtol)) (atol / (1 - rtol)) = Some true).
Proof.
  intros a b c r t. split; [|split; [|split; [|split]]].
  - intros Hr Ht. rewrite is_each. apply (each_impl eq); [|apply each_eq; reflexivity].
    intros x y ->. unfold agrees. rewrite Rminus_diag_eq, Rabs_R0 by reflexivity. pose proof (Rmult_le_pos _ _ Hr (Rabs_pos y)). lra.
  - intros r' t' Hr Ht. rewrite !is_each. apply each_impl. intros x y. unfold agrees. intros H.
    pose proof (Rmult_le_compat_r _ _ _ (Rabs_pos y) Hr). lra.
  - rewrite is_each, <- each_eq. split; apply each_impl; unfold agrees; intros x y H.
    + pose proof (Rabs_pos (x - y)). assert (Z : Rabs (x - y) = 0) by lra. destruct (Req_dec (x - y) 0) as [E|N]; [lra|]. destruct (Rabs_no_R0 _ N Z).
    + subst. rewrite Rminus_diag_eq, Rabs_R0 by reflexivity. lra.
  - intros r' t' Hr. rewrite !is_each. apply each_trans. unfold agrees. intros x y z H K.
    pose proof (Rabs_triang (x - y) (y - z)) as T. replace (x - y + (y - z)) with (x - z) in T by ring.
    pose proof (Rabs_triang (y - z) z) as T2. replace (y - z + z) with y in T2 by ring.
    assert (L : Rabs y <= Rabs z + (t' + r' * Rabs z)) by lra. pose proof (Rmult_le_compat_l _ _ _ Hr L). lra.
  - intros Hr. rewrite !is_each. apply each_flip. unfold agrees. intros x y H.
    rewrite (Rabs_minus_sym y x). apply (Rmult_le_reg_r (1 - r)); [lra|].
    replace ((t / (1 - r) + r / (1 - r) * Rabs x) * (1 - r)) with (t + r * Rabs x) by (field; lra).
    pose proof (Rabs_triang (y - x) x) as T. replace (y - x + x) with y in T by ring. rewrite (Rabs_minus_sym y x) in T.
    pose proof (Rmult_le_compat_l _ _ _ (proj1 Hr) T). lra.
Qed.
Print Assumptions C66_laws.
(** The default absolute tolerance knows no units: properties that are all at most 5e-9
    (a thin bar in metres) are close to each other, and to an empty object, whatever they are. *)
Theorem C66_small : forall a b, each (fun x y => Rabs x <= 5 / 10 ^ 9 /\ Rabs y <= 5 / 10 ^ 9) a b -> gp_isclose a (Some b) (1 / 10 ^ 5) (1 / 10 ^ 8) = Some true.
Proof.
  intros a b. rewrite is_each. apply each_impl. unfold agrees. intros x y (X & Y).
  pose proof (Rabs_triang x (- y)) as T. rewrite Rabs_Ropp in T. pose proof (Rabs_pos y). unfold Rminus at 1. cbn [pow] in *. lra.
Qed.
Print Assumptions C66_small.
(** An object made without arguments has every quantity 0; it is close to exactly those
    objects, as a reference, whose quantities are all at most atol. *)
Theorem C66_default : each (fun x _ => x = 0) gp_default gp_default /\
  forall a rtol atol, gp_isclose a (Some gp_default) rtol atol = Some true <-> each (fun x _ => Rabs x <= atol) a a.
Proof.
  split; [unfold each, gp_default; cbn; repeat split; reflexivity|].
  assert (A : forall rtol atol x, agrees rtol atol x 0 <-> Rabs x <= atol) by (intros r t x; unfold agrees; rewrite Rminus_0_r, Rabs_R0, Rmult_0_r, Rplus_0_r; tauto).
  intros a r t. rewrite is_each. unfold each, gp_default. cbn [gp_perimeter gp_area gp_area_reinforcement gp_ea gp_mass gp_sy gp_sz gp_iyy gp_izz gp_iyz gp_e_sy gp_e_sz gp_e_iyy gp_e_izz gp_e_iyz gp_cy gp_cz
    gp_iyy_c gp_izz_c gp_iyz_c gp_e_iyy_c gp_e_izz_c gp_e_iyz_c gp_i11 gp_i22 gp_theta gp_e_i11 gp_e_i22 gp_e_theta]. rewrite !A. tauto.
Qed.
Print Assumptions C66_default.
(** The comparison is not symmetric with the default tolerances. *)
Theorem C66_symmetric_refuted : exists a b, gp_isclose a (Some b) (1 / 10 ^ 5) (1 / 10 ^ 8) = Some true /\ gp_isclose b (Some a) (1 / 10 ^ 5) (1 / 10 ^ 8) = Some false.
Proof.
  pose (x := (1 + 1 / 10 ^ 8) / (1 - 1 / 10 ^ 5)).
  assert (X : x - 1 = 1 / 10 ^ 8 + 1 / 10 ^ 5 * x) by (unfold x; cbn [pow]; field).
  assert (X1 : 1 < x) by (cbn [pow] in X; lra).
  exists (Build_gross 0 1 0 0 0 0 0 0 0 0 0 0 0 0 0 0 0 0 0 0 0 0 0 0 0 0 0 0 0), (Build_gross 0 x 0 0 0 0 0 0 0 0 0 0 0 0 0 0 0 0 0 0 0 0 0 0 0 0 0 0 0).
  assert (Z : agrees (1 / 10 ^ 5) (1 / 10 ^ 8) 0 0) by (unfold agrees; rewrite Rminus_0_r, Rabs_R0; cbn [pow]; lra).
  split.
  - rewrite is_each. unfold each. cbn. repeat split; try exact Z. unfold agrees. rewrite Rabs_minus_sym, !Rabs_pos_eq by lra. cbn [pow] in X. lra.
  - unfold gp_isclose. f_equal. apply Bool.not_true_is_false. intros H. apply close_each in H. unfold each in H. destruct H as (H & _). cbn in H.
    unfold agrees in H. rewrite !Rabs_pos_eq in H by lra. cbn [pow] in *. lra.
Qed.
Print Assumptions C66_symmetric_refuted.
(** Compared with an object of another class the answer is NotImplemented, which a condition takes for true. *)
Theorem C66_other_class_refuted : forall a rtol atol, truthy (gp_isclose a None rtol atol) = true.
Proof. reflexivity. Qed.
Print Assumptions C66_other_class_refuted.

(** * The printed report *)
Lemma line_split v w r q : one_line v -> one_line w -> (v ++ nl ++ r)%string = (w ++ nl ++ q)%string -> v = w /\ r = q.
Proof.
  revert w. induction v as [|c v IH]; intros [|d w] A B E; cbn in E.
  - injection E as E. split; [reflexivity|exact E].
  - injection E as E _. destruct B as (B & _). subst d. destruct (B eq_refl).
  - injection E as E _. destruct A as (A & _). subst c. destruct (A eq_refl).
  - injection E as -> E. destruct (IH w (proj2 A) (proj2 B) E) as (-> & ->). split; reflexivity.
Qed.
Lemma app_assoc3 a b c : ((a ++ b) ++ c)%string = (a ++ (b ++ c))%string.
Proof. induction a as [|x a IH]; [reflexivity|]. cbn. f_equal. exact IH. Qed.
Lemma app_left a b c : (a ++ b)%string = (a ++ c)%string -> b = c.
Proof. induction a as [|x a IH]; [intros E; exact E|]. cbn. intros [= E]. exact (IH E). Qed.
Fixpoint lines (fmt : R -> string) (l : list (string * R)) : string :=
  match l with [] => ""%string | f :: r => (fst f ++ ": " ++ fmt (snd f) ++ nl ++ lines fmt r)%string end.
Lemma app_nil a : (a ++ "")%string = a.
Proof. induction a as [|x a IH]; [reflexivity|]. cbn. f_equal. exact IH. Qed.
Lemma fold_lines fmt l : forall out, fold_left (fun out f => (out ++ (fst f ++ ": " ++ fmt (snd f) ++ nl))%string) l out = (out ++ lines fmt l)%string.
Proof.
  induction l as [|f l IH]; intros out; cbn [fold_left lines]; [symmetry; apply app_nil|].
  rewrite IH. rewrite !app_assoc3. reflexivity.
Qed.
Lemma lines_inj fmt : (forall x, one_line (fmt x)) -> forall l m, map fst l = map fst m -> lines fmt l = lines fmt m -> map (fun f => fmt (snd f)) l = map (fun f => fmt (snd f)) m.
Proof.
  intros OL. induction l as [|[n x] l IH]; intros [|[n' y] m] E H; cbn in E; try discriminate; [reflexivity|].
  injection E as -> E. cbn [lines fst snd] in H. apply app_left in H. apply app_left in H. apply line_split in H as (X & H); [|apply OL|apply OL].
  cbn [map snd]. rewrite X. f_equal. exact (IH m E H).
Qed.
(** If numbers are formatted on one line each, two reports are the same text exactly when
    every quantity is printed the same: no quantity is left out of the report. *)
Theorem C66_report : forall fmt a b, (forall x, one_line (fmt x)) ->
  (gp_format fmt a = gp_format fmt b <-> each (fun x y => fmt x = fmt y) a b).
Proof.
  intros fmt a b OL. unfold gp_format. rewrite !fold_lines. split.
  - intros H. apply app_left in H. apply (lines_inj fmt OL) in H; [|reflexivity]. cbn [gp_fields map snd] in H. unfold each.
    injection H. intros. repeat split; assumption.
  - intros H. f_equal. unfold each in H. cbn [gp_fields lines fst snd].
    repeat match type of H with _ /\ _ => let X := fresh in destruct H as (X & H); rewrite X end. rewrite H. reflexivity.
Qed.
Print Assumptions C66_report.
Lemma line_in fmt l f : In f l -> exists before after, (nl ++ lines fmt l)%string = (before ++ nl ++ (fst f ++ ": " ++ fmt (snd f)) ++ nl ++ after)%string.
Proof.
  induction l as [|h l IH]; [intros []|]. intros [-> |I].
  - exists ""%string, (lines fmt l). cbn [lines]. rewrite !app_assoc3. reflexivity.
  - destruct (IH I) as (before & after & E). exists (nl ++ fst h ++ ": " ++ fmt (snd h) ++ before)%string, after.
    cbn [lines]. rewrite E. rewrite !app_assoc3. reflexivity.
Qed.
(** Every quantity has a line of its own under its label, below the title. *)
Theorem C66_report_lines : forall fmt r,
  (exists rest, gp_format fmt r = ("Section Properties:" ++ line_break ++ rest)%string) /\
  (forall q label, In (q, label) label_of -> has_line (gp_format fmt r) (label ++ ": " ++ fmt (q r))).
Proof.
  intros fmt r. unfold gp_format. rewrite fold_lines. split; [exists (lines fmt (gp_fields r)); rewrite app_assoc3; reflexivity|].
  intros q label I. assert (J : In (label, q r) (gp_fields r)).
  { unfold label_of in I. cbn [In] in I. repeat (destruct I as [I|I]; [injection I as <- <-; cbn [gp_fields In]; tauto|]). destruct I. }
  destruct (line_in fmt _ _ J) as (before & after & E). exists ("Section Properties:" ++ before)%string, after.
  rewrite app_assoc3, E, (app_assoc3 "Section Properties:"%string before). reflexivity.
Qed.
Print Assumptions C66_report_lines.
(** But two of its lines carry one label: the principal angles of the area and of the
    stiffness, so reports that differ only by exchanging them have the same lines. *)
Theorem C66_labels_refuted : forall r, exists f f', nth_error (gp_fields r) 19 = Some f /\ nth_error (gp_fields r) 28 = Some f' /\
  fst f = fst f' /\ snd f = gp_theta r /\ snd f' = gp_e_theta r.
Proof. intros r. do 2 eexists. split; [reflexivity|]. split; [reflexivity|]. repeat split. Qed.
Print Assumptions C66_labels_refuted.
(** Hypotheses are met: printing every number as one character. *)
Example C66_report_example : let fmt := fun x => if Reqb x 0 then "0"%string else "1"%string in
  (forall x, one_line (fmt x)) /\ gp_format fmt gp_default <> gp_format fmt (Build_gross 0 0 0 0 0 0 0 0 0 0 0 0 0 0 0 0 0 0 0 0 0 0 0 0 0 0 0 0 2).
Proof.
  intros fmt. assert (OL : forall x, one_line (fmt x)) by (intros x; unfold fmt; destruct (Reqb x 0); cbn; split; [discriminate|trivial|discriminate|trivial]).
  split; [exact OL|]. rewrite (C66_report fmt _ _ OL). unfold each. cbn [gp_default gp_e_theta]. intros H.
  repeat match type of H with _ /\ _ => destruct H as (_ & H) end. revert H. unfold fmt, gp_default. cbn [gp_e_theta].
  destruct (Reqb_spec 0 0) as [_|N]; [|destruct (N eq_refl)]. destruct (Reqb_spec 2 0); [lra|discriminate].
Qed.
Example C66_small_example : gp_isclose (Build_gross 0 (4 / 10 ^ 9) 0 0 0 0 0 0 0 0 0 0 0 0 0 0 0 0 0 0 0 0 0 0 0 0 0 0 0) (Some gp_default) (1 / 10 ^ 5) (1 / 10 ^ 8) = Some true.
Proof.
  apply C66_small. unfold each. cbn [gp_default gp_area gp_area_reinforcement]. cbn. rewrite Rabs_R0. repeat split; try lra. rewrite Rabs_pos_eq; lra.
Qed.
