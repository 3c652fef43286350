(** Lemmas for C64, continued: two different strain profiles differ somewhere on a section with area. *)
From Coquelicot Require Import Coquelicot.
From Coq Require Import FunctionalExtensionality Lra Lia.
From Verif Require Import Base M_Marin S_Marin L_Marin M_Laws S_Laws M_Laws2 S_Laws2 M_Fiber S_Fiber L_Fiber P_Fiber M_MarinInt L_MarinInt L_MarinInt2 L_MarinInt3 L_MarinInt4 P_MarinInt L_Frame L_Frame2 L_Frame3 L_Frame4
  M_Section S_Section M_Gross S_Gross L_Gross L_Cracked3 L_Newton P_Newton S_MarinInt S_Exact L_Exact P_Exact S_Frame P_Frame S_Mesh L_Mesh L_Mesh2 L_Mesh3 P_Mesh L_Mesh4 S_Curved L_Curved S_Unique L_Refine L_Unique P_Unique.

Definition tri_form (u v w : R) : R := u ^ 2 + v ^ 2 + w ^ 2 + u * v + v * w + w * u.
Lemma tri_form_pos u v w : 0 <= tri_form u v w /\ (tri_form u v w = 0 -> u = 0 /\ v = 0 /\ w = 0).
Proof.
  assert (E : tri_form u v w = / 2 * ((u + v) ^ 2 + (v + w) ^ 2 + (w + u) ^ 2)) by (unfold tri_form; field).
  pose proof (pow2_ge_0 (u + v)) as A. pose proof (pow2_ge_0 (v + w)) as B. pose proof (pow2_ge_0 (w + u)) as C. split; [lra|]. intros Z.
  assert (Q : forall x, x ^ 2 = 0 -> x = 0) by (intros x X; destruct (Req_dec x 0) as [|N]; [assumption|exfalso; exact (pow_nonzero x 2 N X)]).
  assert (u + v = 0) by (apply Q; lra). assert (v + w = 0) by (apply Q; lra). assert (w + u = 0) by (apply Q; lra). lra.
Qed.
Lemma tri_square e r t : region_integral (fun _ z => (e + r * z) ^ 2) (tri_ring t) =
  fan_moment 0 0 (tri_ring t) / 6 * (let '(p, q, v) := t in tri_form (e + r * snd p) (e + r * snd q) (e + r * snd v)).
Proof.
  destruct t as [[p q] v].
  rewrite (region_ext _ (quadratic (e ^ 2) 0 (2 * e * r) 0 0 (r ^ 2))) by (intros; unfold quadratic; ring).
  rewrite region_quadratic by reflexivity. pose proof (tri_moments (p, q, v)) as M. cbv zeta in M |- *. destruct M as (M1 & M2 & M3 & M4 & M5). rewrite M1, M2, M3, ?M4, ?M5.
  unfold tri_form, tri_cz, tri_cy, spread_zz. field.
Qed.
Section Square.
Variables (ts : list tri) (s : surface) (a b c : R).
Hypothesis TR : triangulates ts s.
Hypothesis CL : closed (sf_ext s) /\ (forall q, In q (sf_ints s) -> closed q).
Definition tri_energy (t : tri) : R := fan_moment 0 0 (tri_ring t) / 6 * (let '(p, q, v) := t in
  tri_form (plane_strain a b c (fst p) (snd p)) (plane_strain a b c (fst q) (snd q)) (plane_strain a b c (fst v) (snd v))).
Lemma square_sum : surface_integral (fun y z => (plane_strain a b c y z) ^ 2) s = lsum (map tri_energy ts).
Proof.
  set (r := sqrt (c ^ 2 + b ^ 2)). destruct (aligned b c) as (al & KA & KB). fold r in KA, KB.
  assert (CT : forall (e r0 : R), (fun z : R => (e + r0 * z) ^ 2) = (fun z => poly [e ^ 2; 2 * e * r0; r0 ^ 2] z)).
  { intros e r0. apply functional_extensionality. intros z. unfold poly. ring. }
  assert (EI : forall off, eint (fun z => (a + r * z) ^ 2 * z ^ off)).
  { intros off. replace (fun z => (a + r * z) ^ 2 * z ^ off) with (fun z => poly [a ^ 2; 2 * a * r; r ^ 2] z * z ^ off); [apply eint_poly|].
    apply functional_extensionality. intros z. unfold poly. ring. }
  assert (TM : r <> 0 -> tame (fun x => x ^ 2)).
  { intros N. set (l := {| lw_stress := fun _ => 0; lw_tangent := fun _ => 0; lw_stress_arr := fun a => (map (fun _ => 0) a, a); lw_tangent_arr := fun a => (map (fun _ => 0) a, a);
     lw_marin := fun s => (fst s, (None, [[fst s ^ 2; 2 * fst s * snd s; snd s ^ 2]])); lw_marin_tangent := fun s => (fst s, (None, [])); lw_ult := (0, 0) |}).
    apply (field_tame IStress l (fun x => x ^ 2) a r ltac:(discriminate)); [|exact N|apply sqrt_pos].
    split; [reflexivity|]. cbn [fst snd]. unfold describes. cbn [fst snd]. exists [a ^ 2; 2 * a * r; r ^ 2]. split; [reflexivity|]. intros y _. cbn [poly]. ring. }
  pose proof (split_up a r al b c KA KB 1 0 0 ts s TR CL (fun x => x ^ 2) EI TM) as X. cbv beta in X.
  transitivity (surface_integral (fun y z => plane_strain a b c y z ^ 2 * (1 + 0 * y + 0 * z)) s).
  { f_equal. apply functional_extensionality. intros y. apply functional_extensionality. intros z. ring. }
  rewrite X. apply lsum_map_ext. intros t I.
  transitivity (region_integral (fun _ z => (a + r * z) ^ 2) (tri_ring (tturn al t))).
  { f_equal. apply functional_extensionality. intros y. apply functional_extensionality. intros z. ring. }
  rewrite tri_square. unfold tri_energy. rewrite tri_ring_turn, !fan_area, turned_area.
  destruct t as [[p q] v]. cbn [tturn].
  assert (U : forall x, a + r * snd (turn al x) = plane_strain a b c (fst x) (snd x)).
  { intros [y z]. unfold turn, plane_strain. cbn [fst snd]. rewrite <- KA. replace (- c * y) with (- (c * y)) by ring. replace c with (- (r * sin al)) by lra. ring. }
  rewrite !U. reflexivity.
Qed.
Lemma energy_pos t : In t ts -> 0 <= tri_energy t.
Proof.
  intros I. pose proof (proj1 TR t I) as C. unfold ccw in C. unfold tri_energy. destruct t as [[p q] v].
  apply Rmult_le_pos; [lra|]. apply tri_form_pos.
Qed.
Lemma square_pos : 0 <= surface_integral (fun y z => (plane_strain a b c y z) ^ 2) s.
Proof. rewrite square_sum. apply lsum_ge0. exact energy_pos. Qed.
Lemma square_definite : 0 < surface_integral (fun _ _ => 1) s -> surface_integral (fun y z => (plane_strain a b c y z) ^ 2) s = 0 -> a = 0 /\ b = 0 /\ c = 0.
Proof.
  intros AR. rewrite square_sum. intros Z.
  assert (QA : surface_integral (fun _ _ => 1) s = lsum (map (fun t => fan_moment 0 0 (tri_ring t)) ts)).
  { transitivity (surface_integral (fun y z => 1 + 0 * y + 0 * z) s); [f_equal; apply functional_extensionality; intros y; apply functional_extensionality; intros z; ring|].
    rewrite (surface_triangles _ ts); [|apply field2_affine|exact TR]. apply lsum_map_ext. intros t _. rewrite tri_affine. ring. }
  rewrite QA in AR.
  assert (EX : exists t, In t ts /\ 0 < fan_moment 0 0 (tri_ring t)).
  { clear - AR. induction ts as [|t l IH]; [cbn [map] in AR; rewrite lsum_nil in AR; lra|]. cbn [map] in AR. rewrite lsum_cons in AR.
    destruct (Rlt_dec 0 (fan_moment 0 0 (tri_ring t))) as [P|N]; [exists t; split; [now left|exact P]|].
    destruct IH as (x & I & P); [lra|]. exists x. split; [now right|exact P]. }
  destruct EX as (t & I & P). pose proof (lsum_ge tri_energy ts t energy_pos I) as G. rewrite Z in G. pose proof (energy_pos t I) as N0.
  assert (E0 : tri_energy t = 0) by lra. pose proof (turn3_area t) as TA. unfold tri_energy in E0. destruct t as [[p q] v]. set (u1 := plane_strain a b c (fst p) (snd p)) in *. set (u2 := plane_strain a b c (fst q) (snd q)) in *. set (u3 := plane_strain a b c (fst v) (snd v)) in *.
  assert (F0 : tri_form u1 u2 u3 = 0).
  { apply Rmult_integral in E0 as [E0|E0]; [exfalso; lra|exact E0]. }
  apply tri_form_pos in F0 as (H1 & H2 & H3).
  assert (T3 : 0 < turn3 p q v) by (rewrite TA; lra). unfold turn3 in T3. set (d := (fst q - fst p) * (snd v - snd p) - (snd q - snd p) * (fst v - fst p)) in T3.
  assert (B0 : b = 0).
  { apply (Rmult_eq_reg_l d); [|lra]. unfold d. transitivity ((fst q - fst p) * (u3 - u1) - (fst v - fst p) * (u2 - u1)); [unfold u1, u2, u3, plane_strain; ring|rewrite H1, H2, H3; ring]. }
  assert (C0 : c = 0).
  { apply (Rmult_eq_reg_l d); [|lra]. unfold d. transitivity ((snd q - snd p) * (u3 - u1) - (snd v - snd p) * (u2 - u1)); [unfold u1, u2, u3, plane_strain; ring|rewrite H1, H2, H3; ring]. }
  split; [|split; assumption]. unfold u1, plane_strain in H1. rewrite B0, C0 in H1. lra.
Qed.
End Square.
