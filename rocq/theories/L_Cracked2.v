(** Lemmas for C50: the temporary section under the Marin integrator. *)
From Coquelicot Require Import Coquelicot.
From Verif Require Import Base M_Marin S_Marin L_Marin M_Laws S_Laws L_Laws L_LawsC M_Laws2 S_Laws2 L_Laws2 M_Fiber S_Fiber L_Fiber P_Fiber M_MarinInt S_MarinInt L_MarinInt L_MarinInt2 L_MarinInt3 L_MarinInt4 M_Section S_Section L_Section L_Section2 M_Gross S_Gross L_Gross L_Gross2 M_Geo M_Cracked S_Cracked L_Cracked.
From Coq Require Import Lra Lia Permutation.

(** ** Concrete without tension *)
Definition ncl (E : R) : law := ud_law {| ud_x := [-100; 0]; ud_y := [-100 * E; 0]; ud_un := -100; ud_up := 0 |}.
Definition nct (E e : R) : R := if Rle_dec (-100) e then if Rle_dec e 0 then E * e else 0 else 0.
Lemma ncl_init l : cracked_law true l = Ok (ncl (lw_tangent l 0)).
Proof.
  unfold cracked_law, ud_init, ud_base. cbn [length Nat.eqb negb existsb].
  destruct (Rltb_spec (-100) 0); [|lra]. reflexivity.
Qed.
Lemma ncl_separated E : separated (ud_ult {| ud_x := [-100; 0]; ud_y := [-100 * E; 0]; ud_un := -100; ud_up := 0 |}).
Proof.
  unfold separated, far, tol, ud_ult. cbn [fst snd ud_un ud_up]. rewrite (Rabs_left (-100)) by lra. rewrite (Rabs_pos_eq (0 - -100)) by lra. lra.
Qed.
Lemma ncl_batched E : batched (ncl E).
Proof.
  split; intros eps; cbn [ncl ud_law lw_stress_arr lw_tangent_arr fst lw_stress lw_tangent].
  - apply ud_stress_arr_map. apply ncl_separated.
  - apply ud_tangent_arr_map.
Qed.
Lemma ncl_tangent E : lw_tangent (ncl E) 0 = E.
Proof.
  cbn [ncl ud_law lw_tangent]. unfold ud_tangent. cbn [ud_x ud_y nth last slopes searchsorted length].
  destruct (Rltb_spec 0 (-100)); [lra|]. destruct (Rltb_spec 0 0); [lra|]. destruct (Rltb_spec (-100) 0); [|lra].
  destruct (Rltb_spec 0 0); [lra|]. cbn. field.
Qed.
Lemma ncl_field E e0 e1 : 0 < e1 -> field_of (lw_marin (ncl E) (e0, e1)) (nct E) e0 e1.
Proof.
  intros P. cbn [ncl ud_law lw_marin]. unfold ud_marin. destruct (Reqb_spec e1 0); [lra|].
  cbn [ud_x ud_y ud_branches map]. split; [reflexivity|]. cbn [fst snd]. split; [exact P|]. split.
  - split; [intros r [<-|[]]; cbn; lra|]. intros [|i] [|j]; cbn; intros; lia.
  - exists []. unfold describes. cbn [fst snd length combine]. split; [reflexivity|]. intros y _. split.
    + intros r c [[= <- <-]|[]]; cbn [fst snd poly]; intros [L U]. unfold nct. rdec; try lra.
    + intros Hn. assert (A1 := Hn (-100, 0) ltac:(cbn; auto)). cbn [fst snd] in *. unfold nct; rdec; lra.
Qed.

(** ** Numbered parts *)
Lemma number_surf_sum (G H : surface -> R) l : forall k,
  (forall i s, nth_error l i = Some s -> G {| sf_ext := sf_ext s; sf_ints := sf_ints s; sf_law := k + i |} = H s) ->
  lsum (map G (number_surfaces k l)) = lsum (map H l).
Proof.
  induction l as [|s l IH]; intros k X; [reflexivity|]. cbn [number_surfaces map]. rewrite !lsum_cons.
  f_equal.
  - specialize (X 0%nat s eq_refl). rewrite Nat.add_0_r in X. exact X.
  - apply IH. intros i s' N. specialize (X (S i) s' N). replace (S k + i)%nat with (k + S i)%nat by lia. exact X.
Qed.
Lemma number_bars_sum (G H : bar -> R) l : forall k,
  (forall i b, nth_error l i = Some b -> G {| br_y := br_y b; br_z := br_z b; br_area := br_area b; br_law := k + i |} = H b) ->
  lsum (map G (number_bars k l)) = lsum (map H l).
Proof.
  induction l as [|s l IH]; intros k X; [reflexivity|]. cbn [number_bars map]. rewrite !lsum_cons.
  f_equal.
  - specialize (X 0%nat s eq_refl). rewrite Nat.add_0_r in X. exact X.
  - apply IH. intros i s' N. specialize (X (S i) s' N). replace (S k + i)%nat with (k + S i)%nat by lia. exact X.
Qed.
Lemma number_surf_in l : forall k s, In s (number_surfaces k l) ->
  exists i s0, nth_error l i = Some s0 /\ s = {| sf_ext := sf_ext s0; sf_ints := sf_ints s0; sf_law := k + i |}.
Proof.
  induction l as [|a l IH]; intros k s I; [contradiction|]. destruct I as [<-|I].
  - exists 0%nat, a. rewrite Nat.add_0_r. auto.
  - destruct (IH _ _ I) as (i & s0 & N & ->). exists (S i), s0. split; [exact N|]. f_equal. lia.
Qed.
Lemma number_bars_in l : forall k b, In b (number_bars k l) ->
  exists i b0, nth_error l i = Some b0 /\ b = {| br_y := br_y b0; br_z := br_z b0; br_area := br_area b0; br_law := k + i |}.
Proof.
  induction l as [|a l IH]; intros k s I; [contradiction|]. destruct I as [<-|I].
  - exists 0%nat, a. rewrite Nat.add_0_r. auto.
  - destruct (IH _ _ I) as (i & s0 & N & ->). exists (S i), s0. split; [exact N|]. f_equal. lia.
Qed.

(** ** First moments of the numbered section *)
Definition ramp (c z : R) : R := Rmax 0 (z - c).
Lemma ramp_cont c z : continuity_pt (ramp c) z.
Proof.
  apply continuity_pt_filterlim. apply continuous_ext with (f := fun z => (z - c + Rabs (z - c)) / 2).
  - intros x. unfold ramp, Rmax, Rabs. destruct (Rle_dec _ _), (Rcase_abs _); lra.
  - apply (continuous_scal_l (fun z => z - c + Rabs (z - c)) (/ 2)).
    apply (continuous_plus (fun z => z - c) (fun z => Rabs (z - c))).
    + apply (continuous_minus (fun z => z) (fun _ => c)); [apply continuous_id|apply continuous_const].
    + apply (continuous_comp (fun z => z - c) Rabs); [|apply continuous_Rabs].
      apply (continuous_minus (fun z => z) (fun _ => c)); [apply continuous_id|apply continuous_const].
Qed.
Lemma eint_ramp c : eint (ramp c).
Proof. apply eint_continuity. apply ramp_cont. Qed.
Definition moment_at (T : nat -> R) (g : compound) (c : R) : R :=
  lsum (map (fun s => T (sf_law s) * sfield (ramp c) s) (cg_surf g))
  + lsum (map (fun b => T (br_law b) * (br_area b * (br_z b - c))) (cg_bars g)).
