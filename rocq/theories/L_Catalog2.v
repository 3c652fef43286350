(** Checks of the whole tables. *)
From Coq Require Import String Ascii DecimalString Lra Lia Machin Ratan.
From Verif Require Import Base M_ProfileTable M_Catalog S_Catalog L_Catalog.
Open Scope R_scope.
Open Scope list_scope.

Lemma pi_bounds : 314 / 100 <= PI <= 3143 / 1000.
Proof.
  pose proof (proj2 (PI_2_3_7_ineq 1)) as U. pose proof (proj1 (PI_2_3_7_ineq 1)) as Lw.
  cbn [Nat.mul Nat.add sum_f_R0] in U, Lw. unfold tg_alt, PI_2_3_7_tg, Ratan_seq in U, Lw. cbn [pow INR Nat.mul Nat.add] in U, Lw.
  field_simplify in U. field_simplify in Lw. split; lra.
Qed.

(** * Fillets and tips *)
Definition fitb (f : family) (row : list Z) : bool :=
  match f, row with
  | UPE, [h; b; tw; tf; r] => (0 <? tw) && (0 <? tf) && (0 <? r) && (2 * tf + 2 * r <=? h) && (tw + r <=? b)
  | IPN, [h; b; tw; tf; r1; r2; _] => (0 <? tw) && (0 <? r1) && (0 <? r2) && (2 * tw <? b) && (400 * r2 <=? 400 * tf - 14 * b) && (400 * tf + 14 * b - 28 * tw + 400 * r1 <=? 200 * h) && (4 * r1 <=? b - 2 * tw) && (4 * r2 <=? b)
  | UPN, [h; b; tw; tf; r1; r2; _] => (0 <? tw) && (0 <? r1) && (0 <? r2) && (2 * tw <? b) &&
      (if h <=? 3000 then (200 * r2 <=? 200 * tf - 8 * b) && (200 * tf + 8 * b - 16 * tw + 200 * r1 <=? 100 * h) && (2 * r1 <=? b - 2 * tw) && (2 * r2 <=? b)
       else (200 * r2 <=? 200 * tf - 5 * (b - tw)) && (200 * tf + 5 * (b - tw) + 200 * r1 <=? 100 * h) && (2 * r1 <=? b - tw) && (2 * r2 <=? b - tw))
  | Uf, [h; b; tw; tf; r1; r2] => (0 <? tw) && (0 <? r1) && (0 <? r2) && (2 * tw <? b) && (200 * r2 <=? 200 * tf - 8 * b) && (200 * tf + 8 * b - 16 * tw + 200 * r1 <=? 100 * h) && (2 * r1 <=? b - 2 * tw) && (2 * r2 <=? b)
  | (Lf | LI), [h; b; t; r1; r2] => (0 <? t) && (0 <? r1) && (0 <? r2) && (r2 <=? t) && (2 * t + 2 * r1 <=? h) && (2 * t + 2 * r1 <=? b)
  | (IPE | HE | HD | HP | UB | UBP | UC | Wf), [h; b; tw; tf; r] => (0 <? tw) && (0 <? tf) && (0 <? r) && (2 * tf + 2 * r <=? h) && (tw + 2 * r <=? b)
  | _, _ => false
  end%Z%bool.
Lemma all_fit f name row : In (name, row) (rows f) -> fitb f row = true.
Proof.
  assert (C : forallb (fun r => fitb f (snd r)) (rows f) = true) by (destruct f; vm_compute; reflexivity).
  intros I. rewrite forallb_forall in C. exact (C _ I).
Qed.
Ltac zr := repeat match goal with
  | H : andb _ _ = true |- _ => apply Bool.andb_true_iff in H; destruct H
  | H : (_ <? _)%Z = true |- _ => apply Z.ltb_lt, IZR_lt in H
  | H : (_ <=? _)%Z = true |- _ => apply Z.leb_le, IZR_le in H
  | H : (_ <=? _)%Z = false |- _ => apply Z.leb_gt, IZR_lt in H
  end; repeat (rewrite ?plus_IZR, ?mult_IZR, ?minus_IZR in *).
Lemma fit_spec f row : List.length row = List.length (keys f) -> fitb f row = true -> fits (shape_of f row).
Proof.
  intros L H. unfold fitb in H. unfold shape_of, dim_of, raw. destruct f; cbn [keys] in *; take_row row L; cbv beta iota in H; cbn; unfold tenths; zr; try (repeat split; lra).
  destruct (z <=? 3000)%Z eqn:E; zr; (match goal with |- context [Rleb ?a ?b] => destruct (Rleb_spec a b) end); cbn [fits]; try (exfalso; lra); repeat split; lra.
Qed.

(** * Names *)
Fixpoint cut_x (s : string) : option (string * string) :=
  match s with
  | EmptyString => None
  | String c s' =>
      match cut_x s' with
      | Some (a, b) => Some (String c a, b)
      | None => if Ascii.eqb c "x"%char then Some (EmptyString, s') else None
      end
  end.
Fixpoint cut_dot (s : string) : string * option string :=
  match s with
  | EmptyString => (EmptyString, None)
  | String c s' => if Ascii.eqb c "."%char then (EmptyString, Some s') else let '(a, b) := cut_dot s' in (String c a, b)
  end.
Fixpoint drop_hash (s : string) : string :=
  match s with EmptyString => EmptyString | String c s' => if Ascii.eqb c "#"%char then drop_hash s' else String c (drop_hash s') end.
Definition whole (s : string) : option Z := option_map Z.of_int (NilZero.int_of_string s).
(** Tenths shown by a string, checked by showing them again. *)
Definition read_tenths (s : string) : option Z :=
  match cut_dot s with
  | (a, None) => match whole a with Some z => if String.eqb s (numeral z) then Some (10 * z)%Z else None | None => None end
  | (a, Some b) => match whole a, whole b with
                   | Some z, Some d => if ((0 <=? d)%Z && (d <=? 9)%Z && String.eqb s (numeral z ++ "." ++ numeral d)%string)%bool then Some (10 * z + d)%Z else None
                   | _, _ => None end
  end.
Lemma read_tenths_spec s t : read_tenths s = Some t -> shown s (tenths t).
Proof.
  unfold read_tenths, shown, tenths. destruct (cut_dot s) as [a [b|]].
  - destruct (whole a) as [z|]; [|discriminate]. destruct (whole b) as [d|]; [|discriminate].
    destruct (_ && _)%bool eqn:C; [|discriminate]. apply Bool.andb_true_iff in C. destruct C as [C1 C2]. apply Bool.andb_true_iff in C1. destruct C1 as [C0 C1].
    apply Z.leb_le in C0. apply Z.leb_le in C1. apply String.eqb_eq in C2. intros E. assert (ET : t = (10 * z + d)%Z) by congruence. rewrite ET. exists z. right. exists d. split; [lia|]. split; [exact C2|]. field.
  - destruct (whole a) as [z|]; [|discriminate]. destruct (String.eqb s (numeral z)) eqn:C; [|discriminate]. apply String.eqb_eq in C.
    intros E. assert (ET : t = (10 * z)%Z) by congruence. rewrite ET. exists z. left. split; [exact C|]. rewrite mult_IZR. field.
Qed.
Definition heightb (p : string) (r : string * list Z) : bool :=
  match snd r with h :: _ => (Z.eqb (10 * (h / 10)) h && String.eqb (fst r) (p ++ numeral (h / 10))%string)%bool | [] => false end.
Lemma heights f p name row : by_number f = Some p -> In (name, row) (rows f) -> heightb p (name, row) = true.
Proof.
  intros P. assert (C : forallb (heightb p) (rows f) = true).
  { destruct f; cbn [by_number] in P; try discriminate; injection P as <-; vm_compute; reflexivity. }
  intros I. rewrite forallb_forall in C. exact (C _ I).
Qed.
Definition angleb (r : string * list Z) : bool :=
  match snd r with
  | h :: b :: t :: _ =>
      match cut_x (fst r) with
      | Some (hb, st) => match cut_x hb with
                         | Some (String l sh, sb) =>
                             (String.eqb (fst r) ("L" ++ sh ++ "x" ++ sb ++ "x" ++ st)%string &&
                              match read_tenths sh, read_tenths sb, read_tenths st with Some x, Some y, Some z => Z.eqb x h && Z.eqb y b && Z.eqb z t | _, _, _ => false end)%bool
                         | _ => false end
      | None => false
      end
  | _ => false
  end.
Lemma angles f name row : f = Lf \/ f = LI -> In (name, row) (rows f) -> angleb (name, row) = true.
Proof.
  intros P. assert (C : forallb angleb (rows f) = true) by (destruct P as [-> | ->]; vm_compute; reflexivity).
  intros I. rewrite forallb_forall in C. exact (C _ I).
Qed.
Definition massb (r : string * list Z) : bool :=
  match snd r with
  | [h; b; tw; tf; q] =>
      match cut_x (fst r) with
      | Some (front, s) =>
          let digits := drop_hash s in
          ((String.eqb (fst r) (front ++ "x" ++ digits) || String.eqb (fst r) (front ++ "x" ++ digits ++ "#"))%string &&
           match read_tenths digits with
           | Some m => let A := (1000 * (2 * (b * tf) + (h - 2 * tf) * tw))%Z in
                       ((97 * m * 10 ^ 7 <=? 785 * (A + 857 * q ^ 2)) && (785 * (A + 860 * q ^ 2) <=? 103 * m * 10 ^ 7))%Z
           | None => false
           end)%bool
      | None => false
      end
  | _ => false
  end.
Lemma masses f name row : by_mass f -> In (name, row) (rows f) -> massb (name, row) = true.
Proof.
  intros P. assert (C : forallb massb (rows f) = true) by (unfold by_mass in P; cbn [In] in P; repeat (destruct P as [<-|P]; [vm_compute; reflexivity|]); destruct P).
  intros I. rewrite forallb_forall in C. exact (C _ I).
Qed.
