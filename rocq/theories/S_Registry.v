(** Independent specification of the global selections. *)
From Coq Require Import String Ascii.
From Verif Require Import Base M_Registry.
Open Scope string_scope.
Open Scope list_scope.

(** Letters that differ at most in case (ASCII). *)
Definition same_letter (a b : ascii) : Prop :=
  a = b \/
  exists k, (k < 26)%nat /\
    ((a = ascii_of_nat (65 + k) /\ b = ascii_of_nat (97 + k)) \/
     (b = ascii_of_nat (65 + k) /\ a = ascii_of_nat (97 + k))).
Fixpoint same_name (s t : string) : Prop :=
  match s, t with
  | EmptyString, EmptyString => True
  | String a s', String b t' => same_letter a b /\ same_name s' t'
  | _, _ => False
  end.
Fixpoint no_capitals (s : string) : Prop :=
  match s with
  | EmptyString => True
  | String a s' => (forall k, (k < 26)%nat -> a <> ascii_of_nat (65 + k)) /\ no_capitals s'
  end.

(** What a set_design_code argument selects: [Some (Some m)] selects m,
    [Some None] resets, [None] is invalid.  The four abbreviations are written
    out; they match in any letter case. *)
Definition selects (a : code_arg) (v : option pymodule) : Prop :=
  match a with
  | ANone => v = None
  | AStr n => (same_name n "mc2010" /\ v = Some mc2010) \/ (same_name n "mc2020" /\ v = Some mc2020) \/
              (same_name n "ec2_2004" /\ v = Some ec2_2004) \/ (same_name n "ec2_2023" /\ v = Some ec2_2023)
  | AMod m => md_title m <> None /\ md_year m <> None /\ md_materials m <> None /\ v = Some m
  | AOther => False
  end.

(** A call that the user makes in order to select a code. *)
Definition selection (c : call) (v : option pymodule) : Prop :=
  match c with CallSetCode a => selects a v | _ => False end.
(** Factory call naming a code explicitly. *)
Definition names_code (c : call) : Prop :=
  match c with
  | CallConcrete a _ | CallReinforcement a _ => a <> ANone
  | _ => False
  end.
(** The value of the last selecting call in a history, [init] if there is none. *)
Definition last_selected (sel : call -> option pymodule -> Prop) (init : option pymodule) (h : list call) (v : option pymodule) : Prop :=
  (exists h1 c h2, h = h1 ++ c :: h2 /\ sel c v /\ forall c' w, In c' h2 -> ~ sel c' w) \/
  ((forall c' w, In c' h -> ~ sel c' w) /\ v = init).
(** Selections including those made by factories that name a code. *)
Definition any_selection (c : call) (v : option pymodule) : Prop :=
  match c with
  | CallSetCode a => selects a v
  | CallConcrete a _ | CallReinforcement a _ => a <> ANone /\ selects a v
  | _ => False
  end.
