(** Model of section objects as such: identity, name and stored gross properties,
    core/base.py:315-338 and sections/_generic.py:47-95. *)
From Coq Require Import String DecimalString.
From Verif Require Import Base M_Fiber M_MarinInt M_Section M_Gross.

(** core/base.py:315 and sections/_generic.py:29: a class given by the path to it from Section: [] is Section
    itself, [k :: p] the k-th subclass of p (single inheritance). *)
Definition cls := list nat.
(** sections/_generic.py:29: GenericSection, a direct subclass of Section. *)
Definition generic_section : cls := [0%nat].
(** core/base.py:320-338: the entry section_counter in the dictionary of each class, if the class has one of its own. *)
Definition counters := cls -> option nat.
(** core/base.py:321: only Section has the entry at first, 0. *)
Definition counters0 : counters := fun c => match c with [] => Some 0%nat | _ => None end.
(** core/base.py:325: reading [self.section_counter] looks in the class and then in its parents. *)
Fixpoint read_counter (s : counters) (c : cls) : nat :=
  match s c with
  | Some n => n
  | None => match c with [] => 0%nat | _ :: p => read_counter s p end
  end.
(** core/base.py:334-337: [cls.section_counter += 1] writes into the class it is called on. *)
Definition write_counter (s : counters) (c : cls) (n : nat) : counters :=
  fun d => if list_eq_dec Nat.eq_dec d c then Some n else s d.
(** core/base.py:323-327 Section.__init__, the id. *)
Definition new_id (c : cls) (s : counters) : nat * counters :=
  let i := read_counter s c in (i, write_counter s c (S (read_counter s c))).
(** core/base.py:326: the name. *)
Definition section_name (name : option string) (i : nat) : string :=
  match name with Some x => x | None => ("Section_" ++ NilEmpty.string_of_uint (Nat.to_uint i))%string end.
(** sections/_generic.py:71-73: the name GenericSection passes on. *)
Definition generic_name (name : option string) : option string := Some (match name with Some x => x | None => "GenericSection"%string end).
(** core/base.py:323-327: several sections created one after another. *)
Fixpoint new_ids (cs : list cls) (s : counters) : list nat :=
  match cs with [] => [] | c :: r => fst (new_id c s) :: new_ids r (snd (new_id c s)) end.

(** sections/_generic.py:81-85: what gross_properties reads and writes of a section. *)
Record stored := { so_geo : compound; so_gross : option gross }.
(** sections/_generic.py:77-85, after construction. *)
Definition stored_new (g : compound) : stored := {| so_geo := g; so_gross := None |}.
(** sections/_generic.py:87-95; [calc] stands for _calculate_gross_section_properties. The
    second result tells whether it was called. *)
Definition read_gross (calc : compound -> result gross) (s : stored) : (result gross * bool) * stored :=
  match so_gross s with
  | Some r => ((Ok r, false), s)
  | None => match calc (so_geo s) with
            | Ok r => ((Ok r, true), {| so_geo := so_geo s; so_gross := Some r |})
            | Err e => ((Err e, true), s)
            end
  end.
(** sections/_generic.py:81: assigning another geometry to the attribute. *)
Definition set_geometry (g : compound) (s : stored) : stored := {| so_geo := g; so_gross := so_gross s |}.
(** sections/_generic.py:87-95: the property read n times. *)
Fixpoint reads (calc : compound -> result gross) (n : nat) (s : stored) : list (result gross * bool) * stored :=
  match n with
  | O => ([], s)
  | S k => let (x, s1) := read_gross calc s in let (l, s2) := reads calc k s1 in (x :: l, s2)
  end.
