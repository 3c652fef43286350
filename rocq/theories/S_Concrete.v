(** Independent specification for the concrete materials. *)
From Coq Require Import String.
From Verif Require Import Base M_Registry M_Reinf S_Laws S_Calc M_Concrete.
Open Scope R_scope.
Open Scope list_scope.

(** The value of an attribute: the magnitude of the user's value, else the default. *)
Definition chosen (a : option R) (d v : R) : Prop := v = match a with Some x => Rabs x | None => d end.
(** The same for attributes kept with their sign. *)
Definition kept (a : option R) (d v : R) : Prop := v = match a with Some x => x | None => d end.
(** Factors: 0 counts as not given. *)
Definition factor_or (a : option R) (d v : R) : Prop := (a = None /\ v = d) \/ (exists x, a = Some x /\ x <> 0 /\ v = x) \/ (a = Some 0 /\ v = d).
Definition dev_classes : list string := ["CS"; "CN"; "CR"; "SLOW"; "NORMAL"; "RAPID"]%string.
(** Parameters the constructors take. *)
Definition acceptable (c : mclass) (fck : R) (a : cargs) : Prop :=
  (forall f, a_fcm a = Some f -> Rabs fck < Rabs f) /\ (forall k, a_k a = Some k -> 0 <= k) /\ (forall n, a_n a = Some n -> 0 <= n) /\
  (c = ClsEC2_2023 -> (exists w, In w dev_classes /\ written w (a_dev a)) /\ forall g, a_gamma_c a = Some g -> 0 < g).
(** All options left out. *)
Definition plain : cargs := {| a_gamma_c := None; a_alpha_cc := None; a_kE := 9500; a_dev := "CN";
  a_fcm := None; a_fctm := None; a_ft_lo := None; a_ft_hi := None; a_Em := None; a_Gf := None;
  a_eps_c1 := None; a_eps_cu1 := None; a_k := None; a_eps_c2 := None; a_eps_cu2 := None; a_n := None; a_eps_c3 := None; a_eps_cu3 := None |}.
(** The options with every magnitude negated. *)
Definition negated (a : cargs) : cargs := let m := option_map Ropp in
  {| a_gamma_c := a_gamma_c a; a_alpha_cc := a_alpha_cc a; a_kE := a_kE a; a_dev := a_dev a;
     a_fcm := m (a_fcm a); a_fctm := m (a_fctm a); a_ft_lo := m (a_ft_lo a); a_ft_hi := m (a_ft_hi a); a_Em := m (a_Em a); a_Gf := m (a_Gf a);
     a_eps_c1 := m (a_eps_c1 a); a_eps_cu1 := m (a_eps_cu1 a); a_k := a_k a; a_eps_c2 := m (a_eps_c2 a); a_eps_cu2 := m (a_eps_cu2 a); a_n := a_n a;
     a_eps_c3 := m (a_eps_c3 a); a_eps_cu3 := m (a_eps_cu3 a) |}.
(** A compressive law: no tension, nothing beyond the ultimate strain eu, never beyond -f, and -f on [e0, eu]. *)
Definition plateau (f e0 eu : R) (s : R -> R) : Prop := forall e,
  - f <= s e <= 0 /\ (0 < e -> far (- eu) e -> s e = 0) /\ (e < - eu -> far (- eu) e -> s e = 0) /\ (settled (- eu, 100) e -> - eu <= e <= - e0 -> s e = - f).
