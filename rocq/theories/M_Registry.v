(** Model of the library's global state and its factories:
    codes/__init__.py, materials/concrete/__init__.py,
    materials/reinforcement/__init__.py, materials/constitutive_laws/__init__.py
    and sections/section_integrators/_factory.py.
    Strings are byte strings; str.lower is modelled on ASCII letters only. *)
From Coq Require Import String Ascii.
From Verif Require Import Base.
Open Scope string_scope.

(** Python's str.lower on one ASCII character (codes/__init__.py:49-51, 82; sections/section_integrators/_factory.py:33-38). *)
Definition lower_char (c : ascii) : ascii :=
  let n := nat_of_ascii c in
  if andb (Nat.leb 65 n) (Nat.leb n 90) then ascii_of_nat (n + 32) else c.
(** The same on a string (codes/__init__.py:49-51, 82;
    sections/section_integrators/_factory.py:33-38). *)
Fixpoint lower (s : string) : string :=
  match s with EmptyString => EmptyString | String c s' => String (lower_char c) (lower s') end.

(** Python's dict.get and [in] on string keys (codes/__init__.py:49-51; materials/concrete/__init__.py:75). *)
Fixpoint dict_get {A} (d : list (string * A)) (k : string) : option A :=
  match d with
  | [] => None
  | (k', v) :: d' => if String.eqb k k' then Some v else dict_get d' k
  end.

(** codes/__init__.py:52-55: a module, seen through the three attributes the library looks at. *)
Record pymodule := { md_title : option string; md_year : option string; md_materials : option (list string) }.
(** codes/mc2010/__init__.py:207-209. *)
Definition mc2010 := {| md_title := Some "fib Model Code 2010"; md_year := Some "2013";
                        md_materials := Some ["concrete"; "reinforcement"] |}.
(** codes/mc2020/__init__.py:5-7. *)
Definition mc2020 := {| md_title := Some "fib Model Code 2020"; md_year := Some "2024";
                        md_materials := Some ["concrete"; "reinforcement"] |}.
(** codes/ec2_2004/__init__.py:183-185. *)
Definition ec2_2004 := {| md_title := Some "EUROCODE 2 1992-1-1:2004"; md_year := Some "2004";
                          md_materials := Some ["concrete"; "reinforcement"] |}.
(** codes/ec2_2023/__init__.py:102-104. *)
Definition ec2_2023 := {| md_title := Some "EUROCODE 2 1992-1-1:2023"; md_year := Some "2023";
                          md_materials := Some ["concrete"; "reinforcement"] |}.
(** codes/__init__.py:25-30. *)
Definition design_codes : list (string * pymodule) :=
  [("mc2010", mc2010); ("mc2020", mc2020); ("ec2_2004", ec2_2004); ("ec2_2023", ec2_2023)].

(** codes/__init__.py:33-35, 45-58: what a caller may pass as design_code. *)
Inductive code_arg := ANone | AStr (s : string) | AMod (m : pymodule) | AOther.

(** sections/section_integrators/_factory.py:5-9: the integrator classes. *)
Inductive integrator := Marin | Fiber.

(** Global state: codes/__init__.py:18-22 (_CODE, _NATIONAL_ANNEX) and
    sections/section_integrators/_factory.py:18-20 (the factory's instances dict). *)
Record gstate := { g_code : option pymodule; g_annex : option string; g_inst : list (string * integrator) }.
(** codes/__init__.py:18-22 and sections/section_integrators/_factory.py:19: the
    state after import. *)
Definition g_initial : gstate := {| g_code := None; g_annex := None; g_inst := [] |}.
(** codes/__init__.py:48, 51, 57: the assignment to _CODE. *)
Definition with_code (c : option pymodule) (s : gstate) : gstate :=
  {| g_code := c; g_annex := g_annex s; g_inst := g_inst s |}.

(** codes/__init__.py:33-63 set_design_code. *)
Definition set_design_code (a : code_arg) (s : gstate) : result unit * gstate :=
  match a with
  | ANone => (Ok tt, with_code None s)
  | AStr n => match dict_get design_codes (lower n) with
              | Some m => (Ok tt, with_code (Some m) s)
              | None => (Err ValueError, s)
              end
  | AMod m => match md_title m, md_year m, md_materials m with
              | Some _, Some _, Some _ => (Ok tt, with_code (Some m) s)
              | _, _, _ => (Err ValueError, s)
              end
  | AOther => (Err ValueError, s)
  end.
(** codes/__init__.py:66-68 get_design_codes. *)
Definition get_design_codes : list string := map fst design_codes.
(** codes/__init__.py:71-82 set_national_annex. *)
Definition set_national_annex (n : string) (s : gstate) : result unit * gstate :=
  (Ok tt, {| g_code := g_code s; g_annex := Some (lower n); g_inst := g_inst s |}).
(** codes/__init__.py:85-102 _use_design_code. *)
Definition use_design_code (a : code_arg) (s : gstate) : result (option pymodule) * gstate :=
  match a with
  | ANone => (Ok (g_code s), s)
  | _ => match set_design_code a s with
         | (Ok _, s') => (Ok (g_code s'), s')
         | (Err x, s') => (Err x, s')
         end
  end.

(** materials/concrete/__init__.py:20-24: the material classes of the factories, by code. *)
Inductive mclass := ClsMC2010 | ClsEC2_2004 | ClsEC2_2023.
(** materials/concrete/__init__.py:20-24 and materials/reinforcement/__init__.py:20-24. *)
Definition classes : list (string * mclass) :=
  [("fib Model Code 2010", ClsMC2010); ("EUROCODE 2 1992-1-1:2004", ClsEC2_2004); ("EUROCODE 2 1992-1-1:2023", ClsEC2_2023)].

(** materials/concrete/__init__.py:27-85 create_concrete (kind "concrete") and
    materials/reinforcement/__init__.py:27-90 create_reinforcement (kind
    "reinforcement"); [build] is the constructor call of the chosen class with
    the caller's arguments.  A module without __materials__ or __title__ gives
    AttributeError. [Ok None] is Python's None. *)
Definition create {A} (kind : string) (build : mclass -> result A) (a : code_arg) (s : gstate)
  : result (option A) * gstate :=
  match use_design_code a s with
  | (Err x, s') => (Err x, s')
  | (Ok None, s') => (Err ValueError, s')
  | (Ok (Some m), s') =>
      (match md_materials m with
       | None => Err AttributeError
       | Some ms =>
           if existsb (String.eqb kind) ms then
             match md_title m with
             | None => Err AttributeError
             | Some t => match dict_get classes t with
                         | Some c => do o <- build c; Ok (Some o)
                         | None => Ok None
                         end
             end
           else Err ValueError
       end, s')
  end.

(** materials/constitutive_laws/__init__.py:30-39: the constitutive-law classes. *)
Inductive lclass := CElastic | CElasticPlastic | CBilinear | CParabola | CPopovics | CSargin | CInitialStrain.
(** materials/constitutive_laws/__init__.py:30-39. *)
Definition constitutive_laws : list (string * lclass) :=
  [("elastic", CElastic); ("elasticplastic", CElasticPlastic); ("elasticperfectlyplastic", CElasticPlastic);
   ("bilinearcompression", CBilinear); ("parabolarectangle", CParabola); ("popovics", CPopovics);
   ("sargin", CSargin); ("initialstrain", CInitialStrain)].
(** materials/constitutive_laws/__init__.py:47-90.  [methods] gives the special
    methods of the material object (None: no such method), [build] the class
    constructor. *)
Definition create_law {K A} (methods : string -> option (result K)) (build : lclass -> K -> result A)
  (name : string) : result A :=
  match dict_get constitutive_laws (lower name) with
  | Some c => match methods ("__" ++ name ++ "__") with
              | Some k => do kwargs <- k; build c kwargs
              | None => Err ValueError
              end
  | None => Err ValueError
  end.

(** sections/section_integrators/_factory.py:9. *)
Definition integrator_registry : list (string * integrator) := [("marin", Marin); ("fiber", Fiber)].
(** sections/section_integrators/_factory.py:22-38 __call__: setdefault then get. *)
Definition integrator_factory (method : string) (s : gstate) : result integrator * gstate :=
  let k := lower method in
  let s' := match dict_get (g_inst s) k with
            | Some _ => s
            | None => {| g_code := g_code s; g_annex := g_annex s;
                         g_inst := g_inst s ++ [(k, match dict_get integrator_registry k with
                                                    | Some c => c | None => Marin end)] |}
            end in
  (match dict_get (g_inst s') k with Some c => Ok c | None => Err KeyError end, s').

(** The public calls of codes/__init__.py:33-82, materials/concrete/__init__.py:27, materials/reinforcement/__init__.py:27 and sections/section_integrators/_factory.py:22; [build] decides whether the constructor raises. *)
Inductive call :=
| CallSetCode (a : code_arg)
| CallSetAnnex (n : string)
| CallGetCodes
| CallConcrete (a : code_arg) (build : mclass -> result unit)
| CallReinforcement (a : code_arg) (build : mclass -> result unit)
| CallIntegrator (n : string).
(** The effect of one call on the global state (codes/__init__.py:33-102 and the factories cited above). *)
Definition step (c : call) (s : gstate) : gstate :=
  match c with
  | CallSetCode a => snd (set_design_code a s)
  | CallSetAnnex n => snd (set_national_annex n s)
  | CallGetCodes => s
  | CallConcrete a b => snd (create "concrete" b a s)
  | CallReinforcement a b => snd (create "reinforcement" b a s)
  | CallIntegrator n => snd (integrator_factory n s)
  end.
(** A history of calls, in order (codes/__init__.py:33-102 and the factories cited above). *)
(** codes/__init__.py:33-102: a program making one call after another. *)
Definition run (h : list call) (s : gstate) : gstate := fold_left (fun s c => step c s) h s.
