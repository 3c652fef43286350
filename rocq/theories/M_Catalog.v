(** Model of the catalogue of steel profiles (geometry/profiles): look-up of a name, the class tables that [get_polygon] changes, and
    the dimensions handed to the functions that draw the outlines.  A profile's table entry is a Python dict, an association list in
    insertion order; [parameters.get(key)] of a missing key (None, on which arithmetic raises TypeError) is a TypeError here. *)
From Coq Require Import String DecimalString.
From Verif Require Import Base M_ProfileTable.
Open Scope R_scope.
Open Scope list_scope.

(** geometry/profiles/__init__.py:1-33: the classes of profiles. *)
Inductive family := IPE | HE | HD | HP | UB | UBP | UC | Wf | UPE | IPN | UPN | Uf | Lf | LI.
(** A profile is asked for by a string or by a number; of a number only [int(name)] matters (geometry/profiles/_ipe.py:43-44). *)
Inductive pyname := Text (s : string) | Number (z : Z).
(** An entry of the class attribute [parameters] (geometry/profiles/_ipe.py:19-38). *)
Definition dict : Type := list (string * R).
(** dict.get / dict[key] (geometry/profiles/_ipe.py:45, 69-73). *)
Fixpoint dget {A} (k : string) (d : list (string * A)) : option A :=
  match d with [] => None | (k', v) :: d' => if String.eqb k k' then Some v else dget k d' end.
(** dict[key] = value (geometry/profiles/_upn.py:201-205): in place, or a new last entry. *)
Fixpoint dset {A} (k : string) (v : A) (d : list (string * A)) : list (string * A) :=
  match d with [] => [(k, v)] | (k', v') :: d' => if String.eqb k k' then (k', v) :: d' else (k', v') :: dset k v d' end.
(** The five class tables' keys: geometry/profiles/_ipe.py:20, _upe.py:20, _ipn.py:22-30, _u.py:24-31, _l.py:21. *)
Definition keys (f : family) : list string :=
  match f with
  | IPE | HE | HD | HP | UB | UBP | UC | Wf | UPE => ["h"; "b"; "tw"; "tf"; "r"]
  | IPN | UPN => ["h"; "b"; "tw"; "tf"; "r1"; "r2"; "d"]
  | Uf => ["h"; "b"; "tw"; "tf"; "r1"; "r2"]
  | Lf | LI => ["h"; "b"; "t"; "r1"; "r2"]
  end%string.
(** geometry/profiles/_ipe.py:19, _he.py:19, _hd.py:19, _hp.py:19, _ub.py:19, _ubp.py:19, _uc.py:19, _w.py:24, _upe.py:19,
    _ipn.py:21, _upn.py:23, _u.py:23, _l.py:20, _li.py:20: the class attribute [parameters]. *)
Definition rows (f : family) : list (string * list Z) :=
  match f with
  | IPE => rows_IPE | HE => rows_HE | HD => rows_HD | HP => rows_HP | UB => rows_UB | UBP => rows_UBP | UC => rows_UC | Wf => rows_W
  | UPE => rows_UPE | IPN => rows_IPN | UPN => rows_UPN | Uf => rows_U | Lf => rows_L | LI => rows_LI
  end.
(** Tenths of a millimetre (the literals of the tables, e.g. geometry/profiles/_ipe.py:20). *)
Definition tenths (z : Z) : R := IZR z / 10.
(** The class attributes of all classes: process-wide state (geometry/profiles/_ipe.py:19). *)
Definition tables : Type := family -> list (string * dict).
(** geometry/profiles/_ipe.py:19-38 and the other tables: the state after import. *)
Definition imported : tables := fun f => map (fun r => (fst r, combine (keys f) (map tenths (snd r)))) (rows f).
(** Decidable equality of classes (bookkeeping for the table that is written, geometry/profiles/_upn.py:201). *)
Definition same_family (f g : family) : bool :=
  match f, g with
  | IPE, IPE | HE, HE | HD, HD | HP, HP | UB, UB | UBP, UBP | UC, UC | Wf, Wf | UPE, UPE | IPN, IPN | UPN, UPN | Uf, Uf | Lf, Lf | LI, LI => true
  | _, _ => false
  end.
(** geometry/profiles/_upn.py:201-205: the entry is changed in place, in the class attribute. *)
Definition store (t : tables) (f : family) (name : string) (d : dict) : tables :=
  fun g => if same_family f g then dset name d (t f) else t g.

(** geometry/profiles/_ipe.py:43-44, 61-62; _ipn.py:216-217; _upn.py:191-192; _upe.py:39-40: a number stands for a name in four of the
    classes; elsewhere it is looked up as it is and found in no table. *)
Definition key_of (f : family) (n : pyname) : option string :=
  match n with
  | Text s => Some s
  | Number z =>
      let digits := NilZero.string_of_int (Z.to_int z) in
      match f with
      | IPE => Some ("IPE" ++ digits) | IPN => Some ("IPN" ++ digits) | UPN => Some ("UPN" ++ digits) | UPE => Some ("UPE" ++ digits)
      | _ => None
      end
  end%string.
(** geometry/profiles/_ipe.py:45-51, 63-69: a missing profile raises ValueError. *)
Definition find (f : family) (n : pyname) (t : tables) : result (string * dict) :=
  match key_of f n with
  | None => Err ValueError
  | Some k => match dget k (t f) with Some d => Ok (k, d) | None => Err ValueError end
  end.

(** The calls that draw an outline, with their arguments (geometry/profiles/_common_functions.py:19, 80-88, 147-156, 207-213, 267-269). *)
Inductive shape :=
| ShI (h b tw tf r : R)
| ShTaperI (h b tw tf r1 r2 slope : R)
| ShTaperU (h b tw tf r1 r2 slope u : R)
| ShParallelU (h b tw tf r : R)
| ShL (h b t1 t2 r1 r2 : R).
(** A named argument (geometry/profiles/_ipe.py:52): missing, TypeError. *)
Definition karg (d : dict) (k : string) : result R := match dget k d with Some v => Ok v | None => Err TypeError end.
(** Only the keys of the list are passed on (geometry/profiles/_ipn.py:226-231). *)
Definition only (l : list string) (d : dict) : dict := filter (fun e => existsb (String.eqb (fst e)) l) d.
(** An argument the function does not have: TypeError (geometry/profiles/_ipe.py:52). *)
Definition unknown (l : list string) (d : dict) : bool := existsb (fun e => negb (existsb (String.eqb (fst e)) l)) d.
(** geometry/profiles/_common_functions.py:19 [_create_I_section( **parameters)]. *)
Definition call_I (d : dict) : result shape :=
  if unknown ["h"; "b"; "tw"; "tf"; "r"]%string d then Err TypeError
  else do h <- karg d "h"; do b <- karg d "b"; do tw <- karg d "tw"; do tf <- karg d "tf"; do r <- karg d "r"; Ok (ShI h b tw tf r).
(** geometry/profiles/_common_functions.py:207-213 [_create_parallel_U_section( **parameters)]. *)
Definition call_parallel_U (d : dict) : result shape :=
  if unknown ["h"; "b"; "tw"; "tf"; "r"]%string d then Err TypeError
  else do h <- karg d "h"; do b <- karg d "b"; do tw <- karg d "tw"; do tf <- karg d "tf"; do r <- karg d "r"; Ok (ShParallelU h b tw tf r).
(** geometry/profiles/_common_functions.py:80-88 [_create_taper_I_section]. *)
Definition call_taper_I (d : dict) : result shape :=
  if unknown ["h"; "b"; "tw"; "tf"; "r1"; "r2"; "slope"]%string d then Err TypeError
  else do h <- karg d "h"; do b <- karg d "b"; do tw <- karg d "tw"; do tf <- karg d "tf"; do r1 <- karg d "r1"; do r2 <- karg d "r2";
       do s <- karg d "slope"; Ok (ShTaperI h b tw tf r1 r2 s).
(** geometry/profiles/_common_functions.py:147-156 [_create_taper_U_section]. *)
Definition call_taper_U (d : dict) : result shape :=
  if unknown ["h"; "b"; "tw"; "tf"; "r1"; "r2"; "slope"; "u"]%string d then Err TypeError
  else do h <- karg d "h"; do b <- karg d "b"; do tw <- karg d "tw"; do tf <- karg d "tf"; do r1 <- karg d "r1"; do r2 <- karg d "r2";
       do s <- karg d "slope"; do u <- karg d "u"; Ok (ShTaperU h b tw tf r1 r2 s u).
(** geometry/profiles/_common_functions.py:267-269 [_create_L_section]. *)
Definition call_L (d : dict) : result shape :=
  if unknown ["h"; "b"; "t1"; "t2"; "r1"; "r2"]%string d then Err TypeError
  else do h <- karg d "h"; do b <- karg d "b"; do t1 <- karg d "t1"; do t2 <- karg d "t2"; do r1 <- karg d "r1"; do r2 <- karg d "r2";
       Ok (ShL h b t1 t2 r1 r2).

(** What [get_polygon] writes into the entry before it uses it: geometry/profiles/_ipn.py:225, _upn.py:200-205, _u.py:68-69, _l.py:437-438,
    _li.py:126-127.  A missing key raises KeyError. *)
Definition item (d : dict) (k : string) : result R := match dget k d with Some v => Ok v | None => Err KeyError end.
(** geometry/profiles/_ipn.py:225, _upn.py:200-205, _u.py:68-69, _l.py:437-438, _li.py:126-127. *)
Definition completed (f : family) (d : dict) : result dict :=
  match f with
  | IPN => Ok (dset "slope" (14 / 100) d)
  | UPN =>
      do h <- item d "h";
      if Rleb h 300 then do b <- item d "b"; Ok (dset "u" (b / 2) (dset "slope" (8 / 100) d))
      else do b <- item d "b"; do tw <- item d "tw"; Ok (dset "u" ((b - tw) / 2) (dset "slope" (5 / 100) d))
  | Uf => do b <- item d "b"; Ok (dset "u" (b / 2) (dset "slope" (8 / 100) d))
  | Lf | LI => do x <- item d "t"; Ok (dset "t2" x (dset "t1" x d))
  | _ => Ok d
  end%string.
(** geometry/profiles/_ipe.py:52, _upe.py:48, _ipn.py:226-232, _upn.py:206-212, _u.py:70-76, _l.py:439-445: the call made by [get_polygon]. *)
Definition drawn (f : family) (d : dict) : result shape :=
  match f with
  | IPN => call_taper_I (only ["h"; "b"; "tw"; "tf"; "r1"; "r2"; "slope"] d)
  | UPN | Uf => call_taper_U (only ["h"; "b"; "tw"; "tf"; "r1"; "r2"; "slope"; "u"] d)
  | Lf | LI => call_L (only ["h"; "b"; "t1"; "t2"; "r1"; "r2"] d)
  | UPE => call_parallel_U d
  | _ => call_I d
  end%string.
(** The class method [get_polygon] (geometry/profiles/_ipe.py:40-52 and the same lines of the other classes). *)
Definition get_polygon (f : family) (n : pyname) (t : tables) : result shape * tables :=
  match find f n t with
  | Err e => (Err e, t)
  | Ok (k, d) => match completed f d with
                 | Err e => (Err e, t)
                 | Ok d' => (drawn f d', match f with IPN | UPN | Uf | Lf | LI => store t f k d' | _ => t end)
                 end
  end.
(** A profile object: its public dimensions and its outline (geometry/profiles/_ipe.py:69-130). *)
Record steel := { st_dims : list (string * R); st_shape : shape }.
(** Reading the dimensions (geometry/profiles/_ipe.py:69-73). *)
Fixpoint dims (d : dict) (l : list string) : result (list (string * R)) :=
  match l with [] => Ok [] | k :: l' => do v <- karg d k; do r <- dims d l'; Ok ((k, v) :: r) end.
(** [__init__] (geometry/profiles/_ipe.py:59-76, _upe.py:55-79, _ipn.py:239-266, _upn.py:219-252, _u.py:83-110, _l.py:452-474, _li.py:141-163). *)
Definition create (f : family) (n : pyname) (t : tables) : result steel :=
  do kd <- find f n t;
  let d := snd kd in
  match f with
  | IPN =>
      do l <- dims d ["h"; "b"; "tw"; "tf"; "r1"; "r2"];
      do h <- karg d "h"; do b <- karg d "b"; do tw <- karg d "tw"; do tf <- karg d "tf"; do r1 <- karg d "r1"; do r2 <- karg d "r2";
      Ok {| st_dims := l; st_shape := ShTaperI h b tw tf r1 r2 (14 / 100) |}
  | UPN =>
      do l <- dims d ["h"; "b"; "tw"; "tf"; "r1"; "r2"];
      do h <- karg d "h"; do b <- karg d "b"; do tw <- karg d "tw"; do tf <- karg d "tf"; do r1 <- karg d "r1"; do r2 <- karg d "r2";
      Ok {| st_dims := l; st_shape := if Rleb h 300 then ShTaperU h b tw tf r1 r2 (8 / 100) (b / 2) else ShTaperU h b tw tf r1 r2 (5 / 100) ((b - tw) / 2) |}
  | Uf =>
      do l <- dims d ["h"; "b"; "tw"; "tf"; "r1"; "r2"];
      do h <- karg d "h"; do b <- karg d "b"; do tw <- karg d "tw"; do tf <- karg d "tf"; do r1 <- karg d "r1"; do r2 <- karg d "r2";
      Ok {| st_dims := l; st_shape := ShTaperU h b tw tf r1 r2 (8 / 100) (b / 2) |}
  | Lf | LI =>
      do l <- dims d ["h"; "b"; "t"; "r1"; "r2"];
      do h <- karg d "h"; do b <- karg d "b"; do x <- karg d "t"; do r1 <- karg d "r1"; do r2 <- karg d "r2";
      Ok {| st_dims := l; st_shape := ShL h b x x r1 r2 |}
  | UPE =>
      do l <- dims d ["h"; "b"; "tw"; "tf"; "r"];
      do h <- karg d "h"; do b <- karg d "b"; do tw <- karg d "tw"; do tf <- karg d "tf"; do r <- karg d "r";
      Ok {| st_dims := l; st_shape := ShParallelU h b tw tf r |}
  | _ =>
      do l <- dims d ["h"; "b"; "tw"; "tf"; "r"];
      do s <- call_I d; Ok {| st_dims := l; st_shape := s |}
  end%string.
(** The class method [profiles] (geometry/profiles/_ipe.py:54-57). *)
Definition profiles (f : family) (t : tables) : list string := map fst (t f).

(** The public operations, one after the other (geometry/profiles/_ipe.py:40-76). *)
Inductive request := Polygon (f : family) (n : pyname) | New (f : family) (n : pyname) | Names (f : family).
(** Their answers (geometry/profiles/_ipe.py:40-76). *)
Inductive answer := APolygon (r : result shape) | ANew (r : result steel) | ANames (l : list string).
(** One operation on the class tables (geometry/profiles/_ipe.py:40-76). *)
Definition ask (q : request) (t : tables) : answer * tables :=
  match q with
  | Polygon f n => let '(r, t') := get_polygon f n t in (APolygon r, t')
  | New f n => (ANew (create f n t), t)
  | Names f => (ANames (profiles f t), t)
  end.
(** A history of operations (geometry/profiles/_ipe.py:40-76). *)
Fixpoint after (l : list request) (t : tables) : tables := match l with [] => t | q :: l' => after l' (snd (ask q t)) end.
