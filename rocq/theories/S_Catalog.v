(** Independent specification of the catalogue of steel profiles. *)
From Coq Require Import String DecimalString.
From Verif Require Import Base M_ProfileTable M_Catalog.
Open Scope R_scope.
Open Scope list_scope.

(** The catalogue has a profile of this name; dimension [k] (a key of the table) of it is [v] millimetres. *)
Definition listed (f : family) (name : string) : Prop := exists row, In (name, row) (rows f).
Definition measure (f : family) (name k : string) (v : R) : Prop :=
  exists row i z, In (name, row) (rows f) /\ nth_error (keys f) i = Some k /\ nth_error row i = Some z /\ 10 * v = IZR z.
(** Decimal numerals of a whole number. *)
Definition numeral (z : Z) : string := NilZero.string_of_int (Z.to_int z).
(** The classes whose profiles can be asked for by number, and the letters that go before it. *)
Definition by_number (f : family) : option string :=
  match f with IPE => Some "IPE" | IPN => Some "IPN" | UPN => Some "UPN" | UPE => Some "UPE" | _ => None end%string.
Definition asked (f : family) (n : pyname) (name : string) : Prop :=
  n = Text name \/ exists z p, n = Number z /\ by_number f = Some p /\ name = (p ++ numeral z)%string.
(** Which outline belongs to a profile of the catalogue. *)
Definition drawing (f : family) (name : string) (s : shape) : Prop :=
  let m := measure f name in
  match f with
  | IPE | HE | HD | HP | UB | UBP | UC | Wf =>
      exists h b tw tf r, m "h" h /\ m "b" b /\ m "tw" tw /\ m "tf" tf /\ m "r" r /\ s = ShI h b tw tf r
  | UPE => exists h b tw tf r, m "h" h /\ m "b" b /\ m "tw" tw /\ m "tf" tf /\ m "r" r /\ s = ShParallelU h b tw tf r
  | IPN => exists h b tw tf r1 r2, m "h" h /\ m "b" b /\ m "tw" tw /\ m "tf" tf /\ m "r1" r1 /\ m "r2" r2 /\ s = ShTaperI h b tw tf r1 r2 (14 / 100)
  | Uf => exists h b tw tf r1 r2, m "h" h /\ m "b" b /\ m "tw" tw /\ m "tf" tf /\ m "r1" r1 /\ m "r2" r2 /\ s = ShTaperU h b tw tf r1 r2 (8 / 100) (b / 2)
  | UPN => exists h b tw tf r1 r2, m "h" h /\ m "b" b /\ m "tw" tw /\ m "tf" tf /\ m "r1" r1 /\ m "r2" r2 /\
      (h <= 300 -> s = ShTaperU h b tw tf r1 r2 (8 / 100) (b / 2)) /\ (300 < h -> s = ShTaperU h b tw tf r1 r2 (5 / 100) ((b - tw) / 2))
  | Lf | LI => exists h b t r1 r2, m "h" h /\ m "b" b /\ m "t" t /\ m "r1" r1 /\ m "r2" r2 /\ s = ShL h b t t r1 r2
  end%string.
(** Dimensions a profile can be rolled with: positive, flanges and fillets do not overlap, rounded tips are thick enough,
    fillets and roundings stay on their half of a leg or flange. *)
Definition fits (s : shape) : Prop :=
  match s with
  | ShI h b tw tf r => 0 < tw /\ 0 < tf /\ 0 < r /\ 2 * tf + 2 * r <= h /\ tw + 2 * r <= b
  | ShParallelU h b tw tf r => 0 < tw /\ 0 < tf /\ 0 < r /\ 2 * tf + 2 * r <= h /\ tw + r <= b
  | ShTaperI h b tw tf r1 r2 s => 0 < tw /\ 0 < r1 /\ 0 < r2 /\ 0 < s /\ 2 * tw < b /\ r2 <= tf - s * (b / 4) /\ tf + s * (b / 4 - tw / 2) + r1 <= h / 2 /\ r1 <= b / 4 - tw / 2 /\ r2 <= b / 4
  | ShTaperU h b tw tf r1 r2 s u => 0 < tw /\ 0 < r1 /\ 0 < r2 /\ 0 < s /\ 0 < u < b - tw /\ r2 <= tf - s * u /\ tf + s * (b - u - tw) + r1 <= h / 2 /\ r1 <= b - u - tw /\ r2 <= u
  | ShL h b t1 t2 r1 r2 => 0 < t1 /\ 0 < t2 /\ 0 < r1 /\ 0 < r2 <= t1 /\ r2 <= t2 /\ t1 + r1 <= h / 2 /\ t2 + r1 <= b / 2
  end.
(** Area of a section with two flanges, a web and four fillets. *)
Definition i_area (h b tw tf r : R) : R := 2 * (b * tf) + (h - 2 * tf) * tw + (4 - PI) * r ^ 2.
(** The classes whose names end with the mass of one metre in kilograms; how a name shows it. *)
Definition by_mass (f : family) : Prop := In f [HD; HP; UB; UBP; UC; Wf].
Definition shown (digits : string) (m : R) : Prop :=
  exists z, (digits = numeral z /\ m = IZR z) \/ (exists d, (0 <= d <= 9)%Z /\ digits = (numeral z ++ "." ++ numeral d)%string /\ 10 * m = IZR (10 * z + d)).
Definition mass_in_name (name : string) (m : R) : Prop :=
  exists front digits, shown digits m /\ (name = (front ++ "x" ++ digits)%string \/ name = (front ++ "x" ++ digits ++ "#")%string).
