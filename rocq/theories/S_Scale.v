(** Independent specification: sections put together and sections drawn to another scale (C62). *)
From Verif Require Import Base S_Marin M_Laws M_Laws2 M_Fiber M_MarinInt M_Section S_MarinInt.

(** The surfaces and bars of both sections. *)
Definition joined (g1 g2 : compound) : compound := {| cg_surf := cg_surf g1 ++ cg_surf g2; cg_bars := cg_bars g1 ++ cg_bars g2 |}.
Definition plus3 (F G : R * R * R) : R * R * R :=
  (fst (fst F) + fst (fst G), snd (fst F) + snd (fst G), snd F + snd G).
(** The section drawn l times as large. *)
Definition larger (l : R) (p : R * R) : R * R := (l * fst p, l * snd p).
Definition larger_surface (l : R) (s : surface) : surface :=
  {| sf_ext := map (larger l) (sf_ext s); sf_ints := map (map (larger l)) (sf_ints s); sf_law := sf_law s |}.
Definition larger_bar (l : R) (b : bar) : bar :=
  {| br_y := l * br_y b; br_z := l * br_z b; br_area := l ^ 2 * br_area b; br_law := br_law b |}.
Definition larger_section (l : R) (g : compound) : compound :=
  {| cg_surf := map (larger_surface l) (cg_surf g); cg_bars := map (larger_bar l) (cg_bars g) |}.
(** The profile with the same strain in corresponding points; forces grow with the
    area, moments with area times length. *)
Definition flatter (l : R) (p : R * R * R) : R * R * R := let '(e, ky, kz) := p in (e, ky / l, kz / l).
Definition larger_forces (l : R) (F : R * R * R) : R * R * R := let '(N, My, Mz) := F in (l ^ 2 * N, l ^ 3 * My, l ^ 3 * Mz).
Definition larger_matrix (l : R) (K K' : nat -> nat -> R) : Prop :=
  let u i := match i with 0%nat => 1 | _ => l end in
  forall i j, (i < 3)%nat -> (j < 3)%nat -> K' i j = l ^ 2 * u i * u j * K i j.
(** The mesher draws the triangles l times as large, too. *)
Definition mesher_scales (mesher : surface -> R -> list mtri) (l : R) (g : compound) : Prop := forall s m, In s (cg_surf g) ->
  mesher (larger_surface l s) (l ^ 2 * m) = map (fun t => let '(p, q, r) := t in (larger l p, larger l q, larger l r)) (mesher s m).
(** Each material has as many bars as any other. *)
Definition equal_groups (g : compound) : Prop := forall b b', In b (cg_bars g) -> In b' (cg_bars g) ->
  count_law (br_law b) (cg_bars g) = count_law (br_law b') (cg_bars g).
(** Closed outlines, and laws that follow the curves [fs] under the profile p. *)
Definition outlined (g : compound) : Prop := forall s, In s (cg_surf g) -> closed (sf_ext s) /\ (forall q, In q (sf_ints s) -> closed q).
Definition described_at (what : integrand) (laws : nat -> law) (fs : nat -> R -> R) (g : compound) (p : R * R * R) : Prop :=
  let '(e, ky, kz) := p in let r := sqrt (kz ^ 2 + ky ^ 2) in
  forall s, In s (cg_surf g) -> field_of (ask what (laws (sf_law s)) (e, r)) (fs (sf_law s)) e r.
