(** Properties C01, C02, C03: area moments of polygons. *)
From Coquelicot Require Import Coquelicot.
From Verif Require Import Base M_Marin S_Marin L_Marin.

(** C01: for every vertex list and all exponents the routine returns the sum of
    the integrals of y^m z^n over the oriented fan triangles. *)
Theorem C01_marin_is_fan_integral : forall ring m n,
  ring_moment ring m n = Ok (fan_moment m n ring).
Proof. exact ring_moment_fan. Qed.
Print Assumptions C01_marin_is_fan_integral.

(** C01: for closed rings it is the Green boundary integral of
    y^(m+1)/(m+1) z^n dz. *)
Theorem C01_marin_is_green_integral : forall ring m n, closed ring ->
  ring_moment ring m n = Ok (green_moment m n ring).
Proof. exact (fun ring m n H => eq_trans (ring_moment_fan ring m n) (f_equal Ok (eq_sym (green_fan m n ring H)))). Qed.
Print Assumptions C01_marin_is_green_integral.

(** C01: on every trapezoid with two sides parallel to the y axis (affine other
    sides, any position) it is the genuine iterated area integral. *)
Theorem C01_marin_trapezoid : forall m n lo hi za zb, affine lo -> affine hi ->
  ring_moment (trapezoid_ring lo hi za zb) m n = Ok (trapezoid_integral m n lo hi za zb).
Proof. exact (fun m n lo hi za zb H1 H2 => eq_trans (ring_moment_fan _ m n) (f_equal Ok (trapezoid_moment m n lo hi za zb H1 H2))). Qed.
Print Assumptions C01_marin_trapezoid.

Theorem C01_area_is_shoelace : forall ring, ring_moment ring 0 0 = Ok (shoelace ring).
Proof. exact (fun ring => eq_trans (ring_moment_fan ring 0 0) (f_equal Ok (fan_area ring))). Qed.
Print Assumptions C01_area_is_shoelace.

(** C01: the only failure is a z sequence shorter than y. *)
Theorem C01_marin_rejects_exactly_short_z : forall y z m n,
  marin_integration y z m n = Err IndexError <-> (1 < length y /\ length z < length y)%nat.
Proof. exact marin_index_error. Qed.
Print Assumptions C01_marin_rejects_exactly_short_z.

Example C01_closed_example : closed [(0,0); (3,0); (1,2); (0,0)].
Proof. reflexivity. Qed.
Example C01_affine_example : affine (fun z => 1 + 2 * z).
Proof. exists 1, 2. reflexivity. Qed.
Example C01_triangle_value :
  ring_moment [(0,0); (3,0); (0,2); (0,0)] 0 0 = Ok 3.
Proof. rewrite C01_area_is_shoelace. unfold shoelace, cross. cbn. f_equal. unfold lsum; cbn. field. Qed.
Example C01_short_z_example : marin_integration [0; 1] [0] 0 0 = Err IndexError.
Proof. apply marin_index_error. cbn. lia. Qed.

(** C02: reversing the ring negates every moment. *)
Theorem C02_reverse : forall ring m n x,
  ring_moment ring m n = Ok x -> ring_moment (rev ring) m n = Ok (- x).
Proof. intros ring m n x; rewrite !ring_moment_fan, fan_rev; intros [= <-]; reflexivity. Qed.
Print Assumptions C02_reverse.

(** C02: the start vertex of a closed ring is irrelevant. *)
Theorem C02_start_vertex : forall p l1 q l2 m n,
  ring_moment (p :: l1 ++ q :: l2 ++ [p]) m n = ring_moment (q :: l2 ++ p :: l1 ++ [q]) m n.
Proof. intros; rewrite !ring_moment_fan, fan_shift; reflexivity. Qed.
Print Assumptions C02_start_vertex.

(** C02: cutting along the chord p-q gives two rings with additive moments. *)
Theorem C02_chord : forall p l1 q l2 m n x1 x2,
  ring_moment (p :: l1 ++ [q; p]) m n = Ok x1 ->
  ring_moment (q :: l2 ++ [p; q]) m n = Ok x2 ->
  ring_moment (p :: l1 ++ q :: l2 ++ [p]) m n = Ok (x1 + x2).
Proof. intros p l1 q l2 m n x1 x2; rewrite !ring_moment_fan, fan_chord; intros [= <-] [= <-]; reflexivity. Qed.
Print Assumptions C02_chord.

(** C02: effect of an arbitrary linear map (rotation, mirror, scaling, shear). *)
Theorem C02_linear_map : forall m n a b c d ring,
  ring_moment (map (lin a b c d) ring) m n =
  Ok ((a * d - b * c) *
  rsum (fun i => rsum (fun j =>
    C m i * a ^ i * b ^ (m - i) * (C n j * c ^ j * d ^ (n - j))
      * fan_moment (i + j) (m - i + (n - j)) ring) (n + 1)) (m + 1)).
Proof. intros; rewrite ring_moment_fan, fan_lin; reflexivity. Qed.
Print Assumptions C02_linear_map.

(** C02: effect of a translation of a closed ring (generalised Steiner). *)
Theorem C02_translation : forall m n u v ring, closed ring ->
  ring_moment (map (shift u v) ring) m n =
  Ok (rsum (fun i => rsum (fun j => C m i * u ^ (m - i) * (C n j * v ^ (n - j)) * fan_moment i j ring) (n + 1)) (m + 1)).
Proof. intros; rewrite ring_moment_fan, fan_shift_closed; auto. Qed.
Print Assumptions C02_translation.

Example C02_chord_example : exists x1 x2,
  ring_moment ((0,0) :: [(2,0)] ++ [(2,1); (0,0)]) 0 0 = Ok x1 /\
  ring_moment ((2,1) :: [(0,1)] ++ [(0,0); (2,1)]) 0 0 = Ok x2 /\ x1 = 1 /\ x2 = 1.
Proof.
  exists 1, 1. rewrite !C01_area_is_shoelace. unfold shoelace, cross, lsum; cbn.
  repeat split; f_equal; field.
Qed.

(** C03: the rectangle constructor accepts exactly positive sizes, and its ring
    has the iterated integrals of the box as moments. *)
Theorem C03_rectangle_accepts : forall w h oy oz,
  (exists ring, rectangle_ring w h oy oz = Ok ring) <-> (0 < w /\ 0 < h).
Proof.
  intros; split; [intros (ring & H); apply rect_spec in H; tauto|].
  intros (Hw & Hh). eexists. apply rect_spec. repeat split; assumption.
Qed.
Print Assumptions C03_rectangle_accepts.

Theorem C03_rectangle_moments : forall w h oy oz ring m n,
  rectangle_ring w h oy oz = Ok ring ->
  ring_moment ring m n =
    Ok (RInt (fun z => RInt (fun y => y ^ m * z ^ n) (oy - w / 2) (oy + w / 2)) (oz - h / 2) (oz + h / 2)).
Proof. exact rect_moments. Qed.
Print Assumptions C03_rectangle_moments.

Theorem C03_rectangle_section_constants : forall w h oy oz ring,
  rectangle_ring w h oy oz = Ok ring ->
  closed ring /\
  ring_moment ring 0 0 = Ok (w * h) /\ 0 < w * h /\
  ring_moment ring 1 0 = Ok (w * h * oy) /\
  ring_moment ring 0 1 = Ok (w * h * oz) /\
  ring_moment ring 0 2 = Ok (w * h ^ 3 / 12 + w * h * oz ^ 2) /\
  ring_moment ring 2 0 = Ok (w ^ 3 * h / 12 + w * h * oy ^ 2) /\
  ring_moment ring 1 1 = Ok (w * h * oy * oz).
Proof. exact rect_constants. Qed.
Print Assumptions C03_rectangle_section_constants.

Example C03_rectangle_example : exists ring, rectangle_ring 200 400 0 50 = Ok ring.
Proof. apply C03_rectangle_accepts. lra. Qed.
