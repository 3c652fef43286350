(** Model of structuralcodes/core/_marin_integration.py and of the corner list
    of structuralcodes/geometry/_rectangular.py. *)
From Verif Require Import Base.

(** core/_marin_integration.py:12-15 [_coeff]: product of two binomials.  The
    [functools.lru_cache] decorator (line 12) memoises a pure function and is
    not modelled. *)
Definition coeff (m n j k : nat) : R :=
  INR (comb (j + k) j) * INR (comb (m + n - j - k) (n - k)).

(** core/_marin_integration.py:37-46: body of the loop over the edges, for the edge
    from (yi, zi) to (yj, zj): the double sum over j and k times the cross
    product. *)
Definition marin_edge (m n : nat) (yi zi yj zj : R) : R :=
  rsum (fun j =>
    rsum (fun k => coeff m n j k * zi ^ (n - k) * zj ^ k) (n + 1)
      * yi ^ (m - j) * yj ^ j) (m + 1)
  * (yi * zj - yj * zi).

(** core/_marin_integration.py:36-46: accumulation over [range(len(y) - 1)]. *)
Definition marin_loop (y z : list R) (m n : nat) : R :=
  rsum (fun i => marin_edge m n (nth i y 0) (nth i z 0) (nth (S i) y 0) (nth (S i) z 0))
       (length y - 1).

(** core/_marin_integration.py:18-47 [marin_integration].  The loop reads z[i+1] up to
    z[len(y)-1]: with at least two y values and a shorter z Python raises
    IndexError.  Vertices of z beyond len(y) are ignored, as in the code. *)
Definition marin_integration (y z : list R) (m n : nat) : result R :=
  if andb (Nat.ltb 1 (length y)) (Nat.ltb (length z) (length y)) then Err IndexError
  else Ok (marin_loop y z m n
           / (INR (comb (m + n) n) * (INR (m + n) + 1) * (INR (m + n) + 2))).

(** geometry/_rectangular.py:53-73: the constructor's checks and the corner
    tuple handed to shapely's Polygon; [exterior.xy] then repeats the first
    vertex at the end (shapely closes rings). *)
Definition rectangle_ring (width height oy oz : R) : result (list (R * R)) :=
  if Rleb width 0 then Err ValueError
  else if Rleb height 0 then Err ValueError
  else Ok [ (- width / 2 + oy, - height / 2 + oz);
            (width / 2 + oy, - height / 2 + oz);
            (width / 2 + oy, height / 2 + oz);
            (- width / 2 + oy, height / 2 + oz);
            (- width / 2 + oy, - height / 2 + oz) ].

(** Calling convention of every caller: y and z are the two coordinate
    sequences of one closed vertex ring (geometry/profiles/_base_profile.py:138-176,
    sections/section_integrators/_marin_integrator.py:330-345). *)
Definition ring_moment (ring : list (R * R)) (m n : nat) : result R :=
  marin_integration (map fst ring) (map snd ring) m n.
