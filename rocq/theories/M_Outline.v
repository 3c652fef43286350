(** Model of geometry/profiles/_common_functions.py: the outlines of the steel profiles.  Shapely's [unary_union] and [offset_curve] are
    parameters; [set_precision] (a grid of 1e-12 relative to the size) is the identity over the reals. *)
From Verif Require Import Base M_Marin M_Laws M_Laws2 M_Fiber M_MarinInt M_Section M_Gross M_Geo M_Profile M_Catalog.
Open Scope R_scope.
Open Scope list_scope.

(** geometry/profiles/_common_functions.py:5-16: what is imported from shapely: [unary_union] of polygons, the polygons of the outcome; [offset_curve]
    of a line at a distance. *)
Record shapely := { unary_union : list ring -> list ring; offset_curve : list (R * R) -> R -> list (R * R) }.
(** geometry/profiles/_common_functions.py:22-29: shapely's Polygon(coordinates) closes the ring. *)
Definition polygon_of (l : list (R * R)) : ring := match l with [] => [] | v :: _ => l ++ [v] end.
(** geometry/profiles/_common_functions.py:31, 61-63: shapely's translate. *)
Definition translated (x y : R) (v : R * R) : R * R := (fst v + x, snd v + y).
(** geometry/profiles/_common_functions.py:62, 130, 136: shapely's scale: the origin is the centre of the bounding box of the whole geometry. *)
Definition scaled (vertices : list (R * R)) (fx fy : R) (v : R * R) : R * R :=
  let cx := (fold_min fst vertices + fold_max fst vertices) / 2 in
  let cy := (fold_min snd vertices + fold_max snd vertices) / 2 in
  (cx + fx * (fst v - cx), cy + fy * (snd v - cy)).
(** geometry/profiles/_common_functions.py:41, 51: shapely's Point.buffer: 16 segments in a quarter, clockwise from the right; without the repeated last vertex. *)
Definition buffer (c : R * R) (r : R) : list (R * R) :=
  map (fun i => (fst c + r * cos (INR i * (PI / 32)), snd c - r * sin (INR i * (PI / 32)))) (seq 0 64).
(** geometry/profiles/_common_functions.py:50, 60: shapely's difference of a square and the buffer of a point: the vertices of the buffer in the square (a quarter),
    then the vertices of the square outside the circle.  Simplification: holds for a square with the centre at one corner and the radius as side. *)
Definition difference (s : list (R * R)) (c : R * R) (r : R) : ring :=
  polygon_of (
    filter (fun v => Rleb (fold_min fst s) (fst v) && Rleb (fst v) (fold_max fst s) && Rleb (fold_min snd s) (snd v) && Rleb (snd v) (fold_max snd s)) (buffer c r)
    ++ filter (fun v => Rltb (r ^ 2) ((fst v - fst c) ^ 2 + (snd v - snd c) ^ 2)) s).
(** geometry/profiles/_common_functions.py:77, 144: shapely's orient of a polygon; a collection has no exterior. *)
Definition orient1 (l : list ring) : result ring := match l with [p] => Ok (orient_ext p) | _ => Err AttributeError end.
(** geometry/profiles/_common_functions.py:65-77, 248-260: bounds of a first union, grid size (log10 of 0 fails; otherwise without effect), union, orientation. *)
Definition united (S : shapely) (parts : list ring) : result ring :=
  let trial := concat (unary_union S parts) in
  let min_size := Rmin (fold_max fst trial - fold_min fst trial) (fold_max snd trial - fold_min snd trial) in
  if Reqb min_size 0 then Err ValueError else orient1 (unary_union S parts).
(** geometry/profiles/_common_functions.py:61-63, 245-247: the geometry mirrored upside down and moved. *)
Definition flipped_up (dy : R) (l : list ring) : list ring := map (map (fun v => translated 0 dy (scaled (concat l) 1 (-1) v))) l.

(** geometry/profiles/_common_functions.py:19-77 [_create_I_section].  The union of the fillets (polygons apart from each other) is their list. *)
Definition create_I (S : shapely) (h b tw tf r : R) : result ring :=
  let top_flange := polygon_of [(- b / 2, - h / 2); (b / 2, - h / 2); (b / 2, - h / 2 + tf); (- b / 2, - h / 2 + tf)] in
  let bottom_flange := map (translated 0 (h - tf)) top_flange in
  let web := polygon_of [(- tw / 2, - h / 2 + tf); (tw / 2, - h / 2 + tf); (tw / 2, h / 2 - tf); (- tw / 2, h / 2 - tf)] in
  let s := [(tw / 2, - h / 2 + tf); (tw / 2 + r, - h / 2 + tf); (tw / 2 + r, - h / 2 + tf + r); (tw / 2, - h / 2 + tf + r)] in
  let fillet := [difference s (tw / 2 + r, - h / 2 + tf + r) r] in
  let s := [(- tw / 2 - r, - h / 2 + tf); (- tw / 2, - h / 2 + tf); (- tw / 2, - h / 2 + tf + r); (- tw / 2 - r, - h / 2 + tf + r)] in
  let fillet := difference s (- tw / 2 - r, - h / 2 + tf + r) r :: fillet in
  let fillet := flipped_up (h - 2 * tf - r) fillet ++ fillet in
  united S (fillet ++ [top_flange; bottom_flange; web]).
(** geometry/profiles/_common_functions.py:207-264 [_create_parallel_U_section]; at last translated by its centroid. *)
Definition create_parallel_U (S : shapely) (h b tw tf r : R) : result ring :=
  let top_flange := polygon_of [(0, h / 2 - tf); (b, h / 2 - tf); (b, h / 2); (0, h / 2)] in
  let bottom_flange := map (translated 0 (- h + tf)) top_flange in
  let web := polygon_of [(0, - h / 2 + tf); (tw, - h / 2 + tf); (tw, h / 2 - tf); (0, h / 2 - tf)] in
  let s := [(tw, - h / 2 + tf); (tw + r, - h / 2 + tf); (tw + r, - h / 2 + tf + r); (tw, - h / 2 + tf + r)] in
  let fillet := [difference s (tw + r, - h / 2 + tf + r) r] in
  let fillet := flipped_up (h - 2 * tf - r) fillet ++ fillet in
  do geometry <- united S (fillet ++ [top_flange; bottom_flange; web]);
  Ok (map (translated (- fst (centroid geometry)) (- snd (centroid geometry))) geometry).

(** geometry/profiles/_common_functions.py:124: equality of two points. *)
Definition point_eq (v w : R * R) : bool := Reqb (fst v) (fst w) && Reqb (snd v) (snd w).
(** geometry/profiles/_common_functions.py:124, 127-138: two lines that meet at an end become one. *)
Definition merge2 (a b : list (R * R)) : result (list (R * R)) :=
  match a, b with
  | a0 :: _, b0 :: _ =>
      let a1 := last a a0 in let b1 := last b b0 in
      if point_eq a1 b0 then Ok (a ++ tl b)
      else if point_eq a1 b1 then Ok (a ++ tl (rev b))
      else if point_eq a0 b0 then Ok (rev a ++ tl b)
      else if point_eq a0 b1 then Ok (b ++ tl a)
      else Err AttributeError
  | _, _ => Err AttributeError
  end.
(** geometry/profiles/_common_functions.py:124, 127-138, 186-194, 295: shapely's linemerge of lines that follow each other.  Lines that do not meet stay a
    collection and give no polygon in the end: AttributeError of [orient(None)]. *)
Fixpoint linemerge (a : list (R * R)) (l : list (list (R * R))) : result (list (R * R)) :=
  match l with [] => Ok a | b :: l' => do ab <- merge2 a b; linemerge ab l' end.
(** geometry/profiles/_common_functions.py:141-144, 197-200, 300-303: polygonize and get_geometry(poly, 0): the polygon in a closed line, otherwise None. *)
Definition polygonize (l : list (R * R)) : result ring :=
  match l with v :: _ => if point_eq (last l v) v then Ok l else Err AttributeError | [] => Err AttributeError end.
(** geometry/profiles/_common_functions.py:104-108, 117-121: [LineString(xy).offset_curve(r).offset_curve(-r)]. *)
Definition round_corner (S : shapely) (xy : list (R * R)) (r : R) : list (R * R) := offset_curve S (offset_curve S xy r) (- r).

(** geometry/profiles/_common_functions.py:80-144 [_create_taper_I_section]. *)
Definition create_taper_I (S : shapely) (h b tw tf r1 r2 slope : R) : result ring :=
  let ls0 := [(0, - h / 2); (b / 2, - h / 2)] in
  let ls1 := round_corner S [(b / 2, - h / 2); (b / 2, - h / 2 + tf - b / 4 * slope); (b / 4, - h / 2 + tf)] r2 in
  let ls2 := round_corner S [(b / 4, - h / 2 + tf); (tw / 2, - h / 2 + tf + (b / 4 - tw / 2) * slope); (tw / 2, 0)] (- r1) in
  do merged <- linemerge ls0 [ls1; ls2];
  do merged <- linemerge merged [map (fun v => translated (- b / 2) 0 (scaled merged (-1) 1 v)) merged];
  do merged <- linemerge merged [map (fun v => translated 0 (h / 2) (scaled merged 1 (-1) v)) merged];
  do poly <- polygonize merged;
  Ok (orient_ext poly).
(** geometry/profiles/_common_functions.py:147-204 [_create_taper_U_section]. *)
Definition create_taper_U (S : shapely) (h b tw tf r1 r2 slope u : R) : result ring :=
  let ls0 := [(0, h / 2); (0, 0); (b, 0)] in
  let ls1 := round_corner S [(b, 0); (b, tf - slope * u); (b - u, tf)] r2 in
  let ls2 := round_corner S [(b - u, tf); (tw, tf + slope * (b - u - tw)); (tw, h / 2)] (- r1) in
  do merged <- linemerge ls0 [ls1; ls2];
  do merged <- linemerge merged [map (fun v => translated 0 (h / 2) (scaled merged 1 (-1) v)) merged];
  do poly <- polygonize merged;
  Ok (orient_ext (map (translated (- fst (centroid poly)) (- snd (centroid poly))) poly)).
(** geometry/profiles/_common_functions.py:267-307 [_create_L_section]. *)
Definition create_L (S : shapely) (h b t1 t2 r1 r2 : R) : result ring :=
  let ls0 := [(0, h); (0, 0); (b, 0)] in
  let ls1 := round_corner S [(b, 0); (b, t1); (b / 2, t1)] r2 in
  let ls2 := round_corner S [(b / 2, t1); (t2, t1); (t2, h / 2)] (- r1) in
  let ls3 := round_corner S [(t2, h / 2); (t2, h); (0, h)] r2 in
  do merged <- linemerge ls0 [ls1; ls2; ls3];
  do poly <- polygonize merged;
  Ok (orient_ext (map (translated (- fst (centroid poly)) (- snd (centroid poly))) poly)).
(** geometry/profiles/_common_functions.py:19, 80, 147, 207, 267: the outline that belongs to a call. *)
Definition draw (S : shapely) (s : shape) : result ring :=
  match s with
  | ShI h b tw tf r => create_I S h b tw tf r
  | ShParallelU h b tw tf r => create_parallel_U S h b tw tf r
  | ShTaperI h b tw tf r1 r2 sl => create_taper_I S h b tw tf r1 r2 sl
  | ShTaperU h b tw tf r1 r2 sl u => create_taper_U S h b tw tf r1 r2 sl u
  | ShL h b t1 t2 r1 r2 => create_L S h b t1 t2 r1 r2
  end.
