(* Executable model of the element metrics in src/algorithm/FacetGeometry.h,
   over exact rationals.  Edge lengths only enter squared (shape factor), where
   sqrt(x)*sqrt(x) is modelled by x; calc_quality takes the lengths as given
   numbers, like the code.  Angles (acos) are not modelled. *)
From Verif Require Import Base GeomModel.

(* FacetGeometry.h:34-35 / 345-348 centroids *)
Definition tri_centroid (a b c : vec2) : vec2 :=
  V2 ((vx a + vx b + vx c) / 3) ((vy a + vy b + vy c) / 3).
Definition quad_centroid (a b c d : vec2) : vec2 :=
  V2 ((1 # 4) * (vx a + vx b + vx c + vx d)) ((1 # 4) * (vy a + vy b + vy c + vy d)).

(* FacetGeometry.h:40-46 *)
Definition tri_area (a b c : vec2) : Q := (1 # 2) * vcross (vsub b a) (vsub c a).

(* FacetGeometry.h:51-65 *)
Definition tri_circumcenter (a b c : vec2) : vec2 :=
  let B := vsub b a in
  let C := vsub c a in
  let D := 2 * vcross B C in
  V2 ((vy C * (vx B * vx B + vy B * vy B) - vy B * (vx C * vx C + vy C * vy C)) / D + vx a)
     ((vx B * (vx C * vx C + vy C * vy C) - vx C * (vx B * vx B + vy B * vy B)) / D + vy a).

(* squared edge length, FacetGeometry.h:80-82 *)
Definition edge_len2 (a b : vec2) : Q := vnorm2 (vsub b a).

(* FacetGeometry.h:111-128: norm_factor as written *)
Definition norm_factor : Q := 34641016151377544 # 10000000000000000.
Definition tri_shape_factor (a b c : vec2) : Q :=
  let s := edge_len2 a b + edge_len2 b c + edge_len2 c a in
  if Qltb 0 s then norm_factor * tri_area a b c / s else 0.

(* FacetGeometry.h:353-363 *)
Definition quad_area (a b c d : vec2) : Q :=
  let e1 := vsub b a in let e2 := vsub c a in let e3 := vsub d a in
  (1 # 2) * vcross e1 e2 + (1 # 2) * vcross e2 e3.

(* FacetGeometry.h:430-450 *)
Definition quad_shape_factor (a b c d : vec2) : Q :=
  let s := edge_len2 a b + edge_len2 b c + edge_len2 c d + edge_len2 d a in
  if Qltb 0 s then norm_factor * quad_area a b c d / s else 0.

(* FacetGeometry.h:133-152 *)
Definition quality_factor (l h : Q) : Q := Qminb (l / h) (h / l).
Definition tri_quality (l1 l2 l3 shape h : Q) : Q :=
  shape * quality_factor l1 h * quality_factor l2 h * quality_factor l3 h.
(* FacetGeometry.h:455-478 *)
Definition quad_quality (l1 l2 l3 l4 shape h : Q) : Q :=
  shape * quality_factor l1 h * quality_factor l2 h * quality_factor l3 h * quality_factor l4 h.

(* FacetGeometry.h:157-173 / 483-500: an edge length is <= 0 iff its square is *)
Definition tri_valid (a b c : vec2) : bool :=
  negb (Qleb (tri_area a b c) 0) &&
  negb (Qleb (edge_len2 a b) 0 || Qleb (edge_len2 b c) 0 || Qleb (edge_len2 c a) 0).
Definition quad_valid (a b c d : vec2) : bool :=
  negb (Qleb (quad_area a b c d) 0) &&
  negb (Qleb (edge_len2 a b) 0 || Qleb (edge_len2 b c) 0 || Qleb (edge_len2 c d) 0 || Qleb (edge_len2 d a) 0).

(* FacetGeometry.h:212-245: pairwise part of check_intersection(tri, triangles) *)
Definition tri_tri_conflict (p1 q1 r1 p2 q2 r2 : vec2) : bool :=
  tri_tri_intersection p1 q1 r1 p2 q2 r2 ||
  in_triangle (tri_centroid p1 q1 r1) p2 q2 r2 || in_triangle (tri_centroid p2 q2 r2) p1 q1 r1.
(* FacetGeometry.h:251-286: pairwise part of check_intersection(tri, quads) *)
Definition tri_quad_conflict (p2 q2 r2 p1 q1 r1 s1 : vec2) : bool :=
  tri_quad_intersection p2 q2 r2 p1 q1 r1 s1 ||
  in_triangle (quad_centroid p1 q1 r1 s1) p2 q2 r2 || in_quad (tri_centroid p2 q2 r2) p1 q1 r1 s1.
