(* Executable model of src/utils/Geometry.h over exact rationals. *)
From Verif Require Import Base.

(* Geometry.h:18-24 (the value NONE is never returned) *)
Inductive orient := CW | CCW | CL.

Definition orient_eqb (a b : orient) : bool :=
  match a, b with CW, CW | CCW, CCW | CL, CL => true | _, _ => false end.

(* MathUtility.h: CPPUTILS_SMALL = std::numeric_limits<double>::epsilon() = 2^-52 *)
Definition small : Q := 1 # 4503599627370496.

(* Geometry.h:44-45 *)
Definition area2 (p q r : vec2) : Q :=
  (vx p - vx r) * (vy q - vy r) - (vx q - vx r) * (vy p - vy r).

(* Geometry.h:39-54 orientation *)
Definition orientation (p q r : vec2) : orient :=
  let a := area2 p q r in
  if Qltb (a * a) small then CL
  else if Qltb 0 a then CCW else CW.

(* Geometry.h:59-67 *)
Definition is_left (p q r : vec2) : bool := orient_eqb (orientation p q r) CCW.
(* Geometry.h:73-82 *)
Definition is_lefton (p q r : vec2) : bool := negb (orient_eqb (orientation p q r) CW).

(* Geometry.h:87-104 in_segment *)
Definition in_segment (p q r : vec2) : bool :=
  if negb (orient_eqb (orientation p q r) CL) then false else
  let d := vsub q p in
  let t := vdot (vsub r p) d in
  Qltb 0 t && Qltb t (vnorm2 d).

(* Geometry.h:110-127 in_on_segment *)
Definition in_on_segment (p q r : vec2) : bool :=
  if negb (orient_eqb (orientation p q r) CL) then false else
  let d := vsub q p in
  let t := vdot (vsub r p) d in
  Qleb 0 t && Qleb t (vnorm2 d).

(* Geometry.h:138-158 line_line_crossing *)
Definition opposite (a b : orient) : bool :=
  (orient_eqb a CCW && orient_eqb b CW) || (orient_eqb a CW && orient_eqb b CCW).

Definition line_line_crossing (p1 q1 p2 q2 : vec2) : bool :=
  opposite (orientation p1 q1 p2) (orientation p1 q1 q2) &&
  opposite (orientation p2 q2 p1) (orientation p2 q2 q1).

(* Geometry.h:169-205 line_line_intersection *)
Definition line_line_intersection (p1 q1 p2 q2 : vec2) : bool :=
  let o1 := orientation p1 q1 p2 in
  let o2 := orientation p1 q1 q2 in
  let o3 := orientation p2 q2 p1 in
  let o4 := orientation p2 q2 q1 in
  if opposite o1 o2 && opposite o3 o4 then true
  else if orient_eqb o1 CL && in_segment p1 q1 p2 then true
  else if orient_eqb o2 CL && in_segment p1 q1 q2 then true
  else if orient_eqb o3 CL && in_segment p2 q2 p1 then true
  else if orient_eqb o4 CL && in_segment p2 q2 q1 then true
  else false.

(* Geometry.h:222-364 *)
Definition line_tri_intersection (a b p q r : vec2) : bool :=
  line_line_intersection a b p q || line_line_intersection a b q r ||
  line_line_intersection a b r p.
Definition line_tri_crossing (a b p q r : vec2) : bool :=
  line_line_crossing a b p q || line_line_crossing a b q r ||
  line_line_crossing a b r p.
Definition line_quad_intersection (a b p q r s : vec2) : bool :=
  line_line_intersection a b p q || line_line_intersection a b q r ||
  line_line_intersection a b r s || line_line_intersection a b s p.
Definition tri_tri_intersection (p1 q1 r1 p2 q2 r2 : vec2) : bool :=
  line_tri_intersection p1 q1 p2 q2 r2 || line_tri_intersection q1 r1 p2 q2 r2 ||
  line_tri_intersection r1 p1 p2 q2 r2.
Definition quad_quad_intersection (p1 q1 r1 s1 p2 q2 r2 s2 : vec2) : bool :=
  line_quad_intersection p1 q1 p2 q2 r2 s2 || line_quad_intersection q1 r1 p2 q2 r2 s2 ||
  line_quad_intersection r1 s1 p2 q2 r2 s2 || line_quad_intersection s1 p1 p2 q2 r2 s2.
Definition tri_quad_intersection (p1 q1 r1 p2 q2 r2 s2 : vec2) : bool :=
  line_quad_intersection p1 q1 p2 q2 r2 s2 || line_quad_intersection q1 r1 p2 q2 r2 s2 ||
  line_quad_intersection r1 p1 p2 q2 r2 s2.

(* Geometry.h:404-411 in_rect *)
Definition in_rect (v ll ur : vec2) : bool :=
  Qltb (vx ll) (vx v) && Qltb (vy ll) (vy v) && Qltb (vx v) (vx ur) && Qltb (vy v) (vy ur).

(* Geometry.h:416-469 *)
Definition in_on_triangle (v p q r : vec2) : bool :=
  is_lefton p q v && is_lefton q r v && is_lefton r p v.
Definition in_triangle (v p q r : vec2) : bool :=
  is_left p q v && is_left q r v && is_left r p v.
Definition in_on_quad (v p q r s : vec2) : bool :=
  is_lefton p q v && is_lefton q r v && is_lefton r s v && is_lefton s p v.
Definition in_quad (v p q r s : vec2) : bool :=
  is_left p q v && is_left q r v && is_left r s v && is_left s p v.

(* Geometry.h:479-501 distance_point_edge_sqr.  std::clamp(x,0,1).  For e1 = e2
   the code computes 0/0 = NaN; the model is only meaningful for e1 <> e2. *)
Definition clamp01 (x : Q) : Q := if Qltb x 0 then 0 else if Qltb 1 x then 1 else x.
Definition distance_point_edge_sqr (p e1 e2 : vec2) : Q :=
  let de := vsub e2 e1 in
  let dp := vsub p e1 in
  let t := clamp01 (vdot dp de / vnorm2 de) in
  let proj := vadd e1 (vscale t de) in
  vnorm2 (vsub p proj).

(* Geometry.h:507-518 segment_overlap *)
Definition segment_overlap (v1 w1 v2 w2 : vec2) : bool :=
  if veqb v1 v2 && veqb w1 w2 then true
  else if veqb v1 w2 && veqb w1 v2 then true else false.

(* Geometry.h:527-541 polygon_area: the loop over i with j = MOD(i+1, n).
   Indices are in range, the default of [nth] is never used. *)
Definition shoelace (a b : vec2) : Q := (vy a + vy b) * (vx a - vx b).
Definition polygon_area (vs : list vec2) : Q :=
  let n := length vs in
  let at_ i := nth i vs (V2 0 0) in
  fold_left (fun acc i => acc + shoelace (at_ i) (at_ ((i + 1) mod n)%nat)) (seq 0 n) 0 / 2.

(* Geometry.h:29-34 bbox_min / bbox_max *)
Definition bbox_min (a b : vec2) : vec2 := V2 (Qminb (vx a) (vx b)) (Qminb (vy a) (vy b)).
Definition bbox_max (a b : vec2) : vec2 := V2 (Qmaxb (vx a) (vx b)) (Qmaxb (vy a) (vy b)).
