(* Executable model of the predefined boundary shapes (src/algorithm/Boundary.h:217-307).
   The boundary itself is made by create_boundary_shape of BdryModel.v. *)
From Verif Require Import Base UtilModel BdryModel.
Open Scope Q_scope.

(* Boundary.h:319-321: a boundary that has edges is left alone *)
Definition set_shape (nearest : list vinfo -> vec2 -> outcome (option nat)) (bt : bdry_type)
    (store : list vinfo) (b : elist) (shape : list vec2) (props : list (Q * Q)) (colors : list Z) : outcome (list vinfo * elist) :=
  match el_edges b with
  | [] => create_boundary_shape nearest bt store shape props colors
  | _ => Ok (store, b)
  end.

Section Shapes.
Variable nearest : list vinfo -> vec2 -> outcome (option nat).
Variable bt : bdry_type.
(* cos(i * delta_a) and sin(i * delta_a) with delta_a = 2 pi / n as computed
   (Boundary.h:293-298); i < n *)
Variables cosn sinn : nat -> nat -> Q.
Variable sqrt3 : Q.

(* Boundary.h:252-277 set_shape_rectangle *)
Definition set_shape_rectangle (store : list vinfo) (b : elist) (color : Z) (xy : vec2) (w h size range : Q) :=
  set_shape nearest bt store b (rect_shape xy w h) (repeat (size, range) 4) (repeat color 4).
(* Boundary.h:230-236 set_shape_square *)
Definition set_shape_square (store : list vinfo) (b : elist) (color : Z) (xy : vec2) (w size range : Q) :=
  set_shape_rectangle store b color xy w w size range.
(* Boundary.h:295-303, the corners *)
Definition circle_shape (xy : vec2) (r : Q) (n : nat) : list vec2 :=
  map (fun i => V2 (vx xy + r * cosn n i) (vy xy + r * sinn n i)) (seq 0 n).
(* Boundary.h:282-307 set_shape_circle *)
Definition set_shape_circle (store : list vinfo) (b : elist) (color : Z) (xy : vec2) (r : Q) (n : nat) (size range : Q) :=
  if Nat.ltb n 3 then Ok (store, b)
  else set_shape nearest bt store b (circle_shape xy r n) (repeat (size, range) n) (repeat color n).
(* Boundary.h:241-247 set_shape_triangle *)
Definition set_shape_triangle (store : list vinfo) (b : elist) (color : Z) (xy : vec2) (a size range : Q) :=
  set_shape_circle store b color xy (a / sqrt3) 3 size range.
End Shapes.
