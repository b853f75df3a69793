(* Round holes in a rectangular plate.  Nothing here is code of the project. *)
From Coq Require Import Reals Qreals.
From Verif Require Import Base GeomSpec ShapeSpec.
Open Scope R_scope.

(* centre, radius, number of corners *)
Record hole := HO { ho_xy : vec2; ho_r : Q; ho_n : nat }.
(* the radius, and the one that the corners do not leave if the cosines and sines have an
   error of at most [e] *)
Definition radius (o : hole) : R := Q2R (ho_r o).
Definition reach (e : R) (o : hole) : R := radius o * (1 + 2 * e).

(* a hole in the plate with centre [xy], width [w] and height [h] *)
Record in_plate (cosn sinn : nat -> nat -> Q) (e : R) (xy : vec2) (w h : Q) (o : hole) : Prop := {
  ip_corners : (3 <= ho_n o)%nat;
  ip_radius : (0 < ho_r o)%Q;
  ip_error : e * INR (ho_n o) ^ 3 <= 1;
  ip_circle : near_circle e (ho_n o) (cosn (ho_n o)) (sinn (ho_n o));
  ip_x : Q2R (vx xy) - Q2R w / 2 + reach e o < Q2R (vx (ho_xy o)) < Q2R (vx xy) + Q2R w / 2 - reach e o;
  ip_y : Q2R (vy xy) - Q2R h / 2 + reach e o < Q2R (vy (ho_xy o)) < Q2R (vy xy) + Q2R h / 2 - reach e o
}.
(* two holes do not touch *)
Definition holes_apart (e : R) (o1 o2 : hole) : Prop := (reach e o1 + reach e o2) ^ 2 < sq_distance (ho_xy o1) (ho_xy o2).
(* the area of the holes *)
Definition discs_area (os : list hole) : R := fold_right (fun o a => PI * radius o ^ 2 + a) 0 os.
(* how much of it the polygons may miss *)
Definition polygon_error (e : R) (os : list hole) : R :=
  fold_right (fun o a => (11 * PI / INR (ho_n o) ^ 2 + 3 * INR (ho_n o) * e) * radius o ^ 2 + a) 0 os.
