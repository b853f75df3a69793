(* Model of SizeFunction::evaluate, /repo/src/algorithm/Domain.h:47-111.
   Doubles are modelled by real numbers here because of exp(). *)
From Coq Require Import Reals List Bool.
Import ListNotations.
Open Scope R_scope.

Definition rvec := (R * R)%type.
(* Vertex.h: position, mesh_size(), size_range() *)
Record rvertex := RV { rv_xy : rvec; rv_size : R; rv_range : R }.
Record redge := RE { re_v1 : rvertex; re_v2 : rvertex }.

Definition norm_sqr (a b : rvec) : R := (fst a - fst b) * (fst a - fst b) + (snd a - snd b) * (snd a - snd b).
(* Edge::length(), cached |v2 - v1| *)
Definition re_length (e : redge) : R := sqrt (norm_sqr (rv_xy (re_v2 e)) (rv_xy (re_v1 e))).

Definition RMIN (a b : R) : R := if Rlt_dec a b then a else b.
Definition RMAX (a b : R) : R := if Rlt_dec b a then a else b.
Definition nonpos (x : R) : bool := if Rle_dec x 0 then true else false.

(* lines 67-89: the value hv1 (hv2) of one end vertex of an edge of length el *)
Definition end_size (xy : rvec) (h_fun el : R) (v : rvertex) : R :=
  let r := RMAX (h_fun / el) (el / h_fun) in
  let d_sqr := norm_sqr xy (rv_xy v) in
  let s := if nonpos (rv_range v) then el else rv_range v in
  let s_inv := 1 / (r * s) in
  let z := exp (- d_sqr * s_inv * s_inv) in
  let hv := if nonpos (rv_size v) then h_fun else rv_size v in
  z * RMIN hv el + (1 - z) * h_fun.
(* lines 60-93 *)
Definition edge_step (xy : rvec) (h_fun h : R) (e : redge) : R :=
  let el := re_length e in
  RMIN (RMIN h (end_size xy h_fun el (re_v1 e))) (end_size xy h_fun el (re_v2 e)).
(* lines 96-106 *)
Definition fixed_step (xy : rvec) (h_fun h : R) (v : rvertex) : R :=
  if nonpos (rv_size v) then h
  else let d_sqr := norm_sqr xy (rv_xy v) in
       let s_inv := if nonpos (rv_range v) then 1 / h_fun else 1 / rv_range v in
       let z := exp (- d_sqr * s_inv * s_inv) in
       RMIN h (z * rv_size v + (1 - z) * h_fun).
(* the edges of all boundaries in order, the fixed vertices; None = TERMINATE *)
Definition evaluate (f : rvec -> R) (edges : list redge) (fixed : list rvertex) (xy : rvec) : option R :=
  let h_fun := f xy in
  if nonpos h_fun then None
  else Some (fold_left (fixed_step xy h_fun) fixed (fold_left (edge_step xy h_fun) edges h_fun)).
