(* Angles of triangles and quads, over the real numbers because of acos.  None stands for the
   value that is not a number: 0/0, or acos of a number that is no cosine. *)
From Coq Require Import Reals List.
Import ListNotations.
Open Scope R_scope.

Definition pt := (R * R)%type.
(* VecND.h:363-370, 484-486, 492-495, 230-234 *)
Definition rsub (a b : pt) : pt := (fst a - fst b, snd a - snd b).
Definition rdot (a b : pt) : R := fst a * fst b + snd a * snd b.
Definition rcross (a b : pt) : R := fst a * snd b - snd a * fst b.
Definition rnorm (a : pt) : R := sqrt (rdot a a).
(* FacetGeometry.h:82-84 and 405-407 *)
Definition edge_length (v1 v2 : pt) : R := rnorm (rsub v2 v1).
Definition quotient (a b : R) : option R := if Req_EM_T b 0 then None else Some (a / b).
Definition acos_of (x : option R) : option R :=
  match x with
  | Some c => if Rle_dec (-1) c then if Rle_dec c 1 then Some (acos c) else None else None
  | None => None
  end.
(* FacetGeometry.h:89-108; the lengths as in Triangle.h:293-295 *)
Definition tri_angles (p q r : pt) : list (option R) :=
  let l1 := edge_length p q in let l2 := edge_length q r in let l3 := edge_length r p in
  [acos_of (quotient (rdot (rsub q p) (rsub r p)) (l1 * l3));
   acos_of (quotient (rdot (rsub p q) (rsub r q)) (l1 * l2));
   acos_of (quotient (rdot (rsub p r) (rsub q r)) (l2 * l3))].
(* FacetGeometry.h:412-434; the lengths as in Quad.h:319-322 *)
Definition quad_angles (p q r s : pt) : list (option R) :=
  let l1 := edge_length p q in let l2 := edge_length q r in let l3 := edge_length r s in let l4 := edge_length s p in
  [acos_of (quotient (rdot (rsub q p) (rsub s p)) (l4 * l1));
   acos_of (quotient (rdot (rsub p q) (rsub r q)) (l1 * l2));
   acos_of (quotient (rdot (rsub s r) (rsub q r)) (l2 * l3));
   acos_of (quotient (rdot (rsub r s) (rsub p s)) (l3 * l4))].
(* Triangle.h:299-300, Quad.h:326-327 with VecND.h:308-309, for angles that are numbers *)
Fixpoint all_numbers (l : list (option R)) : option (list R) :=
  match l with
  | [] => Some []
  | Some x :: r => option_map (cons x) (all_numbers r)
  | None :: _ => None
  end.
Definition least (l : list R) : option R := match l with [] => None | x :: r => Some (fold_left (fun m y => if Rlt_dec y m then y else m) r x) end.
Definition greatest (l : list R) : option R := match l with [] => None | x :: r => Some (fold_left (fun m y => if Rlt_dec m y then y else m) r x) end.
Definition min_angle (l : list (option R)) : option R := match all_numbers l with Some a => least a | None => None end.
Definition max_angle (l : list (option R)) : option R := match all_numbers l with Some a => greatest a | None => None end.
(* FrontUpdate.h:358-359: the triangle is refused; the comparison with a value that is not a
   number is false *)
Definition angle_refused (limit : R) (l : list (option R)) : bool :=
  match max_angle l with Some m => if Rlt_dec limit m then true else false | None => false end.
(* MeshWriter.h:149 and 170 *)
Definition written_angle (l : list (option R)) : option R := option_map (fun m => m * 180 / PI) (max_angle l).
