(* Executable models of the property flags (Vertex.h, Edge.h) and of the
   numeric helpers (MathUtility.h, VecND.h). *)
From Verif Require Import Base.

(* ---- property flags: uint8_t bit sets, modelled by N below 256 ---- *)
Open Scope N_scope.

(* Vertex.h:27-33 *)
Definition v_on_front := 1.
Definition v_in_quad_layer := 2.
Definition v_is_fixed := 4.
Definition v_on_boundary := 8.
(* Edge.h:37-42 *)
Definition e_on_boundary := 1.
Definition e_is_fixed := 2.
Definition e_is_ghost := 4.

(* Vertex.h:36-37, Edge.h:45-46: ~ on the promoted int, cast back to uint8_t *)
Definition flag_not (p : N) : N := N.ldiff 255 p.

Inductive flag_op := FAdd (p : N) | FSet (p : N) | FRemove (p : N).

(* Vertex.h:105-107, Edge.h:155-157 *)
Definition flag_step (s : N) (o : flag_op) : N :=
  match o with
  | FAdd p => N.lor s p
  | FSet p => p
  | FRemove p => N.land s (flag_not p)
  end.
(* Vertex.h:108 has_property (operator&, 61-63) *)
Definition has_property (s p : N) : bool := negb (N.land s p =? 0).
(* Vertex.h:109-110 *)
Definition has_no_property (s : N) : bool := s =? 0.
Definition flag_run (s : N) (os : list flag_op) : N := fold_left flag_step os s.
Close Scope N_scope.

(* ---- MathUtility.h ---- *)
(* MathUtility.h:47-49 MOD on int: % truncates towards zero.  Overflow of
   (n % M) + M is not modelled. *)
Definition MOD (n M : Z) : Z := Z.rem (Z.rem n M + M) M.

(* MathUtility.h:51-53 *)
Definition CLAMP (x lo hi : Q) : Q := Qmaxb lo (Qminb hi x).
(* MathUtility.h:35-37 *)
Definition ABSq (a : Q) : Q := if Qltb 0 a then a else - a.
(* MathUtility.h:55-75 *)
Definition EQtol (a b max_diff max_rel : Q) : bool :=
  let d := ABSq (a - b) in
  if Qleb d max_diff then true
  else Qleb d (Qmaxb (ABSq a) (ABSq b) * max_rel).

(* MathUtility.h:93-109 argsort.  std::stable_sort is modelled by a stable
   insertion sort on the index list 0..n-1 (for a strict weak order the result
   of a stable sort is unique). *)
Fixpoint ins_idx (v : nat -> Q) (i : nat) (l : list nat) : list nat :=
  match l with
  | [] => [i]
  | j :: l' => if Qltb (v j) (v i) then j :: ins_idx v i l' else i :: l
  end.
Definition argsort (v : list Q) : list nat :=
  fold_right (ins_idx (fun i => nth i v 0)) [] (seq 0 (length v)).

(* ---- VecND.h ---- *)
(* conversion double -> int: truncation towards zero (range not modelled) *)
Definition trunc (q : Q) : Z := Z.quot (Qnum q) (Zpos (Qden q)).
(* VecND.h:296-299: std::accumulate(.., 0) has an int accumulator *)
Definition vec_sum (l : list Q) : Q := inject_Z (fold_left (fun acc x => trunc (inject_Z acc + x)) l 0%Z).
(* VecND.h:304-308 *)
Definition vec_product (l : list Q) : Q := fold_left Qmult l 1.
(* VecND.h:286-291 is_zero: v <= eps * v * ulp *)
Definition vec_norm_sqr (l : list Q) : Q := fold_left (fun a x => a + x * x) l 0.
Definition vec_is_zero (ulp : Q) (l : list Q) : bool :=
  let v := vec_norm_sqr l in Qleb v ((1 # 4503599627370496) * v * ulp).
