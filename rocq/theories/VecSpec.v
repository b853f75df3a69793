(* Vectors of rational numbers. *)
From Coq Require Import QArith List.
Import ListNotations.
Open Scope Q_scope.

(* equal entry by entry *)
Definition same (a b : list Q) : Prop := Forall2 Qeq a b.
(* entry by entry the result of an operation *)
Definition entrywise {A} (f : Q -> Q -> A) (a b : list Q) (c : list A) : Prop :=
  length c = length a /\ forall i x y, nth_error a i = Some x -> nth_error b i = Some y -> nth_error c i = Some (f x y).
(* the sum of the products *)
Definition products (a b : list Q) : Q := fold_right Qplus 0 (map (fun p => fst p * snd p) (combine a b)).
(* one vector is a multiple of the other *)
Definition parallel (a b : list Q) : Prop := exists s, Forall2 (fun x y => x == s * y) a b.
(* a square root of this number *)
Definition root_of (r x : Q) : Prop := 0 <= r /\ r * r == x.
