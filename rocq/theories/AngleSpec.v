(* Angles as rotations. *)
From Coq Require Import Reals List.
From Verif Require Import AngleModel.
Open Scope R_scope.

(* v has the direction of u, turned counter-clockwise by t *)
Definition turn (t : R) (u v : pt) : Prop :=
  rnorm u * fst v = rnorm v * (cos t * fst u - sin t * snd u) /\ rnorm u * snd v = rnorm v * (sin t * fst u + cos t * snd u).
(* p, q, r counter-clockwise *)
Definition left_turn (p q r : pt) : Prop := 0 < rcross (rsub q p) (rsub r p).
Definition convex4 (p q r s : pt) : Prop := left_turn p q r /\ left_turn q r s /\ left_turn r s p /\ left_turn s p q.
