(* Convex polygons and the regular polygon.  Nothing here is code of the project. *)
From Coq Require Import Reals Qreals.
From Verif Require Import Base GeomSpec.

(* every corner after the first two is on the left of the line through them, taken in
   the order of the list *)
Definition convex_position (l : list vec2) : Prop :=
  forall i j k a b c, (i < j < k)%nat -> nth_error l i = Some a -> nth_error l j = Some b -> nth_error l k = Some c -> (0 < det a b c)%Q.

Open Scope R_scope.
(* the i-th of n equal steps around the circle *)
Definition angle (n i : nat) : R := INR i * (2 * PI / INR n).
(* cosines and sines up to an error *)
Definition near_circle (eps : R) (n : nat) (c s : nat -> Q) : Prop :=
  forall i, (i < n)%nat -> Rabs (Q2R (c i) - cos (angle n i)) <= eps /\ Rabs (Q2R (s i) - sin (angle n i)) <= eps.
Definition sq_distance (p q : vec2) : R := (Q2R (vx p) - Q2R (vx q)) ^ 2 + (Q2R (vy p) - Q2R (vy q)) ^ 2.
