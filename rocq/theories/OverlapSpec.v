(* What it means that two convex elements overlap. *)
From Verif Require Import Base GeomSpec.
Open Scope Q_scope.

(* an element is the list of its sides; corners are where the sides begin *)
Definition outline := list (vec2 * vec2).
Definition corners (L : outline) : list vec2 := map fst L.

(* z is strictly inside / inside or on the outline *)
Definition inside (L : outline) (z : vec2) : Prop := forall s, In s L -> 0 < det (fst s) (snd s) z.
Definition inside_on (L : outline) (z : vec2) : Prop := forall s, In s L -> 0 <= det (fst s) (snd s) z.

(* counter-clockwise triangles; quads that turn left at each corner *)
Definition convex3 (p q r : vec2) : Prop := 0 < det p q r.
Definition convex4 (p q r s : vec2) : Prop :=
  0 < det p q r /\ 0 < det q r s /\ 0 < det r s p /\ 0 < det s p q.

Definition overlap (L M : outline) : Prop := exists z, inside L z /\ inside M z.

(* a corner of M lies between the ends of a side of L *)
Definition hangs (L M : outline) : Prop := exists e v t, In e L /\ In v (corners M) /\
  0 < t /\ t < 1 /\ veq v (on_seg (fst e) (snd e) t).

(* each corner of an element lies on the line through a side of the other one, or
   keeps away from it by at least four times the tolerance *)
Definition clear_of (L M : outline) : Prop := forall s v, In s L -> In v (corners M) ->
  det (fst s) (snd s) v == 0 \/ 4 * tol26 <= det (fst s) (snd s) v \/ det (fst s) (snd s) v <= - (4 * tol26).
Definition clear (L M : outline) : Prop := clear_of L M /\ clear_of M L.

(* a side of L joins two corners of M through the inside of M *)
Definition cuts (L M : outline) : Prop := exists e v w t, In e L /\ In v (corners M) /\ In w (corners M) /\
  veq (fst e) v /\ veq (snd e) w /\ 0 < t /\ t < 1 /\ inside M (on_seg (fst e) (snd e) t).
