(* Elementary geometry the predicates of Geometry.h are measured against. *)
From Verif Require Import Base.
Open Scope Q_scope.

(* twice the signed area of the triangle p,q,r *)
Definition det (p q r : vec2) : Q :=
  (vx q - vx p) * (vy r - vy p) - (vx r - vx p) * (vy q - vy p).

(* the tolerance 2^-26 on doubled areas *)
Definition tol26 : Q := 1 # 67108864.

(* point of a segment *)
Definition on_seg (p q : vec2) (t : Q) : vec2 :=
  V2 (vx p + t * (vx q - vx p)) (vy p + t * (vy q - vy p)).

(* the open segments have a common point *)
Definition seg_meet (p1 q1 p2 q2 : vec2) (s t : Q) : Prop :=
  0 < s /\ s < 1 /\ 0 < t /\ t < 1 /\ veq (on_seg p1 q1 s) (on_seg p2 q2 t).

Definition combo (a b c : Q) (p q r : vec2) : vec2 :=
  V2 (a * vx p + b * vx q + c * vx r) (a * vy p + b * vy q + c * vy r).

Definition shift (d v : vec2) : vec2 := V2 (vx v + vx d) (vy v + vy d).

(* the sides of a polygon, each from a corner to the next one *)
Definition sides3 (p q r : vec2) : list (vec2 * vec2) := [(p, q); (q, r); (r, p)].
Definition sides4 (p q r s : vec2) : list (vec2 * vec2) := [(p, q); (q, r); (r, s); (s, p)].

(* r lies within the tolerance of the open segment p,q and its foot is strictly
   between the ends *)
Definition near_open_seg (p q r : vec2) : Prop :=
  - tol26 < det p q r /\ det p q r < tol26 /\
  0 < vdot (vsub r p) (vsub q p) /\ vdot (vsub r p) (vsub q p) < vnorm2 (vsub q p).
