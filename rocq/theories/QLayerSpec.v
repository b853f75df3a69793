(* What quad layers are measured against. *)
From Verif Require Import Base BdryModel AdvanceModel AdvanceSpec Chain.
Open Scope Q_scope.

(* consecutive edges: each one starts where the one before ends *)
Fixpoint linked_up (l : list bedge) : Prop :=
  match l with
  | e :: r => match r with f :: _ => be_v2 e = be_v1 f | [] => True end /\ linked_up r
  | [] => True
  end.
(* a route over edges of the front from [e] to [f], each edge once *)
Definition route (es : list bedge) (e f : bedge) (l : list bedge) : Prop :=
  (exists r, l = e :: r) /\ (exists r, l = r ++ [f]) /\ incl l es /\ linked_up l /\ NoDup l.

(* a vertex of the front with the smallest distance to a point *)
Definition closest_of (pos : nat -> vec2) (es : list bedge) (xy : vec2) (v : nat) : Prop :=
  (exists e, In e es /\ be_v1 e = v) /\
  forall e, In e es -> vnorm2 (vsub xy (pos v)) <= vnorm2 (vsub xy (pos (be_v1 e))).

(* no vertex starts or ends two edges of the front *)
Definition simple (es : list bedge) : Prop := NoDup (map be_v1 es) /\ NoDup (map be_v2 es).

(* a number that is the length of a vector *)
Definition is_norm (norm : vec2 -> Q) (d : vec2) : Prop := 0 <= norm d /\ norm d * norm d == vnorm2 d.
(* a number that is the sine of half the angle between two vectors *)
Definition is_sin_half (norm : vec2 -> Q) (s : vec2 -> vec2 -> Q) (a b : vec2) : Prop :=
  0 <= s a b /\ 2 * (s a b * s a b) == 1 - vdot a b / (norm a * norm b).

(* a point's height over an edge *)
Definition height_over (norm : vec2 -> Q) (a b p : vec2) : Q := vcross (vsub b a) (vsub p a) / norm (vsub b a).

(* the area of a quad given by its corners *)
Definition quad_area4 (a b c d : vec2) : Q :=
  (1 # 2) * (vcross a b + vcross b c + vcross c d + vcross d a).
Definition quad_areas (pos : nat -> vec2) (qs : list quad) : Q :=
  sumQ (map (fun q => quad_area4 (pos (qu_v1 q)) (pos (qu_v2 q)) (pos (qu_v3 q)) (pos (qu_v4 q))) qs).

(* a power with a natural exponent *)
Fixpoint qpow (r : Q) (n : nat) : Q := match n with O => 1 | S k => r * qpow r k end.
