(* Specification vocabulary for the rules that move a vertex in smoothing. *)
From Verif Require Import Base Chain GeomModel MeshModel MeshSpec QRefineSpec.
Open Scope Q_scope.

(* p lies in every half plane that contains the points of l: the convex hull *)
Definition in_hull (l : list vec2) (p : vec2) : Prop :=
  forall a b c, (forall q, In q l -> a * vx q + b * vy q <= c) -> a * vx p + b * vy p <= c.

(* c is the mean of the points of l *)
Definition is_mean (l : list vec2) (c : vec2) : Prop :=
  l <> [] /\ inject_Z (Z.of_nat (length l)) * vx c == sumQ (map vx l) /\ inject_Z (Z.of_nat (length l)) * vy c == sumQ (map vy l).

(* w is the other end of an edge at v *)
Definition joined (m : mesh) (v w : nat) : Prop :=
  exists e, In e (all_edges m) /\ ((ed_1 e = v /\ ed_2 e = w) \/ (ed_1 e = w /\ ed_2 e = v)).
(* no boundary edge ends at v *)
Definition interior (m : mesh) (v : nat) : Prop := forall e, In e (mh_bdry m) -> ed_1 e <> v /\ ed_2 e <> v.

(* every item twice in a row *)
Fixpoint twice {A} (l : list A) : list A := match l with [] => [] | x :: r => x :: x :: twice r end.

(* the rays from v to the points of l, which go once around v, make equal angles:
   [angle] of the rays to each two successive points is a, also for the last and the
   first one *)
Definition even_around (angle : vec2 -> vec2 -> Q) (v : vec2) (l : list vec2) (a : Q) : Prop :=
  forall x y, In (x, y) (ring_edges l) -> angle (vsub v x) (vsub v y) == a /\ angle (vsub v y) (vsub v x) == a.

(* v and w are opposite corners of a quad *)
Definition opposite (v w : nat) (f : facet) : bool :=
  match fa_sh f with
  | Tri3 _ _ _ => false
  | Quad4 a b c d => (Nat.eqb v a && Nat.eqb w c) || (Nat.eqb v c && Nat.eqb w a) || (Nat.eqb v b && Nat.eqb w d) || (Nat.eqb v d && Nat.eqb w b)
  end.
