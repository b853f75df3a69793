(* What completeness means. *)
From Coq Require Import Qabs.
From Verif Require Import Base GeomModel Chain MeshModel MeshSpec.
Open Scope Q_scope.

(* [(lo, hi)] is the smallest range that contains all the values *)
Definition range_of (xs : list Q) (lo hi : Q) : Prop :=
  (forall x, In x xs -> lo <= x <= hi) /\ In lo xs /\ In hi xs.
(* the bounding box *)
Definition box_of (vs : list vec2) (x0 x1 y0 y1 : Q) : Prop :=
  range_of (map vx vs) x0 x1 /\ range_of (map vy vs) y0 y1.

(* some element has this edge as a side *)
Definition has_element (m : mesh) (e : medge) : Prop :=
  exists f, In f (facets m) /\ (In (ed_1 e, ed_2 e) (sides f) \/ In (ed_2 e, ed_1 e) (sides f)).
(* an interior edge is a side of two elements *)
Definition has_two_elements (m : mesh) (e : medge) : Prop :=
  exists f g, In f (facets m) /\ In g (facets m) /\ f <> g /\
    (In (ed_1 e, ed_2 e) (sides f) \/ In (ed_2 e, ed_1 e) (sides f)) /\
    (In (ed_1 e, ed_2 e) (sides g) \/ In (ed_2 e, ed_1 e) (sides g)).

(* the area of all elements *)
Definition element_area (m : mesh) : Q := sumQ (map (fa_area (mh_pos m)) (facets m)).
