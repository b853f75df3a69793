(* What it means that elements cover a region exactly once.  Nothing here is
   code of the project: the winding number counts signed crossings of the half
   line from p to the right. *)
From Verif Require Import Base Chain GeomSpec MeshModel.
Open Scope Q_scope.

(* signed crossing of the half line from p to the right with the directed
   segment from a to b: upwards +1, downwards -1; the lower end of the segment
   belongs to it, the upper one does not *)
Definition crossing (p a b : vec2) : Q :=
  if Qle_bool (vy a) (vy p)
  then if Qle_bool (vy b) (vy p) then 0 else if Qle_bool (det a b p) 0 then 0 else 1
  else if Qle_bool (vy b) (vy p) then if Qle_bool (det b a p) 0 then 0 else - (1) else 0.

(* winding number of a set of directed segments around p *)
Definition winding (p : vec2) (es : list (vec2 * vec2)) : Q := esum (crossing p) es.

(* p inside a counter-clockwise triangle, without / with its sides *)
Definition within (p a b c : vec2) : Prop := 0 < det a b p /\ 0 < det b c p /\ 0 < det c a p.
Definition touching (p a b c : vec2) : Prop := 0 <= det a b p /\ 0 <= det b c p /\ 0 <= det c a p.

(* the diagonal from a to c cuts the quad into two counter-clockwise triangles;
   every simple counter-clockwise quad has such a diagonal *)
Definition cuts (a b c d : vec2) : Prop := 0 < det a b c /\ 0 < det a c d.
Definition on_diagonal (p a b c d : vec2) : Prop :=
  det a c p == 0 /\ 0 < det a b p /\ 0 < det b c p /\ 0 < det c d p /\ 0 < det d a p.
Definition within4 (p a b c d : vec2) : Prop :=
  within p a b c \/ within p a c d \/ on_diagonal p a b c d.
Definition touching4 (p a b c d : vec2) : Prop := touching p a b c \/ touching p a c d.

(* elements that are simple and counter-clockwise *)
Definition simple_shape (pos : nat -> vec2) (s : shape) : Prop :=
  match s with
  | Tri3 a b c => 0 < det (pos a) (pos b) (pos c)
  | Quad4 a b c d => cuts (pos a) (pos b) (pos c) (pos d) \/ cuts (pos b) (pos c) (pos d) (pos a)
  end.
(* interior and closure of such an element *)
Definition inside_shape (pos : nat -> vec2) (s : shape) (p : vec2) : Prop :=
  match s with
  | Tri3 a b c => within p (pos a) (pos b) (pos c)
  | Quad4 a b c d =>
      (cuts (pos a) (pos b) (pos c) (pos d) /\ within4 p (pos a) (pos b) (pos c) (pos d)) \/
      (cuts (pos b) (pos c) (pos d) (pos a) /\ within4 p (pos b) (pos c) (pos d) (pos a))
  end.
Definition in_closure (pos : nat -> vec2) (s : shape) (p : vec2) : Prop :=
  match s with
  | Tri3 a b c => touching p (pos a) (pos b) (pos c)
  | Quad4 a b c d =>
      (cuts (pos a) (pos b) (pos c) (pos d) /\ touching4 p (pos a) (pos b) (pos c) (pos d)) \/
      (cuts (pos b) (pos c) (pos d) (pos a) /\ touching4 p (pos b) (pos c) (pos d) (pos a))
  end.

(* the elements among [ss] that own p: every element with p in its interior,
   none without p in its closure; a point on common sides is given to some of the
   elements that meet there *)
Definition owns (pos : nat -> vec2) (p : vec2) (ss : list shape) (bs : list bool) : Prop :=
  Forall2 (fun s b => (inside_shape pos s p -> b = true) /\ (b = true -> in_closure pos s p)) ss bs.
Definition how_many (bs : list bool) : Q := sumQ (map (fun b : bool => if b then 1 else 0) bs).

(* region described by its winding numbers: the elements own every point as
   often as the region winds around it *)
Definition tiles (pos : nat -> vec2) (ss : list shape) (region : vec2 -> Q) : Prop :=
  forall p, exists bs, owns pos p ss bs /\ how_many bs == region p.
(* a region that winds at most once around every point *)
Definition simple_region (region : vec2 -> Q) : Prop := forall p, region p <= 1.
