(* Specification vocabulary for finished meshes, independent of the way the
   code finds neighbours and indices. *)
From Verif Require Import Base GeomModel Chain MeshModel.

(* directed sides of an element: corner to next corner *)
Definition sides (f : facet) : list (nat * nat) := ring_edges (corners (fa_sh f)).
Definition all_sides (m : mesh) : list (nat * nat) := flat_map sides (facets m).
Definition all_edges (m : mesh) : list medge := mh_intr m ++ mh_bdry m.

(* the side of f opposite to / numbered by i in the element data structure
   (Triangle.h:172-185, Quad.h:186-202): from corner i+1 to corner i+2 *)
Definition side_at (f : facet) (i : nat) : option (nat * nat) :=
  match fa_sh f, i with
  | Tri3 a b c, 0%nat => Some (b, c)
  | Tri3 a b c, 1%nat => Some (c, a)
  | Tri3 a b c, 2%nat => Some (a, b)
  | Quad4 a b c d, 0%nat => Some (b, c)
  | Quad4 a b c d, 1%nat => Some (c, d)
  | Quad4 a b c d, 2%nat => Some (d, a)
  | Quad4 a b c d, 3%nat => Some (a, b)
  | _, _ => None
  end.

Definition same_pair (e f : medge) : Prop :=
  (ed_1 e = ed_1 f /\ ed_2 e = ed_2 f) \/ (ed_1 e = ed_2 f /\ ed_2 e = ed_1 f).

(* Conforming: elements meet along whole edges.  Every interior edge has one
   element on each side, every boundary edge exactly one element on its left,
   every element side is an edge and no edge is doubled. *)
Record conforming (m : mesh) : Prop := {
  cf_ids : NoDup (map fa_id (facets m));
  cf_corners : forall f, In f (facets m) -> NoDup (corners (fa_sh f));
  cf_quads : forall f, In f (mh_quads m) -> exists a b c d, fa_sh f = Quad4 a b c d;
  cf_tris : forall f, In f (mh_tris m) -> exists a b c, fa_sh f = Tri3 a b c;
  cf_sides : NoDup (all_sides m);
  cf_intr : forall e, In e (mh_intr m) ->
    In (ed_1 e, ed_2 e) (all_sides m) /\ In (ed_2 e, ed_1 e) (all_sides m);
  cf_bdry : forall e, In e (mh_bdry m) ->
    In (ed_1 e, ed_2 e) (all_sides m) /\ ~ In (ed_2 e, ed_1 e) (all_sides m);
  cf_cover : forall a b, In (a, b) (all_sides m) ->
    exists e, In e (all_edges m) /\ ((ed_1 e = a /\ ed_2 e = b) \/ (ed_1 e = b /\ ed_2 e = a));
  cf_eids : NoDup (map ed_id (all_edges m));
  cf_single : forall e f, In e (all_edges m) -> In f (all_edges m) -> same_pair e f -> e = f
}.

(* sides on the mesh boundary have never been given a neighbour *)
Definition boundary_unset (m : mesh) : Prop :=
  forall f i a b, In f (facets m) -> side_at f i = Some (a, b) ->
    ~ In (b, a) (all_sides m) -> mh_nbr m (fa_id f) i = None.

(* [g] lies on the other side of side i of [f] *)
Definition across (m : mesh) (f : facet) (i : nat) (g : facet) : Prop :=
  exists a b, side_at f i = Some (a, b) /\ In g (facets m) /\ In (b, a) (sides g).

(* element [f] lies strictly to the left of the line through each of its sides,
   judged by the point used by the code for an element *)
Definition centred (pos : nat -> vec2) (f : facet) : Prop :=
  forall a b, In (a, b) (sides f) -> is_left (pos a) (pos b) (fa_xy pos f) = true /\
                                     is_left (pos b) (pos a) (fa_xy pos f) = false.
