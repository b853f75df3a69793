(* Specification vocabulary for smoothing. *)
From Verif Require Import Base GeomModel Chain AdvanceModel UtilModel MeshModel MeshSpec QRefineSpec CleanSpec.

(* vertices that must stay where they are *)
Definition pinned (layers : bool) (m : mesh) (v : nat) : Prop :=
  has_property (mh_prop m v) v_is_fixed = true \/ has_property (mh_prop m v) v_on_boundary = true \/
  (has_property (mh_prop m v) v_in_quad_layer = true /\ layers = false).

(* m' is m with other vertex positions; facet pointers of edges and neighbours of
   elements are not compared *)
Record same_structure (m m' : mesh) : Prop := {
  ss_verts : mh_verts m' = mh_verts m;
  ss_quads : mh_quads m' = mh_quads m;
  ss_tris : mh_tris m' = mh_tris m;
  ss_intr : map bare (mh_intr m') = map bare (mh_intr m);
  ss_bdry : map bare (mh_bdry m') = map bare (mh_bdry m);
  ss_prop : mh_prop m' = mh_prop m;
  ss_next : mh_next m' = mh_next m;
  ss_area : mh_area m' = mh_area m;
  ss_col : mh_col m' = mh_col m
}.

(* corner b between a and c turns left: exactly, and by more than the tolerance
   of the code *)
Definition left_turn (pos : nat -> vec2) (a b c : nat) : Prop := 0 < area2 (pos a) (pos b) (pos c).
Definition clear_turn (pos : nat -> vec2) (a b c : nat) : Prop := is_left (pos a) (pos b) (pos c) = true.

(* the domain lies in the squares of the quadtrees *)
Definition domain_fits (inside : vec2 -> bool) (m : mesh) : Prop :=
  forall p, inside p = true -> in_square (mh_scale m) p = true /\ in_square front_scale p = true.
