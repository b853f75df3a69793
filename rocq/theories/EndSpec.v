(* What a parameter file asks of the mesh. *)
From Verif Require Import Base Chain GeomSpec UtilModel FacetModel MeshModel MeshSpec BdryModel BdrySpec BdryProofs WindSpec FrontModel.
Open Scope Q_scope.

(* the points inside the outer polygon and outside of all others *)
Definition described (outer : list vec2) (holes : list (list vec2)) (p : vec2) : Prop :=
  ~ winding p (ring_edges outer) == 0 /\ forall l, In l holes -> winding p (ring_edges l) == 0.

(* the elements of a mesh cover such a region: no two overlap, every point of the
   region is in an element, and no element reaches beyond it *)
Record fills (m : mesh) (outer : list vec2) (holes : list (list vec2)) : Prop := {
  fl_apart : forall i j f g p, i <> j -> nth_error (facets m) i = Some f -> nth_error (facets m) j = Some g ->
    ~ (inside_shape (mh_pos m) (fa_sh f) p /\ inside_shape (mh_pos m) (fa_sh g) p);
  fl_all : forall p, described outer holes p -> exists f, In f (facets m) /\ in_closure (mh_pos m) (fa_sh f) p;
  fl_only : forall p f, In f (facets m) -> inside_shape (mh_pos m) (fa_sh f) p -> described outer holes p
}.

(* both ends of a segment are on a side of a polygon *)
Definition along (l : list vec2) (p q : vec2) : Prop :=
  exists a b s t, In (a, b) (ring_edges l) /\ 0 <= s <= 1 /\ 0 <= t <= 1 /\ veq p (on_seg a b s) /\ veq q (on_seg a b t).

(* Mesh generation reads the boundaries of the domain as a list of edges
   (FrontInitData.h:123-137 goes through the edges of all boundaries in order). *)
Definition file_edges (store : list vinfo) (bds : list (bdry_type * elist)) : list dedge :=
  flat_map (fun b => map (fun e => DE (store_pos store (be_v1 e)) (store_pos store (be_v2 e)) (be_col e) false) (el_edges (snd b))) bds.
