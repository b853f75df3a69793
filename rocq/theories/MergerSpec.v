(* Specification vocabulary for merging meshes. *)
From Coq Require Import Permutation.
From Verif Require Import Base GeomModel UtilModel Chain AdvanceModel MeshModel MeshSpec QRefineSpec CleanSpec.

(* edge e of r and edge t of d join the same points in opposite directions *)
Definition opposite (r d : mesh) (e t : medge) : Prop :=
  mh_pos r (ed_1 e) = mh_pos d (ed_2 t) /\ mh_pos r (ed_2 e) = mh_pos d (ed_1 t).

(* the boundary edges of r that coincide with a boundary edge of d *)
Definition interface (r d : mesh) (e : medge) : Prop :=
  In e (mh_bdry r) /\ exists t, In t (mh_bdry d) /\ opposite r d e t.

(* no two vertices at one place; no element of r on the same side of the same
   segment as an element of d *)
Definition distinct_points (m : mesh) : Prop :=
  forall v w, In v (mh_verts m) -> In w (mh_verts m) -> mh_pos m v = mh_pos m w -> v = w.
Definition no_overlap (r d : mesh) : Prop :=
  forall a b c e, In (a, b) (all_sides r) -> In (c, e) (all_sides d) -> ~ (mh_pos r a = mh_pos d c /\ mh_pos r b = mh_pos d e).

Definition map_shape (g : nat -> nat) (s : shape) : shape :=
  match s with
  | Tri3 a b c => Tri3 (g a) (g b) (g c)
  | Quad4 a b c d => Quad4 (g a) (g b) (g c) (g d)
  end.
(* copies of elements and edges with the vertices g v *)
Definition image (g : nat -> nat) (f f' : facet) : Prop := fa_sh f' = map_shape g (fa_sh f).
Definition eimage (g : nat -> nat) (e e' : medge) : Prop := ed_1 e' = g (ed_1 e) /\ ed_2 e' = g (ed_2 e).

(* the meshes of a generator around the two that are merged: objects have
   addresses of their own, twin pointers lead to boundary edges, and the twins
   between receiver and donor are exactly the coinciding edges *)
Record side_by_side (r d : mesh) (oth : list mesh) : Prop := {
  sb_ids : NoDup (map ed_id (flat_map mh_bdry (r :: d :: oth)));
  sb_facets : NoDup (map fa_id (flat_map facets (r :: d :: oth)));
  sb_twin : forall e i, In e (flat_map mh_bdry (r :: d :: oth)) -> ed_twin e = Some i ->
    exists t, In t (flat_map mh_bdry (r :: d :: oth)) /\ ed_id t = i;
  sb_left : forall m e i, In m oth -> In e (mh_bdry m) -> ed_l e = Some i -> exists f, In f (facets m) /\ fa_id f = i;
  sb_below : forall m, In m oth -> (forall e, In e (mh_bdry m) -> (ed_id e < mh_next m)%nat) /\
                                   (forall f, In f (facets m) -> (fa_id f < mh_next m)%nat);
  sb_rd : forall e t, In e (mh_bdry r) -> In t (mh_bdry d) -> (ed_twin e = Some (ed_id t) <-> opposite r d e t);
  sb_dr : forall e t, In e (mh_bdry r) -> In t (mh_bdry d) -> (ed_twin t = Some (ed_id e) <-> opposite r d e t);
  sb_dd : forall t t', In t (mh_bdry d) -> In t' (mh_bdry d) -> ed_twin t <> Some (ed_id t')
}.
(* the vertices of d also fit into the square of r *)
Definition fits_into (r d : mesh) : Prop := forall v, In v (mh_verts d) -> in_square (mh_scale r) (mh_pos d v) = true.
Definition all_centred (m : mesh) : Prop := forall f, In f (facets m) -> centred (mh_pos m) f.

(* exactly the ends of boundary edges carry the boundary property *)
Definition at_boundary (m : mesh) (v : nat) : Prop := exists e, In e (mh_bdry m) /\ (ed_1 e = v \/ ed_2 e = v).
Definition marked_exactly (m : mesh) : Prop :=
  forall v, In v (mh_verts m) -> (has_property (mh_prop m v) v_on_boundary = true <-> at_boundary m v).

(* the copy of an element: same shape and orientation; its own colour if it has
   one, otherwise the colour c of the receiver *)
Definition fcopy (g : nat -> nat) (c : Z) (f f' : facet) : Prop :=
  fa_sh f' = map_shape g (fa_sh f) /\ fa_col f' = (if Z.ltb (fa_col f) 0 then c else fa_col f).
(* the copy of a boundary edge keeps colour, properties and neighbour *)
Definition bcopy (g : nat -> nat) (e e' : medge) : Prop :=
  ed_1 e' = g (ed_1 e) /\ ed_2 e' = g (ed_2 e) /\ ed_col e' = ed_col e /\ ed_prop e' = ed_prop e /\ ed_twin e' = ed_twin e.
Definition icopy (g : nat -> nat) (e e' : medge) : Prop :=
  ed_1 e' = g (ed_1 e) /\ ed_2 e' = g (ed_2 e) /\ ed_prop e' = ed_prop e.

(* two meshes that lie side by side *)
Record mergeable (r d : mesh) (oth : list mesh) : Prop := {
  ma_r : sound r;
  ma_d : sound d;
  ma_rc : all_centred r;
  ma_dc : all_centred d;
  ma_rp : distinct_points r;
  ma_dp : distinct_points d;
  ma_apart : no_overlap r d;
  ma_side : side_by_side r d oth;
  ma_fits : fits_into r d
}.
