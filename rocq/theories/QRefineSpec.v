(* Specification vocabulary for the quad refinement. *)
From Verif Require Import Base GeomModel Chain AdvanceModel UtilModel MeshModel MeshSpec.

(* the addresses of a mesh are used once and its elements only use its own
   vertices *)
Record addressed (m : mesh) : Prop := {
  ad_verts : NoDup (mh_verts m);
  ad_corner : forall f v, In f (facets m) -> In v (corners (fa_sh f)) -> In v (mh_verts m);
  ad_vnext : forall v, In v (mh_verts m) -> (v < mh_next m)%nat;
  ad_fnext : forall f, In f (facets m) -> (fa_id f < mh_next m)%nat;
  ad_enext : forall e, In e (all_edges m) -> (ed_id e < mh_next m)%nat
}.

(* all vertices lie in the squares of the quadtrees of the mesh containers and of
   the edge lists *)
Definition fits (m : mesh) : Prop :=
  forall v, In v (mh_verts m) -> in_square (mh_scale m) (mh_pos m v) = true /\
                                 in_square front_scale (mh_pos m v) = true.

Definition no_twins (m : mesh) : Prop := forall e, In e (mh_bdry m) -> ed_twin e = None.

(* covered area, in total and by colour *)
Definition covered (m : mesh) : Q := sumQ (map (fa_area (mh_pos m)) (facets m)).
Definition covered_by (c : Z) (m : mesh) : Q :=
  sumQ (map (fa_area (mh_pos m)) (filter (fun f => Z.eqb (fa_col f) c) (facets m))).

(* boundary edge e is replaced by its two halves in the same direction, with its
   colour *)
Definition halved (m : mesh) (e : medge) (h : medge * medge) : Prop :=
  ed_1 (fst h) = ed_1 e /\ ed_2 (snd h) = ed_2 e /\ ed_2 (fst h) = ed_1 (snd h) /\
  veq (mh_pos m (ed_2 (fst h))) (vscale (1 # 2) (vadd (mh_pos m (ed_1 e)) (mh_pos m (ed_2 e)))) /\
  ed_col (fst h) = ed_col e /\ ed_col (snd h) = ed_col e.
Fixpoint in_pairs {A} (l : list (A * A)) : list A :=
  match l with [] => [] | (x, y) :: r => x :: y :: in_pairs r end.

(* boundary vertices carry the property that protects them *)
Definition boundary_marked (m : mesh) : Prop :=
  forall e, In e (mh_bdry m) -> has_property (mh_prop m (ed_1 e)) v_on_boundary = true /\
                                has_property (mh_prop m (ed_2 e)) v_on_boundary = true.

(* corners in counter-clockwise order, no reflex corner; exact arithmetic *)
Definition strictly_convex (pos : nat -> vec2) (f : facet) : Prop :=
  match fa_sh f with
  | Tri3 a b c => 0 < area2 (pos a) (pos b) (pos c)
  | Quad4 a b c d => 0 < area2 (pos a) (pos b) (pos c) /\ 0 < area2 (pos b) (pos c) (pos d) /\
                     0 < area2 (pos c) (pos d) (pos a) /\ 0 < area2 (pos d) (pos a) (pos b)
  end.

(* a mesh that can be refined *)
Record refinable (m : mesh) : Prop := {
  rb_conf : conforming m;
  rb_addr : addressed m;
  rb_fits : fits m;
  rb_twin : no_twins m
}.
