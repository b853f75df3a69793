(* Specification vocabulary for the triangle-to-quad modification. *)
From Coq Require Import Permutation.
From Verif Require Import Base GeomModel Chain AdvanceModel MeshModel MeshSpec.

Definition is_tri (f : facet) : Prop := length (corners (fa_sh f)) = 3%nat.
Definition is_quad (f : facet) : Prop := length (corners (fa_sh f)) = 4%nat.

(* the facet pointers of interior edges are null or show one of the two elements
   at the edge, triangles on the correct side *)
Definition shows (m : mesh) (a b : nat) (o : option nat) : Prop :=
  forall i, o = Some i -> exists f, In f (facets m) /\ fa_id f = i /\
    (In (a, b) (sides f) \/ is_quad f /\ In (b, a) (sides f)).
Definition well_sided (m : mesh) : Prop :=
  forall e, In e (mh_intr m) -> shows m (ed_1 e) (ed_2 e) (ed_l e) /\ shows m (ed_2 e) (ed_1 e) (ed_r e).

(* the code finds each triangle on the left of its sides *)
Definition tris_centred (m : mesh) : Prop := forall f, In f (mh_tris m) -> centred (mh_pos m) f.

(* quad h is triangle l and triangle r without their common side *)
Definition joined (l r h : facet) : Prop :=
  is_tri l /\ is_tri r /\ is_quad h /\ exists a b, Permutation (sides l ++ sides r) ((a, b) :: (b, a) :: sides h).

(* no two triangles have a common side *)
Definition tris_apart (m : mesh) : Prop :=
  forall f g a b, In f (mh_tris m) -> In g (mh_tris m) -> In (a, b) (sides f) -> ~ In (b, a) (sides g).
