(* Specification vocabulary for the cleanup passes and the triangle-to-quad
   modification. *)
From Coq Require Import Relations.
From Verif Require Import Base GeomModel Chain AdvanceModel UtilModel MeshModel MeshSpec QRefineSpec.

(* f and g share an edge that ends at v *)
Definition meet_at (m : mesh) (v : nat) (f g : facet) : Prop :=
  In f (facets m) /\ In g (facets m) /\
  exists a b, In (a, b) (sides f) /\ In (b, a) (sides g) /\ (a = v \/ b = v).

(* the elements around a vertex form one fan: from each of them one reaches each
   other one by crossing edges that end at the vertex *)
Definition fans (m : mesh) : Prop :=
  forall v f g, In f (facets m) -> In g (facets m) ->
    In v (corners (fa_sh f)) -> In v (corners (fa_sh g)) -> clos_refl_trans facet (meet_at m v) f g.

Definition positive (m : mesh) : Prop := forall f, In f (facets m) -> 0 < fa_area (mh_pos m) f.

(* an edge without its facet pointers *)
Definition bare (e : medge) : medge :=
  ED (ed_id e) (ed_1 e) (ed_2 e) (ed_col e) (ed_prop e) None None (ed_twin e).

(* same boundary: the same edges with the same colours and properties, at the
   same positions *)
Definition same_boundary (m m' : mesh) : Prop :=
  map bare (mh_bdry m') = map bare (mh_bdry m) /\
  forall e, In e (mh_bdry m) -> mh_pos m' (ed_1 e) = mh_pos m (ed_1 e) /\ mh_pos m' (ed_2 e) = mh_pos m (ed_2 e).

(* q and n share two successive sides, (v1,v2) and (v2,v3) seen from q *)
Definition doubled_at (q n : facet) (v1 v2 v3 : nat) : Prop :=
  In (v1, v2) (sides q) /\ In (v2, v3) (sides q) /\ In (v2, v1) (sides n) /\ In (v3, v2) (sides n).

(* no quad shares two successive sides with an element of k corners *)
Definition no_double (k : nat) (m : mesh) : Prop :=
  forall q n v1 v2 v3, In q (mh_quads m) -> In n (facets m) -> length (corners (fa_sh n)) = k -> ~ doubled_at q n v1 v2 v3.

(* three triangles of one colour form a ring around v *)
Definition three_ring (m : mesh) (v : nat) : Prop :=
  exists f g h x y z, In f (mh_tris m) /\ In g (mh_tris m) /\ In h (mh_tris m) /\
    fa_col g = fa_col f /\ fa_col h = fa_col f /\
    In (v, x) (sides f) /\ In (y, v) (sides f) /\ In (v, y) (sides g) /\ In (z, v) (sides g) /\
    In (v, z) (sides h) /\ In (x, v) (sides h).

(* one colour only *)
Definition one_colour (m : mesh) : Prop := forall f, In f (facets m) -> fa_col f = mh_col m.

(* no triangle is so small that orientation() calls its corners collinear *)
Definition sized (m : mesh) : Prop :=
  forall f, In f (mh_tris m) -> small <= (2 * fa_area (mh_pos m) f) * (2 * fa_area (mh_pos m) f).

(* everything the passes need and keep *)
Record sound (m : mesh) : Prop := {
  sd_conf : conforming m;
  sd_addr : addressed m;
  sd_fits : fits m;
  sd_fans : fans m;
  sd_pos : positive m;
  sd_unset : boundary_unset m
}.
