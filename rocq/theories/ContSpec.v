(* What a mesh has to be like for a meshing attempt to go on where another has
   stopped. *)
From Coq Require Import Permutation.
From Verif Require Import Base Chain GeomSpec UtilModel BdryModel BdrySpec AdvanceModel AdvanceSpec AdvanceGeom MeshModel MeshSpec QRefineModel WindSpec ClearSpec FinModel MixSpec ContModel.
Open Scope Q_scope.

Definition tri_facet (f : facet) : Prop := exists a b c, fa_sh f = Tri3 a b c.
Definition quad_facet (f : facet) : Prop := exists a b c d, fa_sh f = Quad4 a b c d.

(* containers without dangling references, everything in the squares of the
   quadtrees *)
Record laid (m : mesh) : Prop := {
  ld_verts : NoDup (mh_verts m);
  ld_sq : forall v, (v <= list_max (mh_verts m))%nat ->
    in_square (mh_scale m) (mh_pos m v) = true /\ in_square front_scale (mh_pos m v) = true;
  ld_edges : forall e, In e (all_edges m) -> ed_1 e <> ed_2 e /\ In (ed_1 e) (mh_verts m) /\ In (ed_2 e) (mh_verts m);
  ld_vnext : forall v, In v (mh_verts m) -> (v < mh_next m)%nat;
  ld_enext : forall e, In e (all_edges m) -> (ed_id e < mh_next m)%nat;
  ld_tris : forall f, In f (mh_tris m) -> tri_facet f;
  ld_quads : forall f, In f (mh_quads m) -> quad_facet f;
  ld_facets : forall f, In f (facets m) -> fa_act f = true /\ fa_col f = mh_col m /\ (fa_id f < mh_next m)%nat /\
    forall v, In v (corners (fa_sh f)) -> In v (mh_verts m);
  ld_ids : NoDup (map fa_id (facets m))
}.

(* the edges around the region that is to be meshed, as edges of a front *)
Definition outline (k : nat) (m : mesh) : list bedge :=
  map (fun ie => BE (fst ie) (ed_1 (snd ie)) (ed_2 (snd ie)) (ed_col (snd ie)) (ed_prop (snd ie)))
      (combine (seq k (length (mh_bdry m))) (mh_bdry m)).

(* nothing of a mesh is lost later; its elements have the shapes [ss] among others *)
Record lasts (pos : nat -> vec2) (verts : list nat) (ss : list shape) (m : mesh) : Prop := {
  ls_pos : forall v, In v (mh_verts m) -> pos v = mh_pos m v;
  ls_verts : incl (mh_verts m) verts;
  ls_shapes : incl (map fa_sh (facets m)) ss
}.

(* facet pointers are set only where there is an element *)
Record pointed (m : mesh) : Prop := {
  pt_l : forall e, In e (all_edges m) -> ed_l e <> None -> In (ed_1 e, ed_2 e) (all_sides m);
  pt_r : forall e, In e (mh_intr m) -> ed_r e <> None -> In (ed_2 e, ed_1 e) (all_sides m);
  pt_nbr : forall k i, mh_nbr m k i <> None ->
    exists f a b, In f (facets m) /\ fa_id f = k /\ side_at f i = Some (a, b) /\ In (b, a) (all_sides m)
}.

(* two states of the loops that differ only in the addresses and the order of the front
   edges; the vertices of the front are marked in the second one *)
Record same_state (st st2 : mstate) : Prop := {
  ss_pos : ms_pos st2 = ms_pos st;
  ss_verts : ms_verts st2 = ms_verts st;
  ss_intr : ms_intr st2 = ms_intr st;
  ss_tris : ms_tris st2 = ms_tris st;
  ss_quads : ms_quads st2 = ms_quads st;
  ss_area : ms_area st2 = ms_area st;
  ss_col : ms_col st2 = ms_col st;
  ss_front : Permutation (map sig (ms_front st)) (map sig (ms_front st2));
  ss_onf : forall v, In v (ms_verts st) -> ms_onf st2 v = ms_onf st v || existsb (incident v) (ms_front st)
}.

(* a mesh to start with: its boundary edges are the only things in it *)
Record blank (m : mesh) : Prop := {
  bl_laid : laid m;
  bl_tris : mh_tris m = [];
  bl_quads : mh_quads m = [];
  bl_intr : mh_intr m = [];
  bl_some : mh_bdry m <> [];
  bl_eids : NoDup (map ed_id (mh_bdry m));
  bl_kind : forall e, In e (mh_bdry m) -> has_property (ed_prop e) e_on_boundary = true /\ has_property (ed_prop e) e_is_ghost = false /\ ed_l e = None;
  bl_nbr : forall k i, mh_nbr m k i = None;
  bl_area : mh_area m == 0
}.
(* no two boundary edges end at the same vertex *)
Definition unpinched_mesh (m : mesh) : Prop := forall e f, In e (mh_bdry m) -> In f (mh_bdry m) -> ed_2 e = ed_2 f -> e = f.

(* new vertices lie in the squares of the quadtrees *)
Definition ops_in (scale : Q) (os : list fop) : Prop := Forall (op_in scale) os /\ Forall (op_in front_scale) os.

(* meshes that follow from a mesh by attempts without clean up, with the tests of the
   code for the size function rho *)
Inductive continued (rho : vec2 -> Q) (m : mesh) : mesh -> Prop :=
| co_start : continued rho m m
| co_next shape_ok dom inside qual os m1 m2 : continued rho m m1 -> ops_in (mh_scale m1) os ->
    stage (triangle_is_valid rho shape_ok dom) (vertex_is_valid rho inside) qual m1 os = Ok m2 -> continued rho m m2.

(* settings of an attempt with the tests of the code for the size function rho *)
Definition setting_ok (rho : vec2 -> Q) (scale : Q) (a : setting) : Prop :=
  (exists shape_ok dom, se_ok a = triangle_is_valid rho shape_ok dom) /\ (exists inside, se_vok a = vertex_is_valid rho inside) /\
  (forall s e, in_square scale (se_new a s e) = true /\ in_square front_scale (se_new a s e) = true) /\ (0 < se_n a < 2 ^ 31)%Z.
(* attempts whose check fails *)
Inductive halted (m : mesh) : list setting -> mesh -> Prop :=
| ha_start : halted m [] m
| ha_next l m1 a st' r c : halted m l m1 -> loops a m1 = Some (Ok (st', r, c)) ->
    check_mesh_validity (put_back (setup_facet_connectivity m1) st') = false -> halted m (l ++ [a]) (put_back (setup_facet_connectivity m1) st').

(* the edges of the front that the next attempt starts with, and the boundary, as
   directed lines *)
Definition line_of (m : mesh) (e : medge) : vec2 * vec2 := (mh_pos m (ed_1 e), mh_pos m (ed_2 e)).
Definition open_region (m : mesh) (z : vec2) : Q := winding z (map (line_of m) (front_edges (setup_facet_connectivity m))).
Definition whole_region (m : mesh) (z : vec2) : Q := winding z (map (line_of m) (mh_bdry m)).
Definition line_area (m : mesh) (l : list medge) : Q := (1 # 2) * esum vcross (map (line_of m) l).
