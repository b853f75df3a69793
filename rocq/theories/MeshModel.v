(* Executable model of the finished mesh: its containers and edge
   classification (src/algorithm/Mesh.h), index assignment and facet
   connectivity (src/algorithm/MeshCleanup.h) and the data handed to the VTU
   writer (src/algorithm/MeshWriter.h).

   Vertices, edges and elements are numbers (addresses), handed out by one
   counter [mh_next] in order of creation, so that comparing addresses also
   gives the order in Vertex::facets() and Vertex::edges() (Vertex.h:161-165,
   push_back on construction). *)
From Verif Require Import Base GeomModel FacetModel UtilModel BdryModel AdvanceModel.

(* Triangle.h / Quad.h vertices_ *)
Inductive shape := Tri3 (a b c : nat) | Quad4 (a b c d : nat).
Definition corners (s : shape) : list nat :=
  match s with Tri3 a b c => [a; b; c] | Quad4 a b c d => [a; b; c; d] end.

(* Triangle.h:308-328, Quad.h: vertices_, color_, active_.  The metrics are
   functions of the vertex positions (update_metrics) and not stored. *)
Record facet := FA { fa_id : nat; fa_sh : shape; fa_col : Z; fa_act : bool }.

(* Edge.h:261-286.  A facet pointer is None for the NullFacet; the twin edge is
   an edge of another mesh.  sub_vertex_ is modelled where it is used
   (QRefineModel.v). *)
Record medge := ED { ed_id : nat; ed_1 : nat; ed_2 : nat; ed_col : Z; ed_prop : N;
                     ed_l : option nat; ed_r : option nat;
                     ed_twin : option nat }.

(* Mesh.h:364-376 *)
Record mesh := MH {
  mh_pos : nat -> vec2;                  (* Vertex::xy_ *)
  mh_prop : nat -> N;                    (* Vertex::properties_ *)
  mh_verts : list nat;                   (* verts_ in list order *)
  mh_quads : list facet;                 (* quads_ *)
  mh_tris : list facet;                  (* tris_ *)
  mh_intr : list medge;                  (* intr_edges_ *)
  mh_bdry : list medge;                  (* bdry_edges_ *)
  mh_nbr : nat -> nat -> option nat;     (* Triangle/Quad::facets_[i] *)
  mh_next : nat;                         (* next address *)
  mh_area : Q;                           (* mesh_area_ *)
  mh_col : Z;                            (* elem_color_ *)
  mh_scale : Q                           (* quadtree scale of verts_, quads_, tris_ *)
}.

Definition facets (m : mesh) : list facet := mh_quads m ++ mh_tris m.

(* ---- Mesh.h:156-225 edge classification ---- *)
Definition is_some {A} (o : option A) : bool := match o with Some _ => true | None => false end.

(* Mesh.h:156-166 *)
Definition valid_interior_edges (m : mesh) : list medge :=
  filter (fun e => is_some (ed_l e) && is_some (ed_r e)) (mh_intr m).
(* Mesh.h:173-182 *)
Definition valid_boundary_edges (m : mesh) : list medge :=
  filter (fun e => is_some (ed_l e)) (mh_bdry m).
(* Mesh.h:189-198 *)
Definition interface_edges (m : mesh) : list medge :=
  filter (fun e => is_some (ed_twin e)) (mh_bdry m).
(* Mesh.h:208-222 *)
Definition front_edges (m : mesh) : list medge :=
  filter (fun e => negb (is_some (ed_l e)) || negb (is_some (ed_r e))) (mh_intr m) ++
  filter (fun e => negb (is_some (ed_l e))) (mh_bdry m).

(* ---- MeshCleanup.h:58-75 assign_mesh_indices ---- *)
(* the index_ members as functions of the address; the loop counts up from k *)
Fixpoint number_from (k : Z) (l : list nat) (idx : nat -> Z) : nat -> Z :=
  match l with
  | [] => idx
  | x :: r => number_from (k + 1) r (fun y => if Nat.eqb y x then k else idx y)
  end.
(* vertex indices and element indices; the element counter continues from the
   quads to the triangles.  Overflow of unsigned int is not modelled. *)
Definition vertex_indices (m : mesh) (old : nat -> Z) : nat -> Z := number_from 0 (mh_verts m) old.
Definition element_indices (m : mesh) (old : nat -> Z) : nat -> Z :=
  let q := number_from 0 (map fa_id (mh_quads m)) old in
  number_from (Z.of_nat (length (mh_quads m))) (map fa_id (mh_tris m)) q.

(* ---- MeshWriter.h:97-190 write_to_vtu: the arrays of the VTU file ---- *)
Fixpoint offsets_from (k : Z) (fs : list facet) : list Z :=
  match fs with
  | [] => []
  | f :: r => let k' := (k + Z.of_nat (length (corners (fa_sh f))))%Z in k' :: offsets_from k' r
  end.
Record vtu := VTU { vt_points : list Q; vt_conn : list Z; vt_off : list Z; vt_types : list Z;
                    vt_color : list Z }.
(* in_quad_layer, is_fixed, the size function and the quality data are not
   modelled *)
Definition vtu_type (f : facet) : Z := match fa_sh f with Tri3 _ _ _ => 5%Z | Quad4 _ _ _ _ => 9%Z end.
Definition vtu_data (m : mesh) (vidx : nat -> Z) : vtu :=
  VTU (flat_map (fun v => [vx (mh_pos m v); vy (mh_pos m v); 0%Q]) (mh_verts m))
      (flat_map (fun f => map vidx (corners (fa_sh f))) (facets m))
      (offsets_from 0 (facets m))
      (map vtu_type (facets m))
      (map fa_col (facets m)).

(* ---- facet connectivity ---- *)
(* Triangle.h:186-202, Quad.h:203-222 get_edge_index; None is -1 *)
Definition side_index (s : shape) (x y : nat) : option nat :=
  let is a b := (Nat.eqb x a && Nat.eqb y b) || (Nat.eqb x b && Nat.eqb y a) in
  match s with
  | Tri3 a b c => if is a b then Some 2%nat else if is b c then Some 0%nat
                  else if is c a then Some 1%nat else None
  | Quad4 a b c d => if is a b then Some 3%nat else if is b c then Some 0%nat
                     else if is c d then Some 1%nat else if is d a then Some 2%nat else None
  end.

(* ContainerEntry::xy_ of an element: its centroid *)
Definition fa_xy (pos : nat -> vec2) (f : facet) : vec2 :=
  match fa_sh f with
  | Tri3 a b c => tri_centroid (pos a) (pos b) (pos c)
  | Quad4 a b c d => quad_centroid (pos a) (pos b) (pos c) (pos d)
  end.
(* Triangle::area(), Quad::area() *)
Definition fa_area (pos : nat -> vec2) (f : facet) : Q :=
  match fa_sh f with
  | Tri3 a b c => tri_area (pos a) (pos b) (pos c)
  | Quad4 a b c d => quad_area (pos a) (pos b) (pos c) (pos d)
  end.

(* elements in order of creation *)
Fixpoint ins_facet (f : facet) (l : list facet) : list facet :=
  match l with
  | [] => [f]
  | g :: r => if Nat.leb (fa_id f) (fa_id g) then f :: l else g :: ins_facet f r
  end.
Definition by_age (l : list facet) : list facet := fold_right ins_facet [] l.

(* Vertex::facets() *)
Definition facets_at (m : mesh) (v : nat) : list facet :=
  by_age (filter (fun f => existsb (Nat.eqb v) (corners (fa_sh f))) (facets m)).

(* the elements of v1.facets() with get_edge_index(v1,v2) >= 0 *)
Definition sharing (m : mesh) (a b : nat) : list (facet * nat) :=
  flat_map (fun f => match side_index (fa_sh f) a b with Some i => [(f, i)] | None => [] end)
           (facets_at m a).

(* e_ptr->facet_l( f ) / facet_r( f ) by is_left, MeshCleanup.h:131-134 *)
Definition set_side (m : mesh) (f : facet) (e : medge) : medge :=
  if is_left (mh_pos m (ed_1 e)) (mh_pos m (ed_2 e)) (fa_xy (mh_pos m) f)
  then ED (ed_id e) (ed_1 e) (ed_2 e) (ed_col e) (ed_prop e) (Some (fa_id f)) (ed_r e) (ed_twin e)
  else ED (ed_id e) (ed_1 e) (ed_2 e) (ed_col e) (ed_prop e) (ed_l e) (Some (fa_id f)) (ed_twin e).

(* MeshCleanup.h:100-147 for one interior edge: the facet pointers of the edge.
   Pointers which are not written keep their old value. *)
Definition connect_intr (m : mesh) (e : medge) : medge :=
  match sharing m (ed_1 e) (ed_2 e) with
  | [] => e
  | [(f, _)] => set_side m f e
  | (f, _) :: (g, _) :: _ => set_side m g (set_side m f e)
  end.
(* the neighbour pointers written for one interior edge, in order *)
Definition nbr_writes (m : mesh) (e : medge) : list ((nat * nat) * option nat) :=
  match sharing m (ed_1 e) (ed_2 e) with
  | [] => []
  | [(f, i)] => [((fa_id f, i), None)]
  | (f, i) :: (g, j) :: _ => [((fa_id f, i), Some (fa_id g)); ((fa_id g, j), Some (fa_id f))]
  end.
Definition write_nbr (nb : nat -> nat -> option nat) (w : (nat * nat) * option nat) : nat -> nat -> option nat :=
  fun f i => if Nat.eqb f (fst (fst w)) && Nat.eqb i (snd (fst w)) then snd w else nb f i.

(* MeshCleanup.h:150-178 for one boundary edge; ASSERT(false) is void in a
   release build: a facet on the right leaves the edge unchanged *)
Definition connect_bdry (m : mesh) (e : medge) : medge :=
  match sharing m (ed_1 e) (ed_2 e) with
  | [] => e
  | (f, _) :: _ =>
      if is_left (mh_pos m (ed_1 e)) (mh_pos m (ed_2 e)) (fa_xy (mh_pos m) f) then set_side m f e else e
  end.

(* MeshCleanup.h:97-180.  Elements and vertices do not change during the loops,
   so the loops over the edges are written as maps and the neighbour pointers as
   one sequence of writes. *)
Definition setup_facet_connectivity (m : mesh) : mesh :=
  MH (mh_pos m) (mh_prop m) (mh_verts m) (mh_quads m) (mh_tris m)
     (map (connect_intr m) (mh_intr m)) (map (connect_bdry m) (mh_bdry m))
     (fold_left write_nbr (flat_map (nbr_writes m) (mh_intr m)) (mh_nbr m))
     (mh_next m) (mh_area m) (mh_col m) (mh_scale m).
