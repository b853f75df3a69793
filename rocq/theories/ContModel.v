(* Executable model of the meshing strategies applied to a mesh that an earlier
   attempt has left (src/algorithm/Triangulation.h:86-115, MeshingStrategy.h:56-110,
   Front.h:113-140): the front and the state of the loops are built from the mesh, and
   what remains of the front is put back into the mesh. *)
From Verif Require Import Base GeomModel FacetModel UtilModel BdryModel AdvanceModel LoopModel MeshModel QRefineModel CleanModel FinModel.

(* Mesh.h:208-222: an interior edge that get_front_edges returns *)
Definition half_open (e : medge) : bool := negb (is_some (ed_l e)) || negb (is_some (ed_r e)).
(* MeshingStrategy.h:79-84 remove_invalid_mesh_edges: Mesh.h:341-348
   remove_interior_edge returns for boundary edges, and EdgeList::remove fails for an
   edge whose midpoint is outside of its quadtree (the ASSERT is void in a release
   build) *)
Definition kept_intr (m : mesh) : list medge :=
  filter (fun e => negb (half_open e && in_square front_scale (ed_xy (mh_pos m) e))) (mh_intr m).
(* Front.h:116-138 init_front(mesh): one front edge for each front edge of the mesh
   with its ends, colour and properties *)
Fixpoint front_from (k : nat) (l : list medge) : list bedge :=
  match l with
  | [] => []
  | e :: r => BE k (ed_1 e) (ed_2 e) (ed_col e) (ed_prop e) :: front_from (S k) r
  end.
Definition tri_of (f : facet) : list tri :=
  match fa_sh f with Tri3 a b c => [TR (fa_id f) a b c (fa_act f) (fa_col f)] | Quad4 _ _ _ _ => [] end.
Definition quad_of (f : facet) : list quad :=
  match fa_sh f with Quad4 a b c d => [QU (fa_id f) a b c d (fa_act f) (fa_col f)] | Tri3 _ _ _ => [] end.
Definition ed_pair (e : medge) : nat * nat := (ed_1 e, ed_2 e).

(* The state of the loops (MeshingStrategy.h:60-84 after setup_facet_connectivity):
   the containers of the mesh and the front; the vertices of front edges are marked.
   New vertices get addresses above those in use.  The front edges are in the order of
   the mesh; the sorting (MeshingStrategy.h:70) is an operation of the history. *)
Definition opened (m : mesh) : mstate :=
  let es := front_from (mh_next m) (front_edges m) in
  MS (mh_pos m) (fun v => has_property (mh_prop m v) v_on_front || existsb (incident v) es)
     (mh_verts m) (S (list_max (mh_verts m))) es (mh_next m + length es)
     (map ed_pair (kept_intr m)) (flat_map tri_of (mh_tris m)) (mh_next m) (flat_map quad_of (mh_quads m))
     (mh_area m) (mh_col m).

(* The interior edges by their ends: edges that were in the mesh before keep their
   record, new ones have no facets and no properties (Mesh.h:304-308) *)
Fixpoint edge_records (old : list medge) (k : nat) (l : list (nat * nat)) : list medge :=
  match l with
  | [] => []
  | (a, b) :: r =>
      match find (fun e => Nat.eqb (ed_1 e) a && Nat.eqb (ed_2 e) b) old with
      | Some e => e
      | None => ED k a b interior_edge_color 0 None None None
      end :: edge_records old (S k) r
  end.
(* The mesh after add_remaining_front_edges_to_mesh and clear_edges of the front
   (MeshingStrategy.h:91-110), from the mesh [m] before and the state [st'] after the
   loops.  Boundary edges and neighbour pointers stay as they are. *)
Definition put_back (m : mesh) (st' : mstate) : mesh :=
  let intr := add_remaining (map ed_pair (mh_bdry m)) (ms_intr st') (map pair_of (ms_front st')) in
  MH (ms_pos st') (fin_prop (mh_prop m) (opened m) st') (ms_verts st')
     (map fin_quad (ms_quads st')) (map fin_tri (ms_tris st'))
     (edge_records (kept_intr m) (ms_ne st') intr) (mh_bdry m) (mh_nbr m)
     (ms_nv st' + ms_nt st' + ms_ne st' + length intr) (ms_area st') (ms_col st') (mh_scale m).

Section Again.
Variable tri_ok : mstate -> tri -> bool.
Variable vtx_ok : mstate -> nat -> bool.
Variable qual : mstate -> tri -> Q.
(* Triangulation.h:88-108 for the operations [os] of the loops (LoopModel.v) *)
Definition stage (m : mesh) (os : list fop) : outcome mesh :=
  let m1 := setup_facet_connectivity m in
  obind (frun (mh_scale m) tri_ok vtx_ok qual (opened m1) os) (fun st' => Ok (put_back m1 st')).
End Again.

(* one call of generate_elements: what the loops depend on *)
Record setting := SET {
  se_ok : mstate -> tri -> bool;              (* TriangleChecks with the bounds for angle and quality *)
  se_vok : mstate -> nat -> bool;
  se_qual : mstate -> tri -> Q;
  se_new : mstate -> bedge -> vec2;
  se_query : mstate -> bedge -> bool -> list nat;
  se_n : Z;                                   (* n_elements_ *)
  se_fuel : nat
}.
(* Triangulation.h:86-102 *)
Definition loops (a : setting) (m : mesh) : option (outcome (mstate * bool * nat)) :=
  generate (mh_scale m) (se_ok a) (se_vok a) (se_qual a) (se_new a) (se_query a) (se_fuel a) (se_n a) (opened (setup_facet_connectivity m)).
(* Triangulation.h:74-115 generate_elements *)
Definition attempt (a : setting) (m : mesh) : option (outcome mesh) :=
  match mh_bdry m with
  | [] => Some (Ok m)
  | _ =>
    match loops a m with
    | Some (Ok (st', _, _)) =>
        let m' := put_back (setup_facet_connectivity m) st' in
        Some (if check_mesh_validity m' then cleanup m' else Ok m')
    | Some UB => Some UB
    | Some Throw => Some Throw
    | None => None
    end
  end.
Fixpoint attempts (m : mesh) (l : list setting) : option (outcome mesh) :=
  match l with
  | [] => Some (Ok m)
  | a :: r =>
    match attempt a m with
    | Some (Ok m') => attempts m' r
    | x => x
    end
  end.
