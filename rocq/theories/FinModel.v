(* Executable model of the end of Triangulation::generate_elements
   (src/algorithm/Triangulation.h:96-114): the finished mesh, its validity check
   (src/algorithm/EntityChecks.h) and the cleanup passes that depend on it. *)
From Verif Require Import Base GeomModel FacetModel UtilModel BdryModel AdvanceModel MeshModel QRefineModel CleanModel.

(* the elements of the advancing front loops in the containers of the mesh *)
Definition fin_tri (t : tri) : facet := FA (tr_id t) (Tri3 (tr_v1 t) (tr_v2 t) (tr_v3 t)) (tr_col t) (tr_act t).
Definition fin_quad (q : quad) : facet := FA (qu_id q) (Quad4 (qu_v1 q) (qu_v2 q) (qu_v3 q) (qu_v4 q)) (qu_col q) (qu_act q).

(* MeshBuilder.h:226-257: the boundary edges of the mesh are copies of the edges of
   the initial front, [twin] their partners in neighbour meshes.  They have no
   facets yet. *)
Definition fin_bdry (twin : nat -> option nat) (e : bedge) : medge :=
  ED (be_id e) (be_v1 e) (be_v2 e) (be_col e) (be_prop e) None None (twin (be_id e)).
(* Mesh.h:304-308 add_interior_edge: addresses from k on, no facets, no properties *)
Fixpoint fin_intr (k : nat) (l : list (nat * nat)) : list medge :=
  match l with
  | [] => []
  | (a, b) :: r => ED k a b interior_edge_color 0 None None None :: fin_intr (S k) r
  end.

(* EdgeList.h:489-500 get_edge(v1, v2) without direction *)
Definition has_edge (l : list (nat * nat)) (a b : nat) : bool :=
  existsb (fun e => (Nat.eqb (fst e) a && Nat.eqb (snd e) b) || (Nat.eqb (snd e) a && Nat.eqb (fst e) b)) l.
(* MeshingStrategy.h:90-110 add_remaining_front_edges_to_mesh: the interior edges
   of the mesh afterwards; [bd] the boundary edges *)
Fixpoint add_remaining (bd intr : list (nat * nat)) (front : list (nat * nat)) : list (nat * nat) :=
  match front with
  | [] => intr
  | (a, b) :: r =>
      if has_edge intr a b then add_remaining bd intr r
      else if has_edge bd a b then add_remaining bd intr r
      else add_remaining bd (intr ++ [(a, b)]) r
  end.

(* The mesh after add_remaining_front_edges_to_mesh and clear_edges of the front,
   from the state [st] of the prepared mesh and the state [st'] after the loops.
   [prop] are the vertex properties set by prepare_mesh (Front.h:258-290, 500-545,
   MeshBuilder.h:207-220); new vertices have none but on_front. *)
Definition fin_prop (prop : nat -> N) (st st' : mstate) (v : nat) : N :=
  let old := if Nat.ltb v (ms_nv st) then prop v else 0%N in
  let clear := N.ldiff old v_on_front in
  if ms_onf st' v && negb (existsb (incident v) (ms_front st')) then N.lor clear v_on_front else clear.

Definition finished (mesh_scale : Q) (twin : nat -> option nat) (prop : nat -> N) (st st' : mstate) : mesh :=
  let intr := add_remaining (map pair_of (ms_front st)) (ms_intr st') (map pair_of (ms_front st')) in
  let k := ms_ne st in
  MH (ms_pos st') (fin_prop prop st st') (ms_verts st')
     (map fin_quad (ms_quads st')) (map fin_tri (ms_tris st'))
     (fin_intr k intr) (map (fin_bdry twin) (ms_front st)) (fun _ _ => None)
     (ms_nv st' + ms_nt st' + k + length intr) (ms_area st') (ms_col st') mesh_scale.

(* EntityChecks.h:109-170 for one edge: an element at each end has it as a side *)
Definition edge_found (m : mesh) (e : medge) : bool :=
  existsb (fun f => is_some (side_index (fa_sh f) (ed_1 e) (ed_2 e))) (facets_at m (ed_1 e)) &&
  existsb (fun f => is_some (side_index (fa_sh f) (ed_1 e) (ed_2 e))) (facets_at m (ed_2 e)).
(* EntityChecks.h:105-173 check_mesh_validity; the ASSERTs on the properties of
   boundary edges are void in a release build *)
Definition check_mesh_validity (m : mesh) : bool :=
  forallb (edge_found m) (mh_intr m) && forallb (edge_found m) (mh_bdry m).

(* Triangulation.h:100-112 *)
Definition finish (mesh_scale : Q) (twin : nat -> option nat) (prop : nat -> N) (st st' : mstate) : outcome mesh :=
  let m := finished mesh_scale twin prop st st' in
  if check_mesh_validity m then cleanup m else Ok m.
