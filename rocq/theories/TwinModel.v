(* Executable model of the connection between the boundary edges of a new mesh and
   of its neighbour meshes: Front::mark_twin_edges (src/algorithm/Front.h:319-337)
   and the end of MeshBuilder::prepare_mesh (src/algorithm/MeshBuilder.h:226-257).
   All edges have addresses of their own: the edges of the temporary front from
   [fbase], the boundary edges of the new mesh from [nbase] on. *)
From Verif Require Import Base GeomModel UtilModel BdryModel AdvanceModel MeshModel FrontModel MergerModel FinModel.

(* a boundary edge of a neighbour mesh as FrontInitData sees it *)
Definition bdry_de (m : mesh) (e : medge) : dedge :=
  DE (mh_pos m (ed_1 e)) (mh_pos m (ed_2 e)) (ed_col e) (has_property (ed_prop e) e_is_fixed).
Definition bdry_des (m : mesh) : list dedge := map (bdry_de m) (mh_bdry m).

(* FrontInitData.h:158-202 get_neighbor_mesh_edges as in FrontModel.neighbours,
   the edges with their addresses *)
Definition named (m : mesh) : list (nat * dedge) := map (fun e => (ed_id e, bdry_de m e)) (mh_bdry m).
Fixpoint ins_named (v : vec2) (e : nat * dedge) (l : list (nat * dedge)) : list (nat * dedge) :=
  match l with
  | [] => [e]
  | f :: r => if Qltb (de_dist v (snd f)) (de_dist v (snd e)) then f :: ins_named v e r else e :: l
  end.
Definition sort_named (v : vec2) (l : list (nat * dedge)) : list (nat * dedge) := fold_right (ins_named v) [] l.
Definition neighbour_edges (ms : list mesh) (e : dedge) : list (nat * dedge) :=
  fold_left (fun acc m => sort_named (de_a e) (acc ++ filter (fun n => on_de e (snd n)) (filter (fun n => near_de e (snd n)) (named m)))) ms [].

(* FrontInitData.h:118-147, 217-219: edges_[i], where is_twin_edge_[i] *)
Definition refs_of (ms : list mesh) (e : dedge) : list (option nat) :=
  match neighbour_edges ms e with
  | [] => [None]
  | ns => map (fun n => Some (fst n)) ns
  end.
Definition twin_refs (bounds fixed : list dedge) (ms : list mesh) : list (option nat) :=
  flat_map (refs_of ms) bounds ++ map (fun _ => None) fixed.

(* twin_edge->twin_edge(...) *)
Definition retwin_all (ms : list mesh) (i j : nat) : list mesh := map (retwin_mesh i j) ms.
(* Front.h:319-337: the front edge number k and its partner point to each other *)
Fixpoint mark_twin_edges (fbase k : nat) (refs : list (option nat)) (ms : list mesh) : list mesh :=
  match refs with
  | [] => ms
  | None :: r => mark_twin_edges fbase (S k) r ms
  | Some i :: r => mark_twin_edges fbase (S k) r (retwin_all ms i (fbase + k))
  end.
(* the twin of a front edge; edges made by the refinement and ghost edges have none *)
Definition front_twin (refs : list (option nat)) (e : bedge) : option nat := nth (be_id e) refs None.

(* MeshBuilder.h:226-257: the edges of the temporary front that are not fixed
   become boundary edges; [j] is the number of the next one.  Result: the twins of
   the new boundary edges and the neighbour meshes *)
Fixpoint connect (refs : list (option nat)) (nbase j : nat) (es : list bedge) (ms : list mesh) : list (option nat) * list mesh :=
  match es with
  | [] => ([], ms)
  | e :: r =>
      let ms' := match front_twin refs e with Some i => retwin_all ms i (nbase + j) | None => ms end in
      let (tw, ms'') := connect refs nbase (S j) r ms' in
      (front_twin refs e :: tw, ms'')
  end.

Section Prepare.
Variable sub : vec2 -> vec2 -> list vec2.
(* The whole of prepare_mesh: the state of the front, the twins of the boundary
   edges of the new mesh and the neighbour meshes.  The temporary front is deleted
   afterwards. *)
Definition prepare (fbase nbase : nat) (bounds fixed : list dedge) (ms : list mesh) (loose : list vec2) (col : Z) :
    mstate * list (option nat) * list mesh :=
  let d := collect_front_edges bounds fixed (map bdry_des ms) in
  let refs := twin_refs bounds fixed ms in
  let front := filter (fun e => negb (is_fixed e)) (rs_front (init_front sub d)) in
  let (tw, ms') := connect refs nbase 0 front (mark_twin_edges fbase 0 refs ms) in
  (prepared sub d loose col, tw, ms').
End Prepare.

(* The objects of a mesh at other addresses, vertices apart (every mesh has a name
   space of vertices of its own). *)
Definition shift_facet (k : nat) (f : facet) : facet := FA (k + fa_id f) (fa_sh f) (fa_col f) (fa_act f).
Definition shift_edge (k : nat) (e : medge) : medge :=
  ED (k + ed_id e) (ed_1 e) (ed_2 e) (ed_col e) (ed_prop e) (option_map (Nat.add k) (ed_l e)) (option_map (Nat.add k) (ed_r e)) (ed_twin e).
Definition relocate (k : nat) (m : mesh) : mesh :=
  MH (mh_pos m) (mh_prop m) (mh_verts m) (map (shift_facet k) (mh_quads m)) (map (shift_facet k) (mh_tris m))
     (map (shift_edge k) (mh_intr m)) (map (shift_edge k) (mh_bdry m))
     (fun f i => if Nat.leb k f then option_map (Nat.add k) (mh_nbr m (f - k) i) else None)
     (k + mh_next m) (mh_area m) (mh_col m) (mh_scale m).

(* twins of the boundary edges of the new mesh, by number *)
Definition twin_of (tw : list (option nat)) (j : nat) : option nat := nth j tw None.
