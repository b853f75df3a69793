(* Executable model of the quad refinement (src/algorithm/RefinementStrategy.h)
   on the finished mesh. *)
From Verif Require Import Base GeomModel FacetModel UtilModel BdryModel AdvanceModel MeshModel.

(* ---- elementary mesh operations (Mesh.h) ---- *)
(* Mesh.h:260-264 add_vertex followed by the property calls of the caller: the
   new vertex has address mh_next m *)
Definition add_vertex (m : mesh) (p : vec2) (pr : N) : mesh :=
  MH (fun v => if Nat.eqb v (mh_next m) then p else mh_pos m v)
     (fun v => if Nat.eqb v (mh_next m) then pr else mh_prop m v)
     (mh_verts m ++ [mh_next m]) (mh_quads m) (mh_tris m) (mh_intr m) (mh_bdry m)
     (mh_nbr m) (S (mh_next m)) (mh_area m) (mh_col m) (mh_scale m).
(* EdgeList.h:134-150 add_edge on the interior edges: color INTERIOR_EDGE_COLOR *)
Definition add_intr (m : mesh) (a b : nat) : mesh :=
  MH (mh_pos m) (mh_prop m) (mh_verts m) (mh_quads m) (mh_tris m)
     (mh_intr m ++ [ED (mh_next m) a b interior_edge_color 0%N None None None]) (mh_bdry m)
     (mh_nbr m) (S (mh_next m)) (mh_area m) (mh_col m) (mh_scale m).
(* the same on the boundary edges, with EdgeProperty::on_boundary *)
Definition add_bdry (m : mesh) (a b : nat) (c : Z) : mesh :=
  MH (mh_pos m) (mh_prop m) (mh_verts m) (mh_quads m) (mh_tris m) (mh_intr m)
     (mh_bdry m ++ [ED (mh_next m) a b c e_on_boundary None None None])
     (mh_nbr m) (S (mh_next m)) (mh_area m) (mh_col m) (mh_scale m).
(* Mesh.h:269-281 add_quad (Quad.h:87-104: no neighbours yet; active_ is false)
   followed by color( c ) of the caller *)
Definition add_quad (m : mesh) (a b c d : nat) (col : Z) (act : bool) : mesh :=
  MH (mh_pos m) (mh_prop m) (mh_verts m)
     (mh_quads m ++ [FA (mh_next m) (Quad4 a b c d) col act]) (mh_tris m) (mh_intr m) (mh_bdry m)
     (fun f i => if Nat.eqb f (mh_next m) then None else mh_nbr m f i)
     (S (mh_next m)) (mh_area m) (mh_col m) (mh_scale m).

(* midpoint of an edge: Edge::xy() *)
Definition ed_xy (pos : nat -> vec2) (e : medge) : vec2 :=
  vscale (1 # 2) (vadd (pos (ed_1 e)) (pos (ed_2 e))).

(* Mesh.h:329-356 with Container.h:174-188: an object outside of the square of
   its container's quadtree is not found and stays in the mesh.  The edge lists
   always use the default scale (EdgeList.h, Container.h:22). *)
Definition remove_facets (m : mesh) (ids : list nat) (l : list facet) : list facet :=
  filter (fun f => negb (existsb (Nat.eqb (fa_id f)) ids && in_square (mh_scale m) (fa_xy (mh_pos m) f))) l.
Definition remove_edges (m : mesh) (ids : list nat) (l : list medge) : list medge :=
  filter (fun e => negb (existsb (Nat.eqb (ed_id e)) ids && in_square front_scale (ed_xy (mh_pos m) e))) l.

(* EdgeList.h:489-500 get_edge_nodir on a mesh edge list: the oldest edge joining
   a and b; Mesh.h:243-255 get_edge: interior edges first *)
Definition ed_joins (a b : nat) (e : medge) : bool :=
  (Nat.eqb (ed_1 e) a && Nat.eqb (ed_2 e) b) || (Nat.eqb (ed_2 e) a && Nat.eqb (ed_1 e) b).
Fixpoint ed_oldest (es : list medge) : option medge :=
  match es with
  | [] => None
  | e :: r => match ed_oldest r with
              | None => Some e
              | Some f => if Nat.ltb (ed_id f) (ed_id e) then Some f else Some e
              end
  end.
Definition find_edge (es : list medge) (a b : nat) : option medge := ed_oldest (filter (ed_joins a b) es).
Definition get_edge (m : mesh) (a b : nat) : option medge :=
  match find_edge (mh_intr m) a b with
  | Some e => Some e
  | None => find_edge (mh_bdry m) a b
  end.

(* ---- RefinementStrategy.h:90-311 QuadRefinement ---- *)
(* Edge::sub_vertex_ as a function of the edge's address *)
Definition subs := nat -> option nat.

Definition lor3 (a b c : N) : N := N.lor (N.lor a b) c.

(* RefinementStrategy.h:156-173 body of the loop *)
Definition refine_intr (s : mesh * subs) (e : medge) : mesh * subs :=
  let (m, sub) := s in
  let v := mh_next m in
  let pr := flag_step (N.lor (mh_prop m (ed_1 e)) (mh_prop m (ed_2 e))) (FRemove v_on_boundary) in
  let m1 := add_vertex m (ed_xy (mh_pos m) e) pr in
  (add_intr (add_intr m1 (ed_1 e) v) v (ed_2 e),
   fun k => if Nat.eqb k (ed_id e) then Some v else sub k).

(* RefinementStrategy.h:178-197 *)
Definition refine_bdry (s : mesh * subs) (e : medge) : mesh * subs :=
  let (m, sub) := s in
  let v := mh_next m in
  let pr := N.lor (mh_prop m (ed_1 e)) (mh_prop m (ed_2 e)) in
  let m1 := add_vertex m (ed_xy (mh_pos m) e) pr in
  (add_bdry (add_bdry m1 (ed_1 e) v (ed_col e)) v (ed_2 e) (ed_col e),
   fun k => if Nat.eqb k (ed_id e) then Some v else sub k).

(* the sub vertex of the edge joining a and b; None: null pointer dereferenced *)
Definition sub_of (m : mesh) (sub : subs) (a b : nat) : option nat :=
  match get_edge m a b with Some e => sub (ed_id e) | None => None end.

(* RefinementStrategy.h:202-246 *)
Definition refine_tri (sub : subs) (m : mesh) (t : facet) : outcome mesh :=
  match fa_sh t with
  | Quad4 _ _ _ _ => UB          (* the list of triangles only holds triangles *)
  | Tri3 v1 v3 v5 =>
      match sub_of m sub v1 v3, sub_of m sub v3 v5, sub_of m sub v5 v1 with
      | Some v2, Some v4, Some v6 =>
          let v7 := mh_next m in
          let pr := flag_step (lor3 (mh_prop m v1) (mh_prop m v3) (mh_prop m v5)) (FRemove v_on_boundary) in
          let m := add_vertex m (fa_xy (mh_pos m) t) pr in
          let m := add_quad m v1 v2 v7 v6 (fa_col t) false in
          let m := add_quad m v3 v4 v7 v2 (fa_col t) false in
          let m := add_quad m v5 v6 v7 v4 (fa_col t) false in
          Ok (add_intr (add_intr (add_intr m v2 v7) v4 v7) v6 v7)
      | _, _, _ => UB
      end
  end.

(* RefinementStrategy.h:251-301 *)
Definition refine_quad (sub : subs) (m : mesh) (q : facet) : outcome mesh :=
  match fa_sh q with
  | Tri3 _ _ _ => UB
  | Quad4 v1 v3 v5 v7 =>
      match sub_of m sub v1 v3, sub_of m sub v3 v5, sub_of m sub v5 v7, sub_of m sub v7 v1 with
      | Some v2, Some v4, Some v6, Some v8 =>
          let v9 := mh_next m in
          let pr := flag_step (N.lor (lor3 (mh_prop m v1) (mh_prop m v3) (mh_prop m v5)) (mh_prop m v7))
                              (FRemove v_on_boundary) in
          let m := add_vertex m (fa_xy (mh_pos m) q) pr in
          let m := add_quad m v1 v2 v9 v8 (fa_col q) false in
          let m := add_quad m v3 v4 v9 v2 (fa_col q) false in
          let m := add_quad m v5 v6 v9 v4 (fa_col q) false in
          let m := add_quad m v7 v8 v9 v6 (fa_col q) false in
          Ok (add_intr (add_intr (add_intr (add_intr m v2 v9) v4 v9) v6 v9) v8 v9)
      | _, _, _, _ => UB
      end
  end.

Fixpoint ofold {A B} (f : A -> B -> outcome A) (l : list B) (a : A) : outcome A :=
  match l with [] => Ok a | b :: r => obind (f a b) (ofold f r) end.

(* RefinementStrategy.h:306-320 remove_old_entities *)
Definition remove_old (c m : mesh) : mesh :=
  MH (mh_pos m) (mh_prop m) (mh_verts m)
     (remove_facets m (map fa_id (mh_quads c)) (mh_quads m))
     (remove_facets m (map fa_id (mh_tris c)) (mh_tris m))
     (remove_edges m (map ed_id (mh_intr c)) (mh_intr m))
     (remove_edges m (map ed_id (mh_bdry c)) (mh_bdry m))
     (mh_nbr m) (mh_next m) (mh_area m) (mh_col m) (mh_scale m).

(* RefinementStrategy.h:104-137 refine; c holds the gathered coarse entities *)
Definition refine (c : mesh) : outcome (mesh * bool) :=
  if existsb (fun e => is_some (ed_twin e)) (mh_bdry c) then Ok (c, false)
  else
    let s := fold_left refine_intr (mh_intr c) (c, fun _ => None) in
    let (m, sub) := fold_left refine_bdry (mh_bdry c) s in
    obind (ofold (refine_tri sub) (mh_tris c) m) (fun m =>
    obind (ofold (refine_quad sub) (mh_quads c) m) (fun m =>
    Ok (remove_old c m, true))).
