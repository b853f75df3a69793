(* Executable model of the advancing front update (src/algorithm/FrontUpdate.h)
   on the mesh containers (src/algorithm/Mesh.h) and the front
   (src/algorithm/Front.h, src/algorithm/EdgeList.h).

   Vertices, edges and elements are numbers (addresses); addresses are handed
   out in order of creation.  [be_id] of a front edge therefore also gives the
   order of the edges in Vertex::edges() (Vertex.h:161 push_back). *)
From Verif Require Import Base GeomModel FacetModel UtilModel BdryModel.

(* Triangle.h:308-313 *)
Record tri := TR { tr_id : nat; tr_v1 : nat; tr_v2 : nat; tr_v3 : nat; tr_act : bool; tr_col : Z }.
(* Quad.h; only read here *)
Record quad := QU { qu_id : nat; qu_v1 : nat; qu_v2 : nat; qu_v3 : nat; qu_v4 : nat; qu_act : bool; qu_col : Z }.

(* Mesh.h:364-376 and the front of the meshing strategy (MeshingStrategy.h:126-130).
   Boundary edges of the mesh are not touched by the front update. *)
Record mstate := MS {
  ms_pos : nat -> vec2;       (* Vertex::xy_ *)
  ms_onf : nat -> bool;       (* VertexProperty::on_front *)
  ms_verts : list nat;        (* verts_ in list order *)
  ms_nv : nat;                (* next vertex address *)
  ms_front : list bedge;      (* front_.edges() in list order *)
  ms_ne : nat;                (* next edge address *)
  ms_intr : list (nat * nat); (* intr_edges_ in list order *)
  ms_tris : list tri;         (* tris_ in list order *)
  ms_nt : nat;                (* next element address *)
  ms_quads : list quad;       (* quads_ *)
  ms_area : Q;                (* mesh_area_ *)
  ms_col : Z                  (* elem_color_ *)
}.

Definition interior (e : bedge) : bool := negb (has_property (be_prop e) e_on_boundary).
Definition ghost (e : bedge) : bool := has_property (be_prop e) e_is_ghost.
Definition incident (v : nat) (e : bedge) : bool := Nat.eqb (be_v1 e) v || Nat.eqb (be_v2 e) v.
Definition joins (a b : nat) (e : bedge) : bool :=
  (Nat.eqb (be_v1 e) a && Nat.eqb (be_v2 e) b) || (Nat.eqb (be_v2 e) a && Nat.eqb (be_v1 e) b).

(* first edge in order of creation *)
Fixpoint oldest (es : list bedge) : option bedge :=
  match es with
  | [] => None
  | e :: r => match oldest r with
              | None => Some e
              | Some f => if Nat.ltb (be_id f) (be_id e) then Some f else Some e
              end
  end.

(* EdgeList.h:489-500 get_edge_nodir: the first edge of v1.edges() which belongs
   to this list and joins v1 and v2 in either direction *)
Definition get_edge_nodir (es : list bedge) (v1 v2 : nat) : option bedge :=
  oldest (filter (joins v1 v2) es).

(* Edge.h: ContainerEntry location of an edge is its midpoint *)
Definition mid (pos : nat -> vec2) (e : bedge) : vec2 :=
  vscale (1 # 2) (vadd (pos (be_v1 e)) (pos (be_v2 e))).

(* the square of a container's quadtree (QuadTree.h:412-415, centre at the
   origin) with the given scale; in_on_rect of Geometry.h:390-397 *)
Definition in_square (scale : Q) (v : vec2) : bool :=
  let h := scale / 2 in
  Qleb (- h) (vx v) && Qleb (- h) (vy v) && Qleb (vx v) h && Qleb (vy v) h.

(* MeshingStrategy.h:130 Front front_ {}: EdgeList has no way to choose the
   scale, Container.h:22 ContainerQuadTreeScale = 10000 *)
Definition front_scale : Q := 10000.

(* Container.h:174-188 remove on the front: an edge whose midpoint is outside of
   the square is not in the tree and stays in the list *)
Definition front_remove (pos : nat -> vec2) (k : nat) (es : list bedge) : list bedge :=
  filter (fun e => negb (Nat.eqb (be_id e) k && in_square front_scale (mid pos e))) es.

(* utils.h:19 *)
Definition interior_edge_color : Z := (-1)%Z.

Section FrontUpdate.
(* scale of the quadtrees of the mesh containers (Mesh.h:39-49) *)
Variable mesh_scale : Q.
(* FrontUpdate.h:303-345 triangle_is_valid, 351-378 vertex_is_valid and
   Triangle::quality with the local mesh size: arbitrary here, see
   [triangle_is_valid] below for the geometric tests *)
Variable tri_ok : mstate -> tri -> bool.
Variable vtx_ok : mstate -> nat -> bool.
Variable qual : mstate -> tri -> Q.

(* Mesh.h:260-264; Vertex.h: a new vertex has no properties *)
Definition add_vertex (st : mstate) (xy : vec2) : mstate * nat :=
  let v := ms_nv st in
  (MS (fun j => if Nat.eqb j v then xy else ms_pos st j)
      (fun j => if Nat.eqb j v then false else ms_onf st j)
      (ms_verts st ++ [v]) (S v) (ms_front st) (ms_ne st) (ms_intr st)
      (ms_tris st) (ms_nt st) (ms_quads st) (ms_area st) (ms_col st), v).

Definition with_tris (st : mstate) (ts : list tri) (n : nat) : mstate :=
  MS (ms_pos st) (ms_onf st) (ms_verts st) (ms_nv st) (ms_front st) (ms_ne st) (ms_intr st)
     ts n (ms_quads st) (ms_area st) (ms_col st).

(* Mesh.h:286-298 with color = -1: the colour of the mesh, inactive *)
Definition add_triangle (st : mstate) (a b c : nat) : mstate * tri :=
  let t := TR (ms_nt st) a b c false (ms_col st) in
  (with_tris st (ms_tris st ++ [t]) (S (ms_nt st)), t).

Definition tri_loc (pos : nat -> vec2) (t : tri) : vec2 :=
  tri_centroid (pos (tr_v1 t)) (pos (tr_v2 t)) (pos (tr_v3 t)).

(* Mesh.h:335-339 (the result of Container::remove is only asserted) *)
Definition remove_triangle (st : mstate) (t : tri) : mstate :=
  if in_square mesh_scale (tri_loc (ms_pos st) t)
  then with_tris st (filter (fun s => negb (Nat.eqb (tr_id s) (tr_id t))) (ms_tris st)) (ms_nt st)
  else st.

(* Mesh.h:323-327 *)
Definition remove_vertex (st : mstate) (v : nat) : mstate :=
  if in_square mesh_scale (ms_pos st v)
  then MS (ms_pos st) (ms_onf st) (filter (fun w => negb (Nat.eqb w v)) (ms_verts st)) (ms_nv st)
          (ms_front st) (ms_ne st) (ms_intr st) (ms_tris st) (ms_nt st) (ms_quads st)
          (ms_area st) (ms_col st)
  else st.

(* the four cases of FrontUpdate.h:71-118: front edges to remove and directed
   edges to append *)
Definition adv_plan (e1 e2 : option bedge) (b1 b2 v : nat) : list bedge * list (nat * nat) :=
  match e1, e2 with
  | Some f1, Some f2 => ([f1; f2], [])
  | Some f1, None => ([f1], [(v, b2)])
  | None, Some f2 => ([f2], [(b1, v)])
  | None, None => ([], [(b1, v); (v, b2)])
  end.

(* EdgeList.h:140-154 add_edge with the default colour: appended, no properties *)
Fixpoint new_edges (n : nat) (ps : list (nat * nat)) : list bedge :=
  match ps with
  | [] => []
  | (a, b) :: r => BE n a b interior_edge_color 0 :: new_edges (S n) r
  end.

Definition pair_of (e : bedge) : nat * nat := (be_v1 e, be_v2 e).

(* FrontUpdate.h:392-410 update_front_state: the vertex still has an edge in the
   front *)
Definition front_state (es : list bedge) (v : nat) : bool := existsb (incident v) es.
Definition set_b (f : nat -> bool) (k : nat) (b : bool) : nat -> bool :=
  fun j => if Nat.eqb j k then b else f j.

Definition activate (k : nat) (ts : list tri) : list tri :=
  map (fun s => if Nat.eqb (tr_id s) k
                then TR (tr_id s) (tr_v1 s) (tr_v2 s) (tr_v3 s) true (tr_col s) else s) ts.

(* FrontUpdate.h:57-138 advance_front.  update_front_state runs before the base
   edge is removed. *)
Definition advance_front (st : mstate) (base : bedge) (v : nat) (t : tri) : mstate :=
  let b1 := be_v1 base in
  let b2 := be_v2 base in
  let pos := ms_pos st in
  let plan := adv_plan (get_edge_nodir (ms_front st) v b1) (get_edge_nodir (ms_front st) v b2) b1 b2 v in
  let f1 := fold_left (fun es e => front_remove pos (be_id e) es) (fst plan) (ms_front st) in
  let f2 := f1 ++ new_edges (ms_ne st) (snd plan) in
  let intr1 := ms_intr st ++ map pair_of (filter interior (fst plan)) in
  let onf1 := set_b (ms_onf st) b1 (front_state f2 b1) in
  let onf2 := set_b onf1 b2 (front_state f2 b2) in
  let onf3 := set_b onf2 v (front_state f2 v) in
  let intr2 := if interior base && negb (ghost base) then intr1 ++ [pair_of base] else intr1 in
  MS pos onf3 (ms_verts st) (ms_nv st)
     (front_remove pos (be_id base) f2) (ms_ne st + length (snd plan)) intr2
     (activate (tr_id t) (ms_tris st)) (ms_nt st) (ms_quads st)
     (ms_area st + tri_area (pos (tr_v1 t)) (pos (tr_v2 t)) (pos (tr_v3 t))) (ms_col st).

(* FrontUpdate.h:246-283 create_possible_triangles; [cands] is the result of
   vertices.get_items (QTreeModel) *)
Fixpoint create_possible (st : mstate) (base : bedge) (cands : list nat) : mstate * list tri :=
  match cands with
  | [] => (st, [])
  | v :: r =>
    if negb (ms_onf st v) then create_possible st base r else
    if orient_eqb (orientation (ms_pos st (be_v1 base)) (ms_pos st (be_v2 base)) (ms_pos st v)) CL
    then create_possible st base r else
    let (st1, t) := add_triangle st (be_v1 base) (be_v2 base) v in
    if tri_ok st1 t then
      let (st2, ts) := create_possible st1 base r in (st2, t :: ts)
    else create_possible (remove_triangle st1 t) base r
  end.

(* std::sort by descending quality, modelled by a stable sort *)
Fixpoint ins_tri (q : tri -> Q) (t : tri) (l : list tri) : list tri :=
  match l with
  | [] => [t]
  | s :: r => if Qltb (q t) (q s) then s :: ins_tri q t r else t :: l
  end.
Definition sort_tris (q : tri -> Q) (l : list tri) : list tri := fold_right (ins_tri q) [] l.

(* FrontUpdate.h:144-175 update_front (with 291-297 choose_best_triangle: all
   but the best triangle are removed).  The base edge must be an edge of the
   front. *)
Definition update_front (st : mstate) (k : nat) (xy : vec2) (cands : list nat)
  : outcome (mstate * option tri) :=
  match find_edge k (ms_front st) with
  | None => UB
  | Some base =>
    let (st1, ts) := create_possible st base cands in
    match sort_tris (qual st1) ts with
    | best :: others =>
      let st2 := fold_left remove_triangle others st1 in
      Ok (advance_front st2 base (tr_v3 best) best, Some best)
    | [] =>
      let (st2, v) := add_vertex st1 xy in
      let (st3, t) := add_triangle st2 (be_v1 base) (be_v2 base) v in
      if vtx_ok st3 v && tri_ok st3 t
      then Ok (advance_front st3 base v t, Some t)
      else Ok (remove_vertex (remove_triangle st3 t) v, None)
    end
  end.

(* FrontUpdate.h:180-206 update_front_exhaustive *)
Definition update_front_exhaustive (st : mstate) (k v : nat) : outcome (mstate * option tri) :=
  match find_edge k (ms_front st) with
  | None => UB
  | Some base =>
    if negb (ms_onf st v) then Ok (st, None) else
    if negb (orient_eqb (orientation (ms_pos st (be_v1 base)) (ms_pos st (be_v2 base)) (ms_pos st v)) CCW)
    then Ok (st, None) else
    let (st1, t) := add_triangle st (be_v1 base) (be_v2 base) v in
    if tri_ok st1 t then Ok (advance_front st1 base v t, Some t)
    else Ok (remove_triangle st1 t, None)
  end.

(* Front.h:168-190 sort_edges: std::list::sort (stable) by length; lengths are
   compared through their squares *)
Definition len2 (pos : nat -> vec2) (e : bedge) : Q := vnorm2 (vsub (pos (be_v2 e)) (pos (be_v1 e))).
Fixpoint ins_edge (lt : bedge -> bedge -> bool) (e : bedge) (l : list bedge) : list bedge :=
  match l with
  | [] => [e]
  | f :: r => if lt f e then f :: ins_edge lt e r else e :: l
  end.
Definition sort_front (pos : nat -> vec2) (ascending : bool) (l : list bedge) : list bedge :=
  fold_right (ins_edge (fun a b => if ascending then Qltb (len2 pos a) (len2 pos b)
                                   else Qltb (len2 pos b) (len2 pos a))) [] l.
Definition sort_edges (st : mstate) (ascending : bool) : mstate :=
  MS (ms_pos st) (ms_onf st) (ms_verts st) (ms_nv st) (sort_front (ms_pos st) ascending (ms_front st))
     (ms_ne st) (ms_intr st) (ms_tris st) (ms_nt st) (ms_quads st) (ms_area st) (ms_col st).

(* One action of the triangulation loops: a front update of the edge with
   address k, with the position of the new vertex and the found vertices; an
   exhaustive try with an end point of a front edge; sorting.  Vertices that are
   not in the mesh are not found by get_items, hence the filter. *)
Inductive fop :=
| FUpdate (k : nat) (xy : vec2) (cands : list nat)
| FExhaust (k v : nat)
| FSort (ascending : bool).

Definition in_list (l : list nat) (v : nat) : bool := existsb (Nat.eqb v) l.

Definition fstep (st : mstate) (o : fop) : outcome (mstate * option tri) :=
  match o with
  | FUpdate k xy cands => update_front st k xy (filter (in_list (ms_verts st)) cands)
  | FExhaust k v => if existsb (incident v) (ms_front st) then update_front_exhaustive st k v else UB
  | FSort a => Ok (sort_edges st a, None)
  end.

Fixpoint frun (st : mstate) (os : list fop) : outcome mstate :=
  match os with
  | [] => Ok st
  | o :: r => obind (fstep st o) (fun x => frun (fst x) r)
  end.

(* the property holds for every accepted triangle of the history and the state
   it was created in *)
Fixpoint accepted (P : mstate -> tri -> Prop) (st : mstate) (os : list fop) : Prop :=
  match os with
  | [] => True
  | o :: r => match fstep st o with
              | Ok (st', Some t) => P st t /\ accepted P st' r
              | Ok (st', None) => accepted P st' r
              | _ => True
              end
  end.
End FrontUpdate.

(* ---- the geometric tests of FrontUpdate.h:303-378 ---- *)
Section Validity.
(* Domain::size_function (SizeModel) *)
Variable rho : vec2 -> Q.
(* FacetGeometry: tri.quality(rho) < min_cell_quality_ and tri.max_angle() >
   max_cell_angle_ need square roots and acos *)
Variable shape_ok : vec2 -> vec2 -> vec2 -> bool.
(* Domain::is_inside (InsideSpec) and the end points of all boundary edges of
   the domain *)
Variable inside : vec2 -> bool.
Variable dom : list (vec2 * vec2).

Definition within (c : vec2) (r2 : Q) (x : vec2) : bool := Qleb (vnorm2 (vsub x c)) r2.
Definition max_len2 (a b c : vec2) : Q :=
  Qmaxb (edge_len2 a b) (Qmaxb (edge_len2 b c) (edge_len2 c a)).

(* The ranges of the code only enter through their squares: range =
   MAX(2*rho, longest edge), Container::get_items = all items of the container
   whose location is within the range (C02).
   FrontUpdate.h:303-345 *)
Definition triangle_is_valid (st : mstate) (t : tri) : bool :=
  let pos := ms_pos st in
  let p := pos (tr_v1 t) in let q := pos (tr_v2 t) in let r := pos (tr_v3 t) in
  let c := tri_centroid p q r in
  let h := rho c in
  let ml := max_len2 p q r in
  let r2 := Qmaxb (4 * h * h) ml in
  tri_valid p q r &&
  (* FacetGeometry.h:292-311 *)
  negb (existsb (fun e => within c r2 (mid pos e) &&
                          line_tri_intersection (pos (be_v1 e)) (pos (be_v2 e)) p q r) (ms_front st)) &&
  (* FacetGeometry.h:190-209: Domain::get_boundary_edges within the longest edge *)
  negb (existsb (fun s => within c ml (vscale (1 # 2) (vadd (fst s) (snd s))) &&
                          line_tri_crossing (fst s) (snd s) p q r) dom) &&
  (* FacetGeometry.h:317-338 *)
  negb (existsb (fun v => within c r2 (pos v) &&
                          negb (Nat.eqb v (tr_v1 t) || Nat.eqb v (tr_v2 t) || Nat.eqb v (tr_v3 t)) &&
                          in_on_triangle (pos v) p q r) (ms_verts st)) &&
  (* FacetGeometry.h:212-245 *)
  negb (existsb (fun s => negb (Nat.eqb (tr_id s) (tr_id t)) && tr_act s &&
                          within c r2 (tri_loc pos s) &&
                          tri_tri_conflict (pos (tr_v1 s)) (pos (tr_v2 s)) (pos (tr_v3 s)) p q r) (ms_tris st)) &&
  (* FacetGeometry.h:251-286 *)
  negb (existsb (fun s => qu_act s &&
                          within c r2 (quad_centroid (pos (qu_v1 s)) (pos (qu_v2 s)) (pos (qu_v3 s)) (pos (qu_v4 s))) &&
                          tri_quad_conflict p q r (pos (qu_v1 s)) (pos (qu_v2 s)) (pos (qu_v3 s)) (pos (qu_v4 s))) (ms_quads st)) &&
  shape_ok p q r.

(* FrontUpdate.h:351-378, FacetGeometry.h:179-185 / 507-517: inactive elements
   count here *)
Definition vertex_is_valid (st : mstate) (v : nat) : bool :=
  let pos := ms_pos st in
  let x := pos v in
  let h := rho x in
  let r2 := 4 * h * h in
  inside x &&
  negb (existsb (fun s => within x r2 (tri_loc pos s) &&
                          negb (Nat.eqb v (tr_v1 s) || Nat.eqb v (tr_v2 s) || Nat.eqb v (tr_v3 s)) &&
                          in_on_triangle x (pos (tr_v1 s)) (pos (tr_v2 s)) (pos (tr_v3 s))) (ms_tris st)) &&
  negb (existsb (fun s => within x r2 (quad_centroid (pos (qu_v1 s)) (pos (qu_v2 s)) (pos (qu_v3 s)) (pos (qu_v4 s))) &&
                          negb (Nat.eqb v (qu_v1 s) || Nat.eqb v (qu_v2 s) || Nat.eqb v (qu_v3 s) || Nat.eqb v (qu_v4 s)) &&
                          in_on_quad x (pos (qu_v1 s)) (pos (qu_v2 s)) (pos (qu_v3 s)) (pos (qu_v4 s))) (ms_quads st)).
End Validity.
