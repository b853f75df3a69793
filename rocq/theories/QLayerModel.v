(* Executable model of quad layers (src/algorithm/QuadLayering.h) on top of the
   advancing front (AdvanceModel). *)
From Verif Require Import Base GeomModel FacetModel UtilModel BdryModel AdvanceModel LoopModel.
Open Scope Q_scope.

(* ---- the front as a linked list (EdgeList.h, Edge.h) ---- *)
(* Edge.h:203-221 *)
Definition get_prev_edge (es : list bedge) (e : bedge) : option bedge :=
  oldest (filter (fun f => Nat.eqb (be_v2 f) (be_v1 e) && negb (Nat.eqb (be_id f) (be_id e))) es).
(* EdgeList.h:329-363 get_edge(v, 1) and get_edge(v, 2) *)
Definition edge_from (es : list bedge) (v : nat) : option bedge := oldest (filter (fun e => Nat.eqb (be_v1 e) v) es).
Definition edge_to (es : list bedge) (v : nat) : option bedge := oldest (filter (fun e => Nat.eqb (be_v2 e) v) es).
(* EdgeList.h:369-391 get_closest_vertex: None is the null pointer that is
   dereferenced (empty list, or all vertices at a distance of 1e5 and more) *)
Definition closest_vertex (pos : nat -> vec2) (es : list bedge) (xy : vec2) : option nat :=
  snd (fold_left (fun acc e => let d := vnorm2 (vsub xy (pos (be_v1 e))) in
                               if Qleb (fst acc) d then acc else (d, Some (be_v1 e)))
                 es (10000000000, None)).
(* EdgeList.h:282-303 is_traversable: at most [n] = edges_.size() steps *)
Fixpoint reaches (n : nat) (es : list bedge) (e stop : bedge) : bool :=
  match n with
  | O => false
  | S n' => match get_next_edge es e with
            | None => false
            | Some f => if Nat.eqb (be_id f) (be_id stop) then true else reaches n' es f stop
            end
  end.
(* do ... while: at least one step is made *)
Definition is_traversable (es : list bedge) (e stop : bedge) : bool := reaches (Nat.max 1 (length es)) es e stop.

(* QuadLayering.h:65-79 the constructor of QuadLayerVertices: the base edges.
   A missing successor is a null pointer; Throw: more than [n] steps. *)
Fixpoint base_edges (n : nat) (es : list bedge) (e stop : bedge) : outcome (list bedge) :=
  match n with
  | O => Throw
  | S n' => match get_next_edge es e with
            | None => UB
            | Some f => if Nat.eqb (be_id f) (be_id stop) then Ok [e; stop]
                        else obind (base_edges n' es f stop) (fun l => Ok (e :: l))
            end
  end.

(* Mesh, front, boundary edges of the mesh and VertexProperty::in_quad_layer *)
Record qstate := QS { q_m : mstate; q_bdry : list bedge; q_in : nat -> bool }.
Definition on_mesh (st : qstate) (m : mstate) : qstate := QS m (q_bdry st) (q_in st).

(* a base edge with its height, the coordinates projected from its vertices and
   the vertices created for them (QuadLayering.h:507-517) *)
Record lcell := LC { lc_e : bedge; lc_h : Q; lc_p1 : vec2; lc_p2 : vec2; lc_v1 : option nat; lc_v2 : option nat }.

Section QuadLayer.
(* VecND::norm; sin of half the angle, cosine of the angle and the test
   angle <= angle_factor_ * pi/2 of two vectors (VecND.h:511-516) *)
Variable norm : vec2 -> Q.
Variable sin_half : vec2 -> vec2 -> Q.
Variable cos_ang : vec2 -> vec2 -> Q.
Variable sharp : vec2 -> vec2 -> bool.
(* Domain::size_function *)
Variable rho : vec2 -> Q.
(* as in AdvanceModel; [query] is vertices.get_items(position, range) *)
Variable mesh_scale : Q.
Variable tri_ok : mstate -> tri -> bool.
Variable vtx_ok : mstate -> nat -> bool.
Variable qual : mstate -> tri -> Q.
Variable query : mstate -> vec2 -> Q -> list nat.
Notation fstep := (fstep mesh_scale tri_ok vtx_ok qual).
Notation remove_triangle := (remove_triangle mesh_scale).
Notation remove_vertex := (remove_vertex mesh_scale).

(* QuadLayering.h:924-975 find_start_and_ending_edges.  Ok None: false. *)
Definition find_ends (st : mstate) (xy_start xy_end : vec2) : outcome (option (bedge * bedge * bool)) :=
  let es := ms_front st in
  let pos := ms_pos st in
  match closest_vertex pos es xy_start, closest_vertex pos es xy_end with
  | Some vs, Some ve =>
    match edge_from es vs, edge_to es ve with
    | Some e_start, Some e_end =>
      if negb (is_traversable es e_start e_end) then Ok None else
      if Nat.eqb vs ve then
        match get_next_edge es e_start with
        | Some e_next =>
            if sharp (vsub (pos (be_v1 e_end)) (pos (be_v2 e_end))) (vsub (pos (be_v2 e_start)) (pos (be_v2 e_end)))
            then Ok (Some (e_next, e_start, true)) else Ok (Some (e_start, e_end, true))
        | None => Ok (Some (e_start, e_end, true))
        end
      else Ok (Some (e_start, e_end, false))
    | _, _ => UB
    end
  | _, _ => UB
  end.

(* Edge.h:238-246 *)
Definition elen (pos : nat -> vec2) (e : bedge) : Q := norm (vsub (pos (be_v2 e)) (pos (be_v1 e))).
Definition enormal (pos : nat -> vec2) (e : bedge) : vec2 :=
  let d := vsub (pos (be_v2 e)) (pos (be_v1 e)) in
  V2 (- (vy d / norm d)) (vx d / norm d).

(* QuadLayering.h:478-500 add_quadlayer_edge *)
Definition new_cell (pos : nat -> vec2) (height : Q) (e : bedge) : lcell :=
  let h := Qminb height (elen pos e) in
  LC e h (vadd (pos (be_v1 e)) (vscale h (enormal pos e))) (vadd (pos (be_v2 e)) (vscale h (enormal pos e))) None None.
Definition set_h (c : lcell) (h : Q) : lcell := LC (lc_e c) h (lc_p1 c) (lc_p2 c) (lc_v1 c) (lc_v2 c).
(* QuadLayering.h:120-136 smooth_heights: in place, the first and the last one
   stay *)
Fixpoint smooth_from (pos : nat -> vec2) (prev : Q) (cs : list lcell) : list lcell :=
  match cs with
  | [] => []
  | c :: r =>
      match r with
      | [] => cs
      | d :: _ =>
          let h := Qminb (rho (mid pos (lc_e c))) ((prev + lc_h c + lc_h d) * (1 # 3)) in
          set_h c h :: smooth_from pos h r
      end
  end.
Definition smooth_heights (pos : nat -> vec2) (cs : list lcell) : list lcell :=
  match cs with [] => [] | c :: r => c :: smooth_from pos (lc_h c) r end.

(* QuadLayering.h:185-218 adjust_projected_vertex_coordinates: None if the
   coordinates are left as they are *)
Definition adjusted (pos : nat -> vec2) (c d : lcell) : option vec2 :=
  let p := pos (be_v1 (lc_e c)) in
  let q := pos (be_v1 (lc_e d)) in
  let r := pos (be_v2 (lc_e d)) in
  if is_left p r q && sharp (vsub p q) (vsub r q) then None else
  let n := vscale (1 # 2) (vadd (enormal pos (lc_e c)) (enormal pos (lc_e d))) in
  let l := (1 # 2) * (lc_h c + lc_h d) in
  Some (vadd q (vscale (l / (norm n * sin_half (vsub p q) (vsub r q))) n)).
Definition set_p1 (c : lcell) (x : option vec2) : lcell :=
  match x with Some p => LC (lc_e c) (lc_h c) p (lc_p2 c) (lc_v1 c) (lc_v2 c) | None => c end.
Definition set_p2 (c : lcell) (x : option vec2) : lcell :=
  match x with Some p => LC (lc_e c) (lc_h c) (lc_p1 c) p (lc_v1 c) (lc_v2 c) | None => c end.
(* QuadLayering.h:147-149 *)
Fixpoint adjust_inner (pos : nat -> vec2) (c : lcell) (r : list lcell) : list lcell :=
  match r with
  | [] => [c]
  | d :: r' => let x := adjusted pos c d in set_p2 c x :: adjust_inner pos (set_p1 d x) r'
  end.
Definition adjust_all (pos : nat -> vec2) (cs : list lcell) : list lcell :=
  match cs with [] => [] | c :: r => adjust_inner pos c r end.
(* QuadLayering.h:151-154: the last base edge with the first one *)
Definition upd_first (f : lcell -> lcell) (cs : list lcell) : list lcell :=
  match cs with [] => [] | c :: r => f c :: r end.
Definition upd_last (f : lcell -> lcell) (cs : list lcell) : list lcell := rev (upd_first f (rev cs)).
Definition adjust_closing (pos : nat -> vec2) (cs : list lcell) : list lcell :=
  match cs, rev cs with
  | first :: _, last :: _ =>
      let x := adjusted pos last first in
      upd_last (fun c => set_p2 c x) (upd_first (fun c => set_p1 c x) cs)
  | _, _ => cs
  end.

(* MeshCleanup.h:39-48 set_vertex_coordinates.  Container::update dereferences
   the leaf of the old location. *)
Definition shown_xy (pos : nat -> vec2) (a b : nat) : vec2 := vscale (1 # 2) (vadd (pos a) (pos b)).
Definition movable (st : qstate) (v : nat) : bool :=
  let m := q_m st in let pos := ms_pos m in
  in_square mesh_scale (pos v) &&
  forallb (fun e => negb (incident v e) || in_square front_scale (mid pos e)) (ms_front m ++ q_bdry st) &&
  forallb (fun e => negb (Nat.eqb (fst e) v || Nat.eqb (snd e) v) || in_square front_scale (shown_xy pos (fst e) (snd e))) (ms_intr m) &&
  forallb (fun t => negb (Nat.eqb (tr_v1 t) v || Nat.eqb (tr_v2 t) v || Nat.eqb (tr_v3 t) v) || in_square mesh_scale (tri_loc pos t)) (ms_tris m) &&
  forallb (fun q => negb (Nat.eqb (qu_v1 q) v || Nat.eqb (qu_v2 q) v || Nat.eqb (qu_v3 q) v || Nat.eqb (qu_v4 q) v) ||
                    in_square mesh_scale (quad_centroid (pos (qu_v1 q)) (pos (qu_v2 q)) (pos (qu_v3 q)) (pos (qu_v4 q)))) (ms_quads m).
Definition with_pos (m : mstate) (p : nat -> vec2) : mstate :=
  MS p (ms_onf m) (ms_verts m) (ms_nv m) (ms_front m) (ms_ne m) (ms_intr m) (ms_tris m) (ms_nt m) (ms_quads m) (ms_area m) (ms_col m).
Definition move_vertex (st : qstate) (v : nat) (xy : vec2) : outcome qstate :=
  if movable st v
  then Ok (on_mesh st (with_pos (q_m st) (fun j => if Nat.eqb j v then xy else ms_pos (q_m st) j)))
  else UB.

(* insertion of a vertex before the vertex [w] (Container::insert) *)
Fixpoint insert_vertex (w v : nat) (l : list nat) : list nat :=
  match l with [] => [v] | x :: r => if Nat.eqb x w then v :: x :: r else x :: insert_vertex w v r end.
(* EdgeList.h:183-225 split_edge on the front; None: the pair of null pointers.
   The new vertex takes the properties of both ends. *)
Definition split_front (m : mstate) (e : bedge) (s : Q) : option (mstate * nat) :=
  if Qleb 1 s || Qleb s 0 then None else
  let v := ms_nv m in
  let a := be_v1 e in let b := be_v2 e in
  let xy := vadd (vscale s (ms_pos m a)) (vscale (1 - s) (ms_pos m b)) in
  let pos := fun j => if Nat.eqb j v then xy else ms_pos m j in
  let k := ms_ne m in
  let es := insert_before (be_id e) (BE k a v (be_col e) (be_prop e)) (ms_front m) in
  let es := insert_before (be_id e) (BE (k + 1) v b (be_col e) (be_prop e)) es in
  Some (MS pos (set_b (ms_onf m) v (ms_onf m a || ms_onf m b)) (insert_vertex b v (ms_verts m)) (S v)
           (front_remove pos (be_id e) es) (k + 2) (ms_intr m) (ms_tris m) (ms_nt m) (ms_quads m) (ms_area m) (ms_col m), v).
(* QuadLayering.h:311-337 / 445-466: the same for the boundary edge of the mesh.
   The new edges are inserted before the successor of the old one, a missing
   successor is a null pointer. *)
Definition split_bdry (pos : nat -> vec2) (k : nat) (bs : list bedge) (e : bedge) (v : nat) : outcome (list bedge) :=
  match get_edge_nodir bs (be_v1 e) (be_v2 e) with
  | None => Ok bs
  | Some b =>
      match get_next_edge bs b with
      | None => UB
      | Some n =>
          let bs := front_remove pos (be_id b) bs in
          let bs := insert_before (be_id n) (BE k (be_v1 e) v (be_col e) (be_prop e)) bs in
          Ok (insert_before (be_id n) (BE (k + 1) v (be_v2 e) (be_col e) (be_prop e)) bs)
      end
  end.
(* both; Scenario 2 of 294-344 and 428-473.  The boundary edge is looked up
   before, the addresses of the new edges come after those of the front. *)
Definition split_both (st : qstate) (e : bedge) (s : Q) : outcome (qstate * vec2) :=
  match split_front (q_m st) e s with
  | None => UB
  | Some (m, v) =>
      obind (split_bdry (ms_pos m) (ms_ne m) (q_bdry st) e v) (fun bs =>
      let m := MS (ms_pos m) (ms_onf m) (ms_verts m) (ms_nv m) (ms_front m) (ms_ne m + 2) (ms_intr m) (ms_tris m) (ms_nt m)
                  (ms_quads m) (ms_area m) (ms_col m) in
      Ok (QS m bs (q_in st), ms_pos m v))
  end.

(* QuadLayering.h:262-345 place_start_vertex and 372-475 place_end_vertex: [e] is
   the neighbouring edge, [w] its far vertex, [v] the common one, [p] the projected
   coordinate, [h] the height, [flip] whether [e] starts at [w] *)
Definition place (st : qstate) (e : bedge) (w v : nat) (left_of : bool) (h : Q) (p : vec2) (start : bool) : outcome (qstate * vec2) :=
  let pos := ms_pos (q_m st) in
  if negb left_of then Ok (st, p) else
  if Qltb (vnorm2 (vsub (pos w) p)) (h * h) then
    let d1 := vsub (pos w) (pos v) in
    let d2 := vsub p (pos v) in
    let new := vadd (pos v) (vscale (vdot d1 d2 / vnorm2 d1) d1) in
    obind (move_vertex st w new) (fun st' => Ok (st', new))
  else if Qltb h (elen pos e) then
    let c := cos_ang (vsub (pos w) (pos v)) (vsub p (pos v)) in
    let sf := h * c / elen pos e in
    split_both st e (if start then sf else 1 - sf)
  else Ok (st, pos w).
Definition place_start (st : qstate) (e_start : bedge) (c : lcell) : outcome (qstate * vec2) :=
  let m := q_m st in
  match get_prev_edge (ms_front m) e_start with
  | None => UB
  | Some e => place st e (be_v1 e) (be_v1 (lc_e c))
                (is_left (ms_pos m (be_v1 (lc_e c))) (ms_pos m (be_v2 (lc_e c))) (ms_pos m (be_v1 e))) (lc_h c) (lc_p1 c) true
  end.
Definition place_end (st : qstate) (e_end : bedge) (c : lcell) : outcome (qstate * vec2) :=
  let m := q_m st in
  match get_next_edge (ms_front m) e_end with
  | None => UB
  | Some e => place st e (be_v2 e) (be_v2 (lc_e c))
                (is_left (ms_pos m (be_v1 (lc_e c))) (ms_pos m (be_v2 (lc_e c))) (ms_pos m (be_v2 e))) (lc_h c) (lc_p2 c) false
  end.

(* QuadLayering.h:144-162 setup_vertex_projection.  The base edges do not contain
   the neighbouring ones, so only their vertices may move. *)
Definition setup_projection (st : qstate) (closed : bool) (e_start e_end : bedge) (cs : list lcell) : outcome (qstate * list lcell) :=
  let cs := adjust_all (ms_pos (q_m st)) cs in
  if closed then Ok (st, adjust_closing (ms_pos (q_m st)) cs) else
  match cs with
  | [] => UB
  | first :: _ =>
      obind (place_start st e_start first) (fun x =>
      let cs := upd_first (fun c => set_p1 c (Some (snd x))) cs in
      match rev cs with
      | [] => UB
      | last :: _ =>
          obind (place_end (fst x) e_end last) (fun y =>
          Ok (fst y, upd_last (fun c => set_p2 c (Some (snd y))) cs))
      end)
  end.

(* interior edges: EdgeList::get_edge without direction and Mesh.h:347-351 *)
Definition joins2 (a b : nat) (e : nat * nat) : bool :=
  (Nat.eqb (fst e) a && Nat.eqb (snd e) b) || (Nat.eqb (snd e) a && Nat.eqb (fst e) b).
Fixpoint drop_first (f : nat * nat -> bool) (l : list (nat * nat)) : list (nat * nat) :=
  match l with [] => [] | e :: r => if f e then r else e :: drop_first f r end.
Definition remove_interior (m : mstate) (a b : nat) : mstate :=
  if in_square front_scale (shown_xy (ms_pos m) a b)
  then MS (ms_pos m) (ms_onf m) (ms_verts m) (ms_nv m) (ms_front m) (ms_ne m) (drop_first (joins2 a b) (ms_intr m))
          (ms_tris m) (ms_nt m) (ms_quads m) (ms_area m) (ms_col m)
  else m.
Definition add_quad (m : mstate) (a b c d : nat) : mstate :=
  MS (ms_pos m) (ms_onf m) (ms_verts m) (ms_nv m) (ms_front m) (ms_ne m) (ms_intr m) (ms_tris m) (S (ms_nt m))
     (ms_quads m ++ [QU (ms_nt m) a b c d true (ms_col m)]) (ms_area m) (ms_col m).
(* QuadLayering.h:789-805: the triangles (a,b,d) and (d,b,c) become the quad
   (a,b,c,d); false: there is no interior edge between them *)
Definition merge_pair (m : mstate) (t1 t2 : tri) (a b c d : nat) : mstate :=
  if existsb (joins2 b d) (ms_intr m)
  then add_quad (remove_triangle (remove_triangle (remove_interior m b d) t1) t2) a b c d
  else m.

(* QuadLayering.h:745-809 create_quad_layer_element, range_factor_ = 1.1 *)
Definition range (pos : nat -> vec2) (v : nat) (xy : vec2) : Q := (11 # 10) * norm (vsub (pos v) xy).
Definition create_element (m : mstate) (e : bedge) (p1 p2 : vec2) : outcome (mstate * (option nat * option nat)) :=
  let v1 := be_v1 e in let v2 := be_v2 e in
  obind (fstep m (FUpdate (be_id e) p1 (query m p1 (range (ms_pos m) v1 p1)))) (fun x =>
  match x with
  | (m1, None) => Ok (m1, (None, None))
  | (m1, Some t1) =>
      let w1 := tr_v3 t1 in
      match get_edge_nodir (ms_front m1) w1 v2 with
      | None => Ok (m1, (Some w1, None))
      | Some dg =>
          obind (fstep m1 (FUpdate (be_id dg) p2 (query m1 p2 (range (ms_pos m1) v2 p2)))) (fun y =>
          match y with
          | (m2, None) => Ok (m2, (Some w1, None))
          | (m2, Some t2) => Ok (merge_pair m2 t1 t2 v1 v2 (tr_v3 t2) w1, (Some w1, Some (tr_v3 t2)))
          end)
      end
  end).
(* QuadLayering.h:693-729 create_quad_layer: an edge that is not in the front any
   more is skipped *)
Fixpoint create_layer (m : mstate) (cs : list lcell) : outcome (mstate * list lcell) :=
  match cs with
  | [] => Ok (m, [])
  | c :: r =>
      match find_edge (be_id (lc_e c)) (ms_front m) with
      | None => obind (create_layer m r) (fun y => Ok (fst y, c :: snd y))
      | Some _ =>
          obind (create_element m (lc_e c) (lc_p1 c) (lc_p2 c)) (fun x =>
          obind (create_layer (fst x) r) (fun y =>
          Ok (fst y, LC (lc_e c) (lc_h c) (lc_p1 c) (lc_p2 c) (fst (snd x)) (snd (snd x)) :: snd y)))
      end
  end.

(* QuadLayering.h:873-918 close_quad_layer_gap; a missing base edge is a null
   pointer *)
Definition close_gap (m : mstate) (a b c : nat) : outcome mstate :=
  let pos := ms_pos m in
  let l1 := vsub (pos a) (pos b) in let l2 := vsub (pos c) (pos b) in
  if sharp l1 l2 then
    let (m1, t) := add_triangle m a b c in
    if negb (tri_ok m1 t) then Ok (remove_triangle m1 t) else
    match get_edge_nodir (ms_front m1) b c with
    | None => UB
    | Some e => Ok (advance_front m1 e a t)
    end
  else
    let (m1, v) := add_vertex m (vadd (vadd (pos b) l1) l2) in
    let (m2, t1) := add_triangle m1 a b v in
    let (m3, t2) := add_triangle m2 b c v in
    if negb (vtx_ok m3 v && tri_ok m3 t1 && tri_ok m3 t2)
    then Ok (remove_vertex (remove_triangle (remove_triangle m3 t1) t2) v) else
    match get_edge_nodir (ms_front m3) a b with
    | None => UB
    | Some e1 =>
        let m4 := advance_front m3 e1 v t1 in
        match get_edge_nodir (ms_front m4) b c with
        | None => UB
        | Some e2 => Ok (advance_front m4 e2 v t2)
        end
    end.
(* QuadLayering.h:816-848 finish_quad_layer *)
Fixpoint close_gaps (m : mstate) (c : lcell) (r : list lcell) : outcome mstate :=
  match r with
  | [] => Ok m
  | d :: r' =>
      obind (match lc_v1 d, lc_v2 c with
             | Some x, Some y => if Nat.eqb x y then Ok m else close_gap m y (be_v1 (lc_e d)) x
             | _, _ => Ok m
             end) (fun m' => close_gaps m' d r')
  end.
Definition cell_verts (c : lcell) : list nat :=
  [be_v1 (lc_e c); be_v2 (lc_e c)] ++ match lc_v1 c with Some v => [v] | None => [] end
    ++ match lc_v2 c with Some v => [v] | None => [] end.
Definition finish_layer (st : qstate) (cs : list lcell) : outcome qstate :=
  obind (match cs with [] => Ok (q_m st) | c :: r => close_gaps (q_m st) c r end) (fun m =>
  Ok (QS m (q_bdry st) (fun v => q_in st v || in_list (flat_map cell_verts cs) v))).

(* QuadLayering.h:655-688 find_next_layer_endings: the loops leave the last
   pointer they looked at *)
Fixpoint scan (onf : nat -> bool) (l : list (option nat)) : option nat :=
  match l with
  | [] => None
  | [x] => x
  | Some v :: r => if onf v then Some v else scan onf r
  | None :: r => scan onf r
  end.
Definition next_ends (m : mstate) (closed : bool) (cs : list lcell) : option (vec2 * vec2) :=
  let v1 := scan (ms_onf m) (map lc_v1 cs) in
  let v2 := if closed then v1 else scan (ms_onf m) (map lc_v2 (rev cs)) in
  match v1, v2 with Some a, Some b => Some (ms_pos m a, ms_pos m b) | _, _ => None end.

(* QuadLayering.h:612-650 generate_quad_layer; None: false *)
Definition generate_layer (st : qstate) (height : Q) (xs xe : vec2) : outcome (qstate * option (vec2 * vec2)) :=
  obind (find_ends (q_m st) xs xe) (fun x =>
  match x with
  | None => Ok (st, None)
  | Some (e_start, e_end, closed) =>
      let pos := ms_pos (q_m st) in
      obind (base_edges (Nat.max 1 (length (ms_front (q_m st)))) (ms_front (q_m st)) e_start e_end) (fun bs =>
      let cs := smooth_heights pos (map (new_cell pos height) bs) in
      obind (setup_projection st closed e_start e_end cs) (fun y =>
      obind (create_layer (q_m (fst y)) (snd y)) (fun z =>
      obind (finish_layer (on_mesh (fst y) (fst z)) (snd z)) (fun st' =>
      Ok (st', next_ends (q_m st') closed (snd z))))))
  end).

(* QuadLayering.h:576-607 generate_elements from the initialised front on.  The
   list of the requested heights of the started layers is returned as well. *)
Fixpoint layers (n : nat) (st : qstate) (height rate : Q) (xs xe : vec2) : outcome (qstate * bool * list Q) :=
  match n with
  | O => Ok (st, true, [])
  | S n' =>
      obind (generate_layer st height xs xe) (fun x =>
      match snd x with
      | None => Ok (fst x, false, [height])
      | Some (a, b) => obind (layers n' (fst x) (height * rate) rate a b) (fun y => Ok (fst y, height :: snd y))
      end)
  end.
(* MeshingStrategy.h:90-110 add_remaining_front_edges_to_mesh and 604-605 *)
Fixpoint add_remaining (bs : list bedge) (es : list bedge) (intr : list (nat * nat)) : list (nat * nat) :=
  match es with
  | [] => intr
  | e :: r => let known := existsb (joins2 (be_v1 e) (be_v2 e)) intr || existsb (joins (be_v1 e) (be_v2 e)) bs in
              add_remaining bs r (if known then intr else intr ++ [pair_of e])
  end.
(* EdgeList.h:163-172 clear_edges always removes the first edge; one that is not
   in the tree stays, and so do all behind it *)
Fixpoint clear_edges (pos : nat -> vec2) (es : list bedge) : list bedge :=
  match es with [] => [] | e :: r => if in_square front_scale (mid pos e) then clear_edges pos r else es end.
Definition close_front (st : qstate) : qstate :=
  let m := q_m st in
  on_mesh st (MS (ms_pos m) (fun v => ms_onf m v && negb (existsb (incident v) (ms_front m))) (ms_verts m) (ms_nv m)
                 (clear_edges (ms_pos m) (ms_front m)) (ms_ne m)
                 (add_remaining (q_bdry st) (ms_front m) (ms_intr m)) (ms_tris m) (ms_nt m) (ms_quads m) (ms_area m) (ms_col m)).
End QuadLayer.
