(* Executable model of mesh smoothing (src/algorithm/SmoothingStrategy.h) on the
   finished mesh. *)
From Verif Require Import Base GeomModel FacetModel UtilModel BdryModel AdvanceModel MeshModel QRefineModel.

Definition set_pos (m : mesh) (p : nat -> vec2) : mesh :=
  MH p (mh_prop m) (mh_verts m) (mh_quads m) (mh_tris m) (mh_intr m) (mh_bdry m)
     (mh_nbr m) (mh_next m) (mh_area m) (mh_col m) (mh_scale m).
Definition put_at (p : nat -> vec2) (v : nat) (xy : vec2) : nat -> vec2 := fun x => if Nat.eqb x v then xy else p x.

(* Container.h:193-209 update looks up the quadtree leaf of the old location and
   dereferences it: outside of the square that is a null pointer
   (QuadTree.h:212-227).  Set for the vertex, its edges (Vertex::edges()) and its
   elements (Vertex::facets()). *)
Definition located (m : mesh) (v : nat) : bool :=
  in_square (mh_scale m) (mh_pos m v) &&
  forallb (fun e => in_square front_scale (ed_xy (mh_pos m) e))
    (filter (fun e => Nat.eqb (ed_1 e) v || Nat.eqb (ed_2 e) v) (mh_intr m ++ mh_bdry m)) &&
  forallb (fun f => in_square (mh_scale m) (fa_xy (mh_pos m) f)) (facets_at m v).
(* MeshCleanup.h:39-48 set_vertex_coordinates; the metrics of edges and elements
   are functions of the positions *)
Definition set_vertex (m : mesh) (v : nat) (xy : vec2) : outcome mesh :=
  if located m v then Ok (set_pos m (put_at (mh_pos m) v xy)) else UB.

(* the settings of a smoother: the domain's is_inside (InsideSpec) and
   quad_layer_smoothing_; EdgeList::get_nearest_edge, the division by the norm and
   std::atan2 (of a vector) are left open *)
Record smoother := SM { sm_inside : vec2 -> bool; sm_layers : bool;
                        sm_nearest : list medge -> vec2 -> option medge; sm_unit : vec2 -> vec2; sm_atan2 : vec2 -> Q }.

(* SmoothingStrategy.h:68-109 collect_dispalcement_directions: one zero vector for
   each vertex, then one direction for each quad layer vertex.  get_nearest
   (QuadTree.h:186-207) dereferences the leaf of the query point. *)
Definition direction (s : smoother) (m : mesh) (v : nat) : outcome (list vec2) :=
  if negb (has_property (mh_prop m v) v_in_quad_layer) then Ok [] else
  if negb (in_square front_scale (mh_pos m v)) then UB else
  match sm_nearest s (mh_bdry m) (mh_pos m v) with
  | None => Ok []
  | Some e =>
      let e1 := mh_pos m (ed_1 e) in
      let de := vsub (mh_pos m (ed_2 e)) e1 in
      let dv := vsub (mh_pos m v) e1 in
      let t := clamp01 (vdot dv de / vnorm2 de) in
      let p := vadd e1 (vscale t de) in
      Ok [sm_unit s (vsub p (mh_pos m v))]
  end.
Fixpoint push_directions (s : smoother) (m : mesh) (vs : list nat) (acc : list vec2) : outcome (list vec2) :=
  match vs with
  | [] => Ok acc
  | v :: r => obind (direction s m v) (fun d => push_directions s m r (acc ++ d))
  end.
Definition directions (s : smoother) (m : mesh) : outcome (list vec2) :=
  let zeros := map (fun _ => V2 0 0) (mh_verts m) in
  if sm_layers s then push_directions s m (mh_verts m) zeros else Ok zeros.

(* SmoothingStrategy.h:115-157 init_vertex_connectivity.  The vertices of the
   elements around v, as often as they occur there (129-140), sorted by the angle of
   the direction from v (143-154).  std::sort leaves the order of equal keys open:
   here the insertion keeps it. *)
Definition neighbours_of (m : mesh) (v : nat) : list nat :=
  flat_map (fun f => filter (fun w => negb (Nat.eqb w v)) (corners (fa_sh f))) (facets_at m v).
Fixpoint insert_by (key : nat -> Q) (x : nat) (l : list nat) : list nat :=
  match l with
  | [] => [x]
  | y :: r => if Qltb (key y) (key x) then y :: insert_by key x r else x :: l
  end.
Definition sort_by (key : nat -> Q) (l : list nat) : list nat := fold_right (insert_by key) [] l.
Definition direction_key (s : smoother) (m : mesh) (v w : nat) : Q := sm_atan2 s (vsub (mh_pos m w) (mh_pos m v)).
Definition connectivity (s : smoother) (m : mesh) : list (nat * list nat) :=
  map (fun v => (v, sort_by (direction_key s m v) (neighbours_of m v))) (mh_verts m).

(* compute_displacement; None is not-a-number *)
Definition rule := (nat -> vec2) -> nat -> list nat -> option vec2.
(* SmoothingStrategy.h:462-477 LaplaceSmoothing::compute_displacement; without
   neighbours 0/0 *)
Definition vsum (l : list vec2) : vec2 := fold_left vadd l (V2 0 0).
Definition laplace : rule := fun pos v nbrs =>
  match nbrs with
  | [] => None
  | _ => Some (vsub (vscale (/ inject_Z (Z.of_nat (length nbrs))) (vsum (map pos nbrs))) (pos v))
  end.

(* SmoothingStrategy.h:546-582 TorsionSmoothing::compute_displacement.  The angle
   between two vectors (VecND.h:509-514, arccosine), cosine and sine are left open;
   [f] is angle_factor_.  Neighbour j is between nbrs[MOD(j-1, n)] and
   nbrs[MOD(j+1, n)]: the last and the first are neighbours (UtilModel.MOD, C44). *)
Record trig := TG { tg_angle : vec2 -> vec2 -> Q; tg_cos : Q -> Q; tg_sin : Q -> Q }.
Definition turned (t : trig) (f : Q) (v wi wj wk : vec2) : vec2 :=
  let vi := vsub v wi in
  let vj := vsub v wj in
  let vk := vsub v wk in
  let a1 := tg_angle t vj vk in
  let a2 := tg_angle t vj vi in
  let b := f * (a2 - a1) in
  V2 (vx wj + tg_cos t b * vx vj - tg_sin t b * vy vj) (vy wj + tg_sin t b * vx vj + tg_cos t b * vy vj).
(* the values for j = 0, 1, ..: [i] is the one before the list [l], [k] the one after it *)
Fixpoint turned_all (t : trig) (f : Q) (v i : vec2) (l : list vec2) (k : vec2) : list vec2 :=
  match l with
  | [] => []
  | [j] => [turned t f v i j k]
  | j :: (j' :: _) as r => turned t f v i j j' :: turned_all t f v j r k
  end.
Definition torsion (t : trig) (f : Q) : rule := fun pos v nbrs =>
  match nbrs with
  | [] => None
  | w :: _ => Some (vsub (vscale (/ inject_Z (Z.of_nat (length nbrs)))
                            (vsum (turned_all t f (pos v) (pos (last nbrs w)) (map pos nbrs) (pos w)))) (pos v))
  end.

(* SmoothingStrategy.h:221-294 new_vertex_position_is_valid *)
Definition turns_left (pos : nat -> vec2) (a b c : nat) : bool := is_left (pos a) (pos b) (pos c).
(* 227-250: of a quad only two corners are looked at *)
Definition facet_ok (pos : nat -> vec2) (f : facet) : bool :=
  match fa_sh f with
  | Tri3 a b c => turns_left pos a b c
  | Quad4 a b c d => turns_left pos a b c && turns_left pos b c d
  end.
(* the square of max_edge_length_ and of the search radius *)
Definition max2 (a b : Q) : Q := if Qltb a b then b else a.
Definition max_side2 (pos : nat -> vec2) (s : shape) : Q :=
  let l a b := vnorm2 (vsub (pos b) (pos a)) in
  match s with
  | Tri3 a b c => max2 (max2 (l a b) (l b c)) (l c a)
  | Quad4 a b c d => max2 (max2 (max2 (l a b) (l b c)) (l c d)) (l d a)
  end.
Definition radius2 (m : mesh) (v : nat) : Q :=
  fold_left (fun r f => max2 r (max_side2 (mh_pos m) (fa_sh f))) (facets_at m v) 0.
(* EdgeList::get_edges: the edges in the tree with the midpoint in the circle *)
Definition near (m : mesh) (c : vec2) (r2 : Q) (es : list medge) : list medge :=
  filter (fun e => in_square front_scale (ed_xy (mh_pos m) e) && within c r2 (ed_xy (mh_pos m) e)) es.
Definition crossing (pos : nat -> vec2) (e g : medge) : bool :=
  line_line_crossing (pos (ed_1 e)) (pos (ed_2 e)) (pos (ed_1 g)) (pos (ed_2 g)).
Definition tangled (m : mesh) (v : nat) : bool :=
  let r2 := radius2 m v in
  let ie := near m (mh_pos m v) r2 (mh_intr m) in
  let be := near m (mh_pos m v) r2 (mh_bdry m) in
  existsb (fun e => existsb (fun g => negb (Nat.eqb (ed_id e) (ed_id g)) && crossing (mh_pos m) e g) ie ||
                    existsb (crossing (mh_pos m) e) be) ie.
Definition position_ok (s : smoother) (m : mesh) (v : nat) : bool :=
  sm_inside s (mh_pos m v) && forallb (facet_ok (mh_pos m)) (facets_at m v) && negb (tangled m v).

(* SmoothingStrategy.h:331-380 smoothing_iteration: one vertex.  A position that
   is not a number is not inside of a domain with an exterior boundary
   (EdgeList.h:233-267).  [i] is the position in v_conn_. *)
Definition may_move (s : smoother) (m : mesh) (v : nat) : bool :=
  negb (has_property (mh_prop m v) v_is_fixed || has_property (mh_prop m v) v_on_boundary) &&
  (sm_layers s || negb (has_property (mh_prop m v) v_in_quad_layer)).
Definition smooth_vertex (s : smoother) (dirs : list vec2) (r : rule) (eps : Q) (m : mesh) (c : nat * (nat * list nat)) : outcome mesh :=
  let '(i, (v, nbrs)) := c in
  if negb (may_move s m v) then Ok m else
  match r (mh_pos m) v nbrs with
  | None => Ok m
  | Some delta =>
      obind (if has_property (mh_prop m v) v_in_quad_layer
             then match nth_error dirs i with
                  | Some d => Ok (vsub delta (vscale (vdot delta d) d))
                  | None => UB
                  end
             else Ok delta) (fun delta =>
      let old := mh_pos m v in
      let new := vadd old (vscale eps delta) in
      if sm_inside s new then
        obind (set_vertex m v new) (fun m' => if position_ok s m' v then Ok m' else set_vertex m' v old)
      else Ok m)
  end.
Definition numbered {A} (l : list A) : list (nat * A) := combine (seq 0 (length l)) l.
Definition iteration (s : smoother) (dirs : list vec2) (conn : list (nat * list nat)) (m : mesh) (k : rule * Q) : outcome mesh :=
  ofold (smooth_vertex s dirs (fst k) (snd k)) (numbered conn) m.

(* a sequence of iterations with their rules and values of eps_ *)
Definition run (s : smoother) (m : mesh) (ks : list (rule * Q)) : outcome mesh :=
  let m0 := setup_facet_connectivity m in
  obind (directions s m0) (fun dirs => ofold (iteration s dirs (connectivity s m0)) ks m0).

(* SmoothingStrategy.h:382-390 smoothing_loop: eps_ changes its sign after each
   iteration and is kept for the next call *)
Fixpoint loop_schedule (r : rule) (eps decay : Q) (n : nat) : list (rule * Q) :=
  match n with O => [] | S n => (r, eps) :: loop_schedule r (eps * - decay) decay n end.
(* LaplaceSmoothing::smooth 443-455, TorsionSmoothing::smooth 528-540 *)
Definition smooth_with (s : smoother) (r : rule) (eps decay : Q) (n : nat) (m : mesh) : outcome mesh :=
  run s m (loop_schedule r eps decay n).
(* MixedSmoothing::smooth 623-655 *)
Fixpoint mixed_schedule (t : rule) (eps decay : Q) (n : nat) : list (rule * Q) :=
  match n with O => [] | S n => (t, eps) :: (laplace, eps) :: mixed_schedule t (eps * decay) decay n end.
Definition smooth_mixed (s : smoother) (t : rule) (eps decay : Q) (n : nat) (m : mesh) : outcome mesh :=
  run s m (mixed_schedule t eps decay n).
