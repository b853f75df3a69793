(* Executable model of the initial advancing front: src/algorithm/FrontInitData.h,
   Front::init_front and the edge refinement (src/algorithm/Front.h) and
   MeshBuilder::prepare_mesh (src/algorithm/MeshBuilder.h). *)
From Verif Require Import Base Chain GeomModel FacetModel UtilModel BdryModel AdvanceModel.
Open Scope Q_scope.

(* An edge of the domain or of a neighbour mesh: only the coordinates of its end
   points, its colour and EdgeProperty::is_fixed are used. *)
Record dedge := DE { de_a : vec2; de_b : vec2; de_col : Z; de_fix : bool }.
Definition de_mid (e : dedge) : vec2 := vscale (1 # 2) (vadd (de_a e) (de_b e)).

(* ---- FrontInitData.h ---- *)
(* FrontInitData.h:190-196: sort by the distance of the midpoint to v; std::sort
   is modelled by a stable sort *)
Definition de_dist (v : vec2) (e : dedge) : Q := vnorm2 (vsub (de_mid e) v).
Fixpoint ins_de (v : vec2) (e : dedge) (l : list dedge) : list dedge :=
  match l with
  | [] => [e]
  | f :: r => if Qltb (de_dist v f) (de_dist v e) then f :: ins_de v e r else e :: l
  end.
Definition sort_de (v : vec2) (l : list dedge) : list dedge := fold_right (ins_de v) [] l.

(* FrontInitData.h:158-202 get_neighbor_mesh_edges.  A mesh is the list of its
   boundary edges; get_bdry_edges returns those with the midpoint within the
   range 1.5 * length (C02, ranges squared). *)
Definition near_de (e f : dedge) : bool :=
  within (de_mid e) ((9 # 4) * vnorm2 (vsub (de_b e) (de_a e))) (de_mid f).
Definition on_de (e f : dedge) : bool :=
  in_on_segment (de_a e) (de_b e) (de_a f) && in_on_segment (de_a e) (de_b e) (de_b f).
Definition neighbours (meshes : list (list dedge)) (e : dedge) : list dedge :=
  fold_left (fun acc m => sort_de (de_a e) (acc ++ filter (on_de e) (filter (near_de e) m))) meshes [].

(* FrontInitData.h:227-242 add_edge_vertex: std::map from coordinates to the
   index *)
Fixpoint find_vertex (vs : list vec2) (x : vec2) : option nat :=
  match vs with
  | [] => None
  | y :: r => if veqb x y then Some O else option_map S (find_vertex r x)
  end.
Definition add_edge_vertex (vs : list vec2) (x : vec2) : list vec2 * nat :=
  match find_vertex vs x with
  | Some i => (vs, i)
  | None => (vs ++ [x], length vs)
  end.

(* vertex_ids_, colors_, is_twin_edge_ and edges_[i]->is_fixed() *)
Record fedge := FE { fe_1 : nat; fe_2 : nat; fe_col : Z; fe_twin : bool; fe_fix : bool }.
Record fdata := FD { fd_verts : list vec2; fd_edges : list fedge }.

(* FrontInitData.h:207-222 *)
Definition add_edge_data (twin : bool) (d : fdata) (e : dedge) : fdata :=
  let (vs1, i1) := add_edge_vertex (fd_verts d) (de_a e) in
  let (vs2, i2) := add_edge_vertex vs1 (de_b e) in
  FD vs2 (fd_edges d ++ [if twin then FE i2 i1 (de_col e) true (de_fix e)
                         else FE i1 i2 (de_col e) false (de_fix e)]).

(* FrontInitData.h:118-147 collect_front_edges; [bounds]: the edges of all
   boundaries of the domain in order *)
Definition collect_edge (meshes : list (list dedge)) (d : fdata) (e : dedge) : fdata :=
  match neighbours meshes e with
  | [] => add_edge_data false d e
  | ns => fold_left (add_edge_data true) ns d
  end.
Definition collect_front_edges (bounds fixed : list dedge) (meshes : list (list dedge)) : fdata :=
  fold_left (add_edge_data false) fixed (fold_left (collect_edge meshes) bounds (FD [] [])).

(* ---- Front.h ---- *)
(* the mesh vertices and the edges of the front *)
Record rstate := RS { rs_pos : nat -> vec2; rs_verts : list nat; rs_nv : nat;
                      rs_front : list bedge; rs_ne : nat }.

(* Front.h:302-312 *)
Definition front_prop (fix_ : bool) : N := if fix_ then e_is_fixed else e_on_boundary.
Fixpoint init_edges (k : nat) (es : list fedge) : list bedge :=
  match es with
  | [] => []
  | e :: r => BE k (fe_1 e) (fe_2 e) (fe_col e) (front_prop (fe_fix e)) :: init_edges (S k) r
  end.
(* addresses of the edges with a twin edge, Front.h:319-337 *)
Fixpoint twin_ids (k : nat) (es : list fedge) : list nat :=
  match es with
  | [] => []
  | e :: r => if fe_twin e then k :: twin_ids (S k) r else twin_ids (S k) r
  end.
(* Front.h:258-317 init_mesh_vertices, init_front_edges.  Addresses above the
   number of vertices are not vertices, their position is irrelevant. *)
Definition init_state (d : fdata) : rstate :=
  let n := length (fd_verts d) in
  RS (fun v => nth v (fd_verts d) (V2 0 0)) (seq 0 n) n (init_edges 0 (fd_edges d)) (length (fd_edges d)).

Definition is_fixed (e : bedge) : bool := has_property (be_prop e) e_is_fixed.

(* Front.h:505-545 create_sub_edges: the edges from v_cur to the end point with k
   more sub vertices, which have the addresses nv, nv+1, ... *)
Fixpoint sub_edges (ne cur nv k : nat) (e : bedge) : list bedge :=
  let prop := front_prop (is_fixed e) in
  match k with
  | O => [BE ne cur (be_v2 e) (be_col e) prop]
  | S k' => BE ne cur nv (be_col e) prop :: sub_edges (S ne) nv (S nv) k' e
  end.
(* std::list::insert before the element x *)
Fixpoint insert_verts (x : nat) (l new : list nat) : list nat :=
  match l with
  | [] => new
  | y :: r => if Nat.eqb y x then new ++ y :: r else y :: insert_verts x r new
  end.
Definition set_positions (pos : nat -> vec2) (nv : nat) (pts : list vec2) : nat -> vec2 :=
  fun j => if Nat.leb nv j && Nat.ltb j (nv + length pts) then nth (j - nv) pts (V2 0 0) else pos j.

Section Refine.
(* the sub vertices of an edge without its end points, from the first to the
   second end point (create_sub_vertex_coords, see [sub_coords] below) *)
Variable sub : vec2 -> vec2 -> list vec2.

(* Front.h:355-375 refine_edge: fewer than three points, i.e. no sub vertex: no
   refinement *)
Definition refine_edge (st : rstate) (e : bedge) : rstate * bool :=
  match sub (rs_pos st (be_v1 e)) (rs_pos st (be_v2 e)) with
  | [] => (st, false)
  | pts =>
    let k := length pts in
    (RS (set_positions (rs_pos st) (rs_nv st) pts)
        (insert_verts (be_v2 e) (rs_verts st) (seq (rs_nv st) k)) (rs_nv st + k)
        (fold_left (fun es n => insert_before (be_id e) n es)
           (sub_edges (rs_ne st) (be_v1 e) (rs_nv st) k e) (rs_front st))
        (rs_ne st + S k), true)
  end.
(* Front.h:228-252 refine_front_edges, 342-353 get_edges_to_refine; Container::remove
   as in [front_remove] *)
Definition refine_front_edges (twins : list nat) (st : rstate) : rstate :=
  let todo := filter (fun e => negb (existsb (Nat.eqb (be_id e)) twins)) (rs_front st) in
  let r := fold_left (fun (p : rstate * list nat) e =>
             let (st', ok) := refine_edge (fst p) e in
             (st', if ok then snd p ++ [be_id e] else snd p)) todo (st, []) in
  let st' := fst r in
  RS (rs_pos st') (rs_verts st') (rs_nv st')
     (fold_left (fun es k => front_remove (rs_pos st') k es) (snd r) (rs_front st')) (rs_ne st').

(* Front.h:88-107: a ghost edge before every fixed edge *)
Fixpoint add_ghosts (ne : nat) (es : list bedge) : list bedge :=
  match es with
  | [] => []
  | e :: r => if is_fixed e
              then BE ne (be_v2 e) (be_v1 e) (be_col e) (N.lor e_is_fixed e_is_ghost) :: e :: add_ghosts (S ne) r
              else e :: add_ghosts ne r
  end.

(* Front.h:66-112 init_front(domain) *)
Definition init_front (d : fdata) : rstate :=
  let st := refine_front_edges (twin_ids 0 (fd_edges d)) (init_state d) in
  let fs := add_ghosts (rs_ne st) (rs_front st) in
  RS (rs_pos st) (rs_verts st) (rs_nv st) fs (rs_ne st + (length fs - length (rs_front st))).

(* MeshBuilder.h:188-257 prepare_mesh for an empty mesh and a valid domain and
   front (EntityChecks), followed by Front.h:118-137 init_front(mesh): [loose] are
   the fixed vertices without edges; fixed edges are skipped; all boundary edges
   of the new mesh have no facets and enter the front *)
Fixpoint renumber (k : nat) (es : list bedge) : list bedge :=
  match es with
  | [] => []
  | e :: r => BE k (be_v1 e) (be_v2 e) (be_col e) (be_prop e) :: renumber (S k) r
  end.
Definition prepared (d : fdata) (loose : list vec2) (col : Z) : mstate :=
  let st := init_front d in
  let n := (rs_nv st + length loose)%nat in
  let bd := renumber 0 (filter (fun e => negb (is_fixed e)) (rs_front st)) in
  MS (set_positions (rs_pos st) (rs_nv st) loose) (fun v => Nat.ltb v n)
     (rs_verts st ++ seq (rs_nv st) (length loose)) n
     bd (length bd) [] [] 0 [] 0 col.
End Refine.

(* ---- Front.h:385-497 create_sub_vertex_coords ---- *)
(* the abscissa; [r t] is the size function at distance t from the start vertex *)
Definition sub_step (r : Q -> Q) (t : Q) : Q := t + (1 # 2) * (r t + r (t + r t)).
(* new abscissas up to and including the first one beyond [stop]; None: out of
   fuel *)
Fixpoint sub_walk (fuel : nat) (r : Q -> Q) (stop t : Q) : option (list Q) :=
  match fuel with
  | O => None
  | S f => let t' := sub_step r t in
           if Qltb stop t' then Some [t'] else option_map (cons t') (sub_walk f r stop t')
  end.
(* the abscissas of the inner vertices; the last one only gives the cropped
   distance d_cr = len - t_last.  [rho12] is the sum of the size function at the two
   end points *)
Definition sub_stop (rho12 len : Q) : Q := len * (1 - (1 # 2) * Qminb 1 ((1 # 2) * rho12 / len)).
Definition sub_inner (r : Q -> Q) (len : Q) (ts : list Q) : list Q :=
  let inner := removelast ts in
  let d := len - last ts 0 in
  let tot := sumQ (map r inner) in
  map (fun t => t + r t / tot * d) inner.
Definition sub_abscissas (fuel : nat) (r : Q -> Q) (rho12 len : Q) : option (list Q) :=
  option_map (sub_inner r len) (sub_walk fuel r (sub_stop rho12 len) 0).

(* the coordinates; [len] = length of the edge, the walk starts at the end point
   with the smaller size *)
Definition along (a b : vec2) (len t : Q) : vec2 := vadd a (vscale (t / len) (vsub b a)).
Definition sub_coords (fuel : nat) (rho : vec2 -> Q) (len : Q) (a b : vec2) : option (list vec2) :=
  if Qltb (rho a) (rho b)
  then option_map (map (along a b len)) (sub_abscissas fuel (fun t => rho (along a b len t)) (rho a + rho b) len)
  else option_map (fun ts => rev (map (along b a len) ts)) (sub_abscissas fuel (fun t => rho (along b a len t)) (rho a + rho b) len).
