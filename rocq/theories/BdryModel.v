(* Executable model of edge lists (src/algorithm/EdgeList.h), boundaries
   (src/algorithm/Boundary.h) and the domain (src/algorithm/Domain.h).

   Vertices are numbers (addresses) with a store; edges carry a number too. *)
From Verif Require Import Base GeomModel UtilModel.

(* Vertex.h:75-116 *)
Record vinfo := VI { vi_xy : vec2; vi_size : Q; vi_range : Q; vi_prop : N }.

(* Edge.h: the parts used here; length and normal are derived data *)
Record bedge := BE { be_id : nat; be_v1 : nat; be_v2 : nat; be_col : Z; be_prop : N }.

(* EdgeList.h: orient_, edges_ (in list order), area_ *)
Inductive el_orient := OrCW | OrCCW | OrNONE.
Record elist := EL { el_or : el_orient; el_edges : list bedge; el_area : Q }.

Definition has_orient (o : el_orient) : bool := match o with OrNONE => false | _ => true end.

(* EdgeList.h:507-530 compute_area: the first edge only provides the
   reference point; fewer than three edges leave area_ unchanged *)
Definition tri_sum (pos : nat -> vec2) (ref : vec2) (es : list bedge) : Q :=
  fold_left (fun acc e => acc + vcross (vsub (pos (be_v1 e)) ref) (vsub (pos (be_v2 e)) ref)) es 0.
Definition compute_area (pos : nat -> vec2) (l : elist) : Q :=
  match el_edges l with
  | e0 :: (_ :: _ :: _) as rest => (1 # 2) * tri_sum pos (pos (be_v1 e0)) rest
  | _ => el_area l
  end.
Definition with_area (pos : nat -> vec2) (l : elist) : elist :=
  if has_orient (el_or l) then EL (el_or l) (el_edges l) (compute_area pos l) else l.

(* insertion before the edge numbered [k] (std::list::insert at edge.pos()) *)
Fixpoint insert_before (k : nat) (n : bedge) (es : list bedge) : list bedge :=
  match es with
  | [] => [n]
  | e :: r => if Nat.eqb (be_id e) k then n :: e :: r else e :: insert_before k n r
  end.
Definition remove_edge (k : nat) (es : list bedge) : list bedge :=
  filter (fun e => negb (Nat.eqb (be_id e) k)) es.

(* EdgeList.h:114-126 insert_edge (Boundary.h:190-203 adds on_boundary) *)
Definition insert_edge_before (pos : nat -> vec2) (k : nat) (n : bedge) (l : elist) : elist :=
  with_area pos (EL (el_or l) (insert_before k n (el_edges l)) (el_area l)).
Definition push_edge (pos : nat -> vec2) (n : bedge) (l : elist) : elist :=
  with_area pos (EL (el_or l) (el_edges l ++ [n]) (el_area l)).

(* EdgeList.h:183-225 split_edge.  [vn] is the address of the new vertex, [k1]
   and [k2] those of the new edges.  Returns the new list, the vertex store and
   true, or nothing changed (nullptr pair). *)
Definition split_vertex (vs : nat -> vinfo) (e : bedge) (s : Q) : vinfo :=
  let q := 1 - s in
  let a := vs (be_v1 e) in let b := vs (be_v2 e) in
  let props := N.lor (N.lor 0 (vi_prop a)) (vi_prop b) in
  VI (vadd (vscale s (vi_xy a)) (vscale q (vi_xy b)))
     (s * vi_size a + q * vi_size b) (s * vi_range a + q * vi_range b)
     (if has_property (be_prop e) e_on_boundary then props
      else flag_step props (FRemove v_on_boundary)).

Definition set_v (vs : nat -> vinfo) (k : nat) (v : vinfo) : nat -> vinfo :=
  fun j => if Nat.eqb j k then v else vs j.

Definition find_edge (k : nat) (es : list bedge) : option bedge :=
  find (fun e => Nat.eqb (be_id e) k) es.

Definition split_edge (vs : nat -> vinfo) (l : elist) (k : nat) (s : Q) (vn k1 k2 : nat)
  : option (elist * (nat -> vinfo)) :=
  match find_edge k (el_edges l) with
  | None => None                                   (* edge of another list *)
  | Some e =>
    if Qleb 1 s || Qleb s 0 then None else
    let vs' := set_v vs vn (split_vertex vs e s) in
    let pos := fun v => vi_xy (vs' v) in
    let e1 := BE k1 (be_v1 e) vn (be_col e) (be_prop e) in
    let e2 := BE k2 vn (be_v2 e) (be_col e) (be_prop e) in
    let l1 := insert_edge_before pos k e1 l in
    let l2 := insert_edge_before pos k e2 l1 in
    Some (EL (el_or l2) (remove_edge k (el_edges l2)) (el_area l2), vs')
  end.

(* a client splits a sequence of edges; addresses are handed out in order, an
   address that is no edge of the list or a parameter outside (0,1) changes
   nothing *)
Record sstate := SS { ss_list : elist; ss_vs : nat -> vinfo; ss_nv : nat; ss_ne : nat }.
Definition split_step (st : sstate) (op : nat * Q) : sstate :=
  match split_edge (ss_vs st) (ss_list st) (fst op) (snd op) (ss_nv st) (ss_ne st) (ss_ne st + 1) with
  | Some (l, vs) => SS l vs (ss_nv st + 1) (ss_ne st + 2)
  | None => st
  end.
Definition split_run (st : sstate) (ops : list (nat * Q)) : sstate := fold_left split_step ops st.

(* ---- Boundary.h:315-369 create_boundary_shape ---- *)
Inductive bdry_type := EXTERIOR | INTERIOR.

(* search / create the vertices.  [nearest] is Container::get_nearest on the
   domain's vertices (see QTreeModel); the test EQ0(|d|^2) is modelled by exact
   equality of the coordinates. *)
Fixpoint shape_vertices (nearest : list vinfo -> vec2 -> outcome (option nat))
    (store : list vinfo) (shape : list vec2) (props : list (Q * Q))
    : outcome (list vinfo * list nat) :=
  match shape, props with
  | [], _ => Ok (store, [])
  | _ :: _, [] => UB                               (* v_properties[i] out of range *)
  | xy :: shape', (sz, rg) :: props' =>
    obind (nearest store xy) (fun o =>
    let reuse := match o with
                 | Some i => match nth_error store i with
                             | Some v => if veqb (vi_xy v) xy then Some i else None
                             | None => None end
                 | None => None end in
    match reuse with
    | Some i => obind (shape_vertices nearest store shape' props')
                  (fun r => Ok (fst r, i :: snd r))
    | None => obind (shape_vertices nearest (store ++ [VI xy sz rg 0%N]) shape' props')
                  (fun r => Ok (fst r, length store :: snd r))
    end)
  end.

Definition mod_succ (i n : nat) : nat := ((i + 1) mod n)%nat.

(* the edges to be added, in order: (from, to, colour) or UB when the colour
   list is too short.  The names of the indices follow the code. *)
Definition shape_edges (forward : bool) (verts : list nat) (colors : list Z)
    : outcome (list (nat * nat * Z)) :=
  let N := length verts in
  let step (i : nat) : outcome (nat * nat * Z) :=
    let j := mod_succ i N in
    match nth_error verts i, nth_error verts j with
    | Some vi, Some vj =>
      if forward then
        match nth_error colors i with Some c => Ok (vi, vj, c) | None => UB end
      else
        match nth_error colors j with Some c => Ok (vj, vi, c) | None => UB end
    | _, _ => UB
    end in
  fold_right (fun i acc => obind (step i) (fun e => obind acc (fun r => Ok (e :: r))))
    (Ok []) (if forward then seq 0 N else rev (seq 0 N)).

Definition is_forward (bt : bdry_type) (ccw : bool) : bool :=
  match bt with EXTERIOR => ccw | INTERIOR => negb ccw end.

Definition bdry_orient (bt : bdry_type) : el_orient :=
  match bt with EXTERIOR => OrCCW | INTERIOR => OrCW end.

Definition create_boundary_shape (nearest : list vinfo -> vec2 -> outcome (option nat))
    (bt : bdry_type) (store : list vinfo) (shape : list vec2) (props : list (Q * Q)) (colors : list Z)
    : outcome (list vinfo * elist) :=
  let ccw := Qltb 0 (polygon_area shape) in
  obind (shape_vertices nearest store shape props) (fun r =>
  let store' := fst r in let verts := snd r in
  let pos := fun v => match nth_error store' v with Some x => vi_xy x | None => V2 0 0 end in
  obind (shape_edges (is_forward bt ccw) verts colors) (fun es =>
  Ok (store',
      fold_left (fun l e => match e with (a, b, c) =>
          push_edge pos (BE (length (el_edges l)) a b c e_on_boundary) l end)
        es (EL (bdry_orient bt) [] 0)))).

(* Boundary.h:259-286 set_shape_rectangle *)
Definition rect_shape (xy : vec2) (w h : Q) : list vec2 :=
  let hw := (1 # 2) * w in let hh := (1 # 2) * h in
  [V2 (vx xy - hw) (vy xy - hh); V2 (vx xy + hw) (vy xy - hh);
   V2 (vx xy + hw) (vy xy + hh); V2 (vx xy - hw) (vy xy + hh)].

(* ---- EdgeList.h:233-267 is_inside ---- *)
(* MathUtility.h EQ with the default tolerances of double *)
Definition dbl_min : Q := 1 # (2 ^ 1022)%positive.
Definition dbl_eps : Q := 1 # 4503599627370496.
Definition EQd (a b : Q) : bool := EQtol a b dbl_min dbl_eps.

(* one edge: the object equals a vertex or lies on a horizontal edge *)
Definition touches (o v1 v2 : vec2) : bool :=
  veqb o v1 || veqb o v2 ||
  (EQd (vy o) (vy v2) && EQd (vy o) (vy v1) && in_on_segment v1 v2 o).
(* ... or the edge is crossed by the ray to the left *)
Definition crosses (o v1 v2 : vec2) : bool :=
  ((Qltb (vy v2) (vy o) && Qleb (vy o) (vy v1)) || (Qltb (vy v1) (vy o) && Qleb (vy o) (vy v2))) &&
  (let dx := vx v1 - vx v2 in
   let m := (vy o - vy v2) / (vy v1 - vy v2) in
   let x := vx v2 + m * dx in
   Qltb x (vx o)).

(* the loop with its early exits; [c] is the parity of count *)
Fixpoint inside_loop (o : vec2) (es : list (vec2 * vec2)) (c : bool) : bool :=
  match es with
  | [] => c
  | (v1, v2) :: r =>
    if touches o v1 v2 then true
    else inside_loop o r (if crosses o v1 v2 then negb c else c)
  end.
Definition is_inside (es : list (vec2 * vec2)) (o : vec2) : bool :=
  if Nat.ltb (length es) 3 then false else inside_loop o es false.

(* ---- EdgeList.h:402-439 intersects_self / intersects_edgelist ----
   edges_.get_items(ll,ur) returns the edges whose mid point (Edge::xy, Edge.h:98-115)
   lies in the closed box (C01); edges are given with their index. *)
Definition mid (e : vec2 * vec2) : vec2 :=
  V2 ((1 # 2) * (vx (fst e) + vx (snd e))) ((1 # 2) * (vy (fst e) + vy (snd e))).
Definition in_box_of (e f : vec2 * vec2) : bool :=
  let ll := bbox_min (fst e) (snd e) in let ur := bbox_max (fst e) (snd e) in
  Qleb (vx ll) (vx (mid f)) && Qleb (vy ll) (vy (mid f)) &&
  Qleb (vx (mid f)) (vx ur) && Qleb (vy (mid f)) (vy ur).
Definition intersects_self (es : list (vec2 * vec2)) : bool :=
  let n := length es in
  let ies := combine (seq 0 n) es in
  existsb (fun ie => existsb (fun jf =>
      in_box_of (snd ie) (snd jf) &&
      negb (Nat.eqb (fst jf) (fst ie)) &&
      negb (Nat.eqb (fst jf) ((fst ie + n - 1) mod n)) &&
      negb (Nat.eqb (fst jf) ((fst ie + 1) mod n)) &&
      line_line_intersection (fst (snd ie)) (snd (snd ie)) (fst (snd jf)) (snd (snd jf))) ies) ies.
Definition intersects_edgelist (es fs : list (vec2 * vec2)) : bool :=
  existsb (fun e => existsb (fun f =>
      in_box_of e f && line_line_intersection (fst e) (snd e) (fst f) (snd f)) fs) es.

(* ---- Domain.h ---- *)
Record boundary := Bd { bd_type : bdry_type; bd_edges : list (vec2 * vec2); bd_area : Q }.

(* Domain.h:342-355 is_inside *)
Definition domain_inside (bs : list boundary) (o : vec2) : bool :=
  fold_left (fun acc b =>
    acc && match bd_type b with
           | EXTERIOR => is_inside (bd_edges b) o
           | INTERIOR => negb (is_inside (bd_edges b) o)
           end) bs true.
(* Domain.h:472-478 area *)
Definition domain_area (bs : list boundary) : Q := fold_left (fun a b => a + bd_area b) bs 0.

(* Domain.h:220-235 extent: starts from the origin *)
Definition domain_extent (vs : list vec2) : vec2 * vec2 :=
  fold_left (fun acc v =>
    (V2 (Qminb (vx (fst acc)) (vx v)) (Qmaxb (vy (fst acc)) (vx v)),
     V2 (Qminb (vx (snd acc)) (vy v)) (Qmaxb (vy (snd acc)) (vy v))))
    vs (V2 0 0, V2 0 0).

(* ---- Domain.h:117-169 export_size_function: the lines written ---- *)
Definition sample_points (ll ur : vec2) (Nx Ny : nat) : list vec2 :=
  let dx := (vx ur - vx ll) / inject_Z (Z.of_nat Nx) in
  let dy := (vy ur - vy ll) / inject_Z (Z.of_nat Ny) in
  flat_map (fun j => map (fun i =>
     V2 (vx ll + inject_Z (Z.of_nat i) * dx) (vy ll + inject_Z (Z.of_nat j) * dy)) (seq 0 Nx)) (seq 0 Ny).

(* rows of ten, then the rest on one more line (possibly empty) *)
Definition export_lines {A} (Nx Ny : nat) (values : list A) : outcome (list (list A)) :=
  let nx := 10%nat in
  let ny := (Nx * Ny / nx)%nat in
  let get i := nth_error values i in
  let line from n :=
    fold_right (fun i acc => match get i with Some v => obind acc (fun r => Ok (v :: r)) | None => UB end)
      (Ok []) (seq from n) in
  fold_right (fun j acc => obind (line (j * nx)%nat nx) (fun l => obind acc (fun r => Ok (l :: r))))
    (obind (line (ny * nx)%nat (Nx * Ny - ny * nx)%nat) (fun l => Ok [l])) (seq 0 ny).
