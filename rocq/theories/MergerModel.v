(* Executable model of merging two meshes (src/algorithm/MeshMerger.h and
   MeshGenerator.h merge_meshes).

   Addresses of edges and elements are unique over all meshes, since twin edges
   and their elements belong to other meshes; vertex addresses are only used
   within one mesh. *)
From Verif Require Import Base GeomModel FacetModel UtilModel BdryModel AdvanceModel Chain MeshModel QRefineModel CleanModel.

(* receiver, donor and the other meshes of the generator *)
Record world := WD { w_rec : mesh; w_don : mesh; w_oth : list mesh }.
Definition w_all (w : world) : list mesh := w_rec w :: w_don w :: w_oth w.

(* the edge behind a twin pointer *)
Definition find_bdry (ms : list mesh) (i : nat) : option medge :=
  find (fun e => Nat.eqb (ed_id e) i) (flat_map mh_bdry ms).
(* Facet::mesh(): set by Mesh::add_quad / add_triangle (Mesh.h:269-302) *)
Definition owns (m : mesh) (i : nat) : bool := existsb (fun f => Nat.eqb (fa_id f) i) (facets m).
(* facet_l()->mesh() == m; the null facet has no mesh, a pointer to an element
   that no longer exists is undefined behaviour *)
Definition left_in (ms : list mesh) (m : mesh) (e : medge) : outcome bool :=
  match ed_l e with
  | None => Ok false
  | Some i => if existsb (fun x => owns x i) ms then Ok (owns m i) else UB
  end.
(* the twin of e if the element on its left belongs to m *)
Definition twin_in (w : world) (m : mesh) (e : medge) : outcome (option medge) :=
  match ed_twin e with
  | None => Ok None
  | Some i => match find_bdry (w_all w) i with
              | None => UB
              | Some t => obind (left_in (w_all w) m t) (fun b => Ok (if b then Some t else None))
              end
  end.

(* new_vertices_: by address instead of index (MeshCleanup.h:58-75 numbers the
   vertices of the donor one by one, C29); reading or writing it for a vertex
   that is not in the donor is undefined behaviour *)
Definition vmap := nat -> option nat.
Definition vset (nv : vmap) (v w : nat) : vmap := fun x => if Nat.eqb x v then Some w else nv x.
Definition in_verts (m : mesh) (v : nat) : bool := existsb (Nat.eqb v) (mh_verts m).

(* MeshMerger.h:100-141 collect_interface_boundary_vertices *)
Definition interface_mark (p : N) : N := flag_step (flag_step p (FRemove v_on_boundary)) (FAdd v_is_fixed).
Definition mark (prop : nat -> N) (v : nat) : nat -> N := fun x => if Nat.eqb x v then interface_mark (prop x) else prop x.
Definition interface_step (w : world) (s : vmap * (nat -> N) * nat) (e : medge) : outcome (vmap * (nat -> N) * nat) :=
  obind (twin_in w (w_don w) e) (fun o =>
  match o with
  | None => Ok s
  | Some t =>
      if in_verts (w_don w) (ed_1 t) && in_verts (w_don w) (ed_2 t)
      then let '(nv, prop, n) := s in
           Ok (vset (vset nv (ed_2 t) (ed_1 e)) (ed_1 t) (ed_2 e), mark (mark prop (ed_2 e)) (ed_1 e), S n)
      else UB
  end).

(* Mesh.h:261-265 add_vertex; properties |= p on a new vertex *)
Definition add_vertex (m : mesh) (p : vec2) (pr : N) : mesh :=
  MH (fun v => if Nat.eqb v (mh_next m) then p else mh_pos m v)
     (fun v => if Nat.eqb v (mh_next m) then pr else mh_prop m v)
     (mh_verts m ++ [mh_next m]) (mh_quads m) (mh_tris m) (mh_intr m) (mh_bdry m) (mh_nbr m)
     (S (mh_next m)) (mh_area m) (mh_col m) (mh_scale m).
(* MeshMerger.h:147-162 copy_donor_vertices *)
Definition copy_vertex (d : mesh) (s : mesh * vmap) (v : nat) : mesh * vmap :=
  match snd s v with
  | Some _ => s
  | None => (add_vertex (fst s) (mh_pos d v) (mh_prop d v), vset (snd s) v (mh_next (fst s)))
  end.

(* reading new_vertices_ *)
Definition vget (nv : vmap) (v : nat) : outcome nat := match nv v with Some x => Ok x | None => UB end.
Definition own_colour (m : mesh) (c : Z) : Z := if Z.ltb c 0 then mh_col m else c.
(* MeshMerger.h:167-211 copy_donor_quads, copy_donor_triangles; the new elements
   are inactive (Facet.h) *)
Definition copy_facet (nv : vmap) (m : mesh) (f : facet) : outcome mesh :=
  match fa_sh f with
  | Quad4 a b c d =>
      obind (vget nv a) (fun a => obind (vget nv b) (fun b => obind (vget nv c) (fun c => obind (vget nv d) (fun d =>
      Ok (add_quad m a b c d (own_colour m (fa_col f)) false)))))
  | Tri3 a b c =>
      obind (vget nv a) (fun a => obind (vget nv b) (fun b => obind (vget nv c) (fun c =>
      Ok (add_tri m a b c (own_colour m (fa_col f)) false))))
  end.

(* EdgeList.h:139-154 add_edge on the interior and the boundary edge list *)
Definition add_intr (m : mesh) (a b : nat) (pr : N) : mesh :=
  MH (mh_pos m) (mh_prop m) (mh_verts m) (mh_quads m) (mh_tris m)
     (mh_intr m ++ [ED (mh_next m) a b (-1) pr None None None]) (mh_bdry m) (mh_nbr m)
     (S (mh_next m)) (mh_area m) (mh_col m) (mh_scale m).
Definition add_bdry (m : mesh) (a b : nat) (col : Z) (pr : N) (tw : option nat) : mesh :=
  MH (mh_pos m) (mh_prop m) (mh_verts m) (mh_quads m) (mh_tris m) (mh_intr m)
     (mh_bdry m ++ [ED (mh_next m) a b col pr None None tw]) (mh_nbr m)
     (S (mh_next m)) (mh_area m) (mh_col m) (mh_scale m).
(* MeshMerger.h:216-234 copy_donor_interior_edges *)
Definition copy_intr (nv : vmap) (m : mesh) (e : medge) : outcome mesh :=
  obind (vget nv (ed_1 e)) (fun a => obind (vget nv (ed_2 e)) (fun b => Ok (add_intr m a b (ed_prop e)))).

Definition set_bdry (m : mesh) (es : list medge) : mesh :=
  MH (mh_pos m) (mh_prop m) (mh_verts m) (mh_quads m) (mh_tris m) (mh_intr m) es (mh_nbr m)
     (mh_next m) (mh_area m) (mh_col m) (mh_scale m).
(* twin_edge(e) of the edge with address i *)
Definition retwin (i j : nat) (e : medge) : medge :=
  if Nat.eqb (ed_id e) i
  then ED (ed_id e) (ed_1 e) (ed_2 e) (ed_col e) (ed_prop e) (ed_l e) (ed_r e) (Some j) else e.
Definition retwin_mesh (i j : nat) (m : mesh) : mesh := set_bdry m (map (retwin i j) (mh_bdry m)).
(* MeshMerger.h:239-276 copy_donor_boundary_edges *)
Definition copy_bdry (nv : vmap) (w : world) (e : medge) : outcome world :=
  obind (twin_in w (w_rec w) e) (fun o =>
  match o with
  | Some _ => Ok w
  | None =>
      obind (vget nv (ed_1 e)) (fun a => obind (vget nv (ed_2 e)) (fun b =>
      let j := mh_next (w_rec w) in
      let r := add_bdry (w_rec w) a b (ed_col e) (ed_prop e) (ed_twin e) in
      match ed_twin e with
      | None => Ok (WD r (w_don w) (w_oth w))
      | Some i => Ok (WD (retwin_mesh i j r) (retwin_mesh i j (w_don w)) (map (retwin_mesh i j) (w_oth w)))
      end))
  end).

(* MeshMerger.h:281-328 convert_boundary_interface_edges: the edges to remove and
   the ends of the new interior edges *)
Definition convert_step (nv : vmap) (w : world) (s : list nat * list (nat * nat)) (e : medge) : outcome (list nat * list (nat * nat)) :=
  obind (twin_in w (w_don w) e) (fun o =>
  match o with
  | None => Ok s
  | Some t => obind (vget nv (ed_1 t)) (fun a => obind (vget nv (ed_2 t)) (fun b =>
              Ok (fst s ++ [ed_id e], snd s ++ [(b, a)])))
  end).
Definition add_intr_pair (m : mesh) (p : nat * nat) : mesh := add_intr m (fst p) (snd p) 0%N.
Definition convert (m : mesh) (s : list nat * list (nat * nat)) : mesh :=
  fold_left add_intr_pair (snd s) (set_bdry m (remove_edges m (fst s) (mh_bdry m))).

(* MeshMerger.h:75-79 *)
Definition set_prop (m : mesh) (p : nat -> N) : mesh :=
  MH (mh_pos m) p (mh_verts m) (mh_quads m) (mh_tris m) (mh_intr m) (mh_bdry m) (mh_nbr m)
     (mh_next m) (mh_area m) (mh_col m) (mh_scale m).
Definition on_bdry (prop : nat -> N) (v : nat) : nat -> N := fun x => if Nat.eqb x v then flag_step (prop x) (FAdd v_on_boundary) else prop x.
Definition remark (m : mesh) : mesh :=
  set_prop m (fold_left (fun p e => on_bdry (on_bdry p (ed_1 e)) (ed_2 e)) (mh_bdry m) (mh_prop m)).

(* new objects get addresses that no object of any mesh has *)
Definition set_next (m : mesh) (n : nat) : mesh :=
  MH (mh_pos m) (mh_prop m) (mh_verts m) (mh_quads m) (mh_tris m) (mh_intr m) (mh_bdry m) (mh_nbr m)
     n (mh_area m) (mh_col m) (mh_scale m).
Definition fresh_next (ms : list mesh) : nat := fold_right (fun m n => Nat.max (mh_next m) n) 0%nat ms.

(* MeshMerger.h:48-86 merge; the donor is not changed but for the pointers of its
   own edges.  assign_mesh_indices only writes the indices.  mesh_area_ of the
   receiver is not touched. *)
Definition merge_pair (w : world) : outcome (bool * world) :=
  let r := setup_facet_connectivity (w_rec w) in
  let d := setup_facet_connectivity (w_don w) in
  let w1 := WD (set_next r (fresh_next (w_all w))) d (w_oth w) in
  obind (ofold (interface_step w1) (mh_bdry r) (fun _ => None, mh_prop r, 0%nat)) (fun s =>
  let '(nv, prop, n) := s in
  if Nat.eqb n 0 then Ok (false, WD r d (w_oth w)) else
  let '(r2, nv) := fold_left (copy_vertex d) (mh_verts d) (set_prop (w_rec w1) prop, nv) in
  obind (ofold (copy_facet nv) (mh_quads d) r2) (fun r3 =>
  obind (ofold (copy_facet nv) (mh_tris d) r3) (fun r4 =>
  obind (ofold (copy_intr nv) (mh_intr d) r4) (fun r5 =>
  obind (ofold (copy_bdry nv) (mh_bdry d) (WD r5 d (w_oth w))) (fun w6 =>
  obind (ofold (convert_step nv w6) (mh_bdry (w_rec w6)) ([], [])) (fun c =>
  Ok (true, WD (remark (convert (w_rec w6) c)) (w_don w6) (w_oth w6)))))))).

(* MeshGenerator.h:112-139 merge_meshes on the list of meshes with their keys;
   every mesh of the list has a domain (MeshGenerator.h:93-107).  Merging a mesh
   with itself changes nothing: no edge has a twin in its own mesh. *)
Definition generator := list (nat * mesh).
Definition gfind (g : generator) (k : nat) : option mesh := option_map snd (find (fun p => Nat.eqb (fst p) k) g).
Definition others (g : generator) (r d : nat) : generator := filter (fun p => negb (Nat.eqb (fst p) r) && negb (Nat.eqb (fst p) d)) g.
(* put the meshes back under their keys, in the order of the list *)
Definition put (g : generator) (k : nat) (m : mesh) : generator :=
  map (fun p => if Nat.eqb (fst p) k then (k, m) else p) g.
Definition put_all (g : generator) (kms : list (nat * mesh)) : generator := fold_left (fun g km => put g (fst km) (snd km)) kms g.
Definition erase (g : generator) (k : nat) : generator := filter (fun p => negb (Nat.eqb (fst p) k)) g.
Definition merge_meshes (g : generator) (r d : nat) : outcome (bool * generator) :=
  match gfind g r, gfind g d with
  | Some mr, Some md =>
      if Nat.eqb r d then Ok (true, put g r (setup_facet_connectivity mr)) else
      obind (merge_pair (WD mr md (map snd (others g r d)))) (fun res =>
      let w := snd res in
      let g' := put_all g ((r, w_rec w) :: (d, w_don w) :: combine (map fst (others g r d)) (w_oth w)) in
      Ok (true, if fst res then erase g' d else g'))
  | _, _ => Ok (false, g)
  end.
