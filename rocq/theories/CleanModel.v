(* Executable model of the cleanup passes of src/algorithm/MeshCleanup.h that
   remove elements: clear_double_quad_edges, clear_double_triangle_edges and
   merge_degenerate_triangles. *)
From Verif Require Import Base GeomModel FacetModel UtilModel BdryModel AdvanceModel MeshModel QRefineModel.

(* Mesh.h:286-299 add_triangle, colour given by the caller *)
Definition add_tri (m : mesh) (a b c : nat) (col : Z) (act : bool) : mesh :=
  MH (mh_pos m) (mh_prop m) (mh_verts m) (mh_quads m)
     (mh_tris m ++ [FA (mh_next m) (Tri3 a b c) col act]) (mh_intr m) (mh_bdry m)
     (fun f i => if Nat.eqb f (mh_next m) then None else mh_nbr m f i)
     (S (mh_next m)) (mh_area m) (mh_col m) (mh_scale m).

(* Mesh.h:329-356 remove_vertex, remove_quad, remove_triangle,
   remove_interior_edge applied to lists of addresses; what lies outside of the
   square of the container's quadtree stays (Container.h:174-188) *)
Definition drop (m : mesh) (qs ts es vs : list nat) : mesh :=
  MH (mh_pos m) (mh_prop m)
     (filter (fun v => negb (existsb (Nat.eqb v) vs && in_square (mh_scale m) (mh_pos m v))) (mh_verts m))
     (remove_facets m qs (mh_quads m)) (remove_facets m ts (mh_tris m))
     (remove_edges m es (mh_intr m)) (mh_bdry m)
     (mh_nbr m) (mh_next m) (mh_area m) (mh_col m) (mh_scale m).

Definition find_facet (m : mesh) (i : nat) : option facet := find (fun f => Nat.eqb (fa_id f) i) (facets m).
Definition n_corners (f : facet) : nat := length (corners (fa_sh f)).

(* ---- clear_double_quad_edges and clear_double_triangle_edges ---- *)
(* quads_to_remove / elements_to_remove, edges_to_remove, verts_to_remove and
   opposing_vertices (only the first pass), as one record *)
Record double := DB { db_q : facet; db_n : facet; db_e1 : medge; db_e2 : medge;
                      db_v : nat; db_o1 : nat; db_o2 : option nat }.

(* the corners (v1,v2,v3,v4) seen by the loop over i_vert, lines 238-244 *)
Definition turns (s : shape) : list (nat * nat * nat * nat) :=
  match s with
  | Quad4 a b c d => [(a, b, c, d); (b, c, d, a); (c, d, a, b); (d, a, b, c)]
  | Tri3 _ _ _ => []
  end.

(* element_marker: the marked element indices *)
Definition marked (mk : list Z) (i : Z) : bool := existsb (Z.eqb i) mk.

(* MeshCleanup.h:236-318 (quad4 = true) and 449-514 (quad4 = false): one turn.
   Ok None: continue.  The ASSERTs only concern debug builds; a null edge, a
   pointer to a removed element and the index -1 are undefined behaviour. *)
Definition check_turn (quad4 : bool) (m : mesh) (idx : nat -> Z) (mk : list Z) (q : facet)
    (t : nat * nat * nat * nat) : outcome (option double) :=
  let '(v1, v2, v3, v4) := t in
  match side_index (fa_sh q) v1 v2, side_index (fa_sh q) v2 v3 with
  | Some i1, Some i2 =>
      match mh_nbr m (fa_id q) i1, mh_nbr m (fa_id q) i2 with
      | Some n1, Some n2 =>
          if negb (Nat.eqb n1 n2) then Ok None
          else
            match find_facet m n1 with
            | None => UB
            | Some n =>
                if marked mk (idx n1) then Ok None
                else if (if quad4 then Nat.ltb (n_corners n) 4 else Nat.ltb 3 (n_corners n)) then Ok None
                else
                  match find_edge (mh_intr m) v1 v2, find_edge (mh_intr m) v2 v3 with
                  | Some e1, Some e2 =>
                      if quad4 then
                        match side_index (fa_sh n) v2 v3 with
                        | Some k =>
                            match nth_error (corners (fa_sh n)) k with
                            | Some o => Ok (Some (DB q n e1 e2 v2 v4 (Some o)))
                            | None => UB
                            end
                        | None => UB
                        end
                      else Ok (Some (DB q n e1 e2 v2 v4 None))
                  | _, _ => UB
                  end
            end
      | _, _ => Ok None
      end
  | _, _ => UB
  end.

(* the loop over i_vert with its break *)
Fixpoint first_double (quad4 : bool) (m : mesh) (idx : nat -> Z) (mk : list Z) (q : facet)
    (ts : list (nat * nat * nat * nat)) : outcome (option double) :=
  match ts with
  | [] => Ok None
  | t :: r => obind (check_turn quad4 m idx mk q t) (fun o =>
              match o with Some d => Ok (Some d) | None => first_double quad4 m idx mk q r end)
  end.

(* MeshCleanup.h:228-320, 441-515: the loop over the quads.  The counter i_quad
   is not advanced for a marked quad. *)
Fixpoint scan_doubles (quad4 : bool) (m : mesh) (idx : nat -> Z) (i : Z) (mk : list Z) (qs : list facet)
    : outcome (list double) :=
  match qs with
  | [] => Ok []
  | q :: r =>
      if marked mk i then scan_doubles quad4 m idx i mk r
      else obind (first_double quad4 m idx mk q (turns (fa_sh q))) (fun o =>
           match o with
           | None => scan_doubles quad4 m idx (i + 1)%Z mk r
           | Some d => obind (scan_doubles quad4 m idx (i + 1)%Z (idx (fa_id q) :: idx (fa_id (db_n d)) :: mk) r)
                             (fun l => Ok (d :: l))
           end)
  end.

(* MeshCleanup.h:324-344: (e1->v2() == *v2) ? e1->v1() : e1->v2() etc. *)
Definition new_quad (m : mesh) (d : double) : outcome mesh :=
  match db_o2 d with
  | None => UB
  | Some o2 =>
      let v1 := if Nat.eqb (ed_2 (db_e1 d)) (db_v d) then ed_1 (db_e1 d) else ed_2 (db_e1 d) in
      let v3 := if Nat.eqb (ed_1 (db_e2 d)) (db_v d) then ed_2 (db_e2 d) else ed_1 (db_e2 d) in
      Ok (add_quad m (db_o1 d) v1 o2 v3 (mh_col m) true)
  end.

(* Facet::get_vertex_index: the first corner equal to v *)
Fixpoint vertex_index (l : list nat) (v : nat) : option nat :=
  match l with
  | [] => None
  | x :: r => if Nat.eqb x v then Some 0%nat else option_map S (vertex_index r v)
  end.

(* MeshCleanup.h:518-539 *)
Definition new_tri (m : mesh) (d : double) : outcome mesh :=
  match vertex_index (corners (fa_sh (db_q d))) (db_v d) with
  | None => UB
  | Some k =>
      let c j := nth_error (corners (fa_sh (db_q d))) ((k + j) mod 4) in
      match c 1%nat, c 2%nat, c 3%nat with
      | Some v1, Some v2, Some v3 => Ok (add_tri m v1 v2 v3 (mh_col m) true)
      | _, _, _ => UB
      end
  end.

(* MeshCleanup.h:210-381; assign_mesh_indices is the function idx *)
Definition clear_double_quads (init : bool) (m : mesh) : outcome mesh :=
  let m := if init then setup_facet_connectivity m else m in
  obind (scan_doubles true m (element_indices m (fun _ => 0%Z)) 0 [] (mh_quads m)) (fun ds =>
  obind (ofold new_quad ds m) (fun m1 =>
  Ok (setup_facet_connectivity
        (drop m1 (flat_map (fun d => [fa_id (db_q d); fa_id (db_n d)]) ds) []
                 (flat_map (fun d => [ed_id (db_e1 d); ed_id (db_e2 d)]) ds) (map db_v ds))))).

(* MeshCleanup.h:423-573 *)
Definition clear_double_tris (init : bool) (m : mesh) : outcome mesh :=
  let m := if init then setup_facet_connectivity m else m in
  obind (scan_doubles false m (element_indices m (fun _ => 0%Z)) 0 [] (mh_quads m)) (fun ds =>
  obind (ofold new_tri ds m) (fun m1 =>
  Ok (setup_facet_connectivity
        (drop m1 (map (fun d => fa_id (db_q d)) ds) (map (fun d => fa_id (db_n d)) ds)
                 (flat_map (fun d => [ed_id (db_e1 d); ed_id (db_e2 d)]) ds) (map db_v ds))))).

(* ---- merge_degenerate_triangles ---- *)
(* Vertex::edges(); only the edges of the mesh are alive, the front has been
   cleared (Triangulation.h:104) *)
Definition edges_at (m : mesh) (v : nat) : list medge :=
  filter (fun e => Nat.eqb (ed_1 e) v || Nat.eqb (ed_2 e) v) (mh_intr m ++ mh_bdry m).

(* MeshCleanup.h:597-626 *)
Definition degenerate (m : mesh) (v : nat) : bool :=
  if has_property (mh_prop m v) v_is_fixed then false
  else
    match facets_at m v with
    | [f0; f1; f2] =>
        Nat.eqb (length (edges_at m v)) 3 &&
        Nat.eqb (n_corners f0) 3 && Nat.eqb (n_corners f1) 3 && Nat.eqb (n_corners f2) 3 &&
        Z.eqb (fa_col f1) (fa_col f0) && Z.eqb (fa_col f2) (fa_col f0)
    | _ => false
    end.

(* the corner after v, MeshCleanup.h:644-650 *)
Definition corner_after (f : facet) (v : nat) : option nat :=
  match fa_sh f with
  | Tri3 a b c => if Nat.eqb a v then Some b else if Nat.eqb b v then Some c else if Nat.eqb c v then Some a else None
  | Quad4 _ _ _ _ => None
  end.

(* MeshCleanup.h:630-678: one bad vertex.  facets(i) beyond the end of the list
   and missing edges are undefined behaviour. *)
Definition merge_degenerate (m : mesh) (v : nat) : outcome mesh :=
  match facets_at m v with
  | t0 :: t1 :: t2 :: _ =>
      match corner_after t0 v, corner_after t1 v, corner_after t2 v with
      | Some v0, Some v1, Some v2 =>
          match find_edge (mh_intr m) v v0, find_edge (mh_intr m) v v1, find_edge (mh_intr m) v v2 with
          | Some e0, Some e1, Some e2 =>
              let m1 := drop m [] [fa_id t0; fa_id t1; fa_id t2] [ed_id e0; ed_id e1; ed_id e2] [v] in
              let col := if Z.ltb (fa_col t0) 0 then mh_col m else fa_col t0 in
              match orientation (mh_pos m v0) (mh_pos m v1) (mh_pos m v2) with
              | CCW => Ok (add_tri m1 v0 v1 v2 col false)
              | _ => Ok (add_tri m1 v0 v2 v1 col false)
              end
          | _, _, _ => UB
          end
      | _, _, _ => UB
      end
  | _ => UB
  end.

(* MeshCleanup.h:589-684 *)
Definition merge_degenerates (m : mesh) : outcome mesh :=
  obind (ofold merge_degenerate (filter (degenerate m) (mh_verts m)) m) (fun m1 =>
  Ok (setup_facet_connectivity m1)).

(* Triangulation.h:106-112, after a valid triangulation *)
Definition cleanup (m : mesh) : outcome mesh :=
  obind (clear_double_quads true m) (fun m =>
  obind (clear_double_tris true m) merge_degenerates).
