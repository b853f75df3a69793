(* Executable model of the triangle-to-quad modification
   (src/algorithm/ModificationStrategy.h Tri2QuadModification and the copy in
   MeshCleanup.h merge_triangles_to_quads). *)
From Verif Require Import Base GeomModel FacetModel UtilModel BdryModel AdvanceModel Chain MeshModel QRefineModel CleanModel.

(* Triangle.h:296, Quad.h: min_edge_length_, squared: the order of the lengths is
   the order of their squares *)
Definition side_length2 (pos : nat -> vec2) (p : nat * nat) : Q :=
  let d := vsub (pos (snd p)) (pos (fst p)) in vdot d d.
Definition min2 (a b : Q) : Q := if Qltb b a then b else a.
Definition min_edge2 (pos : nat -> vec2) (f : facet) : Q :=
  match map (side_length2 pos) (ring_edges (corners (fa_sh f))) with
  | [] => 0
  | x :: r => fold_left min2 r x
  end.

(* the element behind a facet pointer: None is the null pointer, a pointer to an
   element that is no longer in the mesh is undefined behaviour *)
Definition pointed (m : mesh) (o : option nat) : outcome (option facet) :=
  match o with
  | None => Ok None
  | Some i => match find_facet m i with Some f => Ok (Some f) | None => UB end
  end.

(* ModificationStrategy.h:104-114: the test of one interior edge, with the sort
   key of line 119-131; f_r is only looked at when f_l is a triangle *)
Definition tri_edge (m : mesh) (e : medge) : outcome (option (Q * nat)) :=
  obind (pointed m (ed_l e)) (fun l =>
  match l with
  | Some fl =>
      if Nat.eqb (n_corners fl) 3 then
        obind (pointed m (ed_r e)) (fun r =>
        match r with
        | Some fr =>
            if Nat.eqb (n_corners fr) 3
            then Ok (Some (min2 (min_edge2 (mh_pos m) fl) (min_edge2 (mh_pos m) fr), ed_id e))
            else Ok None
        | None => Ok None
        end)
      else Ok None
  | None => Ok None
  end).
Fixpoint collect (m : mesh) (es : list medge) : outcome (list (Q * nat)) :=
  match es with
  | [] => Ok []
  | e :: r => obind (tri_edge m e) (fun o => obind (collect m r) (fun l =>
              Ok (match o with Some k => k :: l | None => l end)))
  end.

(* std::list::sort is stable *)
Fixpoint ins_key (k : Q * nat) (l : list (Q * nat)) : list (Q * nat) :=
  match l with
  | [] => [k]
  | x :: r => if Qltb (fst x) (fst k) then x :: ins_key k r else k :: l
  end.
Definition sort_keys (l : list (Q * nat)) : list (Q * nat) := fold_right ins_key [] l.

(* ModificationStrategy.h:183-199: facet pointers fl and fr of the edge joining a
   and b now point to the new quad *)
Definition repoint (fl fr q : nat) (o : option nat) : option nat :=
  match o with
  | Some i => if Nat.eqb i fl || Nat.eqb i fr then Some q else Some i
  | None => None
  end.
Definition repoint_edge (fl fr q : nat) (e : medge) : medge :=
  ED (ed_id e) (ed_1 e) (ed_2 e) (ed_col e) (ed_prop e) (repoint fl fr q (ed_l e)) (repoint fl fr q (ed_r e)) (ed_twin e).
Definition relink (fl fr q : nat) (es : list medge) (p : nat * nat) : list medge :=
  match find_edge es (fst p) (snd p) with
  | None => es
  | Some x => map (fun e => if Nat.eqb (ed_id e) (ed_id x) then repoint_edge fl fr q e else e) es
  end.
Definition set_intr (m : mesh) (es : list medge) : mesh :=
  MH (mh_pos m) (mh_prop m) (mh_verts m) (mh_quads m) (mh_tris m) es (mh_bdry m)
     (mh_nbr m) (mh_next m) (mh_area m) (mh_col m) (mh_scale m).

(* ModificationStrategy.h:153-204: one edge.  own: the colour of f_l is passed to
   add_quad (ModificationStrategy.h:177), otherwise the default -1
   (MeshCleanup.h:760).  Null pointers and the index -1 are undefined behaviour. *)
Definition merge_edge (own : bool) (m : mesh) (i : nat) : outcome mesh :=
  match find (fun e => Nat.eqb (ed_id e) i) (mh_intr m) with
  | None => UB
  | Some e =>
      match ed_l e, ed_r e with
      | Some l, Some r =>
          match find_facet m l, find_facet m r with
          | Some fl, Some fr =>
              if Nat.ltb 3 (n_corners fl) || Nat.ltb 3 (n_corners fr) then Ok m
              else
                match side_index (fa_sh fl) (ed_1 e) (ed_2 e), side_index (fa_sh fr) (ed_1 e) (ed_2 e) with
                | Some il, Some ir =>
                    match nth_error (corners (fa_sh fl)) il, nth_error (corners (fa_sh fr)) ir with
                    | Some ql, Some qr =>
                        let m1 := drop m [] [] [ed_id e] [] in
                        let col := if own then (if Z.ltb (fa_col fl) 0 then mh_col m else fa_col fl) else mh_col m in
                        let m2 := add_quad m1 ql (ed_1 e) qr (ed_2 e) col true in
                        let m3 := set_intr m2 (fold_left (relink (fa_id fl) (fa_id fr) (mh_next m))
                                     [(ql, ed_1 e); (ed_1 e, qr); (qr, ed_2 e); (ed_2 e, ql)] (mh_intr m2)) in
                        Ok (drop m3 [] [fa_id fl; fa_id fr] [] [])
                    | _, _ => UB
                    end
                | _, _ => UB
                end
          | _, _ => UB
          end
      | _, _ => UB
      end
  end.

(* collect_triangle_edges and merge_triangles_to_quads *)
Definition merge_triangles (own : bool) (m : mesh) : outcome mesh :=
  obind (collect m (mh_intr m)) (fun ks => ofold (merge_edge own) (map snd (sort_keys ks)) m).

(* ModificationStrategy.h:78-95 modify (own = true), MeshCleanup.h:691-808
   (own = false); clear_waste only frees memory *)
Definition tri2quad (own : bool) (m : mesh) : outcome mesh :=
  obind (merge_triangles own (setup_facet_connectivity m)) (fun m =>
  obind (clear_double_quads true m) (clear_double_tris false)).
