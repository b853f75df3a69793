(* Executable model of the check of a domain before a mesh is generated
   (src/algorithm/EntityChecks.h, src/algorithm/EdgeList.h). *)
From Verif Require Import Base GeomModel UtilModel BdryModel AdvanceModel LoopModel QLayerModel.
Open Scope Q_scope.

(* Boundary.h, EdgeList.h: a boundary with its edges in the order of the container.
   The vertices are those of the domain; [pos] gives their coordinates. *)
Record vboundary := VB { vb_type : bdry_type; vb_edges : list bedge }.
Definition vb_exterior (b : vboundary) : bool := match vb_type b with EXTERIOR => true | INTERIOR => false end.

Section Check.
Variable pos : nat -> vec2.
Definition edge_xy (e : bedge) : vec2 * vec2 := (pos (be_v1 e), pos (be_v2 e)).
Definition edges_cross (e f : bedge) : bool :=
  line_line_intersection (fst (edge_xy e)) (snd (edge_xy e)) (fst (edge_xy f)) (snd (edge_xy f)).

(* comparison of an edge with a possibly null pointer *)
Definition points_to (o : option bedge) (f : bedge) : bool :=
  match o with Some g => Nat.eqb (be_id g) (be_id f) | None => false end.

(* EdgeList.h:402-434 intersects_self; the order in which get_items returns the edges
   does not matter for the result *)
Definition self_crossing (es : list bedge) : bool :=
  existsb (fun e =>
    let e_prev := get_prev_edge es e in
    let e_next := get_next_edge es e in
    existsb (fun f =>
      in_box_of (edge_xy e) (edge_xy f) && negb (Nat.eqb (be_id f) (be_id e)) &&
      negb (points_to e_prev f) && negb (points_to e_next f) && edges_cross e f) es) es.

(* EdgeList.h:440-463 intersects_edgelist *)
Definition lists_cross (es fs : list bedge) : bool :=
  existsb (fun e => existsb (fun f => in_box_of (edge_xy e) (edge_xy f) && edges_cross e f) fs) es.

(* EntityChecks.h:62-71: edges()[0] of a boundary without edges is undefined *)
Fixpoint all_traversable (bs : list vboundary) : outcome bool :=
  match bs with
  | [] => Ok true
  | b :: r => match vb_edges b with
              | [] => UB
              | e :: _ => if is_traversable (vb_edges b) e e then all_traversable r else Ok false
              end
  end.

(* EntityChecks.h:74-92: boundaries are compared by address, here by their index *)
Definition any_crossing (bs : list vboundary) : bool :=
  let ibs := combine (seq 0 (length bs)) bs in
  existsb (fun ib => self_crossing (vb_edges (snd ib)) ||
    existsb (fun jc => negb (Nat.eqb (fst jc) (fst ib)) && lists_cross (vb_edges (snd ib)) (vb_edges (snd jc))) ibs) ibs.

(* EntityChecks.h:34-98 check_domain_validity *)
Definition check_domain_validity (bs : list vboundary) : outcome bool :=
  match bs with
  | [] => Ok false
  | _ =>
    if negb (existsb vb_exterior bs) then Ok false
    else obind (all_traversable bs) (fun t =>
      if negb t then Ok false else Ok (negb (any_crossing bs)))
  end.
End Check.
