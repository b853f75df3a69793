(* Executable model of the objects of a domain and the pointers between them while the
   domain is edited (src/algorithm/Domain.h, Boundary.h, EdgeList.h, Edge.h,
   src/utils/Container.h).  Release build: ASSERT is compiled out.

   Vertices, edges and edge lists are numbers (addresses); no number is used twice.
   Coordinates, colours and sizes are left out.  Whether the quadtree of a container takes
   an item (Container.h:149-158, it only prints an error otherwise) depends on coordinates
   and is an argument of the operations that create items.  Boundary::add_edge is modelled,
   split_edge and the set_shape functions, which consist of such steps, are not. *)
From Verif Require Import Base.
Open Scope nat_scope.

(* EdgeList.h with its Container<Edge>: items_ and waste_ *)
Record elst := ELst { l_id : nat; l_items : list nat; l_waste : list nat }.

(* Domain.h:482-490.  Of a vertex object: edges_ (Vertex.h), whether it is in the quadtree,
   property is_fixed.  Of an edge object: v1_ and v2_ (None: both null, Edge.h:250-257),
   edgelist_, whether it is in the quadtree. *)
Record dom := Dom {
  d_verts : list nat; d_vwaste : list nat;
  d_bdrys : list elst; d_fverts : list nat; d_fedges : elst;
  d_star : nat -> list nat; d_vtree : nat -> bool; d_vfixed : nat -> bool;
  d_ends : nat -> option (nat * nat); d_home : nat -> nat; d_etree : nat -> bool;
  d_next : nat }.

Definition upd {A} (f : nat -> A) (k : nat) (x : A) : nat -> A := fun j => if Nat.eqb j k then x else f j.
Definition member (k : nat) (l : list nat) : bool := existsb (Nat.eqb k) l.
Definition drop (k : nat) (l : list nat) : list nat := filter (fun j => negb (Nat.eqb j k)) l.

(* the memory that is in use: items and waste of the containers *)
Definition v_alloc (s : dom) (v : nat) : bool := member v (d_verts s) || member v (d_vwaste s).
Definition l_alloc (l : elst) (e : nat) : bool := member e (l_items l) || member e (l_waste l).
Definition lists (s : dom) : list elst := d_fedges s :: d_bdrys s.
Definition e_alloc (s : dom) (e : nat) : bool := existsb (fun l => l_alloc l e) (lists s).

(* Domain.h:204-211 the empty domain; the list of fixed edges has number 0 *)
Definition empty_domain : dom :=
  Dom [] [] [] [] (ELst 0 [] []) (fun _ => []) (fun _ => false) (fun _ => false) (fun _ => None) (fun _ => 0) (fun _ => false) 1.

(* Domain.h:397-404 add_vertex, 415-425 add_fixed_vertex *)
Definition add_vertex (s : dom) (fixed t : bool) : dom :=
  let v := d_next s in
  Dom (d_verts s ++ [v]) (d_vwaste s) (d_bdrys s) (if fixed then d_fverts s ++ [v] else d_fverts s) (d_fedges s)
      (upd (d_star s) v []) (upd (d_vtree s) v t) (upd (d_vfixed s) v fixed) (d_ends s) (d_home s) (d_etree s) (S v).

(* Container.h:174-188 remove for vertices: an item that is not in the quadtree stays;
   container_destructor of a vertex does nothing (Container.h:320) *)
Definition vertices_remove (s : dom) (v : nat) : outcome dom :=
  if negb (v_alloc s v) then UB
  else if member v (d_verts s) && d_vtree s v
  then Ok (Dom (drop v (d_verts s)) (d_vwaste s ++ [v]) (d_bdrys s) (d_fverts s) (d_fedges s)
               (d_star s) (upd (d_vtree s) v false) (d_vfixed s) (d_ends s) (d_home s) (d_etree s) (d_next s))
  else Ok s.
(* Domain.h:409-410 remove_vertex *)
Definition remove_vertex (s : dom) (v : nat) : outcome dom := vertices_remove s v.
(* Domain.h:430-441 remove_fixed_vertex; operator== of vertices compares addresses *)
Definition remove_fixed_vertex (s : dom) (v : nat) : outcome dom :=
  vertices_remove
    (Dom (d_verts s) (d_vwaste s) (d_bdrys s) (drop v (d_fverts s)) (d_fedges s)
         (d_star s) (d_vtree s) (d_vfixed s) (d_ends s) (d_home s) (d_etree s) (d_next s)) v.

(* Domain.h:289-300 insert_boundary, 305-307 add_boundary: at the end *)
Definition insert_boundary (s : dom) (p : nat) : outcome dom :=
  if length (d_bdrys s) <? p then UB
  else Ok (Dom (d_verts s) (d_vwaste s) (firstn p (d_bdrys s) ++ ELst (d_next s) [] [] :: skipn p (d_bdrys s)) (d_fverts s) (d_fedges s)
               (d_star s) (d_vtree s) (d_vfixed s) (d_ends s) (d_home s) (d_etree s) (S (d_next s))).
(* Domain.h:324-325 remove_boundary: the boundary, its container and its edges are freed;
   no destructor tells the vertices (Container.h:320, Edge.h has no destructor) *)
Definition remove_boundary (s : dom) (p : nat) : outcome dom :=
  if p <? length (d_bdrys s)
  then Ok (Dom (d_verts s) (d_vwaste s) (firstn p (d_bdrys s) ++ skipn (S p) (d_bdrys s)) (d_fverts s) (d_fedges s)
               (d_star s) (d_vtree s) (d_vfixed s) (d_ends s) (d_home s) (d_etree s) (d_next s))
  else UB.

(* the reading of a vertex of an edge *)
Definition can_read (s : dom) (o : option nat) : bool := match o with Some v => v_alloc s v | None => false end.
(* EdgeList.h:507-530 compute_area reads v1 of the first edge, v1 and v2 of the others *)
Definition area_reads (s : dom) (items : list nat) : list (option nat) :=
  match items with
  | e0 :: (_ :: _ :: _) as rest =>
      option_map fst (d_ends s e0) :: flat_map (fun e => [option_map fst (d_ends s e); option_map snd (d_ends s e)]) rest
  | _ => []
  end.
Definition set_list (s : dom) (l : elst) : dom :=
  if Nat.eqb (l_id l) (l_id (d_fedges s))
  then Dom (d_verts s) (d_vwaste s) (d_bdrys s) (d_fverts s) l (d_star s) (d_vtree s) (d_vfixed s) (d_ends s) (d_home s) (d_etree s) (d_next s)
  else Dom (d_verts s) (d_vwaste s) (map (fun b => if Nat.eqb (l_id b) (l_id l) then l else b) (d_bdrys s)) (d_fverts s) (d_fedges s)
           (d_star s) (d_vtree s) (d_vfixed s) (d_ends s) (d_home s) (d_etree s) (d_next s).
(* Edge.h:98-117 the constructor, EdgeList.h:114-126 insert_edge at the end of [l];
   [oriented]: compute_area is called *)
Definition push_edge (s : dom) (l : elst) (oriented : bool) (v1 v2 : nat) (t : bool) : outcome dom :=
  if negb (v_alloc s v1 && v_alloc s v2) then UB else
  let e := d_next s in
  let star1 := upd (d_star s) v1 (d_star s v1 ++ [e]) in
  let star2 := upd star1 v2 (star1 v2 ++ [e]) in
  let s1 := Dom (d_verts s) (d_vwaste s) (d_bdrys s) (d_fverts s) (d_fedges s) star2 (d_vtree s) (d_vfixed s)
                (upd (d_ends s) e (Some (v1, v2))) (upd (d_home s) e (l_id l)) (upd (d_etree s) e t) (S e) in
  let s2 := set_list s1 (ELst (l_id l) (l_items l ++ [e]) (l_waste l)) in
  if oriented && negb (forallb (can_read s2) (area_reads s2 (l_items l ++ [e]))) then UB else Ok s2.
(* Domain.h:330-335 operator[] and Boundary.h:194-195 add_edge *)
Definition add_edge (s : dom) (p v1 v2 : nat) (t : bool) : outcome dom :=
  match nth_error (d_bdrys s) p with Some l => push_edge s l true v1 v2 t | None => UB end.
(* Domain.h:446-453 add_fixed_edge; orientation NONE *)
Definition add_fixed_edge (s : dom) (v1 v2 : nat) (t : bool) : outcome dom := push_edge s (d_fedges s) false v1 v2 t.

(* Container.h:174-188 remove for edges with Edge.h:250-257 container_destructor *)
Definition list_remove (s : dom) (l : elst) (e : nat) : outcome dom :=
  if negb (e_alloc s e) then UB
  else if member e (l_items l) && d_etree s e
  then match d_ends s e with
       | Some (v1, v2) =>
           if negb (v_alloc s v1 && v_alloc s v2) then UB else
           let star1 := upd (d_star s) v1 (drop e (d_star s v1)) in
           let star2 := upd star1 v2 (drop e (star1 v2)) in
           Ok (set_list
                 (Dom (d_verts s) (d_vwaste s) (d_bdrys s) (d_fverts s) (d_fedges s) star2 (d_vtree s) (d_vfixed s)
                      (upd (d_ends s) e None) (d_home s) (upd (d_etree s) e false) (d_next s))
                 (ELst (l_id l) (drop e (l_items l)) (l_waste l ++ [e])))
       | None => UB
       end
  else Ok s.
(* EdgeList.h:159 remove of a boundary, Domain.h:458 remove_fixed_edge *)
Definition remove_edge (s : dom) (p e : nat) : outcome dom :=
  match nth_error (d_bdrys s) p with Some l => list_remove s l e | None => UB end.
Definition remove_fixed_edge (s : dom) (e : nat) : outcome dom := list_remove s (d_fedges s) e.

(* Container.h:215 clear_waste of the vertices and of a boundary *)
Definition clear_vertices (s : dom) : dom :=
  Dom (d_verts s) [] (d_bdrys s) (d_fverts s) (d_fedges s) (d_star s) (d_vtree s) (d_vfixed s) (d_ends s) (d_home s) (d_etree s) (d_next s).
Definition clear_list (s : dom) (l : elst) : dom := set_list s (ELst (l_id l) (l_items l) []).
(* EdgeList.h:164-173 clear_edges: edges_.size() times the first edge is removed *)
Fixpoint remove_first (n : nat) (s : dom) (p : nat) : outcome dom :=
  match n with
  | O => Ok s
  | S n' => match nth_error (d_bdrys s) p with
            | None => UB
            | Some l => match l_items l with
                        | [] => UB
                        | e :: _ => obind (list_remove s l e) (fun s' => remove_first n' s' p)
                        end
            end
  end.
Definition clear_edges (s : dom) (p : nat) : outcome dom :=
  match nth_error (d_bdrys s) p with
  | None => UB
  | Some l => obind (remove_first (length (l_items l)) s p) (fun s' =>
      match nth_error (d_bdrys s') p with Some l' => Ok (clear_list s' l') | None => UB end)
  end.

(* what a client can do *)
Inductive edit :=
| AddVertex (t : bool) | AddFixedVertex (t : bool) | RemoveVertex (v : nat) | RemoveFixedVertex (v : nat)
| InsertBoundary (p : nat) | RemoveBoundary (p : nat)
| AddEdge (p v1 v2 : nat) (t : bool) | RemoveEdge (p e : nat) | ClearEdges (p : nat)
| AddFixedEdge (v1 v2 : nat) (t : bool) | RemoveFixedEdge (e : nat) | ClearVertices.
Definition step (s : dom) (o : edit) : outcome dom :=
  match o with
  | AddVertex t => Ok (add_vertex s false t)
  | AddFixedVertex t => Ok (add_vertex s true t)
  | RemoveVertex v => remove_vertex s v
  | RemoveFixedVertex v => remove_fixed_vertex s v
  | InsertBoundary p => insert_boundary s p
  | RemoveBoundary p => remove_boundary s p
  | AddEdge p v1 v2 t => add_edge s p v1 v2 t
  | RemoveEdge p e => remove_edge s p e
  | ClearEdges p => clear_edges s p
  | AddFixedEdge v1 v2 t => add_fixed_edge s v1 v2 t
  | RemoveFixedEdge e => remove_fixed_edge s e
  | ClearVertices => Ok (clear_vertices s)
  end.
Fixpoint steps (s : dom) (os : list edit) : outcome dom :=
  match os with [] => Ok s | o :: r => obind (step s o) (fun s' => steps s' r) end.

(* ---------- readers ---------- *)
(* Edge.h:175-193 get_next_edge: the first edge in [es], edges_ of v2_ of the edge [e] *)
Fixpoint first_next (s : dom) (e v : nat) (es : list nat) : outcome (option nat) :=
  match es with
  | [] => Ok None
  | k :: r =>
      if Nat.eqb k e then first_next s e v r
      else if negb (e_alloc s k) then UB
      else if negb (Nat.eqb (d_home s k) (d_home s e)) then first_next s e v r
      else match d_ends s k with
           | None => UB
           | Some (a, _) => if Nat.eqb a v then Ok (Some k) else first_next s e v r
           end
  end.
Definition next_edge (s : dom) (e : nat) : outcome (option nat) :=
  match d_ends s e with
  | Some (_, v) => if v_alloc s v then first_next s e v (d_star s v) else UB
  | None => UB
  end.
(* EdgeList.h:282-303 is_traversable *)
Fixpoint walk (n : nat) (s : dom) (e stop : nat) : outcome bool :=
  match n with
  | O => Ok false
  | S n' => obind (next_edge s e) (fun o =>
      match o with
      | None => Ok false
      | Some f => if Nat.eqb f stop then Ok true else walk n' s f stop
      end)
  end.
(* EntityChecks.h:62-71 in check_domain_validity *)
Fixpoint check_boundaries (s : dom) (bs : list elst) : outcome bool :=
  match bs with
  | [] => Ok true
  | b :: r => match l_items b with
              | [] => UB
              | e :: _ => obind (walk (Nat.max 1 (length (l_items b))) s e e) (fun t =>
                  if t then check_boundaries s r else Ok false)
              end
  end.
Definition check_traversable (s : dom) : outcome bool := check_boundaries s (d_bdrys s).
(* MeshBuilder.h:209-222 in prepare_mesh: the fixed vertices that are taken on their own;
   every fixed vertex is read *)
Fixpoint lone_fixed (s : dom) (vs : list nat) : outcome (list nat) :=
  match vs with
  | [] => Ok []
  | v :: r => if negb (v_alloc s v) then UB else
              obind (lone_fixed s r) (fun l =>
                Ok (if negb (d_vfixed s v) then l else match d_star s v with [] => v :: l | _ => l end))
  end.
