(* Searches for edges and elements in the neighbourhood of a point: the containers
   are asked for the entries whose midpoint or centroid is in range. *)
From Verif Require Import Base GeomModel FacetModel.
Open Scope Q_scope.

(* An edge is the pair of the positions of its vertices, Edge.h: xy() is the
   midpoint.  Containers are lists.  Ranges enter by their squares; the ones that
   the code passes are sqrt-free multiples of lengths. *)
Definition seg := (vec2 * vec2)%type.
Definition mid (e : seg) : vec2 := vscale (1 # 2) (vadd (fst e) (snd e)).
Definition len2 (e : seg) : Q := edge_len2 (fst e) (snd e).
(* Container.h get_items(center, radius), EdgeList.h:81-82 get_edges *)
Definition near (c : vec2) (r2 : Q) (x : vec2) : bool := Qleb (vnorm2 (vsub x c)) r2.
Definition get_edges (c : vec2) (r2 : Q) (l : list seg) : list seg := filter (fun e => near c r2 (mid e)) l.

(* Vertex.h:201-230 intersects_mesh_edges(mesh, search_range, limit_range) *)
Definition intersects_mesh_edges (x : vec2) (intr bdry : list seg) (search limit : Q) : bool :=
  let hit e := Qleb (distance_point_edge_sqr x (fst e) (snd e)) (limit * limit) in
  existsb hit (get_edges x (search * search) intr) || existsb hit (get_edges x (search * search) bdry).

(* elements with the identities of their vertices *)
Record tri := Tri { t_v : list nat; t_p : vec2; t_q : vec2; t_r : vec2 }.
Record quad := Quad { q_v : list nat; q_p : vec2; q_q : vec2; q_r : vec2; q_s : vec2 }.
Definition t_xy (t : tri) : vec2 := tri_centroid (t_p t) (t_q t) (t_r t).
Definition q_xy (f : quad) : vec2 := quad_centroid (q_p f) (q_q f) (q_r f) (q_s f).
Definition has (l : list nat) (v : nat) : bool := existsb (Nat.eqb v) l.

(* Vertex.h:184-194 intersects_facet with FacetGeometry.h:174-181 and 507-518; the
   active flag is not looked at *)
Definition vertex_meets_tris (v : nat) (x : vec2) (l : list tri) (r2 : Q) : bool :=
  existsb (fun t => near x r2 (t_xy t) && negb (has (t_v t) v) && in_on_triangle x (t_p t) (t_q t) (t_r t)) l.
Definition vertex_meets_quads (v : nat) (x : vec2) (l : list quad) (r2 : Q) : bool :=
  existsb (fun f => near x r2 (q_xy f) && negb (has (q_v f) v) && in_on_quad x (q_p f) (q_q f) (q_r f) (q_s f)) l.

(* SmoothingStrategy.h:177-213 check_coordinate(xy_n, v): old is v.xy(), inside
   Domain::is_inside.  The fourth vertex of a quad is taken from v3() (line 202),
   for its position as well as for the comparison with v; the third entry of q_v
   is the third vertex. *)
Definition check_coordinate (inside : vec2 -> bool) (v : nat) (old x : vec2) (tris : list tri) (quads : list quad) : bool :=
  let r2 := 4 * vnorm2 (vsub x old) in
  if existsb (fun t => near x r2 (t_xy t) && negb (has (t_v t) v) && in_on_triangle x (t_p t) (t_q t) (t_r t)) tris then false
  else if existsb (fun f => near x r2 (q_xy f) && negb (has (firstn 3 (q_v f)) v) &&
                            in_on_quad x (q_p f) (q_q f) (q_r f) (q_r f)) quads then false
  else inside x.

(* Domain.h:240-252 get_boundary_edges, 359-391 count_edge_overlaps; a domain is
   the list of its boundaries, edge_overlap_range_ is 3/2 *)
Definition boundary_edges (d : list (list seg)) (c : vec2) (r2 : Q) : list seg := flat_map (get_edges c r2) d.
Definition count_edge_overlaps (d nbr : list (list seg)) : nat :=
  fold_left (fun n b => fold_left (fun n e =>
    fold_left (fun n f => if segment_overlap (fst e) (snd e) (fst f) (snd f) then S n else n)
      (boundary_edges nbr (mid e) ((9 # 4) * len2 e)) n) b n) d O.

(* FacetGeometry.h:289-308 check_intersection(tri, front, range) and 612-632
   check_intersection(quad, front, range) *)
Definition tri_meets_front (t : tri) (front : list seg) (r2 : Q) : bool :=
  existsb (fun e => line_tri_intersection (fst e) (snd e) (t_p t) (t_q t) (t_r t)) (get_edges (t_xy t) r2 front).
Definition quad_meets_front (f : quad) (front : list seg) (r2 : Q) : bool :=
  existsb (fun e => line_quad_intersection (fst e) (snd e) (q_p f) (q_q f) (q_r f) (q_s f)) (get_edges (q_xy f) r2 front).

(* FacetGeometry.h:666-703 is_too_close(quad, front, range, min_dist_sqr); an edge
   of the front with the identities of its vertices *)
Definition is_too_close (f : quad) (front : list (nat * nat * seg)) (r2 min2 : Q) : bool :=
  let close x := Qltb (distance_point_edge_sqr x (q_p f) (q_q f)) min2 || Qltb (distance_point_edge_sqr x (q_q f) (q_r f)) min2 ||
                 Qltb (distance_point_edge_sqr x (q_r f) (q_s f)) min2 || Qltb (distance_point_edge_sqr x (q_s f) (q_p f)) min2 in
  existsb (fun e => let '(a, b, s) := e in
    near (q_xy f) r2 (mid s) && negb (has (q_v f) a) && negb (has (q_v f) b) && (close (fst s) || close (snd s))) front.
