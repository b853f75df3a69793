(* The tests by which new elements are compared with the ones that exist:
   TriangleGeometry::check_intersection and QuadGeometry::check_intersection of
   FacetGeometry.h.  The pairwise tests for triangles are in FacetModel.v. *)
From Verif Require Import Base GeomModel FacetModel.
Open Scope Q_scope.

(* Triangle.h / Quad.h: identity, active flag and the positions of the corners;
   the stored xy() is the centroid (FacetGeometry.h:37-42, 369-375) *)
Record tri := Tri { t_id : nat; t_on : bool; t_p : vec2; t_q : vec2; t_r : vec2 }.
Record quad := Quad { q_id : nat; q_on : bool; q_p : vec2; q_q : vec2; q_r : vec2; q_s : vec2 }.
Definition t_xy (t : tri) : vec2 := tri_centroid (t_p t) (t_q t) (t_r t).
Definition q_xy (f : quad) : vec2 := quad_centroid (q_p f) (q_q f) (q_r f) (q_s f).

(* Container.h get_items(center, radius): the entries at most radius away.  The
   model gets the square of the radius.  The order of the entries does not
   matter, since the loops only look for one entry. *)
Definition in_range (c : vec2) (r2 : Q) (x : vec2) : bool := Qleb (vnorm2 (vsub x c)) r2.

(* FacetGeometry.h:583-602: pairwise part of check_intersection(quad, quads);
   a,b,c,d is the new quad, p,q,r,s the one of the container *)
Definition quad_quad_conflict (a b c d p q r s : vec2) : bool :=
  quad_quad_intersection a b c d p q r s ||
  in_quad (quad_centroid p q r s) a b c d || in_quad (quad_centroid a b c d) p q r s.

(* FacetGeometry.h:212-245 check_intersection(tri, triangles, range) *)
Definition tri_meets_tris (t : tri) (l : list tri) (r2 : Q) : bool :=
  existsb (fun s => in_range (t_xy t) r2 (t_xy s) && negb (Nat.eqb (t_id s) (t_id t)) && t_on s &&
                    tri_tri_conflict (t_p s) (t_q s) (t_r s) (t_p t) (t_q t) (t_r t)) l.
(* FacetGeometry.h:251-286 check_intersection(tri, quads, range) *)
Definition tri_meets_quads (t : tri) (l : list quad) (r2 : Q) : bool :=
  existsb (fun f => in_range (t_xy t) r2 (q_xy f) && q_on f &&
                    tri_quad_conflict (t_p t) (t_q t) (t_r t) (q_p f) (q_q f) (q_r f) (q_s f)) l.
(* FacetGeometry.h:534-565 check_intersection(quad, triangles, range) *)
Definition quad_meets_tris (f : quad) (l : list tri) (r2 : Q) : bool :=
  existsb (fun t => in_range (q_xy f) r2 (t_xy t) && t_on t &&
                    tri_quad_conflict (t_p t) (t_q t) (t_r t) (q_p f) (q_q f) (q_r f) (q_s f)) l.
(* FacetGeometry.h:571-606 check_intersection(quad, quads, range) *)
Definition quad_meets_quads (f : quad) (l : list quad) (r2 : Q) : bool :=
  existsb (fun g => in_range (q_xy f) r2 (q_xy g) && negb (Nat.eqb (q_id g) (q_id f)) && q_on g &&
                    quad_quad_conflict (q_p f) (q_q f) (q_r f) (q_s f) (q_p g) (q_q g) (q_r g) (q_s g)) l.
(* FacetGeometry.h:313-335 check_intersection(tri, vertices, range).  A vertex is
   its identity and its position, [own] the identities of the corners. *)
Definition tri_meets_verts (t : tri) (own : list nat) (l : list (nat * vec2)) (r2 : Q) : bool :=
  existsb (fun v => in_range (t_xy t) r2 (snd v) && negb (existsb (Nat.eqb (fst v)) own) &&
                    in_on_triangle (snd v) (t_p t) (t_q t) (t_r t)) l.
(* FacetGeometry.h:637-660 check_intersection(quad, vertices, range) *)
Definition quad_meets_verts (f : quad) (own : list nat) (l : list (nat * vec2)) (r2 : Q) : bool :=
  existsb (fun v => in_range (q_xy f) r2 (snd v) && negb (existsb (Nat.eqb (fst v)) own) &&
                    in_on_quad (snd v) (q_p f) (q_q f) (q_r f) (q_s f)) l.
