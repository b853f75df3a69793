(* Property theorems C07-C13, C44, C46: flags, geometry predicates, element
   metrics and numeric helpers.  Proofs live in GeomProofs, FacetProofs and
   UtilProofs. *)
From Coq Require Import Permutation Sorting.Sorted.
From Verif Require Import Base GeomModel GeomSpec GeomProofs FacetModel FacetProofs UtilModel UtilProofs.
Open Scope Q_scope.

(* ------------------------------------------------------------------ C07 *)
(* Every flag bit evolves by itself: it is set by the last operation that
   mentions it, whatever happens to the other bits. *)
Theorem C07_flags_independent : forall (os : list flag_op) (s i : N), (i < 8)%N ->
  N.testbit (flag_run s os) i = fold_left (bit_step i) os (N.testbit s i).
Proof. exact flag_run_bit. Qed.

Theorem C07_add_remove_has : forall s p, byte p -> p <> 0%N ->
  has_property (flag_step s (FAdd p)) p = true /\
  has_property (flag_step s (FRemove p)) p = false.
Proof. exact (fun s p Hb Hp => conj (add_has s p Hp) (remove_has s p Hb)). Qed.

Theorem C07_other_flags_kept : forall s o p, byte p -> N.land (op_arg o) p = 0%N ->
  (forall q, o <> FSet q) -> has_property (flag_step s o) p = has_property s p.
Proof. exact other_has. Qed.

Theorem C07_add_order_irrelevant : forall s l l', Permutation l l' ->
  flag_run s (map FAdd l) = flag_run s (map FAdd l').
Proof. exact flag_add_perm. Qed.

Theorem C07_stays_a_byte : forall os s, byte s -> Forall (fun o => byte (op_arg o)) os ->
  byte (flag_run s os).
Proof. exact flag_run_byte. Qed.

(* the named flags of vertices and of edges do not overlap, so the previous
   theorems apply to every pair of them *)
Theorem C07_named_flags_disjoint :
  pairwise_disjoint [v_on_front; v_in_quad_layer; v_is_fixed; v_on_boundary] /\
  pairwise_disjoint [e_on_boundary; e_is_fixed; e_is_ghost] /\
  Forall (fun p => byte p /\ p <> 0%N)
    [v_on_front; v_in_quad_layer; v_is_fixed; v_on_boundary; e_on_boundary; e_is_fixed; e_is_ghost].
Proof. exact named_flags_disjoint. Qed.

Example C07_ex : let s := flag_run 0 [FAdd v_on_front; FAdd v_on_boundary; FRemove v_on_front; FAdd v_is_fixed] in
  (s, has_property s v_on_front, has_property s v_on_boundary, has_property s v_is_fixed, has_property s v_in_quad_layer)
  = (12%N, false, true, true, false).
Proof. reflexivity. Qed.

(* ------------------------------------------------------------------ C08 *)
(* The three results are exactly the three ranges of the exact doubled area. *)
Theorem C08_orientation_exact : forall p q r,
  (orientation p q r = CCW <-> tol26 <= det p q r) /\
  (orientation p q r = CW <-> det p q r <= - tol26) /\
  (orientation p q r = CL <-> - tol26 < det p q r /\ det p q r < tol26) /\
  (is_left p q r = true <-> tol26 <= det p q r) /\
  (is_lefton p q r = true <-> - tol26 < det p q r).
Proof.
  exact (fun p q r => conj (orientation_ccw p q r) (conj (orientation_cw p q r)
    (conj (orientation_cl p q r) (conj (is_left_iff p q r) (is_lefton_iff p q r))))).
Qed.

Theorem C08_orientation_laws : forall p q r,
  orientation p q r = orientation q r p /\
  orientation q p r = flip (orientation p q r) /\
  orientation p r q = flip (orientation p q r) /\
  orientation r q p = flip (orientation p q r) /\
  (forall d, orientation (shift d p) (shift d q) (shift d r) = orientation p q r) /\
  (veq p q \/ veq q r \/ veq p r -> orientation p q r = CL).
Proof.
  exact (fun p q r => conj (orientation_rot p q r) (conj (orientation_swap12 p q r)
    (conj (orientation_swap23 p q r) (conj (orientation_swap13 p q r)
    (conj (fun d => orientation_shift d p q r) (orientation_degenerate p q r)))))).
Qed.

Example C08_ex : orientation (V2 0 0) (V2 1 0) (V2 0 1) = CCW /\
  orientation (V2 0 0) (V2 0 1) (V2 1 0) = CW /\ orientation (V2 0 0) (V2 1 1) (V2 3 3) = CL.
Proof. repeat split. Qed.

(* ------------------------------------------------------------------ C09 *)
Theorem C09_crossing_sound : forall p1 q1 p2 q2, line_line_crossing p1 q1 p2 q2 = true ->
  exists s t, seg_meet p1 q1 p2 q2 s t /\
    forall s' t', seg_meet p1 q1 p2 q2 s' t' -> s' == s /\ t' == t.
Proof. exact crossing_sound. Qed.

Theorem C09_crossing_exact : forall p1 q1 p2 q2, line_line_crossing p1 q1 p2 q2 = true <->
  ((tol26 <= det p1 q1 p2 /\ det p1 q1 q2 <= - tol26) \/
   (det p1 q1 p2 <= - tol26 /\ tol26 <= det p1 q1 q2)) /\
  ((tol26 <= det p2 q2 p1 /\ det p2 q2 q1 <= - tol26) \/
   (det p2 q2 p1 <= - tol26 /\ tol26 <= det p2 q2 q1)).
Proof. exact crossing_iff. Qed.

Theorem C09_crossing_symmetric : forall p1 q1 p2 q2,
  line_line_crossing p2 q2 p1 q1 = line_line_crossing p1 q1 p2 q2 /\
  line_line_crossing q1 p1 p2 q2 = line_line_crossing p1 q1 p2 q2 /\
  line_line_crossing p1 q1 q2 p2 = line_line_crossing p1 q1 p2 q2.
Proof.
  exact (fun p1 q1 p2 q2 => conj (crossing_sym p1 q1 p2 q2)
    (conj (crossing_rev1 p1 q1 p2 q2) (crossing_rev2 p1 q1 p2 q2))).
Qed.

Theorem C09_intersection_covers_crossing : forall p1 q1 p2 q2,
  line_line_crossing p1 q1 p2 q2 = true -> line_line_intersection p1 q1 p2 q2 = true.
Proof. exact intersection_of_crossing. Qed.

(* line_line_intersection: exactly a crossing, or an end point of one segment
   within the tolerance of the open other one *)
Theorem C09_intersection_exact : forall p1 q1 p2 q2,
  line_line_intersection p1 q1 p2 q2 = true <->
  line_line_crossing p1 q1 p2 q2 = true \/ near_open_seg p1 q1 p2 \/ near_open_seg p1 q1 q2 \/
  near_open_seg p2 q2 p1 \/ near_open_seg p2 q2 q1.
Proof. exact intersection_iff. Qed.

(* element tests look at every pair of sides *)
Theorem C09_tri_tri_every_side : forall p1 q1 r1 p2 q2 r2,
  tri_tri_intersection p1 q1 r1 p2 q2 r2 = true <->
  exists e f, In e (sides3 p1 q1 r1) /\ In f (sides3 p2 q2 r2) /\
    line_line_intersection (fst e) (snd e) (fst f) (snd f) = true.
Proof. exact tri_tri_iff. Qed.
Theorem C09_tri_quad_every_side : forall p1 q1 r1 p2 q2 r2 s2,
  tri_quad_intersection p1 q1 r1 p2 q2 r2 s2 = true <->
  exists e f, In e (sides3 p1 q1 r1) /\ In f (sides4 p2 q2 r2 s2) /\
    line_line_intersection (fst e) (snd e) (fst f) (snd f) = true.
Proof. exact tri_quad_iff. Qed.
Theorem C09_quad_quad_every_side : forall p1 q1 r1 s1 p2 q2 r2 s2,
  quad_quad_intersection p1 q1 r1 s1 p2 q2 r2 s2 = true <->
  exists e f, In e (sides4 p1 q1 r1 s1) /\ In f (sides4 p2 q2 r2 s2) /\
    line_line_intersection (fst e) (snd e) (fst f) (snd f) = true.
Proof. exact quad_quad_iff. Qed.
(* the overlap tests used when elements are created: nested elements and
   doubled elements conflict although no sides cross *)
Theorem C09_nested_elements_conflict : forall a b c d p q r s,
  (in_triangle a p q r = true -> in_triangle b p q r = true -> in_triangle c p q r = true ->
     tri_tri_conflict a b c p q r = true /\ tri_tri_conflict p q r a b c = true /\
     (in_triangle d p q r = true -> tri_quad_conflict p q r a b c d = true)) /\
  (in_quad a p q r s = true -> in_quad b p q r s = true -> in_quad c p q r s = true ->
     tri_quad_conflict a b c p q r s = true) /\
  (3 * tol26 <= det p q r -> tri_tri_conflict p q r p q r = true).
Proof.
  exact (fun a b c d p q r s => conj
    (fun A B C => conj (proj1 (tri_in_tri_conflict a b c p q r A B C))
      (conj (proj2 (tri_in_tri_conflict a b c p q r A B C))
         (fun D => quad_in_tri_conflict a b c d p q r A B C D)))
    (conj (fun A B C => tri_in_quad_conflict p q r s a b c A B C) (tri_self_conflict p q r))).
Qed.
Example C09_nested_ex :
  tri_tri_intersection (V2 1 1) (V2 2 1) (V2 1 2) (V2 0 0) (V2 9 0) (V2 0 9) = false /\
  tri_tri_conflict (V2 1 1) (V2 2 1) (V2 1 2) (V2 0 0) (V2 9 0) (V2 0 9) = true.
Proof. split; reflexivity. Qed.
Theorem C09_segment_overlap : forall v1 w1 v2 w2, segment_overlap v1 w1 v2 w2 = true <->
  (veq v1 v2 /\ veq w1 w2) \/ (veq v1 w2 /\ veq w1 v2).
Proof. exact segment_overlap_iff. Qed.

Example C09_ex : line_line_crossing (V2 0 0) (V2 2 2) (V2 0 2) (V2 2 0) = true.
Proof. reflexivity. Qed.

(* ------------------------------------------------------------------ C46 *)
(* Full claim: two segments that properly cross are always reported. False:
   the tolerance is absolute, a crossing can be missed. *)
Theorem C46_intersection_complete_refuted : exists p1 q1 p2 q2,
  (exists s t, seg_meet p1 q1 p2 q2 s t) /\
  det p1 q1 p2 * det p1 q1 q2 < 0 /\ det p2 q2 p1 * det p2 q2 q1 < 0 /\
  line_line_intersection p1 q1 p2 q2 = false.
Proof.
  exact (ex_intro _ miss_p1 (ex_intro _ miss_q1 (ex_intro _ miss_p2 (ex_intro _ miss_q2
    (conj miss_meet (conj eq_refl (conj eq_refl eq_refl))))))).
Qed.
(* What remains: a proper crossing is reported if all four side tests are
   decisive (C09_crossing_exact) or if all four are within the tolerance. *)
Theorem C46_intersection_small_partial : forall p1 q1 p2 q2 s t,
  seg_meet p1 q1 p2 q2 s t -> ~ det p1 q1 p2 == 0 ->
  orientation p1 q1 p2 = CL -> orientation p1 q1 q2 = CL ->
  orientation p2 q2 p1 = CL -> orientation p2 q2 q1 = CL ->
  line_line_intersection p1 q1 p2 q2 = true.
Proof. exact intersection_small. Qed.
Theorem C46_touching_point_found : forall p q t, ~ veq p q -> 0 < t -> t < 1 ->
  in_segment p q (on_seg p q t) = true /\ in_on_segment p q (on_seg p q t) = true.
Proof.
  exact (fun p q t H H0 H1 => conj (in_segment_complete p q t H H0 H1)
    (in_on_segment_complete p q t (Qlt_le_weak _ _ H0) (Qlt_le_weak _ _ H1))).
Qed.
Example C46_small_ex : let e := 1 # 1000000 in
  line_line_crossing (V2 0 0) (V2 e e) (V2 0 e) (V2 e 0) = false /\
  line_line_intersection (V2 0 0) (V2 e e) (V2 0 e) (V2 e 0) = true /\
  seg_meet (V2 0 0) (V2 e e) (V2 0 e) (V2 e 0) (1 # 2) (1 # 2).
Proof. repeat split. Qed.

(* ------------------------------------------------------------------ C10 *)
Theorem C10_distance : forall p e1 e2, ~ veq e1 e2 ->
  (exists t, 0 <= t /\ t <= 1 /\
     distance_point_edge_sqr p e1 e2 = vnorm2 (vsub p (on_seg e1 e2 t))) /\
  (forall s, 0 <= s -> s <= 1 -> distance_point_edge_sqr p e1 e2 <= vnorm2 (vsub p (on_seg e1 e2 s))) /\
  distance_point_edge_sqr p e2 e1 == distance_point_edge_sqr p e1 e2.
Proof.
  exact (fun p e1 e2 H => conj (distance_attained p e1 e2)
    (conj (fun s => distance_minimal p e1 e2 s H) (distance_rev p e1 e2 H))).
Qed.
Example C10_ex : Qred (distance_point_edge_sqr (V2 1 3) (V2 0 0) (V2 4 0)) = 9 /\
  Qred (distance_point_edge_sqr (V2 7 4) (V2 0 0) (V2 4 0)) = 25.
Proof. split; reflexivity. Qed.

(* ------------------------------------------------------------------ C11 *)
Theorem C11_in_triangle_sound : forall v p q r, in_triangle v p q r = true ->
  0 < det p q r /\
  exists a b c, 0 < a /\ 0 < b /\ 0 < c /\ a + b + c == 1 /\ veq v (combo a b c p q r).
Proof. exact in_triangle_sound. Qed.
Theorem C11_in_on_triangle_complete : forall a b c p q r,
  0 <= a -> 0 <= b -> 0 <= c -> a + b + c == 1 -> 0 <= det p q r ->
  in_on_triangle (combo a b c p q r) p q r = true.
Proof. exact in_on_triangle_complete. Qed.
Theorem C11_in_triangle_complete : forall a b c p q r, a + b + c == 1 ->
  tol26 <= a * det p q r -> tol26 <= b * det p q r -> tol26 <= c * det p q r ->
  in_triangle (combo a b c p q r) p q r = true.
Proof. exact in_triangle_complete. Qed.
Theorem C11_rotation : forall v p q r s,
  in_triangle v q r p = in_triangle v p q r /\
  in_on_triangle v q r p = in_on_triangle v p q r /\
  in_quad v q r s p = in_quad v p q r s.
Proof.
  exact (fun v p q r s => conj (in_triangle_rot v p q r)
    (conj (in_on_triangle_rot v p q r) (in_quad_rot v p q r s))).
Qed.
Theorem C11_in_quad_sound : forall v p q r s, in_quad v p q r s = true ->
  0 < det p q r + det p r s /\
  exists a b c, 0 < a /\ 0 <= b /\ 0 < c /\ a + b + c == 1 /\
    (veq v (combo a b c p q r) \/ veq v (combo a b c r s p)).
Proof. exact in_quad_sound. Qed.
Theorem C11_in_on_quad_complete : forall a b c d p q r s,
  0 <= a -> 0 <= b -> 0 <= c -> 0 <= d -> a + b + c + d == 1 ->
  0 <= det p q r -> 0 <= det q r s -> 0 <= det r s p -> 0 <= det s p q ->
  in_on_quad (V2 (a * vx p + b * vx q + c * vx r + d * vx s)
                 (a * vy p + b * vy q + c * vy r + d * vy s)) p q r s = true.
Proof. exact in_on_quad_complete. Qed.
(* in_on_triangle is only meaningful for triangles that are large compared to
   the absolute tolerance: it accepts points far outside of tiny ones. *)
Theorem C11_in_on_triangle_sound_refuted : exists v p q r,
  0 < det p q r /\ in_on_triangle v p q r = true /\
  forall t, 0 <= t -> t <= 1 -> 15 < vnorm2 (vsub v (on_seg p q t)).
Proof.
  exists (V2 4 0), (V2 0 0), (V2 (1 # 1000000000) 0), (V2 0 (1 # 1000000000)).
  split; [reflexivity|]. split; [reflexivity|].
  intros t H0 H1. unfold vnorm2, vdot, vsub, on_seg. cbn [vx vy].
  setoid_replace (4 - (0 + t * ((1 # 1000000000) - 0))) with (4 - t * (1 # 1000000000)) by ring.
  assert (t * (1 # 1000000000) <= 1 # 1000000000).
  { rewrite <- (Qmult_1_l (1 # 1000000000)) at 2. apply Qmult_le_compat_r; [exact H1|discriminate]. }
  Lqa.nra.
Qed.
Example C11_ex : in_triangle (V2 1 1) (V2 0 0) (V2 3 0) (V2 0 3) = true /\
  in_triangle (V2 1 1) (V2 0 0) (V2 0 3) (V2 3 0) = false /\
  in_quad (V2 1 1) (V2 0 0) (V2 2 0) (V2 2 2) (V2 0 2) = true.
Proof. repeat split. Qed.

(* ------------------------------------------------------------------ C12 *)
Theorem C12_polygon_area : forall l l1 l2 a b d,
  polygon_area (l1 ++ l2) == polygon_area (l2 ++ l1) /\
  polygon_area (rev l) == - polygon_area l /\
  polygon_area (map (shift d) l) == polygon_area l /\
  polygon_area (a :: l1 ++ b :: l2) == polygon_area (a :: l1 ++ [b]) + polygon_area (b :: l2 ++ [a]).
Proof.
  exact (fun l l1 l2 a b d => conj (polygon_rot l1 l2) (conj (polygon_rev l)
    (conj (polygon_shift d l) (polygon_cut a l1 b l2)))).
Qed.
Theorem C12_triangle_and_quad : forall p q r s,
  polygon_area [p; q; r] == det p q r * (1 # 2) /\
  polygon_area [p; q; r; s] == (det p q r + det p r s) * (1 # 2).
Proof. exact (fun p q r s => conj (polygon_triangle p q r) (polygon_quad p q r s)). Qed.
Theorem C12_insert_point_on_edge : forall a b l t,
  polygon_area (a :: on_seg a b t :: b :: l) == polygon_area (a :: b :: l).
Proof. exact polygon_insert_on_edge. Qed.
Example C12_ex : Qred (polygon_area [V2 0 0; V2 4 0; V2 4 3; V2 2 1; V2 0 3]) = 8.
Proof. reflexivity. Qed.

(* ------------------------------------------------------------------ C13 *)
Theorem C13_circumcenter : forall a b c, ~ tri_area a b c == 0 ->
  d2 (tri_circumcenter a b c) a == d2 (tri_circumcenter a b c) b /\
  d2 (tri_circumcenter a b c) a == d2 (tri_circumcenter a b c) c.
Proof. exact circumcenter_equidistant. Qed.
Theorem C13_circumcenter_unique : forall a b c u, ~ tri_area a b c == 0 ->
  d2 u a == d2 u b -> d2 u a == d2 u c -> veq u (tri_circumcenter a b c).
Proof. exact circumcenter_unique. Qed.
Theorem C13_areas : forall a b c d,
  tri_area b c a == tri_area a b c /\ tri_area a c b == - tri_area a b c /\
  quad_area a b c d == tri_area a b c + tri_area a c d /\
  quad_area a b c d == tri_area b c d + tri_area b d a /\
  tri_area a b c == polygon_area [a; b; c] /\
  quad_area a b c d == polygon_area [a; b; c; d].
Proof.
  exact (fun a b c d => conj (tri_area_rot a b c) (conj (tri_area_flip a b c)
    (conj (quad_area_diag1 a b c d) (conj (quad_area_diag2 a b c d)
    (conj (tri_area_polygon a b c) (quad_area_polygon a b c d)))))).
Qed.
(* Documented: shape factor -> 1 for equilateral triangles.  The code never
   exceeds 1/2, so a value near 1 is unreachable for every triangle. *)
Theorem C13_shape_factor_half : forall a b c,
  - (1 # 2) <= tri_shape_factor a b c /\ tri_shape_factor a b c <= 1 # 2.
Proof. exact tri_shape_range. Qed.
Theorem C13_shape_factor_one_refuted : ~ exists a b c, 1 # 2 < tri_shape_factor a b c.
Proof. exact (fun H => match H with ex_intro _ a (ex_intro _ b (ex_intro _ c h)) =>
  Qlt_not_le _ _ h (proj2 (tri_shape_range a b c)) end). Qed.
Theorem C13_shape_factor_sign : forall a b c, 0 < tri_shape_factor a b c <-> 0 < tri_area a b c.
Proof. exact tri_shape_sign. Qed.
Theorem C13_quad_shape_factor : forall a b c d,
  - (norm_factor / 4) <= quad_shape_factor a b c d /\ quad_shape_factor a b c d <= norm_factor / 4.
Proof. exact quad_shape_range. Qed.
Theorem C13_quality : forall l1 l2 l3 sf h, 0 < l1 -> 0 < l2 -> 0 < l3 -> 0 < h -> 0 <= sf ->
  0 <= tri_quality l1 l2 l3 sf h /\ tri_quality l1 l2 l3 sf h <= sf /\
  (l1 == h -> l2 == h -> l3 == h -> tri_quality l1 l2 l3 sf h == sf) /\
  (0 < sf -> tri_quality l1 l2 l3 sf h == sf -> l1 == h /\ l2 == h /\ l3 == h).
Proof. exact tri_quality_range. Qed.
Theorem C13_validity : forall a b c, tri_valid a b c = true <-> 0 < tri_area a b c.
Proof. exact tri_valid_iff. Qed.
(* nearly equilateral triangle: shape factor just below 1/2 *)
Example C13_ex : 49 # 100 < tri_shape_factor (V2 0 0) (V2 1 0) (V2 (1 # 2) (866 # 1000)) /\
  veq (tri_circumcenter (V2 0 0) (V2 4 0) (V2 0 2)) (V2 2 1).
Proof. split; [reflexivity|split; reflexivity]. Qed.

(* ------------------------------------------------------------------ C44 *)
Theorem C44_MOD : forall n M, (0 < M)%Z -> MOD n M = (n mod M)%Z.
Proof. exact MOD_mod. Qed.
Theorem C44_argsort : forall v, Permutation (argsort v) (seq 0 (length v)) /\
  StronglySorted (sort_rel (fun i => nth i v 0)) (argsort v).
Proof. exact argsort_ok. Qed.
Theorem C44_CLAMP : forall x lo hi, lo <= hi ->
  lo <= CLAMP x lo hi /\ CLAMP x lo hi <= hi /\ (lo <= x -> x <= hi -> CLAMP x lo hi == x) /\
  (forall y, lo <= y -> y <= hi -> (CLAMP x lo hi - x) * (CLAMP x lo hi - x) <= (y - x) * (y - x)).
Proof. exact CLAMP_spec. Qed.
Theorem C44_EQ : forall a b m r, 0 <= m ->
  EQtol a a m r = true /\ EQtol a b m r = EQtol b a m r.
Proof. exact (fun a b m r H => conj (EQtol_refl a m r H) (EQtol_sym a b m r)). Qed.
(* VecND::sum accumulates in an int: fractions are lost *)
Theorem C44_sum_refuted : exists l, ~ vec_sum l == fold_right Qplus 0 l.
Proof. exists [1 # 2; 1 # 2]. intros H. discriminate H. Qed.
Theorem C44_sum_partial : forall l, vec_sum (map inject_Z l) == inject_Z (fold_right Z.add 0%Z l).
Proof. exact vec_sum_int. Qed.
(* VecND::is_zero ignores its tolerance: only the exact zero vector passes *)
Theorem C44_is_zero_exact : forall ulp l, ulp < inject_Z 4503599627370496 ->
  vec_is_zero ulp l = true <-> Forall (fun x => x == 0) l.
Proof. exact vec_is_zero_exact. Qed.
Example C44_ex : MOD (-1) 5 = 4%Z /\ argsort [3; 1; 2; 1] = [1; 3; 2; 0]%nat /\
  vec_sum [3 # 2; 3 # 2] == 2.
Proof. repeat split. Qed.

Print Assumptions C07_flags_independent.
Print Assumptions C07_add_remove_has.
Print Assumptions C07_other_flags_kept.
Print Assumptions C07_add_order_irrelevant.
Print Assumptions C07_stays_a_byte.
Print Assumptions C07_named_flags_disjoint.
Print Assumptions C08_orientation_exact.
Print Assumptions C08_orientation_laws.
Print Assumptions C09_crossing_sound.
Print Assumptions C09_crossing_exact.
Print Assumptions C09_crossing_symmetric.
Print Assumptions C09_intersection_covers_crossing.
Print Assumptions C09_intersection_exact.
Print Assumptions C09_tri_tri_every_side.
Print Assumptions C09_tri_quad_every_side.
Print Assumptions C09_quad_quad_every_side.
Print Assumptions C09_nested_elements_conflict.
Print Assumptions C09_segment_overlap.
Print Assumptions C46_intersection_complete_refuted.
Print Assumptions C46_intersection_small_partial.
Print Assumptions C46_touching_point_found.
Print Assumptions C10_distance.
Print Assumptions C11_in_triangle_sound.
Print Assumptions C11_in_on_triangle_complete.
Print Assumptions C11_in_triangle_complete.
Print Assumptions C11_rotation.
Print Assumptions C11_in_quad_sound.
Print Assumptions C11_in_on_quad_complete.
Print Assumptions C11_in_on_triangle_sound_refuted.
Print Assumptions C12_polygon_area.
Print Assumptions C12_triangle_and_quad.
Print Assumptions C12_insert_point_on_edge.
Print Assumptions C13_circumcenter.
Print Assumptions C13_circumcenter_unique.
Print Assumptions C13_areas.
Print Assumptions C13_shape_factor_half.
Print Assumptions C13_shape_factor_one_refuted.
Print Assumptions C13_shape_factor_sign.
Print Assumptions C13_quad_shape_factor.
Print Assumptions C13_quality.
Print Assumptions C13_validity.
Print Assumptions C44_MOD.
Print Assumptions C44_argsort.
Print Assumptions C44_CLAMP.
Print Assumptions C44_EQ.
Print Assumptions C44_sum_refuted.
Print Assumptions C44_sum_partial.
Print Assumptions C44_is_zero_exact.
