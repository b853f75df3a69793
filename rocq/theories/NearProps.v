(* C74: what is near is found. *)
From Coq Require Import Lia Lqa Setoid.
From Verif Require Import Base GeomModel GeomSpec GeomProofs FacetModel NearModel NearSpec NearProofs.
From Verif Require AdvanceModel WindSpec ClearRun OverlapSpec.
Open Scope Q_scope.

Lemma HAS l v : negb (has l v) = true <-> ~ In v l.
Proof.
  unfold has. rewrite negb_true_iff, <- not_true_iff_false, existsb_exists. split; intros H K; apply H.
  - exists v. split; [exact K|apply Nat.eqb_refl].
  - destruct K as (j & J & E). apply Nat.eqb_eq in E. subst j. exact J.
Qed.

(* ---------- edges of the mesh near a vertex ---------- *)
(* a vertex on a long edge: the midpoint of the edge is out of range *)
Theorem C74_edges_refuted : exists x e s l t, 0 <= l /\ l <= s /\ 0 < t /\ t < 1 /\ veq x (on_seg (fst e) (snd e) t) /\
  intersects_mesh_edges x [e] [] s l = false.
Proof.
  exists (V2 0 0), (V2 (- (1)) 0, V2 19 0), 2, 1, (1 # 20). repeat split; try (vm_compute; reflexivity); vm_compute; discriminate.
Qed.

(* what is reported is near; what is near is reported if the edge is not longer
   than twice the difference of the ranges *)
Theorem C74_edges_partial : forall x intr bdry s l, 0 <= l -> l <= s ->
  (intersects_mesh_edges x intr bdry s l = true ->
     exists e t, (In e intr \/ In e bdry) /\ 0 <= t /\ t <= 1 /\ apart x (on_seg (fst e) (snd e) t) l) /\
  (forall e t, In e intr \/ In e bdry -> ~ veq (fst e) (snd e) -> 0 <= t -> t <= 1 ->
     apart x (on_seg (fst e) (snd e) t) l -> len2 e <= 4 * ((s - l) * (s - l)) ->
     intersects_mesh_edges x intr bdry s l = true).
Proof.
  intros x intr bdry s l L0 LS. split.
  - intros H. apply mesh_edges_iff in H. destruct H as (e & I & _ & D).
    destruct (distance_attained x (fst e) (snd e)) as (t & T0 & T1 & E). exists e, t. rewrite E in D. auto.
  - intros e t I NE T0 T1 A LE. apply mesh_edges_iff. exists e. split; [exact I|]. split.
    + assert (K : 0 <= s - l) by lra. assert (F := edge_found x e t l (s - l) T0 T1 L0 K A LE).
      unfold apart. assert (E : (l + (s - l)) * (l + (s - l)) == s * s) by ring. lra.
    + assert (D := distance_minimal x (fst e) (snd e) t NE T0 T1). unfold apart in A. lra.
Qed.

(* ---------- elements around a vertex ---------- *)
(* a vertex in a triangle whose centroid is out of the range of FrontUpdate.h:376
   for the mesh size 1 *)
Theorem C74_facets_refuted : exists v x t, has (t_v t) v = false /\ in_triangle x (t_p t) (t_q t) (t_r t) = true /\
  vertex_meets_tris v x [t] (4 * 1 * 1) = false.
Proof.
  exists 9%nat, (V2 1 1), (Tri [0; 1; 2]%nat (V2 0 0) (V2 12 0) (V2 0 12)). repeat split; vm_compute; reflexivity.
Qed.

Theorem C74_triangles_partial : forall v x l r2,
  (vertex_meets_tris v x l r2 = true -> exists t, In t l /\ ~ In v (t_v t) /\
     forall s, In s (sides3 (t_p t) (t_q t) (t_r t)) -> - tol26 < det (fst s) (snd s) x) /\
  (forall t, In t l -> ~ In v (t_v t) -> OverlapSpec.convex3 (t_p t) (t_q t) (t_r t) ->
     OverlapSpec.inside_on (sides3 (t_p t) (t_q t) (t_r t)) x ->
     (4 # 9) * AdvanceModel.max_len2 (t_p t) (t_q t) (t_r t) <= r2 -> vertex_meets_tris v x l r2 = true).
Proof.
  intros v x l r2. split.
  - intros H. apply existsb_exists in H. destruct H as (t & T & H). unfold in_on_triangle in H.
    rewrite !andb_true_iff, HAS, !is_lefton_iff in H. destruct H as [[_ N] [[A B] C]]. exists t. repeat split; auto.
    intros s [<-|[<-|[<-|[]]]]; auto.
  - intros t T N D I R. apply existsb_exists. exists t. split; [exact T|].
    assert (TP := tol_pos). assert (I1 := I _ (or_introl eq_refl)). assert (I2 := I _ (or_intror (or_introl eq_refl))).
    assert (I3 := I _ (or_intror (or_intror (or_introl eq_refl)))). cbn [fst snd] in I1, I2, I3.
    unfold in_on_triangle. rewrite !andb_true_iff, HAS, near_true, !is_lefton_iff. repeat split; auto; try lra.
    assert (TR := ClearRun.touching_reach x _ _ _ D (conj I1 (conj I2 I3))).
    assert (E : vnorm2 (vsub (t_xy t) x) == vnorm2 (vsub x (t_xy t))) by (unfold vnorm2, vdot, vsub; cbn [vx vy]; ring).
    rewrite E. unfold t_xy. lra.
Qed.

Theorem C74_quads_partial : forall v x l r2,
  (vertex_meets_quads v x l r2 = true -> exists f, In f l /\ ~ In v (q_v f) /\
     forall s, In s (sides4 (q_p f) (q_q f) (q_r f) (q_s f)) -> - tol26 < det (fst s) (snd s) x) /\
  (forall f, In f l -> ~ In v (q_v f) -> OverlapSpec.convex4 (q_p f) (q_q f) (q_r f) (q_s f) ->
     OverlapSpec.inside_on (sides4 (q_p f) (q_q f) (q_r f) (q_s f)) x ->
     (forall c, In c [q_p f; q_q f; q_r f; q_s f] -> vnorm2 (vsub c (q_xy f)) <= r2) ->
     vertex_meets_quads v x l r2 = true).
Proof.
  intros v x l r2. split.
  - intros H. apply existsb_exists in H. destruct H as (t & T & H). unfold in_on_quad in H.
    rewrite !andb_true_iff, HAS, !is_lefton_iff in H. destruct H as [[_ N] [[[A B] C] D]]. exists t. repeat split; auto.
    intros s [<-|[<-|[<-|[<-|[]]]]]; auto.
  - intros f T N (D1 & D2 & D3 & D4) I R. apply existsb_exists. exists f. split; [exact T|].
    assert (TP := tol_pos). assert (I1 := I _ (or_introl eq_refl)). assert (I2 := I _ (or_intror (or_introl eq_refl))).
    assert (I3 := I _ (or_intror (or_intror (or_introl eq_refl)))).
    assert (I4 := I _ (or_intror (or_intror (or_intror (or_introl eq_refl))))). cbn [fst snd] in I1, I2, I3, I4.
    unfold in_on_quad. rewrite !andb_true_iff, HAS, near_true, !is_lefton_iff. repeat split; auto; try lra.
    assert (E : vnorm2 (vsub (q_xy f) x) == vnorm2 (vsub x (q_xy f))) by (unfold vnorm2, vdot, vsub; cbn [vx vy]; ring).
    rewrite E.
    assert (RP := R _ (or_introl eq_refl)). assert (RQ := R _ (or_intror (or_introl eq_refl))).
    assert (RR := R _ (or_intror (or_intror (or_introl eq_refl)))).
    assert (RS := R _ (or_intror (or_intror (or_intror (or_introl eq_refl))))).
    destruct (Qlt_le_dec (det (q_r f) (q_p f) x) 0) as [G|G].
    + apply (jensen (q_r f) (q_s f) (q_p f)); auto.
      assert (S : det (q_p f) (q_r f) x == - det (q_r f) (q_p f) x) by (unfold det; ring). lra.
    + apply (jensen (q_p f) (q_q f) (q_r f)); auto.
Qed.

(* ---------- check_coordinate of the smoothing ---------- *)
(* the point is in the middle of the second half of a square that the vertex does
   not belong to, and is accepted *)
Theorem C74_check_refuted : exists v old x f, has (q_v f) v = false /\ in_quad x (q_p f) (q_q f) (q_r f) (q_s f) = true /\
  near x (4 * vnorm2 (vsub x old)) (q_xy f) = true /\ check_coordinate (fun _ => true) v old x [] [f] = true.
Proof.
  exists 9%nat, (V2 (- (1)) (3 # 2)), (V2 (1 # 2) (3 # 2)), (Quad [0; 1; 2; 3]%nat (V2 0 0) (V2 2 0) (V2 2 2) (V2 0 2)).
  repeat split; vm_compute; reflexivity.
Qed.

(* exactly: the point is in the domain, in no triangle in range without the vertex
   and in the first half of no quad in range without it *)
Theorem C74_check_partial : forall inside v old x tris quads,
  check_coordinate inside v old x tris quads = true <->
  inside x = true /\
  (forall t, In t tris -> ~ In v (t_v t) -> vnorm2 (vsub (t_xy t) x) <= 4 * vnorm2 (vsub x old) ->
     exists s, In s (sides3 (t_p t) (t_q t) (t_r t)) /\ det (fst s) (snd s) x <= - tol26) /\
  (forall f, In f quads -> ~ In v (firstn 3 (q_v f)) -> vnorm2 (vsub (q_xy f) x) <= 4 * vnorm2 (vsub x old) ->
     exists s, In s (sides3 (q_p f) (q_q f) (q_r f)) /\ det (fst s) (snd s) x <= - tol26).
Proof.
  assert (OUT : forall p q r x, in_on_triangle x p q r = false <-> exists s, In s (sides3 p q r) /\ det (fst s) (snd s) x <= - tol26).
  { intros p q r x. rewrite <- not_true_iff_false. unfold in_on_triangle. rewrite !andb_true_iff, !is_lefton_iff. split.
    - intros H. destruct (Qlt_le_dec (- tol26) (det p q x)) as [A|A]; [|exists (p, q); cbn; auto].
      destruct (Qlt_le_dec (- tol26) (det q r x)) as [B|B]; [|exists (q, r); cbn; auto].
      destruct (Qlt_le_dec (- tol26) (det r p x)) as [C|C]; [|exists (r, p); cbn; auto]. exfalso. auto.
    - intros (s & [<-|[<-|[<-|[]]]] & L) [[A B] C]; cbn [fst snd] in L; lra. }
  assert (HALF : forall x p q r, in_on_quad x p q r r = in_on_triangle x p q r).
  { intros x p q r. unfold in_on_quad, in_on_triangle.
    assert (E : is_lefton r r x = true). { apply is_lefton_iff. assert (Z : det r r x == 0) by (unfold det; ring). assert (TP := tol_pos). lra. }
    rewrite E, andb_true_r. reflexivity. }
  assert (EXF : forall {A} (p : A -> bool) l, existsb p l = false <-> forall a, In a l -> p a = false).
  { intros A p l. rewrite <- not_true_iff_false, existsb_exists. split.
    - intros H a I. apply not_true_iff_false. intros P. apply H. exists a. auto.
    - intros H (a & I & P). rewrite (H a I) in P. discriminate. }
  intros inside v old x tris quads. unfold check_coordinate.
  set (g1 := existsb _ tris). set (g2 := existsb _ quads).
  assert (G1 : g1 = false <-> (forall t, In t tris -> ~ In v (t_v t) -> vnorm2 (vsub (t_xy t) x) <= 4 * vnorm2 (vsub x old) ->
     exists s, In s (sides3 (t_p t) (t_q t) (t_r t)) /\ det (fst s) (snd s) x <= - tol26)).
  { unfold g1. rewrite EXF. split; intros H t T.
    - intros N R. apply OUT. specialize (H t T). rewrite (proj2 (near_true _ _ _) R), (proj2 (HAS _ _) N) in H. exact H.
    - destruct (near x (4 * vnorm2 (vsub x old)) (t_xy t)) eqn:R; [|reflexivity]. apply near_true in R.
      destruct (negb (has (t_v t) v)) eqn:N; [|reflexivity]. apply HAS in N. cbn [andb]. apply OUT. auto. }
  assert (G2 : g2 = false <-> (forall f, In f quads -> ~ In v (firstn 3 (q_v f)) -> vnorm2 (vsub (q_xy f) x) <= 4 * vnorm2 (vsub x old) ->
     exists s, In s (sides3 (q_p f) (q_q f) (q_r f)) /\ det (fst s) (snd s) x <= - tol26)).
  { unfold g2. rewrite EXF. split; intros H t T.
    - intros N R. apply OUT. specialize (H t T). rewrite (proj2 (near_true _ _ _) R), (proj2 (HAS _ _) N), HALF in H. exact H.
    - destruct (near x (4 * vnorm2 (vsub x old)) (q_xy t)) eqn:R; [|reflexivity]. apply near_true in R.
      destruct (negb (has (firstn 3 (q_v t)) v)) eqn:N; [|reflexivity]. apply HAS in N. cbn [andb]. rewrite HALF. apply OUT. auto. }
  rewrite <- G1, <- G2. clear. destruct g1, g2; intuition congruence.
Qed.

(* ---------- common edges of two domains ---------- *)
Theorem C74_count : forall d nbr, count_edge_overlaps d nbr = common d nbr /\ count_edge_overlaps nbr d = count_edge_overlaps d nbr.
Proof.
  intros d nbr. split; [apply count_common|]. rewrite !count_sum. apply col_sum.
Qed.
(* the edges that are counted are those with the same ends *)
Theorem C74_common : forall e f, segment_overlap (fst e) (snd e) (fst f) (snd f) = true <-> same_ends e f.
Proof. intros e f. rewrite overlap_same. apply same_endsb_iff. Qed.

(* ---------- the front around a new element ---------- *)
(* a long edge of the front goes across the triangle *)
Theorem C74_front_refuted : exists t e, OverlapSpec.convex3 (t_p t) (t_q t) (t_r t) /\
  line_line_crossing (fst e) (snd e) (t_p t) (t_q t) = true /\
  tri_meets_front t [e] (Qmaxb (4 * 1 * 1) (AdvanceModel.max_len2 (t_p t) (t_q t) (t_r t))) = false.
Proof.
  exists (Tri [0; 1; 2]%nat (V2 0 0) (V2 1 0) (V2 0 1)), (V2 (1 # 4) (- (1)), V2 (1 # 4) 19).
  repeat split; vm_compute; reflexivity.
Qed.

Lemma cross_reach e g c R k : 0 <= R -> 0 <= k -> line_line_crossing (fst e) (snd e) (fst g) (snd g) = true ->
  apart (fst g) c R -> apart (snd g) c R -> len2 e <= 4 * (k * k) -> vnorm2 (vsub (mid e) c) <= (R + k) * (R + k).
Proof.
  intros R0 K0 X A B L. destruct (crossing_sound _ _ _ _ X) as (s & t & (S0 & S1 & T0 & T1 & V) & _).
  assert (U : apart (on_seg (fst g) (snd g) t) c R).
  { unfold apart in *. set (a := vnorm2 (vsub (fst g) c)) in *. set (b := vnorm2 (vsub (snd g) c)) in *.
    assert (E : vnorm2 (vsub (on_seg (fst g) (snd g) t) c) == (1 - t) * a + t * b - t * (1 - t) * len2 g).
    { unfold a, b, len2, edge_len2, vnorm2, vdot, vsub, on_seg. cbn [vx vy]. ring. }
    assert (P : 0 <= t * (1 - t) * len2 g) by (apply Qmult_le_0_compat; [apply Qmult_le_0_compat; lra|apply len2_nonneg]).
    assert (P1 : 0 <= (1 - t) * (R * R - a)) by (apply Qmult_le_0_compat; lra).
    assert (P2 : 0 <= t * (R * R - b)) by (apply Qmult_le_0_compat; lra). lra. }
  assert (U' : apart c (on_seg (fst e) (snd e) s) R).
  { apply apart_sym. apply (apart_ext (on_seg (fst g) (snd g) t) _ c); auto; [|split; reflexivity].
    destruct V as [V1 V2]. split; symmetry; assumption. }
  apply (edge_found c e s R k); auto; lra.
Qed.

(* an edge that crosses a side is found if half its length and the distance of the
   corners from the centroid together are within the range *)
Theorem C74_front_partial : forall R k r2, 0 <= R -> 0 <= k -> (R + k) * (R + k) <= r2 ->
  (forall t front e g, In e front -> In g (sides3 (t_p t) (t_q t) (t_r t)) ->
     (forall c, In c [t_p t; t_q t; t_r t] -> apart c (t_xy t) R) -> len2 e <= 4 * (k * k) ->
     line_line_crossing (fst e) (snd e) (fst g) (snd g) = true -> tri_meets_front t front r2 = true) /\
  (forall f front e g, In e front -> In g (sides4 (q_p f) (q_q f) (q_r f) (q_s f)) ->
     (forall c, In c [q_p f; q_q f; q_r f; q_s f] -> apart c (q_xy f) R) -> len2 e <= 4 * (k * k) ->
     line_line_crossing (fst e) (snd e) (fst g) (snd g) = true -> quad_meets_front f front r2 = true).
Proof.
  intros R k r2 R0 K0 RK. split.
  - intros t front e g E G C L X. apply existsb_exists. exists e. rewrite get_edges_in. split; [split; [exact E|]|].
    + assert (H : vnorm2 (vsub (mid e) (t_xy t)) <= (R + k) * (R + k)); [|lra].
      apply (cross_reach e g _ R k); auto; apply C; destruct G as [<-|[<-|[<-|[]]]]; cbn; tauto.
    + apply line_tri_iff. exists g. split; [exact G|apply intersection_of_crossing; exact X].
  - intros f front e g E G C L X. apply existsb_exists. exists e. rewrite get_edges_in. split; [split; [exact E|]|].
    + assert (H : vnorm2 (vsub (mid e) (q_xy f)) <= (R + k) * (R + k)); [|lra].
      apply (cross_reach e g _ R k); auto; apply C; destruct G as [<-|[<-|[<-|[<-|[]]]]]; cbn; tauto.
    + apply line_quad_iff. exists g. split; [exact G|apply intersection_of_crossing; exact X].
Qed.
(* nothing else is reported *)
Theorem C74_front_sound : forall t f front r2,
  (tri_meets_front t front r2 = true -> exists e g, In e front /\ vnorm2 (vsub (mid e) (t_xy t)) <= r2 /\
     In g (sides3 (t_p t) (t_q t) (t_r t)) /\ line_line_intersection (fst e) (snd e) (fst g) (snd g) = true) /\
  (quad_meets_front f front r2 = true -> exists e g, In e front /\ vnorm2 (vsub (mid e) (q_xy f)) <= r2 /\
     In g (sides4 (q_p f) (q_q f) (q_r f) (q_s f)) /\ line_line_intersection (fst e) (snd e) (fst g) (snd g) = true).
Proof.
  intros t f front r2. split; intros H; apply existsb_exists in H; destruct H as (e & E & H); apply get_edges_in in E;
    [apply line_tri_iff in H|apply line_quad_iff in H]; destruct H as (g & G & H); exists e, g; tauto.
Qed.

(* is_too_close, exactly, for quads without sides of length zero *)
Theorem C74_close : forall f front r2 min2,
  (forall g, In g (sides4 (q_p f) (q_q f) (q_r f) (q_s f)) -> ~ veq (fst g) (snd g)) ->
  (is_too_close f front r2 min2 = true <->
   exists a b s x g t, In (a, b, s) front /\ vnorm2 (vsub (mid s) (q_xy f)) <= r2 /\ ~ In a (q_v f) /\ ~ In b (q_v f) /\
     (x = fst s \/ x = snd s) /\ In g (sides4 (q_p f) (q_q f) (q_r f) (q_s f)) /\ 0 <= t /\ t <= 1 /\
     vnorm2 (vsub x (on_seg (fst g) (snd g) t)) < min2).
Proof.
  intros f front r2 min2 ND. unfold is_too_close. cbv zeta.
  set (close := fun x : vec2 => Qltb (distance_point_edge_sqr x (q_p f) (q_q f)) min2 || Qltb (distance_point_edge_sqr x (q_q f) (q_r f)) min2 ||
    Qltb (distance_point_edge_sqr x (q_r f) (q_s f)) min2 || Qltb (distance_point_edge_sqr x (q_s f) (q_p f)) min2).
  assert (CL : forall x, close x = true <-> exists g t, In g (sides4 (q_p f) (q_q f) (q_r f) (q_s f)) /\ 0 <= t /\ t <= 1 /\
     vnorm2 (vsub x (on_seg (fst g) (snd g) t)) < min2).
  { intros x. unfold close. rewrite !orb_true_iff, !Qltb_true. split.
    - assert (H : forall g, In g (sides4 (q_p f) (q_q f) (q_r f) (q_s f)) -> distance_point_edge_sqr x (fst g) (snd g) < min2 ->
        exists g t, In g (sides4 (q_p f) (q_q f) (q_r f) (q_s f)) /\ 0 <= t /\ t <= 1 /\ vnorm2 (vsub x (on_seg (fst g) (snd g) t)) < min2).
      { intros g G L. destruct (distance_attained x (fst g) (snd g)) as (t & T0 & T1 & E). exists g, t. rewrite E in L. auto. }
      intros [[[A|A]|A]|A]; [apply (H (q_p f, q_q f))|apply (H (q_q f, q_r f))|apply (H (q_r f, q_s f))|apply (H (q_s f, q_p f))]; auto; cbn; tauto.
    - intros (g & t & G & T0 & T1 & L). assert (D := distance_minimal x (fst g) (snd g) t (ND g G) T0 T1).
      assert (D' : distance_point_edge_sqr x (fst g) (snd g) < min2) by lra.
      destruct G as [<-|[<-|[<-|[<-|[]]]]]; cbn [fst snd] in D'; tauto. }
  rewrite existsb_exists. split.
  - intros (((a & b) & s) & I & H). rewrite !andb_true_iff, !HAS, near_true, orb_true_iff in H. destruct H as [[[N A] B] H].
    change (close (fst s) = true \/ close (snd s) = true) in H. rewrite !CL in H. clearbody close.
    destruct H as [(g & t & G)|(g & t & G)]; [exists a, b, s, (fst s), g, t|exists a, b, s, (snd s), g, t]; tauto.
  - intros (a & b & s & x & g & t & I & N & A & B & X & G). exists (a, b, s). split; [exact I|].
    rewrite !andb_true_iff, !HAS, near_true, orb_true_iff. split; [auto|].
    change (close (fst s) = true \/ close (snd s) = true). rewrite !CL.
    destruct X as [-> | ->]; [left|right]; exists g, t; exact G.
Qed.

(* ---------- cases ---------- *)
Example C74_edges_case : let e := (V2 0 0, V2 4 0) in
  len2 e <= 4 * ((3 - 1) * (3 - 1)) /\ apart (V2 1 1) (on_seg (fst e) (snd e) (1 # 4)) 1 /\
  intersects_mesh_edges (V2 1 1) [] [e] 3 1 = true /\ intersects_mesh_edges (V2 1 2) [] [e] 3 1 = false.
Proof. repeat split; try (vm_compute; reflexivity); vm_compute; discriminate. Qed.
Example C74_facets_case :
  let t := Tri [0; 1; 2]%nat (V2 0 0) (V2 2 0) (V2 0 2) in let f := Quad [3; 4; 5; 6]%nat (V2 0 0) (V2 2 0) (V2 2 2) (V2 0 2) in
  (4 # 9) * AdvanceModel.max_len2 (t_p t) (t_q t) (t_r t) <= 4 /\ vertex_meets_tris 7 (V2 (1 # 2) 1) [t] 4 = true /\
  vertex_meets_tris 2 (V2 0 2) [t] 4 = false /\ vertex_meets_quads 7 (V2 (1 # 2) 1) [f] 4 = true /\
  (forall c, In c [q_p f; q_q f; q_r f; q_s f] -> vnorm2 (vsub c (q_xy f)) <= 4) /\
  check_coordinate (fun _ => true) 7 (V2 3 1) (V2 1 (1 # 2)) [] [f] = false /\
  check_coordinate (fun _ => true) 7 (V2 4 1) (V2 3 1) [t] [f] = true.
Proof.
  cbn zeta. split; [vm_compute; discriminate|]. split; [vm_compute; reflexivity|]. split; [vm_compute; reflexivity|].
  split; [vm_compute; reflexivity|]. split; [|split; vm_compute; reflexivity].
  intros c [<-|[<-|[<-|[<-|[]]]]]; vm_compute; discriminate.
Qed.
(* two squares with a common side, drawn in opposite directions *)
Example C74_count_case :
  let d := [[(V2 0 0, V2 1 0); (V2 1 0, V2 1 1); (V2 1 1, V2 0 1); (V2 0 1, V2 0 0)]] in
  let n := [[(V2 1 0, V2 2 0); (V2 2 0, V2 2 1); (V2 2 1, V2 1 1); (V2 1 1, V2 1 0)]] in
  count_edge_overlaps d n = 1%nat /\ count_edge_overlaps d d = 4%nat.
Proof. split; vm_compute; reflexivity. Qed.
Example C74_front_case : let t := Tri [0; 1; 2]%nat (V2 0 0) (V2 3 0) (V2 0 3) in let e := (V2 1 (- (1)), V2 1 1) in
  (forall c, In c [t_p t; t_q t; t_r t] -> apart c (t_xy t) 3) /\ len2 e <= 4 * (1 * 1) /\
  line_line_crossing (fst e) (snd e) (V2 0 0) (V2 3 0) = true /\ tri_meets_front t [e] 16 = true.
Proof.
  cbn zeta. split; [intros c [<-|[<-|[<-|[]]]]; vm_compute; discriminate|]. repeat split; try (vm_compute; reflexivity); vm_compute; discriminate.
Qed.
Example C74_close_case : let f := Quad [0; 1; 2; 3]%nat (V2 0 0) (V2 2 0) (V2 2 2) (V2 0 2) in
  (forall g, In g (sides4 (q_p f) (q_q f) (q_r f) (q_s f)) -> ~ veq (fst g) (snd g)) /\
  is_too_close f [(7, 8, (V2 1 (- (1 # 4)), V2 1 (- (2))))]%nat 16 (1 # 4) = true /\
  is_too_close f [(0, 8, (V2 1 (- (1 # 4)), V2 1 (- (2))))]%nat 16 (1 # 4) = false.
Proof.
  cbn zeta. split; [|split; vm_compute; reflexivity].
  intros g [<-|[<-|[<-|[<-|[]]]]] [A B]; vm_compute in A, B; discriminate.
Qed.

Print Assumptions C74_edges_refuted.
Print Assumptions C74_edges_partial.
Print Assumptions C74_facets_refuted.
Print Assumptions C74_triangles_partial.
Print Assumptions C74_quads_partial.
Print Assumptions C74_check_refuted.
Print Assumptions C74_check_partial.
Print Assumptions C74_count.
Print Assumptions C74_common.
Print Assumptions C74_front_refuted.
Print Assumptions C74_front_partial.
Print Assumptions C74_front_sound.
Print Assumptions C74_close.
