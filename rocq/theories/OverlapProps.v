(* C73: an element that overlaps an existing one is reported. *)
From Coq Require Import Lia Lqa Setoid.
From Verif Require Import Base GeomModel GeomSpec GeomProofs FacetModel OverlapModel OverlapSpec OverlapProofs OverlapEnd.
From Verif Require AdvanceModel WindSpec ClearRun.
Open Scope Q_scope.

(* ---------- what is missed ---------- *)
Ltac by_sides := repeat match goal with
  | H : In _ (corners _) |- _ => unfold corners in H
  | H : In _ (sides3 _ _ _) |- _ => unfold sides3 in H
  | H : In _ (sides4 _ _ _ _) |- _ => unfold sides4 in H
  | H : In _ (map _ _) |- _ => cbn [map fst sides3 sides4] in H
  | H : In _ (_ :: _) |- _ => destruct H as [<-|H]
  | H : In _ [] |- _ => destruct H
  end.
Ltac by_clear := split; intros s v S V; by_sides;
  first [left; reflexivity | right; left; vm_compute; discriminate | right; right; vm_compute; discriminate].
Ltac by_inside := intros s S; by_sides; reflexivity.

Lemma sq_nonneg (y : Q) : 0 <= y * y.
Proof. nra. Qed.

(* a triangle on the diagonal of a square that covers half of it: no sides cross,
   the centre of the square is on the side of the triangle, the centre of the
   triangle is outside of the square *)
Theorem C73_refuted : exists a b c p q r s, convex3 a b c /\ convex4 p q r s /\
  clear (sides3 a b c) (sides4 p q r s) /\ overlap (sides3 a b c) (sides4 p q r s) /\
  tri_quad_conflict a b c p q r s = false.
Proof.
  exists (V2 0 0), (V2 1 (- (10))), (V2 2 0), (V2 0 0), (V2 1 (- (1))), (V2 2 0), (V2 1 1).
  split; [reflexivity|]. split; [repeat split; reflexivity|]. split; [by_clear|]. split; [|vm_compute; reflexivity].
  exists (V2 1 (- (1 # 2))). split; by_inside.
Qed.

(* two quads with a common half: in addition no corner of one of them is in or on
   the other one, apart from the corners that they share *)
Theorem C73_quads_refuted : exists a b c d p q r s, convex4 a b c d /\ convex4 p q r s /\
  clear (sides4 a b c d) (sides4 p q r s) /\ overlap (sides4 a b c d) (sides4 p q r s) /\
  quad_quad_conflict a b c d p q r s = false /\ quad_quad_conflict p q r s a b c d = false /\
  (forall v, In v [a; b; c; d] -> In v [p; q; r; s] \/ in_on_quad v p q r s = false) /\
  (forall v, In v [p; q; r; s] -> In v [a; b; c; d] \/ in_on_quad v a b c d = false).
Proof.
  exists (V2 0 0), (V2 2 0), (V2 0 2), (V2 (- (10)) 1), (V2 0 0), (V2 1 (- (10))), (V2 2 0), (V2 0 2).
  split; [repeat split; reflexivity|]. split; [repeat split; reflexivity|]. split; [by_clear|].
  split; [exists (V2 (1 # 2) (1 # 2)); split; by_inside|].
  split; [vm_compute; reflexivity|]. split; [vm_compute; reflexivity|].
  split; intros v V; by_sides; first [right; vm_compute; reflexivity | left; cbn; tauto].
Qed.

(* a small triangle that is put upon an equal one *)
Theorem C73_small_refuted : exists p q r, convex3 p q r /\ overlap (sides3 p q r) (sides3 p q r) /\
  tri_tri_conflict p q r p q r = false.
Proof.
  exists (V2 0 0), (V2 (1 # 8192) 0), (V2 0 (1 # 4096)). split; [reflexivity|]. split; [|vm_compute; reflexivity].
  exists (V2 (1 # 24576) (1 # 12288)). split; by_inside.
Qed.

(* a triangle in a larger one whose centroid is out of range; the range is the one
   of FrontUpdate.h:333-334 for the mesh size 1 *)
Theorem C73_range_refuted : exists t u, t_id t <> t_id u /\ t_on u = true /\
  convex3 (t_p t) (t_q t) (t_r t) /\ convex3 (t_p u) (t_q u) (t_r u) /\
  clear (sides3 (t_p t) (t_q t) (t_r t)) (sides3 (t_p u) (t_q u) (t_r u)) /\
  overlap (sides3 (t_p t) (t_q t) (t_r t)) (sides3 (t_p u) (t_q u) (t_r u)) /\
  tri_tri_conflict (t_p u) (t_q u) (t_r u) (t_p t) (t_q t) (t_r t) = true /\
  tri_meets_tris t [u] (Qmaxb (4 * 1 * 1) (AdvanceModel.max_len2 (t_p t) (t_q t) (t_r t))) = false.
Proof.
  exists (Tri 0 true (V2 1 1) (V2 2 1) (V2 1 2)), (Tri 1 true (V2 0 0) (V2 12 0) (V2 0 12)). cbn [t_id t_on t_p t_q t_r].
  split; [discriminate|]. split; [reflexivity|]. split; [reflexivity|]. split; [reflexivity|]. split; [by_clear|].
  split; [exists (V2 (5 # 4) (5 # 4)); split; by_inside|]. split; vm_compute; reflexivity.
Qed.

(* ---------- what is reported ---------- *)
(* triangles: exactly the overlaps and the corners that hang on a side *)
Theorem C73_triangles_partial : forall a b c p q r, convex3 a b c -> convex3 p q r ->
  clear (sides3 a b c) (sides3 p q r) ->
  (tri_tri_conflict a b c p q r = true <->
   overlap (sides3 a b c) (sides3 p q r) \/ hangs (sides3 a b c) (sides3 p q r) \/ hangs (sides3 p q r) (sides3 a b c)).
Proof.
  intros a b c p q r D1 D2 CL. split; [exact (tri_tri_sound _ _ _ _ _ _ D1 D2 CL)|].
  assert (C1 := convex_sides3 _ _ _ D1). assert (C2 := convex_sides3 _ _ _ D2).
  intros [O|[H|H]]; [exact (tri_tri_complete _ _ _ _ _ _ D1 D2 CL O)| |];
    unfold tri_tri_conflict; rewrite !orb_true_iff, tri_tri_iff; left; left.
  - exact (hangs_meet _ _ C1 C2 H).
  - exact (sides_meet_sym _ _ (hangs_meet _ _ C2 C1 H)).
Qed.

(* triangle and quad: all overlaps but those with a corner of the quad inside the
   triangle *)
Theorem C73_tri_quad_partial : forall a b c p q r s, convex3 a b c -> convex4 p q r s ->
  clear (sides3 a b c) (sides4 p q r s) ->
  (overlap (sides3 a b c) (sides4 p q r s) ->
     tri_quad_conflict a b c p q r s = true \/ exists v, In v [p; q; r; s] /\ inside (sides3 a b c) v) /\
  (hangs (sides3 a b c) (sides4 p q r s) \/ hangs (sides4 p q r s) (sides3 a b c) ->
     tri_quad_conflict a b c p q r s = true) /\
  (tri_quad_conflict a b c p q r s = true ->
     overlap (sides3 a b c) (sides4 p q r s) \/ hangs (sides3 a b c) (sides4 p q r s) \/ hangs (sides4 p q r s) (sides3 a b c)).
Proof.
  intros a b c p q r s D1 D2 CL. split; [exact (tri_quad_complete _ _ _ _ _ _ _ D1 D2 CL)|].
  split; [|exact (tri_quad_sound _ _ _ _ _ _ _ D1 D2 CL)].
  assert (C1 := convex_sides3 _ _ _ D1). assert (C2 := convex_sides4 _ _ _ _ D2).
  intros [H|H]; unfold tri_quad_conflict; rewrite !orb_true_iff, tri_quad_iff; left; left.
  - exact (hangs_meet _ _ C1 C2 H).
  - exact (sides_meet_sym _ _ (hangs_meet _ _ C2 C1 H)).
Qed.

(* quads: all overlaps but those with a corner of one inside the other, and those
   where a side of each is a diagonal of the other *)
Theorem C73_quads_partial : forall a b c d p q r s, convex4 a b c d -> convex4 p q r s ->
  clear (sides4 a b c d) (sides4 p q r s) ->
  (overlap (sides4 a b c d) (sides4 p q r s) ->
     quad_quad_conflict a b c d p q r s = true \/
     (exists v, In v [p; q; r; s] /\ inside (sides4 a b c d) v) \/
     (exists v, In v [a; b; c; d] /\ inside (sides4 p q r s) v) \/
     (cuts (sides4 a b c d) (sides4 p q r s) /\ cuts (sides4 p q r s) (sides4 a b c d))) /\
  (hangs (sides4 a b c d) (sides4 p q r s) \/ hangs (sides4 p q r s) (sides4 a b c d) ->
     quad_quad_conflict a b c d p q r s = true) /\
  (quad_quad_conflict a b c d p q r s = true ->
     overlap (sides4 a b c d) (sides4 p q r s) \/ hangs (sides4 a b c d) (sides4 p q r s) \/ hangs (sides4 p q r s) (sides4 a b c d)).
Proof.
  intros a b c d p q r s D1 D2 CL. split; [exact (quad_quad_complete _ _ _ _ _ _ _ _ D1 D2 CL)|].
  split; [|exact (quad_quad_sound _ _ _ _ _ _ _ _ D1 D2 CL)].
  assert (C1 := convex_sides4 _ _ _ _ D1). assert (C2 := convex_sides4 _ _ _ _ D2).
  intros [H|H]; unfold quad_quad_conflict; rewrite !orb_true_iff, quad_quad_iff; left; left.
  - exact (hangs_meet _ _ C1 C2 H).
  - exact (sides_meet_sym _ _ (hangs_meet _ _ C2 C1 H)).
Qed.

(* ---------- the tests of a new triangle ---------- *)
(* A triangle that passes the tests against triangles, quads and vertices overlaps
   no active element in range.  The range is at least its longest side, the
   corners of the quads are among the vertices. *)
Theorem C73_accepted_partial : forall t own tris quads verts r2,
  convex3 (t_p t) (t_q t) (t_r t) -> AdvanceModel.max_len2 (t_p t) (t_q t) (t_r t) <= r2 ->
  (forall v, In v verts -> In (fst v) own -> snd v = t_p t \/ snd v = t_q t \/ snd v = t_r t) ->
  tri_meets_tris t tris r2 = false -> tri_meets_quads t quads r2 = false -> tri_meets_verts t own verts r2 = false ->
  (forall u, In u tris -> t_id u <> t_id t -> t_on u = true -> in_range (t_xy t) r2 (t_xy u) = true ->
     convex3 (t_p u) (t_q u) (t_r u) -> clear (sides3 (t_p u) (t_q u) (t_r u)) (sides3 (t_p t) (t_q t) (t_r t)) ->
     ~ overlap (sides3 (t_p u) (t_q u) (t_r u)) (sides3 (t_p t) (t_q t) (t_r t))) /\
  (forall f, In f quads -> q_on f = true -> in_range (t_xy t) r2 (q_xy f) = true ->
     convex4 (q_p f) (q_q f) (q_r f) (q_s f) -> clear (sides3 (t_p t) (t_q t) (t_r t)) (sides4 (q_p f) (q_q f) (q_r f) (q_s f)) ->
     (forall x, In x [q_p f; q_q f; q_r f; q_s f] -> exists i, In (i, x) verts) ->
     ~ overlap (sides3 (t_p t) (t_q t) (t_r t)) (sides4 (q_p f) (q_q f) (q_r f) (q_s f))).
Proof.
  intros t own tris quads verts r2 D RG OWN M1 M2 M3. split.
  - intros u U N ON IR DU CL O. apply not_true_iff_false in M1. apply M1.
    apply existsb_exists. exists u. split; [exact U|].
    rewrite IR, ON, (tri_tri_complete _ _ _ _ _ _ DU D CL O), (proj2 (Nat.eqb_neq _ _) N). reflexivity.
  - intros f F ON IR DF CL VE O. destruct (tri_quad_complete _ _ _ _ _ _ _ D DF CL O) as [X|(x & V & I)].
    + apply not_true_iff_false in M2. apply M2. apply existsb_exists. exists f. split; [exact F|]. rewrite IR, ON, X. reflexivity.
    + destruct (VE x V) as (i & Hi). apply not_true_iff_false in M3. apply M3. apply existsb_exists. exists (i, x).
      split; [exact Hi|]. cbn [fst snd].
      assert (I1 := I (t_p t, t_q t) (or_introl eq_refl)).
      assert (I2 := I (t_q t, t_r t) (or_intror (or_introl eq_refl))).
      assert (I3 := I (t_r t, t_p t) (or_intror (or_intror (or_introl eq_refl)))). cbn [fst snd] in I1, I2, I3.
      assert (TP := tol_pos). rewrite !andb_true_iff. split; [split|].
      * apply Qle_bool_iff. unfold t_xy.
        assert (R := ClearRun.touching_reach x (t_p t) (t_q t) (t_r t) D).
        assert (T : WindSpec.touching x (t_p t) (t_q t) (t_r t)) by (repeat split; lra). specialize (R T).
        assert (ML : 0 <= AdvanceModel.max_len2 (t_p t) (t_q t) (t_r t)).
        { unfold AdvanceModel.max_len2. eapply Qle_trans; [|apply ClearRun.qmax_l]. unfold edge_len2, vnorm2, vdot.
          apply (Qle_trans _ (0 + 0)); [lra|]. apply Qplus_le_compat; apply sq_nonneg. }
        lra.
      * apply negb_true_iff. apply not_true_iff_false. intros E. apply existsb_exists in E. destruct E as (j & J & EJ).
        apply Nat.eqb_eq in EJ. subst j. destruct (OWN (i, x) Hi J) as [E|[E|E]]; cbn [snd] in E; subst x.
        -- rewrite det_aab in I1. lra.
        -- rewrite det_abb in I1. lra.
        -- rewrite det_abb in I2. lra.
      * unfold in_on_triangle. rewrite !andb_true_iff, !is_lefton_iff. repeat split; lra.
Qed.

(* A triangle or quad that one of the tests rejects has met an active element in
   range: it overlaps it, or a corner hangs on a side, or the two are not clear
   of each other. *)
Theorem C73_rejected : forall t f tris quads r2,
  (tri_meets_tris t tris r2 = true -> exists u, In u tris /\ t_id u <> t_id t /\ t_on u = true /\
     vnorm2 (vsub (t_xy u) (t_xy t)) <= r2 /\
     tri_tri_conflict (t_p u) (t_q u) (t_r u) (t_p t) (t_q t) (t_r t) = true) /\
  (tri_meets_quads t quads r2 = true -> exists g, In g quads /\ q_on g = true /\
     vnorm2 (vsub (q_xy g) (t_xy t)) <= r2 /\
     tri_quad_conflict (t_p t) (t_q t) (t_r t) (q_p g) (q_q g) (q_r g) (q_s g) = true) /\
  (quad_meets_tris f tris r2 = true -> exists u, In u tris /\ t_on u = true /\
     vnorm2 (vsub (t_xy u) (q_xy f)) <= r2 /\
     tri_quad_conflict (t_p u) (t_q u) (t_r u) (q_p f) (q_q f) (q_r f) (q_s f) = true) /\
  (quad_meets_quads f quads r2 = true -> exists g, In g quads /\ q_id g <> q_id f /\ q_on g = true /\
     vnorm2 (vsub (q_xy g) (q_xy f)) <= r2 /\
     quad_quad_conflict (q_p f) (q_q f) (q_r f) (q_s f) (q_p g) (q_q g) (q_r g) (q_s g) = true).
Proof.
  intros t f tris quads r2. repeat split; intros H; apply existsb_exists in H; destruct H as (x & X & H);
    rewrite !andb_true_iff in H; exists x; unfold in_range in H; rewrite Qleb_true in H; rewrite ?negb_true_iff, ?Nat.eqb_neq in H; tauto.
Qed.

(* the same tests for a quad: what it takes to be accepted *)
Theorem C73_quad_accepted_partial : forall f tris quads r2,
  convex4 (q_p f) (q_q f) (q_r f) (q_s f) ->
  quad_meets_tris f tris r2 = false -> quad_meets_quads f quads r2 = false ->
  (forall u, In u tris -> t_on u = true -> in_range (q_xy f) r2 (t_xy u) = true ->
     convex3 (t_p u) (t_q u) (t_r u) -> clear (sides3 (t_p u) (t_q u) (t_r u)) (sides4 (q_p f) (q_q f) (q_r f) (q_s f)) ->
     overlap (sides3 (t_p u) (t_q u) (t_r u)) (sides4 (q_p f) (q_q f) (q_r f) (q_s f)) ->
     exists v, In v [q_p f; q_q f; q_r f; q_s f] /\ inside (sides3 (t_p u) (t_q u) (t_r u)) v) /\
  (forall g, In g quads -> q_id g <> q_id f -> q_on g = true -> in_range (q_xy f) r2 (q_xy g) = true ->
     convex4 (q_p g) (q_q g) (q_r g) (q_s g) ->
     clear (sides4 (q_p f) (q_q f) (q_r f) (q_s f)) (sides4 (q_p g) (q_q g) (q_r g) (q_s g)) ->
     overlap (sides4 (q_p f) (q_q f) (q_r f) (q_s f)) (sides4 (q_p g) (q_q g) (q_r g) (q_s g)) ->
     (exists v, In v [q_p g; q_q g; q_r g; q_s g] /\ inside (sides4 (q_p f) (q_q f) (q_r f) (q_s f)) v) \/
     (exists v, In v [q_p f; q_q f; q_r f; q_s f] /\ inside (sides4 (q_p g) (q_q g) (q_r g) (q_s g)) v) \/
     (cuts (sides4 (q_p f) (q_q f) (q_r f) (q_s f)) (sides4 (q_p g) (q_q g) (q_r g) (q_s g)) /\
      cuts (sides4 (q_p g) (q_q g) (q_r g) (q_s g)) (sides4 (q_p f) (q_q f) (q_r f) (q_s f)))).
Proof.
  intros f tris quads r2 D M1 M2. split.
  - intros u U ON IR DU CL O. destruct (tri_quad_complete _ _ _ _ _ _ _ DU D CL O) as [X|V]; [|exact V].
    exfalso. apply not_true_iff_false in M1. apply M1. apply existsb_exists. exists u. split; [exact U|]. rewrite IR, ON, X. reflexivity.
  - intros g G N ON IR DG CL O. destruct (quad_quad_complete _ _ _ _ _ _ _ _ D DG CL O) as [X|V]; [|exact V].
    exfalso. apply not_true_iff_false in M2. apply M2. apply existsb_exists. exists g. split; [exact G|].
    rewrite IR, ON, X, (proj2 (Nat.eqb_neq _ _) N). reflexivity.
Qed.

(* the tests against vertices, exactly *)
Theorem C73_vertices : forall t f own verts r2,
  (tri_meets_verts t own verts r2 = true <-> exists v, In v verts /\ ~ In (fst v) own /\
     vnorm2 (vsub (snd v) (t_xy t)) <= r2 /\
     forall s, In s (sides3 (t_p t) (t_q t) (t_r t)) -> - tol26 < det (fst s) (snd s) (snd v)) /\
  (quad_meets_verts f own verts r2 = true <-> exists v, In v verts /\ ~ In (fst v) own /\
     vnorm2 (vsub (snd v) (q_xy f)) <= r2 /\
     forall s, In s (sides4 (q_p f) (q_q f) (q_r f) (q_s f)) -> - tol26 < det (fst s) (snd s) (snd v)).
Proof.
  intros t f own verts r2.
  assert (OW : forall i, negb (existsb (Nat.eqb i) own) = true <-> ~ In i own).
  { intros i. rewrite negb_true_iff, <- not_true_iff_false, existsb_exists. split; intros H K; apply H.
    - exists i. split; [exact K|apply Nat.eqb_refl].
    - destruct K as (j & J & E). apply Nat.eqb_eq in E. subst j. exact J. }
  split; unfold tri_meets_verts, quad_meets_verts, in_range, in_on_triangle, in_on_quad; rewrite existsb_exists; split;
    intros (v & V & H); exists v; split; auto.
  - rewrite !andb_true_iff, OW, Qleb_true, !is_lefton_iff in H. destruct H as [[A B] [[C D] E]]. repeat split; auto.
    intros s [<-|[<-|[<-|[]]]]; auto.
  - rewrite !andb_true_iff, OW, Qleb_true, !is_lefton_iff. destruct H as (A & B & C). repeat split; auto;
      [apply (C (t_p t, t_q t))|apply (C (t_q t, t_r t))|apply (C (t_r t, t_p t))]; cbn; tauto.
  - rewrite !andb_true_iff, OW, Qleb_true, !is_lefton_iff in H. destruct H as [[A B] [[[C D] E] F]]. repeat split; auto.
    intros s [<-|[<-|[<-|[<-|[]]]]]; auto.
  - rewrite !andb_true_iff, OW, Qleb_true, !is_lefton_iff. destruct H as (A & B & C). repeat split; auto;
      [apply (C (q_p f, q_q f))|apply (C (q_q f, q_r f))|apply (C (q_r f, q_s f))|apply (C (q_s f, q_p f))]; cbn; tauto.
Qed.

(* ---------- cases ---------- *)
(* a star of two triangles overlaps, two halves of a square do not *)
Example C73_triangles_case :
  (let a := V2 0 0 in let b := V2 4 0 in let c := V2 2 3 in let p := V2 2 (- (1)) in let q := V2 4 2 in let r := V2 0 2 in
   convex3 a b c /\ convex3 p q r /\ clear (sides3 a b c) (sides3 p q r) /\ overlap (sides3 a b c) (sides3 p q r) /\
   tri_tri_conflict a b c p q r = true) /\
  (let a := V2 0 0 in let b := V2 2 0 in let c := V2 2 2 in let d := V2 0 2 in
   convex3 a b c /\ convex3 a c d /\ clear (sides3 a b c) (sides3 a c d) /\ tri_tri_conflict a b c a c d = false).
Proof.
  split; cbn zeta.
  - split; [reflexivity|]. split; [reflexivity|]. split; [by_clear|]. split; [|vm_compute; reflexivity].
    exists (V2 2 1). split; by_inside.
  - split; [reflexivity|]. split; [reflexivity|]. split; [by_clear|]. vm_compute; reflexivity.
Qed.
Example C73_tri_quad_case :
  let a := V2 1 1 in let b := V2 5 1 in let c := V2 1 5 in let p := V2 0 0 in let q := V2 2 0 in let r := V2 2 2 in let s := V2 0 2 in
  convex3 a b c /\ convex4 p q r s /\ clear (sides3 a b c) (sides4 p q r s) /\ overlap (sides3 a b c) (sides4 p q r s) /\
  tri_quad_conflict a b c p q r s = true.
Proof.
  cbn zeta. split; [reflexivity|]. split; [repeat split; reflexivity|]. split; [by_clear|]. split; [|vm_compute; reflexivity].
  exists (V2 (3 # 2) (3 # 2)). split; by_inside.
Qed.
Example C73_quads_case :
  let a := V2 1 1 in let b := V2 3 1 in let c := V2 3 3 in let d := V2 1 3 in let p := V2 0 0 in let q := V2 2 0 in let r := V2 2 2 in let s := V2 0 2 in
  convex4 a b c d /\ convex4 p q r s /\ clear (sides4 a b c d) (sides4 p q r s) /\ overlap (sides4 a b c d) (sides4 p q r s) /\
  quad_quad_conflict a b c d p q r s = true.
Proof.
  cbn zeta. split; [repeat split; reflexivity|]. split; [repeat split; reflexivity|]. split; [by_clear|]. split; [|vm_compute; reflexivity].
  exists (V2 (3 # 2) (3 # 2)). split; by_inside.
Qed.
(* a triangle beside a triangle and a square that passes all tests *)
Example C73_accepted_case :
  let t := Tri 0 true (V2 0 0) (V2 2 0) (V2 1 2) in let u := Tri 1 true (V2 2 0) (V2 3 2) (V2 1 2) in
  let f := Quad 0 true (V2 0 (- (2))) (V2 2 (- (2))) (V2 2 0) (V2 0 0) in
  let own := [0; 1; 2]%nat in
  let verts := [(0%nat, V2 0 0); (1%nat, V2 2 0); (2%nat, V2 1 2); (3%nat, V2 3 2); (4%nat, V2 0 (- (2))); (5%nat, V2 2 (- (2)))] in
  convex3 (t_p t) (t_q t) (t_r t) /\ AdvanceModel.max_len2 (t_p t) (t_q t) (t_r t) <= 5 /\
  (forall v, In v verts -> In (fst v) own -> snd v = t_p t \/ snd v = t_q t \/ snd v = t_r t) /\
  tri_meets_tris t [t; u] 5 = false /\ tri_meets_quads t [f] 5 = false /\ tri_meets_verts t own verts 5 = false /\
  in_range (t_xy t) 5 (t_xy u) = true /\ in_range (t_xy t) 5 (q_xy f) = true /\
  convex3 (t_p u) (t_q u) (t_r u) /\ clear (sides3 (t_p u) (t_q u) (t_r u)) (sides3 (t_p t) (t_q t) (t_r t)) /\
  convex4 (q_p f) (q_q f) (q_r f) (q_s f) /\ clear (sides3 (t_p t) (t_q t) (t_r t)) (sides4 (q_p f) (q_q f) (q_r f) (q_s f)) /\
  quad_meets_tris f [t; u] 5 = false /\ quad_meets_quads f [f] 5 = false.
Proof.
  cbn zeta. cbn [t_p t_q t_r q_p q_q q_r q_s].
  split; [reflexivity|]. split; [vm_compute; discriminate|].
  split; [intros v V O; by_sides; cbn [fst snd] in *; first [tauto|exfalso; cbn in O; repeat (destruct O as [O|O]; [discriminate|]); exact O]|].
  do 5 (split; [vm_compute; reflexivity|]). split; [reflexivity|]. split; [by_clear|].
  split; [repeat split; reflexivity|]. split; [by_clear|]. split; vm_compute; reflexivity.
Qed.

Print Assumptions C73_refuted.
Print Assumptions C73_quads_refuted.
Print Assumptions C73_small_refuted.
Print Assumptions C73_range_refuted.
Print Assumptions C73_triangles_partial.
Print Assumptions C73_tri_quad_partial.
Print Assumptions C73_quads_partial.
Print Assumptions C73_accepted_partial.
Print Assumptions C73_rejected.
Print Assumptions C73_quad_accepted_partial.
Print Assumptions C73_vertices.
