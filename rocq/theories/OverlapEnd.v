(* From the cases of OverlapProofs.v to the tests of the code, and back. *)
From Coq Require Import Lia Lqa Setoid.
From Verif Require Import Base GeomModel GeomSpec GeomProofs FacetModel OverlapModel OverlapSpec OverlapProofs.
From Verif Require ClearRun.
Open Scope Q_scope.

(* ---------- no side passes through a triangle from corner to corner ---------- *)
Lemma no_cuts3 P p q r : ~ cuts P (sides3 p q r).
Proof.
  intros (e & v & w & t & _ & V & W & EV & EW & T0 & T1 & I).
  assert (H : forall s, In s (sides3 p q r) -> sd s v == 0 -> sd s w == 0 -> False).
  { intros s S A B. assert (H := I s S). change (0 < sd s (on_seg (fst e) (snd e) t)) in H.
    rewrite sd_seg, (sd_ext s _ _ EV), (sd_ext s _ _ EW), A, B in H. lra. }
  assert (Z1 := det_aab). assert (Z2 := det_abb).
  assert (S1 : In (p, q) (sides3 p q r)) by (cbn; tauto).
  assert (S2 : In (q, r) (sides3 p q r)) by (cbn; tauto).
  assert (S3 : In (r, p) (sides3 p q r)) by (cbn; tauto).
  assert (H1 := H _ S1). assert (H2 := H _ S2). assert (H3 := H _ S3). unfold sd in H1, H2, H3. cbn [fst snd] in H1, H2, H3.
  destruct V as [<-|[<-|[<-|[]]]], W as [<-|[<-|[<-|[]]]]; auto.
Qed.

(* ---------- the centroid of an element in another one ---------- *)
Lemma affine3 s p q r z : det p q r * sd s z == det q r z * sd s p + det r p z * sd s q + det p q z * sd s r.
Proof. unfold sd, det. ring. Qed.

Lemma some_far s p q r z : 0 < det p q r -> 0 < sd s z ->
  clr (fst s) (snd s) p -> clr (fst s) (snd s) q -> clr (fst s) (snd s) r ->
  0 <= sd s p -> 0 <= sd s q -> 0 <= sd s r -> 4 * tol26 <= sd s p + sd s q + sd s r.
Proof.
  intros D Z A B C P Q R. assert (TP := tol_pos). assert (F := affine3 s p q r z).
  change (clr (fst s) (snd s) p) with (sd s p == 0 \/ 4 * tol26 <= sd s p \/ sd s p <= - (4 * tol26)) in A.
  change (clr (fst s) (snd s) q) with (sd s q == 0 \/ 4 * tol26 <= sd s q \/ sd s q <= - (4 * tol26)) in B.
  change (clr (fst s) (snd s) r) with (sd s r == 0 \/ 4 * tol26 <= sd s r \/ sd s r <= - (4 * tol26)) in C.
  destruct A as [A|[A|A]]; [|lra|lra]. destruct B as [B|[B|B]]; [|lra|lra]. destruct C as [C|[C|C]]; [|lra|lra].
  exfalso. rewrite A, B, C in F. assert (0 < det p q r * sd s z) by (apply Qmult_lt_0_compat; auto). lra.
Qed.

Lemma centroid3 p q r R z : convex3 p q r -> clear_of R (sides3 p q r) -> inside R z -> all_in (sides3 p q r) R ->
  forall s, In s R -> tol26 <= sd s (tri_centroid p q r).
Proof.
  intros D C Z A s S. assert (TP := tol_pos).
  assert (F : 4 * tol26 <= sd s p + sd s q + sd s r).
  { apply (some_far s p q r z); auto; try (apply C; auto; cbn; tauto); try (apply A; auto; cbn; tauto). exact (Z s S). }
  assert (E : 3 * sd s (tri_centroid p q r) == sd s p + sd s q + sd s r).
  { unfold sd, tri_centroid, det. cbn [vx vy]. field. }
  lra.
Qed.
Lemma centroid4 p q r t R z : convex4 p q r t -> clear_of R (sides4 p q r t) -> inside R z -> all_in (sides4 p q r t) R ->
  forall s, In s R -> tol26 <= sd s (quad_centroid p q r t).
Proof.
  intros D C Z A s S. assert (TP := tol_pos).
  assert (F : 4 * tol26 <= sd s p + sd s q + sd s r).
  { apply (some_far s p q r z); auto; try (apply C; auto; cbn; tauto); try (apply A; auto; cbn; tauto); [apply D|exact (Z s S)]. }
  assert (G : 0 <= sd s t) by (apply A; auto; cbn; tauto).
  assert (E : 4 * sd s (quad_centroid p q r t) == sd s p + sd s q + sd s r + sd s t).
  { unfold sd, quad_centroid, det. cbn [vx vy]. field. }
  lra.
Qed.
Lemma in_triangle_sides v p q r : in_triangle v p q r = true <-> forall s, In s (sides3 p q r) -> tol26 <= sd s v.
Proof.
  unfold in_triangle. rewrite !andb_true_iff, !is_left_iff. split.
  - intros [[A B] C] s [<-|[<-|[<-|[]]]]; auto.
  - intros H. repeat split; [apply (H (p, q))|apply (H (q, r))|apply (H (r, p))]; cbn; tauto.
Qed.
Lemma in_quad_sides v p q r s : in_quad v p q r s = true <-> forall x, In x (sides4 p q r s) -> tol26 <= sd x v.
Proof.
  unfold in_quad. rewrite !andb_true_iff, !is_left_iff. split.
  - intros [[[A B] C] D] x [<-|[<-|[<-|[<-|[]]]]]; auto.
  - intros H. repeat split; [apply (H (p, q))|apply (H (q, r))|apply (H (r, s))|apply (H (s, p))]; cbn; tauto.
Qed.

(* a triangle with a corner inside a convex element *)
Lemma corner3 p q r R : convex3 p q r -> convex R -> clear (sides3 p q r) R -> corner_inside (sides3 p q r) R ->
  sides_meet (sides3 p q r) R \/ all_in (sides3 p q r) R.
Proof.
  intros D CR CL (v & V & I). assert (CP := convex_sides3 p q r D).
  assert (FW : forall e, In e (sides3 p q r) -> inside R (fst e) -> inside_on R (snd e) \/ sides_meet (sides3 p q r) R).
  { intros e E J. apply (leave_fwd _ R CP CR CL e 0 E); try lra. apply (inside_ext R (fst e)); auto.
    unfold on_seg. split; cbn [vx vy]; ring. }
  assert (BW : forall e, In e (sides3 p q r) -> inside R (snd e) -> inside_on R (fst e) \/ sides_meet (sides3 p q r) R).
  { intros e E J. apply (leave_bwd _ R CP CR CL e 1 E); try lra. apply (inside_ext R (snd e)); auto.
    unfold on_seg. split; cbn [vx vy]; ring. }
  assert (ON : forall x, inside R x -> inside_on R x) by (intros x X s S; apply Qlt_le_weak, X, S).
  assert (S1 : In (p, q) (sides3 p q r)) by (cbn; tauto).
  assert (S2 : In (q, r) (sides3 p q r)) by (cbn; tauto).
  assert (S3 : In (r, p) (sides3 p q r)) by (cbn; tauto).
  assert (F1 := FW _ S1). assert (F2 := FW _ S2). assert (F3 := FW _ S3).
  assert (B1 := BW _ S1). assert (B2 := BW _ S2). assert (B3 := BW _ S3). cbn [fst snd] in *.
  assert (ALL : inside_on R p -> inside_on R q -> inside_on R r -> all_in (sides3 p q r) R).
  { intros A B C x [<-|[<-|[<-|[]]]]; auto. }
  destruct V as [<-|[<-|[<-|[]]]].
  - destruct (F1 I) as [H|H]; auto. destruct (B3 I) as [H'|H']; auto.
  - destruct (F2 I) as [H|H]; auto. destruct (B1 I) as [H'|H']; auto.
  - destruct (F3 I) as [H|H]; auto. destruct (B2 I) as [H'|H']; auto.
Qed.

Lemma clear_sym P R : clear P R -> clear R P.
Proof. unfold clear. tauto. Qed.
Lemma overlap_sym P R : overlap P R -> overlap R P.
Proof. intros (z & A & B). exists z. auto. Qed.

(* ---------- overlaps are reported ---------- *)
Lemma tri_tri_complete a b c p q r : convex3 a b c -> convex3 p q r -> clear (sides3 a b c) (sides3 p q r) ->
  overlap (sides3 a b c) (sides3 p q r) -> tri_tri_conflict a b c p q r = true.
Proof.
  intros D1 D2 CL O. assert (C1 := convex_sides3 _ _ _ D1). assert (C2 := convex_sides3 _ _ _ D2).
  unfold tri_tri_conflict. rewrite !orb_true_iff, tri_tri_iff, !in_triangle_sides.
  destruct O as (z & Z1 & Z2).
  destruct (overlap_cases _ _ C1 C2 CL) as [M|[A|[K|K]]]; [exists z; auto| | | |exfalso; exact (no_cuts3 _ _ _ _ K)].
  - left. left. exact M.
  - right. exact (centroid3 p q r _ z D2 (proj1 CL) Z1 A).
  - destruct (corner3 _ _ _ _ D1 C2 CL K) as [M|A]; [left; left; exact M|].
    left. right. exact (centroid3 a b c _ z D1 (proj2 CL) Z2 A).
Qed.

Lemma tri_quad_complete a b c p q r s : convex3 a b c -> convex4 p q r s -> clear (sides3 a b c) (sides4 p q r s) ->
  overlap (sides3 a b c) (sides4 p q r s) ->
  tri_quad_conflict a b c p q r s = true \/ exists v, In v (corners (sides4 p q r s)) /\ inside (sides3 a b c) v.
Proof.
  intros D1 D2 CL O. assert (C1 := convex_sides3 _ _ _ D1). assert (C2 := convex_sides4 _ _ _ _ D2).
  unfold tri_quad_conflict. rewrite !orb_true_iff, tri_quad_iff, in_triangle_sides, in_quad_sides.
  destruct O as (z & Z1 & Z2).
  destruct (overlap_cases _ _ C2 C1 (clear_sym _ _ CL)) as [M|[A|[K|K]]]; [exists z; auto| | | |exfalso; exact (no_cuts3 _ _ _ _ K)].
  - left. left. left. exact (sides_meet_sym _ _ M).
  - left. right. exact (centroid3 a b c _ z D1 (proj2 CL) Z2 A).
  - right. exact K.
Qed.

Lemma quad_quad_complete a b c d p q r s : convex4 a b c d -> convex4 p q r s -> clear (sides4 a b c d) (sides4 p q r s) ->
  overlap (sides4 a b c d) (sides4 p q r s) ->
  quad_quad_conflict a b c d p q r s = true \/
  (exists v, In v (corners (sides4 p q r s)) /\ inside (sides4 a b c d) v) \/
  (exists v, In v (corners (sides4 a b c d)) /\ inside (sides4 p q r s) v) \/
  (cuts (sides4 a b c d) (sides4 p q r s) /\ cuts (sides4 p q r s) (sides4 a b c d)).
Proof.
  intros D1 D2 CL O. assert (C1 := convex_sides4 _ _ _ _ D1). assert (C2 := convex_sides4 _ _ _ _ D2).
  unfold quad_quad_conflict. rewrite !orb_true_iff, quad_quad_iff, !in_quad_sides.
  destruct O as (z & Z1 & Z2).
  destruct (overlap_cases _ _ C1 C2 CL) as [M|[A|[K|K]]]; [exists z; auto| | | |].
  - left. left. left. exact M.
  - left. left. right. exact (centroid4 p q r s _ z D2 (proj1 CL) Z1 A).
  - right. right. left. exact K.
  - destruct (overlap_cases _ _ C2 C1 (clear_sym _ _ CL)) as [M|[A|[K'|K']]]; [exists z; auto| | | |].
    + left. left. left. exact (sides_meet_sym _ _ M).
    + left. right. exact (centroid4 a b c d _ z D1 (proj2 CL) Z2 A).
    + right. left. exact K'.
    + right. right. right. auto.
Qed.

(* ---------- only overlaps and hanging corners are reported ---------- *)
Definition cross (x d : vec2) : Q := vx x * vy d - vx d * vy x.
Definition dir (s : vec2 * vec2) : vec2 := vsub (snd s) (fst s).
Definition go (u d : vec2) (h : Q) : vec2 := V2 (vx u + h * vx d) (vy u + h * vy d).
Lemma sd_go s u d h : sd s (go u d h) == sd s u + h * cross (dir s) d.
Proof. unfold sd, go, cross, dir, det, vsub. cbn [vx vy]. ring. Qed.

Lemma nearby L u d : (forall s, In s L -> 0 < sd s u \/ (0 <= sd s u /\ 0 < cross (dir s) d)) ->
  exists h, 0 < h /\ forall k, 0 < k -> k <= h -> inside L (go u d k).
Proof.
  induction L as [|s L IH]; intros H; [exists 1; split; [lra|intros k _ _ s []]|].
  destruct IH as (h & H0 & I); [intros x X; apply H; right; exact X|].
  assert (exists g, 0 < g /\ forall k, 0 < k -> k <= g -> 0 < sd s (go u d k)) as (g & G0 & G).
  { destruct (H s (or_introl eq_refl)) as [P|[P Q]].
    - destruct (Qlt_le_dec (cross (dir s) d) 0) as [N|N].
      + exists (sd s u / (- (2) * cross (dir s) d)). assert (M : 0 < - (2) * cross (dir s) d) by lra.
        set (c := cross (dir s) d) in *. set (x := sd s u) in *.
        split; [apply Qlt_shift_div_l; lra|]. intros k K0 K1. rewrite sd_go. fold c x.
        assert (K2 : k * (- (2) * c) <= x).
        { assert (E : x == x / (- (2) * c) * (- (2) * c)) by (field; lra). rewrite E.
          apply Qmult_le_compat_r; lra. }
        assert (E : k * c == - (1 # 2) * (k * (- (2) * c))) by ring. lra.
      + exists 1. split; [lra|]. intros k K0 _. rewrite sd_go.
        assert (0 <= k * cross (dir s) d) by (apply Qmult_le_0_compat; lra). lra.
    - exists 1. split; [lra|]. intros k K0 _. rewrite sd_go.
      assert (0 < k * cross (dir s) d) by (apply Qmult_lt_0_compat; lra). lra. }
  destruct (Qlt_le_dec h g) as [L1|L1]; [exists h|exists g]; (split; [assumption|]); intros k K0 K1 x [<-|X].
  - apply G; lra.
  - apply I; auto.
  - apply G; lra.
  - apply I; auto; lra.
Qed.

Lemma side_values L e u t d : convex L -> In e L -> 0 < t -> t < 1 -> veq u (on_seg (fst e) (snd e) t) ->
  0 < cross (dir e) d -> forall s, In s L -> 0 < sd s u \/ (0 <= sd s u /\ 0 < cross (dir s) d).
Proof.
  intros C E T0 T1 V D s S. destruct (side_ends L e C E) as [A B]. destruct C as (_ & K & ST).
  assert (PA := K _ A s S). assert (PB := K _ B s S). change (0 <= sd s (fst e)) in PA. change (0 <= sd s (snd e)) in PB.
  rewrite (sd_ext s _ _ V), sd_seg. destruct (ST s e S E) as [->|[P|P]].
  - right. split; auto. apply mix_nonneg; lra.
  - left. apply mix_pos; auto.
  - left. assert (0 < t * sd s (snd e)) by (apply Qmult_lt_0_compat; auto).
    assert (0 <= (1 - t) * sd s (fst e)) by (apply Qmult_le_0_compat; lra). lra.
Qed.

Lemma near_exact a b x : clr a b x -> near_open_seg a b x -> exists t, 0 < t /\ t < 1 /\ veq x (on_seg a b t).
Proof.
  intros C (A & B & P & Q). assert (TP := tol_pos). assert (Z : det a b x == 0) by (destruct C as [|[|]]; [assumption|lra|lra]).
  set (n := vnorm2 (vsub b a)) in *. set (m := vdot (vsub x a) (vsub b a)) in *.
  assert (N : 0 < n) by lra.
  assert (EX : n * (vx x - vx a) == m * (vx b - vx a) - det a b x * (vy b - vy a)).
  { unfold n, m, det, vnorm2, vdot, vsub. cbn [vx vy]. ring. }
  assert (EY : n * (vy x - vy a) == m * (vy b - vy a) + det a b x * (vx b - vx a)).
  { unfold n, m, det, vnorm2, vdot, vsub. cbn [vx vy]. ring. }
  rewrite Z in EX, EY. clearbody n m.
  exists (m / n). split; [apply Qlt_shift_div_l; lra|]. split; [apply Qlt_shift_div_r; lra|].
  unfold on_seg. split; cbn [vx vy].
  - assert (X : vx x - vx a == (m / n) * (vx b - vx a)); [|lra].
    apply (Qmult_inj_l _ _ n); [lra|]. rewrite EX. field. lra.
  - assert (X : vy x - vy a == (m / n) * (vy b - vy a)); [|lra].
    apply (Qmult_inj_l _ _ n); [lra|]. rewrite EY. field. lra.
Qed.

Lemma sides_meet_sound P R : convex P -> convex R -> clear P R -> sides_meet P R ->
  overlap P R \/ hangs P R \/ hangs R P.
Proof.
  intros CP CR CL (e & f & E & F & M). apply intersection_iff in M.
  destruct (side_ends P e CP E) as [PA PB]. destruct (side_ends R f CR F) as [RA RB].
  assert (HP : forall v, In v (corners R) -> near_open_seg (fst e) (snd e) v -> hangs P R).
  { intros v V N. destruct (near_exact _ _ _ (clr2 P R CL e v E V) N) as (t & T0 & T1 & X). exists e, v, t. auto 6. }
  assert (HR : forall v, In v (corners P) -> near_open_seg (fst f) (snd f) v -> hangs R P).
  { intros v V N. destruct (near_exact _ _ _ (clr2 R P (clear_sym _ _ CL) f v F V) N) as (t & T0 & T1 & X). exists f, v, t. auto 6. }
  destruct M as [X|[N|[N|[N|N]]]]; [|right; left; exact (HP _ RA N)|right; left; exact (HP _ RB N)
    |right; right; exact (HR _ PA N)|right; right; exact (HR _ PB N)].
  left. assert (X' := X). apply crossing_iff in X'. destruct (crossing_sound _ _ _ _ X) as (s & t & (S0 & S1 & T0 & T1 & V) & _).
  assert (TP := tol_pos).
  assert (EC : cross (dir e) (dir f) == det (fst e) (snd e) (snd f) - det (fst e) (snd e) (fst f)).
  { unfold cross, dir, det, vsub. cbn [vx vy]. ring. }
  assert (AS : forall x y, cross x y == - cross y x) by (intros; unfold cross; ring).
  assert (SB : forall x y z, cross x (vsub y z) == cross x y - cross x z) by (intros; unfold cross, vsub; cbn [vx vy]; ring).
  assert (SS : forall x, cross x x == 0) by (intros; unfold cross; ring).
  set (u := on_seg (fst e) (snd e) s) in *.
  assert (exists d, 0 < cross (dir e) d /\ 0 < cross (dir f) d) as (d & D1 & D2).
  { destruct (Qlt_le_dec 0 (cross (dir e) (dir f))) as [G|G].
    - exists (vsub (dir f) (dir e)). rewrite !SB, !SS, (AS (dir f) (dir e)). split; lra.
    - exists (vsub (dir e) (dir f)). rewrite !SB, !SS, (AS (dir f) (dir e)).
      assert (cross (dir e) (dir f) < 0) by (destruct X' as [[[? ?]|[? ?]] _]; lra). split; lra. }
  destruct (nearby P u d) as (h & H0 & HI).
  { apply (side_values P e u s d CP E); auto. split; reflexivity. }
  destruct (nearby R u d) as (g & G0 & GI).
  { apply (side_values R f u t d CR F); auto. }
  destruct (Qlt_le_dec h g) as [L|L]; [exists (go u d h)|exists (go u d g)]; split;
    (apply HI; lra) || (apply GI; lra).
Qed.

(* the centroid is inside its element *)
Lemma centroid3_inside p q r : convex3 p q r -> inside (sides3 p q r) (tri_centroid p q r).
Proof.
  intros D s [<-|[<-|[<-|[]]]]; cbn [fst snd]; unfold convex3 in D.
  - assert (E : 3 * det p q (tri_centroid p q r) == det p q r) by (unfold det, tri_centroid; cbn [vx vy]; field). lra.
  - assert (E : 3 * det q r (tri_centroid p q r) == det p q r) by (unfold det, tri_centroid; cbn [vx vy]; field). lra.
  - assert (E : 3 * det r p (tri_centroid p q r) == det p q r) by (unfold det, tri_centroid; cbn [vx vy]; field). lra.
Qed.
Lemma centroid4_inside p q r s : convex4 p q r s -> inside (sides4 p q r s) (quad_centroid p q r s).
Proof.
  intros (D1 & D2 & D3 & D4) x [<-|[<-|[<-|[<-|[]]]]]; cbn [fst snd].
  - assert (E : 4 * det p q (quad_centroid p q r s) == det p q r + det s p q) by (unfold det, quad_centroid; cbn [vx vy]; field). lra.
  - assert (E : 4 * det q r (quad_centroid p q r s) == det q r s + det p q r) by (unfold det, quad_centroid; cbn [vx vy]; field). lra.
  - assert (E : 4 * det r s (quad_centroid p q r s) == det r s p + det q r s) by (unfold det, quad_centroid; cbn [vx vy]; field). lra.
  - assert (E : 4 * det s p (quad_centroid p q r s) == det s p q + det r s p) by (unfold det, quad_centroid; cbn [vx vy]; field). lra.
Qed.
Lemma left_inside L v : (forall s, In s L -> tol26 <= sd s v) -> inside L v.
Proof. intros H s S. assert (X := H s S). assert (TP := tol_pos). unfold sd in X. lra. Qed.

Lemma tri_tri_sound a b c p q r : convex3 a b c -> convex3 p q r -> clear (sides3 a b c) (sides3 p q r) ->
  tri_tri_conflict a b c p q r = true ->
  overlap (sides3 a b c) (sides3 p q r) \/ hangs (sides3 a b c) (sides3 p q r) \/ hangs (sides3 p q r) (sides3 a b c).
Proof.
  intros D1 D2 CL. unfold tri_tri_conflict. rewrite !orb_true_iff, tri_tri_iff, !in_triangle_sides. intros [[M|M]|M].
  - apply sides_meet_sound; auto using convex_sides3.
  - left. exists (tri_centroid a b c). split; [exact (centroid3_inside _ _ _ D1)|exact (left_inside _ _ M)].
  - left. exists (tri_centroid p q r). split; [exact (left_inside _ _ M)|exact (centroid3_inside _ _ _ D2)].
Qed.
Lemma tri_quad_sound a b c p q r s : convex3 a b c -> convex4 p q r s -> clear (sides3 a b c) (sides4 p q r s) ->
  tri_quad_conflict a b c p q r s = true ->
  overlap (sides3 a b c) (sides4 p q r s) \/ hangs (sides3 a b c) (sides4 p q r s) \/ hangs (sides4 p q r s) (sides3 a b c).
Proof.
  intros D1 D2 CL. unfold tri_quad_conflict. rewrite !orb_true_iff, tri_quad_iff, in_triangle_sides, in_quad_sides. intros [[M|M]|M].
  - apply sides_meet_sound; auto using convex_sides3, convex_sides4.
  - left. exists (quad_centroid p q r s). split; [exact (left_inside _ _ M)|exact (centroid4_inside _ _ _ _ D2)].
  - left. exists (tri_centroid a b c). split; [exact (centroid3_inside _ _ _ D1)|exact (left_inside _ _ M)].
Qed.
Lemma quad_quad_sound a b c d p q r s : convex4 a b c d -> convex4 p q r s -> clear (sides4 a b c d) (sides4 p q r s) ->
  quad_quad_conflict a b c d p q r s = true ->
  overlap (sides4 a b c d) (sides4 p q r s) \/ hangs (sides4 a b c d) (sides4 p q r s) \/ hangs (sides4 p q r s) (sides4 a b c d).
Proof.
  intros D1 D2 CL. unfold quad_quad_conflict. rewrite !orb_true_iff, quad_quad_iff, !in_quad_sides. intros [[M|M]|M].
  - apply sides_meet_sound; auto using convex_sides4.
  - left. exists (quad_centroid p q r s). split; [exact (left_inside _ _ M)|exact (centroid4_inside _ _ _ _ D2)].
  - left. exists (quad_centroid a b c d). split; [exact (centroid4_inside _ _ _ _ D1)|exact (left_inside _ _ M)].
Qed.

(* a hanging corner is reported, too *)
Lemma hangs_meet P R : convex P -> convex R -> hangs P R -> sides_meet P R.
Proof.
  intros CP CR (e & v & t & E & V & T0 & T1 & X). apply in_map_iff in V. destruct V as (f & <- & F).
  apply (sides_meet_intro P R e f E F). right. left. apply (near_of _ _ _ t); auto.
  intros Q. destruct CP as (K & _). destruct (K e E) as (n & m & _ & _ & D & _).
  assert (D' : det (snd e) n (fst e) == 0) by (rewrite (veq_det1 (snd e) n _ _ Q); unfold det; ring). lra.
Qed.
