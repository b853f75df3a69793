From Coq Require Import Lqa Lia Qfield Qabs.
From Verif Require Import Base Chain GeomModel GeomSpec.
Open Scope Q_scope.

Lemma sq_nonneg a : 0 <= a * a.
Proof. nra. Qed.

Lemma area2_det p q r : area2 p q r == det p q r.
Proof. unfold area2, det. ring. Qed.

(* three-way characterisation of orientation by the exact doubled area *)
Lemma sq_small a : a * a < small <-> - tol26 < a /\ a < tol26.
Proof.
  assert (Hs : small == tol26 * tol26) by reflexivity.
  rewrite Hs. assert (0 < tol26) by reflexivity. generalize dependent tol26. intros t _ Ht.
  split; [intros H; split; nra|intros [H1 H2]; nra].
Qed.

Lemma sq_large a : small <= a * a <-> a <= - tol26 \/ tol26 <= a.
Proof.
  assert (Hs : small == tol26 * tol26) by reflexivity.
  rewrite Hs. assert (0 < tol26) by reflexivity. generalize dependent tol26. intros t _ Ht.
  split.
  - intros H. destruct (Qlt_le_dec a t) as [H1|H1]; [|auto]. left.
    destruct (Qlt_le_dec (-t) a) as [H2|H2]; [nra|exact H2].
  - intros [H|H]; nra.
Qed.

Lemma tol_pos : 0 < tol26.
Proof. reflexivity. Qed.

Lemma orientation_cases p q r :
  (orientation p q r = CCW /\ tol26 <= det p q r) \/
  (orientation p q r = CW /\ det p q r <= - tol26) \/
  (orientation p q r = CL /\ - tol26 < det p q r /\ det p q r < tol26).
Proof.
  unfold orientation. pose proof tol_pos as Ht.
  destruct (Qltb (area2 p q r * area2 p q r) small) eqn:E; qbool.
  - rewrite sq_small, area2_det in E. right; right. tauto.
  - apply sq_large in E. rewrite area2_det in E.
    destruct (Qltb 0 (area2 p q r)) eqn:E2; qbool; rewrite area2_det in E2.
    + left. split; [reflexivity|]. destruct E; lra.
    + right; left. split; [reflexivity|]. destruct E; lra.
Qed.

Lemma orientation_ccw p q r : orientation p q r = CCW <-> tol26 <= det p q r.
Proof.
  pose proof tol_pos.
  destruct (orientation_cases p q r) as [[-> H1]|[[-> H1]|[-> H1]]]; split; intros; try congruence; lra.
Qed.
Lemma orientation_cw p q r : orientation p q r = CW <-> det p q r <= - tol26.
Proof.
  pose proof tol_pos.
  destruct (orientation_cases p q r) as [[-> H1]|[[-> H1]|[-> H1]]]; split; intros; try congruence; lra.
Qed.
Lemma orientation_cl p q r : orientation p q r = CL <-> - tol26 < det p q r /\ det p q r < tol26.
Proof.
  pose proof tol_pos.
  destruct (orientation_cases p q r) as [[-> H1]|[[-> H1]|[-> H1]]]; split; intros; try congruence; lra.
Qed.

(* orientation is determined by the value of det *)
Lemma orientation_ext p q r p' q' r' : det p q r == det p' q' r' ->
  orientation p q r = orientation p' q' r'.
Proof.
  intros H. pose proof tol_pos.
  destruct (orientation_cases p q r) as [[-> H1]|[[-> H1]|[-> H1]]];
  destruct (orientation_cases p' q' r') as [[-> H2]|[[-> H2]|[-> H2]]]; try reflexivity; exfalso; lra.
Qed.

Definition flip (o : orient) : orient := match o with CW => CCW | CCW => CW | CL => CL end.

Lemma orientation_neg p q r p' q' r' : det p q r == - det p' q' r' ->
  orientation p q r = flip (orientation p' q' r').
Proof.
  intros H. pose proof tol_pos.
  destruct (orientation_cases p q r) as [[-> H1]|[[-> H1]|[-> H1]]];
  destruct (orientation_cases p' q' r') as [[-> H2]|[[-> H2]|[-> H2]]]; try reflexivity; exfalso; lra.
Qed.

Lemma orientation_rot p q r : orientation p q r = orientation q r p.
Proof. apply orientation_ext. unfold det. ring. Qed.
Lemma orientation_swap12 p q r : orientation q p r = flip (orientation p q r).
Proof. apply orientation_neg. unfold det. ring. Qed.
Lemma orientation_swap23 p q r : orientation p r q = flip (orientation p q r).
Proof. apply orientation_neg. unfold det. ring. Qed.
Lemma orientation_swap13 p q r : orientation r q p = flip (orientation p q r).
Proof. apply orientation_neg. unfold det. ring. Qed.
Lemma orientation_shift d p q r : orientation (shift d p) (shift d q) (shift d r) = orientation p q r.
Proof. apply orientation_ext. unfold det, shift. cbn [vx vy]. ring. Qed.
Lemma orientation_degenerate p q r : veq p q \/ veq q r \/ veq p r -> orientation p q r = CL.
Proof.
  intros H. apply orientation_cl. pose proof tol_pos.
  assert (E : det p q r == 0).
  { unfold det. destruct H as [[H1 H2]|[[H1 H2]|[H1 H2]]]; rewrite ?H1, ?H2; ring. }
  split; lra.
Qed.

Lemma is_left_iff p q r : is_left p q r = true <-> tol26 <= det p q r.
Proof.
  unfold is_left. rewrite <- orientation_ccw.
  destruct (orientation p q r); cbn; split; congruence.
Qed.
Lemma is_lefton_iff p q r : is_lefton p q r = true <-> - tol26 < det p q r.
Proof.
  unfold is_lefton. pose proof tol_pos.
  destruct (orientation_cases p q r) as [[-> H1]|[[-> H1]|[-> H1]]]; cbn; split; intros; try congruence; lra.
Qed.

(* ---------------- segments ---------------- *)
Lemma opposite_iff a b : opposite a b = true <-> (a = CCW /\ b = CW) \/ (a = CW /\ b = CCW).
Proof. destruct a, b; cbn; intuition congruence. Qed.

Lemma crossing_iff p1 q1 p2 q2 : line_line_crossing p1 q1 p2 q2 = true <->
  ((tol26 <= det p1 q1 p2 /\ det p1 q1 q2 <= - tol26) \/
   (det p1 q1 p2 <= - tol26 /\ tol26 <= det p1 q1 q2)) /\
  ((tol26 <= det p2 q2 p1 /\ det p2 q2 q1 <= - tol26) \/
   (det p2 q2 p1 <= - tol26 /\ tol26 <= det p2 q2 q1)).
Proof.
  unfold line_line_crossing. rewrite andb_true_iff, !opposite_iff.
  rewrite !orientation_ccw, !orientation_cw. reflexivity.
Qed.

(* Exact proper crossing (opposite strict signs) gives the unique meeting point. *)
Lemma proper_crossing_meet p1 q1 p2 q2 :
  det p1 q1 p2 * det p1 q1 q2 < 0 -> det p2 q2 p1 * det p2 q2 q1 < 0 ->
  exists s t, seg_meet p1 q1 p2 q2 s t /\
    forall s' t', seg_meet p1 q1 p2 q2 s' t' -> s' == s /\ t' == t.
Proof.
  intros H1 H2.
  set (A := det p1 q1 p2) in *. set (B := det p1 q1 q2) in *.
  set (C := det p2 q2 p1) in *. set (D := det p2 q2 q1) in *.
  (* determinant of the directions *)
  set (N := (vx q1 - vx p1) * (vy q2 - vy p2) - (vx q2 - vx p2) * (vy q1 - vy p1)).
  assert (HN : N == B - A) by (unfold N, A, B, det; ring).
  assert (HN2 : N == C - D) by (unfold N, C, D, det; ring).
  assert (HA : ~ B - A == 0).
  { intros E. assert (B == A) by lra. rewrite H in H1. pose proof (Qle_refl 0). nra. }
  assert (HC : ~ C - D == 0).
  { intros E. assert (D == C) by lra. rewrite H in H2. nra. }
  assert (HNz : ~ N == 0) by (rewrite HN; exact HA).
  assert (Hfrac : forall a b, a * b < 0 -> 0 < a / (a - b) /\ a / (a - b) < 1).
  { intros a b Hab. destruct (Qlt_le_dec 0 a) as [Ha|Ha].
    - assert (b < 0) by nra. split.
      + apply Qlt_shift_div_l; lra.
      + apply Qlt_shift_div_r; lra.
    - assert (0 < b) by nra. assert (a < 0) by nra.
      assert (E : a / (a - b) == (- a) / (b - a)) by (field; try split; lra).
      rewrite E. split.
      + apply Qlt_shift_div_l; lra.
      + apply Qlt_shift_div_r; lra. }
  destruct (Hfrac A B H1) as [T0 T1]. destruct (Hfrac C D H2) as [S0 S1].
  exists (C / (C - D)), (A / (A - B)).
  split.
  - unfold seg_meet. repeat split; try assumption; unfold on_seg; cbn [vx vy].
    + assert (E1 : C / (C - D) == C / N) by (rewrite HN2; reflexivity).
      assert (E2 : A / (A - B) == - A / N) by (rewrite HN; field; try split; lra).
      rewrite E1, E2. unfold C, A, det. unfold N in *. field. exact HNz.
    + assert (E1 : C / (C - D) == C / N) by (rewrite HN2; reflexivity).
      assert (E2 : A / (A - B) == - A / N) by (rewrite HN; field; try split; lra).
      rewrite E1, E2. unfold C, A, det. unfold N in *. field. exact HNz.
  - intros s' t' (_ & _ & _ & _ & Ex & Ey). unfold on_seg in *. cbn [vx vy] in *.
    assert (F1 : N * s' == C).
    { unfold N, C, det.
      set (ax := vx q1 - vx p1) in *. set (ay := vy q1 - vy p1) in *.
      set (bx := vx q2 - vx p2) in *. set (by_ := vy q2 - vy p2) in *.
      assert (Hx : s' * ax == vx p2 - vx p1 + t' * bx) by lra.
      assert (Hy : s' * ay == vy p2 - vy p1 + t' * by_) by lra.
      transitivity ((s' * ax) * by_ - bx * (s' * ay)); [ring|]. rewrite Hx, Hy. ring. }
    assert (F2 : N * t' == - A).
    { unfold N, A, det.
      set (ax := vx q1 - vx p1) in *. set (ay := vy q1 - vy p1) in *.
      set (bx := vx q2 - vx p2) in *. set (by_ := vy q2 - vy p2) in *.
      assert (Hx : t' * bx == vx p1 - vx p2 + s' * ax) by lra.
      assert (Hy : t' * by_ == vy p1 - vy p2 + s' * ay) by lra.
      transitivity (ax * (t' * by_) - (t' * bx) * ay); [ring|]. rewrite Hx, Hy. ring. }
    split.
    + apply Qmult_inj_l with (z := N); [exact HNz|]. rewrite F1, HN2. field. exact HC.
    + apply Qmult_inj_l with (z := N); [exact HNz|]. rewrite F2, HN. field; try split; lra.
Qed.

Lemma crossing_sound p1 q1 p2 q2 : line_line_crossing p1 q1 p2 q2 = true ->
  exists s t, seg_meet p1 q1 p2 q2 s t /\
    forall s' t', seg_meet p1 q1 p2 q2 s' t' -> s' == s /\ t' == t.
Proof.
  rewrite crossing_iff. pose proof tol_pos. intros [H1 H2].
  apply proper_crossing_meet; [destruct H1|destruct H2]; nra.
Qed.

Lemma crossing_sym p1 q1 p2 q2 :
  line_line_crossing p2 q2 p1 q1 = line_line_crossing p1 q1 p2 q2.
Proof. unfold line_line_crossing. apply andb_comm. Qed.

Lemma opposite_flip a b : opposite (flip a) (flip b) = opposite a b.
Proof. destruct a, b; reflexivity. Qed.
Lemma opposite_comm a b : opposite a b = opposite b a.
Proof. destruct a, b; reflexivity. Qed.

Lemma crossing_rev1 p1 q1 p2 q2 :
  line_line_crossing q1 p1 p2 q2 = line_line_crossing p1 q1 p2 q2.
Proof.
  unfold line_line_crossing. rewrite !(orientation_swap12 p1 q1), opposite_flip.
  f_equal. apply opposite_comm.
Qed.
Lemma crossing_rev2 p1 q1 p2 q2 :
  line_line_crossing p1 q1 q2 p2 = line_line_crossing p1 q1 p2 q2.
Proof. rewrite crossing_sym, crossing_rev1, crossing_sym. reflexivity. Qed.

Lemma intersection_of_crossing p1 q1 p2 q2 :
  line_line_crossing p1 q1 p2 q2 = true -> line_line_intersection p1 q1 p2 q2 = true.
Proof. unfold line_line_crossing, line_line_intersection. intros ->. reflexivity. Qed.

Lemma in_segment_iff p q r : in_segment p q r = true <->
  - tol26 < det p q r /\ det p q r < tol26 /\
  0 < vdot (vsub r p) (vsub q p) /\ vdot (vsub r p) (vsub q p) < vnorm2 (vsub q p).
Proof.
  unfold in_segment. destruct (orient_eqb (orientation p q r) CL) eqn:E; cbn [negb].
  - assert (Hc : orientation p q r = CL) by (destruct (orientation p q r); cbn in E; congruence).
    apply orientation_cl in Hc. rewrite andb_true_iff, !Qltb_true. tauto.
  - split; [congruence|]. intros (H1 & H2 & _).
    assert (Hc : orientation p q r = CL) by (apply orientation_cl; auto). rewrite Hc in E. discriminate.
Qed.

Lemma in_on_segment_iff p q r : in_on_segment p q r = true <->
  - tol26 < det p q r /\ det p q r < tol26 /\
  0 <= vdot (vsub r p) (vsub q p) /\ vdot (vsub r p) (vsub q p) <= vnorm2 (vsub q p).
Proof.
  unfold in_on_segment. destruct (orient_eqb (orientation p q r) CL) eqn:E; cbn [negb].
  - assert (Hc : orientation p q r = CL) by (destruct (orientation p q r); cbn in E; congruence).
    apply orientation_cl in Hc. rewrite andb_true_iff, !Qleb_true. tauto.
  - split; [congruence|]. intros (H1 & H2 & _).
    assert (Hc : orientation p q r = CL) by (apply orientation_cl; auto). rewrite Hc in E. discriminate.
Qed.

(* points of the segment are always recognised *)
Lemma in_on_segment_complete p q t : 0 <= t -> t <= 1 -> in_on_segment p q (on_seg p q t) = true.
Proof.
  intros H0 H1. apply in_on_segment_iff. pose proof tol_pos.
  assert (E : det p q (on_seg p q t) == 0) by (unfold det, on_seg; cbn [vx vy]; ring).
  rewrite E. split; [lra|]. split; [lra|].
  unfold vdot, vnorm2, vdot, vsub, on_seg. cbn [vx vy].
  set (a := vx q - vx p). set (b := vy q - vy p).
  assert (Hx : vx p + t * a - vx p == t * a) by ring.
  assert (Hy : vy p + t * b - vy p == t * b) by ring.
  rewrite Hx, Hy.
  assert (Hn : 0 <= a * a + b * b) by nra.
  assert (Ht : t * a * a + t * b * b == t * (a * a + b * b)) by ring.
  rewrite Ht. split; nra.
Qed.

Lemma in_segment_complete p q t : ~ veq p q -> 0 < t -> t < 1 -> in_segment p q (on_seg p q t) = true.
Proof.
  intros Hne H0 H1. apply in_segment_iff. pose proof tol_pos.
  assert (E : det p q (on_seg p q t) == 0) by (unfold det, on_seg; cbn [vx vy]; ring).
  rewrite E. split; [lra|]. split; [lra|].
  unfold vdot, vnorm2, vdot, vsub, on_seg. cbn [vx vy].
  set (a := vx q - vx p). set (b := vy q - vy p).
  assert (Hx : vx p + t * a - vx p == t * a) by ring.
  assert (Hy : vy p + t * b - vy p == t * b) by ring.
  rewrite Hx, Hy.
  assert (Hn : 0 < a * a + b * b).
  { destruct (Q_dec a 0) as [[Ha|Ha]|Ha]; [nra|nra|].
    destruct (Q_dec b 0) as [[Hb|Hb]|Hb]; [nra|nra|]. exfalso. apply Hne.
    unfold a, b in *. split; lra. }
  assert (Ht : t * a * a + t * b * b == t * (a * a + b * b)) by ring.
  rewrite Ht. split; nra.
Qed.

(* Two segments so small that all orientations are below the tolerance: a
   proper crossing is always detected. *)
Lemma intersection_small p1 q1 p2 q2 s t :
  seg_meet p1 q1 p2 q2 s t -> ~ det p1 q1 p2 == 0 ->
  orientation p1 q1 p2 = CL -> orientation p1 q1 q2 = CL ->
  orientation p2 q2 p1 = CL -> orientation p2 q2 q1 = CL ->
  line_line_intersection p1 q1 p2 q2 = true.
Proof.
  intros (Hs0 & Hs1 & Ht0 & Ht1 & Ex & Ey) Hnz O1 O2 O3 O4.
  unfold line_line_intersection. rewrite O1, O2, O3, O4. cbn [opposite orient_eqb andb orb].
  destruct (in_segment p1 q1 p2) eqn:E1; [reflexivity|].
  destruct (in_segment p1 q1 q2) eqn:E2; [reflexivity|].
  destruct (in_segment p2 q2 p1) eqn:E3; [reflexivity|].
  destruct (in_segment p2 q2 q1) eqn:E4; [reflexivity|].
  exfalso.
  apply orientation_cl in O1. apply orientation_cl in O2.
  apply orientation_cl in O3. apply orientation_cl in O4.
  assert (F : forall p q r, in_segment p q r = false -> - tol26 < det p q r /\ det p q r < tol26 ->
    vdot (vsub r p) (vsub q p) <= 0 \/ vnorm2 (vsub q p) <= vdot (vsub r p) (vsub q p)).
  { intros p q r E O. destruct (Qlt_le_dec 0 (vdot (vsub r p) (vsub q p))) as [G|G]; [|auto].
    destruct (Qlt_le_dec (vdot (vsub r p) (vsub q p)) (vnorm2 (vsub q p))) as [G2|G2]; [|auto].
    rewrite (proj2 (in_segment_iff p q r)) in E; [discriminate|]. tauto. }
  apply F in E1; [|tauto]. apply F in E2; [|tauto]. apply F in E3; [|tauto]. apply F in E4; [|tauto].
  unfold vdot, vnorm2, vdot, vsub, on_seg in *. cbn [vx vy] in *.
  unfold det in Hnz.
  (* directions a of the first, b of the second segment; m the meeting point relative to p1 *)
  set (ax := vx q1 - vx p1) in *. set (ay := vy q1 - vy p1) in *.
  set (bx := vx q2 - vx p2) in *. set (by_ := vy q2 - vy p2) in *.
  assert (X2 : vx p2 - vx p1 == s * ax - t * bx) by lra.
  assert (Y2 : vy p2 - vy p1 == s * ay - t * by_) by lra.
  assert (X2' : vx q2 - vx p1 == s * ax + (1 - t) * bx) by (unfold bx in *; lra).
  assert (Y2' : vy q2 - vy p1 == s * ay + (1 - t) * by_) by (unfold by_ in *; lra).
  assert (X1 : vx p1 - vx p2 == t * bx - s * ax) by lra.
  assert (Y1 : vy p1 - vy p2 == t * by_ - s * ay) by lra.
  assert (X1' : vx q1 - vx p2 == t * bx + (1 - s) * ax) by (unfold ax in *; lra).
  assert (Y1' : vy q1 - vy p2 == t * by_ + (1 - s) * ay) by (unfold ay in *; lra).
  rewrite X2, Y2 in E1, Hnz. rewrite X2', Y2' in E2. rewrite X1, Y1 in E3. rewrite X1', Y1' in E4.
  set (aa := ax * ax + ay * ay) in *. set (bb := bx * bx + by_ * by_) in *.
  set (ab := ax * bx + ay * by_).
  assert (E1' : s * aa - t * ab <= 0 \/ aa <= s * aa - t * ab)
    by (unfold aa, ab in *; destruct E1; [left|right]; lra).
  assert (E2' : s * aa + (1 - t) * ab <= 0 \/ aa <= s * aa + (1 - t) * ab)
    by (unfold aa, ab in *; destruct E2; [left|right]; lra).
  assert (E3' : t * bb - s * ab <= 0 \/ bb <= t * bb - s * ab)
    by (unfold bb, ab in *; destruct E3; [left|right]; lra).
  assert (E4' : t * bb + (1 - s) * ab <= 0 \/ bb <= t * bb + (1 - s) * ab)
    by (unfold bb, ab in *; destruct E4; [left|right]; lra).
  assert (Hcs : ab * ab < aa * bb).
  { assert (Hid : aa * bb - ab * ab == (ax * by_ - ay * bx) * (ax * by_ - ay * bx))
      by (unfold aa, bb, ab; ring).
    assert (Hc : ~ ax * by_ - ay * bx == 0).
    { intros Hc. apply Hnz. 
      transitivity ( - t * (ax * by_ - ay * bx)); [ring|]. rewrite Hc. ring. }
    set (c := ax * by_ - ay * bx) in *.
    assert (0 < c * c) by (clear - Hc; clearbody c; destruct (Q_dec c 0) as [[?|?]|?]; [nra|nra|tauto]).
    lra. }
  assert (Haa : 0 <= aa) by (pose proof (sq_nonneg ax); pose proof (sq_nonneg ay); unfold aa; lra).
  assert (Hbb : 0 <= bb) by (pose proof (sq_nonneg bx); pose proof (sq_nonneg by_); unfold bb; lra).
  clearbody aa bb ab.
  pose proof (sq_nonneg ab) as Hab.
  assert (Haa' : 0 < aa) by (clear - Haa Hbb Hcs Hab; nra).
  assert (Hbb' : 0 < bb) by (clear - Haa Hbb Hcs Hab; nra).
  clear - E1' E2' E3' E4' Hcs Haa' Hbb' Hs0 Hs1 Ht0 Ht1.
  (* |ab| >= aa and |ab| >= bb *)
  assert (G1 : aa <= ab \/ aa <= - ab).
  { destruct E1' as [A|A]; destruct E2' as [B|B].
    - exfalso. destruct (Qlt_le_dec 0 ab); nra.
    - left. destruct (Qlt_le_dec aa ab); nra.
    - right. destruct (Qlt_le_dec aa (-ab)); nra.
    - exfalso. destruct (Qlt_le_dec 0 ab); nra. }
  assert (G2 : bb <= ab \/ bb <= - ab).
  { destruct E3' as [A|A]; destruct E4' as [B|B].
    - exfalso. destruct (Qlt_le_dec 0 ab); nra.
    - left. destruct (Qlt_le_dec bb ab); nra.
    - right. destruct (Qlt_le_dec bb (-ab)); nra.
    - exfalso. destruct (Qlt_le_dec 0 ab); nra. }
  destruct G1, G2; nra.
Qed.

(* ---------------- distance ---------------- *)
Lemma clamp01_range x : 0 <= clamp01 x /\ clamp01 x <= 1.
Proof.
  unfold clamp01. destruct (Qltb x 0) eqn:E; qbool; [lra|].
  destruct (Qltb 1 x) eqn:E2; qbool; lra.
Qed.

Lemma norm2_pos a b : ~ (a == 0 /\ b == 0) -> 0 < a * a + b * b.
Proof.
  intros H. destruct (Q_dec a 0) as [[Ha|Ha]|Ha]; [nra|nra|].
  destruct (Q_dec b 0) as [[Hb|Hb]|Hb]; [nra|nra|]. exfalso. auto.
Qed.

Lemma distance_attained p e1 e2 : exists t, 0 <= t /\ t <= 1 /\
  distance_point_edge_sqr p e1 e2 = vnorm2 (vsub p (on_seg e1 e2 t)).
Proof.
  exists (clamp01 (vdot (vsub p e1) (vsub e2 e1) / vnorm2 (vsub e2 e1))).
  split; [apply clamp01_range|]. split; [apply clamp01_range|]. reflexivity.
Qed.

Lemma distance_minimal p e1 e2 s : ~ veq e1 e2 -> 0 <= s -> s <= 1 ->
  distance_point_edge_sqr p e1 e2 <= vnorm2 (vsub p (on_seg e1 e2 s)).
Proof.
  intros Hne H0 H1. unfold distance_point_edge_sqr, vnorm2, vdot, vsub, vadd, vscale, on_seg.
  cbn [vx vy].
  set (dx := vx e2 - vx e1). set (dy := vy e2 - vy e1).
  set (px := vx p - vx e1). set (py := vy p - vy e1).
  assert (Hn : 0 < dx * dx + dy * dy).
  { apply norm2_pos. intros [A B]. apply Hne. unfold dx, dy in *. split; lra. }
  set (n := dx * dx + dy * dy) in *. set (k := px * dx + py * dy).
  assert (D : forall u, (vx p - (vx e1 + u * dx)) * (vx p - (vx e1 + u * dx)) +
     (vy p - (vy e1 + u * dy)) * (vy p - (vy e1 + u * dy)) ==
     px * px + py * py - 2 * u * k + u * u * n).
  { intros u. unfold k, n, px, py. ring. }
  rewrite !D. set (t0 := k / n).
  assert (Hk : k == t0 * n) by (unfold t0; field; lra).
  rewrite Hk. clearbody k n t0. unfold clamp01.
  assert (Hge : forall a b c d e, 0 <= d -> a - b == c * d * e -> 0 <= c -> 0 <= e -> b <= a).
  { intros a b c d e Hd Hab Hc He.
    assert (0 <= c * d * e) by (apply Qmult_le_0_compat; [apply Qmult_le_0_compat|]; assumption). lra. }
  assert (Hn0 : 0 <= n) by lra.
  destruct (Qltb t0 0) eqn:E; qbool.
  { apply (Hge _ _ s n (s - 2 * t0)); [exact Hn0|ring|lra|lra]. }
  destruct (Qltb 1 t0) eqn:E2; qbool.
  { apply (Hge _ _ (1 - s) n (2 * t0 - 1 - s)); [exact Hn0|ring|lra|lra]. }
  assert (Hsq : 0 <= (s - t0) * (s - t0)) by apply sq_nonneg.
  apply (Hge _ _ 1 n ((s - t0) * (s - t0))); [exact Hn0|ring|lra|exact Hsq].
Qed.

Lemma distance_rev p e1 e2 : ~ veq e1 e2 ->
  distance_point_edge_sqr p e2 e1 == distance_point_edge_sqr p e1 e2.
Proof.
  intros Hne. assert (Hne' : ~ veq e2 e1) by (intros [A B]; apply Hne; split; lra).
  assert (F : forall a b, ~ veq a b -> distance_point_edge_sqr p a b <= distance_point_edge_sqr p b a).
  { intros a b Hab. destruct (distance_attained p b a) as (t & T0 & T1 & ->).
    eapply Qle_trans; [apply (distance_minimal p a b (1 - t)); [exact Hab|lra|lra]|].
    unfold vnorm2, vdot, vsub, on_seg. cbn [vx vy].
    assert (Ex : vx p - (vx a + (1 - t) * (vx b - vx a)) == vx p - (vx b + t * (vx a - vx b))) by ring.
    assert (Ey : vy p - (vy a + (1 - t) * (vy b - vy a)) == vy p - (vy b + t * (vy a - vy b))) by ring.
    rewrite Ex, Ey. apply Qle_refl. }
  apply Qle_antisym; apply F; assumption.
Qed.

(* ---------------- triangles and quads ---------------- *)
Lemma in_triangle_sound v p q r : in_triangle v p q r = true ->
  0 < det p q r /\
  exists a b c, 0 < a /\ 0 < b /\ 0 < c /\ a + b + c == 1 /\ veq v (combo a b c p q r).
Proof.
  unfold in_triangle. rewrite !andb_true_iff, !is_left_iff. pose proof tol_pos.
  intros [[H1 H2] H3].
  assert (S : det p q v + det q r v + det r p v == det p q r) by (unfold det; ring).
  assert (Hp : 0 < det p q r) by lra.
  split; [exact Hp|].
  exists (det q r v / det p q r), (det r p v / det p q r), (det p q v / det p q r).
  split; [apply Qlt_shift_div_l; lra|]. split; [apply Qlt_shift_div_l; lra|].
  split; [apply Qlt_shift_div_l; lra|].
  split.
  - rewrite <- S. field. rewrite S. lra.
  - unfold combo. split; cbn [vx vy]; unfold det in *; field; lra.
Qed.

Lemma in_on_triangle_complete a b c p q r : 0 <= a -> 0 <= b -> 0 <= c -> a + b + c == 1 ->
  0 <= det p q r -> in_on_triangle (combo a b c p q r) p q r = true.
Proof.
  intros Ha Hb Hc Hs Hd. unfold in_on_triangle. rewrite !andb_true_iff, !is_lefton_iff.
  pose proof tol_pos.
  assert (Ea : a == 1 - b - c) by lra.
  assert (E1 : det p q (combo a b c p q r) == c * det p q r)
    by (unfold det, combo; cbn [vx vy]; rewrite Ea; ring).
  assert (E2 : det q r (combo a b c p q r) == a * det p q r)
    by (unfold det, combo; cbn [vx vy]; rewrite Ea; ring).
  assert (E3 : det r p (combo a b c p q r) == b * det p q r)
    by (unfold det, combo; cbn [vx vy]; rewrite Ea; ring).
  rewrite E1, E2, E3. split; [split|]; nra.
Qed.

Lemma in_triangle_complete a b c p q r : a + b + c == 1 ->
  tol26 <= a * det p q r -> tol26 <= b * det p q r -> tol26 <= c * det p q r ->
  in_triangle (combo a b c p q r) p q r = true.
Proof.
  intros Hs Ha Hb Hc. unfold in_triangle. rewrite !andb_true_iff, !is_left_iff.
  assert (Ea : a == 1 - b - c) by lra.
  assert (E1 : det p q (combo a b c p q r) == c * det p q r)
    by (unfold det, combo; cbn [vx vy]; rewrite Ea; ring).
  assert (E2 : det q r (combo a b c p q r) == a * det p q r)
    by (unfold det, combo; cbn [vx vy]; rewrite Ea; ring).
  assert (E3 : det r p (combo a b c p q r) == b * det p q r)
    by (unfold det, combo; cbn [vx vy]; rewrite Ea; ring).
  rewrite E1, E2, E3. auto.
Qed.

Lemma in_triangle_rot v p q r : in_triangle v q r p = in_triangle v p q r.
Proof. unfold in_triangle. destruct (is_left p q v), (is_left q r v), (is_left r p v); reflexivity. Qed.
Lemma in_on_triangle_rot v p q r : in_on_triangle v q r p = in_on_triangle v p q r.
Proof. unfold in_on_triangle. destruct (is_lefton p q v), (is_lefton q r v), (is_lefton r p v); reflexivity. Qed.
Lemma in_quad_rot v p q r s : in_quad v q r s p = in_quad v p q r s.
Proof. unfold in_quad. destruct (is_left p q v), (is_left q r v), (is_left r s v), (is_left s p v); reflexivity. Qed.

(* in_quad: the quad is positively oriented and the point lies in one of the two
   triangles obtained by cutting along the diagonal p-r. *)
Lemma combo_of_dets v p q r : 0 < det p q r ->
  veq v (combo (det q r v / det p q r) (det r p v / det p q r) (det p q v / det p q r) p q r).
Proof. intros H. unfold combo. split; cbn [vx vy]; unfold det in *; field; lra. Qed.

Lemma bary_exists v p q r : 0 < det p q v -> 0 < det q r v -> 0 <= det r p v ->
  exists a b c, 0 < a /\ 0 <= b /\ 0 < c /\ a + b + c == 1 /\ veq v (combo a b c p q r).
Proof.
  intros H1 H2 H3.
  assert (S : det p q v + det q r v + det r p v == det p q r) by (unfold det; ring).
  assert (Hp : 0 < det p q r) by lra.
  exists (det q r v / det p q r), (det r p v / det p q r), (det p q v / det p q r).
  split; [apply Qlt_shift_div_l; lra|]. split; [apply Qle_shift_div_l; lra|].
  split; [apply Qlt_shift_div_l; lra|].
  split; [rewrite <- S; field; rewrite S; lra|]. apply combo_of_dets. exact Hp.
Qed.

Lemma in_quad_sound v p q r s : in_quad v p q r s = true ->
  0 < det p q r + det p r s /\
  exists a b c, 0 < a /\ 0 <= b /\ 0 < c /\ a + b + c == 1 /\
    (veq v (combo a b c p q r) \/ veq v (combo a b c r s p)).
Proof.
  unfold in_quad. rewrite !andb_true_iff, !is_left_iff. pose proof tol_pos.
  intros [[[H1 H2] H3] H4].
  assert (S : det p q v + det q r v + det r s v + det s p v == det p q r + det p r s)
    by (unfold det; ring).
  split; [lra|].
  destruct (Qlt_le_dec (det r p v) 0) as [D|D].
  - assert (D' : det p r v == - det r p v) by (unfold det; ring).
    destruct (bary_exists v r s p) as (a & b & c & Ha & Hb & Hc & Hs & Hv); try lra.
    exists a, b, c. auto 8.
  - destruct (bary_exists v p q r) as (a & b & c & Ha & Hb & Hc & Hs & Hv); try lra.
    exists a, b, c. auto 8.
Qed.

(* a strictly convex positively oriented quad contains (closed test) every
   convex combination of its corners *)
Lemma in_on_quad_complete a b c d p q r s : 0 <= a -> 0 <= b -> 0 <= c -> 0 <= d -> a + b + c + d == 1 ->
  0 <= det p q r -> 0 <= det q r s -> 0 <= det r s p -> 0 <= det s p q ->
  in_on_quad (V2 (a * vx p + b * vx q + c * vx r + d * vx s)
                 (a * vy p + b * vy q + c * vy r + d * vy s)) p q r s = true.
Proof.
  intros Ha Hb Hc Hd Hs K1 K2 K3 K4.
  unfold in_on_quad. rewrite !andb_true_iff, !is_lefton_iff. pose proof tol_pos.
  set (v := V2 _ _).
  assert (Ea : a == 1 - b - c - d) by lra.
  assert (E1 : det p q v == c * det p q r + d * det s p q)
    by (unfold det, v; cbn [vx vy]; rewrite Ea; ring).
  assert (E2 : det q r v == d * det q r s + a * det p q r)
    by (unfold det, v; cbn [vx vy]; rewrite Ea; ring).
  assert (E3 : det r s v == a * det r s p + b * det q r s)
    by (unfold det, v; cbn [vx vy]; rewrite Ea; ring).
  assert (E4 : det s p v == b * det s p q + c * det r s p)
    by (unfold det, v; cbn [vx vy]; rewrite Ea; ring).
  rewrite E1, E2, E3, E4. repeat split; nra.
Qed.

(* ---------------- polygon area ---------------- *)
Lemma polygon_area_loop l : polygon_area l == loop_w shoelace l * (1 # 2).
Proof.
  unfold polygon_area. cbv zeta. rewrite (loop_indexed shoelace (V2 0 0) l). unfold Qdiv.
  reflexivity.
Qed.

Lemma shoelace_antisym : antisym shoelace.
Proof. intros a b. unfold shoelace. ring. Qed.

(* shoelace = cross product + exact form: the polygon area is the usual one *)
Lemma loop_shoelace_cross l : loop_w shoelace l == loop_w vcross l.
Proof.
  rewrite (loop_ext shoelace (fun a b => vcross a b + (- vx b * vy b - - vx a * vy a))).
  - rewrite loop_plus.
    rewrite (loop_exact (fun a b : vec2 => - vx b * vy b - - vx a * vy a)
      (fun a => - vx a * vy a)); [ring|intros; ring].
  - intros x y. unfold shoelace, vcross. ring.
Qed.

Lemma polygon_rot l1 l2 : polygon_area (l1 ++ l2) == polygon_area (l2 ++ l1).
Proof. rewrite !polygon_area_loop, loop_rot_app. reflexivity. Qed.

Lemma polygon_rev l : polygon_area (rev l) == - polygon_area l.
Proof. rewrite !polygon_area_loop, loop_rev by apply shoelace_antisym. ring. Qed.

Lemma polygon_cut a l1 b l2 :
  polygon_area (a :: l1 ++ b :: l2) == polygon_area (a :: l1 ++ [b]) + polygon_area (b :: l2 ++ [a]).
Proof. rewrite !polygon_area_loop, loop_cut by apply shoelace_antisym. ring. Qed.

Lemma polygon_shift d l : polygon_area (map (shift d) l) == polygon_area l.
Proof.
  rewrite !polygon_area_loop, loop_map.
  rewrite (loop_ext _ (fun a b => shoelace a b + (- 2 * vy d * vx b - - 2 * vy d * vx a))).
  - rewrite loop_plus.
    rewrite (loop_exact (fun a b : vec2 => - 2 * vy d * vx b - - 2 * vy d * vx a)
      (fun a => - 2 * vy d * vx a)); [ring|intros; ring].
  - intros x y. unfold shoelace, shift. cbn [vx vy]. ring.
Qed.

Lemma polygon_triangle p q r : polygon_area [p; q; r] == det p q r * (1 # 2).
Proof. rewrite polygon_area_loop. cbn [loop_w path_w app]. unfold shoelace, det. ring. Qed.

Lemma polygon_quad p q r s : polygon_area [p; q; r; s] == (det p q r + det p r s) * (1 # 2).
Proof. rewrite polygon_area_loop. cbn [loop_w path_w app]. unfold shoelace, det. ring. Qed.

(* inserting a point on an edge does not change the area *)
Lemma polygon_insert_on_edge a b l t :
  polygon_area (a :: on_seg a b t :: b :: l) == polygon_area (a :: b :: l).
Proof.
  rewrite !polygon_area_loop. cbn [loop_w path_w app]. unfold shoelace at 1 2 4.
  unfold on_seg. cbn [vx vy].
  setoid_replace ((vy a + vy b) * (vx a - vx b)) with
   ((vy a + (vy a + t * (vy b - vy a))) * (vx a - (vx a + t * (vx b - vx a))) +
    (vy a + t * (vy b - vy a) + vy b) * (vx a + t * (vx b - vx a) - vx b)) using relation Qeq; [ring|ring].
Qed.

(* ---------------- refutations ---------------- *)
(* the segments properly cross, but the intersection test misses it: the
   tolerance is absolute and one end point is only just off the line *)
Definition miss_p1 := V2 0 0.
Definition miss_q1 := V2 1 0.
Definition miss_p2 := V2 (-1) (-(1 # 134217728)).
Definition miss_q2 := V2 (2 * 1099511627776 - 1) (1099511627776 * (1 # 134217728)).

Lemma miss_meet : exists s t, seg_meet miss_p1 miss_q1 miss_p2 miss_q2 s t.
Proof.
  destruct (proper_crossing_meet miss_p1 miss_q1 miss_p2 miss_q2) as (s & t & H & _).
  - reflexivity.
  - reflexivity.
  - exists s, t. exact H.
Qed.

(* ---------------- tests between elements ---------------- *)
Lemma intersection_iff p1 q1 p2 q2 : line_line_intersection p1 q1 p2 q2 = true <->
  line_line_crossing p1 q1 p2 q2 = true \/ near_open_seg p1 q1 p2 \/ near_open_seg p1 q1 q2 \/
  near_open_seg p2 q2 p1 \/ near_open_seg p2 q2 q1.
Proof.
  assert (N : forall p q r, orient_eqb (orientation p q r) CL && in_segment p q r = true <-> near_open_seg p q r).
  { intros p q r. unfold near_open_seg. rewrite <- in_segment_iff. unfold in_segment.
    destruct (orient_eqb (orientation p q r) CL); cbn [negb andb]; tauto. }
  unfold line_line_intersection, line_line_crossing. rewrite <- !N.
  destruct (opposite (orientation p1 q1 p2) (orientation p1 q1 q2) && opposite (orientation p2 q2 p1) (orientation p2 q2 q1)); [tauto|].
  repeat match goal with |- context [if ?b then true else _] => destruct b; [tauto|] end.
  intuition congruence.
Qed.

Lemma line_tri_iff a b p q r : line_tri_intersection a b p q r = true <->
  exists e, In e (sides3 p q r) /\ line_line_intersection a b (fst e) (snd e) = true.
Proof.
  unfold line_tri_intersection, sides3. rewrite !orb_true_iff. split.
  - intros [[H|H]|H]; [exists (p, q)|exists (q, r)|exists (r, p)]; cbn; tauto.
  - intros [e [[<-|[<-|[<-|[]]]] H]]; cbn in H; tauto.
Qed.
Lemma line_quad_iff a b p q r s : line_quad_intersection a b p q r s = true <->
  exists e, In e (sides4 p q r s) /\ line_line_intersection a b (fst e) (snd e) = true.
Proof.
  unfold line_quad_intersection, sides4. rewrite !orb_true_iff. split.
  - intros [[[H|H]|H]|H]; [exists (p, q)|exists (q, r)|exists (r, s)|exists (s, p)]; cbn; tauto.
  - intros [e [[<-|[<-|[<-|[<-|[]]]]] H]]; cbn in H; tauto.
Qed.
Lemma tri_tri_iff p1 q1 r1 p2 q2 r2 : tri_tri_intersection p1 q1 r1 p2 q2 r2 = true <->
  exists e f, In e (sides3 p1 q1 r1) /\ In f (sides3 p2 q2 r2) /\
    line_line_intersection (fst e) (snd e) (fst f) (snd f) = true.
Proof.
  unfold tri_tri_intersection. rewrite !orb_true_iff, !line_tri_iff. split.
  - intros [[[f [F H]]|[f [F H]]]|[f [F H]]]; [exists (p1, q1), f|exists (q1, r1), f|exists (r1, p1), f];
      (split; [cbn; tauto|split; [exact F|exact H]]).
  - intros [e [f [[<-|[<-|[<-|[]]]] [F H]]]]; cbn [fst snd] in H;
      [left; left|left; right|right]; exists f; auto.
Qed.
Lemma quad_quad_iff p1 q1 r1 s1 p2 q2 r2 s2 : quad_quad_intersection p1 q1 r1 s1 p2 q2 r2 s2 = true <->
  exists e f, In e (sides4 p1 q1 r1 s1) /\ In f (sides4 p2 q2 r2 s2) /\
    line_line_intersection (fst e) (snd e) (fst f) (snd f) = true.
Proof.
  unfold quad_quad_intersection. rewrite !orb_true_iff, !line_quad_iff. split.
  - intros [[[[f [F H]]|[f [F H]]]|[f [F H]]]|[f [F H]]];
      [exists (p1, q1), f|exists (q1, r1), f|exists (r1, s1), f|exists (s1, p1), f];
      (split; [cbn; tauto|split; [exact F|exact H]]).
  - intros [e [f [[<-|[<-|[<-|[<-|[]]]]] [F H]]]]; cbn [fst snd] in H;
      [left; left; left|left; left; right|left; right|right]; exists f; auto.
Qed.
Lemma tri_quad_iff p1 q1 r1 p2 q2 r2 s2 : tri_quad_intersection p1 q1 r1 p2 q2 r2 s2 = true <->
  exists e f, In e (sides3 p1 q1 r1) /\ In f (sides4 p2 q2 r2 s2) /\
    line_line_intersection (fst e) (snd e) (fst f) (snd f) = true.
Proof.
  unfold tri_quad_intersection. rewrite !orb_true_iff, !line_quad_iff. split.
  - intros [[[f [F H]]|[f [F H]]]|[f [F H]]]; [exists (p1, q1), f|exists (q1, r1), f|exists (r1, p1), f];
      (split; [cbn; tauto|split; [exact F|exact H]]).
  - intros [e [f [[<-|[<-|[<-|[]]]] [F H]]]]; cbn [fst snd] in H;
      [left; left|left; right|right]; exists f; auto.
Qed.

Lemma segment_overlap_iff v1 w1 v2 w2 : segment_overlap v1 w1 v2 w2 = true <->
  (veq v1 v2 /\ veq w1 w2) \/ (veq v1 w2 /\ veq w1 v2).
Proof.
  unfold segment_overlap. rewrite <- !veqb_true, <- !andb_true_iff.
  destruct (veqb v1 v2 && veqb w1 w2); [tauto|]. destruct (veqb v1 w2 && veqb w1 v2); intuition congruence.
Qed.
