From Coq Require Import Lqa Lia Qfield.
From Verif Require Import Base GeomModel GeomSpec GeomProofs FacetModel.
Open Scope Q_scope.

Lemma tri_area_det a b c : tri_area a b c == det a b c * (1 # 2).
Proof. unfold tri_area, vcross, vsub, det. cbn [vx vy]. ring. Qed.
Lemma quad_area_det a b c d : quad_area a b c d == (det a b c + det a c d) * (1 # 2).
Proof. unfold quad_area, vcross, vsub, det. cbn [vx vy]. ring. Qed.

Lemma tri_area_rot a b c : tri_area b c a == tri_area a b c.
Proof. rewrite !tri_area_det. unfold det. ring. Qed.
Lemma tri_area_flip a b c : tri_area a c b == - tri_area a b c.
Proof. rewrite !tri_area_det. unfold det. ring. Qed.
Lemma quad_area_diag1 a b c d : quad_area a b c d == tri_area a b c + tri_area a c d.
Proof. rewrite quad_area_det, !tri_area_det. ring. Qed.
Lemma quad_area_diag2 a b c d : quad_area a b c d == tri_area b c d + tri_area b d a.
Proof. rewrite quad_area_det, !tri_area_det. unfold det. ring. Qed.
Lemma tri_area_polygon a b c : tri_area a b c == polygon_area [a; b; c].
Proof. rewrite polygon_triangle. apply tri_area_det. Qed.
Lemma quad_area_polygon a b c d : quad_area a b c d == polygon_area [a; b; c; d].
Proof. rewrite polygon_quad. apply quad_area_det. Qed.

Definition d2 (a b : vec2) : Q := (vx a - vx b) * (vx a - vx b) + (vy a - vy b) * (vy a - vy b).

Lemma circumcenter_equidistant a b c : ~ tri_area a b c == 0 ->
  d2 (tri_circumcenter a b c) a == d2 (tri_circumcenter a b c) b /\
  d2 (tri_circumcenter a b c) a == d2 (tri_circumcenter a b c) c.
Proof.
  intros H.
  assert (Hd : ~ vcross (vsub b a) (vsub c a) == 0).
  { intros E. apply H. unfold tri_area. rewrite E. reflexivity. }
  unfold d2, tri_circumcenter, vcross, vsub in *. cbn [vx vy] in *. cbv zeta.
  split; field; lra.
Qed.

Lemma circumcenter_unique a b c u : ~ tri_area a b c == 0 ->
  d2 u a == d2 u b -> d2 u a == d2 u c -> veq u (tri_circumcenter a b c).
Proof.
  intros H Hb Hc.
  assert (Hd : ~ vcross (vsub b a) (vsub c a) == 0).
  { intros E. apply H. unfold tri_area. rewrite E. reflexivity. }
  unfold d2, tri_circumcenter, vcross, vsub in *. cbn [vx vy] in *. cbv zeta.
  set (bx := vx b - vx a) in *. set (by_ := vy b - vy a) in *.
  set (cx := vx c - vx a) in *. set (cy := vy c - vy a) in *.
  assert (Eb : 2 * ((vx u - vx a) * bx + (vy u - vy a) * by_) == bx * bx + by_ * by_).
  { unfold bx, by_. ring_simplify. ring_simplify in Hb. lra. }
  assert (Ec : 2 * ((vx u - vx a) * cx + (vy u - vy a) * cy) == cx * cx + cy * cy).
  { unfold cx, cy. ring_simplify. ring_simplify in Hc. lra. }
  set (X := vx u - vx a) in *. set (Y := vy u - vy a) in *.
  assert (HX : vx u == X + vx a) by (unfold X; ring).
  assert (HY : vy u == Y + vy a) by (unfold Y; ring).
  set (D := bx * cy - by_ * cx) in *.
  split; cbn [vx vy].
  - rewrite HX. apply Qplus_comp; [|reflexivity]. rewrite <- Eb, <- Ec.
    apply Qmult_inj_r with (z := 2 * D); [intros E; apply Hd; lra|].
    unfold D in *. field. lra.
  - rewrite HY. apply Qplus_comp; [|reflexivity]. rewrite <- Eb, <- Ec.
    apply Qmult_inj_r with (z := 2 * D); [intros E; apply Hd; lra|].
    unfold D in *. field. lra.
Qed.

(* ---- shape factor ---- *)
Lemma norm_factor_sq : norm_factor * norm_factor <= 12.
Proof. unfold norm_factor. apply Qle_bool_iff. reflexivity. Qed.

Lemma abs_le_of_sq x y : 0 <= y -> x * x <= y * y -> - y <= x /\ x <= y.
Proof. intros. split; nra. Qed.

(* Weitzenboeck's inequality, squared form: 48 area^2 <= (sum of squared lengths)^2 *)
Lemma weitzenboeck a b c :
  48 * (tri_area a b c * tri_area a b c) <=
  (edge_len2 a b + edge_len2 b c + edge_len2 c a) * (edge_len2 a b + edge_len2 b c + edge_len2 c a).
Proof.
  unfold tri_area, edge_len2, vnorm2, vdot, vcross, vsub. cbn [vx vy].
  set (ux := vx b - vx a). set (uy := vy b - vy a).
  set (wx := vx c - vx a). set (wy := vy c - vy a).
  assert (E1 : vx c - vx b == wx - ux) by (unfold wx, ux; ring).
  assert (E2 : vy c - vy b == wy - uy) by (unfold wy, uy; ring).
  assert (E3 : vx a - vx c == - wx) by (unfold wx; ring).
  assert (E4 : vy a - vy c == - wy) by (unfold wy; ring).
  rewrite E1, E2, E3, E4. clearbody ux uy wx wy. clear.
  (* with p = |u|^2, q = |w|^2, r = u.w, c = cross: c^2 = pq - r^2,
     S = 2(p + q - r); S^2 - 12 c^2 = 4[(p+q-r)^2 - 3pq + 3r^2]
       = 4[(p-q)^2 + ... ] *)
  pose (p := ux * ux + uy * uy). pose (q := wx * wx + wy * wy). pose (r := ux * wx + uy * wy).
  assert (HS : ux * ux + uy * uy + ((wx - ux) * (wx - ux) + (wy - uy) * (wy - uy)) +
     (- wx * - wx + - wy * - wy) == 2 * (p + q - r)) by (unfold p, q, r; ring).
  rewrite HS.
  assert (HC : (ux * wy - uy * wx) * (ux * wy - uy * wx) == p * q - r * r) by (unfold p, q, r; ring).
  assert (HL : 48 * ((1 # 2) * (ux * wy - uy * wx) * ((1 # 2) * (ux * wy - uy * wx))) ==
     12 * (p * q - r * r)) by (rewrite <- HC; ring).
  rewrite HL. clearbody p q r. clear.
  assert (H : 2 * (p + q - r) * (2 * (p + q - r)) - 12 * (p * q - r * r) ==
     3 * ((p - q) * (p - q)) + (p + q - 4 * r) * (p + q - 4 * r)) by ring.
  pose proof (sq_nonneg (p - q)). pose proof (sq_nonneg (p + q - 4 * r)). lra.
Qed.

Lemma edge_len2_nonneg a b : 0 <= edge_len2 a b.
Proof.
  unfold edge_len2, vnorm2, vdot.
  pose proof (sq_nonneg (vx (vsub b a))). pose proof (sq_nonneg (vy (vsub b a))). lra.
Qed.

(* The shape factor never exceeds 1/2: the documented limit 1 for equilateral
   triangles is off by a factor of two. *)
Lemma tri_shape_range a b c : - (1 # 2) <= tri_shape_factor a b c /\ tri_shape_factor a b c <= 1 # 2.
Proof.
  unfold tri_shape_factor. cbv zeta.
  set (s := edge_len2 a b + edge_len2 b c + edge_len2 c a).
  destruct (Qltb 0 s) eqn:E; qbool; [|lra].
  set (A := tri_area a b c).
  assert (W : 48 * (A * A) <= s * s) by apply weitzenboeck.
  assert (N : norm_factor * norm_factor <= 12) by apply norm_factor_sq.
  assert (NA : (norm_factor * A) * (norm_factor * A) <= ((1 # 2) * s) * ((1 # 2) * s)).
  { pose proof (sq_nonneg A). set (n := norm_factor) in *. clearbody n.
    assert (n * A * (n * A) == (n * n) * (A * A)) by ring.
    assert ((n * n) * (A * A) <= 12 * (A * A)) by nra. lra. }
  assert (S0 : 0 <= (1 # 2) * s) by lra.
  destruct (abs_le_of_sq _ _ S0 NA) as [L U].
  split.
  - apply Qle_shift_div_l; lra.
  - apply Qle_shift_div_r; lra.
Qed.

(* ... and the sign of the shape factor is the orientation *)
Lemma tri_shape_sign a b c : 0 < tri_shape_factor a b c <-> 0 < tri_area a b c.
Proof.
  unfold tri_shape_factor. cbv zeta.
  set (s := edge_len2 a b + edge_len2 b c + edge_len2 c a).
  assert (W : 48 * (tri_area a b c * tri_area a b c) <= s * s) by apply weitzenboeck.
  assert (Hn : 0 < norm_factor) by reflexivity.
  destruct (Qltb 0 s) eqn:E; qbool.
  - split; intros H.
    + destruct (Qlt_le_dec 0 (tri_area a b c)) as [G|G]; [exact G|exfalso].
      assert (norm_factor * tri_area a b c / s <= 0).
      { apply Qle_shift_div_r; [exact E|]. nra. } lra.
    + apply Qlt_shift_div_l; [exact E|]. nra.
  - split; intros H; [lra|]. exfalso.
    assert (0 <= s) by (unfold s; pose proof (edge_len2_nonneg a b); pose proof (edge_len2_nonneg b c);
      pose proof (edge_len2_nonneg c a); lra).
    assert (s == 0) by lra. rewrite H1 in W. nra.
Qed.

(* quads: 4 area <= sum of squared side lengths *)
Lemma quad_isoper a b c d :
  - (edge_len2 a b + edge_len2 b c + edge_len2 c d + edge_len2 d a) <= 4 * quad_area a b c d /\
  4 * quad_area a b c d <= edge_len2 a b + edge_len2 b c + edge_len2 c d + edge_len2 d a.
Proof.
  pose (X1 := vx c - vx a). pose (Y1 := vy c - vy a).
  pose (X2 := vx d - vx b). pose (Y2 := vy d - vy b).
  pose (mx := vx a + vx c - vx b - vx d). pose (my := vy a + vy c - vy b - vy d).
  assert (HS : edge_len2 a b + edge_len2 b c + edge_len2 c d + edge_len2 d a ==
    X1 * X1 + Y1 * Y1 + (X2 * X2 + Y2 * Y2) + (mx * mx + my * my)).
  { unfold X1, Y1, X2, Y2, mx, my, edge_len2, vnorm2, vdot, vsub. cbn [vx vy]. ring. }
  assert (HA : 4 * quad_area a b c d == 2 * (X1 * Y2 - Y1 * X2)).
  { unfold X1, Y1, X2, Y2, quad_area, vcross, vsub. cbn [vx vy]. ring. }
  rewrite HS, HA. clearbody X1 Y1 X2 Y2 mx my.
  pose proof (sq_nonneg (X1 - Y2)). pose proof (sq_nonneg (Y1 + X2)).
  pose proof (sq_nonneg (X1 + Y2)). pose proof (sq_nonneg (Y1 - X2)).
  pose proof (sq_nonneg mx). pose proof (sq_nonneg my).
  split; lra.
Qed.

Lemma quad_shape_range a b c d :
  - (norm_factor / 4) <= quad_shape_factor a b c d /\ quad_shape_factor a b c d <= norm_factor / 4.
Proof.
  unfold quad_shape_factor. cbv zeta.
  destruct (quad_isoper a b c d) as [L U].
  set (s := edge_len2 a b + edge_len2 b c + edge_len2 c d + edge_len2 d a) in *.
  assert (Hn : 0 < norm_factor) by reflexivity.
  assert (E4 : norm_factor / 4 == norm_factor * (1 # 4)) by reflexivity. rewrite E4.
  set (n := norm_factor) in *. clearbody n.
  destruct (Qltb 0 s) eqn:E; qbool; [|split; nra].
  split.
  - apply Qle_shift_div_l; [exact E|]. nra.
  - apply Qle_shift_div_r; [exact E|]. nra.
Qed.

(* ---- quality ---- *)
Lemma quality_factor_range l h : 0 < l -> 0 < h ->
  0 < quality_factor l h /\ quality_factor l h <= 1 /\ (quality_factor l h == 1 <-> l == h).
Proof.
  intros Hl Hh. unfold quality_factor, Qminb.
  assert (P1 : 0 < l / h) by (apply Qlt_shift_div_l; lra).
  assert (P2 : 0 < h / l) by (apply Qlt_shift_div_l; lra).
  assert (M : (l / h) * (h / l) == 1) by (field; split; lra).
  assert (I1 : l / h == 1 <-> l == h).
  { split; intros H; [|rewrite H; field; lra]. 
    assert (E : l == (l / h) * h) by (field; lra). rewrite H in E. lra. }
  assert (I2 : h / l == 1 <-> l == h).
  { split; intros H; [|rewrite H; field; lra]. 
    assert (E : h == (h / l) * l) by (field; lra). rewrite H in E. lra. }
  set (x := l / h) in *. set (y := h / l) in *. clearbody x y.
  destruct (Qltb x y) eqn:E; qbool; (split; [lra|]); (split; [nra|assumption]).
Qed.

Lemma mult_le_1 a b : 0 <= a -> 0 < b -> b <= 1 -> 0 <= a * b /\ a * b <= a.
Proof. intros. split; nra. Qed.

Lemma tri_quality_range l1 l2 l3 sf h : 0 < l1 -> 0 < l2 -> 0 < l3 -> 0 < h -> 0 <= sf ->
  0 <= tri_quality l1 l2 l3 sf h /\ tri_quality l1 l2 l3 sf h <= sf /\
  (l1 == h -> l2 == h -> l3 == h -> tri_quality l1 l2 l3 sf h == sf) /\
  (0 < sf -> tri_quality l1 l2 l3 sf h == sf -> l1 == h /\ l2 == h /\ l3 == h).
Proof.
  intros H1 H2 H3 Hh Hs. unfold tri_quality.
  destruct (quality_factor_range l1 h) as (A1 & B1 & C1); try assumption.
  destruct (quality_factor_range l2 h) as (A2 & B2 & C2); try assumption.
  destruct (quality_factor_range l3 h) as (A3 & B3 & C3); try assumption.
  set (x := quality_factor l1 h) in *. set (y := quality_factor l2 h) in *. set (z := quality_factor l3 h) in *.
  destruct (mult_le_1 sf x Hs A1 B1) as [D1 D2].
  destruct (mult_le_1 (sf * x) y D1 A2 B2) as [E1 E2].
  destruct (mult_le_1 (sf * x * y) z E1 A3 B3) as [F1 F2].
  split; [exact F1|]. split; [lra|]. split.
  - intros I1 I2 I3. apply C1 in I1. apply C2 in I2. apply C3 in I3. rewrite I1, I2, I3. ring.
  - intros Sp E. clearbody x y z.
    assert (x == 1).
    { destruct (Qlt_le_dec x 1) as [G|G]; [exfalso|lra]. assert (sf * x < sf) by nra. lra. }
    assert (G1 : sf * x == sf) by (rewrite H; ring).
    assert (y == 1).
    { destruct (Qlt_le_dec y 1) as [G|G]; [exfalso|lra].
      assert (sf * x * y < sf * x) by nra. lra. }
    assert (G2 : sf * x * y == sf) by (rewrite H, H0; ring).
    assert (z == 1).
    { destruct (Qlt_le_dec z 1) as [G|G]; [exfalso|lra].
      assert (sf * x * y * z < sf * x * y) by nra. lra. }
    rewrite <- C1, <- C2, <- C3. auto.
Qed.

(* the best triangle has quality at most 1/2 *)
Lemma tri_valid_iff a b c : tri_valid a b c = true <-> 0 < tri_area a b c.
Proof.
  unfold tri_valid. rewrite andb_true_iff, !negb_true_iff, !orb_false_iff.
  split.
  - intros [H _]. qbool. lra.
  - intros H. split; [destruct (Qleb (tri_area a b c) 0) eqn:E; qbool; [lra|reflexivity]|].
    assert (K : forall x y, (~ veq x y) -> Qleb (edge_len2 x y) 0 = false).
    { intros x y Hne. destruct (Qleb (edge_len2 x y) 0) eqn:E; [|reflexivity]. qbool. exfalso.
      apply Hne. unfold edge_len2, vnorm2, vdot, vsub in E. cbn [vx vy] in E.
      assert (P : ~ 0 < (vx y - vx x) * (vx y - vx x) + (vy y - vy x) * (vy y - vy x)) by lra.
      destruct (Qeq_dec (vx y - vx x) 0) as [Ex|Ex]; destruct (Qeq_dec (vy y - vy x) 0) as [Ey|Ey];
        try (exfalso; apply P; apply norm2_pos; tauto). split; lra. }
    rewrite tri_area_det in H.
    split; [split|]; apply K; intros [X Y]; unfold det in H; rewrite X, Y in H; ring_simplify in H; lra.
Qed.

(* ---------------- nested elements are found by the centroid tests ---------------- *)
Lemma is_left_centroid3 u v a b c : is_left u v a = true -> is_left u v b = true -> is_left u v c = true ->
  is_left u v (tri_centroid a b c) = true.
Proof.
  rewrite !is_left_iff. unfold tri_centroid, det. cbn [vx vy]. intros. qlra.
Qed.
Lemma is_left_centroid4 u v a b c d : is_left u v a = true -> is_left u v b = true -> is_left u v c = true ->
  is_left u v d = true -> is_left u v (quad_centroid a b c d) = true.
Proof.
  rewrite !is_left_iff. unfold quad_centroid, det. cbn [vx vy]. intros. qlra.
Qed.
Lemma tri_in_tri_conflict p1 q1 r1 p2 q2 r2 :
  in_triangle p1 p2 q2 r2 = true -> in_triangle q1 p2 q2 r2 = true -> in_triangle r1 p2 q2 r2 = true ->
  tri_tri_conflict p1 q1 r1 p2 q2 r2 = true /\ tri_tri_conflict p2 q2 r2 p1 q1 r1 = true.
Proof.
  intros A B C.
  assert (H : in_triangle (tri_centroid p1 q1 r1) p2 q2 r2 = true).
  { unfold in_triangle in *. qbool. rewrite !is_left_centroid3; auto. }
  unfold tri_tri_conflict. rewrite H, ?orb_true_r. auto.
Qed.
Lemma quad_in_tri_conflict p1 q1 r1 s1 p2 q2 r2 :
  in_triangle p1 p2 q2 r2 = true -> in_triangle q1 p2 q2 r2 = true -> in_triangle r1 p2 q2 r2 = true ->
  in_triangle s1 p2 q2 r2 = true -> tri_quad_conflict p2 q2 r2 p1 q1 r1 s1 = true.
Proof.
  intros A B C D.
  assert (H : in_triangle (quad_centroid p1 q1 r1 s1) p2 q2 r2 = true).
  { unfold in_triangle in *. qbool. rewrite !is_left_centroid4; auto. }
  unfold tri_quad_conflict. rewrite H, ?orb_true_r. auto.
Qed.
Lemma tri_in_quad_conflict p1 q1 r1 s1 p2 q2 r2 :
  in_quad p2 p1 q1 r1 s1 = true -> in_quad q2 p1 q1 r1 s1 = true -> in_quad r2 p1 q1 r1 s1 = true ->
  tri_quad_conflict p2 q2 r2 p1 q1 r1 s1 = true.
Proof.
  intros A B C.
  assert (H : in_quad (tri_centroid p2 q2 r2) p1 q1 r1 s1 = true).
  { unfold in_quad in *. qbool. rewrite !is_left_centroid3; auto. }
  unfold tri_quad_conflict. rewrite H, ?orb_true_r. auto.
Qed.
(* an element placed on itself conflicts *)
Lemma tri_self_conflict p q r : 3 * tol26 <= det p q r -> tri_tri_conflict p q r p q r = true.
Proof.
  intros A.
  assert (H : in_triangle (tri_centroid p q r) p q r = true).
  { unfold in_triangle. rewrite !andb_true_iff, !is_left_iff. unfold tri_centroid, det in *. cbn [vx vy].
    repeat split; qlra. }
  unfold tri_tri_conflict. rewrite H, ?orb_true_r. reflexivity.
Qed.
