(* Boundaries made from the predefined shapes: proofs for ShapeProps. *)
From Coq Require Import Reals Qreals Lra Lia Psatz.
From Verif Require Import Base Chain GeomModel GeomSpec UtilModel BdryModel PolySpec WindSpec ShapeModel ShapeSpec ConvexProofs CircProofs.
Open Scope R_scope.

Definition point (xy : vec2) (r : Q) (c s : nat -> Q) (i : nat) : vec2 := V2 (vx xy + r * c i) (vy xy + r * s i).
Lemma Q2R_det a b c : Q2R (det a b c) = rdet (Q2R (vx a)) (Q2R (vy a)) (Q2R (vx b)) (Q2R (vy b)) (Q2R (vx c)) (Q2R (vy c)).
Proof. unfold det, rdet. rewrite Q2R_minus, !Q2R_mult, !Q2R_minus. ring. Qed.
Lemma Q2R_point xy r c s i : Q2R (vx (point xy r c s i)) = Q2R (vx xy) + Q2R r * Q2R (c i) /\ Q2R (vy (point xy r c s i)) = Q2R (vy xy) + Q2R r * Q2R (s i).
Proof. unfold point. cbn [vx vy]. rewrite !Q2R_plus, !Q2R_mult. split; reflexivity. Qed.
Lemma Q2R_zero : Q2R 0 = 0. Proof. unfold Q2R. cbn. lra. Qed.
Lemma shape_nth cosn sinn xy r n i : (i < n)%nat -> nth_error (circle_shape cosn sinn xy r n) i = Some (point xy r (cosn n) (sinn n) i).
Proof.
  intros H. unfold circle_shape. apply map_nth_error. rewrite nth_error_nth' with (d := 0%nat) by (rewrite seq_length; exact H). rewrite seq_nth by exact H. reflexivity.
Qed.
Lemma shape_length cosn sinn xy r n : length (circle_shape cosn sinn xy r n) = n.
Proof. unfold circle_shape. rewrite map_length, seq_length. reflexivity. Qed.
Lemma sq_pos r : (~ r == 0)%Q -> 0 < Q2R r * Q2R r.
Proof.
  intros N. assert (X : Q2R r <> 0) by (intros E; apply N; apply eqR_Qeq; rewrite E; symmetry; apply Q2R_zero). assert (P := Rsqr_pos_lt _ X). exact P.
Qed.
Lemma small_error n e : (3 <= n)%nat -> 0 <= e -> e * INR n ^ 3 <= 1 -> 16 * e + 8 * e ^ 2 < 32 / INR n ^ 3 /\ e <= 1.
Proof.
  intros L E H. assert (N := nat_ge3 n L). set (k := INR n ^ 3) in *. assert (K : 27 <= k) by (unfold k; nra).
  assert (B : e <= / k) by (apply (Rmult_le_reg_r k); [lra|]; rewrite Rinv_l by lra; exact H).
  assert (C : 0 < / k) by (apply Rinv_0_lt_compat; lra). assert (D : / k <= 1) by (rewrite <- Rinv_1; apply Rinv_le_contravar; lra).
  unfold Rdiv. split; [|lra]. assert (e ^ 2 <= e) by nra. lra.
Qed.

Section Circle.
Variables (cosn sinn : nat -> nat -> Q) (xy : vec2) (r : Q) (n : nat) (e : R).
Hypothesis L : (3 <= n)%nat.
Hypothesis E0 : 0 <= e.
Hypothesis E3 : e * INR n ^ 3 <= 1.
Hypothesis T : near_circle e n (cosn n) (sinn n).
Let shape := circle_shape cosn sinn xy r n.

Lemma circle_convex : (~ r == 0)%Q -> convex_position shape.
Proof.
  intros N i j k a b c [I J] A B C. unfold shape in *.
  assert (K : (k < n)%nat) by (rewrite <- (shape_length cosn sinn xy r n); apply nth_error_Some; congruence).
  rewrite shape_nth in A, B, C by lia. injection A as <-. injection B as <-. injection C as <-.
  apply Rlt_Qlt. rewrite Q2R_zero, Q2R_det. destruct (Q2R_point xy r (cosn n) (sinn n) i) as [-> ->], (Q2R_point xy r (cosn n) (sinn n) j) as [-> ->], (Q2R_point xy r (cosn n) (sinn n) k) as [-> ->].
  destruct (T i ltac:(lia)) as [T1 T2], (T j ltac:(lia)) as [T3 T4], (T k K) as [T5 T6].
  assert (M := det_moved e _ _ _ _ _ _ _ _ _ E0 T1 T2 T3 T4 T5 T6). assert (D := triple_det n i j k L (conj I J) K).
  destruct (small_error n e L E0 E3) as [S _]. apply abs_le in M. assert (P := sq_pos r N).
  set (X := rdet (Q2R (cosn n i)) _ _ _ _ _) in M. assert (F : 0 < X) by lra.
  match goal with |- 0 < ?g => replace g with (Q2R r * Q2R r * X) by (unfold X, rdet; ring) end. apply Rmult_lt_0_compat; assumption.
Qed.
Lemma next_angle i : (i < n)%nat -> cos (angle n ((i + 1) mod n)) = cos (angle n i + 2 * PI / INR n) /\ sin (angle n ((i + 1) mod n)) = sin (angle n i + 2 * PI / INR n).
Proof.
  intros I. assert (N := nat_ge3 n L). destruct (Nat.eq_dec (i + 1) n) as [Z|Z].
  - rewrite Z. rewrite Nat.mod_same by lia. assert (X : angle n i + 2 * PI / INR n = 0 + 2 * PI).
    { unfold angle. assert (Y : INR i + 1 = INR n) by (rewrite <- Z, plus_INR; reflexivity). replace (INR i) with (INR n - 1) by lra. field. lra. }
    rewrite X. unfold angle. rewrite Rmult_0_l, Rplus_0_l, cos_2PI, sin_2PI, cos_0, sin_0. split; reflexivity.
  - rewrite !Nat.mod_small by lia. unfold angle. rewrite plus_INR. cbn [INR]. split; f_equal; field; lra.
Qed.
Lemma sides_of e0 : In e0 (ring_edges shape) -> exists i, (i < n)%nat /\ e0 = (point xy r (cosn n) (sinn n) i, point xy r (cosn n) (sinn n) ((i + 1) mod n)).
Proof.
  rewrite <- (ring_edges_indexed (V2 0 0) shape). intros H. apply in_map_iff in H. destruct H as (i & <- & I). apply in_seq in I.
  unfold shape in *. rewrite shape_length in *. exists i. split; [lia|].
  assert (M : ((i + 1) mod n < n)%nat) by (apply Nat.mod_upper_bound; lia). f_equal; apply nth_error_nth, shape_nth; [lia|exact M].
Qed.
(* points well inside of the circle *)
Lemma circle_left p rho : (0 < r)%Q -> 0 <= rho -> rho < cos (PI / INR n) - 4 * INR n * e -> sq_distance p xy <= (rho * Q2R r) ^ 2 ->
  forall e0, In e0 (ring_edges shape) -> (0 < det (fst e0) (snd e0) p)%Q.
Proof.
  intros P R0 R1 D e0 I. destruct (sides_of e0 I) as (i & H & ->). cbn [fst snd].
  assert (PR : 0 < Q2R r) by (rewrite <- Q2R_zero; apply Qlt_Rlt; exact P). assert (N := nat_ge3 n L). destruct (small_error n e L E0 E3) as [_ S1].
  assert (M : ((i + 1) mod n < n)%nat) by (apply Nat.mod_upper_bound; lia).
  apply Rlt_Qlt. rewrite Q2R_zero, Q2R_det. destruct (Q2R_point xy r (cosn n) (sinn n) i) as [-> ->], (Q2R_point xy r (cosn n) (sinn n) ((i + 1) mod n)) as [-> ->].
  set (j := ((i + 1) mod n)%nat) in *.
  set (x := (Q2R (vx p) - Q2R (vx xy)) / Q2R r). set (y := (Q2R (vy p) - Q2R (vy xy)) / Q2R r).
  assert (X : Q2R (vx p) = Q2R (vx xy) + Q2R r * x) by (unfold x; field; lra). assert (Y : Q2R (vy p) = Q2R (vy xy) + Q2R r * y) by (unfold y; field; lra).
  assert (B : x ^ 2 + y ^ 2 <= rho ^ 2).
  { unfold sq_distance in D. rewrite X, Y in D. apply (Rmult_le_reg_l (Q2R r * Q2R r)); [nra|]. ring_simplify in D. ring_simplify. ring_simplify in D. lra. }
  rewrite X, Y.
  destruct (T i H) as [T1 T2], (T j M) as [T3 T4]. destruct (next_angle i H) as [A1 A2]. fold j in A1, A2. rewrite A1 in T3. rewrite A2 in T4.
  assert (G := side_det n (angle n i) x y). set (a := angle n i) in *. set (b := a + 2 * PI / INR n) in *. set (m := a + PI / INR n) in *.
  assert (C := cauchy_le x y m rho R0 B). assert (F := first_sine n L).
  assert (CB := COS_bound (PI / INR n)). assert (R2 : rho <= 1) by (assert (0 <= 4 * INR n * e) by nra; lra).
  assert (XY : Rabs (x - cos a) <= 2 /\ Rabs (y - sin a) <= 2).
  { assert (Ca := COS_bound a). assert (Sa := SIN_bound a). split; apply abs_le; nra. }
  destruct XY as [XA YA]. destruct (unit_difference b a) as [U1 U2].
  assert (D1 := difference_moved _ _ _ _ _ _ T3 T1). assert (D2 := difference_moved y _ y _ 0 e ltac:(rewrite Rminus_eq_0, Rabs_R0; lra) T2).
  assert (D3 := difference_moved _ _ _ _ _ _ T4 T2). assert (D4 := difference_moved x _ x _ 0 e ltac:(rewrite Rminus_eq_0, Rabs_R0; lra) T1).
  assert (P1 := product_moved _ _ _ _ _ _ _ _ D1 D2 U1 YA). assert (P2 := product_moved _ _ _ _ _ _ _ _ D3 D4 U2 XA).
  assert (Q := difference_moved _ _ _ _ _ _ P1 P2). apply abs_le in Q.
  set (Z := (Q2R (cosn n j) - Q2R (cosn n i)) * (y - Q2R (sinn n i)) - (Q2R (sinn n j) - Q2R (sinn n i)) * (x - Q2R (cosn n i))) in *.
  match goal with |- 0 < ?g => replace g with (Q2R r * Q2R r * Z) by (unfold Z, rdet; ring) end.
  apply Rmult_lt_0_compat; [nra|]. unfold rdet in G. rewrite G in Q.
  assert (W : 4 / INR n * (4 * INR n * e) < 2 * sin (PI / INR n) * (cos (PI / INR n) - (x * cos m + y * sin m))).
  { apply Rle_lt_trans with (4 / INR n * (cos (PI / INR n) - rho) - 0 * 0 - (4 / INR n * (cos (PI / INR n) - rho - 4 * INR n * e))); [lra|].
    assert (K : 0 < 4 / INR n) by (apply Rdiv_lt_0_compat; lra). assert (K2 : 4 / INR n = 2 * (2 / INR n)) by (field; lra).
    assert (K3 : 0 < cos (PI / INR n) - rho - 4 * INR n * e) by lra.
    assert (K4 : 0 < 4 / INR n * (cos (PI / INR n) - rho - 4 * INR n * e)) by (apply Rmult_lt_0_compat; assumption).
    assert (K5 : 4 / INR n * (cos (PI / INR n) - rho) <= 2 * sin (PI / INR n) * (cos (PI / INR n) - (x * cos m + y * sin m))).
    { apply Rmult_le_compat; [lra| |lra|lra]. assert (0 <= 4 * INR n * e) by nra. lra. } lra. }
  replace (4 / INR n * (4 * INR n * e)) with (16 * e) in W by (field; lra). assert (e * e <= e) by nra. lra.
Qed.
(* points outside of the circle *)
Lemma circle_right p : (0 < r)%Q -> (Q2R r * (1 + 2 * e)) ^ 2 < sq_distance p xy ->
  forall i, (i < n)%nat -> (- (vx p - vx xy) * vx p + - (vy p - vy xy) * vy p < - (vx p - vx xy) * vx (point xy r (cosn n) (sinn n) i) + - (vy p - vy xy) * vy (point xy r (cosn n) (sinn n) i))%Q.
Proof.
  intros P D i H. assert (PR : 0 < Q2R r) by (rewrite <- Q2R_zero; apply Qlt_Rlt; exact P).
  apply Rlt_Qlt. rewrite !Q2R_plus, !Q2R_mult, !Q2R_opp, !Q2R_minus. destruct (Q2R_point xy r (cosn n) (sinn n) i) as [-> ->].
  destruct (T i H) as [T1 T2]. apply abs_le in T1, T2. set (a := angle n i) in *. assert (S := sin2_cos2 a). unfold Rsqr in S. assert (Ca := COS_bound a). assert (Sa := SIN_bound a).
  set (c := Q2R (cosn n i)) in *. set (s := Q2R (sinn n i)) in *. set (R := Q2R r) in *. unfold sq_distance in D.
  set (px := Q2R (vx p)) in *. set (py := Q2R (vy p)) in *. set (ox := Q2R (vx xy)) in *. set (oy := Q2R (vy xy)) in *.
  assert (N2 : c ^ 2 + s ^ 2 <= (1 + 2 * e) ^ 2).
  { set (dc := c - cos a) in *. set (ds := s - sin a) in *. replace c with (cos a + dc) by (unfold dc; ring). replace s with (sin a + ds) by (unfold ds; ring).
    clearbody dc ds. set (ca := cos a) in *. set (sa := sin a) in *. clearbody ca sa.
    assert (X1 : ca * dc <= e) by nra. assert (X2 : sa * ds <= e) by nra. assert (X3 : dc ^ 2 <= e ^ 2) by nra. assert (X4 : ds ^ 2 <= e ^ 2) by nra. nra. }
  set (u := px - ox) in *. set (v := py - oy) in *. assert (U : px = ox + u) by (unfold u; ring). assert (V : py = oy + v) by (unfold v; ring). rewrite U, V.
  assert (G : u * (R * c) + v * (R * s) < u ^ 2 + v ^ 2).
  { assert (B : (u * (R * c) + v * (R * s)) ^ 2 <= (u ^ 2 + v ^ 2) * (R ^ 2 * (c ^ 2 + s ^ 2))).
    { assert (Z := pow2_ge_0 (u * (R * s) - v * (R * c))). nra. }
    assert (B2 : R ^ 2 * (c ^ 2 + s ^ 2) <= (R * (1 + 2 * e)) ^ 2) by (rewrite Rpow_mult_distr; apply Rmult_le_compat_l; [apply pow2_ge_0|exact N2]).
    set (w := u * (R * c) + v * (R * s)) in *. set (q := u ^ 2 + v ^ 2) in *. set (k := R ^ 2 * (c ^ 2 + s ^ 2)) in *. set (k2 := (R * (1 + 2 * e)) ^ 2) in *.
    assert (K : 0 <= k2) by (unfold k2; apply pow2_ge_0). clearbody w q k k2. clear - B B2 D K.
    destruct (Rlt_le_dec w q) as [G|G]; [exact G|exfalso]. assert (q * k <= q * k2) by (apply Rmult_le_compat_l; lra). assert (q * k2 < q * q) by (apply Rmult_lt_compat_l; lra). nra. }
  clear - G. nra.
Qed.

Definition around (a b : vec2) : Q := ((vx a - vx xy) * (vy b - vy xy) - (vy a - vy xy) * (vx b - vx xy))%Q.
Lemma area_around (es : list (vec2 * vec2)) : balanced es -> (esum vcross es == esum around es)%Q.
Proof.
  intros B. specialize (B (fun v => vx xy * vy v - vy xy * vx v)%Q).
  assert (E : forall l : list (vec2 * vec2), (esum vcross l == esum around l + esum (fun a b => vx xy * vy b - vy xy * vx b - (vx xy * vy a - vy xy * vx a)) l)%Q).
  { induction l as [|[a b] l IH]; cbn [esum]; [reflexivity|]. rewrite IH. unfold vcross, around. ring. }
  rewrite E, B. ring.
Qed.
Lemma cross_near i : (i < n)%nat -> e <= 1 ->
  Rabs (Q2R (around (point xy r (cosn n) (sinn n) i) (point xy r (cosn n) (sinn n) ((i + 1) mod n))) - Q2R r * Q2R r * sin (2 * PI / INR n)) <= Q2R r * Q2R r * (6 * e).
Proof.
  intros H S1. assert (M : ((i + 1) mod n < n)%nat) by (apply Nat.mod_upper_bound; lia). set (j := ((i + 1) mod n)%nat) in *.
  destruct (T i H) as [T1 T2], (T j M) as [T3 T4]. destruct (next_angle i H) as [A1 A2]. fold j in A1, A2. rewrite A1 in T3. rewrite A2 in T4.
  set (a := angle n i) in *. set (b := a + 2 * PI / INR n) in *.
  assert (Bd : forall x, Rabs (cos x) <= 1 /\ Rabs (sin x) <= 1) by (intros x; assert (X := COS_bound x); assert (Y := SIN_bound x); split; apply abs_le; lra).
  assert (P1 := product_moved _ _ _ _ _ _ _ _ T1 T4 (proj1 (Bd a)) (proj2 (Bd b))). assert (P2 := product_moved _ _ _ _ _ _ _ _ T2 T3 (proj2 (Bd a)) (proj1 (Bd b))).
  assert (Q := difference_moved _ _ _ _ _ _ P1 P2).
  assert (Z : sin (2 * PI / INR n) = cos a * sin b - sin a * cos b) by (replace (2 * PI / INR n) with (b - a) by (unfold b; ring); rewrite sin_minus; ring).
  unfold around. rewrite Q2R_minus, !Q2R_mult, !Q2R_minus. destruct (Q2R_point xy r (cosn n) (sinn n) i) as [-> ->], (Q2R_point xy r (cosn n) (sinn n) j) as [-> ->].
  match goal with |- Rabs ?g <= _ => replace g with (Q2R r * Q2R r * (Q2R (cosn n i) * Q2R (sinn n j) - Q2R (sinn n i) * Q2R (cosn n j) - (cos a * sin b - sin a * cos b))) by (rewrite Z; ring) end.
  assert (RR : 0 <= Q2R r * Q2R r) by nra. rewrite Rabs_mult, (Rabs_pos_eq _ RR). apply Rmult_le_compat_l; [exact RR|]. assert (e * e <= e) by nra. lra.
Qed.
Lemma circle_area : e <= 1 -> Rabs (Q2R (signed_area shape) - INR n / 2 * (Q2R r) ^ 2 * sin (2 * PI / INR n)) <= 3 * INR n * e * (Q2R r) ^ 2.
Proof.
  intros S1. assert (B := ring_balanced shape). assert (A := area_around _ B).
  assert (F : forall k, (k <= n)%nat -> Rabs (Q2R (esum around (map (fun i => (point xy r (cosn n) (sinn n) i, point xy r (cosn n) (sinn n) ((i + 1) mod n))) (seq 0 k))) - INR k * (Q2R r * Q2R r * sin (2 * PI / INR n))) <= INR k * (Q2R r * Q2R r * (6 * e))).
  { induction k as [|k IH]; intros K.
    - cbn [seq map esum INR]. rewrite Q2R_zero, !Rmult_0_l, Rminus_0_r, Rabs_R0. lra.
    - rewrite seq_S, map_app, S_INR. cbn [Nat.add map]. assert (X : forall l m : list (vec2 * vec2), (esum around (l ++ m) == esum around l + esum around m)%Q) by (intros; apply esum_app).
      rewrite (Qeq_eqR _ _ (X _ _)), Q2R_plus. cbn [esum]. rewrite Q2R_plus, Q2R_zero, Rplus_0_r. specialize (IH ltac:(lia)). assert (C := cross_near k ltac:(lia) S1).
      apply abs_le in IH, C. apply abs_le. lra. }
  specialize (F n (le_n n)).
  assert (I : map (fun i => (point xy r (cosn n) (sinn n) i, point xy r (cosn n) (sinn n) ((i + 1) mod n))) (seq 0 n) = ring_edges shape).
  { rewrite <- (ring_edges_indexed (V2 0 0) shape). unfold shape. rewrite shape_length. apply map_ext_in. intros i J. apply in_seq in J.
    assert (M : ((i + 1) mod n < n)%nat) by (apply Nat.mod_upper_bound; lia). f_equal; symmetry; apply nth_error_nth, shape_nth; [lia|exact M]. }
  rewrite I in F. unfold signed_area. rewrite Q2R_mult, (Qeq_eqR _ _ A). replace (Q2R (1 # 2)) with (/ 2) by (unfold Q2R; cbn; lra).
  apply abs_le in F. apply abs_le. assert (N := nat_ge3 n L). set (z := Q2R (esum around (ring_edges shape))) in *. set (q := sin (2 * PI / INR n)) in *. nra.
Qed.
End Circle.

(* the area of the exact polygon and that of the circle *)
Lemma polygon_and_circle n : (3 <= n)%nat -> PI * (1 - 11 / INR n ^ 2) <= INR n / 2 * sin (2 * PI / INR n) <= PI.
Proof.
  intros L. assert (N := nat_ge3 n L). assert (S := step_small n L). assert (P := pi_gt3). assert (P4 := PI_4). set (h := PI / INR n) in *.
  replace (2 * PI / INR n) with (2 * h) by (unfold h, Rdiv; ring). assert (E : INR n = PI / h) by (unfold h; field; lra). 
  assert (A := sin_lower (2 * h) ltac:(lra)). assert (B := sin_lt_x (2 * h) ltac:(lra)). split.
  - apply Rle_trans with (INR n / 2 * (2 * h - (2 * h) ^ 3 / 6)); [|apply Rmult_le_compat_l; lra].
    replace (INR n / 2 * (2 * h - (2 * h) ^ 3 / 6)) with (PI * (1 - 2 / 3 * PI ^ 2 / INR n ^ 2)) by (unfold h; field; lra).
    apply Rmult_le_compat_l; [lra|]. assert (K : 0 < / INR n ^ 2) by (apply Rinv_0_lt_compat; apply pow_lt; lra). unfold Rdiv.
    assert (PI ^ 2 <= 16) by nra. nra.
  - apply Rle_trans with (INR n / 2 * (2 * h)); [apply Rmult_le_compat_l; lra|]. unfold h. apply Req_le. field. lra.
Qed.
Lemma apothem n : (3 <= n)%nat -> 1 - 8 / INR n ^ 2 <= cos (PI / INR n).
Proof.
  intros L. assert (N := nat_ge3 n L). assert (S := step_small n L). assert (P4 := PI_4). assert (P := pi_gt3).
  destruct (pre_cos_bound (PI / INR n) 0 ltac:(lra) ltac:(lra)) as [H _]. unfold cos_approx, cos_term in H. cbn [Nat.mul Nat.add sum_f_R0 pow fact INR] in H.
  refine (Rle_trans _ _ _ _ H). apply Rle_trans with (1 - PI ^ 2 / 2 / INR n ^ 2); [|apply Req_le; field; lra].
  assert (K : 0 < / INR n ^ 2) by (apply Rinv_0_lt_compat; apply pow_lt; lra). unfold Rdiv. assert (PI ^ 2 <= 16) by nra. nra.
Qed.
