(* The regular polygon over the reals, and polygons near it.  Proofs for ShapeProps. *)
From Coq Require Import Reals Qreals Lra Lia Psatz Nsatz.
From Verif Require Import Base GeomSpec ShapeSpec.
Open Scope R_scope.

Definition rdet (ax ay bx by_ cx cy : R) : R := (bx - ax) * (cy - ay) - (by_ - ay) * (cx - ax).
Lemma circle_det a b c : rdet (cos a) (sin a) (cos b) (sin b) (cos c) (sin c) = 4 * sin ((b - a) / 2) * sin ((c - b) / 2) * sin ((c - a) / 2).
Proof.
  unfold rdet. rewrite !form2, !form4.
  replace ((c - b) / 2) with ((c + a) / 2 - (b + a) / 2) by field. rewrite sin_minus. ring.
Qed.
Lemma sin_lower x : 0 <= x <= 4 -> x - x ^ 3 / 6 <= sin x.
Proof.
  intros [A B]. destruct (pre_sin_bound x 0 A B) as [H _]. unfold sin_approx, sin_term in H. cbn [Nat.mul Nat.add sum_f_R0] in H.
  refine (Rle_trans _ _ _ _ H). apply Req_le. cbn [pow fact Nat.mul Nat.add INR]. field.
Qed.
Lemma pi_gt3 : 3 < PI. Proof. assert (H := PI2_3_2). lra. Qed.
Lemma nat_ge3 n : (3 <= n)%nat -> 3 <= INR n.
Proof. intros H. apply le_INR in H. cbn [INR] in H. lra. Qed.
Lemma step_small n : (3 <= n)%nat -> 0 < PI / INR n <= 4 / 3.
Proof.
  intros H. assert (N := nat_ge3 n H). assert (P := pi_gt3). assert (Q := PI_4). split; [apply Rdiv_lt_0_compat; lra|].
  apply (Rmult_le_reg_r (INR n)); [lra|]. unfold Rdiv. rewrite Rmult_assoc, Rinv_l by lra. lra.
Qed.
Lemma first_sine n : (3 <= n)%nat -> 2 / INR n <= sin (PI / INR n).
Proof.
  intros H. assert (N := nat_ge3 n H). assert (S := step_small n H). assert (P := pi_gt3).
  refine (Rle_trans _ _ _ _ (sin_lower (PI / INR n) ltac:(lra))).
  set (x := PI / INR n) in *. assert (X : 2 / INR n <= (2 / 3) * x).
  { unfold x, Rdiv. assert (0 < / INR n) by (apply Rinv_0_lt_compat; lra). nra. }
  assert (Y : x ^ 2 <= 16 / 9) by nra. clearbody x. nra.
Qed.
Lemma sine_between n x : (3 <= n)%nat -> PI / INR n <= x <= PI - PI / INR n -> 2 / INR n <= sin x.
Proof.
  intros H [A B]. assert (S := step_small n H). assert (P := pi_gt3). assert (Q := PI_4). assert (F := first_sine n H).
  destruct (Rle_lt_dec x (PI / 2)) as [C|C].
  - refine (Rle_trans _ _ _ F _). apply sin_incr_1; lra.
  - rewrite <- sin_PI_x. refine (Rle_trans _ _ _ F _). apply sin_incr_1; lra.
Qed.
Lemma angle_gap n i j : (i < j)%nat -> (j < n)%nat -> (3 <= n)%nat -> PI / INR n <= (angle n j - angle n i) / 2 <= PI - PI / INR n.
Proof.
  intros H J L. assert (N := nat_ge3 n L). assert (P := pi_gt3). unfold angle.
  replace ((INR j * (2 * PI / INR n) - INR i * (2 * PI / INR n)) / 2) with ((INR j - INR i) * (PI / INR n)) by (field; lra).
  assert (E : PI = INR n * (PI / INR n)) by (field; lra).
  set (x := PI / INR n) in *. assert (X : 0 < x) by (unfold x; apply Rdiv_lt_0_compat; lra).
  assert (A0 : INR (S i) <= INR j) by (apply le_INR; lia). rewrite S_INR in A0. assert (A : 1 <= INR j - INR i) by lra.
  assert (B0 : INR (S j) <= INR n) by (apply le_INR; lia). rewrite S_INR in B0. assert (B1 : 0 <= INR i) by apply pos_INR. assert (B : INR j - INR i <= INR n - 1) by lra.
  clearbody x. split; [|rewrite E]; clear - A B X; nra.
Qed.
Lemma triple_det n i j k : (3 <= n)%nat -> (i < j < k)%nat -> (k < n)%nat ->
  32 / INR n ^ 3 <= rdet (cos (angle n i)) (sin (angle n i)) (cos (angle n j)) (sin (angle n j)) (cos (angle n k)) (sin (angle n k)).
Proof.
  intros L [I J] K. rewrite circle_det. assert (N := nat_ge3 n L).
  assert (A := sine_between n _ L (angle_gap n i j I ltac:(lia) L)). assert (B := sine_between n _ L (angle_gap n j k J K L)). assert (C := sine_between n _ L (angle_gap n i k ltac:(lia) K L)).
  replace (32 / INR n ^ 3) with (4 * (2 / INR n) * (2 / INR n) * (2 / INR n)) by (field; lra).
  set (e := 2 / INR n) in *. assert (E : 0 < e) by (unfold e; apply Rdiv_lt_0_compat; lra).
  apply Rmult_le_compat; [nra|lra| |exact C]. apply Rmult_le_compat; [lra|lra| |exact B]. lra.
Qed.
Lemma product_moved x y x' y' a b e f : Rabs (x' - x) <= e -> Rabs (y' - y) <= f -> Rabs x <= a -> Rabs y <= b -> Rabs (x' * y' - x * y) <= a * f + b * e + e * f.
Proof.
  intros X Y A B. replace (x' * y' - x * y) with (x * (y' - y) + (y * (x' - x) + (x' - x) * (y' - y))) by ring.
  assert (P1 := Rabs_triang (x * (y' - y)) (y * (x' - x) + (x' - x) * (y' - y))). assert (P2 := Rabs_triang (y * (x' - x)) ((x' - x) * (y' - y))).
  rewrite !Rabs_mult in P1. rewrite !Rabs_mult in P2.
  assert (Q1 : Rabs x * Rabs (y' - y) <= a * f) by (apply Rmult_le_compat; (apply Rabs_pos || assumption)).
  assert (Q2 : Rabs y * Rabs (x' - x) <= b * e) by (apply Rmult_le_compat; (apply Rabs_pos || assumption)).
  assert (Q3 : Rabs (x' - x) * Rabs (y' - y) <= e * f) by (apply Rmult_le_compat; (apply Rabs_pos || assumption)). lra.
Qed.
Lemma difference_moved x y x' y' e f : Rabs (x' - x) <= e -> Rabs (y' - y) <= f -> Rabs ((x' - y') - (x - y)) <= e + f.
Proof. intros X Y. replace (x' - y' - (x - y)) with ((x' - x) + - (y' - y)) by ring. assert (P := Rabs_triang (x' - x) (- (y' - y))). rewrite Rabs_Ropp in P. lra. Qed.
Lemma abs_le x a : Rabs x <= a <-> - a <= x <= a.
Proof. split; [intros H; unfold Rabs in H; destruct (Rcase_abs x); lra|intros H; unfold Rabs; destruct (Rcase_abs x); lra]. Qed.
Lemma unit_difference a b : Rabs (cos a - cos b) <= 2 /\ Rabs (sin a - sin b) <= 2.
Proof. assert (A := COS_bound a). assert (B := COS_bound b). assert (C := SIN_bound a). assert (D := SIN_bound b). split; apply abs_le; lra. Qed.
(* the determinant of three points near the circle *)
Lemma det_moved e a b c ax ay bx by_ cx cy : 0 <= e ->
  Rabs (ax - cos a) <= e -> Rabs (ay - sin a) <= e -> Rabs (bx - cos b) <= e -> Rabs (by_ - sin b) <= e -> Rabs (cx - cos c) <= e -> Rabs (cy - sin c) <= e ->
  Rabs (rdet ax ay bx by_ cx cy - rdet (cos a) (sin a) (cos b) (sin b) (cos c) (sin c)) <= 16 * e + 8 * e ^ 2.
Proof.
  intros E A1 A2 B1 B2 C1 C2. unfold rdet.
  assert (D1 := difference_moved _ _ _ _ _ _ B1 A1). assert (D2 := difference_moved _ _ _ _ _ _ C2 A2).
  assert (D3 := difference_moved _ _ _ _ _ _ B2 A2). assert (D4 := difference_moved _ _ _ _ _ _ C1 A1).
  destruct (unit_difference b a) as [U1 U3]. destruct (unit_difference c a) as [U4 U2].
  assert (P1 := product_moved _ _ _ _ _ _ _ _ D1 D2 U1 U2). assert (P2 := product_moved _ _ _ _ _ _ _ _ D3 D4 U3 U4).
  assert (F := difference_moved _ _ _ _ _ _ P1 P2). refine (Rle_trans _ _ _ F _). apply Req_le. ring.
Qed.
(* a side of the regular polygon *)
Lemma side_det n a x y : rdet (cos a) (sin a) (cos (a + 2 * PI / INR n)) (sin (a + 2 * PI / INR n)) x y =
  2 * sin (PI / INR n) * (cos (PI / INR n) - (x * cos (a + PI / INR n) + y * sin (a + PI / INR n))).
Proof.
  set (h := PI / INR n). replace (2 * PI / INR n) with (2 * h) by (unfold h, Rdiv; ring). set (m := a + h).
  replace (a + 2 * h) with (m + h) by (unfold m; ring). replace a with (m - h) by (unfold m; ring).
  unfold rdet. rewrite cos_plus, sin_plus, cos_minus, sin_minus.
  assert (S1 := sin2_cos2 m). assert (S2 := sin2_cos2 h). unfold Rsqr in S1, S2.
  set (cm := cos m) in *. set (sm := sin m) in *. set (ch := cos h) in *. set (sh := sin h) in *. clearbody cm sm ch sh. nsatz.
Qed.
Lemma cauchy_le x y m rho : 0 <= rho -> x ^ 2 + y ^ 2 <= rho ^ 2 -> x * cos m + y * sin m <= rho.
Proof.
  intros R H. assert (S := sin2_cos2 m). unfold Rsqr in S. set (c := cos m) in *. set (s := sin m) in *. clearbody c s.
  assert (E : (x * c + y * s) ^ 2 + (x * s - y * c) ^ 2 = (x ^ 2 + y ^ 2) * (s * s + c * c)) by ring. rewrite S in E.
  assert (F := pow2_ge_0 (x * s - y * c)). set (u := x * c + y * s) in *. set (v := (x * s - y * c) ^ 2) in *. clearbody u v.
  destruct (Rle_lt_dec u rho) as [G|G]; [exact G|]. exfalso. clear S. nra.
Qed.
