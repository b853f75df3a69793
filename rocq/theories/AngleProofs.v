(* Lemmas on the angle of two vectors. *)
From Coq Require Import Reals Lra Lia List Ratan.
From Verif Require Import AngleModel AngleSpec.
Import ListNotations.
Open Scope R_scope.

Definition ang (u v : pt) : R := acos (rdot u v / (rnorm u * rnorm v)).
Lemma norm_sq u : rnorm u * rnorm u = rdot u u.
Proof. unfold rnorm. apply sqrt_sqrt. unfold rdot. nra. Qed.
Lemma norm_ge u : 0 <= rnorm u.
Proof. apply sqrt_pos. Qed.
Lemma norm_pos u v : rcross u v <> 0 -> 0 < rnorm u /\ 0 < rnorm v.
Proof.
  intros H. assert (S : forall w : pt, rdot w w = 0 -> fst w = 0 /\ snd w = 0).
  { intros [x y] E. unfold rdot in E. cbn in *. assert (x * x = 0 /\ y * y = 0) as [X Y] by (split; nra). apply Rmult_integral in X. apply Rmult_integral in Y. tauto. }
  assert (G := norm_ge u). assert (G' := norm_ge v). split.
  - destruct G as [G|G]; [exact G|]. exfalso. apply H. assert (E := norm_sq u). rewrite <- G in E. destruct (S u ltac:(lra)) as [X Y]. unfold rcross. rewrite X, Y. ring.
  - destruct G' as [G'|G']; [exact G'|]. exfalso. apply H. assert (E := norm_sq v). rewrite <- G' in E. destruct (S v ltac:(lra)) as [X Y]. unfold rcross. rewrite X, Y. ring.
Qed.
Lemma lagrange u v : rdot u v * rdot u v + rcross u v * rcross u v = rdot u u * rdot v v.
Proof. unfold rdot, rcross. ring. Qed.
Lemma cos_range u v : 0 < rnorm u -> 0 < rnorm v -> -1 <= rdot u v / (rnorm u * rnorm v) <= 1.
Proof.
  intros U V. assert (P : 0 < rnorm u * rnorm v) by (apply Rmult_lt_0_compat; assumption).
  assert (E : rdot u v / (rnorm u * rnorm v) * (rnorm u * rnorm v) = rdot u v) by (field; split; lra).
  assert (L : rdot u v * rdot u v <= (rnorm u * rnorm v) * (rnorm u * rnorm v)).
  { replace (rnorm u * rnorm v * (rnorm u * rnorm v)) with ((rnorm u * rnorm u) * (rnorm v * rnorm v)) by ring. rewrite !norm_sq, <- lagrange. nra. }
  set (c := rdot u v / (rnorm u * rnorm v)) in *. set (n := rnorm u * rnorm v) in *. clearbody c n. rewrite <- E in L. clear E. split; apply Rnot_lt_le; intros N.
  - assert (c * n < - n) by nra. nra.
  - assert (n < c * n) by nra. nra.
Qed.
(* the code's angle *)
Lemma angle_of u v : 0 < rnorm u -> 0 < rnorm v -> acos_of (quotient (rdot u v) (rnorm u * rnorm v)) = Some (ang u v).
Proof.
  intros U V. assert (P : 0 < rnorm u * rnorm v) by (apply Rmult_lt_0_compat; assumption). unfold quotient, acos_of. destruct (Req_EM_T (rnorm u * rnorm v) 0) as [E|_]; [lra|].
  destruct (cos_range u v U V) as [A B]. destruct (Rle_dec (-1) _) as [_|N]; [|contradiction]. destruct (Rle_dec _ 1) as [_|N]; [|contradiction]. reflexivity.
Qed.
Lemma ang_cos u v : 0 < rnorm u -> 0 < rnorm v -> rnorm u * rnorm v * cos (ang u v) = rdot u v.
Proof. intros U V. unfold ang. rewrite cos_acos by (apply cos_range; assumption). field. split; lra. Qed.
Lemma ang_bound u v : 0 <= ang u v <= PI.
Proof. apply acos_bound. Qed.
Lemma ang_sin u v : 0 < rnorm u -> 0 < rnorm v -> rnorm u * rnorm v * sin (ang u v) = Rabs (rcross u v).
Proof.
  intros U V. assert (C := ang_cos u v U V). assert (B := ang_bound u v). assert (S : 0 <= sin (ang u v)) by (apply sin_ge_0; apply B).
  assert (P : 0 < rnorm u * rnorm v) by (apply Rmult_lt_0_compat; assumption).
  assert (E : (rnorm u * rnorm v * sin (ang u v)) * (rnorm u * rnorm v * sin (ang u v)) = rcross u v * rcross u v).
  { assert (T := sin2_cos2 (ang u v)). unfold Rsqr in T. assert (L := lagrange u v). rewrite <- !norm_sq, <- C in L.
    replace (rnorm u * rnorm v * sin (ang u v) * (rnorm u * rnorm v * sin (ang u v))) with (rnorm u * rnorm v * (rnorm u * rnorm v) * (sin (ang u v) * sin (ang u v))) by ring.
    replace (sin (ang u v) * sin (ang u v)) with (1 - cos (ang u v) * cos (ang u v)) by lra. lra. }
  rewrite <- (Rabs_pos_eq (rnorm u * rnorm v * sin (ang u v))) by (apply Rmult_le_pos; lra).
  apply Rsqr_eq_abs_0. exact E.
Qed.
Lemma ang_sym u v : ang u v = ang v u.
Proof. unfold ang. f_equal. rewrite (Rmult_comm (rnorm v)). f_equal. unfold rdot. ring. Qed.
Definition ropp (u : pt) : pt := (- fst u, - snd u).
Lemma norm_opp u : rnorm (ropp u) = rnorm u.
Proof. unfold rnorm, rdot, ropp. f_equal. cbn. ring. Qed.
Lemma ang_opp u v : ang (ropp u) v = PI - ang u v.
Proof.
  unfold ang. rewrite norm_opp, <- acos_opp. f_equal. replace (rdot (ropp u) v) with (- rdot u v) by (unfold rdot, ropp; cbn; ring). unfold Rdiv. ring.
Qed.
Lemma ang_opp2 u v : ang (ropp u) (ropp v) = ang u v.
Proof. rewrite ang_opp, ang_sym, ang_opp, ang_sym. ring. Qed.
(* angles add up *)
Lemma ang_add u v w : 0 < rcross u v -> 0 < rcross v w -> 0 < rcross u w -> ang u w = ang u v + ang v w.
Proof.
  intros UV VW UW. destruct (norm_pos u v ltac:(lra)) as [NU NV]. destruct (norm_pos v w ltac:(lra)) as [_ NW].
  assert (C1 := ang_cos u v NU NV). assert (C2 := ang_cos v w NV NW). assert (S1 := ang_sin u v NU NV). assert (S2 := ang_sin v w NV NW).
  rewrite Rabs_pos_eq in S1, S2 by lra. assert (B1 := ang_bound u v). assert (B2 := ang_bound v w).
  set (a := ang u v) in *. set (b := ang v w) in *. assert (N2 := norm_sq v).
  assert (CC : rnorm u * rnorm v * (rnorm v * rnorm w) * cos (a + b) = rdot v v * rdot u w).
  { rewrite cos_plus. replace (rnorm u * rnorm v * (rnorm v * rnorm w) * (cos a * cos b - sin a * sin b)) with ((rnorm u * rnorm v * cos a) * (rnorm v * rnorm w * cos b) - (rnorm u * rnorm v * sin a) * (rnorm v * rnorm w * sin b)) by ring.
    rewrite C1, C2, S1, S2. unfold rdot, rcross. ring. }
  assert (SS : rnorm u * rnorm v * (rnorm v * rnorm w) * sin (a + b) = rdot v v * rcross u w).
  { rewrite sin_plus. replace (rnorm u * rnorm v * (rnorm v * rnorm w) * (sin a * cos b + cos a * sin b)) with ((rnorm u * rnorm v * sin a) * (rnorm v * rnorm w * cos b) + (rnorm u * rnorm v * cos a) * (rnorm v * rnorm w * sin b)) by ring.
    rewrite C1, C2, S1, S2. unfold rdot, rcross. ring. }
  assert (PV : 0 < rdot v v) by (rewrite <- N2; apply Rmult_lt_0_compat; assumption).
  assert (PN : 0 < rnorm u * rnorm v * (rnorm v * rnorm w)) by (repeat apply Rmult_lt_0_compat; assumption).
  assert (SP : 0 < sin (a + b)). { apply (Rmult_lt_reg_l (rnorm u * rnorm v * (rnorm v * rnorm w))); [exact PN|]. rewrite Rmult_0_r, SS. apply Rmult_lt_0_compat; assumption. }
  assert (LE : a + b <= PI). { apply Rnot_lt_le. intros N. destruct (Rle_lt_dec (a + b) (2 * PI)) as [M|M]; [|lra]. assert (X := sin_le_0 (a + b) ltac:(lra) M). lra. }
  unfold ang at 1. rewrite <- (acos_cos (a + b)) by lra. f_equal.
  apply (Rmult_eq_reg_l (rnorm u * rnorm v * (rnorm v * rnorm w))); [|lra]. rewrite CC, <- N2. field. split; lra.
Qed.
Lemma ang_open u v : rcross u v <> 0 -> 0 < ang u v < PI.
Proof.
  intros H. destruct (norm_pos u v H) as [U V]. assert (S := ang_sin u v U V). assert (B := ang_bound u v). assert (A : 0 < Rabs (rcross u v)) by (apply Rabs_pos_lt, H).
  split.
  - destruct (proj1 B) as [L|E]; [exact L|]. rewrite <- E, sin_0 in S. lra.
  - destruct (proj2 B) as [L|E]; [exact L|]. rewrite E, sin_PI in S. lra.
Qed.
Lemma turn_ang u v : 0 < rnorm u -> 0 < rnorm v -> 0 <= rcross u v -> turn (ang u v) u v.
Proof.
  intros U V X. assert (C := ang_cos u v U V). assert (S := ang_sin u v U V). rewrite Rabs_pos_eq in S by exact X. assert (N := norm_sq u).
  split; apply (Rmult_eq_reg_l (rnorm u)); try lra.
  - replace (rnorm u * (rnorm u * fst v)) with (rnorm u * rnorm u * fst v) by ring. rewrite N.
    replace (rnorm u * (rnorm v * (cos (ang u v) * fst u - sin (ang u v) * snd u))) with ((rnorm u * rnorm v * cos (ang u v)) * fst u - (rnorm u * rnorm v * sin (ang u v)) * snd u) by ring.
    rewrite C, S. unfold rdot, rcross. ring.
  - replace (rnorm u * (rnorm u * snd v)) with (rnorm u * rnorm u * snd v) by ring. rewrite N.
    replace (rnorm u * (rnorm v * (sin (ang u v) * fst u + cos (ang u v) * snd u))) with ((rnorm u * rnorm v * cos (ang u v)) * snd u + (rnorm u * rnorm v * sin (ang u v)) * fst u) by ring.
    rewrite C, S. unfold rdot, rcross. ring.
Qed.
Lemma turn_cos t u v : 0 < rnorm u -> 0 < rnorm v -> turn t u v -> rdot u v = rnorm u * rnorm v * cos t.
Proof.
  intros U V [T1 T2]. apply (Rmult_eq_reg_l (rnorm u)); [|lra]. unfold rdot at 1.
  replace (rnorm u * (fst u * fst v + snd u * snd v)) with (fst u * (rnorm u * fst v) + snd u * (rnorm u * snd v)) by ring. rewrite T1, T2.
  replace (fst u * (rnorm v * (cos t * fst u - sin t * snd u)) + snd u * (rnorm v * (sin t * fst u + cos t * snd u))) with (rnorm v * cos t * rdot u u) by (unfold rdot; ring).
  rewrite <- norm_sq. ring.
Qed.
Lemma turn_value t u v : 0 < rnorm u -> 0 < rnorm v -> turn t u v -> (0 <= t <= PI -> ang u v = t) /\ (PI <= t <= 2 * PI -> ang u v = 2 * PI - t).
Proof.
  intros U V T. assert (C := turn_cos t u v U V T). assert (E : rdot u v / (rnorm u * rnorm v) = cos t) by (rewrite C; field; split; lra). unfold ang. rewrite E. split; intros B.
  - apply acos_cos, B.
  - replace (cos t) with (cos (2 * PI - t)); [apply acos_cos; lra|]. replace (2 * PI - t) with (- t + 2 * PI) by ring. rewrite cos_plus, cos_neg, sin_neg, cos_2PI, sin_2PI. ring.
Qed.
(* lengths as norms of the sides *)
Lemma length_sym p q : edge_length p q = rnorm (rsub p q).
Proof. unfold edge_length, rnorm. f_equal. unfold rdot, rsub. cbn. ring. Qed.
