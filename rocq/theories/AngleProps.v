(* C71: the angles of elements. *)
From Coq Require Import Reals Lra Lia List Ratan.
From Verif Require Import AngleModel AngleSpec AngleProofs.
Import ListNotations.
Open Scope R_scope.

(* ---------- triangles ---------- *)
Lemma tri_entries p q r : rcross (rsub q p) (rsub r p) <> 0 ->
  tri_angles p q r = [Some (ang (rsub q p) (rsub r p)); Some (ang (rsub p q) (rsub r q)); Some (ang (rsub p r) (rsub q r))] /\
  0 < edge_length p q /\ 0 < edge_length q r /\ 0 < edge_length r p.
Proof.
  intros H. destruct (norm_pos _ _ H) as [U V]. assert (H2 : rcross (rsub p q) (rsub r q) <> 0) by (replace (rcross (rsub p q) (rsub r q)) with (- rcross (rsub q p) (rsub r p)) by (unfold rcross, rsub; cbn; ring); lra).
  destruct (norm_pos _ _ H2) as [U2 V2]. assert (H3 : rcross (rsub p r) (rsub q r) <> 0) by (replace (rcross (rsub p r) (rsub q r)) with (rcross (rsub q p) (rsub r p)) by (unfold rcross, rsub; cbn; ring); lra).
  destruct (norm_pos _ _ H3) as [U3 V3]. unfold tri_angles. repeat split; try assumption.
  f_equal; [|f_equal; [|f_equal]].
  - rewrite (length_sym r p). apply angle_of; assumption.
  - rewrite (length_sym p q). apply angle_of; assumption.
  - rewrite (length_sym q r). rewrite Rmult_comm. apply angle_of; assumption.
Qed.
Lemma tri_sum p q r : left_turn p q r -> ang (rsub q p) (rsub r p) + ang (rsub p q) (rsub r q) + ang (rsub p r) (rsub q r) = PI.
Proof.
  unfold left_turn. intros H. assert (A : ang (rsub q p) (rsub r q) = ang (rsub q p) (rsub r p) + ang (rsub r p) (rsub r q)) by (apply ang_add; unfold rcross, rsub in *; cbn in *; lra).
  assert (O1 : rsub p q = ropp (rsub q p)) by (unfold rsub, ropp; cbn; f_equal; ring). assert (O2 : rsub p r = ropp (rsub r p)) by (unfold rsub, ropp; cbn; f_equal; ring). assert (O3 : rsub q r = ropp (rsub r q)) by (unfold rsub, ropp; cbn; f_equal; ring).
  rewrite O1, O2, O3, ang_opp, ang_opp2, A. ring.
Qed.
Lemma corner q p r : left_turn p q r -> turn (ang (rsub q p) (rsub r p)) (rsub q p) (rsub r p).
Proof. unfold left_turn. intros H. destruct (norm_pos _ _ (Rgt_not_eq _ _ H)) as [U V]. apply turn_ang; try assumption. lra. Qed.
Lemma left_next p q r : left_turn p q r -> left_turn q r p.
Proof. unfold left_turn, rcross, rsub. cbn. intros. lra. Qed.
(* The angles of a triangle that is not flat are numbers between 0 and pi that add up to pi;
   with counter-clockwise corners each is the turn from one side to the other. *)
Theorem C71_triangle : forall p q r, rcross (rsub q p) (rsub r p) <> 0 -> exists a b c, tri_angles p q r = [Some a; Some b; Some c] /\
  0 < a < PI /\ 0 < b < PI /\ 0 < c < PI /\ a + b + c = PI /\
  (left_turn p q r -> turn a (rsub q p) (rsub r p) /\ turn b (rsub r q) (rsub p q) /\ turn c (rsub p r) (rsub q r)).
Proof.
  intros p q r H. destruct (tri_entries p q r H) as [E _]. rewrite E. eexists. eexists. eexists. split; [reflexivity|].
  split; [apply ang_open, H|]. split; [apply ang_open; intros Z; apply H; unfold rcross, rsub in *; cbn in *; lra|]. split; [apply ang_open; intros Z; apply H; unfold rcross, rsub in *; cbn in *; lra|]. split.
  - destruct (Rtotal_order 0 (rcross (rsub q p) (rsub r p))) as [L|[Z|G]]; [exact (tri_sum p q r L)|exfalso; apply H; symmetry; exact Z|].
    assert (L : left_turn p r q) by (unfold left_turn, rcross, rsub in *; cbn in *; lra). assert (S := tri_sum p r q L).
    rewrite (ang_sym (rsub q p)). rewrite (ang_sym (rsub p r)), (ang_sym (rsub p q)) in S. rewrite (ang_sym (rsub p q)), (ang_sym (rsub p r)). lra.
  - intros L. split; [exact (corner q p r L)|]. split; [rewrite ang_sym; exact (corner r q p (left_next _ _ _ L))|exact (corner p r q (left_next _ _ _ (left_next _ _ _ L)))].
Qed.
Lemma greatest_ge l m : greatest l = Some m -> In m l /\ forall x, In x l -> x <= m.
Proof.
  destruct l as [|x r]; [discriminate|]. cbn [greatest]. intros E. assert (M : m = fold_left (fun m y => if Rlt_dec m y then y else m) r x) by congruence. subst m. clear E. revert x.
  induction r as [|y r IH]; intros x; cbn [fold_left]; [split; [left; reflexivity|intros z [<-|[]]; lra]|]. destruct (Rlt_dec x y) as [L|G].
  - destruct (IH y) as [I B]. split; [right; exact I|]. intros z [<-|Z]; [specialize (B y (or_introl eq_refl)); lra|exact (B z Z)].
  - destruct (IH x) as [I B]. split; [destruct I as [I|I]; [left; exact I|right; right; exact I]|]. intros z [<-|[<-|Z]]; [apply B; left; reflexivity|specialize (B x (or_introl eq_refl)); lra|apply B; right; exact Z].
Qed.
Lemma least_le l m : least l = Some m -> In m l /\ forall x, In x l -> m <= x.
Proof.
  destruct l as [|x r]; [discriminate|]. cbn [least]. intros E. assert (M : m = fold_left (fun m y => if Rlt_dec y m then y else m) r x) by congruence. subst m. clear E. revert x.
  induction r as [|y r IH]; intros x; cbn [fold_left]; [split; [left; reflexivity|intros z [<-|[]]; lra]|]. destruct (Rlt_dec y x) as [L|G].
  - destruct (IH y) as [I B]. split; [right; exact I|]. intros z [<-|Z]; [specialize (B y (or_introl eq_refl)); lra|exact (B z Z)].
  - destruct (IH x) as [I B]. split; [destruct I as [I|I]; [left; exact I|right; right; exact I]|]. intros z [<-|[<-|Z]]; [apply B; left; reflexivity|specialize (B x (or_introl eq_refl)); lra|apply B; right; exact Z].
Qed.
Lemma extrema3 a b c : exists lo hi, min_angle [Some a; Some b; Some c] = Some lo /\ max_angle [Some a; Some b; Some c] = Some hi /\ In lo [a; b; c] /\ In hi [a; b; c] /\ forall x, In x [a; b; c] -> lo <= x <= hi.
Proof.
  unfold min_angle, max_angle. cbn [all_numbers option_map]. destruct (least [a; b; c]) as [lo|] eqn:L; [|discriminate L]. destruct (greatest [a; b; c]) as [hi|] eqn:G; [|discriminate G].
  exists lo, hi. destruct (least_le _ _ L) as [L1 L2], (greatest_ge _ _ G) as [G1 G2]. repeat split; auto.
Qed.
Lemma extrema4 a b c d : exists lo hi, min_angle [Some a; Some b; Some c; Some d] = Some lo /\ max_angle [Some a; Some b; Some c; Some d] = Some hi /\ In lo [a; b; c; d] /\ In hi [a; b; c; d] /\ forall x, In x [a; b; c; d] -> lo <= x <= hi.
Proof.
  unfold min_angle, max_angle. cbn [all_numbers option_map]. destruct (least [a; b; c; d]) as [lo|] eqn:L; [|discriminate L]. destruct (greatest [a; b; c; d]) as [hi|] eqn:G; [|discriminate G].
  exists lo, hi. destruct (least_le _ _ L) as [L1 L2], (greatest_ge _ _ G) as [G1 G2]. repeat split; auto.
Qed.
(* the extreme angles, the limit of the triangulation and the value that is written *)
Theorem C71_extreme : forall p q r, rcross (rsub q p) (rsub r p) <> 0 -> exists lo hi, min_angle (tri_angles p q r) = Some lo /\ max_angle (tri_angles p q r) = Some hi /\
  0 < lo <= PI / 3 /\ PI / 3 <= hi < PI /\
  (forall limit, angle_refused limit (tri_angles p q r) = true <-> exists a, In (Some a) (tri_angles p q r) /\ limit < a) /\
  (forall limit, limit < PI / 3 -> angle_refused limit (tri_angles p q r) = true) /\ angle_refused PI (tri_angles p q r) = false /\
  exists w, written_angle (tri_angles p q r) = Some w /\ 60 <= w < 180.
Proof.
  intros p q r H. destruct (C71_triangle p q r H) as (a & b & c & E & A & B & C & S & _). rewrite E. destruct (extrema3 a b c) as (lo & hi & M1 & M2 & I1 & I2 & R). exists lo, hi.
  split; [exact M1|]. split; [exact M2|]. assert (RA := R a (or_introl eq_refl)). assert (RB := R b (or_intror (or_introl eq_refl))). assert (RC := R c (or_intror (or_intror (or_introl eq_refl)))).
  assert (PP := PI_RGT_0).
  assert (LO : 0 < lo <= PI / 3) by (split; [destruct I1 as [<-|[<-|[<-|[]]]]; lra|lra]). assert (HI : PI / 3 <= hi < PI) by (split; [lra|destruct I2 as [<-|[<-|[<-|[]]]]; lra]).
  split; [exact LO|]. split; [exact HI|].
  assert (AR : forall limit, angle_refused limit [Some a; Some b; Some c] = true <-> limit < hi) by (intros limit; unfold angle_refused; rewrite M2; destruct (Rlt_dec limit hi); split; intros; congruence || auto).
  split; [|split; [|split]].
  - intros limit. rewrite AR. split; [intros L; exists hi; split; [destruct I2 as [<-|[<-|[<-|[]]]]; cbn; auto|exact L]|].
    intros (x & X & L). assert (IX : In x [a; b; c]) by (cbn in X; destruct X as [X|[X|[X|[]]]]; assert (x = x) by reflexivity; [left|right; left|right; right; left]; congruence). specialize (R x IX). lra.
  - intros limit L. apply AR. lra.
  - destruct (angle_refused PI [Some a; Some b; Some c]) eqn:X; [apply AR in X; lra|reflexivity].
  - unfold written_angle. rewrite M2. cbn [option_map]. eexists. split; [reflexivity|]. split.
    + apply (Rmult_le_reg_r PI); [exact PP|]. replace (hi * 180 / PI * PI) with (hi * 180) by (field; lra). lra.
    + apply (Rmult_lt_reg_r PI); [exact PP|]. replace (hi * 180 / PI * PI) with (hi * 180) by (field; lra). lra.
Qed.
(* the larger angle lies opposite of the longer side *)
Theorem C71_opposite : forall p q r a b c, rcross (rsub q p) (rsub r p) <> 0 -> tri_angles p q r = [Some a; Some b; Some c] ->
  (a < b <-> edge_length q r < edge_length r p) /\ (b < c <-> edge_length r p < edge_length p q) /\ (a < c <-> edge_length q r < edge_length p q).
Proof.
  intros p q r a b c H T. destruct (tri_entries p q r H) as (E & L1 & L2 & L3). rewrite T in E. assert (A : a = ang (rsub q p) (rsub r p)) by congruence. assert (B : b = ang (rsub p q) (rsub r q)) by congruence. assert (C : c = ang (rsub p r) (rsub q r)) by congruence. clear E T.
  assert (Q1 := norm_sq (rsub q p)). assert (Q2 := norm_sq (rsub r q)). assert (Q3 := norm_sq (rsub p r)). fold (edge_length p q) in Q1. fold (edge_length q r) in Q2. fold (edge_length r p) in Q3.
  assert (CA : edge_length p q * edge_length r p * cos a = rdot (rsub q p) (rsub r p)) by (rewrite A, (length_sym r p); apply ang_cos; [exact L1|rewrite <- length_sym; exact L3]).
  assert (CB : edge_length p q * edge_length q r * cos b = rdot (rsub p q) (rsub r q)) by (rewrite B, (length_sym p q); apply ang_cos; [rewrite <- length_sym; exact L1|exact L2]).
  assert (CC : edge_length r p * edge_length q r * cos c = rdot (rsub p r) (rsub q r)) by (rewrite C, (length_sym q r); apply ang_cos; [exact L3|rewrite <- length_sym; exact L2]).
  assert (OA : 0 < a < PI /\ 0 < b < PI /\ 0 < c < PI).
  { destruct (C71_triangle p q r H) as (a' & b' & c' & E & X1 & X2 & X3 & _). destruct (tri_entries p q r H) as (E' & _). rewrite E' in E. assert (a' = a) by congruence. assert (b' = b) by congruence. assert (c' = c) by congruence. subst a' b' c'. repeat split; lra. }
  destruct OA as (BA & BB & BC).
  set (x := edge_length p q) in *. set (y := edge_length q r) in *. set (z := edge_length r p) in *.
  assert (DA : 2 * (x * z * cos a) = x * x + z * z - y * y) by (rewrite CA, Q1, Q2, Q3; unfold rdot, rsub; cbn; ring).
  assert (DB : 2 * (x * y * cos b) = x * x + y * y - z * z) by (rewrite CB, Q1, Q2, Q3; unfold rdot, rsub; cbn; ring).
  assert (DC : 2 * (z * y * cos c) = z * z + y * y - x * x) by (rewrite CC, Q1, Q2, Q3; unfold rdot, rsub; cbn; ring).
  clearbody x y z. clear CA CB CC Q1 Q2 Q3 A B C.
  (* s lies between the sides u and w, t between u and v *)
  assert (G : forall u v w s t, 0 < u -> 0 < v -> 0 < w -> 0 < s < PI -> 0 < t < PI -> 2 * (u * w * cos s) = u * u + w * w - v * v -> 2 * (u * v * cos t) = u * u + v * v - w * w -> s < t <-> v < w).
  { clear. intros u v w s t U V W S T ES ET.
    assert (CS : cos s < 1) by (rewrite <- cos_0; apply cos_decreasing_1; lra).
    assert (UW : 0 < u * w) by (apply Rmult_lt_0_compat; assumption).
    assert (IN : u < v + w).
    { assert (X : u * w * cos s < u * w * 1) by (apply Rmult_lt_compat_l; assumption). apply Rnot_le_lt. intros N. assert (v * v <= (u - w) * (u - w)) by (apply Rmult_le_compat; lra). nra. }
    assert (CM : s < t <-> cos t < cos s) by (split; [intros L; apply cos_decreasing_1; lra|intros L; apply cos_decreasing_0; lra]). rewrite CM.
    assert (KEY : 2 * (u * v * w) * (cos t - cos s) = (w - v) * ((u - (v + w)) * (u + (v + w)))).
    { replace (2 * (u * v * w) * (cos t - cos s)) with (w * (2 * (u * v * cos t)) - v * (2 * (u * w * cos s))) by ring. rewrite ES, ET. ring. }
    assert (P : 0 < 2 * (u * v * w)) by (repeat apply Rmult_lt_0_compat; lra). assert (N : (u - (v + w)) * (u + (v + w)) < 0) by nra.
    set (k := 2 * (u * v * w)) in *. set (n := (u - (v + w)) * (u + (v + w))) in *. clearbody k n. clear - P N KEY. revert KEY. generalize (cos t) (cos s). intros ct cs KEY. split; intros L.
    - apply Rnot_le_lt. intros M. assert (0 <= (w - v) * n) by nra. assert (k * (ct - cs) < 0) by nra. lra.
    - apply Rnot_le_lt. intros M. assert (0 <= k * (ct - cs)) by nra. assert ((w - v) * n < 0) by nra. lra. }
  split; [apply (G x y z a b); assumption|]. split.
  - apply (G y z x b c); try assumption; lra.
  - apply (G z y x a c); try assumption; lra.
Qed.

(* ---------- quads ---------- *)
Lemma quad_entries p q r s : 0 < edge_length p q -> 0 < edge_length q r -> 0 < edge_length r s -> 0 < edge_length s p ->
  quad_angles p q r s = [Some (ang (rsub q p) (rsub s p)); Some (ang (rsub p q) (rsub r q)); Some (ang (rsub s r) (rsub q r)); Some (ang (rsub r s) (rsub p s))].
Proof.
  intros L1 L2 L3 L4. unfold quad_angles. f_equal; [|f_equal; [|f_equal; [|f_equal]]].
  - rewrite (length_sym s p) in *. rewrite Rmult_comm. apply angle_of; assumption.
  - rewrite (length_sym p q) in *. apply angle_of; assumption.
  - rewrite (length_sym q r) in *. rewrite Rmult_comm. apply angle_of; assumption.
  - rewrite (length_sym r s) in *. apply angle_of; assumption.
Qed.
Lemma left_lengths p q r : left_turn p q r -> 0 < edge_length p q /\ 0 < edge_length q r /\ 0 < edge_length r p.
Proof. intros L. exact (proj2 (tri_entries p q r (Rgt_not_eq _ _ L))). Qed.
(* the angles of a convex quad *)
Theorem C71_quad_partial : forall p q r s, convex4 p q r s -> exists a b c d, quad_angles p q r s = [Some a; Some b; Some c; Some d] /\
  0 < a < PI /\ 0 < b < PI /\ 0 < c < PI /\ 0 < d < PI /\ a + b + c + d = 2 * PI /\
  turn a (rsub q p) (rsub s p) /\ turn b (rsub r q) (rsub p q) /\ turn c (rsub s r) (rsub q r) /\ turn d (rsub p s) (rsub r s) /\
  exists hi w, max_angle (quad_angles p q r s) = Some hi /\ PI / 2 <= hi < PI /\ written_angle (quad_angles p q r s) = Some w /\ 90 <= w < 180.
Proof.
  intros p q r s (C1 & C2 & C3 & C4). destruct (left_lengths _ _ _ C1) as (L1 & L2 & _). destruct (left_lengths _ _ _ C3) as (L3 & L4 & _).
  rewrite (quad_entries p q r s L1 L2 L3 L4).
  assert (T1 := tri_sum p q r C1). assert (T2 := tri_sum r s p C3).
  assert (S1 : ang (rsub q p) (rsub s p) = ang (rsub q p) (rsub r p) + ang (rsub r p) (rsub s p)) by (apply ang_add; unfold left_turn, rcross, rsub in *; cbn in *; lra).
  assert (S2 : ang (rsub s r) (rsub q r) = ang (rsub s r) (rsub p r) + ang (rsub p r) (rsub q r)) by (apply ang_add; unfold left_turn, rcross, rsub in *; cbn in *; lra).
  exists (ang (rsub q p) (rsub s p)), (ang (rsub p q) (rsub r q)), (ang (rsub s r) (rsub q r)), (ang (rsub r s) (rsub p s)). split; [reflexivity|].
  assert (A1 : 0 < ang (rsub q p) (rsub s p) < PI) by (apply ang_open; unfold left_turn, rcross, rsub in *; cbn in *; lra). assert (A2 : 0 < ang (rsub p q) (rsub r q) < PI) by (apply ang_open; unfold left_turn, rcross, rsub in *; cbn in *; lra).
  assert (A3 : 0 < ang (rsub s r) (rsub q r) < PI) by (apply ang_open; unfold left_turn, rcross, rsub in *; cbn in *; lra). assert (A4 : 0 < ang (rsub r s) (rsub p s) < PI) by (apply ang_open; unfold left_turn, rcross, rsub in *; cbn in *; lra).
  assert (SUM : ang (rsub q p) (rsub s p) + ang (rsub p q) (rsub r q) + ang (rsub s r) (rsub q r) + ang (rsub r s) (rsub p s) = 2 * PI).
  { rewrite S1, S2. lra. }
  do 4 (split; [assumption|]). split; [assumption|]. split; [|split; [|split; [|split]]].
  - apply turn_ang; [exact L1|rewrite <- length_sym; exact L4|unfold left_turn, rcross, rsub in *; cbn in *; lra].
  - rewrite ang_sym. apply turn_ang; [exact L2|rewrite <- length_sym; exact L1|unfold left_turn, rcross, rsub in *; cbn in *; lra].
  - apply turn_ang; [exact L3|rewrite <- length_sym; exact L2|unfold left_turn, rcross, rsub in *; cbn in *; lra].
  - rewrite ang_sym. apply turn_ang; [exact L4|rewrite <- length_sym; exact L3|unfold left_turn, rcross, rsub in *; cbn in *; lra].
  - destruct (extrema4 (ang (rsub q p) (rsub s p)) (ang (rsub p q) (rsub r q)) (ang (rsub s r) (rsub q r)) (ang (rsub r s) (rsub p s))) as (lo & hi & _ & M & _ & I & R).
    assert (R1 := R _ (or_introl eq_refl)). assert (R2 := R _ (or_intror (or_introl eq_refl))). assert (R3 := R _ (or_intror (or_intror (or_introl eq_refl)))). assert (R4 := R _ (or_intror (or_intror (or_intror (or_introl eq_refl))))).
    assert (PP := PI_RGT_0). assert (HI : PI / 2 <= hi < PI) by (split; [lra|destruct I as [<-|[<-|[<-|[<-|[]]]]]; lra]).
    exists hi, (hi * 180 / PI). split; [exact M|]. split; [exact HI|]. split; [unfold written_angle; rewrite M; reflexivity|]. split.
    + apply (Rmult_le_reg_r PI); [exact PP|]. replace (hi * 180 / PI * PI) with (hi * 180) by (field; lra). lra.
    + apply (Rmult_lt_reg_r PI); [exact PP|]. replace (hi * 180 / PI * PI) with (hi * 180) by (field; lra). lra.
Qed.
(* every pair of sides has a turn, and the code gives the turn up to pi and its complement
   to the full turn beyond *)
Theorem C71_turn : forall u v, 0 < rnorm u -> 0 < rnorm v -> (exists t, 0 <= t <= 2 * PI /\ turn t u v) /\
  forall t, turn t u v -> (0 <= t <= PI -> acos_of (quotient (rdot u v) (rnorm u * rnorm v)) = Some t) /\
                          (PI <= t <= 2 * PI -> acos_of (quotient (rdot u v) (rnorm u * rnorm v)) = Some (2 * PI - t)).
Proof.
  intros u v U V. assert (B := ang_bound u v). split.
  - destruct (Rle_dec 0 (rcross u v)) as [X|X]; [exists (ang u v); split; [lra|apply turn_ang; assumption]|].
    exists (2 * PI - ang u v). split; [lra|]. assert (T : turn (ang v u) v u) by (apply turn_ang; try assumption; unfold rcross in *; lra). rewrite ang_sym in T. destruct T as [T1 T2].
    unfold turn. replace (2 * PI - ang u v) with (- ang u v + 2 * PI) by ring. rewrite cos_plus, sin_plus, cos_neg, sin_neg, cos_2PI, sin_2PI.
    replace (cos (ang u v) * 1 - - sin (ang u v) * 0) with (cos (ang u v)) by ring. replace (- sin (ang u v) * 1 + cos (ang u v) * 0) with (- sin (ang u v)) by ring.
    assert (SC := sin2_cos2 (ang u v)). unfold Rsqr in SC. set (c := cos (ang u v)) in *. set (s := sin (ang u v)) in *.
    split.
    + replace (rnorm v * (c * fst u - - s * snd u)) with (c * (rnorm v * fst u) + s * (rnorm v * snd u)) by ring. rewrite T1, T2.
      replace (c * (rnorm u * (c * fst v - s * snd v)) + s * (rnorm u * (s * fst v + c * snd v))) with (rnorm u * fst v * (s * s + c * c)) by ring. rewrite SC. ring.
    + replace (rnorm v * (- s * fst u + c * snd u)) with (c * (rnorm v * snd u) - s * (rnorm v * fst u)) by ring. rewrite T1, T2.
      replace (c * (rnorm u * (s * fst v + c * snd v)) - s * (rnorm u * (c * fst v - s * snd v))) with (rnorm u * snd v * (s * s + c * c)) by ring. rewrite SC. ring.
  - intros t T. rewrite (angle_of u v U V). destruct (turn_value t u v U V T) as [H1 H2]. split; intros X; f_equal; auto.
Qed.
(* so the reflex corner of a concave quad is not seen: its angle of 270 degrees becomes 90 *)
Theorem C71_quad_refuted : exists p q r s : pt, left_turn p q r /\ left_turn q r s /\ left_turn r s p /\ turn (3 * (PI / 2)) (rsub q p) (rsub s p) /\
  (exists b c d, quad_angles p q r s = [Some (PI / 2); Some b; Some c; Some d]) /\ exists hi, max_angle (quad_angles p q r s) = Some hi /\ hi <= PI.
Proof.
  exists (0, 0), (1, 0), (-1, 1), (0, -1). split; [unfold left_turn, rcross, rsub; cbn; lra|]. split; [unfold left_turn, rcross, rsub; cbn; lra|]. split; [unfold left_turn, rcross, rsub; cbn; lra|].
  assert (N1 : rnorm (rsub (1, 0) (0, 0)) = 1) by (unfold rnorm, rdot, rsub; cbn; match goal with |- sqrt ?e = 1 => replace e with 1 by ring end; apply sqrt_1).
  assert (N2 : rnorm (rsub (0, -1) (0, 0)) = 1) by (unfold rnorm, rdot, rsub; cbn; match goal with |- sqrt ?e = 1 => replace e with 1 by ring end; apply sqrt_1).
  assert (L : forall x y, 0 < rdot (rsub y x) (rsub y x) -> 0 < edge_length x y) by (intros x y; apply sqrt_lt_R0).
  assert (E := quad_entries (0, 0) (1, 0) (-1, 1) (0, -1) ltac:(apply L; unfold rdot, rsub; cbn; lra) ltac:(apply L; unfold rdot, rsub; cbn; lra) ltac:(apply L; unfold rdot, rsub; cbn; lra) ltac:(apply L; unfold rdot, rsub; cbn; lra)).
  assert (A : ang (rsub (1, 0) (0, 0)) (rsub (0, -1) (0, 0)) = PI / 2).
  { unfold ang. rewrite N1, N2. replace (rdot (rsub (1, 0) (0, 0)) (rsub (0, -1) (0, 0)) / (1 * 1)) with 0 by (unfold rdot, rsub; cbn; field). apply acos_0. }
  split; [|split].
  - unfold turn. rewrite N1, N2, cos_3PI2, sin_3PI2. unfold rsub. cbn. split; ring.
  - rewrite E, A. eauto.
  - rewrite E. match goal with |- context [max_angle [Some ?a; Some ?b; Some ?c; Some ?d]] => destruct (extrema4 a b c d) as (lo & hi & _ & M & _ & I & _) end. exists hi. split; [exact M|].
    destruct I as [<-|[<-|[<-|[<-|[]]]]]; apply ang_bound.
Qed.
(* coinciding neighbour corners give no angle, and the triangle is not refused for it *)
Theorem C71_collapsed : forall p r limit, max_angle (tri_angles p p r) = None /\ angle_refused limit (tri_angles p p r) = false /\ written_angle (tri_angles p p r) = None.
Proof.
  intros p r limit. assert (Z : edge_length p p = 0) by (unfold edge_length, rnorm, rdot, rsub; cbn; match goal with |- sqrt ?e = 0 => replace e with 0 by ring end; apply sqrt_0).
  assert (M : max_angle (tri_angles p p r) = None).
  { unfold max_angle, tri_angles. rewrite Z. unfold quotient at 1. destruct (Req_EM_T (0 * edge_length r p) 0) as [_|N]; [|exfalso; apply N; ring]. reflexivity. }
  split; [exact M|]. unfold angle_refused, written_angle. rewrite M. split; reflexivity.
Qed.

(* ---------- cases ---------- *)
Example C71_triangle_case : rcross (rsub (4, 0) (0, 0)) (rsub (0, 3) (0, 0)) <> 0 /\ left_turn (0, 0) (4, 0) (0, 3) /\ exists b c, tri_angles (0, 0) (4, 0) (0, 3) = [Some (PI / 2); Some b; Some c] /\ b + c = PI / 2.
Proof.
  assert (L : left_turn (0, 0) (4, 0) (0, 3)) by (unfold left_turn, rcross, rsub; cbn; lra). split; [exact (Rgt_not_eq _ _ L)|]. split; [exact L|].
  destruct (C71_triangle _ _ _ (Rgt_not_eq _ _ L)) as (a & b & c & E & _ & _ & _ & S & _). exists b, c.
  assert (A : a = PI / 2).
  { destruct (tri_entries _ _ _ (Rgt_not_eq _ _ L)) as [E' _]. rewrite E' in E. assert (X : a = ang (rsub (4, 0) (0, 0)) (rsub (0, 3) (0, 0))) by congruence. rewrite X. unfold ang.
    replace (rdot (rsub (4, 0) (0, 0)) (rsub (0, 3) (0, 0))) with 0 by (unfold rdot, rsub; cbn; ring). unfold Rdiv. rewrite Rmult_0_l. apply acos_0. }
  rewrite E, A. split; [reflexivity|lra].
Qed.
Example C71_quad_case : convex4 (0, 0) (2, 0) (3, 2) (0, 1).
Proof. unfold convex4, left_turn, rcross, rsub. cbn. repeat split; lra. Qed.

Print Assumptions C71_triangle.
Print Assumptions C71_extreme.
Print Assumptions C71_opposite.
Print Assumptions C71_quad_partial.
Print Assumptions C71_turn.
Print Assumptions C71_quad_refuted.
Print Assumptions C71_collapsed.
