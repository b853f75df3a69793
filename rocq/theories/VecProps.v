(* C70: vectors of N entries obey the laws of a Euclidean space. *)
From Coq Require Import Lia Lqa Setoid.
From Verif Require Import Base UtilModel UtilProofs VecModel VecSpec VecProofs.
Open Scope Q_scope.

(* every operation works entry by entry, also with a scalar on either side *)
Theorem C70_entries : forall a b, length a = length b ->
  entrywise Qplus a b (vec_add a b) /\ entrywise Qminus a b (vec_sub a b) /\ entrywise Qmult a b (vec_mul a b) /\ entrywise divides a b (vec_div a b) /\
  forall s i x, nth_error a i = Some x ->
    nth_error (vec_neg a) i = Some (- x) /\ nth_error (add_scalar a s) i = Some (x + s) /\ nth_error (scalar_add s a) i = Some (x + s) /\
    nth_error (sub_scalar a s) i = Some (x - s) /\ nth_error (scalar_sub s a) i = Some (s - x) /\ nth_error (mul_scalar a s) i = Some (x * s) /\ nth_error (scalar_mul s a) i = Some (x * s) /\
    nth_error (div_scalar a s) i = Some (divides x s) /\ nth_error (scalar_div s a) i = Some (divides s x).
Proof.
  intros a b L. split; [apply transform2_entries, L|]. split; [apply transform2_entries, L|]. split; [apply transform2_entries, L|]. split; [apply transform2_entries, L|].
  intros s i x E. unfold vec_neg, add_scalar, scalar_add, sub_scalar, scalar_sub, mul_scalar, scalar_mul, div_scalar, scalar_div.
  repeat split; match goal with |- nth_error (map ?f a) i = _ => exact (map_nth_error f i a E) end.
Qed.
(* a quotient is finite where the divisor is not zero, and undoes the product *)
Theorem C70_divides : forall x y, (y == 0 -> divides x y = None) /\ (~ y == 0 -> exists q, divides x y = Some q /\ q * y == x).
Proof.
  intros x y. unfold divides. split; intros H.
  - apply Qeq_bool_iff in H. rewrite H. reflexivity.
  - destruct (Qeq_bool y 0) eqn:E; [apply Qeq_bool_iff in E; contradiction|]. exists (x / y). split; [reflexivity|field; exact H].
Qed.
(* the laws of a vector space *)
Theorem C70_space : forall a b c s t, length a = length b -> length b = length c ->
  same (vec_add a b) (vec_add b a) /\ same (vec_add (vec_add a b) c) (vec_add a (vec_add b c)) /\
  same (vec_add a (repeat 0 (length a))) a /\ same (vec_add a (vec_neg a)) (repeat 0 (length a)) /\ same (vec_sub a b) (vec_add a (vec_neg b)) /\
  same (mul_scalar (vec_add a b) s) (vec_add (mul_scalar a s) (mul_scalar b s)) /\ same (mul_scalar a (s + t)) (vec_add (mul_scalar a s) (mul_scalar a t)) /\
  same (mul_scalar (mul_scalar a s) t) (mul_scalar a (s * t)) /\ same (mul_scalar a 1) a.
Proof.
  intros a. unfold same, vec_add, vec_sub, vec_neg, mul_scalar.
  induction a as [|x a IH]; intros [|y b] [|z c] s t L1 L2; try discriminate; [repeat split; constructor|].
  destruct (IH b c s t ltac:(cbn in L1; lia) ltac:(cbn in L2; lia)) as (H1 & H2 & H3 & H4 & H5 & H6 & H7 & H8 & H9).
  cbn [transform2 map length repeat]. repeat split; constructor; try assumption; ring.
Qed.
(* += and the others give what the operator gives, also with the vector itself *)
Theorem C70_assign : forall f l s b, assign f l (Value s) = Ok (map (fun x => f x s) l) /\
  (length b = length l -> assign f l (Other b) = Ok (transform2 f l b)) /\ assign f l Itself = Ok (transform2 f l l).
Proof.
  intros f l s b. unfold assign. split; [exact (loop_value f s l [])|]. split; [intros L; exact (loop_other f l [] [] b eq_refl L)|].
  etransitivity; [exact (loop_itself f l [])|]. cbn [app]. f_equal. induction l as [|x l IH]; [reflexivity|cbn; rewrite IH; reflexivity].
Qed.
(* but not with an entry of the vector: the entries behind it see its new value *)
Theorem C70_alias_partial : forall f r1 x r2, assign f (r1 ++ x :: r2) (Entry (length r1)) = Ok (map (fun y => f y x) r1 ++ f x x :: map (fun y => f y (f x x)) r2).
Proof. intros f r1 x r2. exact (loop_entry f x r2 r1 []). Qed.
Theorem C70_alias_refuted : exists l i s, nth_error l i = Some s /\ assign Qdiv l (Value s) = Ok [4 / 4; 8 / 4] /\ assign Qdiv l (Entry i) = Ok [4 / 4; 8 / (4 / 4)] /\ ~ 8 / (4 / 4) == 8 / 4.
Proof. exists [4; 8], 0%nat, 4. split; [reflexivity|]. split; [reflexivity|]. split; [reflexivity|]. intros H. vm_compute in H. discriminate H. Qed.

(* ---------- the inner product ---------- *)
Theorem C70_dot : forall a b c s, length a = length b -> length b = length c ->
  vec_dot a b == products a b /\ vec_dot a b == vec_dot b a /\ vec_dot (vec_add a b) c == vec_dot a c + vec_dot b c /\ vec_dot (mul_scalar a s) c == s * vec_dot a c /\
  0 <= vec_norm2 a /\ (vec_norm2 a == 0 <-> Forall (fun x => x == 0) a).
Proof.
  intros a b c s L1 L2. unfold vec_norm2. rewrite !dot_spec. split; [reflexivity|]. split; [apply products_sym|]. split; [|split; [|split; [apply squares_pos|apply squares_zero]]].
  - revert b c L1 L2. induction a as [|x a IH]; intros [|y b] [|z c] L1 L2; try discriminate; [unfold products; cbn; ring|].
    change (vec_add (x :: a) (y :: b)) with ((x + y) :: vec_add a b). rewrite !products_cons, IH by (cbn in *; lia). ring.
  - assert (L : length a = length c) by lia. clear L1 L2. revert c L. induction a as [|x a IH]; intros [|z c] L; try discriminate; [unfold products; cbn; ring|].
    change (mul_scalar (x :: a) s) with ((x * s) :: mul_scalar a s). rewrite !products_cons, IH by (cbn in *; lia). ring.
Qed.
(* Cauchy and Schwarz, with equality for parallel vectors only *)
Theorem C70_cauchy : forall a b, length a = length b -> vec_dot a b * vec_dot a b <= vec_norm2 a * vec_norm2 b /\
  (0 < vec_norm2 b -> vec_dot a b * vec_dot a b == vec_norm2 a * vec_norm2 b <-> parallel a b).
Proof.
  intros a b L. unfold vec_norm2. rewrite !dot_spec. split; [apply cauchy, L|]. intros B. split; [apply cauchy_equal; assumption|].
  intros (s & P). destruct (parallel_equal a b s P) as [E1 E2]. rewrite E1, E2. ring.
Qed.
(* the triangle inequality, with any function that gives the roots *)
Theorem C70_norm : forall sqrt a b s, length a = length b -> root_of (vec_norm sqrt a) (vec_norm2 a) -> root_of (vec_norm sqrt b) (vec_norm2 b) ->
  (root_of (vec_norm sqrt (vec_add a b)) (vec_norm2 (vec_add a b)) -> vec_norm sqrt (vec_add a b) <= vec_norm sqrt a + vec_norm sqrt b) /\
  (root_of (vec_norm sqrt (mul_scalar a s)) (vec_norm2 (mul_scalar a s)) -> 0 <= s -> vec_norm sqrt (mul_scalar a s) == s * vec_norm sqrt a).
Proof.
  intros sqrt a b s L [A0 A1] [B0 B1]. assert (C := proj1 (C70_cauchy a b L)). split.
  - intros [S0 S1]. assert (S2 : vec_norm2 (vec_add a b) == vec_norm2 a + 2 * vec_dot a b + vec_norm2 b) by (unfold vec_norm2; rewrite !dot_spec; apply add_squares, L).
    rewrite S2 in S1. generalize dependent (vec_norm sqrt (vec_add a b)). clear S2. generalize dependent (vec_norm sqrt a). generalize dependent (vec_norm sqrt b). generalize dependent (vec_norm2 a). generalize dependent (vec_norm2 b). generalize (vec_dot a b).
    clear. intros d nb na C rb B0 B1 ra A0 A1 r S0 S1.
    assert (D : d <= ra * rb). { apply root_le; [nra|]. setoid_replace (ra * rb * (ra * rb)) with ((ra * ra) * (rb * rb)) by ring. rewrite A1, B1. exact C. }
    apply root_mono; [assumption|lra|]. rewrite S1. setoid_replace ((ra + rb) * (ra + rb)) with (ra * ra + 2 * (ra * rb) + rb * rb) by ring. rewrite A1, B1. lra.
  - intros [S0 S1] S. assert (S2 : vec_norm2 (mul_scalar a s) == s * s * vec_norm2 a).
    { unfold vec_norm2. rewrite !dot_spec. clear. induction a as [|x a IH]; [unfold products; cbn; ring|]. change (mul_scalar (x :: a) s) with ((x * s) :: mul_scalar a s). rewrite !products_cons, IH. ring. }
    rewrite S2 in S1. generalize dependent (vec_norm sqrt (mul_scalar a s)). generalize dependent (vec_norm sqrt a). generalize (vec_norm2 a). clear - S. intros na ra A0 A1 r S0 S1.
    assert (E : r * r == s * ra * (s * ra)) by (rewrite S1, <- A1; ring). assert (P : 0 <= s * ra) by nra. apply Qle_antisym; apply root_mono; try assumption; lra.
Qed.
(* the cosine of the angle: never cut off in exact arithmetic, and one or minus one for
   parallel vectors only *)
Theorem C70_cos : forall sqrt a b, length a = length b -> root_of (vec_norm sqrt a) (vec_norm2 a) -> root_of (vec_norm sqrt b) (vec_norm2 b) ->
  (0 < vec_norm2 a -> 0 < vec_norm2 b -> exists c, vec_cos sqrt a b = Some c /\ c * (vec_norm sqrt a * vec_norm sqrt b) == vec_dot a b /\ -1 <= c <= 1 /\ (c * c == 1 <-> parallel a b)) /\
  (vec_norm2 a == 0 \/ vec_norm2 b == 0 -> vec_cos sqrt a b = None).
Proof.
  intros sqrt a b L [A0 A1] [B0 B1]. destruct (C70_cauchy a b L) as [C CE]. unfold vec_cos, divides. split.
  - intros PA PB. specialize (CE PB). set (ra := vec_norm sqrt a) in *. set (rb := vec_norm sqrt b) in *. set (d := vec_dot a b) in *. set (na := vec_norm2 a) in *. set (nb := vec_norm2 b) in *. clearbody ra rb d na nb.
    assert (RA : 0 < ra). { apply Qnot_le_lt. intros N. assert (Z : ra == 0) by lra. rewrite Z in A1. lra. } assert (RB : 0 < rb). { apply Qnot_le_lt. intros N. assert (Z : rb == 0) by lra. rewrite Z in B1. lra. }
    assert (P : 0 < ra * rb) by (apply Qmult_lt_0_compat; assumption).
    destruct (Qeq_bool (ra * rb) 0) eqn:E; [apply Qeq_bool_iff in E; lra|]. clear E. cbn [option_map].
    assert (D : - (ra * rb) <= d <= ra * rb). { apply root_le; [lra|]. setoid_replace (ra * rb * (ra * rb)) with ((ra * ra) * (rb * rb)) by ring. rewrite A1, B1. exact C. }
    assert (Q : d / (ra * rb) * (ra * rb) == d) by (field; split; lra).
    assert (I : -1 <= d / (ra * rb) <= 1). { generalize dependent (d / (ra * rb)). intros q Q. split; apply Qnot_lt_le; intros N; nra. }
    assert (K : CLAMP (d / (ra * rb)) (-1) 1 == d / (ra * rb)) by (apply (CLAMP_spec _ (-1) 1 ltac:(discriminate)); apply I).
    exists (CLAMP (d / (ra * rb)) (-1) 1). split; [reflexivity|]. rewrite K. split; [exact Q|]. split; [exact I|]. rewrite <- CE, <- A1, <- B1.
    split; intros H.
    + transitivity (d / (ra * rb) * (d / (ra * rb)) * ((ra * rb) * (ra * rb))); [field; split; lra|rewrite H; ring].
    + transitivity (d * d / ((ra * rb) * (ra * rb))); [field; split; lra|rewrite H; field; split; lra].
  - intros Z. assert (E : vec_norm sqrt a * vec_norm sqrt b == 0).
    { destruct Z as [Z|Z]; [rewrite Z in A1; destruct (Qmult_integral _ _ A1) as [E|E]|rewrite Z in B1; destruct (Qmult_integral _ _ B1) as [E|E]]; rewrite E; ring. }
    apply Qeq_bool_iff in E. rewrite E. reflexivity.
Qed.

(* ---------- the cross product ---------- *)
Theorem C70_cross2 : forall a b, length a = 2%nat -> length b = 2%nat -> exists c c', cross2 a b = Some c /\ cross2 b a = Some c' /\ c' == - c /\
  c * c + vec_dot a b * vec_dot a b == vec_norm2 a * vec_norm2 b /\ (0 < vec_norm2 b -> c == 0 <-> parallel a b).
Proof.
  intros [|x [|y [|? ?]]] [|u [|v [|? ?]]] LA LB; try discriminate. eexists. eexists. split; [reflexivity|]. split; [reflexivity|].
  assert (LG : (x * v - y * u) * (x * v - y * u) + vec_dot [x; y] [u; v] * vec_dot [x; y] [u; v] == vec_norm2 [x; y] * vec_norm2 [u; v]) by (unfold vec_norm2, vec_dot; cbn; ring).
  split; [ring|]. split; [exact LG|]. intros P. rewrite <- (proj2 (C70_cauchy [x; y] [u; v] eq_refl) P), <- LG. split; intros H; [rewrite H; ring|].
  assert (E : (x * v - y * u) * (x * v - y * u) == 0) by lra. destruct (Qmult_integral _ _ E); assumption.
Qed.
Theorem C70_cross3 : forall a b, length a = 3%nat -> length b = 3%nat -> exists c c', cross3 a b = Some c /\ cross3 b a = Some c' /\ length c = 3%nat /\ same c' (vec_neg c) /\
  vec_dot a c == 0 /\ vec_dot b c == 0 /\ vec_norm2 c + vec_dot a b * vec_dot a b == vec_norm2 a * vec_norm2 b.
Proof.
  intros [|x [|y [|z [|? ?]]]] [|u [|v [|w [|? ?]]]] LA LB; try discriminate. eexists. eexists. split; [reflexivity|]. split; [reflexivity|]. split; [reflexivity|].
  split; [unfold same, vec_neg; cbn; repeat (constructor; [ring|]); constructor|]. unfold vec_norm2, vec_dot. cbn. repeat split; ring.
Qed.

(* ---------- comparison, extrema, construction ---------- *)
Theorem C70_equal : forall a b, length a = length b -> vec_eq a b = true <-> same a b.
Proof.
  intros a b L. unfold vec_eq. rewrite vec_is_zero_exact by reflexivity. unfold vec_sub, same. revert b L.
  induction a as [|x a IH]; intros [|y b] L; try discriminate; [split; constructor|]. cbn [transform2]. specialize (IH b ltac:(cbn in L; lia)). split; intros H.
  - apply Forall_cons_iff in H. destruct H as [H1 H2]. constructor; [lra|apply IH, H2].
  - inversion H; subst. constructor; [lra|apply IH; assumption].
Qed.
Theorem C70_extrema : forall a, a <> [] -> exists lo hi, vec_min a = Ok lo /\ vec_max a = Ok hi /\ In lo a /\ In hi a /\ forall x, In x a -> lo <= x <= hi.
Proof.
  intros [|x r] N; [contradiction|]. clear N. exists (fold_left (fun m y => if Qltb y m then y else m) r x), (fold_left (fun m y => if Qltb m y then y else m) r x).
  split; [reflexivity|]. split; [reflexivity|].
  assert (LO : forall r x, In (fold_left (fun m y => if Qltb y m then y else m) r x) (x :: r) /\ forall z, In z (x :: r) -> fold_left (fun m y => if Qltb y m then y else m) r x <= z).
  { clear. induction r as [|y r IH]; intros x; cbn [fold_left]; [split; [left; reflexivity|intros z [<-|[]]; lra]|].
    destruct (Qltb y x) eqn:E; [apply Qltb_true in E|assert (G : ~ y < x) by (rewrite <- Qltb_true, E; discriminate)].
    - destruct (IH y) as [I B]. split; [right; exact I|]. intros z [<-|Z]; [specialize (B y (or_introl eq_refl)); lra|exact (B z Z)].
    - destruct (IH x) as [I B]. split; [destruct I as [I|I]; [left; exact I|right; right; exact I]|]. intros z [<-|[<-|Z]]; [apply B; left; reflexivity|specialize (B x (or_introl eq_refl)); lra|apply B; right; exact Z]. }
  assert (HI : forall r x, In (fold_left (fun m y => if Qltb m y then y else m) r x) (x :: r) /\ forall z, In z (x :: r) -> z <= fold_left (fun m y => if Qltb m y then y else m) r x).
  { clear. induction r as [|y r IH]; intros x; cbn [fold_left]; [split; [left; reflexivity|intros z [<-|[]]; lra]|].
    destruct (Qltb x y) eqn:E; [apply Qltb_true in E|assert (G : ~ x < y) by (rewrite <- Qltb_true, E; discriminate)].
    - destruct (IH y) as [I B]. split; [right; exact I|]. intros z [<-|Z]; [specialize (B y (or_introl eq_refl)); lra|exact (B z Z)].
    - destruct (IH x) as [I B]. split; [destruct I as [I|I]; [left; exact I|right; right; exact I]|]. intros z [<-|[<-|Z]]; [apply B; left; reflexivity|specialize (B x (or_introl eq_refl)); lra|apply B; right; exact Z]. }
  destruct (LO r x) as [L1 L2], (HI r x) as [H1 H2]. split; [exact L1|]. split; [exact H1|]. intros z Z. split; [exact (L2 z Z)|exact (H2 z Z)].
Qed.
Theorem C70_construct : forall n args, (length args <= n)%nat -> vec_of n args = Some (args ++ repeat 0 (n - length args)).
Proof.
  induction n as [|n IH]; intros [|x r] L; cbn in L; try lia; [reflexivity| |].
  - cbn [vec_of]. rewrite (IH [] ltac:(cbn; lia)). cbn [option_map length app]. rewrite !Nat.sub_0_r. reflexivity.
  - cbn [vec_of]. rewrite (IH r ltac:(lia)). reflexivity.
Qed.
(* x, y and z name the first three entries; a name behind the end is the first entry *)
Theorem C70_names : forall l, get_x l = nth_error l 0 /\ ((2 <= length l)%nat -> get_y l = nth_error l 1) /\ ((3 <= length l)%nat -> get_z l = nth_error l 2) /\
  ((length l < 3)%nat -> get_z l = get_x l) /\ ((length l < 2)%nat -> get_y l = get_x l).
Proof.
  intros l. unfold get_x, get_y, get_z. split; [reflexivity|]. repeat split; intros H; repeat match goal with |- context [(length l <? ?n)%nat] => destruct (length l <? n)%nat eqn:E; [apply Nat.ltb_lt in E|apply Nat.ltb_ge in E] end; try reflexivity; lia.
Qed.

(* ---------- cases ---------- *)
Example C70_case : root_of (vec_norm (fun x => if Qeq_bool x 25 then 5 else 13) [3; 4]) (vec_norm2 [3; 4]) /\ root_of (vec_norm (fun x => if Qeq_bool x 25 then 5 else 13) [5; 12]) (vec_norm2 [5; 12]) /\
  (exists c, vec_cos (fun x => if Qeq_bool x 25 then 5 else 13) [3; 4] [5; 12] = Some c /\ c == 63 # 65) /\ cross2 [3; 4] [5; 12] = Some (3 * 12 - 4 * 5) /\ ~ parallel [3; 4] [5; 12].
Proof.
  split; [split; [discriminate|reflexivity]|]. split; [split; [discriminate|reflexivity]|]. split; [eexists; split; reflexivity|]. split; [reflexivity|].
  intros P. apply (proj2 (C70_cauchy [3; 4] [5; 12] eq_refl) ltac:(reflexivity)) in P. vm_compute in P. discriminate P.
Qed.
Example C70_norm_case : let sq := fun x => if Qeq_bool x 25 then 5 else if Qeq_bool x 4 then 2 else if Qeq_bool x 225 then 15 else 3 in
  root_of (vec_norm sq [3; 0; 4]) (vec_norm2 [3; 0; 4]) /\ root_of (vec_norm sq [-2; 0; 0]) (vec_norm2 [-2; 0; 0]) /\ root_of (vec_norm sq (mul_scalar [3; 0; 4] 3)) (vec_norm2 (mul_scalar [3; 0; 4] 3)) /\
  assign Qplus [1; 2] (Other [3; 4]) = Ok [1 + 3; 2 + 4] /\ vec_eq [1 # 2; 3] [2 # 4; 3] = true /\ vec_min [2; 1; 3] = Ok 1 /\ vec_of 3 [1] = Some [1; 0; 0].
Proof. repeat split; discriminate. Qed.

Print Assumptions C70_entries.
Print Assumptions C70_divides.
Print Assumptions C70_space.
Print Assumptions C70_assign.
Print Assumptions C70_alias_partial.
Print Assumptions C70_alias_refuted.
Print Assumptions C70_dot.
Print Assumptions C70_cauchy.
Print Assumptions C70_norm.
Print Assumptions C70_cos.
Print Assumptions C70_cross2.
Print Assumptions C70_cross3.
Print Assumptions C70_equal.
Print Assumptions C70_extrema.
Print Assumptions C70_construct.
Print Assumptions C70_names.
