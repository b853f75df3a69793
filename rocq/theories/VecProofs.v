(* Lemmas on vectors of any length. *)
From Coq Require Import Lia Lqa Setoid.
From Verif Require Import Base UtilModel UtilProofs VecModel VecSpec.
Open Scope Q_scope.

Lemma same_refl a : same a a.
Proof. induction a; constructor; [reflexivity|assumption]. Qed.
Lemma transform2_entries {A} (f : Q -> Q -> A) a : forall b, length a = length b -> entrywise f a b (transform2 f a b).
Proof.
  induction a as [|x a IH]; intros [|y b] L; try discriminate; [split; [reflexivity|intros [|i] u v E; discriminate E]|].
  destruct (IH b ltac:(cbn in L; lia)) as [IL IE]. split; [cbn; lia|]. intros [|i] u v E F; cbn in *; [congruence|exact (IE i u v E F)].
Qed.

(* ---- the compound assignments ---- *)
Lemma set_at pre x y rest : set_entry (length pre) y (pre ++ x :: rest) = pre ++ y :: rest.
Proof. induction pre as [|p pre IH]; [reflexivity|cbn [length app set_entry]; rewrite IH; reflexivity]. Qed.
Lemma nth_at {A} (pre : list A) x rest : nth_error (pre ++ x :: rest) (length pre) = Some x.
Proof. induction pre; [reflexivity|assumption]. Qed.
Lemma loop_step f o m pre x rest y : read o (pre ++ x :: rest) (length pre) = Some y ->
  assign_loop f o (S m) (length pre) (pre ++ x :: rest) = assign_loop f o m (length (pre ++ [f x y])) ((pre ++ [f x y]) ++ rest).
Proof. intros R. cbn [assign_loop]. rewrite nth_at, R, set_at, app_length, <- app_assoc. cbn [length app]. rewrite Nat.add_1_r. reflexivity. Qed.
Lemma loop_value f s rest : forall pre, assign_loop f (Value s) (length rest) (length pre) (pre ++ rest) = Ok (pre ++ map (fun x => f x s) rest).
Proof.
  induction rest as [|x rest IH]; intros pre; [reflexivity|]. cbn [length]. rewrite (loop_step f (Value s) _ pre x rest s eq_refl), IH, <- app_assoc. reflexivity.
Qed.
Lemma loop_itself f rest : forall pre, assign_loop f Itself (length rest) (length pre) (pre ++ rest) = Ok (pre ++ map (fun x => f x x) rest).
Proof.
  induction rest as [|x rest IH]; intros pre; [reflexivity|]. cbn [length]. rewrite (loop_step f Itself _ pre x rest x (nth_at pre x rest)), IH, <- app_assoc. reflexivity.
Qed.
Lemma loop_other f rest : forall pre bp br, length bp = length pre -> length br = length rest ->
  assign_loop f (Other (bp ++ br)) (length rest) (length pre) (pre ++ rest) = Ok (pre ++ transform2 f rest br).
Proof.
  induction rest as [|x rest IH]; intros pre bp [|y br] L1 L2; try discriminate; [reflexivity|]. cbn [length].
  rewrite (loop_step f _ _ pre x rest y) by (cbn [read]; rewrite <- L1; apply nth_at).
  replace (bp ++ y :: br) with ((bp ++ [y]) ++ br) by (rewrite <- app_assoc; reflexivity).
  rewrite IH by (try rewrite !app_length; cbn in *; lia). rewrite <- app_assoc. reflexivity.
Qed.
Lemma loop_behind f i s rest : forall pre, nth_error pre i = Some s ->
  assign_loop f (Entry i) (length rest) (length pre) (pre ++ rest) = Ok (pre ++ map (fun x => f x s) rest).
Proof.
  induction rest as [|x rest IH]; intros pre H; [reflexivity|]. cbn [length].
  assert (LT : (i < length pre)%nat) by (apply nth_error_Some; rewrite H; discriminate).
  rewrite (loop_step f _ _ pre x rest s) by (cbn [read]; rewrite nth_error_app1; assumption).
  rewrite IH by (rewrite nth_error_app1; assumption). rewrite <- app_assoc. reflexivity.
Qed.
Lemma loop_entry f x r2 r1 : forall pre, assign_loop f (Entry (length pre + length r1)) (length (r1 ++ x :: r2)) (length pre) (pre ++ r1 ++ x :: r2) =
  Ok (pre ++ map (fun y => f y x) r1 ++ f x x :: map (fun y => f y (f x x)) r2).
Proof.
  induction r1 as [|z r1 IH]; intros pre; cbn [app length].
  - rewrite Nat.add_0_r. rewrite (loop_step f _ _ pre x r2 x) by (cbn [read]; apply nth_at).
    rewrite (loop_behind f (length pre) (f x x)) by apply nth_at. rewrite <- app_assoc. reflexivity.
  - rewrite (loop_step f _ _ pre z (r1 ++ x :: r2) x).
    + replace (length pre + S (length r1))%nat with (length (pre ++ [f z x]) + length r1)%nat by (rewrite app_length; cbn; lia).
      rewrite IH, <- app_assoc. reflexivity.
    + cbn [read]. replace (pre ++ z :: r1 ++ x :: r2) with ((pre ++ z :: r1) ++ x :: r2) by (rewrite <- app_assoc; reflexivity).
      replace (length pre + S (length r1))%nat with (length (pre ++ z :: r1)) by (rewrite app_length; cbn; lia). apply nth_at.
Qed.

(* ---- the inner product ---- *)
Lemma products_cons x y a b : products (x :: a) (y :: b) = x * y + products a b.
Proof. reflexivity. Qed.
Lemma inner_spec a : forall b acc, inner_product acc a b == acc + products a b.
Proof.
  induction a as [|x a IH]; intros [|y b] acc; cbn [inner_product]; try (unfold products; cbn; ring). rewrite IH, products_cons. ring.
Qed.
Lemma dot_spec a b : vec_dot a b == products a b.
Proof. unfold vec_dot. rewrite inner_spec. ring. Qed.
Lemma products_sym a : forall b, products a b == products b a.
Proof. induction a as [|x a IH]; intros [|y b]; try reflexivity. rewrite !products_cons, IH. ring. Qed.
Lemma squares_pos a : 0 <= products a a.
Proof. induction a as [|x a IH]; [discriminate|]. rewrite products_cons. assert (0 <= x * x) by nra. lra. Qed.
Lemma squares_zero a : products a a == 0 <-> Forall (fun x => x == 0) a.
Proof.
  induction a as [|x a IH]; [split; [constructor|reflexivity]|]. rewrite products_cons. assert (P := squares_pos a). assert (Q : 0 <= x * x) by nra. split.
  - intros E. constructor; [assert (x * x == 0) by lra; destruct (Qmult_integral x x H); assumption|apply IH; lra].
  - intros F. apply Forall_cons_iff in F. destruct F as [F1 F2]. apply IH in F2. rewrite F2, F1. ring.
Qed.
Lemma zero_products b : Forall (fun x => x == 0) b -> forall a, products a b == 0.
Proof.
  induction 1 as [|y b Y _ IH]; intros [|x a]; try reflexivity. rewrite products_cons, IH, Y. ring.
Qed.
Definition blend (s t : Q) (a b : list Q) : list Q := transform2 (fun x y => s * x - t * y) a b.
Lemma blend_squares s t a : forall b, length a = length b ->
  products (blend s t a b) (blend s t a b) == s * s * products a a - 2 * s * t * products a b + t * t * products b b.
Proof.
  induction a as [|x a IH]; intros [|y b] L; try discriminate; [unfold products; cbn; ring|].
  change (blend s t (x :: a) (y :: b)) with ((s * x - t * y) :: blend s t a b). rewrite !products_cons, IH by (cbn in L; lia). ring.
Qed.
Lemma cauchy a b : length a = length b -> products a b * products a b <= products a a * products b b.
Proof.
  intros L. assert (S := blend_squares (products b b) (products a b) a b L). assert (P := squares_pos (blend (products b b) (products a b) a b)). rewrite S in P. clear S.
  assert (B := squares_pos b). destruct (Qlt_le_dec 0 (products b b)) as [H|H].
  - set (A := products a a) in *. set (Bb := products b b) in *. set (D := products a b) in *.
    assert (X : 0 <= Bb * (A * Bb - D * D)) by (setoid_replace (Bb * (A * Bb - D * D)) with (Bb * Bb * A - 2 * Bb * D * D + D * D * Bb) by ring; exact P).
    apply Qnot_lt_le. intros N. assert (Bb * (D * D - A * Bb) > 0) by (apply Qmult_lt_0_compat; lra). lra.
  - assert (Z : products b b == 0) by lra. apply squares_zero in Z. rewrite (zero_products b Z a). assert (products b b == 0) by lra. rewrite H0. lra.
Qed.
Lemma cauchy_equal a b : length a = length b -> 0 < products b b -> products a b * products a b == products a a * products b b -> parallel a b.
Proof.
  intros L B E. assert (S := blend_squares (products b b) (products a b) a b L).
  assert (Z : products (blend (products b b) (products a b) a b) (blend (products b b) (products a b) a b) == 0).
  { rewrite S. setoid_replace (products b b * products b b * products a a) with (products b b * (products a a * products b b)) by ring. rewrite <- E. ring. }
  apply squares_zero in Z. exists (products a b / products b b). set (Bb := products b b) in *. set (D := products a b) in *. clearbody Bb D. clear S E. revert b L Z.
  induction a as [|x a IH]; intros [|y b] L Z; try discriminate; [constructor|]. change (blend Bb D (x :: a) (y :: b)) with ((Bb * x - D * y) :: blend Bb D a b) in Z. apply Forall_cons_iff in Z. destruct Z as [Z1 Z2].
  constructor; [|apply IH; [cbn in L; lia|exact Z2]]. assert (X : Bb * x == D * y) by lra. setoid_replace (D / Bb * y) with (D * y / Bb) by (field; lra). rewrite <- X. field. lra.
Qed.
Lemma parallel_equal a b s : Forall2 (fun x y => x == s * y) a b -> products a b == s * products b b /\ products a a == s * s * products b b.
Proof.
  induction 1 as [|x y a b E _ IH]; [split; unfold products; cbn; ring|]. destruct IH as [I1 I2]. rewrite !products_cons, I1, I2, E. split; ring.
Qed.
Lemma add_squares a : forall b, length a = length b -> products (vec_add a b) (vec_add a b) == products a a + 2 * products a b + products b b.
Proof.
  induction a as [|x a IH]; intros [|y b] L; try discriminate; [unfold products; cbn; ring|].
  change (vec_add (x :: a) (y :: b)) with ((x + y) :: vec_add a b). rewrite !products_cons, IH by (cbn in L; lia). ring.
Qed.
Lemma root_mono r s : 0 <= r -> 0 <= s -> r * r <= s * s -> r <= s.
Proof. intros R S L. apply Qnot_lt_le. intros N. nra. Qed.
Lemma root_le r s : 0 <= s -> r * r <= s * s -> - s <= r <= s.
Proof. intros S L. split; apply Qnot_lt_le; intros N; nra. Qed.
