(* Lemmas on the rules that move a vertex in smoothing. *)
From Coq Require Import Lqa Lia Permutation Sorted.
From Verif Require Import Base Chain GeomModel GeomSpec FacetModel UtilModel BdryModel AdvanceModel MeshModel MeshSpec MeshProofs QRefineModel QRefineSpec SmoothModel SpringSpec.
Open Scope Q_scope.

(* ---------- sums of points ---------- *)
Lemma sumQ_permuted l l' : Permutation l l' -> sumQ l == sumQ l'.
Proof. induction 1; cbn [sumQ]; lra. Qed.
Lemma vsum_from l : forall a, vx (fold_left vadd l a) == vx a + sumQ (map vx l) /\ vy (fold_left vadd l a) == vy a + sumQ (map vy l).
Proof.
  induction l as [|p l IH]; intros a; cbn [fold_left map sumQ]; [split; lra|]. destruct (IH (vadd a p)) as [H1 H2].
  rewrite H1, H2. unfold vadd. cbn [vx vy]. split; lra.
Qed.
Lemma vsum_x l : vx (vsum l) == sumQ (map vx l).
Proof. destruct (vsum_from l (V2 0 0)) as [H _]. unfold vsum. rewrite H. cbn [vx]. lra. Qed.
Lemma vsum_y l : vy (vsum l) == sumQ (map vy l).
Proof. destruct (vsum_from l (V2 0 0)) as [_ H]. unfold vsum. rewrite H. cbn [vy]. lra. Qed.
Definition count (n : nat) : Q := inject_Z (Z.of_nat n).
Lemma count_S n : count (S n) == count n + 1.
Proof. unfold count. rewrite Nat2Z.inj_succ, <- Z.add_1_r, inject_Z_plus. reflexivity. Qed.
Lemma count_0 : count 0 == 0.
Proof. reflexivity. Qed.
Lemma count_nonneg n : 0 <= count n.
Proof. induction n; [rewrite count_0; lra|rewrite count_S; lra]. Qed.
Lemma count_pos {A} (l : list A) : l <> [] -> 0 < count (length l).
Proof. destruct l as [|x l]; [congruence|]. intros _. cbn [length]. rewrite count_S. assert (H := count_nonneg (length l)). lra. Qed.
Lemma sumQ_twice l : sumQ (twice l) == 2 * sumQ l.
Proof. induction l as [|x l IH]; cbn [twice sumQ]; lra. Qed.
Lemma map_twice {A B} (f : A -> B) l : map f (twice l) = twice (map f l).
Proof. induction l as [|x l IH]; cbn [twice map]; [reflexivity|rewrite IH; reflexivity]. Qed.
Lemma count_twice {A} (l : list A) : count (length (twice l)) == 2 * count (length l).
Proof. induction l as [|x l IH]; cbn [twice length]; [rewrite count_0; lra|]. rewrite !count_S. lra. Qed.
Lemma in_twice {A} (l : list A) x : In x (twice l) <-> In x l.
Proof. induction l as [|y l IH]; cbn [twice In]; [reflexivity|]. rewrite IH. tauto. Qed.

(* ---------- the mean ---------- *)
Lemma some_inj {A} (x y : A) : Some x = Some y -> x = y.
Proof. congruence. Qed.
Lemma mean_of n (l : list vec2) p : l <> [] -> n = length l -> is_mean l (vadd p (vsub (vscale (/ inject_Z (Z.of_nat n)) (vsum l)) p)).
Proof.
  intros N ->. split; [exact N|]. assert (P := count_pos l N). unfold count in P. set (n := inject_Z (Z.of_nat (length l))) in *. clearbody n.
  unfold vadd, vsub, vscale. cbn [vx vy]. rewrite <- (vsum_x l), <- (vsum_y l). generalize (vx (vsum l)) (vy (vsum l)). intros a b. split; field; lra.
Qed.
Lemma laplace_some pos v ws : ws <> [] -> laplace pos v ws = Some (vsub (vscale (/ inject_Z (Z.of_nat (length ws))) (vsum (map pos ws))) (pos v)).
Proof. destruct ws; [congruence|reflexivity]. Qed.
Lemma laplace_mean pos v ws d : laplace pos v ws = Some d -> is_mean (map pos ws) (vadd (pos v) d).
Proof.
  intros E. assert (N : ws <> []) by (intros ->; discriminate E). rewrite (laplace_some pos v ws N) in E. apply some_inj in E. subst d.
  apply mean_of; [destruct ws; [congruence|discriminate]|symmetry; apply map_length].
Qed.
Lemma mean_unique l c d : is_mean l c -> is_mean l d -> veq c d.
Proof.
  intros (N & X & Y) (_ & X' & Y'). assert (P := count_pos l N). unfold count in P. set (n := inject_Z (Z.of_nat (length l))) in *. clearbody n.
  split; [assert (Z : n * (vx c - vx d) == 0) by lra|assert (Z : n * (vy c - vy d) == 0) by lra]; apply Qmult_integral in Z; lra.
Qed.
Lemma mean_permuted l l' c : Permutation l l' -> is_mean l c -> is_mean l' c.
Proof.
  intros P (N & X & Y). split; [intros ->; apply N; apply Permutation_sym, Permutation_nil in P; exact P|].
  rewrite <- (Permutation_length P). rewrite X, Y. split; apply sumQ_permuted, Permutation_map, P.
Qed.
Lemma mean_twice l c : is_mean (twice l) c <-> is_mean l c.
Proof.
  assert (K : forall n m a b x : Q, n == 2 * m -> a == 2 * b -> (n * x == a <-> m * x == b)).
  { intros n m a b x H1 H2. assert (X : n * x == 2 * (m * x)) by (rewrite H1; ring). split; intros H; lra. }
  unfold is_mean. rewrite (K _ _ _ _ (vx c) (count_twice l) (Qeq_trans _ _ _ (eq_ind_r (fun z => sumQ z == sumQ (twice (map vx l))) (Qeq_refl _) (map_twice vx l)) (sumQ_twice _))).
  rewrite (K _ _ _ _ (vy c) (count_twice l) (Qeq_trans _ _ _ (eq_ind_r (fun z => sumQ z == sumQ (twice (map vy l))) (Qeq_refl _) (map_twice vy l)) (sumQ_twice _))).
  split; intros (N & H); (split; [|exact H]); intros E; apply N; [rewrite E; reflexivity|destruct l; [reflexivity|discriminate]].
Qed.
Lemma linear_sum a b l : sumQ (map (fun q => a * vx q + b * vy q) l) == a * sumQ (map vx l) + b * sumQ (map vy l).
Proof. induction l as [|q l IH]; cbn [map sumQ]; [lra|]. rewrite IH. ring. Qed.
Lemma sum_bound (g : vec2 -> Q) c l : (forall q, In q l -> g q <= c) -> sumQ (map g l) <= count (length l) * c.
Proof.
  induction l as [|q l IH]; intros H; cbn [map sumQ length]; [rewrite count_0; lra|]. rewrite count_S.
  assert (X := H q (or_introl eq_refl)). assert (Y := IH (fun r I => H r (or_intror I))). lra.
Qed.
Lemma mean_hull l c : is_mean l c -> in_hull l c.
Proof.
  intros (N & X & Y) a b d H. assert (P := count_pos l N). assert (S := sum_bound (fun q => a * vx q + b * vy q) d l H). rewrite linear_sum, <- X, <- Y in S.
  unfold count in *. set (n := inject_Z (Z.of_nat (length l))) in *. clearbody n. clear X Y H N.
  apply (Qmult_lt_0_le_reg_r _ _ n P). lra.
Qed.
(* part of the way to the mean *)
Lemma hull_between l v c e : 0 <= e <= 1 -> in_hull l c -> in_hull (v :: l) (vadd v (vscale e (vsub c v))).
Proof.
  intros [E1 E2] H a b d B. assert (V := B v (or_introl eq_refl)). assert (C := H a b d (fun q I => B q (or_intror I))). clear B H.
  unfold vadd, vscale, vsub. cbn [vx vy]. setoid_replace (a * (vx v + e * (vx c - vx v)) + b * (vy v + e * (vy c - vy v))) with ((1 - e) * (a * vx v + b * vy v) + e * (a * vx c + b * vy c)) by ring.
  set (p := a * vx v + b * vy v) in *. set (q := a * vx c + b * vy c) in *. clearbody p q.
  assert (X : 0 <= (1 - e) * (d - p)) by (apply Qmult_le_0_compat; lra). assert (Y : 0 <= e * (d - q)) by (apply Qmult_le_0_compat; lra). lra.
Qed.

(* ---------- torsion springs ---------- *)
Record trig_laws (t : trig) : Prop := {
  tl_same : forall u, ~ veq u (V2 0 0) -> tg_angle t u u == 0;
  tl_cos_eq : forall x y, x == y -> tg_cos t x == tg_cos t y;
  tl_sin_eq : forall x y, x == y -> tg_sin t x == tg_sin t y;
  tl_cos_zero : tg_cos t 0 == 1;
  tl_cos_even : forall x, tg_cos t (- x) == tg_cos t x;
  tl_sin_odd : forall x, tg_sin t (- x) == - tg_sin t x
}.
Section Springs.
Variables (t : trig) (f : Q) (v : vec2) (a : Q).
Hypothesis TL : trig_laws t.
Definition even_pair (x y : vec2) : Prop := tg_angle t (vsub v x) (vsub v y) == a /\ tg_angle t (vsub v y) (vsub v x) == a.
Lemma sin_zero : tg_sin t 0 == 0.
Proof. assert (H := tl_sin_odd t TL 0). assert (E := tl_sin_eq t TL (- 0) 0 ltac:(lra)). lra. Qed.
Lemma turned_even i j k : even_pair i j -> even_pair j k -> veq (turned t f v i j k) v.
Proof.
  intros [_ H1] [H2 _]. unfold turned, veq. cbn [vx vy].
  assert (B : f * (tg_angle t (vsub v j) (vsub v i) - tg_angle t (vsub v j) (vsub v k)) == 0) by (rewrite H1, H2; ring).
  rewrite (tl_cos_eq t TL _ _ B), (tl_sin_eq t TL _ _ B), (tl_cos_zero t TL), sin_zero. cbn [vx vy vsub]. split; ring.
Qed.
(* the two copies of a neighbour are turned by the same angle in opposite directions *)
Lemma turned_copies i j k : ~ veq v j -> even_pair i j -> even_pair j k ->
  vx (turned t f v i j j) + vx (turned t f v j j k) == 2 * vx j + 2 * tg_cos t (f * a) * (vx v - vx j) /\
  vy (turned t f v i j j) + vy (turned t f v j j k) == 2 * vy j + 2 * tg_cos t (f * a) * (vy v - vy j).
Proof.
  intros N [_ H1] [H2 _]. assert (Z : tg_angle t (vsub v j) (vsub v j) == 0) by (apply (tl_same t TL); intros [Q1 Q2]; apply N; split; cbn [vx vy vsub] in Q1, Q2; lra).
  unfold turned. cbn [vx vy].
  assert (B1 : f * (tg_angle t (vsub v j) (vsub v i) - tg_angle t (vsub v j) (vsub v j)) == f * a) by (rewrite H1, Z; ring).
  assert (B2 : f * (tg_angle t (vsub v j) (vsub v j) - tg_angle t (vsub v j) (vsub v k)) == - (f * a)) by (rewrite H2, Z; ring).
  rewrite (tl_cos_eq t TL _ _ B1), (tl_sin_eq t TL _ _ B1), (tl_cos_eq t TL _ _ B2), (tl_sin_eq t TL _ _ B2), (tl_cos_even t TL), (tl_sin_odd t TL).
  cbn [vx vy vsub]. split; ring.
Qed.
Lemma turned_all_even l : forall i k, (forall x y, In (x, y) (path_edges i (l ++ [k])) -> even_pair x y) ->
  sumQ (map vx (turned_all t f v i l k)) == count (length l) * vx v /\ sumQ (map vy (turned_all t f v i l k)) == count (length l) * vy v.
Proof.
  induction l as [|j l IH]; intros i k H; [cbn; split; rewrite count_0; ring|]. destruct l as [|j' l].
  - cbn [turned_all map sumQ length]. destruct (turned_even i j k) as [X Y]; [apply H; cbn; auto|apply H; cbn; auto|]. rewrite X, Y, !count_S, count_0. split; ring.
  - change (turned_all t f v i (j :: j' :: l) k) with (turned t f v i j j' :: turned_all t f v j (j' :: l) k). cbn [map sumQ].
    destruct (turned_even i j j') as [X Y]; [apply H; cbn; auto|apply H; cbn; auto|]. destruct (IH j k) as [X' Y']; [intros x y I; apply H; cbn [app path_edges]; right; exact I|].
    rewrite X, Y, X', Y'. change (length (j :: j' :: l)) with (S (length (j' :: l))). rewrite !(count_S (length (j' :: l))). split; ring.
Qed.
Lemma turned_all_twice l : forall i k, (forall x, In x l -> ~ veq v x) -> (forall x y, In (x, y) (path_edges i (l ++ [k])) -> even_pair x y) ->
  sumQ (map vx (turned_all t f v i (twice l) k)) == 2 * sumQ (map vx l) + 2 * tg_cos t (f * a) * (count (length l) * vx v - sumQ (map vx l)) /\
  sumQ (map vy (turned_all t f v i (twice l) k)) == 2 * sumQ (map vy l) + 2 * tg_cos t (f * a) * (count (length l) * vy v - sumQ (map vy l)).
Proof.
  induction l as [|j l IH]; intros i k N H; [cbn; split; rewrite count_0; ring|]. destruct l as [|j' l].
  - cbn [twice turned_all map sumQ length]. destruct (turned_copies i j k) as [X Y]; [apply N; left; reflexivity|apply H; cbn; auto|apply H; cbn; auto|].
    rewrite !Qplus_assoc, X, Y, !count_S, count_0. split; ring.
  - change (turned_all t f v i (twice (j :: j' :: l)) k) with (turned t f v i j j :: turned t f v j j j' :: turned_all t f v j (twice (j' :: l)) k).
    change (map vx (j :: j' :: l)) with (vx j :: map vx (j' :: l)). change (map vy (j :: j' :: l)) with (vy j :: map vy (j' :: l)).
    change (length (j :: j' :: l)) with (S (length (j' :: l))). rewrite !(count_S (length (j' :: l))).
    destruct (turned_copies i j j') as [X Y]; [apply N; left; reflexivity|apply H; cbn; auto|apply H; cbn; auto|].
    destruct (IH j k) as [X' Y']; [intros x I; apply N; right; exact I|intros x y I; apply H; cbn [app path_edges]; right; exact I|].
    set (l' := j' :: l) in *. clearbody l'. cbn [map sumQ]. rewrite !Qplus_assoc, X, Y, X', Y'. split; ring.
Qed.
End Springs.

(* ---------- the neighbours ---------- *)
Lemma insert_perm key x l : Permutation (insert_by key x l) (x :: l).
Proof.
  induction l as [|y l IH]; cbn [insert_by]; [reflexivity|]. destruct (Qltb (key y) (key x)); [|reflexivity].
  rewrite IH. apply perm_swap.
Qed.
Lemma sort_perm key l : Permutation (sort_by key l) l.
Proof. unfold sort_by. induction l as [|x l IH]; cbn [fold_right]; [reflexivity|]. rewrite insert_perm, IH. reflexivity. Qed.
Lemma insert_sorted key x l : StronglySorted (fun a b => key a <= key b) l -> StronglySorted (fun a b => key a <= key b) (insert_by key x l).
Proof.
  induction l as [|y l IH]; cbn [insert_by]; intros H; [repeat constructor|]. apply StronglySorted_inv in H. destruct H as [H1 H2].
  destruct (Qltb (key y) (key x)) eqn:E.
  - apply Qltb_true in E. constructor; [apply IH, H1|]. rewrite insert_perm. constructor; [lra|exact H2].
  - apply Qltb_false in E. constructor; [constructor; assumption|]. constructor; [exact E|]. apply Forall_forall. intros z I. apply (Forall_forall _ _) with (x := z) in H2; [|exact I]. cbn in H2. lra.
Qed.
Lemma sort_sorted key l : StronglySorted (fun a b => key a <= key b) (sort_by key l).
Proof. unfold sort_by. induction l as [|x l IH]; cbn [fold_right]; [constructor|]. apply insert_sorted, IH. Qed.
Lemma sorted_unique (key : nat -> Q) l l' : (forall x y, In x l -> In y l -> key x == key y -> x = y) -> Permutation l l' ->
  StronglySorted (fun a b => key a <= key b) l -> StronglySorted (fun a b => key a <= key b) l' -> l = l'.
Proof.
  revert l'. induction l as [|x l IH]; intros l' J P S S'; [apply Permutation_nil in P; subst; reflexivity|].
  destruct l' as [|y l']; [apply Permutation_sym, Permutation_nil in P; discriminate|].
  apply StronglySorted_inv in S. apply StronglySorted_inv in S'. destruct S as [S F], S' as [S' F']. rewrite Forall_forall in F, F'.
  assert (Iy : In y (x :: l)) by (apply Permutation_in with (1 := Permutation_sym P); left; reflexivity).
  assert (Ix : In x (y :: l')) by (apply Permutation_in with (1 := P); left; reflexivity).
  assert (E : x = y).
  { destruct Iy as [E|Iy]; [exact E|]. destruct Ix as [E|Ix]; [symmetry; exact E|]. apply J; [left; reflexivity|right; exact Iy|].
    apply F in Iy. apply F' in Ix. lra. }
  subst y. f_equal. apply IH; [intros a b I1 I2; apply J; right; assumption|exact (Permutation_cons_inv P)|exact S|exact S'].
Qed.
Lemma twice_sorted (key : nat -> Q) l : StronglySorted (fun a b => key a <= key b) l -> StronglySorted (fun a b => key a <= key b) (twice l).
Proof.
  induction l as [|x l IH]; cbn [twice]; intros H; [constructor|]. apply StronglySorted_inv in H. destruct H as [H1 H2].
  assert (X : Forall (fun b => key x <= key b) (twice l)) by (apply Forall_forall; intros b I; apply (proj1 (in_twice l b)) in I; rewrite Forall_forall in H2; exact (H2 b I)).
  constructor; [constructor; [apply IH, H1|exact X]|constructor; [lra|exact X]].
Qed.
Lemma twice_perm {A} (l l' : list A) : Permutation l l' -> Permutation (twice l) (twice l').
Proof.
  induction 1 as [|x l l' P IH|x y l|l l' l'' P IH P' IH']; cbn [twice]; [reflexivity|rewrite IH; reflexivity| |etransitivity; eassumption].
  change (y :: y :: x :: x :: twice l) with ([y; y] ++ [x; x] ++ twice l). change (x :: x :: y :: y :: twice l) with ([x; x] ++ [y; y] ++ twice l). apply Permutation_app_swap_app.
Qed.
Lemma count_twice_occ (l : list nat) w : count_occ Nat.eq_dec (twice l) w = (2 * count_occ Nat.eq_dec l w)%nat.
Proof. induction l as [|x l IH]; cbn [twice count_occ]; [reflexivity|]. destruct (Nat.eq_dec x w); rewrite IH; lia. Qed.

(* how often a vertex is a neighbour of v *)
Notation occ := (count_occ Nat.eq_dec).
Notation pocc := (count_occ pair_dec).
Definition around (v : nat) (f : facet) : list nat := filter (fun w => negb (Nat.eqb w v)) (corners (fa_sh f)).
Lemma around_count f v w : NoDup (corners (fa_sh f)) -> w <> v ->
  (if existsb (Nat.eqb v) (corners (fa_sh f)) then occ (around v f) w else 0)%nat =
  (pocc (sides f) (v, w) + pocc (sides f) (w, v) + (if opposite v w f then 1 else 0))%nat.
Proof.
  intros ND N. unfold around, sides, opposite. destruct (fa_sh f) as [a b c|a b c d]; cbn [corners] in *.
  - destruct (nodup3 _ _ _ ND) as (N1 & N2 & N3). clear ND.
    destruct (Nat.eq_dec v a) as [->|A]; [|destruct (Nat.eq_dec v b) as [->|B]; [|destruct (Nat.eq_dec v c) as [->|C]]];
      cbn [existsb filter ring_edges path_edges app];
      repeat (rewrite ?Nat.eqb_refl; match goal with |- context [Nat.eqb ?x ?y] => replace (Nat.eqb x y) with false by (symmetry; apply Nat.eqb_neq; congruence) end);
      rewrite ?Nat.eqb_refl; cbn [orb negb count_occ];
      repeat match goal with |- context [Nat.eq_dec ?x ?y] => destruct (Nat.eq_dec x y); subst | |- context [pair_dec ?x ?y] => destruct (pair_dec x y) as [?|?] end;
      try reflexivity; try congruence; exfalso; congruence.
  - destruct (nodup4 _ _ _ _ ND) as (N1 & N2 & N3 & N4 & N5 & N6). clear ND.
    destruct (Nat.eq_dec v a) as [->|A]; [|destruct (Nat.eq_dec v b) as [->|B]; [|destruct (Nat.eq_dec v c) as [->|C]; [|destruct (Nat.eq_dec v d) as [->|D]]]];
    (destruct (Nat.eq_dec w a) as [->|A']; [|destruct (Nat.eq_dec w b) as [->|B']; [|destruct (Nat.eq_dec w c) as [->|C']; [|destruct (Nat.eq_dec w d) as [->|D']]]]);
      try congruence;
      cbn [existsb filter ring_edges path_edges app];
      repeat (rewrite ?Nat.eqb_refl; match goal with |- context [Nat.eqb ?x ?y] => replace (Nat.eqb x y) with false by (symmetry; apply Nat.eqb_neq; congruence) end);
      rewrite ?Nat.eqb_refl; cbn [andb orb negb count_occ];
      repeat match goal with |- context [Nat.eq_dec ?x ?y] => destruct (Nat.eq_dec x y); [try (exfalso; congruence)|try (exfalso; congruence)] | |- context [pair_dec ?x ?y] => destruct (pair_dec x y) as [?|?]; [try (exfalso; congruence)|try (exfalso; congruence)] end;
      try reflexivity; exfalso; congruence.
Qed.
Lemma flat_count (v w : nat) (l : list facet) : (forall f, In f l -> NoDup (corners (fa_sh f))) -> w <> v ->
  occ (flat_map (around v) (filter (fun f => existsb (Nat.eqb v) (corners (fa_sh f))) l)) w =
  (pocc (flat_map sides l) (v, w) + pocc (flat_map sides l) (w, v) + length (filter (opposite v w) l))%nat.
Proof.
  intros H N. induction l as [|f l IH]; [reflexivity|]. cbn [filter flat_map]. assert (A := around_count f v w (H f (or_introl eq_refl)) N).
  specialize (IH (fun g I => H g (or_intror I))). rewrite !count_occ_app.
  destruct (existsb (Nat.eqb v) (corners (fa_sh f))); cbn [flat_map]; [rewrite count_occ_app, IH|rewrite IH]; destruct (opposite v w f); cbn [length]; lia.
Qed.
Lemma neighbours_count m v w : conforming m -> w <> v ->
  occ (neighbours_of m v) w = (pocc (all_sides m) (v, w) + pocc (all_sides m) (w, v) + length (filter (opposite v w) (facets m)))%nat.
Proof.
  intros C N. unfold all_sides. rewrite <- (flat_count v w (facets m) (cf_corners _ C) N).
  apply (Permutation_count_occ Nat.eq_dec). unfold neighbours_of, facets_at. apply Permutation_flat_map, by_age_perm.
Qed.
Lemma neighbours_not_self m v : ~ In v (neighbours_of m v).
Proof. unfold neighbours_of. intros H. apply in_flat_map in H. destruct H as (f & _ & H). apply filter_In in H. destruct H as [_ H]. rewrite Nat.eqb_refl in H. discriminate. Qed.
Lemma nodup_count {A} (dec : forall x y : A, {x = y} + {x <> y}) l x : NoDup l -> count_occ dec l x = if in_dec dec x l then 1%nat else 0%nat.
Proof. intros N. destruct (in_dec dec x l) as [I|I]; [exact (proj1 (NoDup_count_occ' dec l) N x I)|apply count_occ_not_In; exact I]. Qed.
Lemma joined_sides m v w : conforming m -> (joined m v w <-> In (v, w) (all_sides m) \/ In (w, v) (all_sides m)).
Proof.
  intros C. split.
  - intros (e & I & H). apply in_app_or in I. destruct I as [I|I].
    + destruct (cf_intr _ C e I) as [X Y]. destruct H as [[<- <-]|[<- <-]]; auto.
    + destruct (cf_bdry _ C e I) as [X Y]. destruct H as [[<- <-]|[<- <-]]; auto.
  - intros [H|H]; destruct (cf_cover _ C _ _ H) as (e & I & J); exists e; tauto.
Qed.
Lemma interior_joined m v w : conforming m -> interior m v -> joined m v w -> In (v, w) (all_sides m) /\ In (w, v) (all_sides m).
Proof.
  intros C Iv (e & I & H). apply in_app_or in I. destruct I as [I|I].
  - destruct (cf_intr _ C e I) as [X Y]. destruct H as [[<- <-]|[<- <-]]; auto.
  - destruct (Iv e I) as [X Y]. tauto.
Qed.
(* at an interior vertex: twice for the vertices joined by an edge, once more for each quad with w opposite to v *)
Lemma interior_count m v w : conforming m -> interior m v -> w <> v ->
  (joined m v w /\ occ (neighbours_of m v) w = 2 + length (filter (opposite v w) (facets m)))%nat \/
  (~ joined m v w /\ occ (neighbours_of m v) w = length (filter (opposite v w) (facets m)))%nat.
Proof.
  intros C Iv N. rewrite (neighbours_count m v w C N), !(nodup_count pair_dec _ _ (cf_sides _ C)).
  destruct (in_dec pair_dec (v, w) (all_sides m)) as [I1|I1]; destruct (in_dec pair_dec (w, v) (all_sides m)) as [I2|I2].
  - left. split; [apply (joined_sides m v w C); left; exact I1|lia].
  - exfalso. apply I2. apply (interior_joined m v w C Iv). apply (joined_sides m v w C). left. exact I1.
  - exfalso. apply I1. apply (interior_joined m v w C Iv). apply (joined_sides m v w C). right. exact I2.
  - right. split; [|lia]. intros J. apply (joined_sides m v w C) in J. tauto.
Qed.
Lemma no_opposite m v w : conforming m -> mh_quads m = [] -> length (filter (opposite v w) (facets m)) = 0%nat.
Proof.
  intros C Q. assert (H : forall f, In f (facets m) -> opposite v w f = false).
  { intros f I. unfold facets in I. rewrite Q in I. destruct (cf_tris _ C f I) as (a & b & c & E). unfold opposite. rewrite E. reflexivity. }
  induction (facets m) as [|f l IH]; [reflexivity|]. cbn [filter]. rewrite (H f (or_introl eq_refl)). apply IH. intros g I. apply H. right. exact I.
Qed.
Lemma tri_neighbours m v : conforming m -> mh_quads m = [] -> interior m v ->
  exists l, NoDup l /\ (forall w, In w l <-> w <> v /\ joined m v w) /\ Permutation (neighbours_of m v) (twice l).
Proof.
  intros C Q Iv. exists (nodup Nat.eq_dec (neighbours_of m v)). assert (ND := NoDup_nodup Nat.eq_dec (neighbours_of m v)). split; [exact ND|].
  assert (IN : forall w, In w (neighbours_of m v) <-> w <> v /\ joined m v w).
  { intros w. split.
    - intros H. assert (N : w <> v) by (intros ->; exact (neighbours_not_self m v H)). split; [exact N|].
      destruct (interior_count m v w C Iv N) as [[J _]|[_ O]]; [exact J|]. exfalso. rewrite (no_opposite m v w C Q) in O. apply count_occ_not_In in O. exact (O H).
    - intros [N J]. destruct (interior_count m v w C Iv N) as [[_ O]|[X _]]; [|exfalso; exact (X J)]. apply (count_occ_In Nat.eq_dec). lia. }
  split; [intros w; rewrite nodup_In; apply IN|]. apply (Permutation_count_occ Nat.eq_dec). intros w. rewrite count_twice_occ, (nodup_count Nat.eq_dec _ w ND).
  destruct (in_dec Nat.eq_dec w (nodup Nat.eq_dec (neighbours_of m v))) as [H|H]; rewrite nodup_In in H.
  - assert (N : w <> v) by (intros ->; exact (neighbours_not_self m v H)). destruct (interior_count m v w C Iv N) as [[_ O]|[X _]]; [|exfalso; apply X, IN, H].
    rewrite (no_opposite m v w C Q) in O. lia.
  - rewrite (proj1 (count_occ_not_In Nat.eq_dec _ _) H). lia.
Qed.
Lemma sorted_twice key ns l : Permutation ns (twice l) -> (forall x y, In x l -> In y l -> key x == key y -> x = y) -> sort_by key ns = twice (sort_by key l).
Proof.
  intros P J. assert (PT : Permutation (sort_by key ns) (twice (sort_by key l))).
  { rewrite (sort_perm key ns), P. apply twice_perm. symmetry. apply sort_perm. }
  apply (sorted_unique key); [|exact PT|apply sort_sorted|apply twice_sorted, sort_sorted].
  assert (I : forall x, In x (sort_by key ns) -> In x l).
  { intros x H. apply (Permutation_in _ (sort_perm key ns)) in H. apply (Permutation_in _ P) in H. apply (proj1 (in_twice l x)) in H. exact H. }
  intros x y Hx Hy. apply J; apply I; assumption.
Qed.

(* ---------- displacements ---------- *)
Lemma last_map {A B} (f : A -> B) l d : last (map f l) (f d) = f (last l d).
Proof. induction l as [|x l IH]; [reflexivity|]. destruct l as [|y l]; [reflexivity|]. exact IH. Qed.
(* the edges of a ring, seen from the last point *)
Lemma path_last {A} (i : A) l k x y : In (x, y) (path_edges i (l ++ [k])) -> l <> [] -> In (x, y) ((i, hd k l) :: path_edges (hd k l) (tl l ++ [k])).
Proof. destruct l as [|j l]; [congruence|]. intros H _. exact H. Qed.
Lemma path_edges_last {A} (l : list A) : forall a k, In (last l a, k) (path_edges a (l ++ [k])).
Proof. induction l as [|b l IH]; intros a k; [left; reflexivity|]. cbn [app path_edges]. right. destruct l as [|c l]; [left; reflexivity|]. change (last (b :: c :: l) a) with (last (c :: l) a). assert (E : last (c :: l) a = last (c :: l) b). { clear. revert c. induction l as [|d l IH]; intros c; [reflexivity|]. exact (IH d). } rewrite E. apply IH. Qed.
Lemma ring_from_last {A} (w : A) l x y : In (x, y) (path_edges (last (w :: l) w) ((w :: l) ++ [w])) -> In (x, y) (ring_edges (w :: l)).
Proof.
  cbn [app path_edges ring_edges]. intros [E|H]; [|exact H]. injection E as <- <-. destruct l as [|z l]; [left; reflexivity|].
  change (last (w :: z :: l) w) with (last (z :: l) w). apply path_edges_last.
Qed.
Lemma torsion_some t f pos v w l : torsion t f pos v (w :: l) = Some (vsub (vscale (/ inject_Z (Z.of_nat (length (w :: l))))
  (vsum (turned_all t f (pos v) (pos (last (w :: l) w)) (map pos (w :: l)) (pos w)))) (pos v)).
Proof. reflexivity. Qed.
Lemma torsion_even_list t f pos v l a : trig_laws t -> l <> [] -> even_around (tg_angle t) (pos v) (map pos l) a ->
  exists d, torsion t f pos v l = Some d /\ veq d (V2 0 0).
Proof.
  intros TL N E. destruct l as [|w l]; [congruence|]. eexists. split; [apply torsion_some|].
  destruct (turned_all_even t f (pos v) a TL (map pos (w :: l)) (pos (last (w :: l) w)) (pos w)) as [X Y].
  { intros x y I. apply E. rewrite <- last_map in I. apply ring_from_last. exact I. }
  rewrite map_length in X, Y. assert (P := count_pos (w :: l) N). unfold count in *. set (n := inject_Z (Z.of_nat (length (w :: l)))) in *.
  unfold veq, vsub, vscale. cbn [vx vy]. rewrite vsum_x, vsum_y, X, Y. clearbody n. split; field; lra.
Qed.
Lemma last_twice {A} (l : list A) d : last (twice l) d = last l d.
Proof. induction l as [|x l IH]; [reflexivity|]. cbn [twice]. destruct l as [|y l]; [reflexivity|]. exact IH. Qed.
Lemma torsion_twice t f pos v l a d : trig_laws t -> (forall w, In w l -> ~ veq (pos v) (pos w)) -> even_around (tg_angle t) (pos v) (map pos l) a ->
  laplace pos v (twice l) = Some d ->
  exists d', torsion t f pos v (twice l) = Some d' /\ veq d' (vscale (1 - tg_cos t (f * a)) d).
Proof.
  intros TL NV E L. destruct l as [|w l]; [discriminate|]. rewrite laplace_some in L by discriminate. apply some_inj in L. subst d.
  exists (vsub (vscale (/ inject_Z (Z.of_nat (length (twice (w :: l)))))
     (vsum (turned_all t f (pos v) (pos (last (w :: l) w)) (twice (map pos (w :: l))) (pos w)))) (pos v)).
  split; [rewrite <- map_twice, <- last_twice; reflexivity|].
  destruct (turned_all_twice t f (pos v) a TL (map pos (w :: l)) (pos (last (w :: l) w)) (pos w)) as [X Y].
  { intros p I. apply in_map_iff in I. destruct I as (u & <- & I). exact (NV u I). }
  { intros x y I. apply E. rewrite <- last_map in I. apply ring_from_last. exact I. }
  assert (C := count_twice (w :: l)). rewrite map_length in X, Y. assert (P := count_pos (w :: l) ltac:(discriminate)). unfold count in *.
  assert (LX := vsum_x (map pos (twice (w :: l)))). assert (LY := vsum_y (map pos (twice (w :: l)))). rewrite map_twice, map_twice, sumQ_twice in LX, LY.
  set (n := inject_Z (Z.of_nat (length (w :: l)))) in *. set (n2 := inject_Z (Z.of_nat (length (twice (w :: l))))) in *.
  unfold veq, vsub, vscale. cbn [vx vy]. rewrite vsum_x, vsum_y, X, Y, map_twice, LX, LY.
  generalize (sumQ (map vx (map pos (w :: l)))) (sumQ (map vy (map pos (w :: l)))) (tg_cos t (f * a)). intros sx sy c. clearbody n n2.
  clear X Y LX LY E NV. rewrite C. split; field; lra.
Qed.

(* ---------- steps ---------- *)
Lemma in_hull_eq l p q : veq p q -> in_hull l p -> in_hull l q.
Proof. intros [X Y] H a b c B. rewrite <- X, <- Y. exact (H a b c B). Qed.
Lemma hull_trans l l' p : (forall q, In q l -> in_hull l' q) -> in_hull l p -> in_hull l' p.
Proof. intros H I a b c B. apply I. intros q J. exact (H q J a b c B). Qed.
Lemma hull_in l p : In p l -> in_hull l p.
Proof. intros I a b c B. exact (B p I). Qed.
(* one vertex and the Laplace rule: it stays, or goes the part e of the way to the mean *)
Lemma laplace_step s dirs e m i v ns m' : (has_property (mh_prop m v) v_in_quad_layer = true -> nth_error dirs i = Some (V2 0 0)) ->
  smooth_vertex s dirs laplace e m (i, (v, ns)) = Ok m' ->
  m' = m \/ (forall w, mh_pos m' w = mh_pos m w) /\ mh_verts m' = mh_verts m /\ mh_prop m' = mh_prop m \/
  exists c new, is_mean (map (mh_pos m) ns) c /\ veq new (vadd (mh_pos m v) (vscale e (vsub c (mh_pos m v)))) /\ m' = set_pos m (put_at (mh_pos m) v new).
Proof.
  intros Z. unfold smooth_vertex. destruct (may_move s m v); cbn [negb]; [|intros E; injection E as <-; left; reflexivity].
  destruct (laplace (mh_pos m) v ns) as [delta|] eqn:EL; [|intros E; injection E as <-; left; reflexivity].
  assert (D : exists d, (if has_property (mh_prop m v) v_in_quad_layer then match nth_error dirs i with Some d => Ok (vsub delta (vscale (vdot delta d) d)) | None => UB end else Ok delta) = Ok d /\ veq d delta).
  { destruct (has_property (mh_prop m v) v_in_quad_layer); [rewrite (Z eq_refl)|]; eexists; (split; [reflexivity|]); unfold veq, vsub, vscale, vdot; cbn [vx vy]; split; ring. }
  destruct D as (d & -> & VD). cbn [obind].
  destruct (sm_inside s _); [|intros E; injection E as <-; left; reflexivity]. unfold set_vertex at 1. destruct (located m v); cbn [obind]; [|discriminate].
  set (new := vadd (mh_pos m v) (vscale e d)). destruct (position_ok s _ v).
  - intros E. injection E as <-. right. right. exists (vadd (mh_pos m v) delta), new. split; [exact (laplace_mean _ _ _ _ EL)|]. split; [|reflexivity].
    destruct VD as [D1 D2]. unfold new, veq, vadd, vscale, vsub. cbn [vx vy]. rewrite D1, D2. split; ring.
  - unfold set_vertex. destruct (located _ v); [|discriminate]. intros E. injection E as <-. right. left. cbn [set_pos mh_pos mh_verts mh_prop]. split; [|split; reflexivity].
    intros w. unfold put_at. destruct (Nat.eqb_spec w v) as [->|N]; reflexivity.
Qed.
(* a vertex and its distance to the mean of its neighbours *)
Definition off (c p : vec2) : Q := vnorm2 (vsub c p).
Lemma off_step c p e q : veq q (vadd p (vscale e (vsub c p))) -> off c q == (1 - e) * (1 - e) * off c p.
Proof. intros [X Y]. unfold off, vnorm2, vdot, vsub. cbn [vx vy]. rewrite X, Y. unfold vadd, vscale, vsub. cbn [vx vy]. ring. Qed.

Section Hull.
Variables (s : smoother) (L : list vec2) (dirs : list vec2).
Definition held (vs : list nat) (pr : nat -> N) (m : mesh) : Prop := mh_verts m = vs /\ mh_prop m = pr /\ forall w, In w vs -> in_hull L (mh_pos m w).
Lemma step_held vs pr e m i v ns m' : 0 <= e <= 1 -> (has_property (pr v) v_in_quad_layer = true -> nth_error dirs i = Some (V2 0 0)) -> In v vs -> (forall w, In w ns -> In w vs) ->
  held vs pr m -> smooth_vertex s dirs laplace e m (i, (v, ns)) = Ok m' -> held vs pr m'.
Proof.
  intros E Z Iv In_ (H1 & H2 & H3) R. apply laplace_step in R; [|rewrite H2; exact Z].
  destruct R as [->|[(R1 & R2 & R3)|(c & new & M & N & ->)]]; [split; auto|split; [congruence|split; [congruence|intros w I; rewrite R1; exact (H3 w I)]]|].
  split; [exact H1|]. split; [exact H2|]. intros w I. cbn [set_pos mh_pos]. unfold put_at. destruct (Nat.eqb_spec w v) as [->|NE]; [|exact (H3 w I)].
  apply (in_hull_eq _ _ _ (conj (Qeq_sym _ _ (proj1 N)) (Qeq_sym _ _ (proj2 N)))).
  apply (hull_trans (mh_pos m v :: map (mh_pos m) ns)); [|apply hull_between; [exact E|apply mean_hull; exact M]].
  intros q [<-|J]; [exact (H3 v Iv)|]. apply in_map_iff in J. destruct J as (u & <- & J). exact (H3 u (In_ u J)).
Qed.
Lemma steps_held vs pr e l : 0 <= e <= 1 -> (forall i v ns, In (i, (v, ns)) l -> In v vs /\ (forall w, In w ns -> In w vs) /\ (has_property (pr v) v_in_quad_layer = true -> nth_error dirs i = Some (V2 0 0))) ->
  forall m m', held vs pr m -> ofold (smooth_vertex s dirs laplace e) l m = Ok m' -> held vs pr m'.
Proof.
  intros E. induction l as [|[i [v ns]] l IH]; intros H m m' HM; cbn [ofold]; [intros X; injection X as <-; exact HM|].
  destruct (smooth_vertex s dirs laplace e m (i, (v, ns))) as [m1| |] eqn:E1; cbn [obind]; try discriminate. destruct (H i v ns (or_introl eq_refl)) as (I1 & I2 & I3).
  apply IH; [intros j w nw J; apply (H j w nw); right; exact J|]. exact (step_held vs pr e m i v ns m1 E I3 I1 I2 HM E1).
Qed.
Lemma loops_held vs pr (conn : list (nat * list nat)) ks : (forall k, In k ks -> fst k = laplace /\ 0 <= snd k <= 1) ->
  (forall i v ns, In (i, (v, ns)) (numbered conn) -> In v vs /\ (forall w, In w ns -> In w vs) /\ (has_property (pr v) v_in_quad_layer = true -> nth_error dirs i = Some (V2 0 0))) ->
  forall m m', held vs pr m -> ofold (iteration s dirs conn) ks m = Ok m' -> held vs pr m'.
Proof.
  intros HK HC. induction ks as [|[r e] ks IH]; intros m m' HM; cbn [ofold]; [intros X; injection X as <-; exact HM|].
  destruct (HK (r, e) (or_introl eq_refl)) as [HR HE]. cbn [fst snd] in HR, HE. subst r. unfold iteration at 1. cbn [fst snd].
  destruct (ofold (smooth_vertex s dirs laplace e) (numbered conn) m) as [m1| |] eqn:E1; cbn [obind]; try discriminate.
  apply IH; [intros k K; apply HK; right; exact K|]. exact (steps_held vs pr e _ HE HC m m1 HM E1).
Qed.
End Hull.
Lemma neighbours_in m v w : addressed m -> In w (neighbours_of m v) -> In w (mh_verts m).
Proof.
  intros A H. unfold neighbours_of in H. apply in_flat_map in H. destruct H as (f & H1 & H2). apply facets_at_in in H1. apply filter_In in H2.
  exact (ad_corner _ A f w (proj1 H1) (proj1 H2)).
Qed.
