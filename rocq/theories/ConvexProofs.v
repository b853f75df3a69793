(* Polygons whose corners are in convex position: they are simple, and which points
   they wind around.  Proofs for ShapeProps. *)
From Coq Require Import Lqa Lia Permutation Qminmax.
From Verif Require Import Base Chain GeomModel GeomSpec GeomProofs WindSpec WindProofs PolySpec PolyCorner PolyProofs PolyMain ClearGeom ClearWind ShapeSpec.
Open Scope Q_scope.

Section Convex.
Variable l : list vec2.
Hypothesis C : convex_position l.
Hypothesis L : (3 <= length l)%nat.
Let d := V2 0 0.
Let at_ (i : nat) := nth i l d.

Lemma at_some i : (i < length l)%nat -> nth_error l i = Some (at_ i).
Proof. intros H. unfold at_. apply nth_error_nth'. exact H. Qed.
Lemma triple i j k : (i < j < k)%nat -> (k < length l)%nat -> 0 < det (at_ i) (at_ j) (at_ k).
Proof. intros H K. apply (C i j k); [exact H|apply at_some; lia..]. Qed.
Lemma side_at e : In e (ring_edges l) -> exists i, (i < length l)%nat /\ e = (at_ i, at_ ((i + 1) mod length l)).
Proof. rewrite <- (ring_edges_indexed d l). intros H. apply in_map_iff in H. destruct H as (i & <- & I). apply in_seq in I. exists i. split; [lia|reflexivity]. Qed.
Lemma next_cases i : (i < length l)%nat -> (((i + 1) mod length l = i + 1)%nat /\ (i + 1 < length l)%nat) \/ (((i + 1) mod length l = 0)%nat /\ (i + 1 = length l)%nat).
Proof.
  intros H. destruct (Nat.eq_dec (i + 1) (length l)) as [E|N]; [right; rewrite E, Nat.mod_same by lia; lia|left; rewrite Nat.mod_small by lia; lia].
Qed.
Lemma det_rot a b c : det b c a == det a b c.
Proof. unfold det. ring. Qed.
(* every other corner is on the left of a side *)
Lemma left_of_side i k : (i < length l)%nat -> (k < length l)%nat -> k <> i -> k <> ((i + 1) mod length l)%nat ->
  0 < det (at_ i) (at_ ((i + 1) mod length l)) (at_ k).
Proof.
  intros I K N1 N2. destruct (next_cases i I) as [[E M]|[E M]]; rewrite E in *.
  - destruct (Nat.lt_ge_cases k i) as [H|H].
    + rewrite (det_rot (at_ k) (at_ i) (at_ (i + 1))). apply triple; lia.
    + apply triple; lia.
  - rewrite <- (det_rot (at_ i) (at_ 0%nat) (at_ k)). apply triple; lia.
Qed.
Lemma left_or_on i k : (i < length l)%nat -> (k < length l)%nat -> 0 <= det (at_ i) (at_ ((i + 1) mod length l)) (at_ k).
Proof.
  intros I K. destruct (Nat.eq_dec k i) as [->|N1]; [unfold det; apply Qle_lteq; right; ring|].
  destruct (Nat.eq_dec k ((i + 1) mod length l)) as [->|N2]; [unfold det; apply Qle_lteq; right; ring|].
  apply Qlt_le_weak, left_of_side; assumption.
Qed.
Lemma corners_differ i j : (i < j)%nat -> (j < length l)%nat -> ~ veq (at_ i) (at_ j).
Proof.
  intros H J E. destruct (Nat.eq_dec i 0) as [Z|Z].
  - destruct (Nat.eq_dec j 1) as [O|O].
    + assert (T := triple i j 2 ltac:(lia) ltac:(lia)). destruct E as [E1 E2]. unfold det in T. rewrite E1, E2 in T. ring_simplify in T. lra.
    + assert (T := triple i 1 j ltac:(lia) ltac:(lia)). destruct E as [E1 E2]. unfold det in T. rewrite E1, E2 in T. ring_simplify in T. lra.
  - assert (T := triple 0 i j ltac:(lia) ltac:(lia)). destruct E as [E1 E2]. unfold det in T. rewrite E1, E2 in T. ring_simplify in T. lra.
Qed.
Lemma pairs_by_index {A} (R : A -> A -> Prop) (m : list A) : (forall i j a b, (i < j)%nat -> nth_error m i = Some a -> nth_error m j = Some b -> R a b) -> ForallOrdPairs R m.
Proof.
  induction m as [|a m IH]; intros H; constructor.
  - rewrite Forall_forall. intros b I. apply In_nth_error in I. destruct I as (j & J). apply (H 0%nat (S j)); [lia|reflexivity|exact J].
  - apply IH. intros i j x y I X Y. apply (H (S i) (S j)); [lia|exact X|exact Y].
Qed.
Lemma next_of j : (j < length l)%nat -> ((j + 1) mod length l < length l)%nat.
Proof. intros H. apply Nat.mod_upper_bound. lia. Qed.
Lemma on_line_left a b p q t : 0 <= det a b p -> 0 <= det a b q -> 0 <= t <= 1 -> det a b (on_seg p q t) == (1 - t) * det a b p + t * det a b q.
Proof. intros _ _ _. unfold det, on_seg. cbn [vx vy]. ring. Qed.
Lemma sides_meet i j s t : (i < j < length l)%nat -> 0 <= s <= 1 -> 0 <= t <= 1 ->
  veq (on_seg (at_ i) (at_ ((i + 1) mod length l)) s) (on_seg (at_ j) (at_ ((j + 1) mod length l)) t) -> (s == 0 \/ s == 1) /\ (t == 0 \/ t == 1).
Proof.
  intros H S T E. assert (J : (j < length l)%nat) by lia. assert (I : (i < length l)%nat) by lia.
  assert (E1 := det_veq (at_ i) (at_ ((i + 1) mod length l)) _ (at_ i) (at_ ((i + 1) mod length l)) _ (veq_refl _) (veq_refl _) E).
  assert (E2 := det_veq (at_ j) (at_ ((j + 1) mod length l)) _ (at_ j) (at_ ((j + 1) mod length l)) _ (veq_refl _) (veq_refl _) E).
  assert (D : forall a b x, det a b (on_seg a b x) == 0) by (intros; unfold det, on_seg; cbn [vx vy]; ring).
  assert (P : forall a b p q x, det a b (on_seg p q x) == (1 - x) * det a b p + x * det a b q) by (intros; unfold det, on_seg; cbn [vx vy]; ring).
  rewrite D, P in E1. rewrite D, P in E2.
  set (ni := ((i + 1) mod length l)%nat) in *. set (nj := ((j + 1) mod length l)%nat) in *.
  assert (B1 := left_or_on i j I J). fold ni in B1. assert (B2 := left_or_on i nj I (next_of j J)). fold ni in B2.
  assert (B3 := left_or_on j i J I). fold nj in B3. assert (B4 := left_or_on j ni J (next_of i I)). fold nj in B4.
  assert (Z0 : forall a b x, det a b x == 0 -> det a b x <= 0) by (intros; lra).
  destruct (next_cases i I) as [[N1 M1]|[N1 M1]]; [|lia]. fold ni in N1.
  destruct (Nat.eq_dec ni j) as [A|A].
  - (* f follows e *)
    assert (C1 : ~ nj = i) by (destruct (next_cases j J) as [[X Y]|[X Y]]; unfold nj; lia).
    assert (B2' : 0 < det (at_ i) (at_ ni) (at_ nj)).
    { apply left_of_side; [exact I|apply next_of; exact J|exact C1|]. fold ni. destruct (next_cases j J) as [[X Y]|[X Y]]; unfold nj; lia. }
    assert (B3' : 0 < det (at_ j) (at_ nj) (at_ i)) by (apply left_of_side; [exact J|exact I|lia|fold nj; lia]).
    rewrite A in *. assert (W1 : det (at_ i) (at_ j) (at_ j) == 0) by (unfold det; ring). assert (W2 : det (at_ j) (at_ nj) (at_ j) == 0) by (unfold det; ring).
    rewrite W1 in E1. rewrite W2 in E2. clear - E1 E2 B2' B3'. split; [right|left]; nra.
  - assert (K1 : 0 < det (at_ i) (at_ ni) (at_ j)) by (apply left_of_side; [exact I|exact J|lia|fold ni; lia]).
    destruct (Nat.eq_dec nj i) as [Z|Z].
    + assert (K2 : 0 < det (at_ j) (at_ nj) (at_ ni)) by (apply left_of_side; [exact J|apply next_of; exact I|fold ni; lia|fold nj ni; lia]).
      rewrite Z in *. assert (W1 : det (at_ i) (at_ ni) (at_ i) == 0) by (unfold det; ring). assert (W2 : det (at_ j) (at_ i) (at_ i) == 0) by (unfold det; ring).
      rewrite W1 in E1. rewrite W2 in E2. clear - E1 E2 K1 K2. split; [left|right]; nra.
    + assert (K2 : 0 < det (at_ i) (at_ ni) (at_ nj)).
      { apply left_of_side; [exact I|apply next_of; exact J|exact Z|]. fold ni. destruct (next_cases j J) as [[X Y]|[X Y]]; unfold nj; lia. }
      exfalso. clear - E1 K1 K2 T. nra.
Qed.
Lemma convex_simple_polygon : simple_polygon l.
Proof.
  split; [exact L|]. split.
  - apply pairs_by_index. intros i j a b H A B. assert (J : (j < length l)%nat) by (apply nth_error_Some; congruence).
    rewrite at_some in A by lia. rewrite at_some in B by exact J. injection A as <-. injection B as <-. apply corners_differ; lia.
  - intros e f s t E F N S T M. apply side_at in E, F. destruct E as (i & I & ->), F as (j & J & ->). cbn [fst snd] in M.
    destruct (Nat.lt_total i j) as [H|[H|H]].
    + exact (sides_meet i j s t (conj H J) S T M).
    + subst j. contradiction N. reflexivity.
    + destruct (sides_meet j i t s (conj H I) T S (veq_sym _ _ M)). tauto.
Qed.

Lemma argmax (f : nat -> Q) n : (0 < n)%nat -> exists i, (i < n)%nat /\ forall k, (k < n)%nat -> f k <= f i.
Proof.
  induction n as [|n IH]; [lia|]. intros _. destruct n as [|n]; [exists 0%nat; split; [lia|intros k K; replace k with 0%nat by lia; lra]|].
  destruct (IH ltac:(lia)) as (i & I & M). destruct (Qlt_le_dec (f i) (f (S n))) as [Q|Q].
  - exists (S n). split; [lia|]. intros k K. destruct (Nat.eq_dec k (S n)) as [->|N]; [lra|]. specialize (M k ltac:(lia)). lra.
  - exists i. split; [lia|]. intros k K. destruct (Nat.eq_dec k (S n)) as [->|N]; [exact Q|]. apply M. lia.
Qed.
Lemma before i : (i < length l)%nat -> exists w, (w < length l)%nat /\ ((w + 1) mod length l = i)%nat.
Proof.
  intros I. destruct i as [|i]; [exists (length l - 1)%nat; split; [lia|]; replace (length l - 1 + 1)%nat with (length l) by lia; apply Nat.mod_same; lia|].
  exists i. split; [lia|]. rewrite Nat.mod_small; lia.
Qed.
Lemma turn_at i : (i < length l)%nat -> exists w, (w < length l)%nat /\ ((w + 1) mod length l = i)%nat /\ 0 < det (at_ w) (at_ i) (at_ ((i + 1) mod length l)).
Proof.
  intros I. destruct (before i I) as (w & W & E). exists w. split; [exact W|]. split; [exact E|]. rewrite <- E at 1. apply left_of_side; [exact W|apply next_of; exact I| |].
  - destruct (next_cases i I) as [[X Y]|[X Y]], (next_cases w W) as [[X' Y']|[X' Y']]; lia.
  - rewrite E. destruct (next_cases i I) as [[X Y]|[X Y]]; lia.
Qed.
Lemma side_in i : (i < length l)%nat -> In (at_ i, at_ ((i + 1) mod length l)) (ring_edges l).
Proof. intros I. rewrite <- (ring_edges_indexed d l). apply in_map_iff. exists i. split; [reflexivity|apply in_seq; lia]. Qed.
Definition left_of_all (p : vec2) : Prop := forall e, In e (ring_edges l) -> 0 < det (fst e) (snd e) p.
Lemma top_turn x1 y1 x2 y2 ex ey : 0 <= y1 -> y2 <= 0 -> 0 <= ey -> 0 < x1 * ey - y1 * ex -> 0 < x2 * ey - y2 * ex -> 0 < x1 * y2 - y1 * x2 -> False.
Proof.
  intros A B E P1 P2 P3. assert (H : - y2 * (x1 * ey - y1 * ex) + y1 * (x2 * ey - y2 * ex) == - (ey * (x1 * y2 - y1 * x2))) by ring.
  assert (Q1 : 0 <= - y2 * (x1 * ey - y1 * ex)) by (apply Qmult_le_0_compat; lra). assert (Q2 : 0 <= y1 * (x2 * ey - y2 * ex)) by (apply Qmult_le_0_compat; lra).
  assert (Q3 : 0 <= ey * (x1 * y2 - y1 * x2)) by (apply Qmult_le_0_compat; lra).
  assert (Z1 : y2 == 0) by (destruct (Qeq_dec y2 0) as [Z|Z]; [exact Z|]; assert (0 < - y2 * (x1 * ey - y1 * ex)) by (apply Qmult_lt_0_compat; lra); lra).
  assert (Z2 : y1 == 0) by (destruct (Qeq_dec y1 0) as [Z|Z]; [exact Z|]; assert (0 < y1 * (x2 * ey - y2 * ex)) by (apply Qmult_lt_0_compat; lra); lra).
  rewrite Z1, Z2 in P3. ring_simplify in P3. lra.
Qed.
Lemma rising p : left_of_all p -> exists e, In e (ring_edges l) /\ vy (fst e) <= vy p < vy (snd e).
Proof.
  intros A. assert (N0 : (0 < length l)%nat) by lia.
  assert (D : (exists i, (i < length l)%nat /\ vy (at_ i) <= vy p < vy (at_ ((i + 1) mod length l))) \/
              forall i, (i < length l)%nat -> vy (at_ i) <= vy p -> vy (at_ ((i + 1) mod length l)) <= vy p).
  { generalize (length l) at 1 3 as m. intros m. induction m as [|m IH]; [right; intros i I; lia|]. destruct IH as [(i & I & X)|IH]; [left; exists i; split; [lia|exact X]|].
    destruct (Qlt_le_dec (vy p) (vy (at_ m))) as [U|U].
    - right. intros i I X. destruct (Nat.eq_dec i m) as [->|N]; [lra|]. apply IH; [lia|exact X].
    - destruct (Qlt_le_dec (vy p) (vy (at_ ((m + 1) mod length l)))) as [V|V]; [left; exists m; split; [lia|split; assumption]|].
      right. intros i I X. destruct (Nat.eq_dec i m) as [->|N]; [exact V|]. apply IH; [lia|exact X]. }
  destruct D as [(i & I & X)|D]; [exists (at_ i, at_ ((i + 1) mod length l)); split; [apply side_in; exact I|exact X]|exfalso].
  destruct (Qlt_le_dec (vy p) (vy (at_ 0%nat))) as [U|U].
  - (* all above *)
    assert (G : forall k, (k < length l)%nat -> vy p < vy (at_ k)).
    { intros k K. destruct (Qlt_le_dec (vy p) (vy (at_ k))) as [V|V]; [exact V|]. exfalso.
      assert (H : forall m, (k + m < length l)%nat -> vy (at_ (k + m)) <= vy p).
      { induction m as [|m IH]; intros M; [rewrite Nat.add_0_r; exact V|]. specialize (D (k + m)%nat ltac:(lia) (IH ltac:(lia))).
        rewrite Nat.mod_small in D by lia. replace (k + S m)%nat with (k + m + 1)%nat by lia. exact D. }
      specialize (H (length l - 1 - k)%nat ltac:(lia)). replace (k + (length l - 1 - k))%nat with (length l - 1)%nat in H by lia.
      specialize (D (length l - 1)%nat ltac:(lia) H). replace (length l - 1 + 1)%nat with (length l) in D by lia. rewrite Nat.mod_same in D by lia. lra. }
    destruct (argmax (fun k => - vy (at_ k)) (length l) N0) as (i & I & M). destruct (turn_at i I) as (w & W & E & T).
    assert (A1 := A _ (side_in w W)). rewrite E in A1. assert (A2 := A _ (side_in i I)). cbn [fst snd] in A1, A2.
    assert (M1 := M w W). assert (M2 := M _ (next_of i I)). assert (GI := G i I). cbn beta in M1, M2.
    set (u := at_ i) in *. set (v := at_ ((i + 1) mod length l)) in *. set (x := at_ w) in *. clear - A1 A2 M1 M2 GI T.
    apply (top_turn (vx x - vx u) (vy x - vy u) (vx u - vx v) (vy u - vy v) (vx u - vx p) (vy u - vy p)); [lra|lra|lra| | |].
    + unfold det in A1. lra.
    + unfold det in A2. lra.
    + unfold det in T. lra.
  - assert (G : forall k, (k < length l)%nat -> vy (at_ k) <= vy p).
    { induction k as [|k IH]; intros K; [exact U|]. specialize (D k ltac:(lia) (IH ltac:(lia))). rewrite Nat.mod_small in D by lia. replace (S k) with (k + 1)%nat by lia. exact D. }
    destruct (argmax (fun k => vy (at_ k)) (length l) N0) as (i & I & M). destruct (turn_at i I) as (w & W & E & T).
    assert (A1 := A _ (side_in w W)). rewrite E in A1. assert (A2 := A _ (side_in i I)). cbn [fst snd] in A1, A2.
    assert (M1 := M w W). assert (M2 := M _ (next_of i I)). assert (GI := G i I). cbn beta in M1, M2.
    set (u := at_ i) in *. set (v := at_ ((i + 1) mod length l)) in *. set (x := at_ w) in *. clear - A1 A2 M1 M2 GI T.
    apply (top_turn (vx u - vx x) (vy u - vy x) (vx v - vx u) (vy v - vy u) (vx p - vx u) (vy p - vy u)); [lra|lra|lra| | |].
    + unfold det in A1. lra.
    + unfold det in A2. lra.
    + unfold det in T. lra.
Qed.
Lemma crossing_of_left p e : 0 < det (fst e) (snd e) p -> 0 <= crossing p (fst e) (snd e).
Proof. intros H. destruct (crossing_left p _ _ H) as [[E _]|[E _]]; rewrite E; lra. Qed.
Lemma esum_nonneg (es : list (vec2 * vec2)) w : (forall e, In e es -> 0 <= w (fst e) (snd e)) -> 0 <= esum w es.
Proof. induction es as [|[a b] es IH]; intros H; cbn [esum]; [lra|]. assert (H0 := H _ (or_introl eq_refl)). cbn [fst snd] in H0. specialize (IH (fun e I => H e (or_intror I))). lra. Qed.
Lemma esum_ge (es : list (vec2 * vec2)) w e : (forall e, In e es -> 0 <= w (fst e) (snd e)) -> In e es -> w (fst e) (snd e) <= esum w es.
Proof.
  induction es as [|[a b] es IH]; intros H I; [destruct I|]. cbn [esum]. assert (H0 := H _ (or_introl eq_refl)). cbn [fst snd] in H0.
  destruct I as [<-|I]; [cbn [fst snd]; assert (X := esum_nonneg es w (fun e I => H e (or_intror I))); lra|]. specialize (IH (fun e I => H e (or_intror I)) I). lra.
Qed.
Lemma inside_convex p : left_of_all p -> winding p (ring_edges l) == 1.
Proof.
  intros A. destruct (rising p A) as (e & I & Y1 & Y2).
  assert (G : 1 <= winding p (ring_edges l)).
  { assert (X := esum_ge (ring_edges l) (crossing p) e (fun f F => crossing_of_left p f (A f F)) I). unfold winding.
    destruct (crossing_left p _ _ (A e I)) as [[E _]|[E F]]; [rewrite E in X; exact X|]. specialize (F Y1). lra. }
  destruct (polygon_winding l convex_simple_polygon) as [(_ & H & _)|(_ & H & _)]; destruct (H p); lra.
Qed.
(* the area is positive: the middle of the first three corners is inside *)
Lemma convex_winding p : winding p (ring_edges l) == 0 \/ winding p (ring_edges l) == 1.
Proof.
  destruct (polygon_winding l convex_simple_polygon) as [(_ & H & _)|(_ & H & _)]; [apply H|].
  exfalso. set (m := V2 ((vx (at_ 0%nat) + vx (at_ 1%nat) + vx (at_ 2%nat)) * (1 # 3)) ((vy (at_ 0%nat) + vy (at_ 1%nat) + vy (at_ 2%nat)) * (1 # 3))).
  assert (A : left_of_all m).
  { intros e I. apply side_at in I. destruct I as (i & I & ->). cbn [fst snd].
    assert (E : det (at_ i) (at_ ((i + 1) mod length l)) m == (1 # 3) * (det (at_ i) (at_ ((i + 1) mod length l)) (at_ 0%nat) + det (at_ i) (at_ ((i + 1) mod length l)) (at_ 1%nat) + det (at_ i) (at_ ((i + 1) mod length l)) (at_ 2%nat))) by (unfold det, m; cbn [vx vy]; ring).
    assert (L0 := left_or_on i 0 I ltac:(lia)). assert (L1 := left_or_on i 1 I ltac:(lia)). assert (L2 := left_or_on i 2 I ltac:(lia)).
    rewrite E. assert (Z : 0 < det (at_ i) (at_ ((i + 1) mod length l)) (at_ 0%nat) \/ 0 < det (at_ i) (at_ ((i + 1) mod length l)) (at_ 1%nat) \/ 0 < det (at_ i) (at_ ((i + 1) mod length l)) (at_ 2%nat)).
    { set (j := ((i + 1) mod length l)%nat) in *. destruct (Nat.eq_dec 0 i) as [a|a]; [destruct (Nat.eq_dec 1 j) as [b|b]|destruct (Nat.eq_dec 0 j) as [b|b]].
      - right; right. apply left_of_side; [exact I|lia|lia|fold j; lia].
      - right; left. apply left_of_side; [exact I|lia|lia|fold j; lia].
      - destruct (Nat.eq_dec 1 i) as [c|c]; [right; right|right; left]; (apply left_of_side; [exact I|lia|lia|fold j; lia]).
      - left. apply left_of_side; [exact I|lia|lia|fold j; lia]. }
    destruct Z as [Z|[Z|Z]]; lra. }
  assert (W := inside_convex m A). destruct (H m); lra.
Qed.
End Convex.

Lemma mix_lt s x y c : 0 <= s <= 1 -> x < c -> y < c -> (1 - s) * x + s * y < c.
Proof.
  intros S X Y. destruct (Qlt_le_dec 0 s) as [P|P].
  - assert (A : 0 < s * (c - y)) by (apply Qmult_lt_0_compat; lra). assert (B : 0 <= (1 - s) * (c - x)) by (apply Qmult_le_0_compat; lra). lra.
  - assert (Z : s == 0) by lra. rewrite Z. lra.
Qed.
Lemma mix_le s x y c : 0 <= s <= 1 -> c <= x -> c <= y -> c <= (1 - s) * x + s * y.
Proof.
  intros S X Y. assert (A : 0 <= s * (y - c)) by (apply Qmult_le_0_compat; lra). assert (B : 0 <= (1 - s) * (x - c)) by (apply Qmult_le_0_compat; lra). lra.
Qed.
(* a point that a line separates from all corners *)
Lemma beside_line u v c p a b : u * vx p + v * vy p < c -> c <= u * vx a + v * vy a -> c <= u * vx b + v * vy b ->
  forall q, u * vx q + v * vy q < c -> disjoint p q a b.
Proof.
  intros P A B q X s t S T [E1 E2]. unfold on_seg in E1, E2. cbn [vx vy] in E1, E2.
  assert (Y1 : u * (vx p + s * (vx q - vx p)) + v * (vy p + s * (vy q - vy p)) == (1 - s) * (u * vx p + v * vy p) + s * (u * vx q + v * vy q)) by ring.
  assert (Y2 : u * (vx a + t * (vx b - vx a)) + v * (vy a + t * (vy b - vy a)) == (1 - t) * (u * vx a + v * vy a) + t * (u * vx b + v * vy b)) by ring.
  rewrite E1, E2 in Y1. rewrite Y1 in Y2.
  assert (Z : (1 - s) * (u * vx p + v * vy p) + s * (u * vx q + v * vy q) < c) by (apply mix_lt; assumption).
  assert (Z2 : c <= (1 - t) * (u * vx a + v * vy a) + t * (u * vx b + v * vy b)) by (apply mix_le; assumption). lra.
Qed.
Lemma high_zero p es : (forall e, In e es -> vy (fst e) <= vy p /\ vy (snd e) <= vy p) -> winding p es == 0.
Proof.
  induction es as [|[a b] es IH]; intros H; [reflexivity|]. unfold winding in *. cbn [esum]. rewrite (IH (fun e I => H e (or_intror I))).
  destruct (H _ (or_introl eq_refl)) as [A B]. cbn [fst snd] in A, B. unfold crossing. apply Qle_bool_iff in A, B. rewrite A, B. ring.
Qed.
Lemma low_zero p es : (forall e, In e es -> vy p < vy (fst e) /\ vy p < vy (snd e)) -> winding p es == 0.
Proof.
  induction es as [|[a b] es IH]; intros H; [reflexivity|]. unfold winding in *. cbn [esum]. rewrite (IH (fun e I => H e (or_intror I))).
  destruct (H _ (or_introl eq_refl)) as [A B]. cbn [fst snd] in A, B. unfold crossing.
  assert (X : Qle_bool (vy a) (vy p) = false) by (apply not_true_is_false; intros Z; apply Qle_bool_iff in Z; lra).
  assert (Y : Qle_bool (vy b) (vy p) = false) by (apply not_true_is_false; intros Z; apply Qle_bool_iff in Z; lra). rewrite X, Y. ring.
Qed.
Lemma some_top (es : list (vec2 * vec2)) : exists y, forall e, In e es -> vy (fst e) <= y /\ vy (snd e) <= y.
Proof.
  induction es as [|[a b] es (y & H)]; [exists 0; intros e []|]. exists (Qmax y (Qmax (vy a) (vy b))). intros e [<-|I]; cbn [fst snd].
  - assert (X := Q.le_max_r y (Qmax (vy a) (vy b))). assert (Y := Q.le_max_l (vy a) (vy b)). assert (Z := Q.le_max_r (vy a) (vy b)). lra.
  - destruct (H e I). assert (X := Q.le_max_l y (Qmax (vy a) (vy b))). lra.
Qed.
Lemma some_low (es : list (vec2 * vec2)) : exists y, forall e, In e es -> y < vy (fst e) /\ y < vy (snd e).
Proof.
  induction es as [|[a b] es (y & H)]; [exists 0; intros e []|]. exists (Qmin y (Qmin (vy a) (vy b) - 1)). intros e [<-|I]; cbn [fst snd].
  - assert (X := Q.le_min_r y (Qmin (vy a) (vy b) - 1)). assert (Y := Q.le_min_l (vy a) (vy b)). assert (Z := Q.le_min_r (vy a) (vy b)). lra.
  - destruct (H e I). assert (X := Q.le_min_l y (Qmin (vy a) (vy b) - 1)). lra.
Qed.
Lemma separated u v c p es : balanced es -> u * vx p + v * vy p < c ->
  (forall e, In e es -> c <= u * vx (fst e) + v * vy (fst e) /\ c <= u * vx (snd e) + v * vy (snd e)) -> winding p es == 0.
Proof.
  intros B P H. destruct (some_top es) as (Y & T). destruct (some_low es) as (y & Lw).
  (* straight up or down if the half plane allows it, along the line otherwise *)
  assert (E : exists q, u * vx q + v * vy q < c /\ winding q es == 0).
  { destruct (Qeq_dec u 0) as [Z|Z].
    - destruct (Qlt_le_dec 0 v) as [V|V].
      + exists (V2 (vx p) (Qmin (vy p) y)). cbn [vx vy]. split.
        * assert (M := Q.le_min_l (vy p) y). assert (v * Qmin (vy p) y <= v * vy p) by (apply Qmult_le_l; [exact V|exact M]). lra.
        * apply low_zero. intros e I. cbn [vy]. destruct (Lw e I). assert (M := Q.le_min_r (vy p) y). lra.
      + exists (V2 (vx p) (Qmax (vy p) Y)). cbn [vx vy]. split.
        * assert (M := Q.le_max_l (vy p) Y). assert (v * Qmax (vy p) Y <= v * vy p) by (clear - V M; nra). lra.
        * apply high_zero. intros e I. cbn [vy]. destruct (T e I). assert (M := Q.le_max_r (vy p) Y). lra.
    - exists (V2 (vx p - v * (Y - vy p) / u) Y). cbn [vx vy]. split.
      + assert (E : u * (vx p - v * (Y - vy p) / u) + v * Y == u * vx p + v * vy p) by (field; exact Z). lra.
      + apply high_zero. exact T. }
  destruct E as (q & Q1 & Q2). rewrite <- Q2. apply moved_same; [exact B|]. intros e I. destruct (H e I). apply (beside_line u v c); assumption.
Qed.
