(* Winding number, orientation and area of a simple polygon. *)
From Coq Require Import Lqa Lia Permutation.
From Verif Require Import Base Chain GeomModel GeomSpec GeomProofs WindSpec WindProofs InsideProofs PolySpec PolyCorner PolyProofs PolyArea.
Open Scope Q_scope.

Lemma turn_second l v : simple_polygon l -> In v l -> exists l1 l2 u x r, l = l1 ++ l2 /\ l2 ++ l1 = u :: v :: x :: r.
Proof.
  intros (L & _) I. destruct (in_split _ _ I) as (l1 & l2 & E).
  destruct l1 as [|a l1 _] using rev_ind.
  - cbn [app] in E. destruct l2 as [|b l2]; [rewrite E in L; cbn in L; lia|]. destruct l2 as [|u l2 _] using rev_ind; [rewrite E in L; cbn in L; lia|].
    exists (v :: b :: l2), [u], u, b, l2. split; [rewrite E; reflexivity|reflexivity].
  - rewrite <- app_assoc in E. cbn [app] in E.
    destruct (l2 ++ l1) as [|x r] eqn:X.
    + apply app_eq_nil in X. destruct X as [-> ->]. rewrite E in L. cbn in L. lia.
    + exists l1, (a :: v :: l2), a, x, r. split; [exact E|]. cbn [app]. rewrite X. reflexivity.
Qed.
Lemma not_flat l : simple_polygon l -> exists e, In e (ring_edges l) /\ ~ vy (fst e) == vy (snd e).
Proof.
  intros SP. assert (L := proj1 SP). assert (NE : l <> []) by (destruct l; [cbn in L; lia|discriminate]).
  destruct (least (fun v => - vx v) l NE) as (v & I & M).
  destruct (turn_second l v SP I) as (l1 & l2 & u & x & r & E & E2).
  assert (SP' : simple_polygon (u :: v :: x :: r)) by (rewrite <- E2; apply simple_turn; rewrite <- E; exact SP).
  assert (P : Permutation (ring_edges (u :: v :: x :: r)) (ring_edges l)) by (rewrite E, ring_turn_app, E2; reflexivity).
  assert (IN : forall c, In c [u; v; x] -> In c l).
  { intros c C. rewrite E. apply (Permutation_in c (Permutation_app_comm l2 l1)). rewrite E2. cbn in *. tauto. }
  destruct (Qeq_dec (vy u) (vy v)) as [F|F]; [|exists (u, v); split; [apply (Permutation_in _ P); left; reflexivity|exact F]].
  destruct (Qeq_dec (vy v) (vy x)) as [G|G]; [|exists (v, x); split; [apply (Permutation_in _ P); right; left; reflexivity|exact G]].
  exfalso. assert (D : det u v x == 0) by (unfold det; rewrite F, G; ring). assert (NF := no_fold u v x r SP' D).
  assert (A := M u (IN u ltac:(cbn; tauto))). assert (B := M x (IN x ltac:(cbn; tauto))). cbn beta in A, B.
  assert (Z1 : vy u - vy v == 0) by lra. rewrite Z1 in NF. assert (0 <= (vx v - vx u) * (vx v - vx x)) by (apply Qmult_le_0_compat; lra). lra.
Qed.
Lemma esum_le0 (w : vec2 -> vec2 -> Q) es : (forall a b, In (a, b) es -> w a b <= 0) -> esum w es <= 0.
Proof. induction es as [|[a b] es IH]; intros H; cbn [esum]; [lra|]. assert (A := H a b (or_introl eq_refl)). specialize (IH (fun c d I => H c d (or_intror I))). lra. Qed.
Lemma esum_lt0 (w : vec2 -> vec2 -> Q) es c d : (forall a b, In (a, b) es -> w a b <= 0) -> In (c, d) es -> w c d < 0 -> esum w es < 0.
Proof.
  intros H I L. destruct (in_split _ _ I) as (l1 & l2 & E). subst es. rewrite esum_app. cbn [esum].
  assert (A := esum_le0 w l1 (fun a b J => H a b ltac:(apply in_app_iff; left; exact J))).
  assert (B := esum_le0 w l2 (fun a b J => H a b ltac:(apply in_app_iff; right; right; exact J))). lra.
Qed.
Lemma rising_or_not (es : list (vec2 * vec2)) f : {exists e, In e es /\ 0 < f e} + {forall e : vec2 * vec2, In e es -> f e <= 0}.
Proof.
  induction es as [|e es [IH|IH]].
  - right. intros e [].
  - left. destruct IH as (g & I & G). exists g. split; [right; exact I|exact G].
  - destruct (Qlt_le_dec 0 (f e)) as [G|G]; [left; exists e; split; [left; reflexivity|exact G]|right]. intros g [<-|I]; [exact G|apply IH; exact I].
Qed.
Lemma both_ways l : simple_polygon l -> (exists e, In e (ring_edges l) /\ vy (fst e) < vy (snd e)) /\ (exists e, In e (ring_edges l) /\ vy (snd e) < vy (fst e)).
Proof.
  intros SP. destruct (not_flat l SP) as (e & I & N). destruct e as [c d]. cbn [fst snd] in N.
  assert (B := ring_balanced l vy). assert (B' := ring_balanced l (fun v => - vy v)). cbn beta in B'. split.
  - destruct (rising_or_not (ring_edges l) (fun e => vy (snd e) - vy (fst e))) as [(g & G & X)|H]; [exists g; split; [exact G|lra]|exfalso].
    assert (S := esum_lt0 (fun a b => vy b - vy a) (ring_edges l) c d (fun a b J => H (a, b) J) I). cbn [fst snd] in *.
    assert (K := H (c, d) I). cbn [fst snd] in K. specialize (S ltac:(lra)). lra.
  - destruct (rising_or_not (ring_edges l) (fun e => vy (fst e) - vy (snd e))) as [(g & G & X)|H]; [exists g; split; [exact G|lra]|exfalso].
    assert (S := esum_lt0 (fun a b => - vy b - - vy a) (ring_edges l) c d). cbn beta in S.
    specialize (S ltac:(intros a b J; specialize (H (a, b) J); cbn [fst snd] in H; lra) I).
    assert (K := H (c, d) I). cbn [fst snd] in K. specialize (S ltac:(lra)). lra.
Qed.

Lemma one_side l : simple_polygon l ->
  ((forall p, winding p (ring_edges l) == 0 \/ winding p (ring_edges l) == 1) /\ exists p, winding p (ring_edges l) == 1) \/
  ((forall p, winding p (ring_edges l) == 0 \/ winding p (ring_edges l) == - (1)) /\ exists p, winding p (ring_edges l) == - (1)).
Proof.
  intros SP. destruct (level_ex l SP) as [K LV]. destruct (both_ways l SP) as [(e & Ie & He) (f & If & Hf)].
  assert (We := level_sides l K e (1 # 2) SP LV Ie ltac:(lra)). assert (Wf := level_sides l K f (1 # 2) SP LV If ltac:(lra)).
  assert (Te : turned (fst e) (snd e) = 1) by (unfold turned; qcase (vy (snd e)) (vy (fst e)); [exfalso; lra|reflexivity]).
  assert (Tf : turned (fst f) (snd f) = 0) by (unfold turned; qcase (vy (snd f)) (vy (fst f)); [|exfalso; lra]; qcase (vy (fst f)) (vy (snd f)); [exfalso; lra|reflexivity]).
  rewrite Te in We. rewrite Tf in Wf.
  assert (KK : K == 0 \/ K == 1).
  { destruct (two_values l K (on_seg (fst e) (snd e) (1 # 2)) SP LV) as [Z|[Z _]]; [right; lra|exact Z]. }
  destruct KK as [Z|Z].
  - right. split; [|exists (on_seg (fst e) (snd e) (1 # 2)); lra]. intros p. destruct (two_values l K p SP LV) as [H|[_ [H|H]]]; [left|left|right]; lra.
  - left. split; [|exists (on_seg (fst f) (snd f) (1 # 2)); lra]. intros p. destruct (two_values l K p SP LV) as [H|[_ [H|H]]]; [left|right|left]; lra.
Qed.

Lemma polygon_green l : 2 * polygon_area l == esum (fun a b => (vx a + vx b) * (vy b - vy a)) (ring_edges l).
Proof.
  rewrite polygon_area_loop, <- esum_ring.
  assert (B := ring_balanced l (fun v => 2 * vx v * vy v)). cbn beta in B.
  assert (E : esum (fun a b => (vx a + vx b) * (vy b - vy a)) (ring_edges l) ==
    esum (fun a b => shoelace a b + (2 * vx b * vy b - 2 * vx a * vy a)) (ring_edges l)).
  { apply esum_ext. intros a b _. unfold shoelace. ring. }
  rewrite E, (esum_plus shoelace (fun a b => 2 * vx b * vy b - 2 * vx a * vy a)), B. ring.
Qed.
Lemma flipped_winding p (es : list (vec2 * vec2)) : winding p (map swap_edge es) == - winding p es.
Proof. apply esum_swap, crossing_antisym. Qed.

Theorem polygon_winding l : simple_polygon l ->
  (0 < polygon_area l /\ (forall p, winding p (ring_edges l) == 0 \/ winding p (ring_edges l) == 1) /\ exists p, winding p (ring_edges l) == 1) \/
  (polygon_area l < 0 /\ (forall p, winding p (ring_edges l) == 0 \/ winding p (ring_edges l) == - (1)) /\ exists p, winding p (ring_edges l) == - (1)).
Proof.
  intros SP. assert (G := polygon_green l). destruct (one_side l SP) as [[H X]|[H X]]; [left|right]; (split; [|split; assumption]).
  - assert (P := area_pos (ring_edges l) (ring_balanced l)). specialize (P ltac:(intros p; destruct (H p); lra)).
    specialize (P ltac:(destruct X as [p Hp]; exists p; lra)). lra.
  - assert (P := area_pos (map swap_edge (ring_edges l)) (balanced_swap _ (ring_balanced l))).
    specialize (P ltac:(intros p; rewrite flipped_winding; destruct (H p); lra)).
    specialize (P ltac:(destruct X as [p Hp]; exists p; rewrite flipped_winding; lra)).
    rewrite esum_swap in P by (intros a b; ring). lra.
Qed.

(* ---------- a check for given polygons ---------- *)
Definition strictly_apart (p q a b : vec2) : Prop :=
  (0 < det a b p /\ 0 < det a b q) \/ (det a b p < 0 /\ det a b q < 0) \/
  (0 < det p q a /\ 0 < det p q b) \/ (det p q a < 0 /\ det p q b < 0) \/
  (vx p < vx a /\ vx q < vx a /\ vx p < vx b /\ vx q < vx b) \/ (vx a < vx p /\ vx b < vx p /\ vx a < vx q /\ vx b < vx q) \/
  (vy p < vy a /\ vy q < vy a /\ vy p < vy b /\ vy q < vy b) \/ (vy a < vy p /\ vy b < vy p /\ vy a < vy q /\ vy b < vy q).
Lemma apart_disjoint p q a b : strictly_apart p q a b -> disjoint p q a b.
Proof.
  assert (K : forall p q a b, det a b p < 0 /\ det a b q < 0 -> disjoint p q a b).
  { clear p q a b. intros p q a b [H1 H2].
    apply (form_disjoint (vy a - vy b) (vx b - vx a) (vx a * (vy b - vy a) - vy a * (vx b - vx a))); unfold det in *; lra. }
  assert (S : forall p q a b, disjoint a b p q -> disjoint p q a b) by (intros ? ? ? ? D s t A B E; exact (D t s B A (conj (Qeq_sym _ _ (proj1 E)) (Qeq_sym _ _ (proj2 E))))).
  assert (W : forall p q a b, disjoint p q b a -> disjoint p q a b).
  { clear p q a b. intros p q a b D s t A B E. apply (D s (1 - t) A ltac:(lra)). destruct E as [E1 E2]. unfold veq, on_seg in *. cbn [vx vy] in *. lra. }
  assert (X : forall p q a b, vx p < vx a /\ vx q < vx a /\ vx p < vx b /\ vx q < vx b -> disjoint p q a b).
  { clear. intros p q a b (H1 & H2 & H3 & H4) s t A B [E _]. unfold on_seg in E. cbn [vx] in E.
    destruct (Qlt_le_dec (vx p) (vx q)); destruct (Qlt_le_dec (vx a) (vx b)); nra. }
  assert (Y : forall p q a b, vy p < vy a /\ vy q < vy a /\ vy p < vy b /\ vy q < vy b -> disjoint p q a b).
  { clear. intros p q a b (H1 & H2 & H3 & H4) s t A B [_ E]. unfold on_seg in E. cbn [vy] in E.
    destruct (Qlt_le_dec (vy p) (vy q)); destruct (Qlt_le_dec (vy a) (vy b)); nra. }
  intros [H|[H|[H|[H|[H|[H|[H|H]]]]]]]; [| | | |apply X; exact H|apply S, X; tauto|apply Y; exact H|apply S, Y; tauto].
  - apply W, K. rewrite !(det_swap a b). lra.
  - apply K. exact H.
  - apply S, W, K. rewrite !(det_swap p q). lra.
  - apply S, K. exact H.
Qed.
Lemma joint_only u v x s t : ~ det u v x == 0 -> veq (on_seg u v s) (on_seg v x t) -> s == 1 /\ t == 0.
Proof.
  intros N [E1 E2].
  assert (T : t * det u v x == 0).
  { transitivity (det u v (on_seg v x t)); [unfold det, on_seg; cbn [vx vy]; ring|].
    transitivity (det u v (on_seg u v s)); [unfold det; rewrite E1, E2; reflexivity|unfold det, on_seg; cbn [vx vy]; ring]. }
  assert (T0 : t == 0) by (destruct (zero_ll _ _ T); [assumption|contradiction]). split; [|exact T0].
  assert (S1 : (1 - s) * (vx u - vx v) == 0) by (unfold on_seg in E1; cbn [vx] in E1; rewrite T0 in E1; lra).
  assert (S2 : (1 - s) * (vy u - vy v) == 0) by (unfold on_seg in E2; cbn [vy] in E2; rewrite T0 in E2; lra).
  destruct (zero_ll _ _ S1) as [H|H]; [lra|]. destruct (zero_ll _ _ S2) as [H'|H']; [lra|].
  exfalso. apply N. unfold det. setoid_replace (vx v - vx u) with (- (vx u - vx v)) by ring. setoid_replace (vy v - vy u) with (- (vy u - vy v)) by ring. rewrite H, H'. ring.
Qed.
Definition pair_ok (e f : vec2 * vec2) : Prop :=
  strictly_apart (fst e) (snd e) (fst f) (snd f) \/ (snd e = fst f /\ ~ det (fst e) (snd e) (snd f) == 0) \/ (snd f = fst e /\ ~ det (fst f) (snd f) (snd e) == 0).
Lemma pair_ends e f s t : pair_ok e f -> 0 <= s <= 1 -> 0 <= t <= 1 -> veq (on_seg (fst e) (snd e) s) (on_seg (fst f) (snd f) t) ->
  (s == 0 \/ s == 1) /\ (t == 0 \/ t == 1).
Proof.
  intros [A|[[J D]|[J D]]] S T E.
  - exfalso. exact (apart_disjoint _ _ _ _ A s t S T E).
  - rewrite <- J in E. destruct (joint_only _ _ _ _ _ D E). tauto.
  - rewrite <- J in E. destruct (joint_only (fst f) (snd f) (snd e) t s D (veq_sym _ _ E)). tauto.
Qed.
Lemma simple_check l : (3 <= length l)%nat -> ForallOrdPairs (fun a b => ~ veq a b) l -> ForallOrdPairs pair_ok (ring_edges l) -> simple_polygon l.
Proof.
  intros L P M. split; [exact L|]. split; [exact P|]. intros e f s t I J N S T E.
  destruct (ForallOrdPairs_In M _ _ I J) as [K|[K|K]]; [contradiction| |].
  - exact (pair_ends e f s t K S T E).
  - destruct (pair_ends f e t s K T S (veq_sym _ _ E)). tauto.
Qed.
(* the same with computable tests *)
Definition pair_okb (e f : vec2 * vec2) : bool :=
  (Qltb 0 (det (fst f) (snd f) (fst e)) && Qltb 0 (det (fst f) (snd f) (snd e))) || (Qltb (det (fst f) (snd f) (fst e)) 0 && Qltb (det (fst f) (snd f) (snd e)) 0) ||
  (Qltb 0 (det (fst e) (snd e) (fst f)) && Qltb 0 (det (fst e) (snd e) (snd f))) || (Qltb (det (fst e) (snd e) (fst f)) 0 && Qltb (det (fst e) (snd e) (snd f)) 0) ||
  (Qltb (vx (fst e)) (vx (fst f)) && Qltb (vx (snd e)) (vx (fst f)) && Qltb (vx (fst e)) (vx (snd f)) && Qltb (vx (snd e)) (vx (snd f))) ||
  (Qltb (vx (fst f)) (vx (fst e)) && Qltb (vx (snd f)) (vx (fst e)) && Qltb (vx (fst f)) (vx (snd e)) && Qltb (vx (snd f)) (vx (snd e))) ||
  (Qltb (vy (fst e)) (vy (fst f)) && Qltb (vy (snd e)) (vy (fst f)) && Qltb (vy (fst e)) (vy (snd f)) && Qltb (vy (snd e)) (vy (snd f))) ||
  (Qltb (vy (fst f)) (vy (fst e)) && Qltb (vy (snd f)) (vy (fst e)) && Qltb (vy (fst f)) (vy (snd e)) && Qltb (vy (snd f)) (vy (snd e))).
Fixpoint all_pairs {A} (r : A -> A -> bool) (l : list A) : bool :=
  match l with [] => true | a :: m => forallb (r a) m && all_pairs r m end.
Lemma all_pairs_sound {A} (r : A -> A -> bool) (R : A -> A -> Prop) l : (forall a b, r a b = true -> R a b) -> all_pairs r l = true -> ForallOrdPairs R l.
Proof.
  intros H. induction l as [|a l IH]; intros E; [constructor|]. cbn [all_pairs] in E. apply andb_true_iff in E. destruct E as [E1 E2]. constructor; [|exact (IH E2)].
  rewrite Forall_forall. rewrite forallb_forall in E1. intros b I. apply H, E1, I.
Qed.
Definition beq (a b : vec2) : bool :=
  Z.eqb (Qnum (vx a)) (Qnum (vx b)) && Pos.eqb (Qden (vx a)) (Qden (vx b)) && Z.eqb (Qnum (vy a)) (Qnum (vy b)) && Pos.eqb (Qden (vy a)) (Qden (vy b)).
Lemma beq_eq a b : beq a b = true -> a = b.
Proof.
  destruct a as [[a1 a2] [a3 a4]], b as [[b1 b2] [b3 b4]]. unfold beq. cbn. rewrite !andb_true_iff, !Z.eqb_eq, !Pos.eqb_eq. intros (((-> & ->) & ->) & ->). reflexivity.
Qed.
Definition simpleb (l : list vec2) : bool :=
  Nat.leb 3 (length l) && all_pairs (fun a b => negb (veqb a b)) l &&
  all_pairs (fun e f => pair_okb e f || (beq (snd e) (fst f) && negb (Qeq_bool (det (fst e) (snd e) (snd f)) 0)) ||
                        (beq (snd f) (fst e) && negb (Qeq_bool (det (fst f) (snd f) (snd e)) 0))) (ring_edges l).
Lemma simpleb_sound l : simpleb l = true -> simple_polygon l.
Proof.
  unfold simpleb. rewrite !andb_true_iff. intros [[A B] C]. apply simple_check.
  - apply Nat.leb_le. exact A.
  - refine (all_pairs_sound _ _ l _ B). intros a b H E. apply veqb_true in E. rewrite E in H. discriminate.
  - refine (all_pairs_sound _ _ _ _ C). intros e f H. rewrite !orb_true_iff, !andb_true_iff, !negb_true_iff in H. destruct H as [[H|[H1 H2]]|[H1 H2]].
    + left. unfold pair_okb in H. rewrite !orb_true_iff, !andb_true_iff, !Qltb_true in H. unfold strictly_apart. tauto.
    + right. left. split; [apply beq_eq; exact H1|]. intros Z. apply Qeq_bool_iff in Z. congruence.
    + right. right. split; [apply beq_eq; exact H1|]. intros Z. apply Qeq_bool_iff in Z. congruence.
Qed.
