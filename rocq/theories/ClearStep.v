(* One triangle cut off a simple front: proofs for ClearProps. *)
From Coq Require Import Lqa Lia Permutation.
From Verif Require Import Base Chain GeomModel GeomSpec GeomProofs BdryModel BdrySpec AdvanceModel AdvanceSpec AdvanceInv
  WindSpec WindProofs PolyCorner PolyProofs ClearSpec ClearGeom ClearWind.
Open Scope Q_scope.

Lemma take_out es (e : bedge) : NoDup (map be_id es) -> In e es -> exists rest, Permutation es (e :: rest) /\
  forall f, In f rest -> In f es /\ be_id f <> be_id e.
Proof.
  intros N I. apply in_split in I. destruct I as (l1 & l2 & ->). exists (l1 ++ l2). split; [apply Permutation_sym, Permutation_middle|].
  intros f J. rewrite map_app in N. cbn [map] in N. apply NoDup_remove_2 in N. split.
  - apply in_app_or in J. apply in_or_app. cbn. tauto.
  - intros E. apply N. rewrite <- map_app, <- E. apply in_map. exact J.
Qed.
Lemma segs_balanced pos es : AdvanceSpec.closed es -> balanced (map (seg pos) es).
Proof.
  intros C. apply AdvanceInv.closed_balanced in C. intros f. rewrite <- (C (fun v => f (pos v))). clear C. unfold ends.
  induction es as [|e es IH]; [reflexivity|]. cbn [map esum seg]. rewrite IH. reflexivity.
Qed.

Section Step.
Variable pos : nat -> vec2.
Variable es : list bedge.
Hypothesis SF : simple_front pos es.
Variable base : bedge.
Hypothesis Hb : In base es.
Variable v : nat.
Notation a := (be_v1 base).
Notation b := (be_v2 base).
Notation p := (pos (be_v1 base)).
Notation q := (pos (be_v2 base)).
Notation r := (pos v).
Hypothesis D : 0 < det p q r.
Hypothesis T1 : forall e x, In e es -> In x (sides3 p q r) ->
  ends_only (fst (seg pos e)) (snd (seg pos e)) (fst x) (snd x) \/ same_ends (fst (seg pos e)) (snd (seg pos e)) (fst x) (snd x).
Hypothesis T2 : forall w, on_front es w -> w <> a -> w <> b -> w <> v -> ~ touching (pos w) p q r.

Lemma start_on e : In e es -> on_front es (be_v1 e).
Proof. intros I. exists e. tauto. Qed.
Lemma end_on e : In e es -> on_front es (be_v2 e).
Proof. intros I. exists e. tauto. Qed.
Lemma seg_proper e : In e es -> ~ veq (fst (seg pos e)) (snd (seg pos e)).
Proof. intros I E. apply (sf_proper _ _ SF e I). apply (sf_pos _ _ SF); [apply start_on, I|apply end_on, I|exact E]. Qed.
Lemma vertex_place w : on_front es w -> corner p q r (pos w) \/ ~ touching (pos w) p q r.
Proof.
  intros O. destruct (Nat.eq_dec w a) as [->|N1]; [left; left; apply veq_refl|].
  destruct (Nat.eq_dec w b) as [->|N2]; [left; right; left; apply veq_refl|].
  destruct (Nat.eq_dec w v) as [->|N3]; [left; right; right; apply veq_refl|]. right. apply T2; assumption.
Qed.
Lemma front_uncut e : In e es -> uncut p q r (seg pos e).
Proof.
  intros I. refine (no_cut p q r D _ _ (seg_proper e I) (vertex_place _ (start_on e I)) (vertex_place _ (end_on e I)) _).
  intros x X. apply T1; assumption.
Qed.
Lemma other_off e f : In e es -> In f es -> be_id f <> be_id e -> off (mean (pos (be_v1 e)) (pos (be_v2 e))) (seg pos f).
Proof.
  intros I J N. split; [apply seg_proper, J|]. intros t T E.
  destruct (sf_ends _ _ SF e f I J ltac:(congruence) (1 # 2) t ltac:(lra) T E) as [[X|X] _]; lra.
Qed.
Lemma other_off' e f : In e es -> In f es -> be_id f <> be_id e -> off (mean (pos (be_v2 e)) (pos (be_v1 e))) (seg pos f).
Proof.
  intros I J N. destruct (other_off e f I J N) as [P O]. split; [exact P|]. intros t T E. apply (O t T).
  refine (veq_trans _ _ _ _ E). unfold mean, veq, on_seg. cbn [vx vy]. split; ring.
Qed.
Notation W z := (winding z (map (seg pos) es)).
Lemma winding_out e rest z : Permutation es (e :: rest) -> W z == winding z (seg pos e :: map (seg pos) rest).
Proof. intros P. apply esum_perm. apply (Permutation_map (seg pos)) in P. exact P. Qed.
Lemma balanced_out e rest : Permutation es (e :: rest) -> balanced (seg pos e :: map (seg pos) rest).
Proof. intros P. apply (Permutation_map (seg pos)) in P. apply (balanced_perm _ _ P). apply segs_balanced, (sf_closed _ _ SF). Qed.

Lemma uncut_list e : In e (map (seg pos) es) -> uncut p q r e.
Proof. intros I. apply in_map_iff in I. destruct I as (f & <- & I). apply front_uncut, I. Qed.
Lemma inside_one z : within z p q r -> W z == 1.
Proof.
  intros Z. destruct (take_out es base (sf_ids _ _ SF) Hb) as (rest & P & R).
  destruct (rise p q r (map (seg pos) rest) D (balanced_out _ _ P)) as (x & y & X & E).
  { intros e I. apply in_map_iff in I. destruct I as (f & <- & I). destruct (R f I) as [J N]. apply other_off; assumption. }
  change ((p, q) :: map (seg pos) rest) with (seg pos base :: map (seg pos) rest) in E. rewrite <- !(winding_out base rest _ P) in E.
  rewrite (same_inside p q r (map (seg pos) es) z x (segs_balanced _ _ (sf_closed _ _ SF)) uncut_list Z X).
  assert (A := sf_region _ _ SF x). assert (B := sf_region _ _ SF y). lra.
Qed.
Lemma not_backwards e c : In e es -> 0 < det (pos (be_v2 e)) (pos (be_v1 e)) c ->
  (forall x, within x (pos (be_v2 e)) (pos (be_v1 e)) c -> within x p q r) -> False.
Proof.
  intros I DE IN. destruct (take_out es e (sf_ids _ _ SF) I) as (rest & P & R).
  destruct (fall (pos (be_v2 e)) (pos (be_v1 e)) c (map (seg pos) rest) DE (balanced_out _ _ P)) as (x & y & X & E).
  { intros f J. apply in_map_iff in J. destruct J as (g & <- & J). destruct (R g J) as [G N]. apply other_off'; assumption. }
  change ((pos (be_v1 e), pos (be_v2 e)) :: map (seg pos) rest) with (seg pos e :: map (seg pos) rest) in E. rewrite <- !(winding_out e rest _ P) in E.
  assert (O := inside_one x (IN x X)). assert (B := sf_region _ _ SF y). lra.
Qed.
Lemma no_start_at e : In e es -> ~ (be_v1 e = a /\ be_v2 e = v).
Proof.
  intros I [E1 E2]. apply (not_backwards e q I); rewrite E1, E2.
  - assert (E : det r p q == det p q r) by (unfold det; ring). lra.
  - unfold within. tauto.
Qed.
Lemma no_end_at e : In e es -> ~ (be_v1 e = v /\ be_v2 e = b).
Proof.
  intros I [E1 E2]. apply (not_backwards e p I); rewrite E1, E2.
  - assert (E : det q r p == det p q r) by (unfold det; ring). lra.
  - unfold within. tauto.
Qed.
Lemma region_left z : 0 <= W z - mem z p q r <= 1.
Proof.
  assert (R := sf_region _ _ SF z). destruct (mem_cases z p q r D) as [[M _]|[M _]]; [lra|].
  destruct (owned_inside p q r z (map (seg pos) es) D M) as (x & X & E). assert (O := inside_one x X). lra.
Qed.
Lemma p_not_r : ~ veq p r.
Proof. intros [E1 E2]. assert (X := D). unfold det in X. rewrite E1, E2 in X. lra. Qed.
Lemma q_not_r : ~ veq q r.
Proof. intros [E1 E2]. assert (X := D). unfold det in X. rewrite E1, E2 in X. lra. Qed.
Lemma corner_touching z : corner p q r z -> touching z p q r.
Proof.
  assert (E1 : det q r p == det p q r) by (unfold det; ring). assert (E2 : det r p q == det p q r) by (unfold det; ring).
  intros C. assert (X := D). unfold touching. destruct C as [C|[C|C]]; rewrite !(det_veq _ _ _ _ _ _ (veq_refl _) (veq_refl _) C), ?det_same_l, ?det_same_r, ?E1, ?E2; repeat split; lra.
Qed.
Lemma at_r w : on_front es w -> veq (pos w) r -> w = v.
Proof.
  intros O E. destruct (Nat.eq_dec w a) as [->|N1]; [destruct (p_not_r E)|]. destruct (Nat.eq_dec w b) as [->|N2]; [destruct (q_not_r E)|].
  destruct (Nat.eq_dec w v) as [K|N3]; [exact K|]. exfalso. apply (T2 w O N1 N2 N3). apply corner_touching. right. right. exact E.
Qed.
Lemma at_p w : on_front es w -> veq (pos w) p -> w = a.
Proof. intros O E. apply (sf_pos _ _ SF); [exact O|apply start_on, Hb|exact E]. Qed.
Lemma at_q w : on_front es w -> veq (pos w) q -> w = b.
Proof. intros O E. apply (sf_pos _ _ SF); [exact O|apply end_on, Hb|exact E]. Qed.

Definition unjoined (x y : nat) : Prop := forall e, In e es -> ~ (be_v1 e = x /\ be_v2 e = y) /\ ~ (be_v1 e = y /\ be_v2 e = x).
Lemma first_side e : In e es -> unjoined v a -> ends_only (pos (be_v1 e)) (pos (be_v2 e)) p r.
Proof.
  intros I U. apply ends_only_sym, ends_only_rev, ends_only_sym.
  destruct (T1 e (r, p) I) as [H|[[H1 H2]|[H1 H2]]]; [cbn; tauto|exact H| |]; exfalso; cbn [seg fst snd] in H1, H2; destruct (U e I) as [U1 U2].
  - apply U1. split; [apply at_r; [apply start_on, I|exact H1]|apply at_p; [apply end_on, I|exact H2]].
  - apply U2. split; [apply at_p; [apply start_on, I|exact H1]|apply at_r; [apply end_on, I|exact H2]].
Qed.
Lemma second_side e : In e es -> unjoined v b -> ends_only (pos (be_v1 e)) (pos (be_v2 e)) r q.
Proof.
  intros I U. apply ends_only_sym, ends_only_rev, ends_only_sym.
  destruct (T1 e (q, r) I) as [H|[[H1 H2]|[H1 H2]]]; [cbn; tauto|exact H| |]; exfalso; cbn [seg fst snd] in H1, H2; destruct (U e I) as [U1 U2].
  - apply U2. split; [apply at_q; [apply start_on, I|exact H1]|apply at_r; [apply end_on, I|exact H2]].
  - apply U1. split; [apply at_r; [apply start_on, I|exact H1]|apply at_q; [apply end_on, I|exact H2]].
Qed.

(* the front afterwards *)
Definition fresh (e : bedge) : Prop :=
  (be_v1 e = a /\ be_v2 e = v /\ unjoined v a) \/ (be_v1 e = v /\ be_v2 e = b /\ unjoined v b).
Lemma next_front fs : NoDup (map be_id fs) -> AdvanceSpec.closed fs -> v <> a -> v <> b ->
  (forall e, In e fs -> In e es \/ fresh e) ->
  (forall e f, In e fs -> In f fs -> fresh e -> fresh f -> be_id e <> be_id f -> pair_of e <> pair_of f) ->
  (forall z, winding z (map (seg pos) fs) == W z - mem z p q r) -> simple_front pos fs.
Proof.
  intros N C NA NB K NE WI.
  assert (ON : forall w, on_front fs w -> on_front es w \/ w = v).
  { intros w (e & I & E). destruct (K e I) as [J|[(E1 & E2 & _)|(E1 & E2 & _)]].
    - left. exists e. tauto.
    - destruct E as [E|E]; [left; rewrite <- E, E1; apply start_on, Hb|right; congruence].
    - destruct E as [E|E]; [right; congruence|left; rewrite <- E, E2; apply end_on, Hb]. }
  constructor.
  - exact N.
  - intros e I. destruct (K e I) as [J|[(-> & -> & _)|(-> & -> & _)]]; [apply (sf_proper _ _ SF), J|congruence|congruence].
  - exact C.
  - intros x y X Y E. destruct (ON x X) as [X'| ->], (ON y Y) as [Y'| ->].
    + apply (sf_pos _ _ SF); assumption.
    + apply at_r; assumption.
    + symmetry. apply at_r; [exact Y'|apply veq_sym, E].
    + reflexivity.
  - intros e f I J NI. cbn [seg fst snd].
    assert (MIX : forall e f, In e es -> fresh f -> ends_only (pos (be_v1 e)) (pos (be_v2 e)) (pos (be_v1 f)) (pos (be_v2 f))).
    { clear - SF D T1 T2 Hb. intros e f I [(-> & -> & U)|(-> & -> & U)]; [apply first_side|apply second_side]; assumption. }
    destruct (K e I) as [I'|I'], (K f J) as [J'|J'].
    + apply (sf_ends _ _ SF); assumption.
    + apply MIX; assumption.
    + apply ends_only_sym, MIX; assumption.
    + assert (X := NE e f I J I' J' NI). unfold pair_of in X.
      destruct I' as [(E1 & E2 & _)|(E1 & E2 & _)], J' as [(F1 & F2 & _)|(F1 & F2 & _)]; rewrite E1, E2, F1, F2 in *; try (exfalso; apply X; reflexivity).
      * apply corner_ends_only, D.
      * apply ends_only_sym, corner_ends_only, D.
  - intros z. rewrite (WI z). apply region_left.
Qed.
End Step.
