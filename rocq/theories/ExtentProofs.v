(* The squares in which vertices are searched: proofs for ExtentProps. *)
From Coq Require Import Lqa Lia.
From Verif Require Import Base GeomModel UtilModel BdryModel AdvanceModel AdvanceSpec AdvanceProofs QTreeModel ExtentModel.
From Verif Require QTreeSpec QTreeCont QTreeMore QTreeProps.
Open Scope Q_scope.

Lemma square_prop s v : AdvanceModel.in_square s v = true <-> QTreeSpec.in_square s v.
Proof.
  rewrite in_square_iff. unfold QTreeSpec.in_square. assert (E : s / 2 == s * (1 # 2)) by (unfold Qdiv; reflexivity). rewrite !E. tauto.
Qed.
Lemma pushes_safe p (l : list vinfo) : forall s, QTreeCont.safe_hist p s [] (map (fun v => CPush (vi_xy v)) l).
Proof.
  induction l as [|v l IH]; intros s; [exact I|]. cbn [map QTreeCont.safe_hist]. split; [exact I|]. destruct (c_step p s (CPush (vi_xy v))) as [[s' r]| |]; [|exact I|exact I]. apply IH.
Qed.
Fixpoint listed (k : nat) (l : list vinfo) : list QTreeSpec.aitem :=
  match l with [] => [] | v :: r => QTreeSpec.AI k (vi_xy v) :: listed (S k) r end.
Lemma pushes_list sc (l : list vinfo) : forall s a rs, QTreeSpec.aruns sc s (map (fun v => CPush (vi_xy v)) l) a rs ->
  QTreeSpec.as_items a = QTreeSpec.as_items s ++ listed (QTreeSpec.as_next s) l.
Proof.
  induction l as [|v l IH]; intros s a rs R; cbn [map] in R; inversion R as [|s1 o1 s2 r1 os1 s3 rs1 H1 H2]; subst; cbn [listed]; [rewrite app_nil_r; reflexivity|].
  inversion H1; subst. rewrite (IH _ _ _ H2). cbn [QTreeSpec.as_items QTreeSpec.as_next]. rewrite <- app_assoc. reflexivity.
Qed.
Lemma listed_in (l : list vinfo) : forall k i q, In (QTreeSpec.AI i q) (listed k l) <-> exists j v, i = (k + j)%nat /\ nth_error l j = Some v /\ q = vi_xy v.
Proof.
  induction l as [|v l IH]; intros k i q; cbn [listed In]; [split; [intros []|intros ([|j] & w & _ & E & _); discriminate]|]. rewrite IH. split.
  - intros [E|(j & w & -> & E & ->)]; [injection E as <- <-; exists 0%nat, v; split; [lia|split; reflexivity]|exists (S j), w; split; [lia|split; [exact E|reflexivity]]].
  - intros ([|j] & w & -> & E & ->); [left; cbn in E; injection E as <-; f_equal; lia|right; exists j, w; split; [lia|split; [exact E|reflexivity]]].
Qed.
Lemma leaf_positive t : forall g q gl tl, 0 < g_scale g -> qleaf g t q = Some (gl, tl) -> 0 < g_scale gl.
Proof.
  assert (CH : forall g j, 0 < g_scale g -> 0 < g_scale (child g j)).
  { intros g j H. unfold child. cbn [g_scale]. unfold g_half. change (g_scale g / 2) with (g_scale g * (1 # 2)). lra. }
  induction t as [n its|n c0 IH0 c1 IH1 c2 IH2 c3 IH3]; intros g q gl tl P; cbn [qleaf]; destruct (negb (in_on_rect q (g_ll g) (g_ur g))); try discriminate.
  - intros E. injection E as <- _. exact P.
  - destruct (qleaf (child g 0) c0 q) as [[g0 t0]|] eqn:E0; [intros E; injection E as <- _; exact (IH0 _ _ _ _ (CH g 0%nat P) E0)|].
    destruct (qleaf (child g 1) c1 q) as [[g1 t1]|] eqn:E1; [intros E; injection E as <- _; exact (IH1 _ _ _ _ (CH g 1%nat P) E1)|].
    destruct (qleaf (child g 2) c2 q) as [[g2 t2]|] eqn:E2; [intros E; injection E as <- _; exact (IH2 _ _ _ _ (CH g 2%nat P) E2)|].
    destruct (qleaf (child g 3) c3 q) as [[g3 t3]|] eqn:E3; intros E; injection E as <- _; [exact (IH3 _ _ _ _ (CH g 3%nat P) E3)|exact P].
Qed.
Lemma dist_zero a b : QTreeSpec.dist2 a b <= 0 -> veq a b.
Proof.
  unfold QTreeSpec.dist2, veq. intros H. assert (A : forall x : Q, 0 <= x * x) by (intros x; nra).
  assert (P := A (vx a - vx b)). assert (R := A (vy a - vy b)). split.
  - assert (X : (vx a - vx b) * (vx a - vx b) == 0) by lra. apply Qmult_integral in X. destruct X; lra.
  - assert (X : (vy a - vy b) * (vy a - vy b) == 0) by lra. apply Qmult_integral in X. destruct X; lra.
Qed.
Lemma zero_dist a b : veq a b -> QTreeSpec.dist2 a b == 0.
Proof. intros [A B]. unfold QTreeSpec.dist2. rewrite A, B. ring. Qed.
Lemma square_veq s a b : veq a b -> AdvanceModel.in_square s b = true -> AdvanceModel.in_square s a = true.
Proof. intros [A B]. rewrite !in_square_iff, A, B. tauto. Qed.

(* what a search in the container finds *)
Lemma tree_found p sq store xy : (0 <= cp_items p)%Z -> 0 < cp_scale p -> QTreeCont.sqrt_ok sq -> AdvanceModel.in_square (cp_scale p) xy = true ->
  exists o, tree_nearest p sq store xy = Ok o /\
    (forall i, o = Some i -> exists v, nth_error store i = Some v /\
       forall j w, nth_error store j = Some w -> AdvanceModel.in_square (cp_scale p) (vi_xy w) = true -> QTreeSpec.dist2 (vi_xy v) xy <= QTreeSpec.dist2 (vi_xy w) xy) /\
    ((exists j w, nth_error store j = Some w /\ veq (vi_xy w) xy) -> exists i v, o = Some i /\ nth_error store i = Some v /\ veq (vi_xy v) xy).
Proof.
  intros MI SC SQ IN.
  destruct (QTreeMore.near_hist p (map (fun v => CPush (vi_xy v)) store) sq xy MI SQ (pushes_safe p store c_init) (proj1 (square_prop _ _) IN)) as (s & rs & a & gl & tl & r & R & A & L & N & H).
  assert (AI := pushes_list _ _ _ _ _ A). cbn [QTreeSpec.as_items QTreeSpec.as_next QTreeSpec.a_init app] in AI.
  assert (IT : forall i q, In (QTreeSpec.AI i q) (QTreeSpec.as_items a) <-> exists v, nth_error store i = Some v /\ q = vi_xy v).
  { intros i q. rewrite AI, listed_in. split; [intros (j & v & -> & E); exists v; exact E|intros (v & E); exists i, v; split; [reflexivity|exact E]]. }
  exists r. split; [unfold tree_nearest, vertex_container; rewrite R; cbn [obind fst]; exact N|]. split.
  - intros i ->. destruct H as (q & I & H & _). apply IT in I. destruct I as (v & E & ->). exists v. split; [exact E|]. intros j w E' IW. apply (H j). { apply IT. exists w. split; [exact E'|reflexivity]. } apply square_prop, IW.
  - intros (j & w & E & V). assert (IW : QTreeSpec.in_square (cp_scale p) (vi_xy w)) by (apply square_prop; exact (square_veq _ _ _ V IN)).
    assert (J : In (QTreeSpec.AI j (vi_xy w)) (QTreeSpec.as_items a)) by (apply IT; exists w; split; [exact E|reflexivity]).
    assert (Z := zero_dist _ _ V). destruct r as [i|].
    + destruct H as (q & I & H & _). apply IT in I. destruct I as (v & E' & ->). exists i, v. split; [reflexivity|]. split; [exact E'|]. apply dist_zero. specialize (H j _ J IW). lra.
    + exfalso. specialize (H j _ J IW). assert (P := leaf_positive _ (cp_root p) _ _ _ SC L). nra.
Qed.
(* and outside of the square *)
Lemma tree_outside p sq store xy s : vertex_container p store = Ok s -> AdvanceModel.in_square (cp_scale p) xy = false -> tree_nearest p sq store xy = UB.
Proof.
  intros E H. unfold tree_nearest. rewrite E. cbn [obind]. unfold c_get_nearest, q_nearest.
  assert (X : in_on_rect xy (g_ll (cp_root p)) (g_ur (cp_root p)) = false).
  { destruct (in_on_rect xy (g_ll (cp_root p)) (g_ur (cp_root p))) eqn:Q; [|reflexivity]. exfalso. rewrite <- Bool.not_true_iff_false in H. apply H, square_prop.
    unfold in_on_rect in Q. unfold QTreeSpec.in_square. unfold g_ll, g_ur, g_half, cp_root in Q. cbn [g_scale g_center vx vy] in Q.
    rewrite !Bool.andb_true_iff, !Qleb_true in Q. repeat split; lra. }
  destruct (cs_tree s) as [n its|n c0 c1 c2 c3]; cbn [qleaf]; rewrite X; reflexivity.
Qed.
