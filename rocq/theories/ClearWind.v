(* Winding numbers of a closed set of segments on both sides of one of them, and in
   a triangle that no segment cuts: proofs for ClearProps. *)
From Coq Require Import Lqa Lia Permutation.
From Verif Require Import Base Chain GeomModel GeomSpec GeomProofs WindSpec WindProofs PolyCorner PolyProofs ClearGeom.
Open Scope Q_scope.

Lemma pass_list x y es : (forall e, In e es -> disjoint x y (fst e) (snd e)) ->
  winding x es - winding y es == esum (fun a b => shadow x y b - shadow x y a) es.
Proof.
  intros H. unfold winding. induction es as [|[a b] es IH]; [cbn [esum]; lra|]. cbn [esum].
  pose proof (pass_apart x y a b (disjoint_apart _ _ _ _ (H (a, b) ltac:(left; reflexivity)))) as E. unfold pass in E.
  specialize (IH (fun e I => H e (or_intror I))). lra.
Qed.
Lemma moved_same es x y : balanced es -> (forall e, In e es -> disjoint x y (fst e) (snd e)) -> winding x es == winding y es.
Proof. intros B H. assert (E := pass_list x y es H). rewrite (B (shadow x y)) in E. lra. Qed.

Definition mean (a b : vec2) : vec2 := on_seg a b (1 # 2).
Lemma mean_off_next a b c t : 0 < det a b c -> 0 <= t <= 1 -> ~ veq (mean a b) (on_seg b c t).
Proof.
  intros D T E. assert (X := det_veq b c _ b c _ (veq_refl _) (veq_refl _) E). rewrite det_on in X.
  assert (Y : det b c (mean a b) == (1 # 2) * det a b c) by (unfold det, mean, on_seg; cbn [vx vy]; ring). lra.
Qed.
Lemma mean_off_prev a b c t : 0 < det a b c -> 0 <= t <= 1 -> ~ veq (mean a b) (on_seg c a t).
Proof.
  intros D T E. assert (X := det_veq c a _ c a _ (veq_refl _) (veq_refl _) E). rewrite det_on in X.
  assert (Y : det c a (mean a b) == (1 # 2) * det a b c) by (unfold det, mean, on_seg; cbn [vx vy]; ring). lra.
Qed.
Definition off (z : vec2) (e : vec2 * vec2) : Prop :=
  ~ veq (fst e) (snd e) /\ forall t, 0 <= t <= 1 -> ~ veq z (on_seg (fst e) (snd e) t).

(* from one side of a segment to the other *)
Lemma across a b c rest : 0 < det a b c -> (forall e, In e rest -> off (mean a b) e) ->
  exists x y, within x a b c /\
    crossing x a b - crossing y a b == 1 - (shadow x y a - shadow x y b) /\
    winding x rest - winding y rest == esum (fun u v => shadow x y v - shadow x y u) rest.
Proof.
  intros D O. set (m := mean a b) in *. set (w := on_seg m c (- (1))).
  assert (N1 : ~ veq b c) by (apply (det_neq b c a); assert (E : det b c a == det a b c) by (unfold det; ring); lra).
  assert (N2 : ~ veq c a) by (apply (det_neq c a b); assert (E : det c a b == det a b c) by (unfold det; ring); lra).
  assert (S1 : soon (fun t => forall e, In e rest -> disjoint (on_seg m c t) (on_seg m w t) (fst e) (snd e))).
  { apply soon_all. intros e I. destruct (O e I). apply off_soon; assumption. }
  assert (S2 : soon (fun t => disjoint (on_seg m c t) (on_seg m w t) b c)) by (apply off_soon; [exact N1|intros; apply mean_off_next; assumption]).
  assert (S3 : soon (fun t => disjoint (on_seg m c t) (on_seg m w t) c a)) by (apply off_soon; [exact N2|intros; apply mean_off_prev; assumption]).
  destruct (soon_ex _ (soon_and _ _ (soon_lt 1 ltac:(lra)) (soon_and _ _ S1 (soon_and _ _ S2 S3)))) as (t & T & T1 & P & P2 & P3).
  set (x := on_seg m c t) in *. set (y := on_seg m w t) in *. exists x, y.
  assert (X1 : det a b x == t * det a b c) by (unfold x, m, mean, det, on_seg; cbn [vx vy]; ring).
  assert (X2 : det b c x == ((1 - t) * (1 # 2)) * det a b c) by (unfold x, m, mean, det, on_seg; cbn [vx vy]; ring).
  assert (X3 : det c a x == ((1 - t) * (1 # 2)) * det a b c) by (unfold x, m, mean, det, on_seg; cbn [vx vy]; ring).
  assert (Y1 : det a b y == - (t * det a b c)) by (unfold y, w, m, mean, det, on_seg; cbn [vx vy]; ring).
  assert (Z1 : 0 < t * det a b c) by (apply Qmult_lt_0_compat; assumption).
  assert (Z2 : 0 < ((1 - t) * (1 # 2)) * det a b c) by (apply Qmult_lt_0_compat; [lra|assumption]).
  split; [unfold within; lra|]. split; [|apply pass_list; exact P].
  pose proof (pass_apart x y b c (disjoint_apart _ _ _ _ P2)) as E2. pose proof (pass_apart x y c a (disjoint_apart _ _ _ _ P3)) as E3. unfold pass in E2, E3.
  assert (MX : mem x a b c == 1) by (destruct (mem_cases x a b c D) as [[_ N]|[M _]]; [exfalso; apply N; lra|exact M]).
  assert (MY : mem y a b c == 0) by (destruct (mem_cases y a b c D) as [[M _]|[_ N]]; [exact M|exfalso; lra]).
  unfold mem in MX, MY. lra.
Qed.
Lemma rise a b c rest : 0 < det a b c -> balanced ((a, b) :: rest) -> (forall e, In e rest -> off (mean a b) e) ->
  exists x y, within x a b c /\ winding x ((a, b) :: rest) == winding y ((a, b) :: rest) + 1.
Proof.
  intros D B O. destruct (across a b c rest D O) as (x & y & W & C & P). exists x, y. split; [exact W|].
  assert (Z := B (shadow x y)). unfold winding in *. cbn [esum] in *. lra.
Qed.
Lemma fall a b c rest : 0 < det a b c -> balanced ((b, a) :: rest) -> (forall e, In e rest -> off (mean a b) e) ->
  exists x y, within x a b c /\ winding x ((b, a) :: rest) == winding y ((b, a) :: rest) - 1.
Proof.
  intros D B O. destruct (across a b c rest D O) as (x & y & W & C & P). exists x, y. split; [exact W|].
  assert (Z := B (shadow x y)). unfold winding in *. cbn [esum] in *. rewrite (crossing_antisym x a b), (crossing_antisym y a b). lra.
Qed.

Lemma within_convex x y a b c k : within x a b c -> within y a b c -> 0 <= k <= 1 -> within (on_seg x y k) a b c.
Proof.
  assert (M : forall u v, 0 < u -> 0 < v -> 0 <= k <= 1 -> 0 < (1 - k) * u + k * v).
  { intros u v U V K. destruct (Qlt_le_dec 0 k).
    - assert (0 < k * v) by (apply Qmult_lt_0_compat; assumption). assert (0 <= (1 - k) * u) by (apply Qmult_le_0_compat; lra). lra.
    - assert (E : k == 0) by lra. rewrite E. lra. }
  unfold within. intros (A1 & A2 & A3) (B1 & B2 & B3) K. rewrite !det_mix. auto.
Qed.
Definition uncut (a b c : vec2) (e : vec2 * vec2) : Prop := forall s, 0 <= s <= 1 -> ~ within (on_seg (fst e) (snd e) s) a b c.
Lemma within_veq z w a b c : veq z w -> within z a b c -> within w a b c.
Proof. intros V. unfold within. rewrite !(det_veq _ _ _ _ _ _ (veq_refl _) (veq_refl _) V). tauto. Qed.
Lemma same_inside a b c es x y : balanced es -> (forall e, In e es -> uncut a b c e) -> within x a b c -> within y a b c ->
  winding x es == winding y es.
Proof.
  intros B U X Y. apply moved_same; [exact B|]. intros e I k t K T E.
  apply (U e I t T). apply (within_veq _ _ _ _ _ E). apply within_convex; assumption.
Qed.

(* owned points of a triangle see the winding number of its inside *)
Lemma soon_nonzero a b z : ~ veq a b -> soon (fun t => ~ det a b (nudge z t) == 0).
Proof.
  intros N. set (dx := vx b - vx a). set (dy := vy b - vy a). set (d := det a b z).
  assert (E : forall t, det a b (nudge z t) == d + t * (t * dx - dy)) by (intros t; unfold det, nudge, dx, dy, d; cbn [vx vy]; unfold det; ring).
  assert (K : soon (fun t => ~ d + t * (t * dx - dy) == 0)).
  2:{ destruct K as (e & P & K). exists e. split; [exact P|]. intros t T1 T2 Z. apply (K t T1 T2). rewrite <- E. exact Z. }
  assert (POS : forall d dx dy, 0 < d -> soon (fun t => 0 < d + t * (t * dx - dy))).
  { clear. intros d dx dy P. destruct (soon_and _ _ (soon_lt 1 ltac:(lra)) (soon_and _ _ (soon_pos (d * (1 # 2)) dx ltac:(lra)) (soon_pos (d * (1 # 2)) (- dy) ltac:(lra)))) as (e & E & K).
    exists e. split; [exact E|]. intros t T1 T2. destruct (K t T1 T2) as (T3 & K1 & K2).
    destruct (Qlt_le_dec dx 0) as [L|L].
    - assert (t * dx <= t * (t * dx)); [|lra]. assert (0 <= t * ((1 - t) * (- dx))) by (repeat apply Qmult_le_0_compat; lra). lra.
    - assert (0 <= t * (t * dx)) by (repeat apply Qmult_le_0_compat; lra). lra. }
  destruct (qsign d) as [H|[H|H]].
  - destruct (POS (- d) (- dx) (- dy) ltac:(lra)) as (e & P & K). exists e. split; [exact P|]. intros t T1 T2 Z. specialize (K t T1 T2). lra.
  - destruct (qsign dy) as [Y|[Y|Y]].
    + destruct (soon_pos (- dy) dx ltac:(lra)) as (e & P & K). exists e. split; [exact P|]. intros t T1 T2 Z. specialize (K t T1 T2).
      assert (0 < t * (t * dx - dy)) by (apply Qmult_lt_0_compat; lra). lra.
    + destruct (soon_lt 1 ltac:(lra)) as (e & P & _). exists e. split; [exact P|]. intros t T1 T2 Z.
      assert (X : t * (t * dx) == 0) by (rewrite H, Y in Z; lra). destruct (zero_ll _ _ X) as [X'|X']; [lra|]. destruct (zero_ll _ _ X') as [X''|X'']; [lra|].
      apply N. split; unfold dx, dy in *; lra.
    + destruct (soon_pos dy (- dx) ltac:(lra)) as (e & P & K). exists e. split; [exact P|]. intros t T1 T2 Z. specialize (K t T1 T2).
      assert (0 < t * (dy - t * dx)) by (apply Qmult_lt_0_compat; lra). lra.
  - destruct (POS d dx dy H) as (e & P & K). exists e. split; [exact P|]. intros t T1 T2 Z. specialize (K t T1 T2). lra.
Qed.
Lemma owned_inside a b c z es : 0 < det a b c -> mem z a b c == 1 -> exists x, within x a b c /\ winding x es == winding z es.
Proof.
  intros D M.
  assert (N0 : ~ veq a b) by (apply (det_neq a b c); exact D).
  assert (N1 : ~ veq b c) by (apply (det_neq b c a); assert (E : det b c a == det a b c) by (unfold det; ring); lra).
  assert (N2 : ~ veq c a) by (apply (det_neq c a b); assert (E : det c a b == det a b c) by (unfold det; ring); lra).
  assert (S : soon (fun t => forall e, In e es -> crossing (nudge z t) (fst e) (snd e) == crossing z (fst e) (snd e))) by (apply soon_all; intros e _; apply soon_crossing).
  destruct (soon_ex _ (soon_and _ _ S (soon_and _ _ (soon_crossing z a b) (soon_and _ _ (soon_crossing z b c) (soon_and _ _ (soon_crossing z c a)
    (soon_and _ _ (soon_nonzero a b z N0) (soon_and _ _ (soon_nonzero b c z N1) (soon_nonzero c a z N2)))))))) as (t & T & SE & C1 & C2 & C3 & Z1 & Z2 & Z3).
  exists (nudge z t). split.
  - assert (M' : mem (nudge z t) a b c == 1) by (unfold mem in *; lra).
    destruct (mem_cases (nudge z t) a b c D) as [[M0 _]|(_ & T1 & T2 & T3)]; [lra|]. unfold within. repeat split.
    + destruct (Qlt_le_dec 0 (det a b (nudge z t))); [assumption|exfalso; lra].
    + destruct (Qlt_le_dec 0 (det b c (nudge z t))); [assumption|exfalso; lra].
    + destruct (Qlt_le_dec 0 (det c a (nudge z t))); [assumption|exfalso; lra].
  - apply esum_ext. intros u v I. apply (SE (u, v) I).
Qed.
