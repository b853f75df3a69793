(* The parity test of EdgeList.h against winding numbers. *)
From Coq Require Import Lqa Lia Permutation.
From Verif Require Import Base Chain GeomModel GeomSpec GeomProofs UtilModel BdryModel BdrySpec InsideSpec InsideProofs WindSpec WindProofs.
Open Scope Q_scope.

(* p is a point of none of the segments *)
Definition on_segment (p a b : vec2) : Prop := exists t, 0 <= t /\ t <= 1 /\ veq p (on_seg a b t).
Definition off_segments (p : vec2) (es : list (vec2 * vec2)) : Prop := forall a b, In (a, b) es -> ~ on_segment p a b.

(* signed crossings of the half line to the left, with the convention of the code *)
Definition left_crossing (o a b : vec2) : Q :=
  match up o a, up o b with
  | true, false => if Qltb 0 (det a b o) then 1 else 0
  | false, true => if Qltb (det a b o) 0 then - (1) else 0
  | _, _ => 0
  end.
(* the side of o on which a lies *)
Definition level (o a : vec2) : Q :=
  if Qltb (vy a) (vy o) then 1 else if Qltb (vy o) (vy a) then 0 else if Qltb (vx o) (vx a) then 1 else 0.
Lemma end_on a b : on_segment a a b /\ on_segment b a b.
Proof.
  split; [exists 0|exists 1]; (split; [lra|split; [lra|]]); split; unfold on_seg; cbn [vx vy]; ring.
Qed.
Lemma row_on p a b : vy a == vy p -> vy b == vy p -> (vx a <= vx p /\ vx p <= vx b) \/ (vx b <= vx p /\ vx p <= vx a) -> on_segment p a b.
Proof.
  intros A B H. destruct (Qeq_dec (vx a) (vx b)) as [E|N].
  - exists 0. split; [lra|]. split; [lra|]. split; unfold on_seg; cbn [vx vy]; lra.
  - exists ((vx p - vx a) / (vx b - vx a)).
    assert (D : ~ vx b - vx a == 0) by lra.
    assert (K : (vx p - vx a) / (vx b - vx a) * (vx b - vx a) == vx p - vx a) by (field; exact D).
    set (t := (vx p - vx a) / (vx b - vx a)) in *. split; [|split].
    + destruct H as [H|H]; nra.
    + destruct H as [H|H]; nra.
    + split; unfold on_seg; cbn [vx vy]; [lra|]. assert (Z : vy b - vy a == 0) by lra. rewrite Z. lra.
Qed.
Lemma line_on p a b : det a b p == 0 -> (vy a <= vy p /\ vy p <= vy b) \/ (vy b <= vy p /\ vy p <= vy a) -> ~ vy a == vy b -> on_segment p a b.
Proof.
  intros Z H N. assert (D : ~ vy b - vy a == 0) by lra. exists ((vy p - vy a) / (vy b - vy a)).
  assert (K : (vy p - vy a) / (vy b - vy a) * (vy b - vy a) == vy p - vy a) by (field; exact D).
  assert (X : (vy p - vy a) / (vy b - vy a) * (vx b - vx a) == vx p - vx a).
  { assert (E : vx p - vx a == (vy p - vy a) * (vx b - vx a) / (vy b - vy a)).
    { unfold det in Z. assert (Z2 : (vx p - vx a) * (vy b - vy a) == (vy p - vy a) * (vx b - vx a)) by lra.
      assert (Z3 : (vx p - vx a) == (vx p - vx a) * (vy b - vy a) / (vy b - vy a)) by (field; exact D). rewrite Z3, Z2. reflexivity. }
    rewrite E. field. exact D. }
  set (t := (vy p - vy a) / (vy b - vy a)) in *. split; [|split].
  - destruct H as [H|H]; nra.
  - destruct H as [H|H]; nra.
  - split; unfold on_seg; cbn [vx vy]; lra.
Qed.
Ltac qt x y := let H := fresh in assert (H : Qle_bool x y = true) by (apply Qle_bool_iff; lra); rewrite H; clear H.
Ltac qf x y := let H := fresh in
  assert (H : Qle_bool x y = false) by (let E := fresh in destruct (Qle_bool x y) eqn:E; [apply Qle_bool_iff in E; exfalso; lra|reflexivity]); rewrite H; clear H.
Ltac ev := repeat match goal with |- context [Qle_bool ?x ?y] => first [qt x y | qf x y] end; cbn [negb].
Lemma both_crossings p a b : ~ on_segment p a b -> crossing p a b - left_crossing p a b == level p a - level p b.
Proof.
  intros N. unfold crossing, left_crossing, level, up.
  assert (S : det b a p == - det a b p) by (unfold det; ring).
  assert (LA : vy a == vy p -> det a b p == - (vy b - vy p) * (vx p - vx a)) by (intros E; unfold det; rewrite <- E; ring).
  assert (LB : vy b == vy p -> det a b p == (vy p - vy a) * (vx b - vx p)) by (intros E; unfold det; rewrite E; ring).
  assert (ON : det a b p == 0 -> (vy a <= vy p /\ vy p <= vy b) \/ (vy b <= vy p /\ vy p <= vy a) -> vy a == vy b).
  { intros Z H. destruct (Qeq_dec (vy a) (vy b)) as [E|Ne]; [exact E|]. exfalso. apply N. apply line_on; assumption. }
  assert (RW : vy a == vy p -> vy b == vy p -> (vx a < vx p /\ vx b < vx p) \/ (vx p < vx a /\ vx p < vx b)).
  { intros A B. destruct (Qlt_le_dec (vx a) (vx p)) as [h1|h1], (Qlt_le_dec (vx b) (vx p)) as [h2|h2]; [left; split; assumption| | |].
    - exfalso. apply N. apply row_on; [assumption|assumption|left; split; lra].
    - exfalso. apply N. apply row_on; [assumption|assumption|right; split; lra].
    - destruct (Qeq_dec (vx a) (vx p)) as [e|e]; [exfalso; apply N; apply row_on; [assumption|assumption|left; split; lra]|].
      destruct (Qeq_dec (vx b) (vx p)) as [e'|e']; [exfalso; apply N; apply row_on; [assumption|assumption|right; split; lra]|].
      right; split; lra. }
  assert (EA : vy a == vy p -> ~ vx a == vx p).
  { intros A E. destruct (Qeq_dec (vy a) (vy b)) as [e|e]; [destruct (RW A ltac:(lra)); lra|].
    apply e. apply ON; [rewrite (LA A); rewrite E; ring|]. destruct (Qlt_le_dec (vy a) (vy b)); [left|right]; lra. }
  assert (EB : vy b == vy p -> ~ vx b == vx p).
  { intros A E. destruct (Qeq_dec (vy a) (vy b)) as [e|e]; [destruct (RW ltac:(lra) A); lra|].
    apply e. apply ON; [rewrite (LB A); rewrite E; ring|]. destruct (Qlt_le_dec (vy a) (vy b)); [left|right]; lra. }
  set (d := det a b p) in *. set (d' := det b a p) in *. clearbody d d'. clear N.
  destruct a as [ax ay], b as [bx by'], p as [px py]; cbn [vx vy] in *. unfold Qltb, Qleb in *.
  destruct (Q_dec ay py) as [[ya|ya]|ya], (Q_dec by' py) as [[yb|yb]|yb].
  - ev. ring.
  - destruct (Q_dec d 0) as [[zd|zd]|zd]; [ev; ring|ev; ring|exfalso; pose proof (ON zd ltac:(left; lra)); lra].
  - assert (X := EB yb). destruct (Q_dec bx px) as [[xb|xb]|xb]; [| |contradiction].
    + assert (zd : d < 0) by (rewrite (LB yb); nra). ev. ring.
    + assert (zd : 0 < d) by (rewrite (LB yb); nra). ev. ring.
  - destruct (Q_dec d 0) as [[zd|zd]|zd]; [ev; ring|ev; ring|exfalso; pose proof (ON zd ltac:(right; lra)); lra].
  - ev. ring.
  - assert (X := EB yb). destruct (Q_dec bx px) as [[xb|xb]|xb]; [| |contradiction].
    + assert (zd : 0 < d) by (rewrite (LB yb); nra). ev. ring.
    + assert (zd : d < 0) by (rewrite (LB yb); nra). ev. ring.
  - assert (X := EA ya). destruct (Q_dec ax px) as [[xa|xa]|xa]; [| |contradiction].
    + assert (zd : 0 < d) by (rewrite (LA ya); nra). ev. ring.
    + assert (zd : d < 0) by (rewrite (LA ya); nra). ev. ring.
  - assert (X := EA ya). destruct (Q_dec ax px) as [[xa|xa]|xa]; [| |contradiction].
    + assert (zd : d < 0) by (rewrite (LA ya); nra). ev. ring.
    + assert (zd : 0 < d) by (rewrite (LA ya); nra). ev. ring.
  - destruct (RW ya yb) as [[r1 r2]|[r1 r2]]; ev; ring.
Qed.

(* the sum of the signed crossings is a whole number with the parity of the code *)
Lemma left_whole o a b : exists k : Z, left_crossing o a b == inject_Z k /\ Z.odd k = crosses o a b.
Proof.
  unfold left_crossing. rewrite crosses_eq. destruct (up o a), (up o b).
  - exists 0%Z. split; reflexivity.
  - destruct (Qltb 0 (det a b o)); [exists 1%Z|exists 0%Z]; split; reflexivity.
  - destruct (Qltb (det a b o) 0); [exists (-1)%Z|exists 0%Z]; split; reflexivity.
  - exists 0%Z. split; reflexivity.
Qed.
Lemma left_parity o es : exists k : Z, esum (left_crossing o) es == inject_Z k /\ Z.odd k = parity o es.
Proof.
  induction es as [|[a b] es (k & E & P)]; [exists 0%Z; split; reflexivity|].
  destruct (left_whole o a b) as (k' & E' & P'). exists (k' + k)%Z. split.
  - cbn [esum]. rewrite E, E', inject_Z_plus. reflexivity.
  - rewrite Z.odd_add, P, P'. reflexivity.
Qed.

(* for closed edge sets both half lines see the same winding number *)
Lemma both_sides o es : balanced es -> off_segments o es -> winding o es == esum (left_crossing o) es.
Proof.
  intros B O. unfold winding.
  assert (E : esum (crossing o) es == esum (fun a b => left_crossing o a b + - (1) * (level o b - level o a)) es).
  { apply esum_ext. intros a b I. pose proof (both_crossings o a b (O a b I)). lra. }
  rewrite E, esum_plus, esum_scale, (B (level o)). ring.
Qed.
Theorem inside_winding o es : (3 <= length es)%nat -> balanced es -> off_segments o es -> touched o es = false ->
  exists k : Z, winding o es == inject_Z k /\ is_inside es o = Z.odd k.
Proof.
  intros L B O T. destruct (left_parity o es) as (k & E & P). exists k. split.
  - rewrite (both_sides o es B O). exact E.
  - rewrite (is_inside_eq es o L), T, P. reflexivity.
Qed.
(* o is on none of the edges and the tolerance of EQ does not make it so *)
Definition clear_of (o : vec2) (es : list (vec2 * vec2)) : Prop :=
  off_segments o es /\ exact_rows o es /\ forall e, In e es -> ~ veq (fst e) (snd e).
Lemma untouched o es : clear_of o es -> touched o es = false.
Proof.
  intros (O & R & D). apply not_true_is_false. intros T. apply existsb_exists in T. destruct T as ([a b] & I & T). apply (O a b I).
  destruct (R _ I) as [Ra Rb]. cbn [fst snd] in *. unfold touches in T.
  destruct (end_on a b) as [(ta & A1 & A2 & A3 & A4) (tb & B1 & B2 & B3 & B4)].
  apply orb_true_iff in T. destruct T as [T|T]; [apply orb_true_iff in T; destruct T as [T|T]|].
  - apply veqb_true in T. destruct T as [X Y]. exists ta. split; [exact A1|]. split; [exact A2|]. split; [rewrite X; exact A3|rewrite Y; exact A4].
  - apply veqb_true in T. destruct T as [X Y]. exists tb. split; [exact B1|]. split; [exact B2|]. split; [rewrite X; exact B3|rewrite Y; exact B4].
  - apply andb_true_iff in T. destruct T as [T S]. apply andb_true_iff in T. destruct T as [Tb Ta].
    apply Ra in Ta. apply Rb in Tb. apply in_on_segment_iff in S. destruct S as (_ & _ & S1 & S2).
    unfold vdot, vnorm2, vsub in S1, S2. cbn [vx vy] in S1, S2.
    assert (NX : ~ vx a == vx b) by (intros E; apply (D _ I); split; [exact E|cbn [fst snd]; lra]).
    apply row_on; [lra|lra|]. assert (Y : vy b - vy a == 0) by lra. unfold vdot in S1, S2. cbn [vx vy] in S1, S2. rewrite Y in S1, S2.
    destruct (Q_dec (vx a) (vx b)) as [[L|L]|L]; [left|right|contradiction]; split; nra.
Qed.
Lemma inside_odd o es : (3 <= length es)%nat -> balanced es -> clear_of o es ->
  exists k : Z, winding o es == inject_Z k /\ is_inside es o = Z.odd k.
Proof. intros L B C. exact (inside_winding o es L B (proj1 C) (untouched o es C)). Qed.
Lemma inside_once o es : (3 <= length es)%nat -> balanced es -> clear_of o es -> - (1) <= winding o es -> winding o es <= 1 ->
  (is_inside es o = true <-> ~ winding o es == 0) /\ (is_inside es o = true -> winding o es == 1 \/ winding o es == - (1)).
Proof.
  intros L B C W1 W2. destruct (inside_odd o es L B C) as (k & E & ->). rewrite E in *.
  assert (K : (k = -1 \/ k = 0 \/ k = 1)%Z).
  { assert (X1 : inject_Z (-1) <= inject_Z k) by (cbn; exact W1). assert (X2 : inject_Z k <= inject_Z 1) by (cbn; exact W2).
    rewrite <- Zle_Qle in X1, X2. lia. }
  destruct K as [ -> | [ -> | -> ] ]; cbn.
  - split; [split; [intros _ H; discriminate H|reflexivity]|intros _; right; reflexivity].
  - split; [split; [discriminate|intros H; destruct H; reflexivity]|discriminate].
  - split; [split; [intros _ H; discriminate H|reflexivity]|intros _; left; reflexivity].
Qed.
