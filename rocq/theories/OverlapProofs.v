(* Overlapping convex elements have sides that meet, or one is in the other one,
   up to the cases that are named here. *)
From Coq Require Import Lia Lqa Setoid.
From Verif Require Import Base GeomModel GeomSpec GeomProofs FacetModel OverlapModel OverlapSpec.
Open Scope Q_scope.

Definition sd (s : vec2 * vec2) (z : vec2) : Q := det (fst s) (snd s) z.

(* ---------- lines along segments ---------- *)
Lemma sd_seg s a b t : sd s (on_seg a b t) == (1 - t) * sd s a + t * sd s b.
Proof. unfold sd, det, on_seg. cbn [vx vy]. ring. Qed.
Lemma sd_ext s x y : veq x y -> sd s x == sd s y.
Proof. intros [A B]. unfold sd, det. rewrite A, B. reflexivity. Qed.

Lemma mix_pos x y t : 0 < x -> 0 <= y -> 0 < t -> t < 1 -> 0 < (1 - t) * x + t * y.
Proof. intros. assert (0 < (1 - t) * x) by (apply Qmult_lt_0_compat; lra). assert (0 <= t * y) by (apply Qmult_le_0_compat; lra). lra. Qed.
Lemma mix_nonneg x y t : 0 <= x -> 0 <= y -> 0 <= t -> t <= 1 -> 0 <= (1 - t) * x + t * y.
Proof. intros. assert (0 <= (1 - t) * x) by (apply Qmult_le_0_compat; lra). assert (0 <= t * y) by (apply Qmult_le_0_compat; lra). lra. Qed.

(* where a falling value is zero *)
Lemma zero_at x y : 0 < x -> y < 0 -> exists t, 0 < t /\ t < 1 /\ (1 - t) * x + t * y == 0.
Proof.
  intros X Y. exists (x / (x - y)). assert (D : 0 < x - y) by lra. repeat split.
  - apply Qlt_shift_div_l; lra.
  - apply Qlt_shift_div_r; lra.
  - field. lra.
Qed.

(* the way from z to v leaves the outline before v *)
Lemma leaves L z v : inside L z -> inside_on L v \/
  exists t s, 0 < t /\ t < 1 /\ In s L /\ sd s (on_seg z v t) == 0 /\ sd s v < 0 /\ inside_on L (on_seg z v t).
Proof.
  induction L as [|s L IH]; intros I; [left; intros s []|].
  assert (Z : 0 < sd s z) by (apply I; left; reflexivity).
  assert (I' : inside L z) by (intros x Hx; apply I; right; exact Hx).
  destruct (IH I') as [C|(t & s' & T0 & T1 & S' & E & N & C)].
  - destruct (Qlt_le_dec (sd s v) 0) as [N|P].
    + right. destruct (zero_at _ _ Z N) as (t & T0 & T1 & E). exists t, s. rewrite sd_seg.
      repeat split; auto; [left; reflexivity|]. intros x [<-|Hx].
      * change (0 <= sd s (on_seg z v t)). rewrite sd_seg, E. lra.
      * change (0 <= sd x (on_seg z v t)). rewrite sd_seg. apply Qlt_le_weak, mix_pos; auto; [exact (I' x Hx)|exact (C x Hx)].
    + left. intros x [<-|Hx]; [exact P|exact (C x Hx)].
  - right. destruct (Qlt_le_dec (sd s (on_seg z v t)) 0) as [N'|P].
    + assert (NV : sd s v < 0).
      { rewrite sd_seg in N'. destruct (Qlt_le_dec (sd s v) 0) as [|P']; auto.
        exfalso. assert (M := mix_pos _ _ t Z P' T0 T1). lra. }
      destruct (zero_at _ _ Z NV) as (u & U0 & U1 & EU). exists u, s. rewrite sd_seg.
      assert (UT : u < t).
      { rewrite sd_seg in N'. destruct (Qlt_le_dec u t) as [|G]; auto. exfalso.
        assert (X : (1 - t) * sd s z + t * sd s v == (1 - u) * sd s z + u * sd s v + (u - t) * (sd s z - sd s v)) by ring.
        assert (Y : 0 <= (u - t) * (sd s z - sd s v)) by (apply Qmult_le_0_compat; lra). lra. }
      repeat split; auto; [left; reflexivity|]. intros x [<-|Hx].
      * change (0 <= sd s (on_seg z v u)). rewrite sd_seg, EU. lra.
      * change (0 <= sd x (on_seg z v u)). assert (Cx := C x Hx). change (0 <= sd x (on_seg z v t)) in Cx.
        assert (Zx := I' x Hx). change (0 < sd x z) in Zx. rewrite sd_seg in *.
        destruct (Qlt_le_dec (sd x v) 0) as [Q|Q]; [|apply Qlt_le_weak, mix_pos; auto].
        assert (X : (1 - u) * sd x z + u * sd x v == (1 - t) * sd x z + t * sd x v + (t - u) * (sd x z - sd x v)) by ring.
        assert (Y : 0 <= (t - u) * (sd x z - sd x v)) by (apply Qmult_le_0_compat; lra). lra.
    + exists t, s'. repeat split; auto; [right; exact S'|]. intros x [<-|Hx]; [exact P|exact (C x Hx)].
Qed.

(* ---------- convex outlines ---------- *)
Definition linked (L : outline) : Prop := forall e, In e L -> exists n m, In (snd e, n) L /\ In (m, fst e) L /\
  0 < det (snd e) n (fst e) /\ 0 < det m (fst e) (snd e).
Definition strict (L : outline) : Prop := forall s e, In s L -> In e L ->
  s = e \/ 0 < sd s (fst e) \/ 0 < sd s (snd e).
Definition convex (L : outline) : Prop := linked L /\ (forall v, In v (corners L) -> inside_on L v) /\ strict L.

Lemma det_rot a b c : det a b c == det b c a. Proof. unfold det. ring. Qed.
Lemma det_aab a b : det a b a == 0. Proof. unfold det. ring. Qed.
Lemma det_abb a b : det a b b == 0. Proof. unfold det. ring. Qed.

Lemma convex_sides3 p q r : convex3 p q r -> convex (sides3 p q r).
Proof.
  unfold convex3. intros D. assert (D1 : 0 < det q r p) by (rewrite <- det_rot; exact D).
  assert (D2 : 0 < det r p q) by (rewrite <- det_rot; exact D1).
  assert (Z1 := det_aab). assert (Z2 := det_abb). repeat split.
  - intros e [<-|[<-|[<-|[]]]]; cbn [fst snd]; [exists r, r|exists p, p|exists q, q]; cbn [In sides3]; tauto.
  - intros v [<-|[<-|[<-|[]]]] s [<-|[<-|[<-|[]]]]; cbn [fst snd]; rewrite ?Z1, ?Z2; lra.
  - intros s e [<-|[<-|[<-|[]]]] [<-|[<-|[<-|[]]]]; unfold sd; cbn [fst snd]; tauto.
Qed.
Lemma convex_sides4 p q r s : convex4 p q r s -> convex (sides4 p q r s).
Proof.
  unfold convex4. intros (D1 & D2 & D3 & D4).
  assert (E1 : 0 < det p q s) by (rewrite <- det_rot; exact D4).
  assert (E2 : 0 < det q r p) by (rewrite <- det_rot; exact D1).
  assert (E3 : 0 < det r s q) by (rewrite <- det_rot; exact D2).
  assert (E4 : 0 < det s p r) by (rewrite <- det_rot; exact D3).
  assert (Z1 := det_aab). assert (Z2 := det_abb). repeat split.
  - intros e [<-|[<-|[<-|[<-|[]]]]]; cbn [fst snd]; [exists r, s|exists s, p|exists p, q|exists q, r]; cbn [In sides4]; tauto.
  - intros v [<-|[<-|[<-|[<-|[]]]]] x [<-|[<-|[<-|[<-|[]]]]]; cbn [fst snd]; rewrite ?Z1, ?Z2; lra.
  - intros x e [<-|[<-|[<-|[<-|[]]]]] [<-|[<-|[<-|[<-|[]]]]]; unfold sd; cbn [fst snd]; tauto.
Qed.

Lemma side_ends L e : convex L -> In e L -> In (fst e) (corners L) /\ In (snd e) (corners L).
Proof.
  intros (K & _) I. destruct (K e I) as (n & m & N & _). split; [apply in_map; exact I|].
  apply (in_map fst) in N. exact N.
Qed.

(* a point of the line through a side that is not outside is a point of the side *)
Lemma on_side L e w : convex L -> In e L -> inside_on L w -> sd e w == 0 ->
  exists t, 0 <= t /\ t <= 1 /\ veq w (on_seg (fst e) (snd e) t).
Proof.
  intros (K & _) I C Z. destruct (K e I) as (n & m & N & M & DN & DM).
  assert (CN := C _ N). assert (CM := C _ M). destruct e as [a b]. unfold sd in Z. cbn [fst snd] in *.
  assert (DM' : 0 < det m a b) by exact DM.
  exists (det m a w / det m a b).
  (* w = a + t (b - a): from the two lines through a *)
  assert (EX : det m a b * (vx w - vx a) == det m a w * (vx b - vx a) - (vx a - vx m) * det a b w) by (unfold det; ring).
  assert (EY : det m a b * (vy w - vy a) == det m a w * (vy b - vy a) - (vy a - vy m) * det a b w) by (unfold det; ring).
  rewrite Z in EX, EY.
  set (D := det m a b) in *. set (W := det m a w) in *.
  assert (V : veq w (on_seg a b (W / D))).
  { unfold on_seg. split; cbn [vx vy].
    - assert (X : vx w - vx a == (W / D) * (vx b - vx a)); [|lra].
      apply (Qmult_inj_l _ _ D); [lra|]. rewrite EX. field. lra.
    - assert (X : vy w - vy a == (W / D) * (vy b - vy a)); [|lra].
      apply (Qmult_inj_l _ _ D); [lra|]. rewrite EY. field. lra. }
  assert (T0 : 0 <= W / D) by (apply Qle_shift_div_l; lra). split; [exact T0|]. split; [|exact V].
  destruct (Qlt_le_dec 1 (W / D)) as [G|G]; auto. exfalso.
  assert (S := sd_ext (b, n) _ _ V). rewrite sd_seg in S. unfold sd in S. cbn [fst snd] in S.
  assert (B : det b n b == 0) by (unfold det; ring). rewrite B in S.
  assert (P : 0 < (W / D - 1) * det b n a) by (apply Qmult_lt_0_compat; lra). lra.
Qed.

(* ---------- segments that meet ---------- *)
Definition meet (a b d e : vec2) : Prop :=
  line_line_crossing a b d e = true \/ near_open_seg a b d \/ near_open_seg a b e \/ near_open_seg d e a \/ near_open_seg d e b.

Lemma near_rev a b d : near_open_seg a b d -> near_open_seg b a d.
Proof.
  unfold near_open_seg, det, vdot, vnorm2, vdot, vsub. cbn [vx vy]. intros (A & B & C & D). repeat split; lra.
Qed.
Lemma meet_rev a b d e : meet b a d e -> meet a b d e.
Proof.
  unfold meet. rewrite crossing_rev1. intros [A|[A|[A|[A|A]]]]; auto; apply near_rev in A; auto.
Qed.
Lemma meet_swap a b d e : meet d e a b -> meet a b d e.
Proof. unfold meet. rewrite crossing_sym. tauto. Qed.

Lemma veq_det1 a b x y : veq x y -> det a b x == det a b y.
Proof. intros [A B]. unfold det. rewrite A, B. reflexivity. Qed.

Lemma near_of a b x t : ~ veq a b -> 0 < t -> t < 1 -> veq x (on_seg a b t) -> near_open_seg a b x.
Proof.
  intros NE T0 T1 V. assert (TP := tol_pos).
  assert (D : det a b x == 0) by (rewrite (veq_det1 a b _ _ V); unfold det, on_seg; cbn [vx vy]; ring).
  assert (N : 0 < vnorm2 (vsub b a)).
  { unfold vnorm2, vdot, vsub. cbn [vx vy]. destruct (Qeq_dec (vx b - vx a) 0) as [X|X], (Qeq_dec (vy b - vy a) 0) as [Y|Y].
    - exfalso. apply NE. split; lra.
    - clear -Y. set (y := vy b - vy a) in *. assert (0 < y * y) by (destruct (Q_dec y 0) as [[?|?]|?]; nra).
      assert (0 <= (vx b - vx a) * (vx b - vx a)) by (set (u := vx b - vx a); nra). lra.
    - clear -X. set (y := vx b - vx a) in *. assert (0 < y * y) by (destruct (Q_dec y 0) as [[?|?]|?]; nra).
      assert (0 <= (vy b - vy a) * (vy b - vy a)) by (set (u := vy b - vy a); nra). lra.
    - clear -X. set (y := vx b - vx a) in *. assert (0 < y * y) by (destruct (Q_dec y 0) as [[?|?]|?]; nra).
      assert (0 <= (vy b - vy a) * (vy b - vy a)) by (set (u := vy b - vy a); nra). lra. }
  assert (E : vdot (vsub x a) (vsub b a) == t * vnorm2 (vsub b a)).
  { destruct V as [VX VY]. unfold on_seg in VX, VY. cbn [vx vy] in VX, VY.
    unfold vnorm2, vdot, vsub. cbn [vx vy]. rewrite VX, VY. ring. }
  unfold near_open_seg. rewrite D, E. set (n := vnorm2 (vsub b a)) in *. repeat split; try lra.
  - apply Qmult_lt_0_compat; auto.
  - assert (0 < (1 - t) * n) by (apply Qmult_lt_0_compat; lra). lra.
Qed.

Definition clr (a b x : vec2) : Prop := det a b x == 0 \/ 4 * tol26 <= det a b x \/ det a b x <= - (4 * tol26).
Lemma clr_rev a b x : clr a b x -> clr b a x.
Proof. unfold clr. assert (E : det b a x == - det a b x) by (unfold det; ring). rewrite E. intros [H|[H|H]]; [left|right; right|right; left]; lra. Qed.

(* the side a-b leaves R between a point inside R and b *)
Lemma leave_meets R a b t : convex R -> 0 <= t -> t <= 1 -> inside R (on_seg a b t) ->
  (forall s, In s R -> clr (fst s) (snd s) a /\ clr (fst s) (snd s) b) ->
  (forall v, In v (corners R) -> clr a b v) ->
  inside_on R b \/ exists f, In f R /\ meet a b (fst f) (snd f).
Proof.
  intros CR T0 T1 I C1 C2. destruct (leaves R _ b I) as [C|(u & f & U0 & U1 & F & Z & NB & C)]; [left; exact C|right].
  set (w := on_seg a b t) in *. set (y := on_seg w b u) in *.
  assert (TP := tol_pos).
  assert (T1' : t < 1).
  { destruct (Qlt_le_dec t 1) as [|G]; auto. exfalso. assert (E : t == 1) by lra.
    assert (W := I f F). change (0 < sd f w) in W. unfold w in W. rewrite sd_seg, E in W. lra. }
  set (t' := t + u * (1 - t)).
  assert (UP : 0 < u * (1 - t)) by (apply Qmult_lt_0_compat; lra).
  assert (UQ : 0 < (1 - u) * (1 - t)) by (apply Qmult_lt_0_compat; lra).
  assert (TT0 : 0 < t') by (unfold t'; lra).
  assert (TT1 : t' < 1) by (unfold t'; lra).
  assert (Y : veq y (on_seg a b t')).
  { unfold y, w, t', on_seg. split; cbn [vx vy]; ring. }
  assert (ZA : (1 - t') * sd f a + t' * sd f b == 0) by (rewrite <- sd_seg, <- (sd_ext f _ _ Y); exact Z).
  assert (PA : 0 < sd f a).
  { destruct (Qlt_le_dec 0 (sd f a)) as [|G]; auto. exfalso.
    assert (0 < t' * (- sd f b)) by (apply Qmult_lt_0_compat; lra).
    assert (0 <= (1 - t') * (- sd f a)) by (apply Qmult_le_0_compat; lra). lra. }
  assert (NE : ~ veq a b) by (intros E; apply (sd_ext f) in E; lra).
  destruct (on_side R f y CR F C Z) as (q & Q0 & Q1 & V).
  destruct (side_ends R f CR F) as [K1 K2]. exists f. split; [exact F|].
  destruct f as [d e]. cbn [fst snd] in *.
  destruct (Qeq_dec q 0) as [E0|E0].
  { right. left. apply (near_of a b d t'); auto. destruct Y as [YX YY], V as [VX VY].
    unfold on_seg in *. cbn [vx vy] in *. rewrite E0 in VX, VY. split; cbn [vx vy]; lra. }
  destruct (Qeq_dec q 1) as [E1|E1].
  { right. right. left. apply (near_of a b e t'); auto. destruct Y as [YX YY], V as [VX VY].
    unfold on_seg in *. cbn [vx vy] in *. rewrite E1 in VX, VY. split; cbn [vx vy]; lra. }
  left. apply crossing_iff.
  assert (DY : det a b y == 0) by (rewrite (veq_det1 a b _ _ Y); unfold det, on_seg; cbn [vx vy]; ring).
  assert (DQ : (1 - q) * det a b d + q * det a b e == 0).
  { rewrite <- DY, (veq_det1 a b _ _ V). unfold det, on_seg. cbn [vx vy]. ring. }
  unfold sd in *. cbn [fst snd] in *.
  assert (DD : det a b e - det a b d == det d e a - det d e b) by (unfold det; ring) || assert (DD : det a b d - det a b e == det d e a - det d e b) by (unfold det; ring).
  destruct (C1 _ F) as [A B]. cbn [fst snd] in A, B. assert (A2 := C2 _ K1). assert (B2 := C2 _ K2).
  unfold clr in *. generalize dependent (det a b d). generalize dependent (det a b e).
  intros be BE bd. intros.
  assert (OP : (0 < bd /\ be < 0) \/ (bd < 0 /\ 0 < be)).
  { destruct (Q_dec bd 0) as [[L|G]|E].
    - right. split; auto. destruct (Qlt_le_dec 0 be) as [|H]; auto. exfalso.
      assert (0 < (1 - q) * (- bd)) by (apply Qmult_lt_0_compat; lra).
      assert (0 <= q * (- be)) by (apply Qmult_le_0_compat; lra). lra.
    - left. split; auto. destruct (Qlt_le_dec be 0) as [|H]; auto. exfalso.
      assert (0 < (1 - q) * bd) by (apply Qmult_lt_0_compat; lra).
      assert (0 <= q * be) by (apply Qmult_le_0_compat; lra). lra.
    - exfalso. assert (Z0 : q * be == 0) by (rewrite E in DQ; lra).
      apply Qmult_integral in Z0. destruct Z0 as [Z0|Z0]; lra. }
  split.
  - destruct OP as [[O1 O2]|[O1 O2]]; [left|right]; lra.
  - left. lra.
Qed.

Definition sides_meet (P R : outline) : Prop := exists e f, In e P /\ In f R /\
  line_line_intersection (fst e) (snd e) (fst f) (snd f) = true.

Lemma sides_meet_intro P R e f : In e P -> In f R -> meet (fst e) (snd e) (fst f) (snd f) -> sides_meet P R.
Proof. intros A B C. exists e, f. rewrite intersection_iff. auto. Qed.
Lemma sides_meet_sym P R : sides_meet P R -> sides_meet R P.
Proof. intros (e & f & A & B & C). apply intersection_iff in C. apply (sides_meet_intro R P f e); auto. apply meet_swap. exact C. Qed.

(* decide *)
Lemma inside_on_dec L z : inside_on L z \/ exists s, In s L /\ sd s z < 0.
Proof.
  induction L as [|s L [IH|(x & X & N)]]; [left; intros s []| |right; exists x; split; auto; right; auto].
  destruct (Qlt_le_dec (sd s z) 0) as [N|P]; [right; exists s; split; auto; left; auto|].
  left. intros x [<-|H]; [exact P|exact (IH x H)].
Qed.
Lemma inside_or_on L z : inside_on L z -> inside L z \/ exists s, In s L /\ sd s z == 0.
Proof.
  induction L as [|s L IH]; intros C; [left; intros s []|].
  destruct IH as [I|(x & X & N)]; [intros x H; apply C; right; exact H| |right; exists x; split; auto; right; auto].
  assert (P : 0 <= sd s z) by (apply C; left; reflexivity).
  destruct (Qlt_le_dec 0 (sd s z)) as [G|G]; [left|right; exists s; split; [left; auto|lra]].
  intros x [<-|H]; [exact G|exact (I x H)].
Qed.
Lemma all_or_one L (l : list vec2) : (forall v, In v l -> inside_on L v) \/ exists v s, In v l /\ In s L /\ sd s v < 0.
Proof.
  induction l as [|x l [IH|(v & s & A & B)]]; [left; intros v []| |right; exists v, s; split; [right|]; tauto].
  destruct (inside_on_dec L x) as [C|(s & S & N)]; [left|right; exists x, s; split; [left; auto|auto]].
  intros v [<-|H]; auto.
Qed.

Definition corner_inside (P R : outline) : Prop := exists v, In v (corners P) /\ inside R v.
Definition all_in (P R : outline) : Prop := forall v, In v (corners P) -> inside_on R v.

Section PR.
Variables P R : outline.
Hypothesis CP : convex P.
Hypothesis CR : convex R.
Hypothesis CL : clear P R.

Lemma clr1 s e : In s R -> In e P -> clr (fst s) (snd s) (fst e) /\ clr (fst s) (snd s) (snd e).
Proof. intros S E. destruct (side_ends P e CP E) as [A B]. destruct CL as [_ C]. split; apply C; auto. Qed.
Lemma clr2 e v : In e P -> In v (corners R) -> clr (fst e) (snd e) v.
Proof. intros E V. destruct CL as [C _]. apply C; auto. Qed.

Lemma leave_fwd e t : In e P -> 0 <= t -> t <= 1 -> inside R (on_seg (fst e) (snd e) t) ->
  inside_on R (snd e) \/ sides_meet P R.
Proof.
  intros E T0 T1 I. destruct (leave_meets R (fst e) (snd e) t CR T0 T1 I) as [H|(f & F & M)]; auto.
  - intros s S. exact (clr1 s e S E).
  - intros v V. exact (clr2 e v E V).
  - right. exact (sides_meet_intro P R e f E F M).
Qed.
Lemma inside_ext L x y : veq x y -> inside L x -> inside L y.
Proof. intros V I s S. assert (H := I s S). change (0 < sd s y). rewrite <- (sd_ext s _ _ V). exact H. Qed.
Lemma leave_bwd e t : In e P -> 0 <= t -> t <= 1 -> inside R (on_seg (fst e) (snd e) t) ->
  inside_on R (fst e) \/ sides_meet P R.
Proof.
  intros E T0 T1 I. destruct (leave_meets R (snd e) (fst e) (1 - t) CR) as [H|(f & F & M)]; auto; try lra.
  - apply (inside_ext R (on_seg (fst e) (snd e) t)); auto. unfold on_seg. split; cbn [vx vy]; ring.
  - intros s S. destruct (clr1 s e S E). auto.
  - intros v V. apply clr_rev. exact (clr2 e v E V).
  - right. apply meet_rev in M. exact (sides_meet_intro P R e f E F M).
Qed.

(* an end of a side that is not outside R *)
Lemma end_case e v : In e P -> v = fst e \/ v = snd e -> inside_on R v ->
  inside R v \/ (exists w, In w (corners R) /\ veq v w) \/ sides_meet P R.
Proof.
  intros E V C. destruct (inside_or_on R v C) as [I|(f & F & Z)]; auto.
  right. destruct (on_side R f v CR F C Z) as (t & T0 & T1 & X). destruct (side_ends R f CR F) as [K1 K2].
  destruct (Qeq_dec t 0) as [E0|E0].
  { left. exists (fst f). split; auto. destruct X as [VX VY]. unfold on_seg in *. cbn [vx vy] in *. rewrite E0 in VX, VY. split; lra. }
  destruct (Qeq_dec t 1) as [E1|E1].
  { left. exists (snd f). split; auto. destruct X as [VX VY]. unfold on_seg in *. cbn [vx vy] in *. rewrite E1 in VX, VY. split; lra. }
  right. apply (sides_meet_intro P R e f); auto.
  assert (N : near_open_seg (fst f) (snd f) v).
  { apply (near_of _ _ _ t); auto; try lra. intros Q. destruct CR as (K & _). destruct (K f F) as (n & m & _ & _ & D & _).
    assert (D' : det (snd f) n (fst f) == 0) by (rewrite (veq_det1 (snd f) n _ _ Q); unfold det; ring). lra. }
  unfold meet. destruct V as [-> | ->]; tauto.
Qed.

Lemma overlap_cases : overlap P R -> sides_meet P R \/ all_in R P \/ corner_inside P R \/ cuts P R.
Proof.
  intros (z & ZP & ZR). destruct (all_or_one P (corners R)) as [A|(v & s & V & S & N)]; [right; left; exact A|].
  destruct (leaves P z v ZP) as [C|(t & e & T0 & T1 & E & Z & _ & C)].
  { exfalso. assert (H := C s S). unfold sd in N. lra. }
  set (w := on_seg z v t) in *.
  assert (WR : inside R w).
  { intros f F. change (0 < sd f w). unfold w. rewrite sd_seg. apply mix_pos; auto; [exact (ZR f F)|].
    destruct CR as (_ & K & _). exact (K v V f F). }
  destruct (on_side P e w CP E C Z) as (q & Q0 & Q1 & X).
  assert (WQ := inside_ext R _ _ X WR).
  destruct (leave_fwd e q E Q0 Q1 WQ) as [B|M]; [|left; exact M].
  destruct (leave_bwd e q E Q0 Q1 WQ) as [A|M]; [|left; exact M].
  destruct (side_ends P e CP E) as [K1 K2].
  destruct (end_case e (fst e) E (or_introl eq_refl) A) as [I|[(a & Ia & Va)|M]];
    [right; right; left; exists (fst e); auto| |left; exact M].
  destruct (end_case e (snd e) E (or_intror eq_refl) B) as [I|[(b & Ib & Vb)|M]];
    [right; right; left; exists (snd e); auto| |left; exact M].
  right. right. right. exists e, a, b, q.
  assert (OUT : forall x, In x (corners R) -> exists f, In f R /\ sd f x == 0).
  { intros x Hx. apply in_map_iff in Hx. destruct Hx as (f & <- & F). exists f. split; auto. unfold sd. apply det_aab. }
  repeat split; auto.
  - exact (proj1 Va).
  - exact (proj2 Va).
  - exact (proj1 Vb).
  - exact (proj2 Vb).
  - destruct (Qlt_le_dec 0 q) as [|G]; auto. exfalso. assert (E0 : q == 0) by lra.
    destruct (OUT a Ia) as (f & F & Zf). assert (H := WQ f F). change (0 < sd f (on_seg (fst e) (snd e) q)) in H.
    rewrite sd_seg, E0, (sd_ext f _ _ Va) in H. lra.
  - destruct (Qlt_le_dec q 1) as [|G]; auto. exfalso. assert (E0 : q == 1) by lra.
    destruct (OUT b Ib) as (f & F & Zf). assert (H := WQ f F). change (0 < sd f (on_seg (fst e) (snd e) q)) in H.
    rewrite sd_seg, E0, (sd_ext f _ _ Vb) in H. lra.
Qed.
End PR.
