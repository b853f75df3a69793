(* A triangle that passes the tests against the front, as far as plane geometry goes:
   proofs for ClearProps. *)
From Coq Require Import Lqa Lia Permutation.
From Verif Require Import Base Chain GeomModel GeomSpec GeomProofs WindSpec WindProofs PolyCorner PolyProofs ClearSpec.
Open Scope Q_scope.

Lemma on_seg_veq a b c d t : veq a c -> veq b d -> veq (on_seg a b t) (on_seg c d t).
Proof. intros [A1 A2] [B1 B2]. unfold veq, on_seg. cbn [vx vy]. rewrite A1, A2, B1, B2. split; reflexivity. Qed.
Lemma det_veq a b c d e f : veq a d -> veq b e -> veq c f -> det a b c == det d e f.
Proof. intros [A1 A2] [B1 B2] [C1 C2]. unfold det. rewrite A1, A2, B1, B2, C1, C2. reflexivity. Qed.
Lemma det_mix p q a b t : det p q (on_seg a b t) == (1 - t) * det p q a + t * det p q b.
Proof. unfold det, on_seg. cbn [vx vy]. ring. Qed.
Lemma det_same_l a b : det a b a == 0.
Proof. unfold det. ring. Qed.
Lemma det_same_r a b : det a b b == 0.
Proof. unfold det. ring. Qed.

Lemma square_nonneg x : 0 <= x * x.
Proof. destruct (Qlt_le_dec x 0); [assert (0 <= (- x) * (- x)) by (apply Qmult_le_0_compat; lra); lra|apply Qmult_le_0_compat; assumption]. Qed.
Lemma norm_pos a b : ~ veq a b -> 0 < vnorm2 (vsub b a).
Proof.
  intros N. unfold vnorm2, vdot, vsub. cbn [vx vy]. assert (A := square_nonneg (vx b - vx a)). assert (B := square_nonneg (vy b - vy a)).
  destruct (Qlt_le_dec 0 ((vx b - vx a) * (vx b - vx a) + (vy b - vy a) * (vy b - vy a))) as [L|L]; [exact L|exfalso].
  assert (X : (vx b - vx a) * (vx b - vx a) == 0) by lra. assert (Y : (vy b - vy a) * (vy b - vy a) == 0) by lra.
  apply N. split; [destruct (zero_ll _ _ X)|destruct (zero_ll _ _ Y)]; lra.
Qed.
Lemma strictly_on a b r t : ~ veq a b -> 0 < t < 1 -> veq r (on_seg a b t) -> in_segment a b r = true /\ orientation a b r = CL.
Proof.
  intros N T E.
  assert (D : det a b r == 0) by (rewrite (det_veq a b r a b (on_seg a b t) (veq_refl _) (veq_refl _) E); apply det_on).
  assert (O : orientation a b r = CL) by (apply orientation_cl; pose proof tol_pos; lra). split; [|exact O].
  unfold in_segment. rewrite O. cbn [orient_eqb negb]. rewrite andb_true_iff, !Qltb_true.
  assert (P := norm_pos a b N). destruct E as [E1 E2]. unfold on_seg in E1, E2. cbn [vx vy] in E1, E2.
  assert (X : vdot (vsub r a) (vsub b a) == t * vnorm2 (vsub b a)) by (unfold vnorm2, vdot, vsub; cbn [vx vy]; rewrite E1, E2; ring).
  rewrite X. set (n := vnorm2 (vsub b a)) in *. clearbody n. clear - P T. split; nra.
Qed.

(* no reported intersection: common points are ends of both, or the segments have the
   same ends *)
Lemma opposite_of x y : sharp x -> sharp y -> ~ x == 0 -> ~ y == 0 -> forall t, 0 < t < 1 -> (1 - t) * x + t * y == 0 ->
  (tol26 <= x /\ y <= - tol26) \/ (x <= - tol26 /\ tol26 <= y).
Proof.
  intros [X|[X|X]] [Y|[Y|Y]] NX NY t T E; try contradiction; try tauto; exfalso; pose proof tol_pos.
  - assert (0 < (1 - t) * x) by (apply Qmult_lt_0_compat; lra). assert (0 < t * y) by (apply Qmult_lt_0_compat; lra). lra.
  - assert (0 < (1 - t) * (- x)) by (apply Qmult_lt_0_compat; lra). assert (0 < t * (- y)) by (apply Qmult_lt_0_compat; lra). lra.
Qed.
Lemma line_param a b c : ~ veq a b -> det a b c == 0 -> exists x, veq c (on_seg a b x).
Proof.
  intros N D. assert (P := norm_pos a b N). exists (vdot (vsub c a) (vsub b a) / vnorm2 (vsub b a)).
  set (n := vnorm2 (vsub b a)) in *. assert (En : n == (vx b - vx a) * (vx b - vx a) + (vy b - vy a) * (vy b - vy a)) by reflexivity.
  assert (NZ : ~ n == 0) by lra.
  assert (X : (vx c - vx a) * n == vdot (vsub c a) (vsub b a) * (vx b - vx a)).
  { rewrite En. transitivity (vdot (vsub c a) (vsub b a) * (vx b - vx a) + - (vy b - vy a) * det a b c); [unfold vdot, vsub, det; cbn [vx vy]; ring|rewrite D; ring]. }
  assert (Y : (vy c - vy a) * n == vdot (vsub c a) (vsub b a) * (vy b - vy a)).
  { rewrite En. transitivity (vdot (vsub c a) (vsub b a) * (vy b - vy a) + (vx b - vx a) * det a b c); [unfold vdot, vsub, det; cbn [vx vy]; ring|rewrite D; ring]. }
  set (m := vdot (vsub c a) (vsub b a)) in *. clearbody n m. unfold veq, on_seg. cbn [vx vy]. split.
  - transitivity (vx a + (vx c - vx a) * n / n); [field; exact NZ|]. rewrite X. field. exact NZ.
  - transitivity (vy a + (vy c - vy a) * n / n); [field; exact NZ|]. rewrite Y. field. exact NZ.
Qed.
Definition same_ends (a b c d : vec2) : Prop := (veq a c /\ veq b d) \/ (veq a d /\ veq b c).
Lemma unit_cases s : 0 <= s <= 1 -> s == 0 \/ s == 1 \/ 0 < s < 1.
Proof. intros S. destruct (Qlt_le_dec 0 s), (Qlt_le_dec s 1); [right; right|right; left|left|left]; lra. Qed.
Lemma quiet_pair a b c d s t : line_line_intersection a b c d = false -> ~ veq a b -> ~ veq c d ->
  sharp (det a b c) -> sharp (det a b d) -> sharp (det c d a) -> sharp (det c d b) ->
  0 <= s <= 1 -> 0 <= t <= 1 -> veq (on_seg a b s) (on_seg c d t) ->
  ((s == 0 \/ s == 1) /\ (t == 0 \/ t == 1)) \/ same_ends a b c d.
Proof.
  intros H N1 N2 S1 S2 S3 S4 S T E.
  assert (C1 : forall k, 0 < k < 1 -> ~ veq c (on_seg a b k)).
  { intros k K X. destruct (strictly_on a b c k N1 K X) as [I O]. unfold line_line_intersection in H. rewrite O, I in H.
    destruct (opposite CL _ && _); cbn in H; discriminate. }
  assert (C2 : forall k, 0 < k < 1 -> ~ veq d (on_seg a b k)).
  { intros k K X. destruct (strictly_on a b d k N1 K X) as [I O]. unfold line_line_intersection in H. rewrite O, I in H.
    destruct (opposite _ CL && _); [discriminate|]. destruct (orient_eqb (orientation a b c) CL && in_segment a b c); discriminate. }
  assert (C3 : forall k, 0 < k < 1 -> ~ veq a (on_seg c d k)).
  { intros k K X. destruct (strictly_on c d a k N2 K X) as [I O]. unfold line_line_intersection in H. rewrite O, I in H.
    destruct (opposite _ _ && _); [discriminate|]. destruct (orient_eqb (orientation a b c) CL && in_segment a b c); [discriminate|].
    destruct (orient_eqb (orientation a b d) CL && in_segment a b d); discriminate. }
  assert (C4 : forall k, 0 < k < 1 -> ~ veq b (on_seg c d k)).
  { intros k K X. destruct (strictly_on c d b k N2 K X) as [I O]. unfold line_line_intersection in H. rewrite O, I in H.
    destruct (opposite _ _ && _); [discriminate|]. destruct (orient_eqb (orientation a b c) CL && in_segment a b c); [discriminate|].
    destruct (orient_eqb (orientation a b d) CL && in_segment a b d); [discriminate|]. destruct (orient_eqb (orientation c d a) CL && in_segment c d a); discriminate. }
  assert (L1 : (1 - t) * det a b c + t * det a b d == 0).
  { rewrite <- det_mix, <- (det_veq a b _ a b _ (veq_refl _) (veq_refl _) E). apply det_on. }
  assert (L2 : (1 - s) * det c d a + s * det c d b == 0).
  { rewrite <- det_mix, (det_veq c d _ c d _ (veq_refl _) (veq_refl _) E). apply det_on. }
  assert (B := det_balance a b c d).
  destruct (unit_cases s S) as [Es|[Es|Is]], (unit_cases t T) as [Et|[Et|It]]; try (left; split; tauto).
  - exfalso. apply (C3 t It). apply (veq_trans _ (on_seg a b s)); [apply veq_sym, on_seg_0, Es|exact E].
  - exfalso. apply (C4 t It). apply (veq_trans _ (on_seg a b s)); [apply veq_sym, on_seg_1, Es|exact E].
  - exfalso. apply (C1 s Is). apply (veq_trans _ (on_seg c d t)); [apply veq_sym, on_seg_0, Et|apply veq_sym, E].
  - exfalso. apply (C2 s Is). apply (veq_trans _ (on_seg c d t)); [apply veq_sym, on_seg_1, Et|apply veq_sym, E].
  - destruct (Qeq_dec (det a b c) 0) as [Z|NZ].
    + (* one line *)
      right. assert (Z2 : det a b d == 0).
      { rewrite Z in L1. assert (X : t * det a b d == 0) by lra. destruct (zero_ll _ _ X); [lra|assumption]. }
      destruct (line_param a b c N1 Z) as [x X], (line_param a b d N1 Z2) as [y Y].
      assert (ES : s == (1 - t) * x + t * y).
      { assert (E' : veq (on_seg a b s) (on_seg (on_seg a b x) (on_seg a b y) t)) by (apply (veq_trans _ _ _ E), on_seg_veq; assumption).
        apply (fun h => veq_trans _ _ _ h (on_seg_seg a b x y t)) in E'. destruct E' as [E1 E2]. unfold on_seg in E1, E2. cbn [vx vy] in E1, E2.
        set (k := x + t * (y - x)) in *. assert (Ek : k == x + t * (y - x)) by reflexivity. clearbody k.
        assert (F1 : (s - k) * (vx b - vx a) == 0) by lra. assert (F2 : (s - k) * (vy b - vy a) == 0) by lra.
        destruct (zero_ll _ _ F1) as [G|G]; [lra|]. destruct (zero_ll _ _ F2) as [G'|G']; [lra|]. exfalso. apply N1. split; lra. }
      assert (X1 : ~ 0 < x < 1) by (intros K; exact (C1 x K X)). assert (Y1 : ~ 0 < y < 1) by (intros K; exact (C2 y K Y)).
      assert (P0 : forall k, veq (on_seg c d k) (on_seg a b (x + k * (y - x)))).
      { intros k. apply (veq_trans _ (on_seg (on_seg a b x) (on_seg a b y) k)); [apply on_seg_veq; assumption|apply on_seg_seg]. }
      assert (P1 : forall k, x + k * (y - x) == 0 -> veq a (on_seg c d k)).
      { intros k K. apply veq_sym. apply (veq_trans _ _ _ (P0 k)). apply on_seg_0. exact K. }
      assert (P2 : forall k, x + k * (y - x) == 1 -> veq b (on_seg c d k)).
      { intros k K. apply veq_sym. apply (veq_trans _ _ _ (P0 k)). apply on_seg_1. exact K. }
      assert (XY : (x <= 0 /\ 1 <= y) \/ (y <= 0 /\ 1 <= x)).
      { destruct (Qlt_le_dec 0 x) as [x0|x0]; [assert (1 <= x) by (destruct (Qlt_le_dec x 1); [exfalso; apply X1; lra|assumption])|];
        (destruct (Qlt_le_dec 0 y) as [y0|y0]; [assert (1 <= y) by (destruct (Qlt_le_dec y 1); [exfalso; apply Y1; lra|assumption])|]).
        - exfalso. assert (0 <= (1 - t) * (x - 1)) by (apply Qmult_le_0_compat; lra). assert (0 <= t * (y - 1)) by (apply Qmult_le_0_compat; lra). lra.
        - right. split; assumption.
        - left. split; assumption.
        - exfalso. assert (0 <= (1 - t) * (- x)) by (apply Qmult_le_0_compat; lra). assert (0 <= t * (- y)) by (apply Qmult_le_0_compat; lra). lra. }
      destruct XY as [[x0 y1]|[y0 x1]].
      * assert (X0 : x == 0).
        { destruct (Qlt_le_dec x 0) as [L|L]; [exfalso|lra]. apply (C3 (- x / (y - x))).
          - split; [apply Qlt_shift_div_l; lra|apply Qlt_shift_div_r; lra].
          - apply P1. field. lra. }
        assert (Y0 : y == 1).
        { destruct (Qlt_le_dec 1 y) as [L|L]; [exfalso|lra]. apply (C4 ((1 - x) / (y - x))).
          - split; [apply Qlt_shift_div_l; lra|apply Qlt_shift_div_r; lra].
          - apply P2. field. lra. }
        left. split; apply veq_sym; [apply (veq_trans _ _ _ X), on_seg_0, X0|apply (veq_trans _ _ _ Y), on_seg_1, Y0].
      * assert (Y0 : y == 0).
        { destruct (Qlt_le_dec y 0) as [L|L]; [exfalso|lra]. apply (C3 (x / (x - y))).
          - split; [apply Qlt_shift_div_l; lra|apply Qlt_shift_div_r; lra].
          - apply P1. field. lra. }
        assert (X0 : x == 1).
        { destruct (Qlt_le_dec 1 x) as [L|L]; [exfalso|lra]. apply (C4 ((x - 1) / (x - y))).
          - split; [apply Qlt_shift_div_l; lra|apply Qlt_shift_div_r; lra].
          - apply P2. field. lra. }
        right. split; apply veq_sym; [apply (veq_trans _ _ _ Y), on_seg_0, Y0|apply (veq_trans _ _ _ X), on_seg_1, X0].
    + (* a proper crossing *)
      exfalso. assert (NZ2 : ~ det a b d == 0).
      { intros Z. rewrite Z in L1. assert (X : (1 - t) * det a b c == 0) by lra. destruct (zero_ll _ _ X); [lra|contradiction]. }
      assert (O1 := opposite_of _ _ S1 S2 NZ NZ2 t It L1). pose proof tol_pos as TP.
      assert (NE : ~ det c d a - det c d b == 0) by (rewrite B; destruct O1; lra).
      assert (NZ3 : ~ det c d a == 0).
      { intros Z. rewrite Z in L2. assert (X : s * det c d b == 0) by lra. destruct (zero_ll _ _ X) as [X'|X']; [lra|]. apply NE. lra. }
      assert (NZ4 : ~ det c d b == 0).
      { intros Z. rewrite Z in L2. assert (X : (1 - s) * det c d a == 0) by lra. destruct (zero_ll _ _ X) as [X'|X']; [lra|]. apply NE. lra. }
      assert (O2 := opposite_of _ _ S3 S4 NZ3 NZ4 s Is L2).
      assert (X : line_line_crossing a b c d = true).
      { apply crossing_iff. tauto. }
      unfold line_line_crossing in X. unfold line_line_intersection in H. rewrite X in H. discriminate.
Qed.

(* ---- the way out of a convex set ---- *)
Definition aff (f : Q * Q) (u : Q) : Q := fst f + u * snd f.
Lemma aff_mix f u w v : 0 <= aff f u -> 0 < aff f w -> u <= v -> v < w -> 0 <= aff f v.
Proof.
  unfold aff. intros A B C D. destruct (Qlt_le_dec (fst f + v * snd f) 0) as [L|L]; [exfalso|exact L].
  assert (X : 0 < (w - v) * snd f) by lra. assert (Y : (v - u) * snd f <= - 0) by nra.
  destruct (Qlt_le_dec (snd f) 0); [nra|]. assert (0 <= (v - u) * snd f) by (apply Qmult_le_0_compat; lra). lra.
Qed.
Lemma way_out l s : 0 <= s -> (forall f, In f l -> 0 < aff f s) ->
  (forall f, In f l -> 0 < aff f 0) \/
  exists u, 0 <= u < s /\ (forall f, In f l -> 0 <= aff f u) /\ exists f, In f l /\ aff f u == 0.
Proof.
  intros S. induction l as [|f l IH]; intros P; [left; intros f []|].
  assert (ROOT : forall u, 0 <= u -> u <= s -> aff f u <= 0 -> (forall g, In g l -> 0 <= aff g u) ->
     exists u, 0 <= u < s /\ (forall g, In g (f :: l) -> 0 <= aff g u) /\ exists g, In g (f :: l) /\ aff g u == 0).
  { intros u U0 U1 N G. assert (Pf := P f ltac:(left; reflexivity)). unfold aff in N, Pf.
    assert (U2 : u < s) by (destruct (Qlt_le_dec u s); [assumption|exfalso; assert (E : u == s) by lra; rewrite E in N; lra]).
    assert (B : 0 < snd f).
    { destruct (Qlt_le_dec 0 (snd f)) as [K|K]; [exact K|exfalso]. assert (0 <= (s - u) * (- snd f)) by (apply Qmult_le_0_compat; lra). lra. }
    set (v := - fst f / snd f). assert (V : v * snd f == - fst f) by (unfold v; field; lra).
    assert (V0 : u <= v) by (apply Qle_shift_div_l; [exact B|lra]).
    assert (V1 : v < s) by (apply Qlt_shift_div_r; [exact B|lra]).
    exists v. split; [lra|]. split.
    - intros g [<-|I]; [unfold aff; lra|]. apply (aff_mix g u s v (G g I) (P g ltac:(right; exact I)) V0 V1).
    - exists f. split; [left; reflexivity|]. unfold aff. lra. }
  destruct IH as [A|(u & U & G & h & Ih & Z)].
  - intros g I. apply P. right. exact I.
  - destruct (Qlt_le_dec 0 (aff f 0)) as [K|K]; [left; intros g [<-|I]; [exact K|apply A, I]|right].
    apply (ROOT 0); [lra|exact S|exact K|]. intros g I. apply Qlt_le_weak, A, I.
  - right. destruct (Qlt_le_dec (aff f u) 0) as [K|K]; [apply (ROOT u); try lra; exact G|].
    exists u. split; [exact U|]. split; [intros g [<-|I]; [exact K|apply G, I]|]. exists h. split; [right; exact Ih|exact Z].
Qed.

Section Triangle.
Variables p q r : vec2.
Hypothesis D : 0 < det p q r.
Definition sides3 : list (vec2 * vec2) := [(p, q); (q, r); (r, p)].
Definition line_of (x : vec2 * vec2) (a b : vec2) : Q * Q := (det (fst x) (snd x) a, det (fst x) (snd x) b - det (fst x) (snd x) a).
Lemma line_of_at x a b u : aff (line_of x a b) u == det (fst x) (snd x) (on_seg a b u).
Proof. unfold aff, line_of. cbn [fst snd]. rewrite det_mix. ring. Qed.
Lemma within_sides z : within z p q r <-> forall x, In x sides3 -> 0 < det (fst x) (snd x) z.
Proof.
  unfold within, sides3. split.
  - intros (A & B & C) x [<-|[<-|[<-|[]]]]; assumption.
  - intros H. repeat split; [apply (H (p, q))|apply (H (q, r))|apply (H (r, p))]; cbn; tauto.
Qed.
Lemma touching_sides z : touching z p q r <-> forall x, In x sides3 -> 0 <= det (fst x) (snd x) z.
Proof.
  unfold touching, sides3. split.
  - intros (A & B & C) x [<-|[<-|[<-|[]]]]; assumption.
  - intros H. repeat split; [apply (H (p, q))|apply (H (q, r))|apply (H (r, p))]; cbn; tauto.
Qed.
Lemma exits a b s : 0 <= s -> within (on_seg a b s) p q r -> ~ within a p q r ->
  exists u, 0 <= u < s /\ touching (on_seg a b u) p q r /\ exists x, In x sides3 /\ det (fst x) (snd x) (on_seg a b u) == 0.
Proof.
  intros S W N. destruct (way_out (map (fun x => line_of x a b) sides3) s S) as [A|(u & U & G & f & I & Z)].
  - intros f I. apply in_map_iff in I. destruct I as (x & <- & I). rewrite line_of_at. apply within_sides; assumption.
  - exfalso. apply N. apply within_sides. intros x I. specialize (A (line_of x a b) (in_map (fun x => line_of x a b) _ _ I)).
    unfold aff, line_of in A. cbn [fst snd] in A. lra.
  - exists u. split; [exact U|]. split.
    + apply touching_sides. intros x I'. rewrite <- line_of_at. apply G. apply (in_map (fun x => line_of x a b) _ _ I').
    + apply in_map_iff in I. destruct I as (x & <- & I). exists x. split; [exact I|]. rewrite <- line_of_at. exact Z.
Qed.
Lemma det_neq a b c : 0 < det a b c -> ~ veq a b.
Proof. intros H [E1 E2]. unfold det in H. rewrite E1, E2 in H. lra. Qed.
Lemma on_side z : touching z p q r -> forall x, In x sides3 -> det (fst x) (snd x) z == 0 ->
  exists t, 0 <= t <= 1 /\ veq z (on_seg (fst x) (snd x) t).
Proof.
  assert (K : forall a b c, 0 < det a b c -> 0 <= det b c z -> 0 <= det c a z -> det a b z == 0 -> exists t, 0 <= t <= 1 /\ veq z (on_seg a b t)).
  { intros a b c P B C Z. destruct (line_param a b z (det_neq _ _ _ P) Z) as [t T]. exists t. split; [|exact T].
    rewrite (det_veq b c z b c (on_seg a b t) (veq_refl _) (veq_refl _) T) in B.
    rewrite (det_veq c a z c a (on_seg a b t) (veq_refl _) (veq_refl _) T) in C.
    assert (E1 : det b c (on_seg a b t) == (1 - t) * det a b c) by (unfold det, on_seg; cbn [vx vy]; ring).
    assert (E2 : det c a (on_seg a b t) == t * det a b c) by (unfold det, on_seg; cbn [vx vy]; ring).
    rewrite E1 in B. rewrite E2 in C. clear - B C P. split.
    - destruct (Qlt_le_dec t 0); [assert (0 < (- t) * det a b c) by (apply Qmult_lt_0_compat; lra); lra|assumption].
    - destruct (Qlt_le_dec 1 t); [assert (0 < (t - 1) * det a b c) by (apply Qmult_lt_0_compat; lra); lra|assumption]. }
  assert (D2 : 0 < det q r p) by (assert (E : det q r p == det p q r) by (unfold det; ring); lra).
  assert (D3 : 0 < det r p q) by (assert (E : det r p q == det p q r) by (unfold det; ring); lra).
  intros (T1 & T2 & T3) x [<-|[<-|[<-|[]]]] Z; cbn [fst snd] in *;
    [apply (K p q r D T2 T3 Z)|apply (K q r p D2 T3 T1 Z)|apply (K r p q D3 T1 T2 Z)].
Qed.
Lemma side_touching x t : In x sides3 -> 0 <= t <= 1 -> touching (on_seg (fst x) (snd x) t) p q r.
Proof.
  assert (E1 : det q r p == det p q r) by (unfold det; ring). assert (E2 : det r p q == det p q r) by (unfold det; ring).
  intros I T. unfold touching. assert (A : 0 <= t * det p q r) by (apply Qmult_le_0_compat; lra).
  assert (B : 0 <= (1 - t) * det p q r) by (apply Qmult_le_0_compat; lra).
  destruct I as [<-|[<-|[<-|[]]]]; cbn [fst snd]; rewrite !det_mix, ?det_same_l, ?det_same_r, ?E1, ?E2; repeat split; lra.
Qed.
Definition corner (z : vec2) : Prop := veq z p \/ veq z q \/ veq z r.
Lemma corner_side z : corner z -> forall w, corner w -> ~ veq z w -> exists x, In x sides3 /\ same_ends z w (fst x) (snd x).
Proof.
  intros Z w W N. unfold same_ends.
  destruct Z as [Z|[Z|Z]], W as [W|[W|W]]; try (exfalso; apply N; apply (veq_trans _ _ _ Z (veq_sym _ _ W)));
  [exists (p, q)|exists (r, p)|exists (p, q)|exists (q, r)|exists (r, p)|exists (q, r)]; cbn; tauto.
Qed.
Lemma side_corners x : In x sides3 -> corner (fst x) /\ corner (snd x).
Proof. unfold corner. intros [<-|[<-|[<-|[]]]]; cbn; pose proof veq_refl; auto 6. Qed.
Lemma same_ends_flat a b x y s : same_ends a b x y -> det x y (on_seg a b s) == 0.
Proof.
  intros [[A B]|[A B]]; rewrite (det_veq x y _ x y _ (veq_refl _) (veq_refl _) (on_seg_veq _ _ _ _ s A B)); [apply det_on|].
  rewrite det_mix, det_same_l, det_same_r. ring.
Qed.

Lemma no_cut a b : ~ veq a b -> (corner a \/ ~ touching a p q r) -> (corner b \/ ~ touching b p q r) ->
  (forall x, In x sides3 -> ends_only a b (fst x) (snd x) \/ same_ends a b (fst x) (snd x)) ->
  forall s, 0 <= s <= 1 -> ~ within (on_seg a b s) p q r.
Proof.
  intros N CA CB Q.
  assert (NS : forall s x, In x sides3 -> same_ends a b (fst x) (snd x) -> ~ within (on_seg a b s) p q r).
  { intros s x I E W. assert (Z := same_ends_flat _ _ _ _ s E). assert (P := proj1 (within_sides _) W x I). lra. }
  assert (CW : forall z, corner z -> ~ within z p q r).
  { intros z C W. assert (X : exists x, In x sides3 /\ det (fst x) (snd x) z == 0).
    { destruct C as [C|[C|C]]; [exists (p, q)|exists (q, r)|exists (r, p)]; (split; [cbn; tauto|]); cbn [fst snd];
      rewrite (det_veq _ _ _ _ _ _ (veq_refl _) (veq_refl _) C); apply det_same_l. }
    destruct X as (x & I & Z). assert (P := proj1 (within_sides _) W x I). lra. }
  assert (OUT : forall a b, ~ veq a b -> (corner a \/ ~ touching a p q r) ->
     (forall x, In x sides3 -> ends_only a b (fst x) (snd x) \/ same_ends a b (fst x) (snd x)) ->
     forall s, 0 <= s <= 1 -> within (on_seg a b s) p q r -> corner a).
  { clear - D CW. intros a b N CA Q s S W.
    assert (NW : ~ within a p q r).
    { destruct CA as [C|C]; [apply CW; exact C|]. intros (A1 & A2 & A3). apply C. unfold touching. lra. }
    destruct (exits a b s ltac:(lra) W NW) as (u & U & T & x & I & Z). destruct (on_side _ T x I Z) as (t & Tt & E).
    destruct (Q x I) as [EO|SE].
    - destruct (EO u t ltac:(lra) Tt E) as [[U0|U0] B]; [|lra].
      assert (VA : veq a (on_seg (fst x) (snd x) t)) by (apply (veq_trans _ (on_seg a b u)); [apply veq_sym, on_seg_0, U0|exact E]).
      destruct (side_corners x I) as [C1 C2].
      assert (CO : forall z w, veq z w -> corner w -> corner z) by (unfold corner; intros z w V [H|[H|H]]; [left|right; left|right; right]; apply (veq_trans _ _ _ V H)).
      destruct B as [B|B]; [apply (CO _ (fst x)); [apply (veq_trans _ _ _ VA), on_seg_0, B|exact C1]|apply (CO _ (snd x)); [apply (veq_trans _ _ _ VA), on_seg_1, B|exact C2]].
    - exfalso. assert (Z2 := same_ends_flat _ _ _ _ s SE). assert (P := proj1 (within_sides _) W x I). lra. }
  intros s S W.
  assert (C1 : corner a) by (apply (OUT a b N CA Q s S W)).
  assert (C2 : corner b).
  { apply (OUT b a ltac:(intros E; apply N, veq_sym, E) CB) with (s := 1 - s); [|lra|].
    - intros x I. destruct (Q x I) as [EO|SE].
      + left. intros u t U T E. assert (E' : veq (on_seg a b (1 - u)) (on_seg (fst x) (snd x) t)) by (apply (veq_trans _ _ _ (veq_sym _ _ (on_seg_swap b a u)) E)).
        destruct (EO (1 - u) t ltac:(lra) T E') as [[H|H] K]; (split; [|exact K]); [right|left]; lra.
      + right. unfold same_ends in *. tauto.
    - assert (V := on_seg_swap a b s). unfold within in *. rewrite !(det_veq _ _ _ _ _ _ (veq_refl _) (veq_refl _) V) in W. exact W. }
  destruct (corner_side a C1 b C2 N) as (x & I & E). exact (NS s x I E W).
Qed.
End Triangle.

Lemma ends_only_sym a b c d : ends_only a b c d -> ends_only c d a b.
Proof. intros H s t S T E. apply veq_sym in E. destruct (H t s T S E). tauto. Qed.
Lemma ends_only_rev a b c d : ends_only a b c d -> ends_only b a c d.
Proof.
  intros H s t S T E. assert (E' := veq_trans _ _ _ (veq_sym _ _ (on_seg_swap b a s)) E).
  destruct (H (1 - s) t ltac:(lra) T E') as [[X|X] Y]; (split; [|exact Y]); [right|left]; lra.
Qed.
Lemma same_ends_rev a b c d : same_ends a b c d -> same_ends a b d c.
Proof. unfold same_ends. tauto. Qed.
Lemma corner_ends_only p q r : 0 < det p q r -> ends_only p r r q.
Proof.
  intros D s t S T E. assert (X := det_veq r q _ r q _ (veq_refl _) (veq_refl _) E). rewrite det_on in X.
  assert (E1 : det r q (on_seg p r s) == - ((1 - s) * det p q r)) by (unfold det, on_seg; cbn [vx vy]; ring). rewrite E1 in X.
  assert (S1 : s == 1) by (assert (Y : (1 - s) * det p q r == 0) by lra; destruct (zero_ll _ _ Y); lra).
  assert (Z := det_veq r p _ r p _ (veq_refl _) (veq_refl _) (veq_sym _ _ E)). rewrite det_mix, det_same_l, det_mix, det_same_l, det_same_r in Z.
  assert (E2 : det r p q == det p q r) by (unfold det; ring). rewrite E2 in Z.
  assert (Y : t * det p q r == 0) by lra. destruct (zero_ll _ _ Y); [|lra]. split; [right|left]; assumption.
Qed.
