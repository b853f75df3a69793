(* Moving a point past segments and around a corner of a polygon: how the winding
   number changes. *)
From Coq Require Import Lqa Lia Permutation.
From Verif Require Import Base Chain GeomSpec WindSpec WindProofs InsideProofs PolySpec.
Open Scope Q_scope.

(* ---------- two segments without a common point ---------- *)
Definition disjoint (p q a b : vec2) : Prop :=
  forall s t, 0 <= s <= 1 -> 0 <= t <= 1 -> ~ veq (on_seg p q s) (on_seg a b t).

Lemma det_balance p q a b : det a b p - det a b q == det p q b - det p q a.
Proof. unfold det. ring. Qed.
Lemma det_row p q a b : det p q b * vy a - det p q a * vy b + det a b q * vy p - det a b p * vy q == 0.
Proof. unfold det. ring. Qed.

Lemma quot_unit x y : 0 < y -> 0 <= x -> x <= y -> 0 <= x / y <= 1.
Proof.
  intros Y X L. split.
  - apply Qle_shift_div_l; [exact Y|]. lra.
  - apply Qle_shift_div_r; [exact Y|]. lra.
Qed.

Lemma meet_point p q a b : ~ det a b p - det a b q == 0 ->
  veq (on_seg p q (det a b p / (det a b p - det a b q))) (on_seg a b (det p q a / (det p q a - det p q b))).
Proof.
  intros N. assert (N2 : ~ det p q a - det p q b == 0) by (pose proof (det_balance p q a b); intros E; apply N; lra).
  unfold veq, on_seg. cbn [vx vy]. unfold det in *. split; field; split; assumption.
Qed.

Lemma qsign x : x < 0 \/ x == 0 \/ 0 < x.
Proof. destruct (Q_dec x 0) as [[H|H]|H]; tauto. Qed.

Definition apart (p q a b : vec2) : Prop :=
  (0 < det a b p /\ 0 < det a b q) \/ (det a b p < 0 /\ det a b q < 0) \/
  (0 < det p q a /\ 0 < det p q b) \/ (det p q a < 0 /\ det p q b < 0) \/
  (det a b p == 0 /\ det a b q == 0 /\ det p q a == 0 /\ det p q b == 0).

Lemma opposite_unit x y : ~ x - y == 0 -> ~ (0 < x /\ 0 < y) -> ~ (x < 0 /\ y < 0) -> 0 <= x / (x - y) <= 1.
Proof.
  intros N P M. destruct (qsign (x - y)) as [H|[H|H]]; [|contradiction|].
  - assert (E : x / (x - y) == (- x) / (y - x)) by (field; split; [intros E; apply N; lra|exact N]).
    rewrite E. apply quot_unit; try lra; destruct (Qlt_le_dec x 0), (Qlt_le_dec y 0), (Qlt_le_dec 0 x), (Qlt_le_dec 0 y); try lra; exfalso; tauto.
  - apply quot_unit; try lra; destruct (Qlt_le_dec x 0), (Qlt_le_dec y 0), (Qlt_le_dec 0 x), (Qlt_le_dec 0 y); try lra; exfalso; tauto.
Qed.

Lemma disjoint_apart p q a b : disjoint p q a b -> apart p q a b.
Proof.
  intros D. unfold apart. pose proof (det_balance p q a b) as B. set (P := det a b p) in *. set (R := det a b q) in *.
  set (A := det p q a) in *. set (C := det p q b) in *.
  destruct (Qeq_dec (P - R) 0) as [E|N].
  - destruct (qsign P) as [H|[H|H]]; [right; left; split; lra| |left; split; lra].
    destruct (qsign A) as [H'|[H'|H']]; [right; right; right; left; split; lra| |right; right; left; split; lra].
    right; right; right; right. repeat split; lra.
  - assert (DecP : (0 < P /\ 0 < R) \/ (P < 0 /\ R < 0) \/ (~ (0 < P /\ 0 < R) /\ ~ (P < 0 /\ R < 0))).
    { destruct (qsign P) as [H|[H|H]], (qsign R) as [H'|[H'|H']]; first [left; split; lra | right; left; split; lra | right; right; split; lra]. }
    assert (DecA : (0 < A /\ 0 < C) \/ (A < 0 /\ C < 0) \/ (~ (0 < A /\ 0 < C) /\ ~ (A < 0 /\ C < 0))).
    { destruct (qsign A) as [H|[H|H]], (qsign C) as [H'|[H'|H']]; first [left; split; lra | right; left; split; lra | right; right; split; lra]. }
    destruct DecP as [H|[H|[H1 H2]]]; [tauto|tauto|]. destruct DecA as [K|[K|[K1 K2]]]; [tauto|tauto|].
    exfalso. apply (D (P / (P - R)) (A / (A - C))).
    + apply opposite_unit; assumption.
    + apply opposite_unit; try assumption. lra.
    + apply meet_point. exact N.
Qed.

(* ---------- the shadow of a segment ---------- *)
(* signed crossing of the half line from z to the left with the segment p,q *)
Definition shadow (p q z : vec2) : Q :=
  if Qle_bool (vy z) (vy p)
  then if Qle_bool (vy z) (vy q) then 0 else if Qle_bool 0 (det q p z) then 0 else - (1)
  else if Qle_bool (vy z) (vy q) then if Qle_bool 0 (det p q z) then 0 else 1 else 0.

Lemma shadow_swap p q z : shadow q p z == - shadow p q z.
Proof.
  unfold shadow. destruct (Qle_bool (vy z) (vy q)), (Qle_bool (vy z) (vy p)); try reflexivity;
    destruct (Qle_bool 0 _); reflexivity.
Qed.

Lemma apart_swap_pq p q a b : apart p q a b -> apart q p a b.
Proof. unfold apart. rewrite (det_swap p q a), (det_swap p q b). intros [H|[H|[H|[H|H]]]]; [left|right; left|right; right; right; left|right; right; left|right; right; right; right]; lra. Qed.
Lemma apart_swap_ab p q a b : apart p q a b -> apart p q b a.
Proof. unfold apart. rewrite (det_swap a b p), (det_swap a b q). intros [H|[H|[H|[H|H]]]]; [right; left|left|right; right; left|right; right; right; left|right; right; right; right]; lra. Qed.

Definition pass (p q a b : vec2) : Prop := crossing p a b - crossing q a b == shadow p q b - shadow p q a.
Lemma pass_swap_pq p q a b : pass q p a b -> pass p q a b.
Proof. unfold pass. intros H. rewrite (shadow_swap p q), (shadow_swap p q) in H. lra. Qed.
Lemma pass_swap_ab p q a b : pass p q b a -> pass p q a b.
Proof. unfold pass. intros H. rewrite (crossing_antisym p a b), (crossing_antisym q a b) in H. lra. Qed.

(* a movement of the point that does not meet a segment *)
Lemma pass_apart_up p q a b : vy a <= vy b -> vy p <= vy q -> apart p q a b -> pass p q a b.
Proof.
  intros Hab Hpq AP. unfold pass, crossing, shadow, apart in *.
  pose proof (det_balance p q a b) as B. pose proof (det_row p q a b) as R.
  rewrite ?(det_swap a b), ?(det_swap p q) .
  set (P := det a b p) in *. set (S := det a b q) in *. set (A := det p q a) in *. set (C := det p q b) in *.
  clearbody P S A C. 
  set (ya := vy a) in *. set (yb := vy b) in *. set (yp := vy p) in *. set (yq := vy q) in *. clearbody ya yb yp yq.
  qcase ya yp; qcase yb yp; qcase ya yq; qcase yb yq; try lra;
  repeat match goal with |- context [Qle_bool ?x ?y] => qcase x y end; try lra; exfalso;
  destruct AP as [[H1 H2]|[[H1 H2]|[[H1 H2]|[[H1 H2]|(H1 & H2 & H3 & H4)]]]]; try lra; nra.
Qed.
Lemma pass_apart p q a b : apart p q a b -> pass p q a b.
Proof.
  intros AP. destruct (Qlt_le_dec (vy b) (vy a)) as [H|H], (Qlt_le_dec (vy q) (vy p)) as [H'|H'].
  - apply pass_swap_ab, pass_swap_pq, pass_apart_up; [lra|lra|]. apply apart_swap_ab, apart_swap_pq, AP.
  - apply pass_swap_ab, pass_apart_up; [lra|lra|]. apply apart_swap_ab, AP.
  - apply pass_swap_pq, pass_apart_up; [lra|lra|]. apply apart_swap_pq, AP.
  - apply pass_apart_up; assumption.
Qed.

(* along a path all of whose segments are passed by *)
Lemma pass_path p q a l b : (forall e, In e (path_edges a (l ++ [b])) -> disjoint p q (fst e) (snd e)) ->
  winding p (path_edges a (l ++ [b])) - winding q (path_edges a (l ++ [b])) == shadow p q b - shadow p q a.
Proof.
  intros H. unfold winding.
  assert (E : esum (crossing p) (path_edges a (l ++ [b])) == esum (fun x y => crossing q x y + (shadow p q y - shadow p q x)) (path_edges a (l ++ [b]))).
  { apply esum_ext. intros x y I. pose proof (pass_apart p q x y (disjoint_apart _ _ _ _ (H _ I))) as E. unfold pass in E. lra. }
  rewrite E, esum_plus, (esum_path (fun x y => shadow p q y - shadow p q x)).
  rewrite (path_exact _ (shadow p q)); [ring|]. intros. reflexivity.
Qed.

(* ---------- small parameters ---------- *)
Definition soon (P : Q -> Prop) : Prop := exists d, 0 < d /\ forall t, 0 < t -> t < d -> P t.
Lemma soon_and P R : soon P -> soon R -> soon (fun t => P t /\ R t).
Proof.
  intros (d & D & H) (d' & D' & H'). destruct (Qlt_le_dec d d') as [L|L].
  - exists d. split; [exact D|]. intros t T1 T2. split; [apply H|apply H']; lra.
  - exists d'. split; [exact D'|]. intros t T1 T2. split; [apply H|apply H']; lra.
Qed.
Lemma soon_all {A} (P : A -> Q -> Prop) l : (forall x, In x l -> soon (P x)) -> soon (fun t => forall x, In x l -> P x t).
Proof.
  induction l as [|a l IH]; intros H; [exists 1; split; [lra|]; intros t _ _ x []|].
  destruct (soon_and _ _ (H a ltac:(left; reflexivity)) (IH (fun x I => H x (or_intror I)))) as (d & D & K).
  exists d. split; [exact D|]. intros t T1 T2 x [<-|I]; [exact (proj1 (K t T1 T2))|apply (proj2 (K t T1 T2)); exact I].
Qed.
Lemma soon_imp (P R : Q -> Prop) : (forall t, 0 < t -> P t -> R t) -> soon P -> soon R.
Proof. intros H (d & D & K). exists d. split; [exact D|]. intros t T1 T2. apply H; [exact T1|]. apply K; assumption. Qed.
Lemma soon_lt c : 0 < c -> soon (fun t => t < c).
Proof. intros C. exists c. split; [exact C|]. intros; assumption. Qed.
Lemma soon_ex P : soon P -> exists t, 0 < t /\ P t.
Proof. intros (d & D & H). exists (d * (1 # 2)). split; [lra|]. apply H; lra. Qed.
(* c + t b stays positive *)
Lemma soon_pos c b : 0 < c -> soon (fun t => 0 < c + t * b).
Proof.
  intros C. destruct (Qlt_le_dec b 0) as [B|B].
  - exists (c / (- b)). split.
    + apply Qlt_shift_div_l; lra.
    + intros t T1 T2. assert (T : t * (- b) < c).
      { assert (E : c == c / (- b) * (- b)) by (field; lra). rewrite E. apply Qmult_lt_compat_r; lra. }
      lra.
  - exists 1. split; [lra|]. intros t T1 T2. nra.
Qed.

(* a linear form that is negative at v and not at a and b *)
Lemma on_seg_form al be ga a b t : al * vx (on_seg a b t) + be * vy (on_seg a b t) + ga ==
  (1 - t) * (al * vx a + be * vy a + ga) + t * (al * vx b + be * vy b + ga).
Proof. unfold on_seg. cbn [vx vy]. ring. Qed.
Lemma form_disjoint al be ga p q a b :
  0 < - (al * vx p + be * vy p + ga) -> 0 < - (al * vx q + be * vy q + ga) ->
  0 <= al * vx a + be * vy a + ga -> 0 <= al * vx b + be * vy b + ga -> disjoint p q a b.
Proof.
  intros P R A B s t S T [E1 E2].
  pose proof (on_seg_form al be ga p q s) as F1. pose proof (on_seg_form al be ga a b t) as F2.
  rewrite E1, E2 in F1. rewrite F1 in F2. clear F1 E1 E2.
  set (fp := al * vx p + be * vy p + ga) in *. set (fq := al * vx q + be * vy q + ga) in *.
  set (fa := al * vx a + be * vy a + ga) in *. set (fb := al * vx b + be * vy b + ga) in *.
  clearbody fp fq fa fb. destruct S as [S1 S2], T as [T1 T2].
  assert (0 <= (1 - t) * fa) by (apply Qmult_le_0_compat; lra). assert (0 <= t * fb) by (apply Qmult_le_0_compat; lra).
  assert (0 <= (1 - s) * (- fp)) by (apply Qmult_le_0_compat; lra). assert (0 <= s * (- fq)) by (apply Qmult_le_0_compat; lra).
  destruct (Qlt_le_dec 0 s) as [K|K].
  - assert (0 < s * (- fq)) by (apply Qmult_lt_0_compat; lra). lra.
  - assert (Z : s == 0) by lra. rewrite Z in *. lra.
Qed.
Lemma form_soon al be ga v u x a b : al * vx v + be * vy v + ga < 0 ->
  0 <= al * vx a + be * vy a + ga -> 0 <= al * vx b + be * vy b + ga ->
  soon (fun t => disjoint (on_seg v u t) (on_seg v x t) a b).
Proof.
  intros V A B. set (fv := al * vx v + be * vy v + ga) in *.
  destruct (soon_and _ _ (soon_pos (- fv) (- (al * (vx u - vx v) + be * (vy u - vy v))) ltac:(lra))
    (soon_pos (- fv) (- (al * (vx x - vx v) + be * (vy x - vy v))) ltac:(lra))) as (d & D & H).
  exists d. split; [exact D|]. intros t T1 T2. destruct (H t T1 T2) as [H1 H2].
  apply (form_disjoint al be ga); try assumption; unfold fv, on_seg in *; cbn [vx vy]; lra.
Qed.
(* v not on the segment a,b: small movements of v do not meet it *)
Lemma off_soon v u x a b : ~ veq a b -> (forall t, 0 <= t <= 1 -> ~ veq v (on_seg a b t)) ->
  soon (fun t => disjoint (on_seg v u t) (on_seg v x t) a b).
Proof.
  intros N O. set (dx := vx b - vx a). set (dy := vy b - vy a).
  destruct (qsign (det a b v)) as [H|[H|H]].
  - apply (form_soon (- dy) dx (dy * vx a - dx * vy a)); unfold dx, dy, det in *; lra.
  - set (n := dx * dx + dy * dy). set (f := dx * (vx v - vx a) + dy * (vy v - vy a)).
    assert (NP : 0 < n).
    { unfold n. destruct (qsign dx) as [X|[X|X]]; [nra| |nra]. destruct (qsign dy) as [Y|[Y|Y]]; [nra| |nra].
      exfalso. apply N. unfold veq, dx, dy in *. split; lra. }
    destruct (Qlt_le_dec f 0) as [F|F].
    + apply (form_soon dx dy (- (dx * vx a + dy * vy a))); unfold f in F; [lra|lra|].
      assert (E : dx * vx b + dy * vy b + - (dx * vx a + dy * vy a) == n) by (unfold n, dx, dy; ring). lra.
    + destruct (Qlt_le_dec n f) as [F'|F'].
      * apply (form_soon (- dx) (- dy) (dx * vx b + dy * vy b)).
        { assert (E : - dx * vx v + - dy * vy v + (dx * vx b + dy * vy b) == n - f) by (unfold n, f, dx, dy; ring). lra. }
        { assert (E : - dx * vx a + - dy * vy a + (dx * vx b + dy * vy b) == n) by (unfold n, dx, dy; ring). lra. }
        lra.
      * exfalso. apply (O (f / n)); [apply quot_unit; assumption|].
        assert (Z : dx * (vy v - vy a) == dy * (vx v - vx a)) by (unfold dx, dy, det in *; lra).
        assert (NN : ~ n == 0) by lra.
        unfold veq, on_seg. cbn [vx vy]. fold dx dy. split.
        { assert (E : f * dx == n * (vx v - vx a)). { unfold f, n. transitivity (dx * dx * (vx v - vx a) + dy * (dx * (vy v - vy a))); [ring|]. rewrite Z. ring. }
          assert (E2 : f / n * dx == vx v - vx a). { transitivity (f * dx / n); [field; exact NN|]. rewrite E. field. exact NN. }
          lra. }
        { assert (E : f * dy == n * (vy v - vy a)). { unfold f, n. transitivity (dy * dy * (vy v - vy a) + dx * (dy * (vx v - vx a))); [ring|]. rewrite <- Z. ring. }
          assert (E2 : f / n * dy == vy v - vy a). { transitivity (f * dy / n); [field; exact NN|]. rewrite E. field. exact NN. }
          lra. }
  - apply (form_soon dy (- dx) (dx * vy a - dy * vx a)); unfold dx, dy, det in *; lra.
Qed.

(* ---------- around a corner ---------- *)
(* the left hand side of the segment is not the side the crossing rule gives
   points of the segment to *)
Definition turned (a b : vec2) : Q :=
  if Qle_bool (vy b) (vy a) then if Qle_bool (vy a) (vy b) then if Qle_bool (vx a) (vx b) then 0 else 1 else 0 else 1.

Lemma scaled_pos t y : 0 < t -> t < 1 -> 0 < y -> 0 < t * y /\ t * y < y.
Proof. intros. split; nra. Qed.
Lemma scaled_neg t y : 0 < t -> t < 1 -> y < 0 -> t * y < 0 /\ y < t * y.
Proof. intros. split; nra. Qed.
Lemma scaled_zero t y : y == 0 -> t * y == 0.
Proof. intros H. rewrite H. ring. Qed.
Lemma twice_pos t y : 0 < t -> t < 1 -> 0 < y -> 0 < t * y /\ 0 < t * (1 - t) * y.
Proof. intros. assert (0 < t * (1 - t)) by nra. split; nra. Qed.
Lemma twice_neg t y : 0 < t -> t < 1 -> y < 0 -> t * y < 0 /\ t * (1 - t) * y < 0.
Proof. intros. assert (0 < t * (1 - t)) by nra. split; nra. Qed.
Lemma sign_ll a b : 0 < a * b -> (0 < a /\ 0 < b) \/ (a < 0 /\ b < 0).
Proof. intros H. destruct (qsign a) as [A|[A|A]], (qsign b) as [B|[B|B]]; try (left; split; assumption); try (right; split; assumption); exfalso; nra. Qed.
Lemma zero_ll a b : a * b == 0 -> a == 0 \/ b == 0.
Proof. intros H. destruct (qsign a) as [A|[A|A]], (qsign b) as [B|[B|B]]; try tauto; exfalso; nra. Qed.
Section Level.
Variables D ux uy xx xy : Q.
Hypothesis ED : D == xx * uy - xy * ux.
Lemma level_1 : uy == 0 -> 0 < D -> 0 < xy -> ux < 0.
Proof. intros H K L. rewrite ED, H in K. clear ED H. nra. Qed.
Lemma level_2 : uy == 0 -> D < 0 -> 0 < xy -> 0 < ux.
Proof. intros H K L. rewrite ED, H in K. clear ED H. nra. Qed.
Lemma level_1' : uy == 0 -> D < 0 -> xy < 0 -> ux < 0.
Proof. intros H K L. rewrite ED, H in K. clear ED H. nra. Qed.
Lemma level_2' : uy == 0 -> 0 < D -> xy < 0 -> 0 < ux.
Proof. intros H K L. rewrite ED, H in K. clear ED H. nra. Qed.
Lemma level_3 : xy == 0 -> 0 < D -> 0 < uy -> 0 < xx.
Proof. intros H K L. rewrite ED, H in K. clear ED H. nra. Qed.
Lemma level_4 : xy == 0 -> D < 0 -> 0 < uy -> xx < 0.
Proof. intros H K L. rewrite ED, H in K. clear ED H. nra. Qed.
Lemma level_3' : xy == 0 -> D < 0 -> uy < 0 -> 0 < xx.
Proof. intros H K L. rewrite ED, H in K. clear ED H. nra. Qed.
Lemma level_4' : xy == 0 -> 0 < D -> uy < 0 -> xx < 0.
Proof. intros H K L. rewrite ED, H in K. clear ED H. nra. Qed.
Lemma level_d : xy == 0 -> uy == 0 -> D == 0.
Proof. intros H K. rewrite ED, H, K. ring. Qed.
Hypothesis Z : D == 0 -> ux * xx + uy * xy < 0.
Lemma level_5 : xy == 0 -> uy == 0 -> (ux < 0 /\ 0 < xx) \/ (0 < ux /\ xx < 0).
Proof.
  intros H K. assert (L := Z (level_d H K)). rewrite H, K in L. clear ED Z H K.
  destruct (qsign ux) as [A|[A|A]], (qsign xx) as [B|[B|B]]; try tauto; exfalso; nra.
Qed.
Lemma level_8 : D == 0 -> (uy < 0 /\ 0 < xy) \/ (0 < uy /\ xy < 0) \/ (uy == 0 /\ xy == 0).
Proof.
  intros H. specialize (Z H). rewrite ED in H. clear ED.
  destruct (qsign uy) as [A|[A|A]], (qsign xy) as [B|[B|B]]; try tauto; exfalso.
  - assert (P : (xx * uy) * (xy * ux) == (uy * xy) * (ux * xx)) by ring. assert (E : xx * uy == xy * ux) by lra.
    rewrite E in P. assert (0 < uy * xy) by nra. clear E H A B.
    set (m := uy * xy) in *. set (n := ux * xx) in *. set (k := xy * ux) in *. clearbody m n k. nra.
  - rewrite B in *. assert (xx * uy == 0) by lra. destruct (zero_ll _ _ H0) as [E|E]; [rewrite E in Z|rewrite E in A]; lra.
  - rewrite A in *. assert (xy * ux == 0) by lra. destruct (zero_ll _ _ H0) as [E|E]; [rewrite E in B|rewrite E in Z]; lra.
  - rewrite A in *. assert (xy * ux == 0) by lra. destruct (zero_ll _ _ H0) as [E|E]; [rewrite E in B|rewrite E in Z]; lra.
  - rewrite B in *. assert (xx * uy == 0) by lra. destruct (zero_ll _ _ H0) as [E|E]; [rewrite E in Z|rewrite E in A]; lra.
  - assert (P : (xx * uy) * (xy * ux) == (uy * xy) * (ux * xx)) by ring. assert (E : xx * uy == xy * ux) by lra.
    rewrite E in P. assert (0 < uy * xy) by nra. clear E H A B.
    set (m := uy * xy) in *. set (n := ux * xx) in *. set (k := xy * ux) in *. clearbody m n k. nra.
Qed.
End Level.

Lemma corner_shift u v x t : 0 < t -> t < 1 -> ~ veq u v -> ~ veq v x ->
  (det u v x == 0 -> (vx u - vx v) * (vx x - vx v) + (vy u - vy v) * (vy x - vy v) < 0) ->
  (forall k, k == vy x - vy v \/ k == vy v - vy x -> 0 < k -> 0 < k - t * (vy u - vy v) /\ 0 < k + t * (vy u - vy v)) ->
  (forall k, k == vy u - vy v \/ k == vy v - vy u -> 0 < k -> 0 < k - t * (vy x - vy v) /\ 0 < k + t * (vy x - vy v)) ->
  let p := on_seg v u t in let q := on_seg v x t in
  crossing p v x - crossing q u v + shadow p q u - shadow p q x == turned v x - turned u v.
Proof.
  intros T0 T1 Nu Nx Z S1 S2 p q. unfold crossing, shadow, turned.
  set (D := det u v x).
  assert (E1 : det v x p == t * D) by (unfold D, p, det, on_seg; cbn [vx vy]; ring).
  assert (E2 : det x v p == - (t * D)) by (unfold D, p, det, on_seg; cbn [vx vy]; ring).
  assert (E3 : det u v q == t * D) by (unfold D, q, det, on_seg; cbn [vx vy]; ring).
  assert (E4 : det v u q == - (t * D)) by (unfold D, q, det, on_seg; cbn [vx vy]; ring).
  assert (E5 : det p q u == t * (1 - t) * D) by (unfold D, p, q, det, on_seg; cbn [vx vy]; ring).
  assert (E6 : det q p u == - (t * (1 - t) * D)) by (unfold D, p, q, det, on_seg; cbn [vx vy]; ring).
  assert (E7 : det p q x == t * (1 - t) * D) by (unfold D, p, q, det, on_seg; cbn [vx vy]; ring).
  assert (E8 : det q p x == - (t * (1 - t) * D)) by (unfold D, p, q, det, on_seg; cbn [vx vy]; ring).
  set (ux := vx u - vx v). set (uy := vy u - vy v). set (xx := vx x - vx v). set (xy := vy x - vy v).
  assert (ED : D == xx * uy - xy * ux) by (unfold D, det, ux, uy, xx, xy; ring).
  assert (Yp : vy p == vy v + t * uy) by (unfold p, on_seg, uy; cbn; ring).
  assert (Yq : vy q == vy v + t * xy) by (unfold q, on_seg, xy; cbn; ring).
  assert (Yu : vy u == vy v + uy) by (unfold uy; ring). assert (Yx : vy x == vy v + xy) by (unfold xy; ring).
  assert (Xu : vx u == vx v + ux) by (unfold ux; ring). assert (Xx : vx x == vx v + xx) by (unfold xx; ring).
  assert (A1 : 0 < xy -> 0 < xy - t * uy) by (intros H; apply (S1 xy); [left; unfold xy; ring|exact H]).
  assert (A2 : xy < 0 -> 0 < t * uy - xy). { intros H. destruct (S1 (- xy)) as [_ K]; [right; unfold xy; ring|lra|]. fold uy in K. lra. }
  assert (A3 : 0 < uy -> 0 < uy - t * xy) by (intros H; apply (S2 uy); [left; unfold uy; ring|exact H]).
  assert (A4 : uy < 0 -> 0 < t * xy - uy). { intros H. destruct (S2 (- uy)) as [_ K]; [right; unfold uy; ring|lra|]. fold xy in K. lra. }
  assert (Nu' : ~ (ux == 0 /\ uy == 0)) by (intros [? ?]; apply Nu; unfold veq, ux, uy in *; split; lra).
  assert (Nx' : ~ (xx == 0 /\ xy == 0)) by (intros [? ?]; apply Nx; unfold veq, xx, xy in *; split; lra).
  fold D in Z. fold ux uy xx xy in Z.
  clear S1 S2 Nu Nx.
  assert (L1 := level_1 D ux uy xx xy ED). assert (L2 := level_2 D ux uy xx xy ED).
  assert (L1' := level_1' D ux uy xx xy ED). assert (L2' := level_2' D ux uy xx xy ED).
  assert (L3 := level_3 D ux uy xx xy ED). assert (L4 := level_4 D ux uy xx xy ED).
  assert (L3' := level_3' D ux uy xx xy ED). assert (L4' := level_4' D ux uy xx xy ED).
  assert (L5 := level_5 D ux uy xx xy ED Z). assert (L8 := level_8 D ux uy xx xy ED Z). assert (Ld := level_d D ux uy xx xy ED).
  assert (U1 := scaled_pos t uy T0 T1). assert (U2 := scaled_neg t uy T0 T1). assert (U3 := scaled_zero t uy).
  assert (X1 := scaled_pos t xy T0 T1). assert (X2 := scaled_neg t xy T0 T1). assert (X3 := scaled_zero t xy).
  assert (D1 := twice_pos t D T0 T1). assert (D2 := twice_neg t D T0 T1).
  assert (D3 : D == 0 -> t * D == 0 /\ t * (1 - t) * D == 0) by (intros H; rewrite H; split; ring).
  set (tu := t * uy) in *. set (tx := t * xy) in *. set (tD := t * D) in *. set (sD := t * (1 - t) * D) in *.
  set (c1 := vy p) in *. set (c2 := vy q) in *. set (c3 := vy u) in *. set (c4 := vy x) in *. set (c5 := vy v) in *.
  set (b1 := vx u) in *. set (b2 := vx x) in *. set (b3 := vx v) in *.
  set (d1 := det v x p) in *. set (d2 := det x v p) in *. set (d3 := det u v q) in *. set (d4 := det v u q) in *.
  set (d5 := det p q u) in *. set (d6 := det q p u) in *. set (d7 := det p q x) in *. set (d8 := det q p x) in *.
  clearbody d1 d2 d3 d4 d5 d6 d7 d8 tD sD tu tx. clearbody c1 c2. clearbody ux uy xx xy. clearbody D. clearbody b1 b2 b3 c3 c4 c5.
  clear Z T0 T1 Nu' Nx' ED.
  destruct (qsign D) as [SD|[SD|SD]]; [destruct (D2 SD)|destruct (D3 SD)|destruct (D1 SD)]; clear D1 D2 D3;
  (destruct (qsign uy) as [SU|[SU|SU]]; [destruct (U2 SU); specialize (A4 SU)|specialize (U3 SU)|destruct (U1 SU); specialize (A3 SU)]);
  (destruct (qsign xy) as [SX|[SX|SX]]; [destruct (X2 SX); specialize (A2 SX)|specialize (X3 SX)|destruct (X1 SX); specialize (A1 SX)]);
  try (specialize (Ld SX SU); exfalso; clear - Ld SD; lra); try (destruct (L8 SD) as [[? ?]|[[? ?]|[? ?]]]; try (exfalso; clear L8; repeat match goal with H : _ -> _ |- _ => clear H end; lra));
  try specialize (L1 SU SD SX); try specialize (L2 SU SD SX); try specialize (L1' SU SD SX); try specialize (L2' SU SD SX);
  try specialize (L3 SX SD SU); try specialize (L4 SX SD SU); try specialize (L3' SX SD SU); try specialize (L4' SX SD SU);
  try (destruct (L5 SX SU) as [[? ?]|[? ?]]);
  repeat match goal with H : _ -> _ |- _ => clear H end;
  repeat match goal with |- context [Qle_bool ?x ?y] => qcase x y; try (exfalso; lra) end; try lra.
Qed.
