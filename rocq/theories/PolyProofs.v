(* The winding number of a simple polygon is constant along its left hand side:
   proofs for PolyProps. *)
From Coq Require Import Lqa Lia Permutation.
From Verif Require Import Base Chain GeomSpec WindSpec WindProofs InsideProofs PolySpec PolyCorner.
Open Scope Q_scope.

(* ---------- turning the polygon ---------- *)
Lemma pairs_app {A} (R : A -> A -> Prop) l1 l2 : ForallOrdPairs R (l1 ++ l2) <->
  ForallOrdPairs R l1 /\ ForallOrdPairs R l2 /\ (forall a b, In a l1 -> In b l2 -> R a b).
Proof.
  induction l1 as [|a l1 IH]; cbn [app].
  - split; [intros H; repeat split; [constructor|exact H|intros a b []]|tauto].
  - split.
    + intros H. inversion H as [|? ? F P]; subst. apply IH in P. destruct P as (P1 & P2 & P3).
      rewrite Forall_app in F. destruct F as [F1 F2]. rewrite Forall_forall in F2.
      repeat split; [constructor; assumption|exact P2|]. intros x y [<-|I] J; [apply F2; exact J|apply P3; assumption].
    + intros (H1 & H2 & H3). inversion H1 as [|? ? F P]; subst. constructor.
      * rewrite Forall_app. split; [exact F|]. apply Forall_forall. intros y J. apply H3; [left; reflexivity|exact J].
      * apply IH. repeat split; [exact P|exact H2|]. intros x y I J. apply H3; [right; exact I|exact J].
Qed.
Lemma simple_turn l1 l2 : simple_polygon (l1 ++ l2) -> simple_polygon (l2 ++ l1).
Proof.
  intros (L & P & M). split; [rewrite app_length in *; lia|]. split.
  - apply pairs_app in P. destruct P as (P1 & P2 & P3). apply pairs_app. repeat split; try assumption.
    intros a b I J E. apply (P3 b a J I). destruct E. split; symmetry; assumption.
  - intros e f s t I J. apply M; (eapply Permutation_in; [|eassumption]); apply ring_turn_app.
Qed.
Lemma winding_turn p l1 l2 : winding p (ring_edges (l1 ++ l2)) == winding p (ring_edges (l2 ++ l1)).
Proof. apply esum_perm, ring_turn_app. Qed.

Lemma path_split {V} (u v : V) a m : In (u, v) (path_edges a m) -> exists l1 l2, a :: m = l1 ++ u :: v :: l2.
Proof.
  revert a. induction m as [|b m IH]; intros a; [intros []|]. cbn [path_edges]. intros [E|H].
  - injection E as -> ->. exists [], m. reflexivity.
  - destruct (IH _ H) as (l1 & l2 & E). exists (a :: l1), l2. rewrite E. reflexivity.
Qed.
(* every side is the first side of the polygon turned accordingly *)
Lemma side_first {V} (u v : V) l : (3 <= length l)%nat -> In (u, v) (ring_edges l) ->
  exists l1 l2 x r, l = l1 ++ l2 /\ l2 ++ l1 = u :: v :: x :: r.
Proof.
  destruct l as [|a l]; [intros _ []|]. cbn [ring_edges]. intros L H. destruct (path_split _ _ _ _ H) as (l1 & l2 & E).
  destruct l2 as [|y l2 _] using rev_ind.
  - change (a :: l ++ [a]) with ((a :: l) ++ [a]) in E. change (l1 ++ [u; v]) with (l1 ++ [u] ++ [v]) in E. rewrite app_assoc in E.
    apply app_inj_tail in E. destruct E as [E ->]. rewrite E in L. rewrite app_length in L. cbn in L.
    destruct l1 as [|b [|c l1]]; [cbn in L; lia|cbn in L; lia|]. cbn in E. injection E as <- E.
    exists (v :: c :: l1), [u], c, l1. split; [cbn; rewrite E; reflexivity|reflexivity].
  - change (a :: l ++ [a]) with ((a :: l) ++ [a]) in E.
    assert (E2 : l1 ++ u :: v :: l2 ++ [y] = (l1 ++ u :: v :: l2) ++ [y]) by (rewrite <- app_assoc; reflexivity).
    rewrite E2 in E. apply app_inj_tail in E. destruct E as [E _].
    assert (LL : (1 <= length (l2 ++ l1))%nat) by (rewrite E in L; rewrite !app_length in *; cbn in L; lia).
    destruct (l2 ++ l1) as [|x r] eqn:X; [cbn in LL; lia|].
    exists l1, (u :: v :: l2), x, r. split; [exact E|]. cbn. rewrite X. reflexivity.
Qed.

Lemma path_members {V} (a : V) l b e : In e (path_edges a (l ++ [b])) -> In (fst e) (a :: l) /\ In (snd e) (l ++ [b]).
Proof.
  revert a. induction l as [|c l IH]; intros a; cbn [app path_edges In].
  - intros [<-|[]]. cbn. tauto.
  - intros [<-|H]; [cbn; tauto|]. destruct (IH _ H). cbn in *. tauto.
Qed.

Lemma veq_sym a b : veq a b -> veq b a.
Proof. intros [? ?]. split; symmetry; assumption. Qed.
Lemma veq_trans a b c : veq a b -> veq b c -> veq a c.
Proof. intros [H1 H2] [H3 H4]. split; etransitivity; eassumption. Qed.
Lemma veq_refl a : veq a a.
Proof. split; reflexivity. Qed.
Lemma on_seg_0 a b t : t == 0 -> veq (on_seg a b t) a.
Proof. intros E. unfold veq, on_seg. cbn [vx vy]. rewrite E. split; ring. Qed.
Lemma on_seg_1 a b t : t == 1 -> veq (on_seg a b t) b.
Proof. intros E. unfold veq, on_seg. cbn [vx vy]. rewrite E. split; ring. Qed.
Lemma on_seg_swap a b t : veq (on_seg a b t) (on_seg b a (1 - t)).
Proof. unfold veq, on_seg. cbn [vx vy]. split; ring. Qed.
Lemma on_seg_seg a b s t k : veq (on_seg (on_seg a b s) (on_seg a b t) k) (on_seg a b (s + k * (t - s))).
Proof. unfold veq, on_seg. cbn [vx vy]. split; ring. Qed.

Lemma mix s t k : 0 < s < 1 -> 0 < t < 1 -> 0 <= k <= 1 -> 0 < s + k * (t - s) < 1.
Proof.
  intros [S1 S2] [T1 T2] [K1 K2].
  assert (0 <= k * t) by (apply Qmult_le_0_compat; lra). assert (0 <= (1 - k) * s) by (apply Qmult_le_0_compat; lra).
  assert (0 <= k * (1 - t)) by (apply Qmult_le_0_compat; lra). assert (0 <= (1 - k) * (1 - s)) by (apply Qmult_le_0_compat; lra).
  destruct (Qlt_le_dec 0 k) as [K|K].
  - assert (0 < k * t) by (apply Qmult_lt_0_compat; lra). assert (0 < k * (1 - t)) by (apply Qmult_lt_0_compat; lra). lra.
  - assert (Z : k == 0) by lra. rewrite Z. lra.
Qed.
Section Turned.
Variables (u v x : vec2) (r : list vec2).
Hypothesis SP : simple_polygon (u :: v :: x :: r).
Let es := ring_edges (u :: v :: x :: r).
Lemma es_first : es = (u, v) :: path_edges v ((x :: r) ++ [u]).
Proof. reflexivity. Qed.
Lemma es_second : es = (u, v) :: (v, x) :: path_edges x (r ++ [u]).
Proof. reflexivity. Qed.
Lemma u_other c : In c (v :: x :: r) -> ~ veq u c.
Proof. destruct SP as (_ & P & _). inversion P as [|? ? F _]; subst. rewrite Forall_forall in F. apply F. Qed.
Lemma v_other c : In c (x :: r) -> ~ veq v c.
Proof. destruct SP as (_ & P & _). inversion P as [|? ? _ P']; subst. inversion P' as [|? ? F _]; subst. rewrite Forall_forall in F. apply F. Qed.
Lemma rest_other g : In g (path_edges v ((x :: r) ++ [u])) -> (u, v) <> g.
Proof.
  intros I E. subst g. apply path_members in I. destruct I as [I _]. cbn [fst] in I. apply (u_other u I). apply veq_refl.
Qed.
Lemma rest_in g : In g (path_edges v ((x :: r) ++ [u])) -> In g es.
Proof. intros I. rewrite es_first. right. exact I. Qed.
(* inner points of the first side are on no other side *)
Lemma inner_alone g s t : In g (path_edges v ((x :: r) ++ [u])) -> 0 < s < 1 -> 0 <= t <= 1 ->
  ~ veq (on_seg u v s) (on_seg (fst g) (snd g) t).
Proof.
  intros I S T E. destruct SP as (_ & _ & M).
  destruct (M (u, v) g s t ltac:(left; reflexivity) (rest_in g I) (rest_other g I) ltac:(lra) T E) as [[H|H] _]; lra.
Qed.
Lemma pq_disjoint s t g : 0 < s < 1 -> 0 < t < 1 -> In g (path_edges v ((x :: r) ++ [u])) ->
  disjoint (on_seg u v s) (on_seg u v t) (fst g) (snd g).
Proof.
  intros S T I k m K M E. apply (inner_alone g (s + k * (t - s)) m I); [apply mix; assumption|exact M|].
  apply (veq_trans _ _ _ (veq_sym _ _ (on_seg_seg u v s t k)) E).
Qed.
Lemma det_on a b s : det a b (on_seg a b s) == 0.
Proof. unfold det, on_seg. cbn [vx vy]. ring. Qed.
Lemma shadow_flat p q z : det p q z == 0 -> shadow p q z == 0.
Proof.
  intros E. unfold shadow. destruct (Qle_bool (vy z) (vy p)), (Qle_bool (vy z) (vy q)); try reflexivity.
  - qcase 0 (det q p z); [reflexivity|]. rewrite det_swap in L. lra.
  - qcase 0 (det p q z); [reflexivity|]. lra.
Qed.
Lemma along s t : 0 < s < 1 -> 0 < t < 1 -> winding (on_seg u v s) es == winding (on_seg u v t) es.
Proof.
  intros S T. rewrite es_first. unfold winding. cbn [esum]. rewrite !crossing_on by apply det_on.
  assert (E := pass_path (on_seg u v s) (on_seg u v t) v (x :: r) u (fun e I => pq_disjoint s t e S T I)).
  rewrite !shadow_flat in E by (unfold det, on_seg; cbn [vx vy]; ring). unfold winding in E. lra.
Qed.

(* the second corner is on no further side *)
Lemma corner_off g t : In g (path_edges x (r ++ [u])) -> 0 <= t <= 1 -> ~ veq v (on_seg (fst g) (snd g) t).
Proof.
  intros I T E. assert (I' : In g (path_edges v ((x :: r) ++ [u]))) by (cbn [app path_edges]; right; exact I).
  destruct SP as (_ & _ & M). destruct (path_members _ _ _ _ I) as [F S].
  destruct (M (u, v) g 1 t ltac:(left; reflexivity) (rest_in g I') (rest_other g I') ltac:(lra) T) as [_ [H|H]].
  - cbn [fst snd]. apply (veq_trans _ _ _ (on_seg_1 u v 1 ltac:(reflexivity)) E).
  - apply (v_other (fst g) F). exact (veq_trans _ _ _ E (on_seg_0 _ _ _ H)).
  - assert (K := veq_trans _ _ _ E (on_seg_1 _ _ _ H)). apply in_app_iff in S. destruct S as [S|[S|[]]].
    + apply (v_other (snd g)); [right; exact S|exact K].
    + apply (u_other v); [left; reflexivity|]. rewrite S. apply veq_sym, K.
Qed.
Lemma rest_proper g : In g (path_edges x (r ++ [u])) -> ~ veq (fst g) (snd g).
Proof.
  intros I E. assert (I' : In g (path_edges v ((x :: r) ++ [u]))) by (cbn [app path_edges]; right; exact I).
  destruct SP as (_ & P & _). clear I'.
  assert (Q : ForallOrdPairs (fun a b => ~ veq a b) ((x :: r) ++ [u])).
  { inversion P as [|? ? F P']; subst. inversion P' as [|? ? F' P'']; subst. apply pairs_app. split; [exact P''|]. split; [repeat constructor|].
    intros a b Ia [<-|[]] K. rewrite Forall_forall in F. apply (F a); [right; exact Ia|]. apply veq_sym, K. }
  cbn [app] in Q. destruct g as [a b]. cbn [fst snd] in *. destruct (path_split _ _ _ _ I) as (l1 & l2 & X). rewrite X in Q.
  apply pairs_app in Q. destruct Q as (_ & Q & _). inversion Q as [|? ? F _]; subst. inversion F; subst. contradiction.
Qed.
(* no folding back *)
Lemma no_fold : det u v x == 0 -> (vx u - vx v) * (vx x - vx v) + (vy u - vy v) * (vy x - vy v) < 0.
Proof.
  intros Z. set (ux := vx u - vx v). set (uy := vy u - vy v). set (xx := vx x - vx v). set (xy := vy x - vy v).
  assert (ED : xx * uy == xy * ux) by (unfold det, ux, uy, xx, xy in *; lra).
  set (n := ux * ux + uy * uy). set (f := ux * xx + uy * xy).
  assert (NP : 0 < n).
  { assert (N := u_other v ltac:(left; reflexivity)). unfold n. destruct (qsign ux) as [A|[A|A]]; [nra| |nra].
    destruct (qsign uy) as [B|[B|B]]; [nra| |nra]. exfalso. apply N. unfold veq, ux, uy in *. split; lra. }
  (* x - v = (f / n) (u - v) *)
  assert (K1 : xx == f / n * ux).
  { assert (E : f * ux == n * xx) by (unfold f, n; transitivity (ux * ux * xx + uy * (xy * ux)); [ring|]; rewrite <- ED; ring).
    transitivity (f * ux / n); [|field; lra]. rewrite E. field. lra. }
  assert (K2 : xy == f / n * uy).
  { assert (E : f * uy == n * xy) by (unfold f, n; transitivity (uy * uy * xy + ux * (xx * uy)); [ring|]; rewrite ED; ring).
    transitivity (f * uy / n); [|field; lra]. rewrite E. field. lra. }
  destruct (Qlt_le_dec f 0) as [F|F]; [exact F|exfalso].
  set (k := f / n) in *. assert (KN : 0 <= k) by (unfold k; apply Qle_shift_div_l; lra).
  destruct (Qeq_dec k 0) as [Z0|Z0].
  { apply (v_other x ltac:(left; reflexivity)). rewrite Z0 in K1, K2. unfold veq, xx, xy in *. split; lra. }
  assert (KP : 0 < k) by lra.
  (* a common inner point *)
  assert (exists t, 0 < t < 1 /\ 0 < k * t < 1) as (t & T1 & T2).
  { destruct (Qlt_le_dec k 1) as [G|G]; [exists (1 # 2); split; lra|]. exists (1 / (2 * k)).
    assert (E : k * (1 / (2 * k)) == 1 # 2) by (field; lra). split; [|rewrite E; lra].
    split; [apply Qlt_shift_div_l; lra|apply Qlt_shift_div_r; lra]. }
  apply (inner_alone (v, x) (1 - k * t) t); [left; reflexivity|lra|lra|].
  cbn [fst snd]. unfold veq, on_seg. cbn [vx vy]. fold ux uy xx xy.
  assert (E1 : vx u == vx v + ux) by (unfold ux; ring). assert (E2 : vy u == vy v + uy) by (unfold uy; ring).
  split.
  - setoid_replace (vx v - vx u) with (- ux) by (unfold ux; ring). rewrite E1, K1. ring.
  - setoid_replace (vy v - vy u) with (- uy) by (unfold uy; ring). rewrite E2, K2. ring.
Qed.
Lemma soon_keep y z : soon (fun t => forall k, k == y \/ k == - y -> 0 < k -> 0 < k - t * z /\ 0 < k + t * z).
Proof.
  destruct (qsign y) as [H|[H|H]].
  - destruct (soon_and _ _ (soon_pos (- y) z ltac:(lra)) (soon_pos (- y) (- z) ltac:(lra))) as (d & D & K). exists d. split; [exact D|].
    intros t T1 T2 k E P. destruct (K t T1 T2). destruct E as [E|E]; rewrite E in *; lra.
  - exists 1. split; [lra|]. intros t _ _ k [E|E] P; exfalso; lra.
  - destruct (soon_and _ _ (soon_pos y z ltac:(lra)) (soon_pos y (- z) ltac:(lra))) as (d & D & K). exists d. split; [exact D|].
    intros t T1 T2 k E P. destruct (K t T1 T2). destruct E as [E|E]; rewrite E in *; lra.
Qed.
Lemma around : exists t, 0 < t < 1 /\ winding (on_seg v u t) es + turned u v == winding (on_seg v x t) es + turned v x.
Proof.
  assert (S1 : soon (fun t => forall g, In g (path_edges x (r ++ [u])) -> disjoint (on_seg v u t) (on_seg v x t) (fst g) (snd g))).
  { apply soon_all. intros g I. apply off_soon; [apply rest_proper; exact I|]. intros t T. apply corner_off; assumption. }
  destruct (soon_ex _ (soon_and _ _ S1 (soon_and _ _ (soon_lt 1 ltac:(lra)) (soon_and _ _ (soon_keep (vy x - vy v) (vy u - vy v)) (soon_keep (vy u - vy v) (vy x - vy v))))))
    as (t & T0 & DJ & T1 & K1 & K2).
  exists t. split; [split; assumption|].
  assert (C := corner_shift u v x t T0 T1 (u_other v ltac:(left; reflexivity)) (v_other x ltac:(left; reflexivity)) no_fold).
  cbv zeta in C. rewrite es_second. unfold winding. cbn [esum].
  assert (E := pass_path (on_seg v u t) (on_seg v x t) x r u DJ). unfold winding in E.
  rewrite (crossing_on (on_seg v u t) u v) by (unfold det, on_seg; cbn [vx vy]; ring).
  rewrite (crossing_on (on_seg v x t) v x) by apply det_on.
  specialize (C ltac:(intros k H; apply K1; destruct H as [H|H]; [left|right]; lra) ltac:(intros k H; apply K2; destruct H as [H|H]; [left|right]; lra)).
  lra.
Qed.
End Turned.

(* ---------- one level for all sides ---------- *)
Lemma crossing_point p q a b : veq p q -> crossing p a b == crossing q a b.
Proof.
  intros [E1 E2]. unfold crossing.
  rewrite (qle_bool_eq (vy a) (vy a) (vy p) (vy q)), (qle_bool_eq (vy b) (vy b) (vy p) (vy q)) by (assumption || reflexivity).
  assert (D1 : det a b p == det a b q) by (unfold det; rewrite E1, E2; reflexivity).
  assert (D2 : det b a p == det b a q) by (unfold det; rewrite E1, E2; reflexivity).
  rewrite (qle_bool_eq (det a b p) (det a b q) 0 0), (qle_bool_eq (det b a p) (det b a q) 0 0) by (assumption || reflexivity).
  reflexivity.
Qed.
Lemma winding_point p q es : veq p q -> winding p es == winding q es.
Proof. intros E. apply esum_ext. intros a b _. apply crossing_point, E. Qed.

Definition level (l : list vec2) (K : Q) : Prop :=
  match l with
  | u :: v :: _ => forall s, 0 < s < 1 -> winding (on_seg u v s) (ring_edges l) + turned u v == K
  | _ => False
  end.
Lemma level_ex l : simple_polygon l -> exists K, level l K.
Proof.
  intros H. assert (L := proj1 H). destruct l as [|u [|v [|x r]]]; cbn [length] in L; try lia.
  exists (winding (on_seg u v (1 # 2)) (ring_edges (u :: v :: x :: r)) + turned u v).
  intros s S. rewrite (along u v x r H s (1 # 2) S ltac:(lra)). reflexivity.
Qed.
Lemma level_step u l K : simple_polygon (u :: l) -> level (u :: l) K -> level (l ++ [u]) K.
Proof.
  intros H LV. assert (L := proj1 H). destruct l as [|v [|x r]]; cbn [length] in L; try lia.
  assert (H' := simple_turn [u] (v :: x :: r) H). cbn [app] in *. intros s S.
  destruct (around u v x r H) as (t & T & E).
  assert (W : forall p, winding p (ring_edges (v :: x :: r ++ [u])) == winding p (ring_edges (u :: v :: x :: r))).
  { intros p. symmetry. exact (winding_turn p [u] (v :: x :: r)). }
  assert (A : winding (on_seg v x s) (ring_edges (v :: x :: r ++ [u])) == winding (on_seg v x t) (ring_edges (v :: x :: r ++ [u]))).
  { destruct r as [|y r]; cbn [app] in *.
    - apply (along v x u [] H' s t S T).
    - apply (along v x y (r ++ [u]) H' s t S T). }
  rewrite A, W, <- E. rewrite (winding_point _ _ _ (on_seg_swap v u t)). apply LV. lra.
Qed.
Lemma level_turn l1 l2 K : simple_polygon (l1 ++ l2) -> level (l1 ++ l2) K -> level (l2 ++ l1) K.
Proof.
  revert l2. induction l1 as [|a l1 IH]; intros l2 H LV; [rewrite app_nil_r; exact LV|].
  assert (E : l2 ++ a :: l1 = (l2 ++ [a]) ++ l1) by (rewrite <- app_assoc; reflexivity). rewrite E.
  apply IH.
  - rewrite app_assoc. apply (simple_turn [a] (l1 ++ l2)). exact H.
  - rewrite app_assoc. apply level_step; assumption.
Qed.
(* K on the left of every side *)
Lemma level_sides l K e s : simple_polygon l -> level l K -> In e (ring_edges l) -> 0 < s < 1 ->
  winding (on_seg (fst e) (snd e) s) (ring_edges l) + turned (fst e) (snd e) == K.
Proof.
  intros H LV I S. destruct e as [u v]. destruct (side_first u v l (proj1 H) I) as (l1 & l2 & x & r & E & E2).
  subst l. assert (LV' := level_turn l1 l2 K H LV). rewrite E2 in LV'. cbn [fst snd].
  rewrite winding_turn, E2. apply LV'. exact S.
Qed.

(* ---------- a row without corners ---------- *)
Lemma row_same (x y y' : Q) b : (x <= y /\ x < y' \/ y' < x /\ y < x) -> Qle_bool x y = b -> Qle_bool x y' = b.
Proof. intros H E. qcase x y; qcase x y'; rewrite ?E0, ?E1 in *; try congruence; exfalso; destruct H as [[? ?]|[? ?]]; lra. Qed.
Definition nudge (z : vec2) (t : Q) : vec2 := V2 (vx z + t) (vy z + t * t).
Lemma soon_row z a : soon (fun t => vy a <= vy z /\ vy a < vy (nudge z t) \/ vy (nudge z t) < vy a /\ vy z < vy a).
Proof.
  destruct (Qlt_le_dec (vy z) (vy a)) as [H|H].
  - destruct (soon_and _ _ (soon_lt 1 ltac:(lra)) (soon_lt (vy a - vy z) ltac:(lra))) as (d & D & K). exists d. split; [exact D|].
    intros t T1 T2. destruct (K t T1 T2). right. split; [|exact H]. cbn [nudge vy]. nra.
  - exists 1. split; [lra|]. intros t T1 T2. left. split; [exact H|]. cbn [nudge vy]. nra.
Qed.
Lemma soon_side z a b : vy a < vy b -> soon (fun t => Qle_bool (det a b (nudge z t)) 0 = Qle_bool (det a b z) 0).
Proof.
  intros H. set (dx := vx b - vx a). set (dy := vy b - vy a).
  assert (E : forall t, det a b (nudge z t) == det a b z + t * (t * dx - dy)) by (intros t; unfold det, nudge, dx, dy; cbn [vx vy]; ring).
  qcase (det a b z) 0.
  - destruct (soon_pos dy (- dx) ltac:(unfold dy; lra)) as (d & D & K). exists d. split; [exact D|]. intros t T1 T2. specialize (K t T1 T2).
    apply Qle_bool_iff. rewrite E. assert (t * (t * dx - dy) <= 0) by nra. lra.
  - destruct (soon_and _ _ (soon_lt 1 ltac:(lra)) (soon_and _ _ (soon_pos (det a b z * (1 # 2)) (- dy) ltac:(lra)) (soon_pos (det a b z * (1 # 2)) dx ltac:(lra)))) as (d & D & K).
    exists d. split; [exact D|]. intros t T1 T2. destruct (K t T1 T2) as (K0 & K1 & K2).
    qcase (det a b (nudge z t)) 0; [exfalso|reflexivity]. rewrite E in L0.
    assert (t * (t * dx) + det a b z * (1 # 2) > 0). { destruct (Qlt_le_dec dx 0) as [X|X]; [assert (t * dx <= t * (t * dx)) by nra; lra|assert (0 <= t * (t * dx)) by (apply Qmult_le_0_compat; [lra|apply Qmult_le_0_compat; lra]); lra]. }
    lra.
Qed.
Lemma soon_crossing z a b : soon (fun t => crossing (nudge z t) a b == crossing z a b).
Proof.
  assert (S := soon_and _ _ (soon_row z a) (soon_row z b)).
  destruct (Qlt_le_dec (vy a) (vy b)) as [H|H]; [|destruct (Qlt_le_dec (vy b) (vy a)) as [H'|H']].
  - refine (soon_imp _ _ _ (soon_and _ _ S (soon_side z a b H))). intros t _ [[Ra Rb] K].
    unfold crossing. rewrite (row_same _ _ _ _ Ra eq_refl), (row_same _ _ _ _ Rb eq_refl), K.
    qcase (vy a) (vy z); qcase (vy b) (vy z); try reflexivity. exfalso. lra.
  - refine (soon_imp _ _ _ (soon_and _ _ S (soon_side z b a H'))). intros t _ [[Ra Rb] K].
    unfold crossing. rewrite (row_same _ _ _ _ Ra eq_refl), (row_same _ _ _ _ Rb eq_refl), K.
    qcase (vy a) (vy z); qcase (vy b) (vy z); try reflexivity. exfalso. lra.
  - refine (soon_imp _ _ _ S). intros t _ [Ra Rb].
    unfold crossing. rewrite (row_same _ _ _ _ Ra eq_refl), (row_same _ _ _ _ Rb eq_refl).
    qcase (vy a) (vy z); qcase (vy b) (vy z); try reflexivity; exfalso; lra.
Qed.
Lemma nudged z es : exists z', winding z' es == winding z es /\
  forall e, In e es -> ~ vy (fst e) == vy z' /\ ~ vy (snd e) == vy z'.
Proof.
  assert (S : soon (fun t => forall e, In e es -> crossing (nudge z t) (fst e) (snd e) == crossing z (fst e) (snd e) /\
    ~ vy (fst e) == vy (nudge z t) /\ ~ vy (snd e) == vy (nudge z t))).
  { apply soon_all. intros [a b] _. cbn [fst snd].
    apply (soon_imp (fun t => (crossing (nudge z t) a b == crossing z a b) /\
      (vy a <= vy z /\ vy a < vy (nudge z t) \/ vy (nudge z t) < vy a /\ vy z < vy a) /\
      (vy b <= vy z /\ vy b < vy (nudge z t) \/ vy (nudge z t) < vy b /\ vy z < vy b))).
    - intros t _ (A & B & C). split; [exact A|]. split; intros X; [destruct B as [[? ?]|[? ?]]|destruct C as [[? ?]|[? ?]]]; lra.
    - apply soon_and; [apply soon_crossing|]. apply soon_and; apply soon_row. }
  destruct (soon_ex _ S) as (t & _ & H). exists (nudge z t). split.
  - apply esum_ext. intros a b I. apply (H (a, b) I).
  - intros e I. apply (H e I).
Qed.

(* ---------- the sides hit by the half line ---------- *)
Lemma least {A} (k : A -> Q) l : l <> [] -> exists x, In x l /\ forall y, In y l -> k x <= k y.
Proof.
  induction l as [|a l IH]; [congruence|]. intros _. destruct l as [|b l].
  - exists a. split; [left; reflexivity|]. intros y [<-|[]]. lra.
  - destruct (IH ltac:(discriminate)) as (x & I & M). destruct (Qlt_le_dec (k a) (k x)) as [H|H].
    + exists a. split; [left; reflexivity|]. intros y [<-|J]; [lra|]. specialize (M y J). lra.
    + exists x. split; [right; exact I|]. intros y [<-|J]; [exact H|apply M; exact J].
Qed.
(* where the row of z crosses the side *)
Definition param (z : vec2) (e : vec2 * vec2) : Q := (vy z - vy (fst e)) / (vy (snd e) - vy (fst e)).
Definition cut_at (z : vec2) (e : vec2 * vec2) : vec2 := on_seg (fst e) (snd e) (param z e).
Definition spans (z : vec2) (e : vec2 * vec2) : Prop :=
  vy (fst e) < vy z < vy (snd e) \/ vy (snd e) < vy z < vy (fst e).
Lemma param_inner z e : spans z e -> 0 < param z e < 1.
Proof.
  unfold spans, param. set (a := vy (fst e)). set (b := vy (snd e)). intros [[H1 H2]|[H1 H2]].
  - split; [apply Qlt_shift_div_l|apply Qlt_shift_div_r]; lra.
  - assert (E : (vy z - a) / (b - a) == (a - vy z) / (a - b)) by (field; lra). rewrite E.
    split; [apply Qlt_shift_div_l|apply Qlt_shift_div_r]; lra.
Qed.
Lemma cut_row z e : spans z e -> vy (cut_at z e) == vy z.
Proof.
  intros H. unfold cut_at, on_seg, param. cbn [vy]. field. destruct H as [[? ?]|[? ?]]; lra.
Qed.
Lemma det_row_x a b p q : vy p == vy q -> det a b p - det a b q == (vy b - vy a) * (vx q - vx p).
Proof. intros E. unfold det. rewrite E. ring. Qed.
Lemma det_cut z e p : spans z e -> vy p == vy z -> det (fst e) (snd e) p == (vy (snd e) - vy (fst e)) * (vx (cut_at z e) - vx p).
Proof.
  intros H E. assert (C := cut_row z e H).
  assert (Z : det (fst e) (snd e) (cut_at z e) == 0) by apply det_on.
  rewrite <- (det_row_x (fst e) (snd e) p (cut_at z e)) by (rewrite C; exact E). lra.
Qed.
(* the crossing number on the row: +1 / -1 for points left of the cut *)
Definition dir (e : vec2 * vec2) : Q := if Qle_bool (vy (snd e)) (vy (fst e)) then - (1) else 1.
Lemma crossing_row z e p : spans z e -> vy p == vy z ->
  crossing p (fst e) (snd e) == if Qle_bool (vx (cut_at z e)) (vx p) then 0 else dir e.
Proof.
  intros H E. assert (D := det_cut z e p H E). assert (D' := det_swap (fst e) (snd e) p).
  unfold crossing, dir. set (X := vx (cut_at z e)) in *. destruct H as [[H1 H2]|[H1 H2]].
  - qcase (vy (fst e)) (vy p); [|exfalso; lra]. qcase (vy (snd e)) (vy p); [exfalso; lra|]. qcase (vy (snd e)) (vy (fst e)); [exfalso; lra|].
    qcase (det (fst e) (snd e) p) 0; qcase X (vx p); try reflexivity; exfalso; nra.
  - qcase (vy (fst e)) (vy p); [exfalso; lra|]. qcase (vy (snd e)) (vy p); [|exfalso; lra]. qcase (vy (snd e)) (vy (fst e)); [|exfalso; lra].
    qcase (det (snd e) (fst e) p) 0; qcase X (vx p); try reflexivity; exfalso; nra.
Qed.
Lemma crossing_off z e p : ~ spans z e -> ~ vy (fst e) == vy z -> ~ vy (snd e) == vy z -> vy p == vy z -> crossing p (fst e) (snd e) == 0.
Proof.
  intros N A B E. unfold crossing. qcase (vy (fst e)) (vy p); qcase (vy (snd e)) (vy p); try reflexivity; exfalso; apply N; unfold spans.
  - left. split; lra.
  - right. split; lra.
Qed.
Lemma spans_dec z e : {spans z e} + {~ spans z e}.
Proof.
  unfold spans. destruct (Qlt_le_dec (vy (fst e)) (vy z)), (Qlt_le_dec (vy z) (vy (snd e))), (Qlt_le_dec (vy (snd e)) (vy z)), (Qlt_le_dec (vy z) (vy (fst e)));
    first [left; left; split; assumption | left; right; split; assumption | right; intros [[? ?]|[? ?]]; lra].
Qed.
Definition hit (z : vec2) (e : vec2 * vec2) : bool :=
  if spans_dec z e then negb (Qle_bool (vx (cut_at z e)) (vx z)) else false.
Lemma hit_true z e : hit z e = true <-> spans z e /\ vx z < vx (cut_at z e).
Proof.
  unfold hit. destruct (spans_dec z e) as [H|H]; [|split; [discriminate|tauto]].
  qcase (vx (cut_at z e)) (vx z); cbn [negb]; split; try discriminate; try tauto. intros [_ K]. exfalso. lra.
Qed.

Lemma cross_any z es p g : (forall e, In e es -> ~ vy (fst e) == vy z /\ ~ vy (snd e) == vy z) -> In g es -> vy p == vy z ->
  crossing p (fst g) (snd g) ==
  if spans_dec z g then if Qle_bool (vx (cut_at z g)) (vx p) then 0 else dir g else 0.
Proof.
  intros GEN I E. destruct (spans_dec z g) as [S|S]; [apply crossing_row; assumption|].
  destruct (GEN g I). apply (crossing_off z); assumption.
Qed.

Section Row.
Variables (l : list vec2) (z : vec2).
Hypothesis SP : simple_polygon l.
Let es := ring_edges l.
Hypothesis GEN : forall e, In e es -> ~ vy (fst e) == vy z /\ ~ vy (snd e) == vy z.
(* different sides cross the row at different points *)
Lemma cuts_differ e f : In e es -> In f es -> e <> f -> spans z e -> spans z f -> ~ vx (cut_at z e) == vx (cut_at z f).
Proof.
  intros I J N Se Sf E. destruct SP as (_ & _ & M).
  assert (Pe := param_inner z e Se). assert (Pf := param_inner z f Sf).
  destruct (M e f (param z e) (param z f) I J N ltac:(lra) ltac:(lra)) as [[H|H] _]; try lra.
  split; [exact E|]. change (vy (cut_at z e) == vy (cut_at z f)). rewrite !cut_row by assumption. reflexivity.
Qed.
Lemma esum_zero (w : vec2 -> vec2 -> Q) m : (forall a b, In (a, b) m -> w a b == 0) -> esum w m == 0.
Proof. induction m as [|[a b] m IH]; intros H; cbn [esum]; [reflexivity|]. rewrite (H a b) by (left; reflexivity). rewrite IH; [ring|]. intros. apply H. right. assumption. Qed.
(* the first side taken out of the sum *)
Lemma sum_first f : In f es -> exists rest, Permutation es (f :: rest) /\ forall g, In g rest -> In g es /\ g <> f.
Proof.
  intros I. destruct f as [u v]. destruct (side_first u v l (proj1 SP) I) as (l1 & l2 & x & r & E & E2).
  assert (SP' : simple_polygon (u :: v :: x :: r)) by (rewrite <- E2; apply simple_turn; rewrite <- E; exact SP).
  assert (P : Permutation es ((u, v) :: path_edges v ((x :: r) ++ [u]))).
  { unfold es. rewrite E, ring_turn_app, E2. reflexivity. }
  exists (path_edges v ((x :: r) ++ [u])). split; [exact P|]. intros g J. split.
  - apply (Permutation_in _ (Permutation_sym P)). right. exact J.
  - intros Eg. exact (rest_other u v x r SP' g J (eq_sym Eg)).
Qed.
Lemma winding_cut K f : level l K -> In f es -> spans z f -> winding (cut_at z f) es + turned (fst f) (snd f) == K.
Proof. intros LV I S. apply level_sides; try assumption. apply param_inner, S. Qed.
Definition cross_at p g := cross_any z es p g GEN.
(* the nearest side hit *)
Lemma nearest K : level l K -> filter (hit z) es <> [] -> winding z es == K \/ winding z es == K - 1.
Proof.
  intros LV NE. destruct (least (fun e => vx (cut_at z e)) _ NE) as (f & I & M). apply filter_In in I. destruct I as [I H].
  apply hit_true in H. destruct H as [S X]. assert (W := winding_cut K f LV I S).
  destruct (sum_first f I) as (rest & P & R).
  assert (E : esum (crossing z) rest == esum (crossing (cut_at z f)) rest).
  { apply esum_ext. intros a b J. destruct (R _ J) as [J1 J2].
    assert (C1 := cross_at z (a, b) J1 ltac:(reflexivity)). assert (C2 := cross_at (cut_at z f) (a, b) J1 (cut_row z f S)).
    cbn [fst snd] in C1, C2. rewrite C1, C2. destruct (spans_dec z (a, b)) as [S'|S']; [|reflexivity].
    qcase (vx (cut_at z (a, b))) (vx z); qcase (vx (cut_at z (a, b))) (vx (cut_at z f)); try reflexivity; exfalso; [lra|].
    assert (G := M (a, b) ltac:(apply filter_In; split; [exact J1|apply hit_true; split; [exact S'|lra]])). cbn beta in G.
    apply (cuts_differ f (a, b) I J1 (fun h => J2 (eq_sym h)) S S'). lra. }
  unfold winding in *. rewrite (esum_perm (crossing (cut_at z f)) _ _ P) in W. rewrite (esum_perm (crossing z) _ _ P). destruct f as [u v]. cbn [esum fst snd] in *.
  rewrite E. assert (C := cross_at z (u, v) I ltac:(reflexivity)). assert (C0 : crossing (cut_at z (u, v)) u v == 0) by (apply crossing_on, det_on).
  cbn [fst snd] in C. rewrite C. destruct (spans_dec z (u, v)) as [_|N]; [|contradiction].
  qcase (vx (cut_at z (u, v))) (vx z); [exfalso; lra|]. unfold dir, turned in *. cbn [fst snd] in *.
  destruct S as [[S1 S2]|[S1 S2]]; cbn [fst snd] in *.
  - qcase (vy v) (vy u); [exfalso; lra|]. rewrite E1 in W. left. lra.
  - qcase (vy v) (vy u); [|exfalso; lra]. rewrite E1 in W. qcase (vy u) (vy v); [exfalso; lra|]. rewrite E2 in W. right. lra.
Qed.
(* the last side hit *)
Lemma farthest K : level l K -> filter (hit z) es <> [] -> K == 0 \/ K == 1.
Proof.
  intros LV NE. destruct (least (fun e => - vx (cut_at z e)) _ NE) as (f & I & M). apply filter_In in I. destruct I as [I H].
  apply hit_true in H. destruct H as [S X]. assert (W := winding_cut K f LV I S).
  assert (Z : winding (cut_at z f) es == 0).
  { apply esum_zero. intros a b J. assert (C := cross_at (cut_at z f) (a, b) J (cut_row z f S)). cbn [fst snd] in C. rewrite C.
    destruct (spans_dec z (a, b)) as [S'|S']; [|reflexivity]. qcase (vx (cut_at z (a, b))) (vx (cut_at z f)); [reflexivity|exfalso].
    assert (G := M (a, b) ltac:(apply filter_In; split; [exact J|apply hit_true; split; [exact S'|lra]])). cbn beta in G. lra. }
  rewrite Z in W. unfold turned in W.
  destruct (Qle_bool (vy (snd f)) (vy (fst f))), (Qle_bool (vy (fst f)) (vy (snd f))), (Qle_bool (vx (fst f)) (vx (snd f))); lra.
Qed.
Lemma no_hit : filter (hit z) es = [] -> winding z es == 0.
Proof.
  intros F. apply esum_zero. intros a b J. assert (C := cross_at z (a, b) J ltac:(reflexivity)). cbn [fst snd] in C. rewrite C.
  destruct (spans_dec z (a, b)) as [S|S]; [|reflexivity]. qcase (vx (cut_at z (a, b))) (vx z); [reflexivity|exfalso].
  assert (G : In (a, b) (filter (hit z) es)) by (apply filter_In; split; [exact J|apply hit_true; split; assumption]). rewrite F in G. destruct G.
Qed.
End Row.

Lemma two_values l K z : simple_polygon l -> level l K ->
  winding z (ring_edges l) == 0 \/ ((K == 0 \/ K == 1) /\ (winding z (ring_edges l) == K \/ winding z (ring_edges l) == K - 1)).
Proof.
  intros SP LV. destruct (nudged z (ring_edges l)) as (z' & E & G).
  destruct (filter (hit z') (ring_edges l)) as [|h t] eqn:F.
  - left. rewrite <- E. exact (no_hit l z' G F).
  - right. assert (NE : filter (hit z') (ring_edges l) <> []) by (rewrite F; discriminate).
    split; [exact (farthest l z' SP G K LV NE)|]. rewrite <- E. exact (nearest l z' SP G K LV NE).
Qed.
