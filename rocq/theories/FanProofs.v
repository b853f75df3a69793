(* The elements around a vertex of a conforming mesh without overlaps form one fan. *)
From Coq Require Import Lia Lqa Relations.
From Verif Require Import Base Chain GeomModel GeomSpec AdvanceModel MeshModel MeshSpec QRefineSpec CleanSpec WindSpec.
From Verif Require Import MeshProofs MeshCheck GlueProofs FrontProofs ClearSpec ClearGeom ClearEnd.
Open Scope Q_scope.

(* ---- finite reachability ---- *)
Lemma saturate {A} (dec : forall x y : A, {x = y} + {x <> y}) (R : A -> A -> bool) (ts : list A) t0 : In t0 ts ->
  exists S, In t0 S /\ incl S ts /\
    (forall t, In t S -> clos_refl_trans A (fun x y => In x ts /\ In y ts /\ R x y = true) t0 t) /\
    (forall t g, In t S -> In g ts -> R t g = true -> In g S).
Proof.
  intros I0. set (RR := fun x y => In x ts /\ In y ts /\ R x y = true).
  assert (G : forall n S, NoDup S -> (length ts - length S <= n)%nat -> In t0 S -> incl S ts -> (forall t, In t S -> clos_refl_trans A RR t0 t) ->
    exists S', In t0 S' /\ incl S' ts /\ (forall t, In t S' -> clos_refl_trans A RR t0 t) /\ (forall t g, In t S' -> In g ts -> R t g = true -> In g S')).
  { induction n as [|n IH]; intros S ND L I J C.
    - exists S. split; [exact I|]. split; [exact J|]. split; [exact C|]. intros t g It Ig _.
      assert (IT : incl ts S) by (apply NoDup_length_incl; [exact ND|lia|exact J]). apply IT, Ig.
    - destruct (existsb (fun t => existsb (fun g => R t g && negb (if in_dec dec g S then true else false)) ts) S) eqn:E.
      + apply existsb_exists in E. destruct E as (t & It & E). apply existsb_exists in E. destruct E as (g & Ig & E).
        apply andb_true_iff in E. destruct E as [E1 E2]. destruct (in_dec dec g S) as [K|K]; [discriminate|].
        assert (ND' : NoDup (g :: S)) by (constructor; assumption).
        assert (J' : incl (g :: S) ts) by (intros z [<-|Z]; [exact Ig|apply J, Z]).
        apply (IH (g :: S)).
        * exact ND'.
        * assert (Q := NoDup_incl_length ND' J'). cbn [length] in Q |- *. lia.
        * right. exact I.
        * exact J'.
        * intros z [<-|Z]; [|apply C, Z]. eapply rt_trans; [apply (C t It)|]. apply rt_step. split; [apply J, It|]. split; assumption.
      + exists S. split; [exact I|]. split; [exact J|]. split; [exact C|]. intros t g It Ig Rg.
        destruct (in_dec dec g S) as [K|K]; [exact K|exfalso].
        assert (E' : existsb (fun t => existsb (fun g => R t g && negb (if in_dec dec g S then true else false)) ts) S = true); [|congruence].
        apply existsb_exists. exists t. split; [exact It|]. apply existsb_exists. exists g. split; [exact Ig|]. rewrite Rg.
        destruct (in_dec dec g S); [contradiction|reflexivity]. }
  apply (G (length ts) [t0]).
  - constructor; [intros []|constructor].
  - cbn. lia.
  - left. reflexivity.
  - intros z [<-|[]]. exact I0.
  - intros z [<-|[]]. apply rt_refl.
Qed.

(* ---- a smallest element ---- *)
Lemma smallest {A} (r : A -> Q) (l : list A) (P : A -> Prop) (dec : forall a, In a l -> {P a} + {~ P a}) : (exists a, In a l /\ P a) ->
  exists a, In a l /\ P a /\ forall b, In b l -> P b -> r a <= r b.
Proof.
  revert dec. induction l as [|x l IH]; intros dec (a & I & Pa); [destruct I|].
  assert (dec' : forall b, In b l -> {P b} + {~ P b}) by (intros b Ib; apply dec; right; exact Ib).
  assert (D : {exists b, In b l /\ P b} + {~ exists b, In b l /\ P b}).
  { clear - dec'. induction l as [|y l IH]; [right; intros (b & [] & _)|].
    destruct (dec' y (or_introl eq_refl)) as [Y|N]; [left; exists y; split; [left; reflexivity|exact Y]|].
    destruct IH as [K|K]; [intros b Ib; apply dec'; right; exact Ib|left|right].
    - destruct K as (b & Ib & Pb). exists b. split; [right; exact Ib|exact Pb].
    - intros (b & [<-|Ib] & Pb); [contradiction|]. apply K. exists b. split; assumption. }
  destruct (dec x (or_introl eq_refl)) as [Px|Nx].
  - destruct D as [D|D].
    + destruct (IH dec' D) as (m & Im & Pm & M). destruct (Qlt_le_dec (r m) (r x)) as [L|L].
      * exists m. split; [right; exact Im|]. split; [exact Pm|]. intros b [<-|Ib] Pb; [lra|apply M; assumption].
      * exists x. split; [left; reflexivity|]. split; [exact Px|]. intros b [<-|Ib] Pb; [lra|]. specialize (M b Ib Pb). lra.
    + exists x. split; [left; reflexivity|]. split; [exact Px|]. intros b [<-|Ib] Pb; [lra|]. exfalso. apply D. exists b. split; assumption.
  - destruct I as [<-|I]; [contradiction|]. destruct (IH dec' (ex_intro _ a (conj I Pa))) as (m & Im & Pm & M).
    exists m. split; [right; exact Im|]. split; [exact Pm|]. intros b [<-|Ib] Pb; [contradiction|apply M; assumption].
Qed.

(* ---- directions around a point: counter-clockwise steps that never end go all the way round ---- *)
(* cross product of x and y as seen from v, and the component along d - v *)
Definition dot (v d x : vec2) : Q := (vx d - vx v) * (vx x - vx v) + (vy d - vy v) * (vy x - vy v).

Lemma cone_step v d x y : 0 < det v x y -> det v d x <= 0 -> 0 < det v d y -> 0 <= det v x d /\ 0 < det v d y.
Proof. intros A B C. split; [|exact C]. assert (E : det v x d == - det v d x) by (unfold det; ring). lra. Qed.

(* the slope decreases with every step on either side of the line through v and d *)
Lemma slope_step v d x y : ~ veq v d -> 0 < det v x y -> 0 < det v d x * det v d y ->
  dot v d y / det v d y < dot v d x / det v d x.
Proof.
  intros N A B.
  assert (NX : ~ det v d x == 0) by (intros E; rewrite E in B; lra). assert (NY : ~ det v d y == 0) by (intros E; rewrite E in B; lra).
  assert (E : dot v d x * det v d y - det v d x * dot v d y == vnorm2 (vsub d v) * det v x y).
  { unfold dot, det, vnorm2, vdot, vsub. cbn [vx vy]. ring. }
  assert (P := norm_pos v d N). assert (Q0 : 0 < dot v d x * det v d y - det v d x * dot v d y) by (rewrite E; apply Qmult_lt_0_compat; assumption).
  assert (K : dot v d x / det v d x - dot v d y / det v d y == (dot v d x * det v d y - det v d x * dot v d y) * / (det v d x * det v d y)) by (field; split; assumption).
  assert (R : 0 < dot v d x / det v d x - dot v d y / det v d y).
  { rewrite K. apply Qmult_lt_0_compat; [exact Q0|apply Qinv_lt_0_compat; exact B]. }
  lra.
Qed.

Section Round.
Context {A : Type}.
Variables (v d : vec2) (S : list A) (fx fy : A -> vec2).
Hypothesis NE : ~ veq v d.
Hypothesis ANY : exists t, In t S.
Hypothesis CONE : forall t, In t S -> 0 < det v (fx t) (fy t).
Hypothesis NEXT : forall t, In t S -> exists u, In u S /\ fx u = fy t.

(* a point on the line through v and d *)
Lemma on_line_det x y : det v d x == 0 -> ~ veq v d -> 0 < det v x y -> 0 < dot v d x * det v d y.
Proof.
  intros E N A0. assert (P := norm_pos v d N).
  assert (K : dot v d x * det v d y - det v d x * dot v d y == vnorm2 (vsub d v) * det v x y) by (unfold dot, det, vnorm2, vdot, vsub; cbn [vx vy]; ring).
  assert (K' : dot v d x * det v d y == vnorm2 (vsub d v) * det v x y) by (rewrite <- K, E; ring). rewrite K'. apply Qmult_lt_0_compat; assumption.
Qed.
Lemma before_line x y : det v d y == 0 -> 0 < det v x y -> ~ veq v d -> 0 < - (det v d x * dot v d y).
Proof.
  intros E A0 N. assert (P := norm_pos v d N).
  assert (K : dot v d x * det v d y - det v d x * dot v d y == vnorm2 (vsub d v) * det v x y) by (unfold dot, det, vnorm2, vdot, vsub; cbn [vx vy]; ring).
  assert (K' : - (det v d x * dot v d y) == vnorm2 (vsub d v) * det v x y) by (rewrite <- K, E; ring). rewrite K'. apply Qmult_lt_0_compat; assumption.
Qed.

Lemma no_descent (P : A -> Prop) (dec : forall a, In a S -> {P a} + {~ P a}) : (exists a, In a S /\ P a) ->
  (forall t, In t S -> P t -> exists u, In u S /\ fx u = fy t /\ P u /\ 0 < det v d (fx t) * det v d (fx u)) -> False.
Proof.
  intros EX CL. destruct (smallest (fun t => dot v d (fx t) / det v d (fx t)) S P dec EX) as (a & Ia & Pa & M).
  destruct (CL a Ia Pa) as (u & Iu & E & Pu & SG). specialize (M u Iu Pu). cbn beta in M.
  assert (ST := slope_step v d (fx a) (fx u) NE). assert (C := CONE a Ia). rewrite <- E in C. specialize (ST C SG). lra.
Qed.

Theorem all_around : exists t, In t S /\ 0 <= det v (fx t) d /\ 0 < det v d (fy t).
Proof.
  destruct (existsb (fun t => Qle_bool (det v d (fx t)) 0 && negb (Qle_bool (det v d (fy t)) 0)) S) eqn:E.
  - apply existsb_exists in E. destruct E as (t & It & E). apply andb_true_iff in E. destruct E as [E1 E2]. apply Qle_bool_iff in E1.
    apply negb_true_iff in E2. exists t. split; [exact It|]. apply cone_step with (x := fx t); [apply CONE, It|exact E1|].
    destruct (Qlt_le_dec 0 (det v d (fy t))) as [L|L]; [exact L|]. apply Qle_bool_iff in L. congruence.
  - exfalso.
    assert (CL : forall t, In t S -> det v d (fx t) <= 0 -> det v d (fy t) <= 0).
    { intros t It L. destruct (Qlt_le_dec 0 (det v d (fy t))) as [G|G]; [|exact G]. exfalso.
      assert (E' : existsb (fun t => Qle_bool (det v d (fx t)) 0 && negb (Qle_bool (det v d (fy t)) 0)) S = true); [|congruence].
      apply existsb_exists. exists t. split; [exact It|]. rewrite (proj2 (Qle_bool_iff _ _) L). cbn [andb]. apply negb_true_iff.
      destruct (Qle_bool (det v d (fy t)) 0) eqn:Q0; [|reflexivity]. apply Qle_bool_iff in Q0. lra. }
    assert (STRICT : forall t, In t S -> det v d (fx t) <= 0 -> exists u, In u S /\ fx u = fy t /\ det v d (fx u) < 0).
    { intros t It L. destruct (NEXT t It) as (u & Iu & Eu). exists u. split; [exact Iu|]. split; [exact Eu|].
      assert (Lu := CL t It L). rewrite <- Eu in Lu. destruct (Qlt_le_dec (det v d (fx u)) 0) as [G|G]; [exact G|exfalso].
      assert (Z : det v d (fx u) == 0) by lra. assert (Ct := CONE t It). rewrite <- Eu in Ct.
      assert (B := before_line (fx t) (fx u) Z Ct NE). assert (F := on_line_det (fx u) (fy u) Z NE (CONE u Iu)). assert (Lv := CL u Iu Lu).
      clear - B F Lv L. assert (D1 : 0 < dot v d (fx u) \/ dot v d (fx u) <= 0) by (destruct (Qlt_le_dec 0 (dot v d (fx u))); auto). nra. }
    destruct ANY as (t0 & I0). destruct (Qlt_le_dec 0 (det v d (fx t0))) as [G|G].
    + destruct (existsb (fun t => Qle_bool (det v d (fx t)) 0) S) eqn:X.
      * apply existsb_exists in X. destruct X as (t & It & X). apply Qle_bool_iff in X. destruct (STRICT t It X) as (u & Iu & _ & Lu).
        apply (no_descent (fun t => det v d (fx t) < 0)).
        -- intros a _. destruct (Qlt_le_dec (det v d (fx a)) 0); [left; assumption|right; lra].
        -- exists u. split; assumption.
        -- intros a Ia La. destruct (STRICT a Ia) as (b & Ib & Eb & Lb); [lra|]. exists b. split; [exact Ib|]. split; [exact Eb|]. split; [exact Lb|]. clear - La Lb. nra.
      * assert (ALL : forall t, In t S -> 0 < det v d (fx t)).
        { intros t It. destruct (Qlt_le_dec 0 (det v d (fx t))) as [L|L]; [exact L|exfalso].
          assert (X' : existsb (fun t => Qle_bool (det v d (fx t)) 0) S = true); [|congruence]. apply existsb_exists. exists t. split; [exact It|apply Qle_bool_iff; exact L]. }
        apply (no_descent (fun _ => True)); [left; exact I|exists t0; split; [exact I0|exact I]|].
        intros a Ia _. destruct (NEXT a Ia) as (b & Ib & Eb). exists b. split; [exact Ib|]. split; [exact Eb|]. split; [exact I|].
        apply Qmult_lt_0_compat; apply ALL; assumption.
    + destruct (STRICT t0 I0 G) as (u & Iu & _ & Lu).
      apply (no_descent (fun t => det v d (fx t) < 0)).
      * intros a _. destruct (Qlt_le_dec (det v d (fx a)) 0); [left; assumption|right; lra].
      * exists u. split; assumption.
      * intros a Ia La. destruct (STRICT a Ia) as (b & Ib & Eb & Lb); [lra|]. exists b. split; [exact Ib|]. split; [exact Eb|]. split; [exact Lb|]. clear - La Lb. nra.
Qed.
End Round.

(* ---- the corner of an element ---- *)
Definition out_of (v : nat) (f : facet) : nat := match find (fun p => Nat.eqb (fst p) v) (sides f) with Some p => snd p | None => v end.
Definition into (v : nat) (f : facet) : nat := match find (fun p => Nat.eqb (snd p) v) (sides f) with Some p => fst p | None => v end.
Lemma out_spec v f : In v (corners (fa_sh f)) -> In (v, out_of v f) (sides f).
Proof.
  intros I. unfold out_of. destruct (find (fun p => Nat.eqb (fst p) v) (sides f)) as [[a b]|] eqn:E.
  - apply find_some in E. destruct E as [E1 E2]. apply Nat.eqb_eq in E2. cbn in *. subst. exact E1.
  - exfalso. assert (N := find_none _ _ E). assert (K : exists b, In (v, b) (sides f)).
    { unfold sides. destruct (fa_sh f); cbn [corners ring_edges path_edges app] in *; cbn in I |- *; repeat (destruct I as [<-|I]; [eexists; eauto 10|]); destruct I. }
    destruct K as [b K]. specialize (N _ K). cbn in N. apply Nat.eqb_neq in N. apply N. reflexivity.
Qed.
Lemma into_spec v f : In v (corners (fa_sh f)) -> In (into v f, v) (sides f).
Proof.
  intros I. unfold into. destruct (find (fun p => Nat.eqb (snd p) v) (sides f)) as [[a b]|] eqn:E.
  - apply find_some in E. destruct E as [E1 E2]. apply Nat.eqb_eq in E2. cbn in *. subst. exact E1.
  - exfalso. assert (N := find_none _ _ E). assert (K : exists b, In (b, v) (sides f)).
    { unfold sides. destruct (fa_sh f); cbn [corners ring_edges path_edges app] in *; cbn in I |- *; repeat (destruct I as [<-|I]; [eexists; eauto 10|]); destruct I. }
    destruct K as [b K]. specialize (N _ K). cbn in N. apply Nat.eqb_neq in N. apply N. reflexivity.
Qed.
Lemma out_unique v f b : NoDup (corners (fa_sh f)) -> In (v, b) (sides f) -> b = out_of v f.
Proof.
  intros ND I. assert (J : In (v, out_of v f) (sides f)) by (apply out_spec, (MeshProofs.side_corners f v b I)). revert I J. generalize (out_of v f). intros c.
  unfold sides. destruct (fa_sh f); cbn [corners ring_edges path_edges app] in *; repeat match goal with H : NoDup (_ :: _) |- _ => apply NoDup_cons_iff in H; destruct H end;
    cbn in *; intros I J; repeat match goal with H : _ \/ _ |- _ => destruct H as [H|H] end; try contradiction; congruence || (exfalso; intuition congruence).
Qed.

Lemma strictly_det pos f : strictly_convex pos f ->
  match fa_sh f with
  | Tri3 a b c => 0 < det (pos a) (pos b) (pos c)
  | Quad4 a b c d => 0 < det (pos a) (pos b) (pos c) /\ 0 < det (pos b) (pos c) (pos d) /\
                     0 < det (pos c) (pos d) (pos a) /\ 0 < det (pos d) (pos a) (pos b)
  end.
Proof. unfold strictly_convex. destruct (fa_sh f); rewrite ?GeomProofs.area2_det; auto. Qed.

Lemma convex_inside pos f z : strictly_convex pos f -> (forall a b, In (a, b) (sides f) -> 0 < det (pos a) (pos b) z) -> inside_shape pos (fa_sh f) z.
Proof.
  intros S H. apply strictly_det in S. unfold sides in H. destruct (fa_sh f) as [a b c|a b c d]; cbn [corners ring_edges path_edges app inside_shape] in *.
  - repeat split; apply H; cbn; auto.
  - destruct S as (S1 & S2 & S3 & S4). left. split; [split; [exact S1|]|].
    + assert (E : det (pos a) (pos c) (pos d) == det (pos c) (pos d) (pos a)) by (unfold det; ring). lra.
    + assert (A := H a b). assert (B := H b c). assert (C := H c d). assert (D := H d a).
      specialize (A (or_introl eq_refl)). specialize (B (or_intror (or_introl eq_refl))). specialize (C (or_intror (or_intror (or_introl eq_refl)))).
      specialize (D (or_intror (or_intror (or_intror (or_introl eq_refl))))). unfold within4, within, on_diagonal.
      assert (E : det (pos c) (pos a) z == - det (pos a) (pos c) z) by (unfold det; ring).
      destruct (Q_dec (det (pos a) (pos c) z) 0) as [[L|L]|L]; [left|right; left|right; right]; repeat split; lra.
Qed.

(* no side of a convex element passes v except the two that end there *)
Lemma other_side pos f v a b : strictly_convex pos f -> NoDup (corners (fa_sh f)) -> In v (corners (fa_sh f)) -> In (a, b) (sides f) -> a <> v -> b <> v ->
  0 < det (pos a) (pos b) (pos v).
Proof.
  intros S ND I J Na Nb. apply strictly_det in S. unfold sides in J.
  destruct (fa_sh f) as [p q r|p q r s]; cbn [corners ring_edges path_edges app] in *; repeat match goal with H : NoDup (_ :: _) |- _ => clear H end; cbn in I, J.
  - assert (E1 : det (pos q) (pos r) (pos p) == det (pos p) (pos q) (pos r)) by (unfold det; ring).
    assert (E2 : det (pos r) (pos p) (pos q) == det (pos p) (pos q) (pos r)) by (unfold det; ring).
    destruct J as [J|[J|[J|[]]]]; injection J as <- <-; destruct I as [I|[I|[I|[]]]]; subst; try congruence; lra.
  - destruct S as (S1 & S2 & S3 & S4).
    assert (E1 : det (pos q) (pos r) (pos p) == det (pos p) (pos q) (pos r)) by (unfold det; ring).
    assert (E2 : det (pos r) (pos s) (pos q) == det (pos q) (pos r) (pos s)) by (unfold det; ring).
    assert (E3 : det (pos s) (pos p) (pos r) == det (pos r) (pos s) (pos p)) by (unfold det; ring).
    assert (E4 : det (pos p) (pos q) (pos s) == det (pos s) (pos p) (pos q)) by (unfold det; ring).
    destruct J as [J|[J|[J|[J|[]]]]]; injection J as <- <-; destruct I as [I|[I|[I|[I|[]]]]]; subst; try congruence; lra.
Qed.

Lemma corner_turn pos f v : strictly_convex pos f -> NoDup (corners (fa_sh f)) -> In v (corners (fa_sh f)) ->
  0 < det (pos v) (pos (out_of v f)) (pos (into v f)).
Proof.
  intros S ND I. assert (O := out_spec v f I). assert (N := into_spec v f I). revert O N. generalize (out_of v f), (into v f). intros x y O N.
  apply strictly_det in S. unfold sides in O, N.
  destruct (fa_sh f) as [p q r|p q r s]; cbn [corners ring_edges path_edges app] in *.
  - repeat match goal with H : NoDup (_ :: _) |- _ => apply NoDup_cons_iff in H; destruct H end. cbn in *.
    assert (E1 : det (pos q) (pos r) (pos p) == det (pos p) (pos q) (pos r)) by (unfold det; ring).
    assert (E2 : det (pos r) (pos p) (pos q) == det (pos p) (pos q) (pos r)) by (unfold det; ring).
    destruct O as [O|[O|[O|[]]]]; injection O as <- <-; destruct N as [N|[N|[N|[]]]]; injection N; clear N; intros; subst; try (exfalso; intuition congruence); lra.
  - repeat match goal with H : NoDup (_ :: _) |- _ => apply NoDup_cons_iff in H; destruct H end. cbn in *. destruct S as (S1 & S2 & S3 & S4).
    assert (E1 : det (pos p) (pos q) (pos s) == det (pos s) (pos p) (pos q)) by (unfold det; ring).
    assert (E2 : det (pos q) (pos r) (pos p) == det (pos p) (pos q) (pos r)) by (unfold det; ring).
    assert (E3 : det (pos r) (pos s) (pos q) == det (pos q) (pos r) (pos s)) by (unfold det; ring).
    assert (E4 : det (pos s) (pos p) (pos r) == det (pos r) (pos s) (pos p)) by (unfold det; ring).
    destruct O as [O|[O|[O|[O|[]]]]]; injection O as <- <-; destruct N as [N|[N|[N|[N|[]]]]]; injection N; clear N; intros; subst; try (exfalso; intuition congruence); lra.
Qed.

Lemma small_steps (l : list (Q * Q)) : (forall p, In p l -> 0 < fst p) ->
  exists e, 0 < e /\ e <= 1 /\ forall p x, In p l -> 0 < x -> x <= e -> 0 < fst p + x * snd p.
Proof.
  induction l as [|[a b] l IH]; intros H; [exists 1; split; [lra|]; split; [lra|]; intros p x []|].
  destruct IH as (e & E1 & E2 & E3); [intros p I; apply H; right; exact I|].
  destruct (small_step a b (H _ (or_introl eq_refl))) as (e' & F1 & F2 & F3).
  destruct (Qlt_le_dec e e') as [L|L].
  - exists e. split; [exact E1|]. split; [exact E2|]. intros p x [<-|I] X1 X2; [apply F3; lra|apply E3; assumption].
  - exists e'. split; [exact F1|]. split; [exact F2|]. intros p x [<-|I] X1 X2; [apply F3; lra|apply E3; [assumption|assumption|lra]].
Qed.

(* a direction strictly between the two sides at v leads into the element *)
Lemma cone_inside pos f v d : strictly_convex pos f -> NoDup (corners (fa_sh f)) -> In v (corners (fa_sh f)) ->
  0 < det (pos v) (pos (out_of v f)) d -> 0 < det (pos v) d (pos (into v f)) ->
  exists e, 0 < e /\ e <= 1 /\ forall h, 0 < h -> h <= e -> inside_shape pos (fa_sh f) (on_seg (pos v) d h).
Proof.
  intros S ND I A B.
  set (rest := filter (fun p => negb (Nat.eqb (fst p) v) && negb (Nat.eqb (snd p) v)) (sides f)).
  destruct (small_steps (map (fun p => (det (pos (fst p)) (pos (snd p)) (pos v), det (pos (fst p)) (pos (snd p)) d - det (pos (fst p)) (pos (snd p)) (pos v))) rest)) as (e & E1 & E2 & E3).
  - intros p K. apply in_map_iff in K. destruct K as ([a b] & <- & K). cbn [fst snd]. apply filter_In in K. destruct K as [K1 K2]. cbn [fst snd] in K2.
    apply andb_true_iff in K2. destruct K2 as [K2 K3]. apply negb_true_iff, Nat.eqb_neq in K2. apply negb_true_iff, Nat.eqb_neq in K3.
    apply (other_side pos f v a b); assumption.
  - exists e. split; [exact E1|]. split; [exact E2|]. intros h H1 H2. apply convex_inside; [exact S|]. intros a b K. rewrite det_mix.
    destruct (Nat.eq_dec a v) as [->|Na]; [|destruct (Nat.eq_dec b v) as [->|Nb]].
    + rewrite (out_unique v f b ND K). assert (Z : det (pos v) (pos (out_of v f)) (pos v) == 0) by (unfold det; ring). rewrite Z.
      assert (P := Qmult_lt_0_compat _ _ H1 A). lra.
    + assert (EA : a = into v f).
      { clear - ND K I. assert (J := into_spec v f I). revert K J. generalize (into v f). intros c. unfold sides.
        destruct (fa_sh f); cbn [corners ring_edges path_edges app] in *; repeat match goal with H : NoDup (_ :: _) |- _ => apply NoDup_cons_iff in H; destruct H end;
        cbn in *; intros K J; repeat match goal with H : _ \/ _ |- _ => destruct H as [H|H] end; try contradiction; congruence || (exfalso; intuition congruence). }
      rewrite EA. assert (Z : det (pos (into v f)) (pos v) (pos v) == 0) by (unfold det; ring). rewrite Z.
      assert (Y : det (pos (into v f)) (pos v) d == det (pos v) d (pos (into v f))) by (unfold det; ring). rewrite Y. assert (P := Qmult_lt_0_compat _ _ H1 B). lra.
    + assert (K' : In (a, b) rest).
      { apply filter_In. split; [exact K|]. cbn [fst snd]. apply Nat.eqb_neq in Na. apply Nat.eqb_neq in Nb. rewrite Na, Nb. reflexivity. }
      specialize (E3 _ h (in_map (fun p => (det (pos (fst p)) (pos (snd p)) (pos v), det (pos (fst p)) (pos (snd p)) d - det (pos (fst p)) (pos (snd p)) (pos v))) _ _ K') H1 H2). cbn [fst snd] in E3. lra.
Qed.

Lemma facet_dec (f g : facet) : {f = g} + {f <> g}.
Proof.
  destruct f as [i s c a], g as [j t d b]. destruct (Nat.eq_dec i j); [|right; congruence]. destruct (Z.eq_dec c d); [|right; congruence].
  destruct (Bool.bool_dec a b); [|right; congruence]. assert (D : {s = t} + {s <> t}) by (decide equality; apply Nat.eq_dec).
  destruct D; [left|right]; congruence.
Qed.

(* two elements whose cones share a direction overlap *)
Lemma cones_overlap pos f g v d : strictly_convex pos f -> NoDup (corners (fa_sh f)) -> In v (corners (fa_sh f)) ->
  strictly_convex pos g -> NoDup (corners (fa_sh g)) -> In v (corners (fa_sh g)) ->
  0 <= det (pos v) (pos (out_of v f)) d -> 0 < det (pos v) d (pos (into v f)) ->
  0 < det (pos v) (pos (out_of v g)) d -> 0 < det (pos v) d (pos (into v g)) ->
  exists z, inside_shape pos (fa_sh f) z /\ inside_shape pos (fa_sh g) z.
Proof.
  intros SF NF IF SG NG IG A B C D.
  (* move d towards the interior of the cone of f *)
  set (y := pos (into v f)). assert (T := corner_turn pos f v SF NF IF). fold y in T.
  destruct (small_steps [(det (pos v) d y, det (pos v) y y - det (pos v) d y);
    (det (pos v) (pos (out_of v g)) d, det (pos v) (pos (out_of v g)) y - det (pos v) (pos (out_of v g)) d);
    (det (pos v) d (pos (into v g)), det (pos v) y (pos (into v g)) - det (pos v) d (pos (into v g)))]) as (e & E1 & E2 & E3).
  { intros p [<-|[<-|[<-|[]]]]; cbn [fst]; assumption. }
  assert (F1 := E3 _ e (or_introl eq_refl) E1 ltac:(lra)). assert (F2 := E3 _ e (or_intror (or_introl eq_refl)) E1 ltac:(lra)).
  assert (F3 := E3 _ e (or_intror (or_intror (or_introl eq_refl))) E1 ltac:(lra)). cbn [fst snd] in F1, F2, F3. clear E3.
  set (d' := on_seg d y e).
  assert (MIX : forall p q, det p d' q == (1 - e) * det p d q + e * det p y q) by (intros p q; unfold d', det, on_seg; cbn [vx vy]; ring).
  destruct (cone_inside pos f v d' SF NF IF) as (h1 & P1 & P2 & P3).
  - unfold d'. rewrite det_mix. assert (Q0 := Qmult_lt_0_compat _ _ E1 T). assert (Q1 : 0 <= (1 - e) * det (pos v) (pos (out_of v f)) d) by (apply Qmult_le_0_compat; lra). lra.
  - fold y. rewrite MIX. lra.
  - destruct (cone_inside pos g v d' SG NG IG) as (h2 & R1 & R2 & R3).
    + unfold d'. rewrite det_mix. lra.
    + rewrite MIX. lra.
    + destruct (Qlt_le_dec h1 h2) as [L|L].
      * exists (on_seg (pos v) d' h1). split; [apply P3; lra|apply R3; lra].
      * exists (on_seg (pos v) d' h2). split; [apply P3; lra|apply R3; lra].
Qed.

(* ---- fans ---- *)
Theorem fans_of m : conforming m -> (forall f, In f (facets m) -> strictly_convex (mh_pos m) f) ->
  (forall f g z, In f (facets m) -> In g (facets m) -> inside_shape (mh_pos m) (fa_sh f) z -> inside_shape (mh_pos m) (fa_sh g) z -> f = g) ->
  (forall e e', In e (mh_bdry m) -> In e' (mh_bdry m) -> ed_2 e = ed_2 e' -> e = e') -> fans m.
Proof.
  intros C CV AP ONE v f g If Ig Vf Vg.
  set (ts := filter (fun h => if in_dec Nat.eq_dec v (corners (fa_sh h)) then true else false) (facets m)).
  assert (TS : forall h, In h ts <-> In h (facets m) /\ In v (corners (fa_sh h))).
  { intros h. unfold ts. rewrite filter_In. destruct (in_dec Nat.eq_dec v (corners (fa_sh h))); intuition congruence. }
  set (R := fun t u => memb (v, into v t) (sides u)).
  assert (STEP : forall t u, In t ts /\ In u ts /\ R t u = true -> meet_at m v t u).
  { intros t u (It & Iu & E). apply memb_in in E. apply TS in It. apply TS in Iu. split; [apply It|]. split; [apply Iu|].
    exists (into v t), v. split; [apply into_spec, It|]. split; [exact E|]. right. reflexivity. }
  assert (CLOS : forall t u, clos_refl_trans facet (fun x y => In x ts /\ In y ts /\ R x y = true) t u -> clos_refl_trans facet (meet_at m v) t u).
  { intros t u H. induction H; [apply rt_step, STEP; assumption|apply rt_refl|eapply rt_trans; eassumption]. }
  (* either the set around an element ends at a boundary edge or it contains all elements at v *)
  assert (MAIN : forall a b, In a ts -> In b ts -> clos_refl_trans facet (meet_at m v) a b \/
    exists t e, clos_refl_trans facet (meet_at m v) a t /\ In t ts /\ In e (mh_bdry m) /\ ed_1 e = into v t /\ ed_2 e = v).
  { intros a b Ia Ib. destruct (saturate facet_dec R ts a Ia) as (S & S1 & S2 & S3 & S4).
    destruct (existsb (fun t => negb (memb (v, into v t) (all_sides m))) S) eqn:X.
    - right. apply existsb_exists in X. destruct X as (t & It & X). apply negb_true_iff in X.
      assert (NI : ~ In (v, into v t) (all_sides m)) by (intros K; apply memb_in in K; congruence).
      assert (Tt := S2 t It). apply TS in Tt. destruct Tt as [T1 T2].
      assert (IS : In (into v t, v) (all_sides m)) by (apply in_flat_map; exists t; split; [exact T1|apply into_spec, T2]).
      destruct (cf_cover _ C _ _ IS) as (e & Ie & De). exists t, e. split; [apply CLOS, S3, It|]. split; [apply S2, It|].
      apply in_app_or in Ie. destruct Ie as [Ie|Ie].
      + exfalso. destruct (cf_intr _ C e Ie) as [K1 K2]. destruct De as [[E1 E2]|[E1 E2]]; rewrite E1, E2 in *; contradiction.
      + split; [exact Ie|]. destruct De as [De|[E1 E2]]; [exact De|]. exfalso. destruct (cf_bdry _ C e Ie) as [K1 _]. rewrite E1, E2 in K1. contradiction.
    - left. assert (CL : forall t, In t S -> exists u, In u S /\ out_of v u = into v t).
      { intros t It. assert (Tt := S2 t It). apply TS in Tt. destruct Tt as [T1 T2].
        assert (K : In (v, into v t) (all_sides m)).
        { apply memb_in. destruct (memb (v, into v t) (all_sides m)) eqn:Q0; [reflexivity|exfalso].
          assert (X' : existsb (fun t => negb (memb (v, into v t) (all_sides m))) S = true); [|congruence]. apply existsb_exists. exists t. split; [exact It|]. rewrite Q0. reflexivity. }
        apply in_flat_map in K. destruct K as (u & Iu & K). exists u.
        assert (Vu := proj1 (MeshProofs.side_corners u _ _ K)). split.
        - apply (S4 t u It); [apply TS; split; assumption|apply memb_in; exact K].
        - symmetry. apply out_unique; [apply (cf_corners _ C), Iu|exact K]. }
      assert (Tb := proj1 (TS b) Ib). destruct Tb as [B1 B2].
      assert (CB := corner_turn (mh_pos m) b v (CV b B1) (cf_corners _ C b B1) B2).
      (* a direction strictly between the sides of b *)
      set (d := vscale (1 # 2) (vadd (mh_pos m (out_of v b)) (mh_pos m (into v b)))).
      set (P := mh_pos m) in *.
      assert (D1 : 0 < det (P v) (P (out_of v b)) d) by (assert (E : det (P v) (P (out_of v b)) d == (1 # 2) * det (P v) (P (out_of v b)) (P (into v b))) by (unfold d, det; cbn [vscale vadd vx vy]; ring); rewrite E; lra).
      assert (D2 : 0 < det (P v) d (P (into v b))) by (assert (E : det (P v) d (P (into v b)) == (1 # 2) * det (P v) (P (out_of v b)) (P (into v b))) by (unfold d, det; cbn [vscale vadd vx vy]; ring); rewrite E; lra).
      destruct (all_around (P v) d S (fun t => P (out_of v t)) (fun t => P (into v t))) as (t & It & A1 & A2).
      + intros [E1 E2]. assert (Z : det (P v) (P (out_of v b)) d == 0) by (unfold det; rewrite <- E1, <- E2; ring). lra.
      + exists a. exact S1.
      + intros t It. assert (Tt := S2 t It). apply TS in Tt. destruct Tt as [T1 T2]. apply corner_turn; [apply CV, T1|apply (cf_corners _ C), T1|exact T2].
      + intros t It. destruct (CL t It) as (u & Iu & E). exists u. split; [exact Iu|rewrite E; reflexivity].
      + assert (Tt := S2 t It). apply TS in Tt. destruct Tt as [T1 T2].
        destruct (cones_overlap P t b v d (CV t T1) (cf_corners _ C t T1) T2 (CV b B1) (cf_corners _ C b B1) B2 A1 A2 D1 D2) as (z & Z1 & Z2).
        rewrite <- (AP t b z T1 B1 Z1 Z2). apply CLOS, S3, It. }
  assert (Tf : In f ts) by (apply TS; split; assumption). assert (Tg : In g ts) by (apply TS; split; assumption).
  destruct (MAIN f g Tf Tg) as [K|(t & e & K1 & K2 & K3 & K4 & K5)]; [exact K|].
  destruct (MAIN g f Tg Tf) as [L|(u & e' & L1 & L2 & L3 & L4 & L5)]; [apply fan_sym, L|].
  assert (E : e = e') by (apply ONE; congruence). subst e'. assert (EI : into v t = into v u) by congruence.
  apply TS in K2. apply TS in L2. destruct K2 as [M1 M2], L2 as [N1 N2].
  assert (TU : t = u) by (apply (side_owner m t u (into v t, v) C M1 N1); [apply into_spec, M2|rewrite EI; apply into_spec, N2]).
  subst u. eapply rt_trans; [exact K1|apply fan_sym, L1].
Qed.
