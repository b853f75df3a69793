(* Two closed polygons without common points: each is inside or outside of the other
   as a whole; proofs for ClearProps. *)
From Coq Require Import Lqa Lia Permutation.
From Verif Require Import Base Chain GeomModel GeomSpec GeomProofs WindSpec WindProofs PolyCorner PolySpec PolyProofs ClearSpec ClearGeom ClearWind.
Open Scope Q_scope.

Lemma separate_sym es fs : separate es fs -> separate fs es.
Proof. intros S e f s t I J A B E. apply (S f e t s J I B A). apply veq_sym, E. Qed.

(* ---- the winding number around the points of a polygon ---- *)
Lemma part_disjoint a b c d s : disjoint a b c d -> 0 <= s <= 1 -> disjoint a (on_seg a b s) c d.
Proof.
  intros D S k t K T E. apply (D (k * s) t); [|exact T|].
  - split; [apply Qmult_le_0_compat; lra|]. assert (0 <= (1 - k) * s) by (apply Qmult_le_0_compat; lra). lra.
  - refine (veq_trans _ _ _ _ E). unfold veq, on_seg. cbn [vx vy]. split; ring.
Qed.
Lemma edge_same fs a b s : balanced fs -> separate [(a, b)] fs -> 0 <= s <= 1 -> winding (on_seg a b s) fs == winding a fs.
Proof.
  intros B S T. symmetry. apply moved_same; [exact B|]. intros e I. apply part_disjoint; [|exact T].
  intros k t K T'. apply (S (a, b) e k t (or_introl eq_refl) I K T').
Qed.
Lemma path_same fs l : forall a, balanced fs -> separate (path_edges a l) fs -> forall e s, In e (path_edges a l) -> 0 <= s <= 1 ->
  winding (on_seg (fst e) (snd e) s) fs == winding a fs.
Proof.
  induction l as [|b l IH]; intros a B S e s I T; [destruct I|]. cbn [path_edges] in *.
  assert (S1 : separate [(a, b)] fs) by (intros x f p q [<-|[]]; apply S; left; reflexivity).
  destruct I as [<-|I]; [apply edge_same; assumption|].
  rewrite (IH b B (fun x f p q J => S x f p q (or_intror J)) e s I T). rewrite <- (edge_same fs a b 1 B S1) by lra.
  apply winding_point, veq_sym, on_seg_1. reflexivity.
Qed.
Lemma ring_same fs l e f s t : balanced fs -> separate (ring_edges l) fs -> In e (ring_edges l) -> In f (ring_edges l) -> 0 <= s <= 1 -> 0 <= t <= 1 ->
  winding (on_seg (fst e) (snd e) s) fs == winding (on_seg (fst f) (snd f) t) fs.
Proof.
  intros B S I J Hs Ht. destruct l as [|a l]; [destruct I|]. cbn [ring_edges] in *.
  rewrite (path_same fs _ a B S e s I Hs), (path_same fs _ a B S f t J Ht). reflexivity.
Qed.

(* ---- not each inside of the other ---- *)
Lemma crossing_beyond p a b : vx a <= vx p -> vx b <= vx p -> crossing p a b == 0.
Proof.
  intros A B. unfold crossing. qcase (vy a) (vy p); qcase (vy b) (vy p); try reflexivity.
  - qcase (det a b p) 0; [reflexivity|exfalso]. 
    assert (X : 0 <= (vy b - vy p) * (vx p - vx a)) by (apply Qmult_le_0_compat; lra).
    assert (Y : 0 <= (vy p - vy a) * (vx p - vx b)) by (apply Qmult_le_0_compat; lra).
    assert (Z : det a b p == - ((vy b - vy p) * (vx p - vx a)) - (vy p - vy a) * (vx p - vx b)) by (unfold det; ring). lra.
  - qcase (det b a p) 0; [reflexivity|exfalso].
    assert (X : 0 <= (vy a - vy p) * (vx p - vx b)) by (apply Qmult_le_0_compat; lra).
    assert (Y : 0 <= (vy p - vy b) * (vx p - vx a)) by (apply Qmult_le_0_compat; lra).
    assert (Z : det b a p == - ((vy a - vy p) * (vx p - vx b)) - (vy p - vy b) * (vx p - vx a)) by (unfold det; ring). lra.
Qed.
Lemma one_outside es fs : es <> [] -> fs <> [] -> balanced es -> balanced fs ->
  (exists e, In e es /\ (winding (fst e) fs == 0 \/ winding (snd e) fs == 0)) \/ (exists f, In f fs /\ (winding (fst f) es == 0 \/ winding (snd f) es == 0)).
Proof.
  intros NE NF _ _. 
  destruct (least (fun e : vec2 * vec2 => - vx (fst e)) es NE) as (e1 & I1 & M1). destruct (least (fun e : vec2 * vec2 => - vx (snd e)) es NE) as (e2 & I2 & M2).
  destruct (least (fun e : vec2 * vec2 => - vx (fst e)) fs NF) as (f1 & J1 & N1). destruct (least (fun e : vec2 * vec2 => - vx (snd e)) fs NF) as (f2 & J2 & N2).
  cbv beta in *.
  assert (Z : forall p gs, (forall g, In g gs -> vx (fst g) <= vx p /\ vx (snd g) <= vx p) -> winding p gs == 0).
  { intros p gs H. apply esum_zero. intros a b I. destruct (H (a, b) I). apply crossing_beyond; assumption. }
  assert (ME : exists e, In e es /\ ((forall g, In g es -> vx (fst g) <= vx (fst e) /\ vx (snd g) <= vx (fst e)) \/ (forall g, In g es -> vx (fst g) <= vx (snd e) /\ vx (snd g) <= vx (snd e)))).
  { destruct (Qlt_le_dec (vx (fst e1)) (vx (snd e2))); [exists e2; split; [exact I2|right]|exists e1; split; [exact I1|left]]; intros g Ig; specialize (M1 g Ig); specialize (M2 g Ig); lra. }
  assert (MF : exists e, In e fs /\ ((forall g, In g fs -> vx (fst g) <= vx (fst e) /\ vx (snd g) <= vx (fst e)) \/ (forall g, In g fs -> vx (fst g) <= vx (snd e) /\ vx (snd g) <= vx (snd e)))).
  { destruct (Qlt_le_dec (vx (fst f1)) (vx (snd f2))); [exists f2; split; [exact J2|right]|exists f1; split; [exact J1|left]]; intros g Ig; specialize (N1 g Ig); specialize (N2 g Ig); lra. }
  clear I1 I2 J1 J2 M1 M2 N1 N2. destruct ME as (e & I & ME), MF as (f & J & MF).
  assert (E : exists p, (p = fst e \/ p = snd e) /\ forall g, In g es -> vx (fst g) <= vx p /\ vx (snd g) <= vx p) by (destruct ME; [exists (fst e)|exists (snd e)]; tauto).
  assert (F : exists p, (p = fst f \/ p = snd f) /\ forall g, In g fs -> vx (fst g) <= vx p /\ vx (snd g) <= vx p) by (destruct MF; [exists (fst f)|exists (snd f)]; tauto).
  clear ME MF. destruct E as (p & P & MP), F as (q & Q & MQ). destruct (Qlt_le_dec (vx p) (vx q)).
  - right. exists f. split; [exact J|]. assert (W : winding q es == 0) by (apply Z; intros g Ig; specialize (MP g Ig); lra). destruct Q; subst q; tauto.
  - left. exists e. split; [exact I|]. assert (W : winding p fs == 0) by (apply Z; intros g Ig; specialize (MQ g Ig); lra). destruct P; subst p; tauto.
Qed.

(* ---- the first of two polygons on a ray ---- *)
Lemma nudged_each z es : exists z', (forall e, In e es -> crossing z' (fst e) (snd e) == crossing z (fst e) (snd e)) /\
  forall e, In e es -> ~ vy (fst e) == vy z' /\ ~ vy (snd e) == vy z'.
Proof.
  assert (S : soon (fun t => forall e, In e es -> crossing (nudge z t) (fst e) (snd e) == crossing z (fst e) (snd e) /\
    ~ vy (fst e) == vy (nudge z t) /\ ~ vy (snd e) == vy (nudge z t))).
  { apply soon_all. intros [a b] _. cbn [fst snd].
    apply (soon_imp (fun t => (crossing (nudge z t) a b == crossing z a b) /\
      (vy a <= vy z /\ vy a < vy (nudge z t) \/ vy (nudge z t) < vy a /\ vy z < vy a) /\
      (vy b <= vy z /\ vy b < vy (nudge z t) \/ vy (nudge z t) < vy b /\ vy z < vy b))).
    - intros t _ (H & Ha & Hb). split; [exact H|]. split; [destruct Ha as [[? ?]|[? ?]]|destruct Hb as [[? ?]|[? ?]]]; intros E; lra.
    - apply soon_and; [apply soon_crossing|]. apply soon_and; apply soon_row. }
  destruct (soon_ex _ S) as (t & _ & H). exists (nudge z t). split; intros e I; apply (H e I).
Qed.
Lemma winding_each z z' es : (forall e, In e es -> crossing z' (fst e) (snd e) == crossing z (fst e) (snd e)) -> winding z' es == winding z es.
Proof. intros H. apply esum_ext. intros a b I. apply (H (a, b) I). Qed.
Lemma no_hit' es z : (forall e, In e es -> ~ vy (fst e) == vy z /\ ~ vy (snd e) == vy z) -> filter (hit z) es = [] -> winding z es == 0.
Proof.
  intros GEN F. apply esum_zero. intros a b J. assert (C := cross_any z es z (a, b) GEN J ltac:(reflexivity)). cbn [fst snd] in C. rewrite C.
  destruct (spans_dec z (a, b)) as [S|S]; [|reflexivity]. qcase (vx (cut_at z (a, b))) (vx z); [reflexivity|exfalso].
  assert (G : In (a, b) (filter (hit z) es)) by (apply filter_In; split; [exact J|apply hit_true; split; assumption]). rewrite F in G. destruct G.
Qed.
Lemma first_hit es fs z : separate es fs -> ~ winding z es == 0 ->
  (exists e s, In e es /\ 0 <= s <= 1 /\ winding z fs == winding (on_seg (fst e) (snd e) s) fs) \/
  (exists f s, In f fs /\ 0 <= s <= 1 /\ winding z es == winding (on_seg (fst f) (snd f) s) es).
Proof.
  intros SEP NZ. destruct (nudged_each z (es ++ fs)) as (z' & SAME & GEN).
  assert (We : winding z' es == winding z es) by (apply winding_each; intros e I; apply SAME, in_or_app; left; exact I).
  assert (Wf : winding z' fs == winding z fs) by (apply winding_each; intros e I; apply SAME, in_or_app; right; exact I).
  assert (Ge : forall e, In e es -> ~ vy (fst e) == vy z' /\ ~ vy (snd e) == vy z') by (intros e I; apply GEN, in_or_app; left; exact I).
  assert (Gf : forall e, In e fs -> ~ vy (fst e) == vy z' /\ ~ vy (snd e) == vy z') by (intros e I; apply GEN, in_or_app; right; exact I).
  assert (NE : filter (hit z') (es ++ fs) <> []).
  { intros F. apply NZ. rewrite <- We. apply no_hit'; [exact Ge|]. rewrite filter_app in F. apply app_eq_nil in F. apply F. }
  destruct (least (fun e => vx (cut_at z' e)) _ NE) as (h & I & M). apply filter_In in I. destruct I as [I H]. apply hit_true in H. destruct H as [S X].
  assert (ROW : forall gs, (forall e, In e gs -> ~ vy (fst e) == vy z' /\ ~ vy (snd e) == vy z') -> (forall g, In g gs -> In g (es ++ fs)) ->
    (forall g s t, In g gs -> 0 <= s <= 1 -> 0 <= t <= 1 -> ~ veq (on_seg (fst h) (snd h) s) (on_seg (fst g) (snd g) t)) ->
    winding z' gs == winding (cut_at z' h) gs).
  { intros gs G SUB D. apply esum_ext. intros a b J. assert (C1 := cross_any z' gs z' (a, b) G J ltac:(reflexivity)).
    assert (C2 := cross_any z' gs (cut_at z' h) (a, b) G J (cut_row z' h S)). cbn [fst snd] in C1, C2. rewrite C1, C2. clear C1 C2.
    destruct (spans_dec z' (a, b)) as [Sg|Sg]; [|reflexivity].
    assert (NC : ~ vx (cut_at z' h) == vx (cut_at z' (a, b))).
    { intros E. assert (Ph := param_inner z' h S). assert (Pg := param_inner z' (a, b) Sg).
      apply (D (a, b) (param z' h) (param z' (a, b)) J); [lra|lra|]. split; [exact E|].
      change (vy (cut_at z' h) == vy (cut_at z' (a, b))). rewrite !cut_row by assumption. reflexivity. }
    qcase (vx (cut_at z' (a, b))) (vx z'); qcase (vx (cut_at z' (a, b))) (vx (cut_at z' h)); try reflexivity; exfalso; [lra|].
    assert (Y : vx (cut_at z' h) <= vx (cut_at z' (a, b))); [|lra].
    apply M. apply filter_In. split; [apply SUB, J|]. apply hit_true. split; assumption. }
  assert (P := param_inner z' h S). apply in_app_or in I. destruct I as [I|I].
  - left. exists h, (param z' h). split; [exact I|]. split; [lra|]. rewrite <- Wf. apply ROW; [exact Gf|intros; apply in_or_app; right; assumption|].
    intros g s t J. apply SEP; assumption.
  - right. exists h, (param z' h). split; [exact I|]. split; [lra|]. rewrite <- We. apply ROW; [exact Ge|intros; apply in_or_app; left; assumption|].
    intros g s t J Hs Ht E. apply (SEP g h t s J I Ht Hs). apply veq_sym, E.
Qed.

(* ---- one polygon inside of another one ---- *)
Lemma on_fst e : veq (on_seg (fst e) (snd e) 0) (fst e).
Proof. apply on_seg_0. reflexivity. Qed.
Lemma on_snd e : veq (on_seg (fst e) (snd e) 1) (snd e).
Proof. apply on_seg_1. reflexivity. Qed.
Lemma ring_point fs l e f s : balanced fs -> separate (ring_edges l) fs -> In e (ring_edges l) -> In f (ring_edges l) -> 0 <= s <= 1 ->
  winding (on_seg (fst e) (snd e) s) fs == winding (fst f) fs /\ winding (fst e) fs == winding (fst f) fs /\ winding (snd e) fs == winding (fst f) fs.
Proof.
  intros B S I J Hs. rewrite <- (winding_point _ _ fs (on_fst f)), <- (winding_point _ _ fs (on_fst e)), <- (winding_point _ _ fs (on_snd e)).
  repeat split; apply (ring_same fs l e f); try assumption; lra.
Qed.
Lemma inner_inside outer inner e z : separate (ring_edges outer) (ring_edges inner) ->
  In e (ring_edges inner) -> ~ winding (fst e) (ring_edges outer) == 0 ->
  ~ winding z (ring_edges inner) == 0 -> winding z (ring_edges outer) == winding (fst e) (ring_edges outer).
Proof.
  intros S I N W. assert (S' := separate_sym _ _ S). assert (BO := ring_balanced outer). assert (BI := ring_balanced inner).
  destruct (first_hit _ _ z S' W) as [(g & s & J & Hs & E)|(g & s & J & Hs & E)].
  - rewrite E. apply (ring_point _ inner g e s); assumption.
  - exfalso. rewrite E in W. destruct (ring_point _ outer g g s BI S J J Hs) as (E1 & _).
    rewrite E1 in W. destruct (one_outside (ring_edges outer) (ring_edges inner)) as [(x & Ix & Wx)|(x & Ix & Wx)].
    + intros Z. rewrite Z in J. destruct J.
    + intros Z. rewrite Z in I. destruct I.
    + exact BO.
    + exact BI.
    + destruct (ring_point _ outer x g 0 BI S Ix J ltac:(lra)) as (_ & X1 & X2). apply W. destruct Wx; lra.
    + destruct (ring_point _ inner x e 0 BO S' Ix I ltac:(lra)) as (_ & X1 & X2). apply N. destruct Wx; lra.
Qed.
Lemma both_outside l m e f z : separate (ring_edges l) (ring_edges m) ->
  In e (ring_edges l) -> winding (fst e) (ring_edges m) == 0 -> In f (ring_edges m) -> winding (fst f) (ring_edges l) == 0 ->
  ~ winding z (ring_edges l) == 0 -> winding z (ring_edges m) == 0.
Proof.
  intros S I N J M W. assert (S' := separate_sym _ _ S). assert (BL := ring_balanced l). assert (BM := ring_balanced m).
  destruct (first_hit _ _ z S W) as [(g & s & K & Hs & E)|(g & s & K & Hs & E)].
  - rewrite E. destruct (ring_point _ l g e s BM S K I Hs) as (X & _). lra.
  - exfalso. apply W. rewrite E. destruct (ring_point _ m g f s BL S' K J Hs) as (X & _). lra.
Qed.
