(* Closed curves that wind around every point at least zero times enclose an area
   that is not negative: the area is summed up over horizontal strips. *)
From Coq Require Import Lqa Lia Permutation.
From Verif Require Import Base Chain GeomSpec WindSpec WindProofs PolyCorner PolyProofs.
Open Scope Q_scope.

(* ---------- weights on a line ---------- *)
Definition beyond (m : Q) (l : list (Q * Q)) : Q := sumQ (map (fun i => if Qle_bool (fst i) m then 0 else snd i) l).
Definition ramp (m : Q) (l : list (Q * Q)) : Q := sumQ (map (fun i => if Qle_bool (fst i) m then 0 else snd i * (fst i - m)) l).
Definition right_of (m : Q) (l : list (Q * Q)) : list (Q * Q) := filter (fun i => negb (Qle_bool (fst i) m)) l.
Lemma ramp_none m l : right_of m l = [] -> ramp m l == 0.
Proof.
  unfold right_of, ramp. induction l as [|i l IH]; [reflexivity|]. cbn [filter map sumQ].
  destruct (Qle_bool (fst i) m); cbn [negb]; [|discriminate]. intros H. rewrite (IH H). ring.
Qed.
Lemma ramp_step m m' l : m < m' -> (forall i, In i (right_of m l) -> m' <= fst i) ->
  ramp m l == ramp m' l + (m' - m) * beyond m l.
Proof.
  unfold right_of, ramp, beyond. intros L. induction l as [|i l IH]; [cbn; intros; ring|]. cbn [filter map sumQ]. intros H.
  assert (I : forall j, In j (filter (fun i0 => negb (Qle_bool (fst i0) m)) l) -> m' <= fst j).
  { intros j J. apply H. destruct (Qle_bool (fst i) m); cbn [negb]; [exact J|right; exact J]. }
  rewrite (IH I). clear IH I. qcase (fst i) m.
  - qcase (fst i) m'; [ring|exfalso; lra].
  - assert (G : m' <= fst i) by (apply H; rewrite E; left; reflexivity).
    qcase (fst i) m'; [|ring]. assert (Z : fst i == m') by lra. rewrite Z. ring.
Qed.
Lemma right_fewer m m' l : m < m' -> (exists i, In i (right_of m l) /\ fst i == m') -> (length (right_of m' l) < length (right_of m l))%nat.
Proof.
  unfold right_of. intros L. induction l as [|i l IH]; [intros (? & [] & _)|]. cbn [filter]. intros (j & J & E).
  assert (MON : (length (filter (fun i0 => negb (Qle_bool (fst i0) m')) l) <= length (filter (fun i0 => negb (Qle_bool (fst i0) m)) l))%nat).
  { clear - L. induction l as [|k l IH]; [apply le_n|]. cbn [filter]. qcase (fst k) m; qcase (fst k) m'; cbn [negb length]; try lia. exfalso. lra. }
  qcase (fst i) m; qcase (fst i) m'; rewrite ?E0, ?E1 in *; cbn [negb length] in *.
  - apply IH. exists j. tauto.
  - exfalso. lra.
  - lia.
  - destruct J as [<-|J]; [exfalso; lra|]. specialize (IH (ex_intro _ j (conj J E))). lia.
Qed.
Lemma ramp_nonneg l m : (forall x, 0 <= beyond x l) -> 0 <= ramp m l.
Proof.
  intros H. remember (length (right_of m l)) as n eqn:N. assert (N' : (length (right_of m l) <= n)%nat) by lia. clear N.
  revert m N'. induction n as [|n IH]; intros m N.
  - rewrite ramp_none; [lra|]. destruct (right_of m l); [reflexivity|cbn in N; lia].
  - destruct (right_of m l) as [|i0 t] eqn:R; [rewrite ramp_none by exact R; lra|].
    assert (NE : right_of m l <> []) by (rewrite R; discriminate). destruct (least fst _ NE) as (i & I & M).
    assert (G : m < fst i). { unfold right_of in I. apply filter_In in I. destruct I as [_ I]. qcase (fst i) m; rewrite E in I; [discriminate|exact L]. }
    rewrite (ramp_step m (fst i) l G M).
    assert (F := right_fewer m (fst i) l G (ex_intro _ i (conj I (Qeq_refl _)))).
    assert (0 <= ramp (fst i) l) by (apply IH; rewrite R in F; lia).
    assert (0 <= (fst i - m) * beyond m l) by (apply Qmult_le_0_compat; [lra|apply H]). lra.
Qed.
(* the moment of weights with total zero *)
Lemma below_all (l : list (Q * Q)) : exists m, forall i, In i l -> m < fst i.
Proof.
  destruct l as [|i l]; [exists 0; intros i []|]. destruct (least fst (i :: l) ltac:(discriminate)) as (j & _ & M).
  exists (fst j - 1). intros k K. specialize (M k K). lra.
Qed.
Lemma moment_nonneg l : (forall x, 0 <= beyond x l) -> sumQ (map snd l) == 0 -> 0 <= sumQ (map (fun i => snd i * fst i) l).
Proof.
  intros H Z. destruct (below_all l) as [m M]. assert (R := ramp_nonneg l m H).
  assert (E : ramp m l == sumQ (map (fun i => snd i * fst i) l) - m * sumQ (map snd l)).
  { clear - M. unfold ramp. induction l as [|i l IH]; [cbn; ring|]. cbn [map sumQ]. rewrite IH by (intros j J; apply M; right; exact J).
    assert (G := M i (or_introl eq_refl)). qcase (fst i) m; [exfalso; lra|]. ring. }
  rewrite E, Z in R. lra.
Qed.

(* ---------- the length of a row ---------- *)
Definition on_row (z : vec2) (e : vec2 * vec2) : Q := if spans_dec z e then dir e * vx (cut_at z e) else 0.
Definition total (f : vec2 * vec2 -> Q) (es : list (vec2 * vec2)) : Q := sumQ (map f es).
Lemma total_ext f g es : (forall e, In e es -> f e == g e) -> total f es == total g es.
Proof. apply sumQ_ext. Qed.
Lemma total_esum w es : esum w es == total (fun e => w (fst e) (snd e)) es.
Proof. unfold total. induction es as [|[a b] es IH]; [reflexivity|]. cbn [esum map sumQ fst snd]. rewrite IH. reflexivity. Qed.
Definition items (z : vec2) (es : list (vec2 * vec2)) : list (Q * Q) :=
  flat_map (fun e => if spans_dec z e then [(vx (cut_at z e), dir e)] else []) es.
Lemma items_sum (g : Q * Q -> Q) z es : sumQ (map g (items z es)) == total (fun e => if spans_dec z e then g (vx (cut_at z e), dir e) else 0) es.
Proof.
  unfold items, total. induction es as [|e es IH]; [reflexivity|]. cbn [flat_map map sumQ]. rewrite map_app, sumQ_app, IH.
  destruct (spans_dec z e); cbn [map sumQ]; ring.
Qed.
Lemma row_nonneg z es : balanced es -> (forall e, In e es -> ~ vy (fst e) == vy z /\ ~ vy (snd e) == vy z) ->
  (forall p, 0 <= winding p es) -> 0 <= total (on_row z) es.
Proof.
  intros B GEN W.
  assert (E : total (on_row z) es == sumQ (map (fun i => snd i * fst i) (items z es))).
  { rewrite items_sum. apply total_ext. intros e _. reflexivity. }
  rewrite E. apply moment_nonneg.
  - intros x. unfold beyond. rewrite items_sum. cbn [fst snd].
    assert (E2 : winding (V2 x (vy z)) es == total (fun e => if spans_dec z e then if Qle_bool (vx (cut_at z e)) x then 0 else dir e else 0) es).
    { unfold winding. rewrite total_esum. apply total_ext. intros e I. exact (cross_any z es (V2 x (vy z)) e GEN I ltac:(reflexivity)). }
    rewrite <- E2. apply W.
  - rewrite items_sum. cbn [snd]. set (f := fun v => if Qle_bool (vy v) (vy z) then 0 else 1).
    rewrite <- (B f), total_esum. apply total_ext. intros e I. destruct (GEN e I) as [A C]. unfold f, dir.
    destruct (spans_dec z e) as [[[S1 S2]|[S1 S2]]|S].
    + qcase (vy (fst e)) (vy z); [|exfalso; lra]. qcase (vy (snd e)) (vy z); [exfalso; lra|]. qcase (vy (snd e)) (vy (fst e)); [exfalso; lra|]. ring.
    + qcase (vy (fst e)) (vy z); [exfalso; lra|]. qcase (vy (snd e)) (vy z); [|exfalso; lra]. qcase (vy (snd e)) (vy (fst e)); [|exfalso; lra]. ring.
    + qcase (vy (fst e)) (vy z); qcase (vy (snd e)) (vy z); try ring; exfalso; apply S; unfold spans; [left|right]; split; lra.
Qed.

(* ---------- strips ---------- *)
(* twice the area to the left of the side below height y *)
Definition absc (a b : vec2) (y : Q) : Q := vx a + (y - vy a) / (vy b - vy a) * (vx b - vx a).
Definition clamp (lo hi y : Q) : Q := if Qle_bool y lo then lo else if Qle_bool hi y then hi else y.
Definition up_prim (a b : vec2) (y : Q) : Q := let c := clamp (vy a) (vy b) y in (vx a + absc a b c) * (c - vy a).
Definition prim (y : Q) (e : vec2 * vec2) : Q :=
  if Qle_bool (vy (snd e)) (vy (fst e))
  then if Qle_bool (vy (fst e)) (vy (snd e)) then 0 else - up_prim (snd e) (fst e) y
  else up_prim (fst e) (snd e) y.
Lemma cut_absc z e : vx (cut_at z e) == absc (fst e) (snd e) (vy z).
Proof. reflexivity. Qed.
Lemma absc_swap a b y : ~ vy a == vy b -> absc a b y == absc b a y.
Proof. intros N. unfold absc. field. split; intros E; apply N; lra. Qed.
Lemma up_strip a b h h' : vy a < vy b -> h < h' -> ~ (h < vy a < h') -> ~ (h < vy b < h') ->
  up_prim a b h' - up_prim a b h == if Qle_bool (vy a) h && Qle_bool h' (vy b) then 2 * (h' - h) * absc a b ((h + h') * (1 # 2)) else 0.
Proof.
  intros AB L NA NB. unfold up_prim, clamp. cbv zeta.
  qcase (vy a) h; qcase h' (vy b); cbn [andb].
  - assert (Z1 : h == vy a -> absc a b h == vx a). { intros E1. unfold absc. rewrite E1. field. lra. }
    qcase h' (vy a); [exfalso; lra|]. qcase h (vy a).
    + qcase (vy b) h'.
      * assert (Eh : h == vy a) by lra. assert (Eh' : h' == vy b) by lra. unfold absc. rewrite Eh, Eh'. field. lra.
      * assert (Eh : h == vy a) by lra. unfold absc. rewrite Eh. field. lra.
    + qcase (vy b) h; [exfalso; lra|]. qcase (vy b) h'.
      * assert (Eh' : h' == vy b) by lra. unfold absc. rewrite Eh'. field. lra.
      * unfold absc. field. lra.
  - qcase h' (vy a); [exfalso; lra|]. qcase (vy b) h'; [|exfalso; lra]. qcase h (vy a); [exfalso; apply NB; lra|].
    qcase (vy b) h; [ring|]. exfalso. apply NB. lra.
  - qcase h (vy a); [|exfalso; lra]. qcase h' (vy a); [ring|]. exfalso. apply NA. lra.
  - exfalso. apply NA. lra.
Qed.
Lemma prim_strip h h' e : h < h' -> ~ (h < vy (fst e) < h') -> ~ (h < vy (snd e) < h') ->
  prim h' e - prim h e == 2 * (h' - h) * on_row (V2 0 ((h + h') * (1 # 2))) e.
Proof.
  intros L NA NB. unfold prim, on_row, dir. set (z := V2 0 ((h + h') * (1 # 2))). assert (Hz : vy z == (h + h') * (1 # 2)) by reflexivity.
  qcase (vy (snd e)) (vy (fst e)).
  - qcase (vy (fst e)) (vy (snd e)).
    + destruct (spans_dec z e) as [[[S1 S2]|[S1 S2]]|S]; [exfalso; lra|exfalso; lra|ring].
    + assert (P := up_strip (snd e) (fst e) h h' L1 L NB NA).
      setoid_replace (- up_prim (snd e) (fst e) h' - - up_prim (snd e) (fst e) h) with (- (up_prim (snd e) (fst e) h' - up_prim (snd e) (fst e) h)) by ring.
      rewrite P. destruct (spans_dec z e) as [S|S].
      * assert (G : vy (snd e) <= h /\ h' <= vy (fst e)).
        { destruct S as [[S1 S2]|[S1 S2]]; [exfalso; lra|]. rewrite Hz in *.
          split; [destruct (Qlt_le_dec h (vy (snd e))) as [X|X]; [exfalso; apply NB; lra|exact X]|destruct (Qlt_le_dec (vy (fst e)) h') as [X|X]; [exfalso; apply NA; lra|exact X]]. }
        destruct G as [G1 G2]. apply Qle_bool_iff in G1. apply Qle_bool_iff in G2. rewrite G1, G2. cbn [andb]. rewrite cut_absc.
        rewrite (absc_swap (fst e) (snd e)) by lra. unfold z. cbn [vy]. ring.
      * qcase (vy (snd e)) h; qcase h' (vy (fst e)); cbn [andb]; try ring. exfalso. apply S. right. rewrite Hz. lra.
  - assert (P := up_strip (fst e) (snd e) h h' L0 L NA NB). rewrite P. destruct (spans_dec z e) as [S|S].
    + assert (G : vy (fst e) <= h /\ h' <= vy (snd e)).
      { destruct S as [[S1 S2]|[S1 S2]]; [|exfalso; lra]. rewrite Hz in *.
        split; [destruct (Qlt_le_dec h (vy (fst e))) as [X|X]; [exfalso; apply NA; lra|exact X]|destruct (Qlt_le_dec (vy (snd e)) h') as [X|X]; [exfalso; apply NB; lra|exact X]]. }
      destruct G as [G1 G2]. apply Qle_bool_iff in G1. apply Qle_bool_iff in G2. rewrite G1, G2. cbn [andb]. rewrite cut_absc.
      unfold z. cbn [vy]. ring.
    + qcase (vy (fst e)) h; qcase h' (vy (snd e)); cbn [andb]; try ring. exfalso. apply S. left. rewrite Hz. lra.
Qed.
Lemma prim_bottom y e : y <= vy (fst e) -> y <= vy (snd e) -> prim y e == 0.
Proof.
  intros H1 H2. unfold prim, up_prim, clamp. cbv zeta. qcase (vy (snd e)) (vy (fst e)).
  - qcase (vy (fst e)) (vy (snd e)); [reflexivity|]. qcase y (vy (snd e)); [ring|exfalso; lra].
  - qcase y (vy (fst e)); [ring|exfalso; lra].
Qed.
Lemma prim_top y e : vy (fst e) <= y -> vy (snd e) <= y -> prim y e == (vx (fst e) + vx (snd e)) * (vy (snd e) - vy (fst e)).
Proof.
  intros H1 H2. unfold prim, up_prim, clamp, absc. cbv zeta. qcase (vy (snd e)) (vy (fst e)).
  - qcase (vy (fst e)) (vy (snd e)); [assert (Z : vy (fst e) == vy (snd e)) by lra; rewrite Z; ring|].
    qcase y (vy (snd e)); [exfalso; lra|]. qcase (vy (fst e)) y; [|exfalso; lra]. field. lra.
  - qcase y (vy (fst e)); [exfalso; lra|]. qcase (vy (snd e)) y; [|exfalso; lra]. field. lra.
Qed.

(* ---------- heights in ascending order ---------- *)
Fixpoint gaps (P : Q -> Q -> Prop) (h : Q) (l : list Q) : Prop :=
  match l with [] => True | h' :: l' => P h h' /\ gaps P h' l' end.
Lemma gaps_imp (P R : Q -> Q -> Prop) h l : (forall x y, P x y -> R x y) -> gaps P h l -> gaps R h l.
Proof. intros H. revert h. induction l as [|h' l IH]; intros h; cbn; [tauto|]. intros [A B]. split; [apply H; exact A|apply IH; exact B]. Qed.
Lemma gaps_and P R h l : gaps P h l -> gaps R h l -> gaps (fun x y => P x y /\ R x y) h l.
Proof. revert h. induction l as [|h' l IH]; intros h; cbn; [tauto|]. intros [A B] [C D]. split; [tauto|apply IH; assumption]. Qed.
Lemma gaps_all {A} (P : A -> Q -> Q -> Prop) (m : list A) h l : (forall a, In a m -> gaps (P a) h l) -> gaps (fun x y => forall a, In a m -> P a x y) h l.
Proof.
  revert h. induction l as [|h' l IH]; intros h H; cbn; [exact I|]. split.
  - intros a I. apply (H a I).
  - apply IH. intros a I. apply (H a I).
Qed.
Definition occurs (y : Q) (l : list Q) : Prop := exists h, In h l /\ h == y.
Lemma gaps_lower h l k : gaps Qlt h l -> In k l -> h < k.
Proof. revert h. induction l as [|h' l IH]; intros h; cbn; [tauto|]. intros [A B] [<-|I]; [exact A|]. specialize (IH _ B I). lra. Qed.
Lemma last_upper h l k : gaps Qlt h l -> In k (h :: l) -> k <= last l h.
Proof.
  revert h k. induction l as [|h' l IH]; intros h k; [cbn; intros _ [<-|[]]; lra|]. intros [A B] I.
  assert (E : last (h' :: l) h = last l h'). { clear. revert h h'. induction l as [|x l IH]; intros h h'; [reflexivity|]. change (last (h' :: x :: l) h) with (last (x :: l) h). rewrite !(IH _ x). reflexivity. }
  rewrite E. destruct I as [<-|I]; [|apply IH; assumption]. specialize (IH h' h' B (or_introl eq_refl)). lra.
Qed.
Lemma gaps_empty y h l : gaps Qlt h l -> occurs y (h :: l) -> gaps (fun x x' => ~ (x < y < x')) h l.
Proof.
  revert h. induction l as [|h' l IH]; intros h; [cbn; tauto|]. intros [A B] (k & I & E). split.
  - intros [X1 X2]. destruct I as [<-|[<-|I]]; [lra|lra|]. assert (G := gaps_lower _ _ _ B I). lra.
  - destruct I as [<-|I].
    + (* y below *) clear - A B E. assert (Y : y < h') by lra. clear A E h. revert h' Y B. induction l as [|g l IH]; intros h' Y; cbn; [tauto|].
      intros [C D]. split; [intros [X1 X2]; lra|]. apply IH; [lra|exact D].
    + apply IH; [exact B|]. exists k. tauto.
Qed.
Lemma insert_height y h l : gaps Qlt h l -> exists h2 l2, gaps Qlt h2 l2 /\ occurs y (h2 :: l2) /\ (forall k, In k (h :: l) -> In k (h2 :: l2)) /\ (h2 = h \/ h2 = y /\ y < h).
Proof.
  revert h. induction l as [|h' l IH]; intros h.
  - intros _. destruct (Q_dec y h) as [[H|H]|H].
    + exists y, [h]. cbn. repeat split; try tauto. exists y. cbn. split; [tauto|reflexivity].
    + exists h, [y]. cbn. repeat split; try tauto. exists y. cbn. split; [tauto|reflexivity].
    + exists h, []. cbn. repeat split; try tauto. exists h. cbn. split; [tauto|]. symmetry. exact H.
  - intros [A B]. destruct (Q_dec y h) as [[H|H]|H].
    + exists y, (h :: h' :: l). repeat split; try assumption; try tauto; [exists y; split; [left; reflexivity|reflexivity]|intros k K; right; exact K].
    + destruct (IH h' B) as (h2 & l2 & G & O & S & F). exists h, (h2 :: l2). repeat split; try assumption.
      * destruct F as [->|[-> _]]; assumption.
      * destruct O as (k & K & E). exists k. split; [right; exact K|exact E].
      * intros k [<-|K]; [left; reflexivity|right; apply S; exact K].
      * tauto.
    + exists h, (h' :: l). repeat split; try assumption; try tauto. exists h. split; [left; reflexivity|symmetry; exact H].
Qed.
Lemma all_heights ys : exists h l, gaps Qlt h l /\ forall y, In y ys -> occurs y (h :: l).
Proof.
  induction ys as [|y ys IH]; [exists 0, []; split; [exact I|intros y []]|]. destruct IH as (h & l & G & H).
  destruct (insert_height y h l G) as (h2 & l2 & G2 & O & S & _). exists h2, l2. split; [exact G2|].
  intros y' [<-|I]; [exact O|]. destruct (H y' I) as (k & K & E). exists k. split; [apply S; exact K|exact E].
Qed.
Lemma climb (T : Q -> Q) h l : gaps (fun x y => T x <= T y) h l -> T h <= T (last l h).
Proof.
  revert h. induction l as [|h' l IH]; intros h; [cbn; intros _; lra|]. intros [A B].
  assert (E : last (h' :: l) h = last l h'). { clear. revert h h'. induction l as [|x l IH]; intros h h'; [reflexivity|]. change (last (h' :: x :: l) h) with (last (x :: l) h). rewrite !(IH _ x). reflexivity. }
  rewrite E. specialize (IH h' B). lra.
Qed.

Lemma total_minus f g es : total (fun e => f e - g e) es == total f es - total g es.
Proof. unfold total. induction es as [|e es IH]; cbn [map sumQ]; [ring|]. rewrite IH. ring. Qed.
Lemma total_scale c f es : total (fun e => c * f e) es == c * total f es.
Proof. unfold total. induction es as [|e es IH]; cbn [map sumQ]; [ring|]. rewrite IH. ring. Qed.

(* the area below a row grows with the row *)
Lemma climb_to (T : Q -> Q) h l k : gaps (fun x y => T x <= T y) h l -> In k (h :: l) -> T h <= T k.
Proof.
  revert h. induction l as [|h' l IH]; intros h; [intros _ [<-|[]]; lra|]. intros [A B] [<-|I]; [lra|]. specialize (IH h' B I). lra.
Qed.
Lemma climb_between (T : Q -> Q) h l k k' : gaps Qlt h l -> gaps (fun x y => T x <= T y) h l -> In k (h :: l) -> In k' (h :: l) -> k < k' -> T k <= T k'.
Proof.
  revert h. induction l as [|h' l IH]; intros h G M; [intros [<-|[]] [<-|[]] L; lra|]. intros [<-|I] J L.
  - apply (climb_to T h (h' :: l)); assumption.
  - destruct J as [<-|J]; [exfalso; assert (X := gaps_lower _ _ _ G I); lra|]. destruct G as [_ G], M as [_ M]. exact (IH h' G M I J L).
Qed.
Lemma prim_row y y' e : y == y' -> prim y e == prim y' e.
Proof.
  intros E. unfold prim, up_prim, clamp. cbv zeta.
  rewrite !(qle_bool_eq y y' (vy (snd e)) (vy (snd e))), !(qle_bool_eq y y' (vy (fst e)) (vy (fst e))),
    !(qle_bool_eq (vy (snd e)) (vy (snd e)) y y'), !(qle_bool_eq (vy (fst e)) (vy (fst e)) y y') by (assumption || reflexivity).
  destruct (Qle_bool (vy (snd e)) (vy (fst e))), (Qle_bool (vy (fst e)) (vy (snd e))), (Qle_bool y' (vy (snd e))), (Qle_bool y' (vy (fst e))),
    (Qle_bool (vy (fst e)) y'), (Qle_bool (vy (snd e)) y'); unfold absc; try reflexivity; rewrite E; reflexivity.
Qed.
Lemma total_row y y' es : y == y' -> total (prim y) es == total (prim y') es.
Proof. intros E. apply total_ext. intros e _. apply prim_row, E. Qed.
Lemma below_grows es y y' : balanced es -> (forall p, 0 <= winding p es) -> y < y' -> total (prim y) es <= total (prim y') es.
Proof.
  intros B W L0. destruct (all_heights (y :: y' :: flat_map (fun e => [vy (fst e); vy (snd e)]) es)) as (h & l & G & O).
  assert (O1 : forall e, In e es -> occurs (vy (fst e)) (h :: l) /\ occurs (vy (snd e)) (h :: l)).
  { intros e I. split; apply O; right; right; apply in_flat_map; exists e; cbn; tauto. }
  destruct (O y ltac:(cbn; tauto)) as (k & K & Ek). destruct (O y' ltac:(cbn; tauto)) as (k' & K' & Ek').
  rewrite <- (total_row k y es Ek), <- (total_row k' y' es Ek').
  apply (climb_between (fun x => total (prim x) es) h l); try assumption; [|lra].
  assert (GE : gaps (fun x x' => forall e, In e es -> ~ (x < vy (fst e) < x') /\ ~ (x < vy (snd e) < x')) h l).
  { apply (gaps_all (fun e x x' => ~ (x < vy (fst e) < x') /\ ~ (x < vy (snd e) < x'))). intros e I. destruct (O1 e I) as [A C].
    apply gaps_and; apply gaps_empty; assumption. }
  refine (gaps_imp _ _ _ _ _ (gaps_and _ _ _ _ G GE)). intros x x' [L N].
  assert (E : total (prim x') es - total (prim x) es == 2 * (x' - x) * total (on_row (V2 0 ((x + x') * (1 # 2)))) es).
  { rewrite <- total_minus, <- total_scale. apply total_ext. intros e I. destruct (N e I). apply prim_strip; assumption. }
  assert (R : 0 <= total (on_row (V2 0 ((x + x') * (1 # 2)))) es).
  { apply row_nonneg; [exact B| |exact W]. intros e I. destruct (N e I) as [N1 N2]. cbn [vy]. split; intros Z; [apply N1|apply N2]; lra. }
  assert (0 <= 2 * (x' - x) * total (on_row (V2 0 ((x + x') * (1 # 2)))) es) by (apply Qmult_le_0_compat; [lra|exact R]). lra.
Qed.
Lemma row_bounds (es : list (vec2 * vec2)) : exists lo hi, lo < hi /\ forall e, In e es -> (lo < vy (fst e) < hi) /\ (lo < vy (snd e) < hi).
Proof.
  induction es as [|e es (lo & hi & L & H)]; [exists 0, 1; split; [lra|intros e []]|].
  destruct (least (fun x => x) [lo; vy (fst e) - 1; vy (snd e) - 1] ltac:(discriminate)) as (lo' & _ & M).
  destruct (least (fun x => - x) [hi; vy (fst e) + 1; vy (snd e) + 1] ltac:(discriminate)) as (hi' & _ & M').
  assert (A1 := M lo ltac:(cbn; tauto)). assert (A2 := M (vy (fst e) - 1) ltac:(cbn; tauto)). assert (A3 := M (vy (snd e) - 1) ltac:(cbn; tauto)).
  assert (B1 := M' hi ltac:(cbn; tauto)). assert (B2 := M' (vy (fst e) + 1) ltac:(cbn; tauto)). assert (B3 := M' (vy (snd e) + 1) ltac:(cbn; tauto)). cbn beta in *.
  exists lo', hi'. split; [lra|]. intros f [<-|I]; [lra|]. destruct (H f I). lra.
Qed.
Lemma below_ends es lo hi : (forall e, In e es -> (lo < vy (fst e) < hi) /\ (lo < vy (snd e) < hi)) ->
  total (prim lo) es == 0 /\ total (prim hi) es == esum (fun a b => (vx a + vx b) * (vy b - vy a)) es.
Proof.
  intros H. split.
  - transitivity (total (fun _ => 0 * 0) es); [apply total_ext|rewrite total_scale; ring]. intros e I. destruct (H e I). rewrite prim_bottom; lra.
  - rewrite total_esum. apply total_ext. intros e I. destruct (H e I). apply prim_top; lra.
Qed.
Theorem area_nonneg es : balanced es -> (forall p, 0 <= winding p es) ->
  0 <= esum (fun a b => (vx a + vx b) * (vy b - vy a)) es.
Proof.
  intros B W. destruct (row_bounds es) as (lo & hi & L & H). destruct (below_ends es lo hi H) as [E1 E2].
  rewrite <- E2, <- E1. apply below_grows; assumption.
Qed.

(* ---------- strict versions ---------- *)
Lemma ramp_mono l m x : (forall y, 0 <= beyond y l) -> m <= x -> ramp x l <= ramp m l.
Proof.
  intros H. remember (length (right_of m l)) as n eqn:N. assert (N' : (length (right_of m l) <= n)%nat) by lia. clear N.
  revert m N'. induction n as [|n IH]; intros m N L.
  - rewrite (ramp_none m); [|destruct (right_of m l); [reflexivity|cbn in N; lia]]. rewrite (ramp_none x); [lra|].
    destruct (right_of x l) as [|i t] eqn:R; [reflexivity|exfalso]. assert (I : In i (right_of x l)) by (rewrite R; left; reflexivity).
    unfold right_of in I. apply filter_In in I. destruct I as [I1 I2].
    assert (J : In i (right_of m l)). { unfold right_of. apply filter_In. split; [exact I1|]. qcase (fst i) x; rewrite E in I2; [discriminate|]. qcase (fst i) m; [exfalso; lra|reflexivity]. }
    destruct (right_of m l); [destruct J|cbn in N; lia].
  - destruct (Qeq_dec m x) as [E|E].
    { assert (Z : ramp x l == ramp m l); [|lra]. unfold ramp. apply sumQ_ext. intros i _. qcase (fst i) x; qcase (fst i) m; try reflexivity; try (exfalso; lra). rewrite E. reflexivity. }
    assert (L' : m < x) by lra. destruct (right_of m l) as [|i0 t] eqn:R.
    { assert (S := ramp_step m x l L' ltac:(rewrite R; intros i [])). assert (0 <= (x - m) * beyond m l) by (apply Qmult_le_0_compat; [lra|apply H]). lra. }
    assert (NE : right_of m l <> []) by (rewrite R; discriminate). destruct (least fst _ NE) as (i & I & M).
    destruct (Qlt_le_dec (fst i) x) as [G|G].
    + assert (G0 : m < fst i). { unfold right_of in I. apply filter_In in I. destruct I as [_ I]. qcase (fst i) m; rewrite E0 in I; [discriminate|assumption]. }
      assert (F := right_fewer m (fst i) l G0 (ex_intro _ i (conj I (Qeq_refl _)))).
      specialize (IH (fst i) ltac:(rewrite R in F; lia) ltac:(lra)). rewrite (ramp_step m (fst i) l G0 M).
      assert (0 <= (fst i - m) * beyond m l) by (apply Qmult_le_0_compat; [lra|apply H]). lra.
    + assert (S := ramp_step m x l L' ltac:(intros j J; specialize (M j J); lra)).
      assert (0 <= (x - m) * beyond m l) by (apply Qmult_le_0_compat; [lra|apply H]). lra.
Qed.
Lemma moment_pos l x : (forall y, 0 <= beyond y l) -> sumQ (map snd l) == 0 -> 0 < beyond x l -> 0 < sumQ (map (fun i => snd i * fst i) l).
Proof.
  intros H Z P. destruct (below_all l) as [m M].
  assert (E : ramp m l == sumQ (map (fun i => snd i * fst i) l) - m * sumQ (map snd l)).
  { clear - M. unfold ramp. induction l as [|i l IH]; [cbn; ring|]. cbn [map sumQ]. rewrite IH by (intros j J; apply M; right; exact J).
    assert (G := M i (or_introl eq_refl)). qcase (fst i) m; [exfalso; lra|]. ring. }
  rewrite Z in E.
  assert (NE : right_of x l <> []).
  { intros R. assert (B : beyond x l == 0); [|lra]. clear - R. unfold right_of, beyond in *. induction l as [|i l IH]; [reflexivity|]. cbn [filter map sumQ] in *.
    destruct (Qle_bool (fst i) x); cbn [negb] in R; [|discriminate]. rewrite (IH R). ring. }
  destruct (least fst _ NE) as (i & I & LE).
  assert (G0 : x < fst i). { unfold right_of in I. apply filter_In in I. destruct I as [_ I]. qcase (fst i) x; rewrite E0 in I; [discriminate|assumption]. }
  assert (R := ramp_step x (fst i) l G0 LE). assert (R0 := ramp_nonneg l (fst i) H).
  assert (0 < (fst i - x) * beyond x l) by (apply Qmult_lt_0_compat; [lra|exact P]).
  assert (MX : m <= x \/ x < m) by (destruct (Qlt_le_dec x m); [right|left]; assumption). destruct MX as [MX|MX].
  - assert (RM := ramp_mono l m x H MX). lra.
  - (* everything is right of x as well *)
    assert (E2 : ramp x l == sumQ (map (fun i => snd i * fst i) l) - x * sumQ (map snd l)).
    { assert (M' : forall j, In j l -> x < fst j) by (intros j J; specialize (M j J); lra). clear - M'. unfold ramp. induction l as [|j l IH]; [cbn; ring|].
      cbn [map sumQ]. rewrite IH by (intros k K; apply M'; right; exact K). assert (G := M' j (or_introl eq_refl)). qcase (fst j) x; [exfalso; lra|]. ring. }
    rewrite Z in E2. lra.
Qed.
Lemma row_pos z es : balanced es -> (forall e, In e es -> ~ vy (fst e) == vy z /\ ~ vy (snd e) == vy z) ->
  (forall p, 0 <= winding p es) -> 0 < winding z es -> 0 < total (on_row z) es.
Proof.
  intros B GEN W P.
  assert (E : total (on_row z) es == sumQ (map (fun i => snd i * fst i) (items z es))).
  { rewrite items_sum. apply total_ext. intros e _. reflexivity. }
  assert (BY : forall p, vy p == vy z -> beyond (vx p) (items z es) == winding p es).
  { intros p Hp. unfold beyond. rewrite items_sum. cbn [fst snd]. unfold winding. rewrite total_esum. apply total_ext. intros e I.
    symmetry. exact (cross_any z es p e GEN I Hp). }
  rewrite E. apply (moment_pos _ (vx z)).
  - intros x. rewrite (BY (V2 x (vy z)) ltac:(reflexivity)). apply W.
  - rewrite items_sum. cbn [snd]. set (f := fun v => if Qle_bool (vy v) (vy z) then 0 else 1).
    rewrite <- (B f), total_esum. apply total_ext. intros e I. destruct (GEN e I) as [A C]. unfold f, dir.
    destruct (spans_dec z e) as [[[S1 S2]|[S1 S2]]|S].
    + qcase (vy (fst e)) (vy z); [|exfalso; lra]. qcase (vy (snd e)) (vy z); [exfalso; lra|]. qcase (vy (snd e)) (vy (fst e)); [exfalso; lra|]. ring.
    + qcase (vy (fst e)) (vy z); [exfalso; lra|]. qcase (vy (snd e)) (vy z); [|exfalso; lra]. qcase (vy (snd e)) (vy (fst e)); [|exfalso; lra]. ring.
    + qcase (vy (fst e)) (vy z); qcase (vy (snd e)) (vy z); try ring; exfalso; apply S; unfold spans; [left|right]; split; lra.
  - rewrite (BY z ltac:(reflexivity)). exact P.
Qed.
Lemma soon_rows (es : list (vec2 * vec2)) z : (forall e, In e es -> ~ vy (fst e) == vy z /\ ~ vy (snd e) == vy z) ->
  soon (fun t => forall e, In e es -> ~ (vy z - t < vy (fst e) < vy z + t) /\ ~ (vy z - t < vy (snd e) < vy z + t)).
Proof.
  intros H. apply (soon_all (fun e t => ~ (vy z - t < vy (fst e) < vy z + t) /\ ~ (vy z - t < vy (snd e) < vy z + t))). intros e I. destruct (H e I) as [A B].
  assert (K : forall y, ~ y == vy z -> soon (fun t => ~ (vy z - t < y < vy z + t))).
  { intros y N. destruct (Q_dec y (vy z)) as [[L|L]|L]; [| |contradiction].
    - exists (vy z - y). split; [lra|]. intros t T1 T2 X. lra.
    - exists (y - vy z). split; [lra|]. intros t T1 T2 X. lra. }
  apply soon_and; apply K; assumption.
Qed.
Theorem area_pos es : balanced es -> (forall p, 0 <= winding p es) -> (exists p, 0 < winding p es) ->
  0 < esum (fun a b => (vx a + vx b) * (vy b - vy a)) es.
Proof.
  intros B W [p0 P0]. destruct (nudged p0 es) as (z & Ez & GEN). assert (Pz : 0 < winding z es) by lra.
  destruct (soon_ex _ (soon_rows es z GEN)) as (t & T & N).
  destruct (row_bounds es) as (lo & hi & L & H).
  set (lo' := Qminb lo (vy z - t - 1)). set (hi' := Qmaxb hi (vy z + t + 1)).
  assert (L1 : lo' <= lo /\ lo' < vy z - t) by (unfold lo', Qminb; destruct (Qltb lo (vy z - t - 1)) eqn:X; [apply Qltb_true in X|apply Qltb_false in X]; lra).
  assert (L2 : hi <= hi' /\ vy z + t < hi') by (unfold hi', Qmaxb; destruct (Qltb (vy z + t + 1) hi) eqn:X; [apply Qltb_true in X|apply Qltb_false in X]; lra).
  destruct (below_ends es lo' hi') as [E1 E2]; [intros e I; destruct (H e I); lra|].
  assert (G1 := below_grows es lo' (vy z - t) B W (proj2 L1)). assert (G2 := below_grows es (vy z + t) hi' B W (proj2 L2)).
  set (z' := V2 0 ((vy z - t + (vy z + t)) * (1 # 2))).
  assert (E : total (prim (vy z + t)) es - total (prim (vy z - t)) es == 2 * (vy z + t - (vy z - t)) * total (on_row z') es).
  { rewrite <- total_minus, <- total_scale. apply total_ext. intros e I. destruct (N e I). apply prim_strip; try assumption. lra. }
  assert (Zz : vy z' == vy z) by (unfold z'; cbn [vy]; ring).
  assert (R : 0 < total (on_row (V2 (vx z) (vy z'))) es).
  { apply row_pos; try assumption.
    - intros e I. destruct (GEN e I). cbn [vy]. rewrite Zz. split; assumption.
    - rewrite (winding_point _ z); [exact Pz|]. split; [reflexivity|exact Zz]. }
  assert (Er : total (on_row (V2 (vx z) (vy z'))) es == total (on_row z') es) by (apply total_ext; intros e _; unfold on_row; destruct (spans_dec (V2 (vx z) (vy z')) e) as [S|S], (spans_dec z' e) as [S'|S']; try reflexivity; exfalso; tauto).
  assert (0 < 2 * (vy z + t - (vy z - t)) * total (on_row z') es) by (apply Qmult_lt_0_compat; lra). lra.
Qed.
