(* Proofs about quad layers: base edges and heights. *)
From Coq Require Import Lia Lqa.
From Verif Require Import Base GeomModel FacetModel UtilModel BdryModel BdrySpec AdvanceModel AdvanceSpec AdvanceProofs LoopModel QLayerModel QLayerSpec.

Lemma next_spec es e f : get_next_edge es e = Some f -> In f es /\ be_v1 f = be_v2 e /\ be_id f <> be_id e.
Proof.
  intros H. apply oldest_in in H. apply filter_In in H. destruct H as [H1 H2]. apply andb_true_iff in H2. destruct H2 as [H2 H3].
  apply Nat.eqb_eq in H2. apply negb_true_iff, Nat.eqb_neq in H3. auto.
Qed.
Lemma id_eq es e f : NoDup (map be_id es) -> In e es -> In f es -> be_id e = be_id f -> e = f.
Proof.
  induction es as [|g es IH]; cbn; [tauto|]. intros N [He|He] [Hf|Hf] E; inversion N as [|x l N1 N2]; subst.
  - congruence.
  - exfalso. apply N1. rewrite E. apply in_map; exact Hf.
  - exfalso. apply N1. rewrite <- E. apply in_map; exact He.
  - auto.
Qed.

(* ---- the base edges ---- *)
Lemma base_det es stop : forall n n' e l l', base_edges n es e stop = Ok l -> base_edges n' es e stop = Ok l' -> l = l'.
Proof.
  induction n as [|n IH]; intros n' e l l' H H'; [discriminate|]. destruct n' as [|n']; [discriminate|]. cbn [base_edges] in H, H'.
  destruct (get_next_edge es e) as [f|]; [|discriminate]. destruct (Nat.eqb (be_id f) (be_id stop)); [congruence|].
  destruct (base_edges n es f stop) as [r| |] eqn:E; try discriminate. destruct (base_edges n' es f stop) as [r'| |] eqn:E'; try discriminate.
  cbn [obind] in *. injection H as <-. injection H' as <-. f_equal. exact (IH _ _ _ _ E E').
Qed.
Lemma base_reached es stop : forall n e, reaches n es e stop = true -> exists l, base_edges n es e stop = Ok l.
Proof.
  induction n as [|n IH]; intros e H; [discriminate|]. cbn [reaches base_edges] in *. destruct (get_next_edge es e) as [f|]; [|discriminate].
  destruct (Nat.eqb (be_id f) (be_id stop)); [eauto|]. destruct (IH f H) as [l ->]. cbn [obind]. eauto.
Qed.
Lemma base_more es stop : forall n n' e l, base_edges n es e stop = Ok l -> (n <= n')%nat -> base_edges n' es e stop = Ok l.
Proof.
  induction n as [|n IH]; intros n' e l H L; [discriminate|]. destruct n' as [|n']; [lia|]. cbn [base_edges] in *. destruct (get_next_edge es e) as [f|]; [|discriminate].
  destruct (Nat.eqb _ _); [exact H|]. destruct (base_edges n es f stop) as [r| |] eqn:E; try discriminate. rewrite (IH n' f r E) by lia. exact H.
Qed.
(* shape of the list *)
Lemma base_shape es stop : NoDup (map be_id es) -> In stop es -> forall n e l, base_edges n es e stop = Ok l -> In e es ->
  (exists r, l = e :: r) /\ (exists r, l = r ++ [stop]) /\ incl l es /\ linked_up l /\ (2 <= length l)%nat /\
  (forall f, In f (tl l) -> f = stop \/ exists n' l' pre, base_edges n' es f stop = Ok l' /\ l = pre ++ l' /\ (1 <= length pre)%nat).
Proof.
  intros N S. induction n as [|n IH]; intros e l H He; [discriminate|]. cbn [base_edges] in H. destruct (get_next_edge es e) as [f|] eqn:X; [|discriminate].
  destruct (next_spec _ _ _ X) as [Hf [Y Z]]. destruct (Nat.eqb (be_id f) (be_id stop)) eqn:E.
  - injection H as <-. apply Nat.eqb_eq in E. apply (id_eq es f stop N Hf S) in E. subst f.
    split; [eauto|]. split; [exists [e]; reflexivity|]. split; [intros x [<-|[<-|[]]]; assumption|]. split; [cbn; auto|]. split; [cbn; lia|].
    intros g [<-|[]]. left; reflexivity.
  - destruct (base_edges n es f stop) as [r| |] eqn:B; try discriminate. cbn [obind] in H. injection H as <-.
    destruct (IH f r B Hf) as [[r1 R1] [[r2 R2] [R3 [R4 [R5 R6]]]]]. subst r.
    split; [eauto|]. split; [exists (e :: r2); cbn; rewrite R2; reflexivity|]. split; [intros x [<-|Hx]; auto|]. split; [cbn; auto|].
    split; [cbn in *; lia|]. cbn [tl]. intros g [<-|Hg].
    + right. exists n, (f :: r1), [e]. split; [exact B|]. split; [reflexivity|cbn; lia].
    + destruct (R6 g Hg) as [R|[n' [l' [pre [P1 [P2 P3]]]]]]; [left; exact R|]. right. exists n', l', (e :: pre). split; [exact P1|].
      split; [cbn; rewrite P2; reflexivity|cbn; lia].
Qed.
Lemma base_nodup es stop : NoDup (map be_id es) -> In stop es -> forall n e l, base_edges n es e stop = Ok l -> In e es -> e <> stop -> NoDup l.
Proof.
  intros N S. induction n as [|n IH]; intros e l H He D; [discriminate|]. assert (H0 := H). cbn [base_edges] in H. destruct (get_next_edge es e) as [f|] eqn:X; [|discriminate].
  destruct (next_spec _ _ _ X) as [Hf [Y Z]]. destruct (Nat.eqb (be_id f) (be_id stop)) eqn:E.
  - injection H as <-. constructor; [intros [W|[]]; congruence|]. constructor; [intros []|constructor].
  - destruct (base_edges n es f stop) as [r| |] eqn:B; try discriminate. cbn [obind] in H. injection H as <-.
    assert (F : f <> stop) by (intros ->; rewrite Nat.eqb_refl in E; discriminate).
    constructor; [|exact (IH f r B Hf F)]. intros W.
    destruct (base_shape es stop N S _ _ _ H0 He) as (_ & _ & _ & _ & _ & T). cbn [tl] in T. destruct (T e W) as [T1|[n' [l' [pre [P1 [P2 P3]]]]]]; [congruence|].
    assert (Q := base_det _ _ _ _ _ _ _ H0 P1). subst l'. apply (f_equal (@length bedge)) in P2. rewrite app_length in P2. cbn in *. lia.
Qed.
Lemma base_route es stop n e l : NoDup (map be_id es) -> In stop es -> In e es -> e <> stop -> base_edges n es e stop = Ok l -> route es e stop l.
Proof.
  intros N S He D H. destruct (base_shape es stop N S n e l H He) as (A & B & C & L & _ & _). split; [exact A|]. split; [exact B|]. split; [exact C|]. split; [exact L|].
  exact (base_nodup es stop N S n e l H He D).
Qed.
(* the fuel of the model is enough *)
Lemma base_fuel es stop n e l : NoDup (map be_id es) -> In stop es -> In e es -> e <> stop -> base_edges n es e stop = Ok l ->
  base_edges (Nat.max 1 (length es)) es e stop = Ok l.
Proof.
  intros N S He D H. assert (R := base_route es stop n e l N S He D H). destruct R as (_ & _ & C & _ & ND).
  assert (L := NoDup_incl_length ND C).
  assert (K : forall n e l, base_edges n es e stop = Ok l -> base_edges (length l) es e stop = Ok l).
  { clear. induction n as [|n IH]; intros e l H; [discriminate|]. cbn [base_edges] in H. destruct (get_next_edge es e) as [f|] eqn:X; [|discriminate].
    destruct (Nat.eqb (be_id f) (be_id stop)) eqn:E; [injection H as <-; cbn; rewrite X, E; reflexivity|].
    destruct (base_edges n es f stop) as [r| |] eqn:B; try discriminate. cbn [obind] in H. injection H as <-. cbn [length base_edges]. rewrite X, E, (IH f r B). reflexivity. }
  apply (base_more _ _ _ _ _ _ (K _ _ _ H)). lia.
Qed.

(* ---- start and end ---- *)
Lemma closest_spec pos es xy v : closest_vertex pos es xy = Some v -> closest_of pos es xy v.
Proof.
  unfold closest_vertex. set (g := fun acc e => _).
  assert (K : forall l d o v, snd (fold_left g l (d, o)) = Some v ->
     (o = Some v /\ forall e, In e l -> d <= vnorm2 (vsub xy (pos (be_v1 e)))) \/
     ((exists e, In e l /\ be_v1 e = v) /\ vnorm2 (vsub xy (pos v)) <= d /\ forall e, In e l -> vnorm2 (vsub xy (pos v)) <= vnorm2 (vsub xy (pos (be_v1 e))))).
  { induction l as [|e l IH]; intros d o w H; cbn [fold_left] in H.
    - left. split; [exact H|intros ? []].
    - unfold g at 2 in H. cbn [fst] in H. destruct (Qleb d (vnorm2 (vsub xy (pos (be_v1 e))))) eqn:E.
      + apply Qleb_true in E. destruct (IH _ _ _ H) as [[H1 H2]|[[f [F1 F2]] [H2 H3]]].
        * left. split; [exact H1|]. intros f [<-|Hf]; auto.
        * right. split; [exists f; cbn; auto|]. split; [exact H2|]. intros f' [<-|Hf]; [lra|auto].
      + apply Qleb_false in E. destruct (IH _ _ _ H) as [[H1 H2]|[[f [F1 F2]] [H2 H3]]].
        * injection H1 as <-. right. split; [exists e; cbn; auto|]. split; [lra|]. intros f [<-|Hf]; [lra|auto].
        * right. split; [exists f; cbn; auto|]. split; [lra|]. intros f' [<-|Hf]; [lra|auto]. }
  intros H. destruct (K _ _ _ _ H) as [[H1 _]|[H1 [_ H3]]]; [discriminate|]. split; assumption.
Qed.
Lemma edge_from_spec es v e : edge_from es v = Some e -> In e es /\ be_v1 e = v.
Proof. intros H. apply oldest_in in H. apply filter_In in H. destruct H as [H1 H2]. apply Nat.eqb_eq in H2. auto. Qed.
Lemma edge_to_spec es v e : edge_to es v = Some e -> In e es /\ be_v2 e = v.
Proof. intros H. apply oldest_in in H. apply filter_In in H. destruct H as [H1 H2]. apply Nat.eqb_eq in H2. auto. Qed.
(* behind the end of a closed layer comes its start *)
Lemma next_start es v e f : NoDup (map be_id es) -> In f es -> be_v1 f <> be_v2 f -> edge_from es v = Some e -> be_v2 f = v -> get_next_edge es f = Some e.
Proof.
  intros N Hf D H V. unfold get_next_edge. rewrite V. replace (filter _ es) with (filter (fun g => Nat.eqb (be_v1 g) v) es); [exact H|].
  apply filter_ext_in. intros g Hg. destruct (Nat.eqb (be_v1 g) v) eqn:E; [|reflexivity]. apply Nat.eqb_eq in E. cbn [andb]. symmetry. apply negb_true_iff. apply Nat.eqb_neq.
  intros I. apply (id_eq es g f N Hg Hf) in I. subst g. congruence.
Qed.
Lemma base_extend es stop h : NoDup (map be_id es) -> In stop es -> In h es -> get_next_edge es stop = Some h ->
  forall n e l, base_edges n es e stop = Ok l -> In e es -> ~ In h (tl l) -> base_edges (S n) es e h = Ok (l ++ [h]).
Proof.
  intros N Hs Hh X. induction n as [|n IH]; intros e l H He K; [discriminate|]. cbn [base_edges] in H. cbn [base_edges]. destruct (get_next_edge es e) as [f|] eqn:Y; [|discriminate].
  destruct (next_spec _ _ _ Y) as [Hf [_ _]].
  assert (NE : forall g, In g es -> g <> h -> Nat.eqb (be_id g) (be_id h) = false).
  { intros g Hg D. apply Nat.eqb_neq. intros E. apply D. exact (id_eq es g h N Hg Hh E). }
  destruct (Nat.eqb (be_id f) (be_id stop)) eqn:E.
  - injection H as <-. apply Nat.eqb_eq in E. apply (id_eq es f stop N Hf Hs) in E. subst f. rewrite (NE stop Hs) by (intros ->; apply K; cbn; auto).
    rewrite X, Nat.eqb_refl. reflexivity.
  - destruct (base_edges n es f stop) as [r| |] eqn:B; try discriminate. cbn [obind] in H. injection H as <-. cbn [tl] in K.
    destruct (base_shape es stop N Hs n f r B Hf) as [[r1 R1] _]. subst r. rewrite (NE f Hf) by (intros ->; apply K; cbn; auto).
    assert (Q := IH f (f :: r1) B Hf ltac:(intros Z; apply K; cbn in *; auto)). change (match get_next_edge es f with Some f0 => _ | None => UB end) with (base_edges (S n) es f h). rewrite Q. reflexivity.
Qed.

(* what find_ends delivers *)
Lemma find_ends_spec sharp st xs xe e f closed : NoDup (map be_id (ms_front st)) -> (forall e, In e (ms_front st) -> be_v1 e <> be_v2 e) ->
  find_ends sharp st xs xe = Ok (Some (e, f, closed)) ->
  exists vs ve, closest_of (ms_pos st) (ms_front st) xs vs /\ closest_of (ms_pos st) (ms_front st) xe ve /\ In e (ms_front st) /\ In f (ms_front st) /\
    (closed = true <-> vs = ve) /\
    (closed = false -> be_v1 e = vs /\ be_v2 f = ve) /\
    (closed = true -> be_v2 f = be_v1 e /\ e <> f) /\
    exists l, base_edges (Nat.max 1 (length (ms_front st))) (ms_front st) e f = Ok l /\ (closed = true -> exists x, In x l /\ be_v1 x = vs).
Proof.
  intros N D. unfold find_ends. set (es := ms_front st) in *. destruct (closest_vertex (ms_pos st) es xs) as [vs|] eqn:C1; [|discriminate].
  destruct (closest_vertex (ms_pos st) es xe) as [ve|] eqn:C2; [|discriminate]. destruct (edge_from es vs) as [a|] eqn:A; [|discriminate].
  destruct (edge_to es ve) as [b|] eqn:B; [|discriminate]. destruct (is_traversable es a b) eqn:T; cbn [negb]; [|discriminate].
  apply closest_spec in C1. apply closest_spec in C2. assert (A' := A). apply edge_from_spec in A'. apply edge_to_spec in B. destruct A' as [A1 A2]. destruct B as [B1 B2].
  destruct (base_reached es b _ a T) as [l L].
  destruct (Nat.eqb vs ve) eqn:V.
  - apply Nat.eqb_eq in V. rewrite <- V in *. clear V ve. assert (AB : a <> b) by (intros ->; apply (D b B1); congruence).
    assert (X := next_start es vs a b N B1 (D b B1) A B2).
    destruct (base_shape es b N B1 _ _ _ L A1) as [[r R] _]. subst l. assert (ND := base_nodup es b N B1 _ _ _ L A1 AB).
    assert (PLAIN : Ok (Some (a, b, true)) = Ok (Some (e, f, closed)) ->
       exists vs0 ve0, closest_of (ms_pos st) es xs vs0 /\ closest_of (ms_pos st) es xe ve0 /\ In e es /\ In f es /\ (closed = true <-> vs0 = ve0) /\
         (closed = false -> be_v1 e = vs0 /\ be_v2 f = ve0) /\ (closed = true -> be_v2 f = be_v1 e /\ e <> f) /\
         exists l, base_edges (Nat.max 1 (length es)) es e f = Ok l /\ (closed = true -> exists x, In x l /\ be_v1 x = vs0)).
    { intros E. injection E as <- <- <-. exists vs, vs. do 4 (split; [assumption|]). split; [tauto|]. split; [discriminate|]. split.
      - intros _. split; [congruence|exact AB].
      - exists (a :: r). split; [exact L|]. intros _. exists a. split; [left; reflexivity|exact A2]. }
    destruct (get_next_edge es a) as [g|] eqn:G; [|exact PLAIN]. destruct (sharp _ _); [|exact PLAIN]. clear PLAIN. intros E. injection E as <- <- <-.
    destruct (next_spec _ _ _ G) as [G1 [G2 G3]]. assert (GA : g <> a) by congruence.
    exists vs, vs. do 4 (split; [assumption|]). split; [tauto|]. split; [discriminate|]. split.
    + intros _. split; [congruence|exact GA].
    + assert (Q : exists n l, base_edges n es g a = Ok l /\ In a l).
      { set (n := Nat.max 1 (length es)) in *. destruct n as [|n]; [discriminate|]. cbn [base_edges] in L. rewrite G in L. destruct (Nat.eqb (be_id g) (be_id b)) eqn:E.
        - apply Nat.eqb_eq in E. apply (id_eq es g b N G1 B1) in E. subst g. exists 1%nat, [b; a]. split; [cbn; rewrite X, Nat.eqb_refl; reflexivity|cbn; auto].
        - destruct (base_edges n es g b) as [r'| |] eqn:Y; try discriminate. cbn [obind] in L. injection L as ->. exists (S n), (r ++ [a]).
          split; [|apply in_or_app; right; cbn; auto]. apply (base_extend es b a N B1 A1 X n g r Y G1). inversion ND as [|x y N1 N2]. subst. intros Z. apply N1.
          destruct r; [exact Z|right; exact Z]. }
      destruct Q as [n [l [Q1 Q2]]]. exists l. split; [exact (base_fuel es a n g l N A1 G1 GA Q1)|]. intros _. exists a. split; [exact Q2|exact A2].
  - apply Nat.eqb_neq in V. intros E. injection E as <- <- <-. exists vs, ve. do 4 (split; [assumption|]). split; [|split; [auto|split; [discriminate|]]].
    + split; [discriminate|]. intros ->. congruence.
    + exists l. split; [exact L|discriminate].
Qed.

(* ---- heights ---- *)
Definition hs (cs : list lcell) : list Q := map lc_h cs.
Lemma qminb_le a b : Qminb a b <= a /\ Qminb a b <= b.
Proof. unfold Qminb. destruct (Qltb a b) eqn:E; [apply Qltb_true in E|apply Qltb_false in E]; lra. Qed.
Lemma qminb_pos a b : 0 < a -> 0 < b -> 0 < Qminb a b.
Proof. unfold Qminb. destruct (Qltb a b); auto. Qed.
Lemma smooth_from_bounds rho pos H : (forall x, 0 < rho x) -> forall cs prev, 0 < prev <= H -> (forall c, In c cs -> 0 < lc_h c <= H) ->
  forall c, In c (smooth_from rho pos prev cs) -> 0 < lc_h c <= H.
Proof.
  intros R. induction cs as [|c cs IH]; intros prev P B x Hx; [destruct Hx|]. cbn [smooth_from] in Hx. destruct cs as [|d cs]; [apply B; exact Hx|].
  assert (Bc := B c (or_introl eq_refl)). assert (Bd := B d (or_intror (or_introl eq_refl))).
  set (h := Qminb _ _) in Hx. assert (Y : 0 < h <= H).
  { split; [apply qminb_pos; [apply R|lra]|]. unfold h. destruct (qminb_le (rho (mid pos (lc_e c))) ((prev + lc_h c + lc_h d) * (1 # 3))) as [_ Z]. lra. }
  destruct Hx as [<-|Hx]; [exact Y|]. refine (IH h Y _ x Hx). intros z Hz. apply B. right. exact Hz.
Qed.
Lemma smooth_bounds rho pos H cs : (forall x, 0 < rho x) -> (forall c, In c cs -> 0 < lc_h c <= H) -> forall c, In c (smooth_heights rho pos cs) -> 0 < lc_h c <= H.
Proof.
  intros R B c Hc. destruct cs as [|d cs]; [destruct Hc|]. cbn [smooth_heights] in Hc. destruct Hc as [<-|Hc]; [apply B; left; reflexivity|].
  refine (smooth_from_bounds rho pos H R cs (lc_h d) _ _ c Hc); [apply B; left; reflexivity|]. intros x Hx. apply B. right. exact Hx.
Qed.
Lemma smooth_from_edges rho pos : forall cs prev, map lc_e (smooth_from rho pos prev cs) = map lc_e cs.
Proof.
  induction cs as [|c cs IH]; intros prev; [reflexivity|]. cbn [smooth_from]. destruct cs as [|d cs]; [reflexivity|]. cbn [map set_h lc_e]. f_equal. apply (IH (Qminb _ _)).
Qed.
Lemma smooth_edges rho pos cs : map lc_e (smooth_heights rho pos cs) = map lc_e cs.
Proof. destruct cs as [|c cs]; [reflexivity|]. cbn [smooth_heights map]. f_equal. apply smooth_from_edges. Qed.
(* the smoothed heights, one by one *)
Lemma smooth_from_nth rho pos : forall cs prev k c, nth_error cs k = Some c ->
  exists c', nth_error (smooth_from rho pos prev cs) k = Some c' /\
    (S k = length cs -> c' = c) /\
    (forall d, nth_error cs (S k) = Some d -> exists before, (k = 0%nat /\ before = prev \/ exists b, (S (pred k)) = k /\ nth_error (smooth_from rho pos prev cs) (pred k) = Some b /\ before = lc_h b) /\
       lc_h c' = Qminb (rho (mid pos (lc_e c))) ((before + lc_h c + lc_h d) * (1 # 3))).
Proof.
  induction cs as [|c0 cs IH]; intros prev k c Hk; [destruct k; discriminate|]. cbn [smooth_from]. destruct cs as [|d0 cs].
  - destruct k as [|k]; [|destruct k; discriminate]. injection Hk as <-. exists c0. split; [reflexivity|]. split; [auto|]. intros d Hd. discriminate.
  - destruct k as [|k].
    + injection Hk as <-. eexists. split; [reflexivity|]. split; [cbn; lia|]. intros d Hd. cbn in Hd. injection Hd as <-. exists prev. split; [left; auto|reflexivity].
    + set (h := Qminb _ _). destruct (IH h k c Hk) as [c' [E1 [E2 E3]]]. exists c'. split; [exact E1|]. split; [intros L; apply E2; cbn in *; lia|].
      intros d Hd. destruct (E3 d Hd) as [before [Hb E4]]. exists before. split; [|exact E4]. right. destruct Hb as [[-> ->]|[b [P [Q ->]]]].
      * eexists. split; [reflexivity|]. split; reflexivity.
      * exists b. split; [reflexivity|]. split; [|reflexivity]. cbn [pred]. rewrite <- P. cbn [nth_error]. exact Q.
Qed.

(* ---- projected positions ---- *)
Lemma adjust_inner_edges nm sh sp pos : forall r c, map (fun x => (lc_e x, lc_h x)) (adjust_inner nm sh sp pos c r) = map (fun x => (lc_e x, lc_h x)) (c :: r).
Proof.
  induction r as [|d r IH]; intros c; [reflexivity|]. cbn [adjust_inner map]. f_equal; [destruct (adjusted nm sh sp pos c d); reflexivity|]. rewrite IH. cbn [map]. f_equal. destruct (adjusted nm sh sp pos c d); reflexivity.
Qed.
Lemma sq_eq a b : 0 <= a -> 0 <= b -> 0 < a + b -> a * a == b * b -> a == b.
Proof.
  intros A B C E. assert (X : (a - b) * (a + b) == 0) by (transitivity (a * a - b * b); [ring|lra]).
  destruct (Qeq_dec (a - b) 0) as [Z|Z]; [lra|]. exfalso. assert (Y : a + b == 0).
  { transitivity (((a - b) * (a + b)) / (a - b)); [field; exact Z|]. rewrite X. field. exact Z. }
  lra.
Qed.
(* the projected point has the mean of both heights over both base edges *)
Lemma adjusted_height norm sin_half sharp pos c d x p q r :
  p = pos (be_v1 (lc_e c)) -> q = pos (be_v1 (lc_e d)) -> r = pos (be_v2 (lc_e d)) -> be_v2 (lc_e c) = be_v1 (lc_e d) ->
  is_norm norm (vsub q p) -> is_norm norm (vsub p q) -> is_norm norm (vsub r q) -> 0 < norm (vsub q p) -> 0 < norm (vsub r q) ->
  (forall n, n = vscale (1 # 2) (vadd (enormal norm pos (lc_e c)) (enormal norm pos (lc_e d))) -> is_norm norm n /\ 0 < norm n) ->
  is_sin_half norm sin_half (vsub p q) (vsub r q) ->
  adjusted norm sin_half sharp pos c d = Some x ->
  height_over norm p q x == (1 # 2) * (lc_h c + lc_h d) /\ height_over norm q r x == (1 # 2) * (lc_h c + lc_h d).
Proof.
  intros Ep Eq Er L [A0 A1] [B0 B1] [C0 C1] PA PC NN [S0 S1]. unfold adjusted. rewrite <- Ep, <- Eq, <- Er. destruct (_ && _); [discriminate|].
  specialize (NN _ eq_refl). destruct NN as [[N0 N1] N2]. set (n := vscale _ _) in *. intros E. injection E as <-.
  assert (EN1 : enormal norm pos (lc_e c) = V2 (- (vy (vsub q p) / norm (vsub q p))) (vx (vsub q p) / norm (vsub q p))) by (unfold enormal; rewrite L, <- Ep, <- Eq; reflexivity).
  assert (EN2 : enormal norm pos (lc_e d) = V2 (- (vy (vsub r q) / norm (vsub r q))) (vx (vsub r q) / norm (vsub r q))) by (unfold enormal; rewrite <- Eq, <- Er; reflexivity).
  assert (SL : norm (vsub p q) == norm (vsub q p)).
  { apply sq_eq; [exact B0|exact A0|lra|]. rewrite A1, B1. unfold vnorm2, vdot, vsub. cbn [vx vy]. ring. }
  set (s := sin_half (vsub p q) (vsub r q)) in *. set (L1 := norm (vsub q p)) in *. set (L2 := norm (vsub r q)) in *. set (LB := norm (vsub p q)) in *. set (Nn := norm n) in *.
  unfold n in N1. rewrite EN1, EN2 in N1. unfold n. rewrite EN1, EN2. clearbody Nn. clear n EN1 EN2 L. unfold height_over. fold L1 L2.
  rewrite SL in S1. clearbody s L1 L2 LB. clear - A1 C1 PA PC N1 N2 S0 S1 N0. destruct p as [px py], q as [qx qy], r as [rx ry].
  unfold vnorm2, vdot, vsub, vadd, vscale, vcross in *. cbn [vx vy] in *.
  set (ax := qx - px) in *. set (ay := qy - py) in *. set (bx := rx - qx) in *. set (by_ := ry - qy) in *.
  set (u := (ax * bx + ay * by_) / (L1 * L2)).
  assert (NZ1 : ~ L1 == 0) by lra. assert (NZ2 : ~ L2 == 0) by lra.
  assert (T1 : (ax / L1) * (ax / L1) + (ay / L1) * (ay / L1) == 1).
  { transitivity ((ax * ax + ay * ay) / (L1 * L1)); [field; exact NZ1|]. rewrite <- A1. field. exact NZ1. }
  assert (T2 : (bx / L2) * (bx / L2) + (by_ / L2) * (by_ / L2) == 1).
  { transitivity ((bx * bx + by_ * by_) / (L2 * L2)); [field; exact NZ2|]. rewrite <- C1. field. exact NZ2. }
  assert (T12 : (ax / L1) * (bx / L2) + (ay / L1) * (by_ / L2) == u) by (unfold u; field; split; assumption).
  assert (S2 : 2 * (s * s) == 1 + u).
  { rewrite S1. unfold u, ax, ay. field. split; assumption. }
  set (a1 := ax / L1) in *. set (a2 := ay / L1) in *. set (b1 := bx / L2) in *. set (b2 := by_ / L2) in *.
  assert (NS : Nn * Nn == s * s).
  { rewrite N1. transitivity ((1 # 4) * ((a1 * a1 + a2 * a2) + (b1 * b1 + b2 * b2) + 2 * (a1 * b1 + a2 * b2))); [ring|]. rewrite T1, T2, T12. lra. }
  assert (EQ : Nn == s) by (apply sq_eq; [exact N0|exact S0|lra|exact NS]).
  assert (SP : ~ s == 0) by lra. set (l := (1 # 2) * (lc_h c + lc_h d)).
  assert (AXL : ax == a1 * L1) by (unfold a1; field; exact NZ1). assert (AYL : ay == a2 * L1) by (unfold a2; field; exact NZ1).
  assert (BXL : bx == b1 * L2) by (unfold b1; field; exact NZ2). assert (BYL : by_ == b2 * L2) by (unfold b2; field; exact NZ2).
  clearbody a1 a2 b1 b2 u. split.
  - transitivity ((l / (Nn * s)) * ((1 # 2) * ((a1 * a1 + a2 * a2) + (a1 * b1 + a2 * b2)))).
    + transitivity ((ax * (ay + l / (Nn * s) * ((1 # 2) * (a1 + b1))) - ay * (ax + l / (Nn * s) * ((1 # 2) * (- a2 + - b2)))) / L1).
      * unfold ax, ay. field. lra.
      * rewrite AXL, AYL. field. lra.
    + rewrite T1, T12, EQ. assert (Z : 1 + u == 2 * (s * s)) by lra. rewrite Z. field. exact SP.
  - transitivity ((l / (Nn * s)) * ((1 # 2) * ((b1 * b1 + b2 * b2) + (a1 * b1 + a2 * b2)))).
    + transitivity ((bx * (l / (Nn * s) * ((1 # 2) * (a1 + b1))) - by_ * (l / (Nn * s) * ((1 # 2) * (- a2 + - b2)))) / L2).
      * field. lra.
      * rewrite BXL, BYL. field. lra.
    + rewrite T2, T12, EQ. assert (Z : 1 + u == 2 * (s * s)) by lra. rewrite Z. field. exact SP.
Qed.
(* without adjustment: the height over the own edge *)
Lemma new_cell_height norm pos H e : is_norm norm (vsub (pos (be_v2 e)) (pos (be_v1 e))) -> 0 < elen norm pos e ->
  height_over norm (pos (be_v1 e)) (pos (be_v2 e)) (lc_p1 (new_cell norm pos H e)) == lc_h (new_cell norm pos H e) /\
  height_over norm (pos (be_v1 e)) (pos (be_v2 e)) (lc_p2 (new_cell norm pos H e)) == lc_h (new_cell norm pos H e).
Proof.
  intros [N0 N1] P. cbn [new_cell lc_p1 lc_p2 lc_h]. unfold elen in *. set (h := Qminb _ _). clearbody h. unfold height_over, enormal. set (L := norm _) in *. clearbody L.
  destruct (pos (be_v1 e)) as [px py], (pos (be_v2 e)) as [qx qy]. unfold vnorm2, vdot, vsub, vadd, vscale, vcross in *. cbn [vx vy] in *.
  assert (NZ : ~ L == 0) by lra. split; (transitivity (h * ((qx - px) * (qx - px) + (qy - py) * (qy - py)) / (L * L)); [field; exact NZ|rewrite <- N1; field; exact NZ]).
Qed.

(* ---- on simple fronts routes are found ---- *)
Lemma route_base es f : NoDup (map be_id es) -> NoDup (map be_v1 es) -> forall l e, (exists r, l = e :: r) -> (exists r, l = r ++ [f]) -> incl l es -> linked_up l -> NoDup l -> e <> f ->
  base_edges (length l) es e f = Ok l.
Proof.
  intros N NV. induction l as [|a l IH]; intros e [r R] [r2 R2] I L ND D; [discriminate|]. injection R as -> ->. destruct r as [|g r].
  { destruct r2 as [|x r2]; [injection R2 as <-; congruence|]. destruct r2; discriminate. }
  destruct L as [L1 L2]. cbn [linked_up] in L1. inversion ND as [|x y ND1 ND2]; subst.
  assert (Hg : In g es) by (apply I; cbn; auto). assert (He : In e es) by (apply I; cbn; auto).
  assert (X : get_next_edge es e = Some g).
  { assert (Y : forall z, get_next_edge es e = Some z -> z = g).
    { intros z Z. apply next_spec in Z. destruct Z as [Z1 [Z2 Z3]]. clear - NV Hg Z1 Z2 L1. rewrite L1 in Z2. induction es as [|h es IH]; [destruct Hg|]. cbn in NV. inversion NV as [|x y N1 N2]; subst.
      destruct Hg as [->|Hg], Z1 as [->|Z1]; auto.
      - exfalso. apply N1. rewrite <- Z2. apply in_map. exact Z1.
      - exfalso. apply N1. rewrite Z2. apply in_map. exact Hg. }
    destruct (get_next_edge es e) as [z|] eqn:Z; [f_equal; apply Y; reflexivity|]. exfalso. unfold get_next_edge in Z. apply oldest_none in Z.
    assert (W : In g (filter (fun f0 => Nat.eqb (be_v1 f0) (be_v2 e) && negb (Nat.eqb (be_id f0) (be_id e))) es)).
    { apply filter_In. split; [exact Hg|]. rewrite L1, Nat.eqb_refl. cbn [andb]. apply negb_true_iff, Nat.eqb_neq. intros E. apply ND1. left. exact (id_eq es g e N Hg He E). }
    rewrite Z in W. destruct W. }
  destruct r2 as [|a r2]; [discriminate|]. injection R2 as _ R2. assert (Hf : In f es) by (apply I; right; rewrite R2; apply in_or_app; right; cbn; auto).
  change (length (e :: g :: r)) with (S (length (g :: r))). remember (length (g :: r)) as k eqn:K. cbn [base_edges]. rewrite X. destruct (Nat.eqb (be_id g) (be_id f)) eqn:E.
  - apply Nat.eqb_eq in E. apply (id_eq es g f N Hg Hf) in E. subst g. destruct r2 as [|b r2]; [injection R2 as ->; reflexivity|]. exfalso. injection R2 as -> ->.
    inversion ND2 as [|x y M1 M2]; subst. apply M1. apply in_or_app. right. cbn; auto.
  - assert (DG : g <> f) by (intros ->; rewrite Nat.eqb_refl in E; discriminate).
    assert (Q := IH g (ex_intro _ r eq_refl) (ex_intro _ r2 R2) ltac:(intros z Hz; apply I; right; exact Hz) L2 ND2 DG). rewrite Q. reflexivity.
Qed.
Lemma base_reaches es f : forall n e l, base_edges n es e f = Ok l -> reaches n es e f = true.
Proof.
  induction n as [|n IH]; intros e l H; [discriminate|]. cbn [base_edges reaches] in *. destruct (get_next_edge es e) as [g|]; [|discriminate]. destruct (Nat.eqb _ _); [reflexivity|].
  destruct (base_edges n es g f) as [r| |] eqn:B; try discriminate. exact (IH _ _ B).
Qed.
Lemma route_unique es e f l n l' : NoDup (map be_id es) -> NoDup (map be_v1 es) -> e <> f -> route es e f l -> base_edges n es e f = Ok l' -> l = l'.
Proof. intros N NV D (A & B & C & L & ND) H. exact (base_det _ _ _ _ _ _ _ (route_base es f N NV l e A B C L ND D) H). Qed.
