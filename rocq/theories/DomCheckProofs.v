(* Proofs about the check of a domain. *)
From Coq Require Import Lia Lqa Permutation.
From Verif Require Import Base Chain GeomModel GeomSpec GeomProofs UtilModel BdryModel BdrySpec BdryProofs AdvanceModel AdvanceProofs LoopModel QLayerModel
  FrontProofs WindSpec WindProofs PolySpec PolyCorner PolyProofs ClearSpec ClearGeom ClearNest ClearStart ClearRun ClearDomain DomCheckModel DomCheckSpec.
Open Scope Q_scope.

(* ---- segments that share only ends do not intersect for the code ---- *)
Lemma strictly_on_conv a b r : ~ veq a b -> sharp (det a b r) -> in_segment a b r = true -> exists t, 0 < t < 1 /\ veq r (on_seg a b t).
Proof.
  intros N S I. apply in_segment_iff in I. destruct I as (D1 & D2 & H1 & H2). assert (P := norm_pos a b N).
  assert (D : det a b r == 0) by (destruct S as [S|[S|S]]; [exact S|lra|lra]).
  destruct (line_param a b r N D) as (x & E). exists x. split; [|exact E].
  destruct E as [E1 E2]. unfold on_seg in E1, E2. cbn [vx vy] in E1, E2.
  assert (X : vdot (vsub r a) (vsub b a) == x * vnorm2 (vsub b a)) by (unfold vnorm2, vdot, vsub; cbn [vx vy]; rewrite E1, E2; ring).
  rewrite X in H1, H2. set (n := vnorm2 (vsub b a)) in *. clearbody n. clear - P H1 H2. split; nra.
Qed.
Lemma cross_inner a b c d : (0 < det a b c /\ det a b d < 0) \/ (det a b c < 0 /\ 0 < det a b d) ->
  (0 < det c d a /\ det c d b < 0) \/ (det c d a < 0 /\ 0 < det c d b) ->
  exists s t, 0 < s < 1 /\ 0 < t < 1 /\ veq (on_seg a b s) (on_seg c d t).
Proof.
  intros H1 H2. set (A := det c d a) in *. set (B := det c d b) in *. set (C := det a b c) in *. set (D := det a b d) in *.
  assert (K : ~ A - B == 0) by lra. assert (K' : ~ C - D == 0) by lra.
  assert (Q1 : 0 < A / (A - B) < 1).
  { destruct H2 as [[X Y]|[X Y]].
    - split; [apply Qlt_shift_div_l; lra|apply Qlt_shift_div_r; lra].
    - assert (E : A / (A - B) == (- A) / (B - A)) by (field; split; [intros E; apply K; lra|exact K]). rewrite E.
      split; [apply Qlt_shift_div_l; lra|apply Qlt_shift_div_r; lra]. }
  assert (Q2 : 0 < C / (C - D) < 1).
  { destruct H1 as [[X Y]|[X Y]].
    - split; [apply Qlt_shift_div_l; lra|apply Qlt_shift_div_r; lra].
    - assert (E : C / (C - D) == (- C) / (D - C)) by (field; split; [intros E; apply K'; lra|exact K']). rewrite E.
      split; [apply Qlt_shift_div_l; lra|apply Qlt_shift_div_r; lra]. }
  exists (A / (A - B)), (C / (C - D)). split; [exact Q1|]. split; [exact Q2|].
  assert (BAL : A - B == D - C) by (unfold A, B, C, D, det; ring).
  assert (KK : ~ D - C == 0) by lra.
  unfold veq, on_seg. cbn [vx vy]. split.
  - assert (Z : C / (C - D) == (- C) / (A - B)) by (rewrite BAL; field; split; [exact KK|exact K']). rewrite Z.
    assert (R : (vx a * (A - B) + A * (vx b - vx a)) == (vx c * (A - B) - C * (vx d - vx c))) by (unfold A, B, C, det; ring).
    transitivity ((vx a * (A - B) + A * (vx b - vx a)) / (A - B)); [field; exact K|]. rewrite R. field. exact K.
  - assert (Z : C / (C - D) == (- C) / (A - B)) by (rewrite BAL; field; split; [exact KK|exact K']). rewrite Z.
    assert (R : (vy a * (A - B) + A * (vy b - vy a)) == (vy c * (A - B) - C * (vy d - vy c))) by (unfold A, B, C, det; ring).
    transitivity ((vy a * (A - B) + A * (vy b - vy a)) / (A - B)); [field; exact K|]. rewrite R. field. exact K.
Qed.
Lemma on_ends a b : veq (on_seg a b 0) a /\ veq (on_seg a b 1) b.
Proof. unfold veq, on_seg; cbn [vx vy]. repeat split; ring. Qed.
Lemma quiet_ends a b c d : ends_only a b c d -> ~ veq a b -> ~ veq c d ->
  sharp (det a b c) -> sharp (det a b d) -> sharp (det c d a) -> sharp (det c d b) -> line_line_intersection a b c d = false.
Proof.
  intros E N1 N2 S1 S2 S3 S4. destruct (line_line_intersection a b c d) eqn:H; [exfalso|reflexivity].
  assert (C1 : forall r k, (r == 0 \/ r == 1) -> 0 < k < 1 -> veq (on_seg c d r) (on_seg a b k) -> False).
  { intros r k R K X. destruct (E k r) as [[Z|Z] _]; try lra. apply veq_sym, X. }
  assert (C2 : forall r k, (r == 0 \/ r == 1) -> 0 < k < 1 -> veq (on_seg a b r) (on_seg c d k) -> False).
  { intros r k R K X. destruct (E r k) as [_ [Z|Z]]; try lra. exact X. }
  destruct (on_ends a b) as [A0 A1]. destruct (on_ends c d) as [B0 B1]. pose proof tol_pos.
  unfold line_line_intersection in H.
  destruct (opposite (orientation a b c) (orientation a b d) && opposite (orientation c d a) (orientation c d b)) eqn:O.
  - apply crossing_iff in O. destruct O as [O1 O2].
    destruct (cross_inner a b c d) as (s & t & Hs & Ht & X).
    + destruct O1 as [[X Y]|[X Y]]; [left|right]; split; lra.
    + destruct O2 as [[X Y]|[X Y]]; [left|right]; split; lra.
    + destruct (E s t) as [[Z|Z] _]; try lra. exact X.
  - destruct (orient_eqb (orientation a b c) CL && in_segment a b c) eqn:I1.
    { apply andb_true_iff in I1. destruct I1 as [_ I1]. destruct (strictly_on_conv a b c N1 S1 I1) as (t & T & X).
      apply (C1 0 t); [left; reflexivity|exact T|]. exact (veq_trans _ _ _ B0 X). }
    destruct (orient_eqb (orientation a b d) CL && in_segment a b d) eqn:I2.
    { apply andb_true_iff in I2. destruct I2 as [_ I2]. destruct (strictly_on_conv a b d N1 S2 I2) as (t & T & X).
      apply (C1 1 t); [right; reflexivity|exact T|]. exact (veq_trans _ _ _ B1 X). }
    destruct (orient_eqb (orientation c d a) CL && in_segment c d a) eqn:I3.
    { apply andb_true_iff in I3. destruct I3 as [_ I3]. destruct (strictly_on_conv c d a N2 S3 I3) as (t & T & X).
      apply (C2 0 t); [left; reflexivity|exact T|]. exact (veq_trans _ _ _ A0 X). }
    destruct (orient_eqb (orientation c d b) CL && in_segment c d b) eqn:I4; [|discriminate].
    apply andb_true_iff in I4. destruct I4 as [_ I4]. destruct (strictly_on_conv c d b N2 S4 I4) as (t & T & X).
    apply (C2 1 t); [right; reflexivity|exact T|]. exact (veq_trans _ _ _ A1 X).
Qed.

(* ---- walking around a ring ---- *)
Lemma filter_one {A} (p : A -> bool) l x : In x l -> p x = true -> (forall y, In y l -> p y = true -> y = x) -> NoDup l -> filter p l = [x].
Proof.
  induction l as [|a l IH]; intros I P U D; [destruct I|]. inversion D as [|? ? D1 D2]; subst. cbn [filter].
  destruct I as [->|I].
  - rewrite P. f_equal. apply filter_none. intros y J. destruct (p y) eqn:Q; [|reflexivity].
    exfalso. apply D1. rewrite <- (U y (or_intror J) Q). exact J.
  - destruct (p a) eqn:Q.
    + exfalso. apply D1. rewrite (U a (or_introl eq_refl) Q). exact I.
    + apply IH; try assumption. intros y J. apply U. right; exact J.
Qed.
Lemma starts_inj (es : list bedge) e f : NoDup (map be_v1 es) -> In e es -> In f es -> be_v1 e = be_v1 f -> e = f.
Proof.
  induction es as [|a es IH]; intros D I J E; [destruct I|]. inversion D as [|? ? D1 D2]; subst.
  destruct I as [->|I], J as [->|J]; [reflexivity| | |apply IH; assumption].
  - exfalso. apply D1. rewrite E. apply in_map, J.
  - exfalso. apply D1. rewrite <- E. apply in_map, I.
Qed.
Lemma ids_inj (es : list bedge) e f : NoDup (map be_id es) -> In e es -> In f es -> be_id e = be_id f -> e = f.
Proof.
  induction es as [|a es IH]; intros D I J E; [destruct I|]. inversion D as [|? ? D1 D2]; subst.
  destruct I as [->|I], J as [->|J]; [reflexivity| | |apply IH; assumption].
  - exfalso. apply D1. rewrite E. apply in_map, J.
  - exfalso. apply D1. rewrite <- E. apply in_map, I.
Qed.
Lemma next_unique es e f : NoDup (map be_v1 es) -> In f es -> be_v1 f = be_v2 e -> be_id f <> be_id e -> get_next_edge es e = Some f.
Proof.
  intros D I E N. unfold get_next_edge. rewrite (filter_one _ es f); [reflexivity|exact I| | |exact (NoDup_map_inv _ _ D)].
  - rewrite E, Nat.eqb_refl. cbn. apply negb_true_iff, Nat.eqb_neq, N.
  - intros y J Y. apply andb_true_iff in Y. destruct Y as [Y _]. apply Nat.eqb_eq in Y. apply (starts_inj es); try assumption. congruence.
Qed.

(* a path of edges from [e] along [l] to [stop] *)
Fixpoint linked (e : bedge) (l : list bedge) (stop : bedge) : Prop :=
  match l with [] => be_v2 e = be_v1 stop | f :: r => be_v2 e = be_v1 f /\ linked f r stop end.
Lemma reaches_linked es stop l : forall e n, NoDup (map be_v1 es) -> In stop es -> (forall f, In f (e :: l) -> In f es /\ be_v1 f <> be_v2 f) ->
  NoDup (map be_id es) -> linked e l stop -> (length l < n)%nat -> reaches n es e stop = true.
Proof.
  induction l as [|f l IH]; intros e n D S I DI L N.
  - destruct n as [|n]; [cbn in N; lia|]. cbn [reaches]. cbn [linked] in L. destruct (I e (or_introl eq_refl)) as [Ie Pe].
    rewrite (next_unique es e stop D S); [rewrite Nat.eqb_refl; reflexivity|congruence|].
    intros X. apply Pe. assert (stop = e) by (apply (ids_inj es); assumption). congruence.
  - destruct n as [|n]; [cbn in N; lia|]. cbn [reaches]. destruct L as [L1 L2].
    destruct (I e (or_introl eq_refl)) as [Ie Pe]. destruct (I f (or_intror (or_introl eq_refl))) as [If_ Pf].
    rewrite (next_unique es e f D If_); [|congruence|].
    2:{ intros X. apply Pe. assert (f = e) by (apply (ids_inj es); assumption). congruence. }
    destruct (Nat.eqb (be_id f) (be_id stop)); [reflexivity|]. apply IH; try assumption.
    + intros g J. apply I. right; exact J.
    + cbn in N. lia.
Qed.

Lemma linked_app e l f r stop : linked e (l ++ f :: r) stop <-> linked e l f /\ linked f r stop.
Proof. revert e. induction l as [|g l IH]; intros e; cbn [app linked]; [tauto|]. rewrite IH. tauto. Qed.
Lemma path_linked r : forall a x l y, ends (a :: r) = path_edges x (l ++ [y]) -> be_v1 a = x /\ (forall stop, be_v1 stop = y -> linked a r stop).
Proof.
  induction r as [|b r IH]; intros a x l y E.
  - destruct l as [|z l]; cbn in E.
    + injection E as E1 E2. split; [exact E1|]. intros stop H. cbn [linked]. congruence.
    + exfalso. apply (f_equal (@length _)) in E. cbn in E. rewrite path_edges_length, app_length in E. cbn in E. lia.
  - destruct l as [|z l].
    + exfalso. cbn in E. discriminate.
    + cbn [app path_edges] in E. change (ends (a :: b :: r)) with ((be_v1 a, be_v2 a) :: ends (b :: r)) in E. injection E as E1 E2 E3.
      destruct (IH b z l y E3) as [F1 F2]. split; [exact E1|]. intros stop H. cbn [linked]. split; [congruence|apply F2, H].
Qed.
Lemma ring_linked a r vs : ends (a :: r) = ring_edges vs -> linked a r a.
Proof.
  destruct vs as [|x l]; [discriminate|]. cbn [ring_edges]. intros E. destruct (path_linked r a x l x E) as [F1 F2]. apply F2, F1.
Qed.
Lemma ring_around es vs e : ends es = ring_edges vs -> In e es -> exists l, linked e l e /\ Permutation es (e :: l).
Proof.
  intros E I. destruct es as [|a r]; [destruct I|]. assert (L := ring_linked a r vs E). destruct I as [->|I]; [exists r; split; [exact L|apply Permutation_refl]|].
  apply in_split in I. destruct I as (l1 & l2 & ->). apply linked_app in L. destruct L as [L1 L2].
  exists (l2 ++ a :: l1). split; [apply linked_app; split; assumption|].
  change (a :: l1 ++ e :: l2) with ((a :: l1) ++ e :: l2). change (e :: l2 ++ a :: l1) with ((e :: l2) ++ a :: l1). apply Permutation_app_comm.
Qed.
Lemma ring_starts {A} (vs : list A) : map fst (ring_edges vs) = vs.
Proof. destruct vs as [|a l]; [reflexivity|]. cbn [ring_edges]. rewrite path_fst. change (a :: l ++ [a]) with ((a :: l) ++ [a]). apply removelast_last. Qed.
Lemma perm_ends es l : Permutation (ends es) l -> exists es', Permutation es es' /\ ends es' = l.
Proof.
  intros P. unfold ends in P. apply Permutation_sym in P. destruct (Permutation_map_inv _ _ P) as (es' & E & Q). exists es'. split; [exact Q|]. symmetry; exact E.
Qed.
Lemma path_map {A B} (f : A -> B) l : forall a, path_edges (f a) (map f l) = map (fun e => (f (fst e), f (snd e))) (path_edges a l).
Proof. induction l as [|b l IH]; intros a; [reflexivity|]. cbn [map path_edges]. rewrite IH. reflexivity. Qed.
Lemma ring_map {A B} (f : A -> B) l : ring_edges (map f l) = map (fun e => (f (fst e), f (snd e))) (ring_edges l).
Proof. destruct l as [|a l]; [reflexivity|]. cbn [map ring_edges]. rewrite <- path_map, map_app. reflexivity. Qed.

Lemma positions_ids (pos : nat -> vec2) vs : ForallOrdPairs (fun a b => ~ veq a b) (map pos vs) -> NoDup vs.
Proof.
  induction vs as [|a l IH]; intros F; [constructor|]. inversion F as [|? ? F1 F2]; subst. constructor; [|apply IH, F2].
  intros I. rewrite Forall_forall in F1. apply (F1 (pos a)); [apply in_map, I|apply veq_refl].
Qed.

Section Ring.
Variable pos : nat -> vec2.
Variable es : list bedge.
Variable vs : list nat.
Hypothesis IDS : NoDup (map be_id es).
Hypothesis POLY : polygon_of pos es vs.

Lemma seg_ring e : In e es -> In (seg pos e) (ring_edges (map pos vs)).
Proof.
  intros I. rewrite ring_map. unfold seg. apply (in_map (fun p => (pos (fst p), pos (snd p)))) with (x := (be_v1 e, be_v2 e)).
  apply (Permutation_in _ (proj1 POLY)). unfold ends. apply (in_map (fun e => (be_v1 e, be_v2 e))), I.
Qed.
Lemma seg_proper e : In e es -> ~ veq (pos (be_v1 e)) (pos (be_v2 e)).
Proof. intros I. exact (proper_edges (map pos vs) (seg pos e) (proj2 POLY) (seg_ring e I)). Qed.
Lemma starts_nodup : NoDup (map be_v1 es).
Proof.
  assert (E : map be_v1 es = map fst (ends es)) by (unfold ends; rewrite map_map; reflexivity). rewrite E.
  apply (Permutation_NoDup (l := map fst (ring_edges vs))); [apply Permutation_map, Permutation_sym, POLY|].
  rewrite ring_starts. apply (positions_ids pos), POLY.
Qed.
Lemma ring_traversable e r : es = e :: r -> is_traversable es e e = true.
Proof.
  intros E. destruct (perm_ends es _ (proj1 POLY)) as (es' & P & E').
  assert (I : In e es) by (rewrite E; left; reflexivity).
  destruct (ring_around es' vs e E' (Permutation_in _ P I)) as (l & L & Q).
  assert (PQ : Permutation es (e :: l)) by (transitivity es'; assumption).
  unfold is_traversable. apply (reaches_linked es e l); try assumption.
  - exact starts_nodup.
  - intros f J. assert (If_ : In f es) by (apply (Permutation_in _ (Permutation_sym PQ)), J). split; [exact If_|].
    intros X. apply (seg_proper f If_). rewrite X. apply veq_refl.
  - apply Permutation_length in PQ. cbn [length] in PQ. lia.
Qed.
Lemma ring_apart e f : In e es -> In f es -> be_id e <> be_id f ->
  ends_only (fst (seg pos e)) (snd (seg pos e)) (fst (seg pos f)) (snd (seg pos f)).
Proof.
  intros I J N s t S T X. destruct POLY as [P (L & D & M)].
  apply (M (seg pos e) (seg pos f) s t (seg_ring e I) (seg_ring f J)); try assumption.
  intros E. apply N. f_equal. apply (starts_inj es); try assumption; [exact starts_nodup|].
  unfold seg in E. injection E as E _.
  assert (V : In (be_v1 e) vs /\ In (be_v1 f) vs).
  { rewrite <- (ring_starts vs). split; apply in_map_iff.
    - exists (be_v1 e, be_v2 e). split; [reflexivity|]. apply (Permutation_in _ P). unfold ends. apply (in_map (fun e => (be_v1 e, be_v2 e))), I.
    - exists (be_v1 f, be_v2 f). split; [reflexivity|]. apply (Permutation_in _ P). unfold ends. apply (in_map (fun e => (be_v1 e, be_v2 e))), J. }
  destruct V as [V1 V2]. clear - D V1 V2 E. induction vs as [|a l IH]; [destruct V1|]. inversion D as [|? ? F1 F2]; subst. rewrite Forall_forall in F1.
  destruct V1 as [V1|V1], V2 as [V2|V2]; [congruence| | |apply IH; assumption]; exfalso.
  - apply (F1 _ (in_map pos _ _ V2)). rewrite V1, E. apply veq_refl.
  - apply (F1 _ (in_map pos _ _ V1)). rewrite V2, E. apply veq_refl.
Qed.
End Ring.

Lemma fop_at {A} (R : A -> A -> Prop) l : (forall x y, R x y -> R y x) -> ForallOrdPairs R l ->
  forall k i j x y, In (i, x) (combine (seq k (length l)) l) -> In (j, y) (combine (seq k (length l)) l) -> i <> j -> R x y.
Proof.
  intros SYM. induction 1 as [|a l F1 F2 IH]; intros k i j x y I J N; [destruct I|]. cbn [length seq combine] in I, J. rewrite Forall_forall in F1.
  destruct I as [I|I], J as [J|J].
  - congruence.
  - injection I as <- <-. apply F1. apply in_combine_r in J. exact J.
  - injection J as <- <-. apply SYM, F1. apply in_combine_r in I. exact I.
  - apply (IH (S k) i j); assumption.
Qed.

Lemma rings_traversable pos bs : (forall b, In b bs -> NoDup (map be_id (vb_edges b))) ->
  (forall b, In b bs -> exists vs, polygon_of pos (vb_edges b) vs) -> all_traversable bs = Ok true.
Proof.
  induction bs as [|b r IH]; intros IDS PO; [reflexivity|]. cbn [all_traversable].
  assert (P : exists vs, polygon_of pos (vb_edges b) vs) by (apply PO; left; reflexivity). destruct P as (vs & P).
  assert (D : NoDup (map be_id (vb_edges b))) by (apply IDS; left; reflexivity).
  destruct (vb_edges b) as [|e l].
  - exfalso. destruct P as [P (L & _)]. apply Permutation_length in P. rewrite map_length in L. rewrite ring_edges_length in P. cbn in P. lia.
  - rewrite (ring_traversable pos (e :: l) vs D P e l eq_refl). apply IH; intros c I; [apply IDS|apply PO]; right; exact I.
Qed.

Section Accept.
Variable pos : nat -> vec2.
Variable bs : list vboundary.
Hypothesis SD : sound_domain pos bs.

Lemma in_whole b e : In b bs -> In e (vb_edges b) -> In e (whole bs).
Proof. intros I J. apply in_flat_map. exists b. split; assumption. Qed.
Lemma sound_traversable : all_traversable bs = Ok true.
Proof. apply (rings_traversable pos); [exact (sd_ids _ _ SD)|exact (sd_polygon _ _ SD)]. Qed.
Lemma quiet_edges e f : In e (whole bs) -> In f (whole bs) -> ends_only (fst (seg pos e)) (snd (seg pos e)) (fst (seg pos f)) (snd (seg pos f)) ->
  ~ veq (pos (be_v1 e)) (pos (be_v2 e)) -> ~ veq (pos (be_v1 f)) (pos (be_v2 f)) -> edges_cross pos e f = false.
Proof.
  intros I J E N1 N2. destruct (sd_sharp _ _ SD e f I J) as [S1 S2]. destruct (sd_sharp _ _ SD f e J I) as [S3 S4].
  unfold edges_cross, edge_xy. cbn [fst snd]. apply quiet_ends; assumption.
Qed.
Lemma sound_quiet : any_crossing pos bs = false.
Proof.
  destruct (any_crossing pos bs) eqn:H; [exfalso|reflexivity]. unfold any_crossing in H. apply existsb_exists in H. destruct H as ([i b] & Ib & H).
  cbn [fst snd] in H. assert (Ib' := in_combine_r _ _ _ _ Ib).
  destruct (sd_polygon _ _ SD b Ib') as (vs & PB).
  apply orb_true_iff in H. destruct H as [H|H].
  - unfold self_crossing in H. apply existsb_exists in H. destruct H as (e & Ie & H). apply existsb_exists in H. destruct H as (f & If_ & H).
    rewrite !andb_true_iff in H. destruct H as ((((_ & N) & _) & _) & X). apply negb_true_iff, Nat.eqb_neq in N.
    rewrite (quiet_edges e f) in X; [discriminate|apply (in_whole b); assumption|apply (in_whole b); assumption| | |].
    + apply (ring_apart pos (vb_edges b) vs PB); try assumption. intros Z. apply N. symmetry; exact Z.
    + apply (seg_proper pos (vb_edges b) vs PB e Ie).
    + apply (seg_proper pos (vb_edges b) vs PB f If_).
  - apply existsb_exists in H. destruct H as ([j c] & Jc & H). cbn [fst snd] in H. assert (Jc' := in_combine_r _ _ _ _ Jc).
    destruct (sd_polygon _ _ SD c Jc') as (ws & PC).
    apply andb_true_iff in H. destruct H as [N H]. apply negb_true_iff, Nat.eqb_neq in N.
    unfold lists_cross in H. apply existsb_exists in H. destruct H as (e & Ie & H). apply existsb_exists in H. destruct H as (f & If_ & H).
    apply andb_true_iff in H. destruct H as [_ X].
    rewrite (quiet_edges e f) in X; [discriminate|apply (in_whole b); assumption|apply (in_whole c); assumption| | |].
    + assert (SEP := fop_at _ _ (fun x y H => separate_sym _ _ H) (sd_separate _ _ SD) 0%nat i j b c Ib Jc (fun E => N (eq_sym E))).
      intros s t S T Y. exfalso. exact (SEP (seg pos e) (seg pos f) s t (in_map _ _ _ Ie) (in_map _ _ _ If_) S T Y).
    + apply (seg_proper pos (vb_edges b) vs PB e Ie).
    + apply (seg_proper pos (vb_edges c) ws PC f If_).
Qed.
Lemma sound_accepted : check_domain_validity pos bs = Ok true.
Proof.
  assert (T := sound_traversable). assert (C := sound_quiet). destruct (sd_exterior _ _ SD) as (b & I & X).
  unfold check_domain_validity. assert (Y : existsb vb_exterior bs = true) by (apply existsb_exists; exists b; split; [exact I|unfold vb_exterior; rewrite X; reflexivity]).
  rewrite Y, T, C. destruct bs; [destruct I|reflexivity].
Qed.
End Accept.

(* ---- what acceptance means ---- *)
Lemma minmax_box x y m : Qleb (Qminb x y) m && Qleb m (Qmaxb x y) = true <-> (x <= m <= y \/ y <= m <= x).
Proof.
  rewrite andb_true_iff, !Qleb_true. unfold Qminb, Qmaxb.
  destruct (Qltb x y) eqn:E; [apply Qltb_true in E|apply Qltb_false in E]; destruct (Qltb y x) eqn:F; [apply Qltb_true in F|apply Qltb_false in F|apply Qltb_true in F|apply Qltb_false in F];
  split; intros H; try lra.
Qed.
Lemma box_iff e f : in_box_of e f = true <-> in_box (fst e) (snd e) (on_seg (fst f) (snd f) (1 # 2)).
Proof.
  assert (X : vx (BdryModel.mid f) == vx (on_seg (fst f) (snd f) (1 # 2))) by (unfold BdryModel.mid, on_seg; cbn [vx]; ring).
  assert (Y : vy (BdryModel.mid f) == vy (on_seg (fst f) (snd f) (1 # 2))) by (unfold BdryModel.mid, on_seg; cbn [vy]; ring).
  unfold in_box. rewrite <- X, <- Y. rewrite <- !minmax_box. unfold in_box_of, bbox_min, bbox_max. cbn [vx vy]. rewrite !andb_true_iff. tauto.
Qed.
Lemma ends_only_sym a b c d : ends_only a b c d -> ends_only c d a b.
Proof. intros E s t S T X. destruct (E t s T S (veq_sym _ _ X)). split; assumption. Qed.
Lemma reaches_path es stop n : forall e, reaches n es e stop = true -> In stop es -> NoDup (map be_id es) ->
  exists l, linked e l stop /\ (forall f, In f l -> In f es) /\ (length l < n)%nat.
Proof.
  induction n as [|n IH]; intros e R S D; [discriminate|]. cbn [reaches] in R. destruct (get_next_edge es e) as [f|] eqn:E; [|discriminate].
  unfold get_next_edge in E. apply oldest_in, filter_In in E. destruct E as [I E]. apply andb_true_iff in E. destruct E as [E _]. apply Nat.eqb_eq in E.
  destruct (Nat.eqb (be_id f) (be_id stop)) eqn:Q.
  - apply Nat.eqb_eq in Q. assert (f = stop) by (apply (ids_inj es); assumption). subst f. exists []. split; [cbn; congruence|]. split; [intros ? []|cbn; lia].
  - destruct (IH f R S D) as (l & L1 & L2 & L3). exists (f :: l). split; [split; [congruence|exact L1]|]. split; [|cbn; lia].
    intros g [<-|J]; [exact I|apply L2, J].
Qed.
Lemma traversable_all bs : all_traversable bs = Ok true -> forall b, In b bs -> exists e r, vb_edges b = e :: r /\ is_traversable (vb_edges b) e e = true.
Proof.
  induction bs as [|c bs IH]; intros H b I; [destruct I|]. cbn [all_traversable] in H. destruct (vb_edges c) as [|e r] eqn:E; [discriminate|].
  destruct (is_traversable (e :: r) e e) eqn:T; [|discriminate]. destruct I as [->|I]; [exists e, r; rewrite E; split; [reflexivity|exact T]|apply IH; assumption].
Qed.
Lemma traversable_ub bs : all_traversable bs = UB <-> exists l1 b l2, bs = l1 ++ b :: l2 /\ all_traversable l1 = Ok true /\ vb_edges b = [].
Proof.
  split.
  - induction bs as [|c bs IH]; intros H; [discriminate|]. cbn [all_traversable] in H. destruct (vb_edges c) as [|e r] eqn:E.
    + exists [], c, bs. repeat split; assumption.
    + destruct (is_traversable (e :: r) e e) eqn:T; [|discriminate]. destruct (IH H) as (l1 & b & l2 & -> & A & B). exists (c :: l1), b, l2.
      split; [reflexivity|]. split; [|exact B]. cbn [all_traversable]. rewrite E, T. exact A.
  - intros (l1 & b & l2 & -> & A & B). induction l1 as [|c l1 IH]; cbn [app all_traversable]; [rewrite B; reflexivity|].
    cbn [all_traversable] in A. destruct (vb_edges c) as [|e r]; [discriminate|]. destruct (is_traversable (e :: r) e e); [apply IH, A|discriminate].
Qed.
Lemma traversable_no_throw bs : all_traversable bs <> Throw.
Proof. induction bs as [|c bs IH]; cbn [all_traversable]; [discriminate|]. destruct (vb_edges c) as [|e r]; [discriminate|]. destruct (is_traversable (e :: r) e e); [exact IH|discriminate]. Qed.
Lemma accepted_parts pos bs : check_domain_validity pos bs = Ok true ->
  (exists b, In b bs /\ vb_type b = EXTERIOR) /\ all_traversable bs = Ok true /\ any_crossing pos bs = false.
Proof.
  unfold check_domain_validity. intros H. assert (N : bs <> []) by (intros ->; discriminate). destruct (existsb vb_exterior bs) eqn:X.
  - split; [apply existsb_exists in X; destruct X as (b & I & X); exists b; split; [exact I|]; unfold vb_exterior in X; destruct (vb_type b); [reflexivity|discriminate] |].
    destruct bs as [|c bs]; [discriminate|]. cbn [negb] in H. destruct (all_traversable (c :: bs)) as [[|]| |]; try discriminate.
    cbn [obind negb] in H. injection H as H. split; [reflexivity|]. destruct (any_crossing pos (c :: bs)); [discriminate|reflexivity].
  - destruct bs; discriminate.
Qed.
Lemma quiet_pairs pos bs i j b c e f : any_crossing pos bs = false -> NoDup (map be_id (vb_edges b)) -> In (i, b) (combine (seq 0 (length bs)) bs) -> In (j, c) (combine (seq 0 (length bs)) bs) ->
  In e (vb_edges b) -> In f (vb_edges c) -> i <> j \/ (b = c /\ be_id e <> be_id f /\ ~ consecutive e f) ->
  in_box_of (seg pos e) (seg pos f) = true -> edges_cross pos e f = false.
Proof.
  intros A D Ib Jc Ie If_ N B. destruct (edges_cross pos e f) eqn:X; [exfalso|reflexivity].
  assert (Y : any_crossing pos bs = true); [|congruence]. apply existsb_exists. exists (i, b). split; [exact Ib|]. cbn [fst snd]. apply orb_true_iff.
  destruct N as [N|(E & N & K)].
  - right. apply existsb_exists. exists (j, c). split; [exact Jc|]. cbn [fst snd]. apply andb_true_iff. split; [apply negb_true_iff, Nat.eqb_neq; congruence|].
    apply existsb_exists. exists e. split; [exact Ie|]. apply existsb_exists. exists f. split; [exact If_|]. apply andb_true_iff. split; [exact B|exact X].
  - subst c. left. apply existsb_exists. exists e. split; [exact Ie|]. apply existsb_exists. exists f. split; [exact If_|].
    rewrite !andb_true_iff, !negb_true_iff. repeat split.
    + exact B.
    + apply Nat.eqb_neq. congruence.
    + destruct (get_prev_edge (vb_edges b) e) as [g|] eqn:G; [|reflexivity]. cbn [points_to]. apply Nat.eqb_neq. intros E.
      unfold get_prev_edge in G. apply oldest_in, filter_In in G. destruct G as [G1 G2].
      apply andb_true_iff in G2. destruct G2 as [G2 _]. apply Nat.eqb_eq in G2. apply K. right.
      assert (g = f) by (apply (ids_inj (vb_edges b)); assumption). congruence.
    + destruct (get_next_edge (vb_edges b) e) as [g|] eqn:G; [|reflexivity]. cbn [points_to]. apply Nat.eqb_neq. intros E.
      unfold get_next_edge in G. apply oldest_in, filter_In in G. destruct G as [G1 G2].
      apply andb_true_iff in G2. destruct G2 as [G2 _]. apply Nat.eqb_eq in G2. apply K. left.
      assert (g = f) by (apply (ids_inj (vb_edges b)); assumption). congruence.
    + exact X.
Qed.
Lemma accepted_pairs pos bs i j b c e f : any_crossing pos bs = false ->
  (forall b, In b bs -> NoDup (map be_id (vb_edges b))) ->
  In (i, b) (combine (seq 0 (length bs)) bs) -> In (j, c) (combine (seq 0 (length bs)) bs) ->
  In e (vb_edges b) -> In f (vb_edges c) -> i <> j \/ (b = c /\ be_id e <> be_id f /\ ~ consecutive e f) ->
  ~ veq (pos (be_v1 e)) (pos (be_v2 e)) -> ~ veq (pos (be_v1 f)) (pos (be_v2 f)) ->
  sharp (det (pos (be_v1 e)) (pos (be_v2 e)) (pos (be_v1 f))) -> sharp (det (pos (be_v1 e)) (pos (be_v2 e)) (pos (be_v2 f))) ->
  sharp (det (pos (be_v1 f)) (pos (be_v2 f)) (pos (be_v1 e))) -> sharp (det (pos (be_v1 f)) (pos (be_v2 f)) (pos (be_v2 e))) ->
  reached (pos (be_v1 e)) (pos (be_v2 e)) (pos (be_v1 f)) (pos (be_v2 f)) ->
  ends_only (pos (be_v1 e)) (pos (be_v2 e)) (pos (be_v1 f)) (pos (be_v2 f)) \/ same_ends (pos (be_v1 e)) (pos (be_v2 e)) (pos (be_v1 f)) (pos (be_v2 f)).
Proof.
  intros A D Ib Jc Ie If_ N P1 P2 S1 S2 S3 S4 [R|[R|R]]; [left; exact R| |].
  - assert (X : edges_cross pos e f = false).
    { apply (quiet_pairs pos bs i j b c e f A); try assumption; [apply D, (in_combine_r _ _ _ _ Ib)|]. apply box_iff. exact R. }
    destruct (same_ends_dec (pos (be_v1 e)) (pos (be_v2 e)) (pos (be_v1 f)) (pos (be_v2 f))) as [Z|Z]; [right; exact Z|left].
    intros s t S T E. destruct (quiet_pair _ _ _ _ s t X P1 P2 S1 S2 S3 S4 S T E) as [W|W]; [exact W|contradiction].
  - assert (X : edges_cross pos f e = false).
    { apply (quiet_pairs pos bs j i c b f e A); try assumption; [apply D, (in_combine_r _ _ _ _ Jc)| |apply box_iff; exact R].
      destruct N as [N|(-> & N & K)]; [left; congruence|right]. repeat split; [congruence|]. unfold consecutive in *. tauto. }
    destruct (same_ends_dec (pos (be_v1 e)) (pos (be_v2 e)) (pos (be_v1 f)) (pos (be_v2 f))) as [Z|Z]; [right; exact Z|left].
    intros s t S T E. destruct (quiet_pair _ _ _ _ t s X P2 P1 S3 S4 S1 S2 T S (veq_sym _ _ E)) as [W|W]; [tauto|].
    exfalso. apply Z. destruct W as [[W1 W2]|[W1 W2]]; [left|right]; split; apply veq_sym; assumption.
Qed.
