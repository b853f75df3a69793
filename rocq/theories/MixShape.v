(* Sides of elements that do not overlap, and the fronts around them: proofs for
   ContProps. *)
From Coq Require Import Lqa Lia Permutation.
From Verif Require Import Base Chain GeomModel GeomSpec GeomProofs FacetModel UtilModel BdryModel BdrySpec
  AdvanceModel AdvanceSpec AdvanceProofs AdvanceInv AdvanceMore MeshModel WindSpec WindProofs PolyProofs WindProps
  ClearSpec ClearGeom ClearWind ClearStep ClearRun ClearEnd FinMesh.
Open Scope Q_scope.

(* ---- sides of one element ---- *)
Lemma shape_side pos s p q : simple_shape pos s -> In (p, q) (shape_sides s) ->
  exists r, 0 < det (pos p) (pos q) (pos r) /\ forall z, WindSpec.within z (pos p) (pos q) (pos r) -> inside_shape pos s z.
Proof.
  assert (T : forall x y z, det y z x == det x y z) by (intros; unfold det; ring).
  destruct s as [a b c|a b c d]; cbn [simple_shape inside_shape]; intros S I.
  - change (shape_sides (Tri3 a b c)) with [(a, b); (b, c); (c, a)] in I. destruct I as [I|[I|[I|[]]]]; injection I as <- <-.
    + exists c. split; [exact S|auto].
    + exists a. split; [rewrite T; exact S|]. intros z H. apply within_turn, within_turn, H.
    + exists b. split; [rewrite <- T; exact S|]. intros z H. apply within_turn, H.
  - change (shape_sides (Quad4 a b c d)) with [(a, b); (b, c); (c, d); (d, a)] in I.
    destruct S as [[S1 S2]|[S1 S2]]; destruct I as [I|[I|[I|[I|[]]]]]; injection I as <- <-.
    + exists c. split; [exact S1|]. intros z H. left. split; [split; assumption|]. left. exact H.
    + exists a. split; [rewrite T; exact S1|]. intros z H. left. split; [split; assumption|]. left. apply within_turn, within_turn, H.
    + exists a. split; [rewrite T; exact S2|]. intros z H. left. split; [split; assumption|]. right. left. apply within_turn, within_turn, H.
    + exists c. split; [rewrite <- T; exact S2|]. intros z H. left. split; [split; assumption|]. right. left. apply within_turn, H.
    + exists d. split; [rewrite <- T; exact S2|]. intros z H. right. split; [split; assumption|]. right. left. apply within_turn, H.
    + exists d. split; [exact S1|]. intros z H. right. split; [split; assumption|]. left. exact H.
    + exists b. split; [rewrite T; exact S1|]. intros z H. right. split; [split; assumption|]. left. apply within_turn, within_turn, H.
    + exists b. split; [rewrite T; exact S2|]. intros z H. right. split; [split; assumption|]. right. left. apply within_turn, within_turn, H.
Qed.
Lemma simple_corners pos s : simple_shape pos s -> NoDup (corners s).
Proof.
  assert (D : forall a b c, 0 < det (pos a) (pos b) (pos c) -> a <> b /\ b <> c /\ c <> a).
  { intros a b c H. repeat split; intros ->; unfold det in H; lra. }
  destruct s as [a b c|a b c d]; cbn [simple_shape corners].
  - intros H. apply D in H. repeat constructor; cbn; intuition congruence.
  - assert (O : forall a b c d, cuts (pos a) (pos b) (pos c) (pos d) -> a <> b /\ b <> c /\ c <> d /\ d <> a /\ a <> c /\ b <> d).
    { intros x y z w [H1 H2]. destruct (D _ _ _ H1) as (X1 & X2 & X3). destruct (D _ _ _ H2) as (Y1 & Y2 & Y3).
      repeat split; try congruence. intros ->. unfold det in H1, H2. lra. }
    intros [H|H]; apply O in H; repeat constructor; cbn; intuition congruence.
Qed.
Lemma shape_uses s p q : NoDup (corners s) -> (uses p q (shape_sides s) <= 1)%nat.
Proof.
  intros ND. assert (N : NoDup (shape_sides s)).
  { destruct s as [a b c|a b c d]; cbn [corners] in ND.
    - change (shape_sides (Tri3 a b c)) with [(a, b); (b, c); (c, a)].
      inversion ND as [|? ? N1 ND1]; inversion ND1 as [|? ? N2 ND2]; subst. cbn in N1, N2.
      repeat constructor; cbn; intros H; repeat (destruct H as [H|H]); try contradiction; injection H; intros; subst; tauto.
    - change (shape_sides (Quad4 a b c d)) with [(a, b); (b, c); (c, d); (d, a)].
      inversion ND as [|? ? N1 ND1]; inversion ND1 as [|? ? N2 ND2]; inversion ND2 as [|? ? N3 ND3]; subst. cbn in N1, N2, N3.
      repeat constructor; cbn; intros H; repeat (destruct H as [H|H]); try contradiction; injection H; intros; subst; tauto. }
  destruct (Nat.le_gt_cases (uses p q (shape_sides s)) 1) as [L|L]; [exact L|exfalso].
  revert N L. generalize (shape_sides s). intros l. induction l as [|[a b] l IH]; intros N L; [cbn in L; lia|].
  inversion N as [|? ? X N']; subst. rewrite uses_cons in L. destruct (Nat.eqb_spec a p), (Nat.eqb_spec b q); cbn [andb] in L; try (apply IH; [assumption|lia]).
  subst. rewrite (uses_zero p q l X) in L. lia.
Qed.
Lemma shapes_once pos ss p q : (forall s, In s ss -> simple_shape pos s) ->
  (forall i j s t z, nth_error ss i = Some s -> nth_error ss j = Some t -> inside_shape pos s z -> inside_shape pos t z -> i = j) ->
  (uses p q (flat_map shape_sides ss) <= 1)%nat.
Proof.
  induction ss as [|s ss IH]; intros A D; [cbn; lia|]. cbn [flat_map]. rewrite uses_app.
  assert (U := shape_uses s p q (simple_corners pos s (A s (or_introl eq_refl)))).
  assert (IH' : (uses p q (flat_map shape_sides ss) <= 1)%nat).
  { apply IH; [intros u I; apply A; right; exact I|]. intros i j u v z Hi Hj Z1 Z2. specialize (D (S i) (S j) u v z Hi Hj Z1 Z2). lia. }
  destruct (Nat.eq_dec (uses p q (shape_sides s)) 0) as [Z|Z]; [lia|]. destruct (Nat.eq_dec (uses p q (flat_map shape_sides ss)) 0) as [Y|Y]; [lia|]. exfalso.
  apply uses_some in Z. apply uses_some in Y. apply in_flat_map in Y. destruct Y as (u & Iu & Su).
  destruct (shape_side pos s p q (A s (or_introl eq_refl)) Z) as (r & D1 & R1). destruct (shape_side pos u p q (A u (or_intror Iu)) Su) as (w & D2 & R2).
  destruct (same_side _ _ _ _ D1 D2) as (z & Z1 & Z2).
  destruct (In_nth_error _ _ Iu) as (j & J). specialize (D 0%nat (S j) s u z eq_refl J (R1 z Z1) (R2 z Z2)). discriminate.
Qed.

(* ---- simple fronts have every edge once and not against itself ---- *)
Lemma simple_uses pos es p q : simple_front pos es -> (uses p q (ends es) + uses q p (ends es) <= 1)%nat.
Proof.
  intros S. destruct (Nat.eq_dec p q) as [->|NQ].
  - assert (Z : uses q q (ends es) = 0%nat).
    { apply uses_zero. intros I. unfold ends in I. apply in_map_iff in I. destruct I as (e & E & I). apply (sf_proper _ _ S e I). congruence. }
    lia.
  - rewrite <- uses_any_split by exact NQ.
    destruct (Nat.le_gt_cases (uses_any p q (ends es)) 1) as [L|L]; [exact L|exfalso].
    assert (X : exists e f, In e es /\ In f es /\ be_id e <> be_id f /\ (pair_of e = (p, q) \/ pair_of e = (q, p)) /\ (pair_of f = (p, q) \/ pair_of f = (q, p))).
    { assert (N := sf_ids _ _ S). clear S. revert N L. induction es as [|e es IH]; intros N L; [cbn in L; lia|].
      inversion N as [|? ? NI N']; subst. unfold ends in L. cbn [map] in L. unfold uses_any in L. cbn [filter fst snd] in L.
      destruct ((Nat.eqb (be_v1 e) p && Nat.eqb (be_v2 e) q) || (Nat.eqb (be_v2 e) p && Nat.eqb (be_v1 e) q)) eqn:E.
      - cbn [length] in L. assert (U : uses_any p q (ends es) <> 0%nat) by (unfold uses_any, ends; lia). apply uses_any_in in U.
        assert (Y : exists f, In f es /\ (pair_of f = (p, q) \/ pair_of f = (q, p))).
        { destruct U as [U|U]; unfold ends in U; apply in_map_iff in U; destruct U as (f & Ef & If); exists f; unfold pair_of; auto. }
        destruct Y as (f & If & Pf). exists e, f. split; [left; reflexivity|]. split; [right; exact If|]. split; [intros K; apply NI; rewrite K; apply in_map, If|].
        split; [|exact Pf]. rewrite orb_true_iff, !andb_true_iff, !Nat.eqb_eq in E. unfold pair_of. destruct E as [[-> ->]|[-> ->]]; auto.
      - destruct (IH N' ltac:(unfold uses_any, ends; lia)) as (x & y & A & B & C). exists x, y. split; [right; exact A|]. split; [right; exact B|]. exact C. }
    destruct X as (e & f & I & J & NI & Pe & Pf). assert (EO := sf_ends _ _ S e f I J NI (1 # 2) (1 # 2) ltac:(lra) ltac:(lra)).
    destruct EO as [[X|X] _]; try lra. unfold seg, pair_of in *. cbn [fst snd].
    destruct Pe as [Pe|Pe], Pf as [Pf|Pf]; injection Pe as -> ->; injection Pf as -> ->; unfold veq, on_seg; cbn [vx vy]; split; ring.
Qed.

(* ---- elements beside the edges of fronts ---- *)
Section Beside.
Variable pos : nat -> vec2.
Variable ss : list shape.
Variables f0 fr : list bedge.
Hypothesis S0 : simple_front pos f0.
Hypothesis SF : simple_front pos fr.
Hypothesis SS : forall s, In s ss -> simple_shape pos s.
Hypothesis TOT : forall w, antisym w -> esum w (flat_map shape_sides ss) + esum w (ends fr) == esum w (ends f0).

Lemma mix_tiles : tiles pos ss (fun z => winding z (map (seg pos) f0) - winding z (map (seg pos) fr)).
Proof.
  intros z. destruct (all_owned pos z ss SS) as (bs & O & E). exists bs. split; [exact O|]. rewrite E, !segs_at.
  assert (T := TOT _ (at_pos_antisym pos z)). lra.
Qed.
Lemma mix_region z : winding z (map (seg pos) f0) - winding z (map (seg pos) fr) <= 1.
Proof. assert (A := sf_region _ _ S0 z). assert (B := sf_region _ _ SF z). lra. Qed.
Lemma mix_apart i j s t z : nth_error ss i = Some s -> nth_error ss j = Some t -> inside_shape pos s z -> inside_shape pos t z -> i = j.
Proof. intros Hi Hj. apply (tiles_disjoint _ _ _ mix_tiles mix_region i j s t z Hi Hj). Qed.
Lemma mix_once p q : (uses p q (flat_map shape_sides ss) <= 1)%nat.
Proof. apply (shapes_once pos); [exact SS|exact mix_apart]. Qed.
Lemma mix_inside s z : In s ss -> inside_shape pos s z -> winding z (map (seg pos) f0) == 1 /\ winding z (map (seg pos) fr) == 0.
Proof.
  intros I H. assert (T := tiles_only _ _ _ _ _ mix_tiles I H). cbn beta in T. assert (A := sf_region _ _ S0 z). assert (B := sf_region _ _ SF z). split; lra.
Qed.
(* no element on the side of the front that is not meshed yet *)
Lemma mix_front e : In e fr -> uses (be_v1 e) (be_v2 e) (flat_map shape_sides ss) = 0%nat.
Proof.
  intros I. destruct (Nat.eq_dec (uses (be_v1 e) (be_v2 e) (flat_map shape_sides ss)) 0) as [Z|Z]; [exact Z|exfalso].
  apply uses_some, in_flat_map in Z. destruct Z as (s & Is & Ss). destruct (shape_side pos s _ _ (SS s Is) Ss) as (r & D & R).
  destruct (take_out fr e (sf_ids _ _ SF) I) as (rest & P & RR).
  destruct (rise _ _ _ (map (seg pos) rest) D (balanced_out pos fr SF e rest P)) as (x & y & X & E).
  { intros f J. apply in_map_iff in J. destruct J as (g & <- & J). destruct (RR g J) as [K N]. exact (other_off pos fr SF e g I K N). }
  change ((pos (be_v1 e), pos (be_v2 e)) :: map (seg pos) rest) with (seg pos e :: map (seg pos) rest) in E.
  rewrite <- !(winding_out pos fr e rest _ P) in E. destruct (mix_inside s x Is (R x X)) as [_ O]. assert (B := sf_region _ _ SF y). lra.
Qed.
(* no element outside *)
Lemma mix_outer e : In e f0 -> uses (be_v2 e) (be_v1 e) (flat_map shape_sides ss) = 0%nat.
Proof.
  intros I. destruct (Nat.eq_dec (uses (be_v2 e) (be_v1 e) (flat_map shape_sides ss)) 0) as [Z|Z]; [exact Z|exfalso].
  apply uses_some, in_flat_map in Z. destruct Z as (s & Is & Ss). destruct (shape_side pos s _ _ (SS s Is) Ss) as (r & D & R).
  destruct (take_out f0 e (sf_ids _ _ S0) I) as (rest & P & RR).
  destruct (fall _ _ _ (map (seg pos) rest) D (balanced_out pos f0 S0 e rest P)) as (x & y & X & E).
  { intros f J. apply in_map_iff in J. destruct J as (g & <- & J). destruct (RR g J) as [K N]. exact (other_off' pos f0 S0 e g I K N). }
  change ((pos (be_v1 e), pos (be_v2 e)) :: map (seg pos) rest) with (seg pos e :: map (seg pos) rest) in E.
  rewrite <- !(winding_out pos f0 e rest _ P) in E. destruct (mix_inside s x Is (R x X)) as [O _]. assert (B := sf_region _ _ S0 y). lra.
Qed.

(* ---- which sides an edge has ---- *)
Variable intr : list (nat * nat).
Hypothesis BAL : forall p q, p <> q ->
  (uses_any p q (flat_map shape_sides ss) + uses_any p q (ends (filter (fun e => negb (interior e)) fr)) =
   2 * uses_any p q intr + uses_any p q (ends (filter interior fr)) + uses_any p q (ends f0))%nat.
Hypothesis OLD : forall e, In e fr -> interior e = false -> In (pair_of e) (ends f0).

Lemma uses_split (g : bedge -> bool) l p q : uses p q (ends l) = (uses p q (ends (filter g l)) + uses p q (ends (filter (fun e => negb (g e)) l)))%nat.
Proof.
  unfold ends. induction l as [|e l IH]; [reflexivity|]. cbn [filter map]. destruct (g e); cbn [negb filter map]; rewrite !uses_cons; lia.
Qed.
Lemma uses_le1 l p q : (uses p q l <= 1)%nat -> (uses p q l = 1%nat <-> In (p, q) l).
Proof. intros L. split; intros H; [apply uses_some; lia|apply uses_in in H; lia]. Qed.

Notation U p q := (uses p q (flat_map shape_sides ss)).
Notation F p q := (uses p q (ends fr)).
Notation D p q := (uses p q (ends f0)).
Notation I p q := (uses_any p q intr).
Lemma pair_cases p q : p <> q ->
  (F p q + F q p <= 1)%nat /\ (D p q + D q p <= 1)%nat /\
  (D p q = 1%nat -> U q p = 0%nat /\ F q p = 0%nat /\ I p q = 0%nat /\ (U p q + F p q = 1)%nat) /\
  (D p q = 0%nat -> D q p = 0%nat -> F p q = 1%nat -> U p q = 0%nat /\ U q p = 1%nat /\ I p q = 0%nat) /\
  (D p q = 0%nat -> D q p = 0%nat -> F p q = 0%nat -> F q p = 0%nat -> U p q = U q p /\ I p q = U p q /\ (U p q <= 1)%nat).
Proof.
  intros N.
  assert (A : (U p q + F p q + D q p = U q p + F q p + D p q)%nat).
  { assert (T := TOT _ (w_anti_antisym p q)). rewrite !esum_anti in T. apply nQ_inj. rewrite !nQ_plus. lra. }
  assert (B := BAL p q N). rewrite !uses_any_split in B by exact N.
  assert (FP := simple_uses pos fr p q SF). assert (DP := simple_uses pos f0 p q S0).
  assert (E1 := uses_split interior fr p q). assert (E2 := uses_split interior fr q p).
  assert (OB : forall x y, (uses x y (ends (filter (fun e => negb (interior e)) fr)) <= D x y)%nat).
  { intros x y. assert (L := simple_uses pos fr x y SF). assert (E := uses_split interior fr x y).
    destruct (Nat.eq_dec (uses x y (ends (filter (fun e => negb (interior e)) fr))) 0) as [Z|Z]; [lia|].
    apply uses_some in Z. unfold ends in Z at 1. apply in_map_iff in Z. destruct Z as (e & Ee & Ie). apply filter_In in Ie. destruct Ie as [Ie K].
    assert (O := OLD e Ie ltac:(destruct (interior e); [discriminate|reflexivity])). unfold pair_of in O. rewrite Ee in O. apply uses_in in O. lia. }
  assert (O1 := OB p q). assert (O2 := OB q p).
  assert (U1 := mix_once p q). assert (U2 := mix_once q p).
  assert (FF : forall x y, F x y = 1%nat -> U x y = 0%nat).
  { intros x y H. assert (Z : In (x, y) (ends fr)) by (apply uses_some; lia). unfold ends in Z. apply in_map_iff in Z. destruct Z as (e & Ee & Ie).
    assert (M := mix_front e Ie). injection Ee as E3 E4. rewrite E3, E4 in M. exact M. }
  assert (DD : forall x y, D x y = 1%nat -> U y x = 0%nat).
  { intros x y H. assert (Z : In (x, y) (ends f0)) by (apply uses_some; lia). unfold ends in Z. apply in_map_iff in Z. destruct Z as (e & Ee & Ie).
    assert (M := mix_outer e Ie). injection Ee as E3 E4. rewrite E3, E4 in M. exact M. }
  assert (F1 := FF p q). assert (F2 := FF q p). assert (D1 := DD p q). assert (D2 := DD q p).
  rewrite (uses_any_split p q intr N) in *.
  repeat match goal with |- _ /\ _ => split end; try lia; intros; lia.
Qed.
End Beside.
