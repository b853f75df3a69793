(* A mesh put back after a history of the front gives the same front again: proofs
   for ContProps. *)
From Coq Require Import Lqa Lia Permutation.
From Verif Require Import Base Chain GeomModel GeomSpec GeomProofs FacetModel UtilModel BdryModel BdrySpec
  AdvanceModel AdvanceSpec AdvanceProofs AdvanceInv AdvanceMore AdvanceGeom MeshModel MeshSpec QRefineModel WindSpec WindProofs ClearSpec ClearRun
  ClearEnd FinModel FinMesh QTileSpec MixSpec MixShape MixRun ContModel ContSpec OpenConn ContProofs.
Open Scope Q_scope.

(* ---- fronts up to the addresses and the order ---- *)
Definition ends_sig (x : nat * nat * Z * N) : nat * nat := fst (fst x).
Definition int_sig (x : nat * nat * Z * N) : bool := negb (has_property (snd x) e_on_boundary).
Lemma ends_sigs l : ends l = map ends_sig (map sig l).
Proof. unfold ends. rewrite map_map. reflexivity. Qed.
Lemma filter_sigs (g : nat * nat * Z * N -> bool) l : map sig (filter (fun e => g (sig e)) l) = filter g (map sig l).
Proof. induction l as [|e l IH]; [reflexivity|]. cbn [filter map]. destruct (g (sig e)); cbn [map]; rewrite IH; reflexivity. Qed.
Lemma interior_sigs l : map sig (filter interior l) = filter int_sig (map sig l).
Proof. exact (filter_sigs int_sig l). Qed.
Lemma boundary_sigs l : map sig (filter (fun e => negb (interior e)) l) = filter (fun x => negb (int_sig x)) (map sig l).
Proof. exact (filter_sigs (fun x => negb (int_sig x)) l). Qed.
Lemma simple_pairs pos l : simple_front pos l -> NoDup (ends l).
Proof. intros S. apply (uses_two (p := 0%nat) (q := 0%nat)). intros p q. assert (X := simple_uses pos l p q S). lia. Qed.
Lemma nodup_map_in {X Y} (f : X -> Y) l x y : NoDup (map f l) -> In x l -> In y l -> f x = f y -> x = y.
Proof.
  induction l as [|z l IH]; [intros _ []|]. cbn [map]. intros ND [->|A] [->|B] E; inversion ND as [|? ? N ND']; subst; try reflexivity; auto.
  - exfalso. apply N. rewrite E. apply in_map, B.
  - exfalso. apply N. rewrite <- E. apply in_map, A.
Qed.
Lemma nodup_of_map {X Y} (f : X -> Y) l : NoDup (map f l) -> NoDup l.
Proof.
  induction l as [|z l IH]; [constructor|]. cbn [map]. intros ND. inversion ND as [|? ? N ND']; subst. constructor; [|auto]. intros I. apply N, in_map, I.
Qed.
Lemma nodup_left {X} (l l' : list X) : NoDup (l ++ l') -> NoDup l.
Proof.
  induction l as [|x l IH]; intros H; [constructor|]. inversion H as [|? ? N H']; subst. constructor; [|auto]. intros J. apply N, in_or_app. left. exact J.
Qed.
Lemma nodup_join {X} (l l' : list X) : NoDup l -> NoDup l' -> (forall x, In x l -> In x l' -> False) -> NoDup (l ++ l').
Proof.
  induction l as [|x l IH]; intros H H' D; [exact H'|]. inversion H as [|? ? N1 N2]; subst. cbn [app]. constructor.
  - intros J. apply in_app_or in J. destruct J as [J|J]; [exact (N1 J)|exact (D x (or_introl eq_refl) J)].
  - apply IH; try assumption. intros y J K. exact (D y (or_intror J) K).
Qed.
Lemma simple_same pos es fs : Permutation (map sig es) (map sig fs) -> NoDup (map be_id fs) -> simple_front pos es -> simple_front pos fs.
Proof.
  intros P ND S.
  assert (I : forall e, In e fs -> exists x, In x es /\ sig x = sig e).
  { intros e J. apply (in_map sig) in J. apply (Permutation_in _ (Permutation_sym P)) in J. apply in_map_iff in J. destruct J as (x & E & J). exists x. auto. }
  assert (PE : Permutation (ends es) (ends fs)) by (rewrite !ends_sigs; apply Permutation_map, P).
  assert (O : forall v, on_front fs v -> on_front es v).
  { intros v (e & J & E). destruct (I e J) as (x & K & F). exists x. split; [exact K|]. unfold sig in F. injection F as F1 F2 _ _. rewrite F1, F2. exact E. }
  assert (NS : NoDup (map sig fs)).
  { apply (Permutation_NoDup P). apply (nodup_of_map ends_sig). rewrite <- ends_sigs. exact (simple_pairs pos es S). }
  constructor.
  - exact ND.
  - intros e J. destruct (I e J) as (x & K & F). unfold sig in F. injection F as F1 F2 _ _. rewrite <- F1, <- F2. exact (sf_proper _ _ S x K).
  - apply AdvanceInv.closed_balanced. apply (balanced_perm _ _ PE). apply AdvanceInv.closed_balanced, (sf_closed _ _ S).
  - intros u v U V. apply (sf_pos _ _ S); apply O; assumption.
  - intros e f J K NE. destruct (I e J) as (x & X1 & X2), (I f K) as (y & Y1 & Y2).
    assert (NX : be_id x <> be_id y).
    { intros E. assert (x = y) by exact (nodup_map_in be_id es x y (sf_ids _ _ S) X1 Y1 E). subst y.
      assert (e = f) by (apply (nodup_map_in sig fs e f NS J K); congruence). congruence. }
    assert (R := sf_ends _ _ S x y X1 Y1 NX). unfold seg in *. cbn [fst snd] in *.
    unfold sig in X2, Y2. injection X2 as A1 A2 _ _. injection Y2 as A3 A4 _ _. rewrite A1, A2, A3, A4 in R. exact R.
  - intros z. assert (W : forall l, map (seg pos) l = map (fun p => (pos (fst p), pos (snd p))) (ends l)) by (intros l; unfold ends; rewrite map_map; reflexivity).
    assert (E : winding z (map (seg pos) fs) == winding z (map (seg pos) es)) by (rewrite !W; apply esum_perm, Permutation_map, Permutation_sym, PE).
    rewrite E. apply (sf_region _ _ S).
Qed.

(* ---- elements as shapes ---- *)
Lemma filter_pairs {X Y} (f : X -> Y) g h l : (forall x, In x l -> g x = h (f x)) -> map f (filter g l) = filter h (map f l).
Proof.
  induction l as [|x l IH]; intros H; [reflexivity|]. cbn [filter map]. rewrite (H x (or_introl eq_refl)). destruct (h (f x)); cbn [map]; rewrite IH; auto; intros y I; apply H; right; exact I.
Qed.
Lemma sides_shapes fs : flat_map sides fs = flat_map shape_sides (map fa_sh fs).
Proof. induction fs as [|f l IH]; [reflexivity|]. cbn [flat_map map]. rewrite IH. reflexivity. Qed.
Lemma back_shapes m st' : map fa_sh (facets (put_back m st')) = map quad_element (ms_quads st') ++ map tri_element (ms_tris st').
Proof. unfold facets. cbn [put_back mh_quads mh_tris]. rewrite map_app, !map_map. reflexivity. Qed.

Lemma filter_parts {X} (g : X -> bool) l : Permutation l (filter g l ++ filter (fun x => negb (g x)) l).
Proof.
  induction l as [|x l IH]; [constructor|]. cbn [filter]. destruct (g x); cbn [negb app]; [apply perm_skip, IH|]. apply Permutation_cons_app, IH.
Qed.
Lemma is_some_iff {X} (o : option X) (b : bool) : (o <> None <-> b = true) -> is_some o = b.
Proof.
  destruct o as [x|], b; cbn; intros [H1 H2]; try reflexivity.
  - symmetry. apply H1. discriminate.
  - destruct (H2 eq_refl eq_refl).
Qed.
Section Reopen.
Variable pos : nat -> vec2.
Variable gen : list tri.
Variable f0 : list bedge.
Variable m1 : mesh.
Variable st' : mstate.
Hypothesis S0 : simple_front pos f0.
Hypothesis B0 : forall e, In e f0 -> interior e = false /\ ghost e = false.
Hypothesis L1 : laid m1.
Hypothesis NV : mh_verts m1 <> [].
Hypothesis A : after (opened m1) st'.
Hypothesis P : partway (mh_scale m1) pos gen f0 (mh_col m1) st'.
Hypothesis BD : map msig (mh_bdry m1) = map sig f0.
Hypothesis PT : pointed m1.
Hypothesis NEW : forall e, In e (mh_intr m1) -> ed_col e = interior_edge_color /\ ed_prop e = 0%N.
Hypothesis EID : NoDup (map ed_id (all_edges m1)).
Notation M := (put_back m1 st').
Hypothesis CEN : forall f, In f (facets M) -> centred (mh_pos M) f.
Notation ss := (elements st').
Notation fr := (ms_front st').
Notation U p q := (uses p q (flat_map shape_sides ss)).
Notation F p q := (uses p q (ends fr)).
Notation D p q := (uses p q (ends f0)).
Notation I p q := (uses_any p q (ms_intr st')).

Let N := pw_neat _ _ _ _ _ _ P.
Let GE := neat_gen _ _ _ N.
Let LM : laid M := back_laid m1 st' L1 N A NV.
Lemma rs_cases p q : p <> q ->
  (F p q + F q p <= 1)%nat /\ (D p q + D q p <= 1)%nat /\
  (D p q = 1%nat -> U q p = 0%nat /\ F q p = 0%nat /\ I p q = 0%nat /\ (U p q + F p q = 1)%nat) /\
  (D p q = 0%nat -> D q p = 0%nat -> F p q = 1%nat -> U p q = 0%nat /\ U q p = 1%nat /\ I p q = 0%nat) /\
  (D p q = 0%nat -> D q p = 0%nat -> F p q = 0%nat -> F q p = 0%nat -> U p q = U q p /\ I p q = U p q /\ (U p q <= 1)%nat).
Proof.
  apply (pair_cases pos ss f0 fr S0 (pw_simple _ _ _ _ _ _ P) (pw_shape _ _ _ _ _ _ P) (pw_total _ _ _ _ _ _ P)); [exact (pw_balance _ _ _ _ _ _ P)|].
  exact (way_old (mh_scale m1) pos gen f0 (mh_col m1) st' P).
Qed.
Lemma rs_once p q : (U p q <= 1)%nat.
Proof. exact (mix_once pos ss f0 fr S0 (pw_simple _ _ _ _ _ _ P) (pw_shape _ _ _ _ _ _ P) (pw_total _ _ _ _ _ _ P) p q). Qed.
Lemma rs_sides : Permutation (flat_map shape_sides ss) (all_sides M).
Proof.
  unfold all_sides. rewrite sides_shapes, back_shapes. unfold elements. rewrite GE. apply Permutation_flat_map, Permutation_app_comm.
Qed.
Lemma rs_in p q : In (p, q) (all_sides M) <-> U p q = 1%nat.
Proof.
  split; intros H.
  - apply (Permutation_in _ (Permutation_sym rs_sides)) in H. apply uses_in in H. assert (X := rs_once p q). lia.
  - apply (Permutation_in _ rs_sides). apply uses_some. lia.
Qed.
Lemma rs_nodup : NoDup (all_sides M).
Proof. apply (Permutation_NoDup rs_sides). apply (uses_two (p := 0%nat) (q := 0%nat)). exact rs_once. Qed.
Lemma rs_shape f : In f (facets M) -> simple_shape pos (fa_sh f).
Proof.
  intros J. apply (in_map fa_sh) in J. rewrite back_shapes in J. apply (pw_shape _ _ _ _ _ _ P). unfold elements. rewrite GE. apply in_app_or in J. apply in_or_app. tauto.
Qed.
Lemma rs_corners f : In f (facets M) -> NoDup (corners (fa_sh f)).
Proof. intros J. exact (simple_corners pos _ (rs_shape f J)). Qed.

(* ---- edges of the front ---- *)
Lemma rs_pair e : In e fr -> be_v1 e <> be_v2 e /\ F (be_v1 e) (be_v2 e) = 1%nat /\ F (be_v2 e) (be_v1 e) = 0%nat.
Proof.
  intros J. assert (NE := sf_proper _ _ (pw_simple _ _ _ _ _ _ P) e J). split; [exact NE|].
  assert (X : In (be_v1 e, be_v2 e) (ends fr)) by (unfold ends; apply in_map_iff; exists e; auto). apply uses_in in X.
  destruct (rs_cases _ _ NE) as (Y & _). lia.
Qed.
Lemma rs_outer x : In x f0 -> be_v1 x <> be_v2 x /\ D (be_v1 x) (be_v2 x) = 1%nat /\ D (be_v2 x) (be_v1 x) = 0%nat.
Proof.
  intros J. assert (NE := sf_proper _ _ S0 x J). split; [exact NE|].
  assert (X : In (be_v1 x, be_v2 x) (ends f0)) by (unfold ends; apply in_map_iff; exists x; auto). apply uses_in in X.
  destruct (rs_cases _ _ NE) as (_ & Y & _). lia.
Qed.
(* one edge of the front for each pair *)
Lemma rs_same e f : In e fr -> In f fr -> pair_of e = pair_of f -> e = f.
Proof. intros J K E. apply (nodup_map_in pair_of fr e f); try assumption. exact (simple_pairs _ _ (pw_simple _ _ _ _ _ _ P)). Qed.
Lemma rs_interior e : In e fr -> interior e = true -> new_sig e /\ D (be_v1 e) (be_v2 e) = 0%nat /\ D (be_v2 e) (be_v1 e) = 0%nat.
Proof.
  intros J K. destruct (rs_pair e J) as (NE & F1 & F2).
  split.
  { destruct (pw_kind _ _ _ _ _ _ P e J) as [X|X]; [exact X|]. destruct (old_boundary f0 B0 e X). congruence. }
  assert (NO : ~ In (pair_of e) (ends (filter (fun x => negb (interior x)) fr))).
  { intros X. unfold ends in X. apply in_map_iff in X. destruct X as (x & E & X). apply filter_In in X. destruct X as [X1 X2].
    rewrite (rs_same x e X1 J E), K in X2. discriminate. }
  assert (YE : In (pair_of e) (ends (filter interior fr))) by (unfold ends; apply in_map_iff; exists e; split; [reflexivity|apply filter_In; auto]).
  assert (B := pw_balance _ _ _ _ _ _ P _ _ NE). rewrite !uses_any_split in B by exact NE.
  destruct (rs_cases _ _ NE) as (C1 & C2 & C3 & C4 & C5).
  assert (Z1 := uses_zero _ _ _ NO). assert (Z2 := uses_in _ _ _ YE).
  assert (E2 := uses_split interior fr (be_v2 e) (be_v1 e)). assert (G := rs_cases _ _ (fun E => NE (eq_sym E))). destruct G as (_ & _ & G & _).
  split.
  - destruct (Nat.eq_dec (D (be_v1 e) (be_v2 e)) 0) as [Z|Z]; [exact Z|exfalso]. assert (D1 : D (be_v1 e) (be_v2 e) = 1%nat) by lia.
    destruct (C3 D1) as (Y1 & Y2 & Y3 & Y4). lia.
  - destruct (Nat.eq_dec (D (be_v2 e) (be_v1 e)) 0) as [Z|Z]; [exact Z|exfalso]. assert (D1 : D (be_v2 e) (be_v1 e) = 1%nat) by lia.
    destruct (G D1) as (Y1 & Y2 & Y3 & Y4). lia.
Qed.
Lemma rs_boundary e : In e fr -> interior e = false -> In (sig e) (map sig f0) /\ D (be_v1 e) (be_v2 e) = 1%nat.
Proof.
  intros J K. destruct (pw_kind _ _ _ _ _ _ P e J) as [X|X]; [destruct (new_interior e X); congruence|]. split; [exact X|].
  apply in_map_iff in X. destruct X as (x & E & X). unfold sig in E. injection E as E1 E2 _ _. rewrite <- E1, <- E2. apply (rs_outer x X).
Qed.
Lemma rs_free e : In e fr -> U (be_v1 e) (be_v2 e) = 0%nat /\ I (be_v1 e) (be_v2 e) = 0%nat.
Proof.
  intros J. destruct (rs_pair e J) as (NE & F1 & F2). destruct (rs_cases _ _ NE) as (_ & C2 & C3 & C4 & _). destruct (interior e) eqn:K.
  - destruct (rs_interior e J K) as (_ & D1 & D2). destruct (C4 D1 D2 F1) as (X & _ & Y). auto.
  - destruct (rs_boundary e J K) as (_ & D1). destruct (C3 D1) as (_ & _ & X & Y). split; [lia|exact X].
Qed.
Lemma rs_inner a b : In (a, b) (ms_intr st') -> a <> b /\ U a b = 1%nat /\ U b a = 1%nat /\ D a b = 0%nat /\ D b a = 0%nat.
Proof.
  intros J. destruct (nt_intr _ _ _ N a b J) as (NE & _). split; [exact NE|].
  assert (NI : I a b <> 0%nat) by (apply uses_any_in; left; exact J).
  destruct (rs_cases a b NE) as (C1 & C2 & C3 & C4 & C5). destruct (rs_cases b a (fun E => NE (eq_sym E))) as (_ & _ & G3 & G4 & _).
  assert (SY : I b a = I a b) by (rewrite !uses_any_split by congruence; lia). rewrite SY in G3, G4.
  assert (D1 : D a b = 0%nat) by (destruct (Nat.eq_dec (D a b) 0) as [Z|Z]; [exact Z|exfalso; destruct C3 as (_ & _ & X & _); [lia|congruence]]).
  assert (D2 : D b a = 0%nat) by (destruct (Nat.eq_dec (D b a) 0) as [Z|Z]; [exact Z|exfalso; destruct G3 as (_ & _ & X & _); [lia|congruence]]).
  assert (F1 : F a b = 0%nat) by (destruct (Nat.eq_dec (F a b) 0) as [Z|Z]; [exact Z|exfalso; destruct C4 as (_ & _ & X); [lia..|congruence]]).
  assert (F2 : F b a = 0%nat) by (destruct (Nat.eq_dec (F b a) 0) as [Z|Z]; [exact Z|exfalso; destruct G4 as (_ & _ & X); [lia..|congruence]]).
  destruct (C5 D1 D2 F1 F2) as (X & Y & Z). lia.
Qed.

(* ---- the interior edges of the mesh ---- *)
Definition rest : list (nat * nat) := map pair_of (filter interior fr).
Lemma bd_pairs : map ed_pair (mh_bdry m1) = ends f0.
Proof.
  assert (E : map ends_sig (map msig (mh_bdry m1)) = map ends_sig (map sig f0)) by (rewrite BD; reflexivity).
  rewrite <- ends_sigs, map_map in E. exact E.
Qed.
Lemma rs_pairs : map ed_pair (mh_intr M) = ms_intr st' ++ rest.
Proof.
  cbn [put_back mh_intr]. rewrite records_pairs, remaining_spec.
  - f_equal. unfold rest. rewrite bd_pairs. symmetry. apply filter_pairs. intros e J. destruct (rs_free e J) as [_ Z]. cbn [pair_of fst snd].
    apply has_edge_any in Z. rewrite Z. cbn [negb andb]. destruct (interior e) eqn:K.
    + destruct (rs_interior e J K) as (_ & D1 & D2). symmetry. apply negb_true_iff. apply has_edge_any. rewrite uses_any_split; [lia|apply (rs_pair e J)].
    + destruct (rs_boundary e J K) as (_ & D1). symmetry. apply negb_false_iff. apply has_edge_true. left. apply uses_some. lia.
  - assert (G : forall l, (forall e, In e l -> In e fr) -> NoDup (map pair_of l) -> ForallOrdPairs (fun x y : nat * nat => x <> y /\ x <> (snd y, fst y)) (map pair_of l)).
    { induction l as [|e l IH]; intros IN ND; [constructor|]. cbn [map] in *. inversion ND as [|? ? N1 N2]; subst. constructor; [|apply IH; [intros x K; apply IN; right; exact K|exact N2]].
      rewrite Forall_forall. intros p K. split; [intros E; apply N1; rewrite E; exact K|]. intros E. apply in_map_iff in K. destruct K as (x & <- & K). cbn [pair_of fst snd] in E.
      destruct (rs_pair e (IN e (or_introl eq_refl))) as (_ & _ & Z). injection E as E1 E2. rewrite E1, E2 in Z.
      assert (Y := IN x (or_intror K)). assert (X : In (be_v1 x, be_v2 x) (ends fr)) by (unfold ends; apply in_map_iff; exists x; auto). apply uses_in in X. lia. }
    apply G; [auto|]. exact (simple_pairs _ _ (pw_simple _ _ _ _ _ _ P)).
Qed.
Lemma rs_intr_cases e : In e (mh_intr M) ->
  (In (ed_pair e) (ms_intr st') /\ U (ed_1 e) (ed_2 e) = 1%nat /\ U (ed_2 e) (ed_1 e) = 1%nat) \/
  (In (ed_pair e) rest /\ U (ed_1 e) (ed_2 e) = 0%nat).
Proof.
  intros J. apply (in_map ed_pair) in J. rewrite rs_pairs in J. apply in_app_or in J. destruct J as [J|J]; [left|right]; (split; [exact J|]).
  - destruct (rs_inner _ _ J) as (_ & X & Y & _). auto.
  - unfold rest in J. apply in_map_iff in J. destruct J as (x & E & J). apply filter_In in J. unfold pair_of, ed_pair in E. injection E as <- <-. apply (rs_free x (proj1 J)).
Qed.
Lemma rs_new e : In e (mh_intr M) -> ed_col e = interior_edge_color /\ ed_prop e = 0%N.
Proof.
  cbn [put_back mh_intr]. intros J. apply records_in in J. destruct J as [_ [J|(_ & _ & E1 & E2 & _)]]; [|auto]. apply NEW, kept_intr_in, J.
Qed.
Lemma rs_pointed : pointed M.
Proof.
  assert (S := back_sides m1 st' L1 A). constructor.
  - intros e J K. unfold all_edges in J. apply in_app_or in J. destruct J as [J|J].
    + cbn [put_back mh_intr] in J. apply records_in in J. destruct J as [_ [J|(E & _)]]; [|congruence]. apply S, (pt_l _ PT); [|exact K]. apply in_or_app. left. apply kept_intr_in, J.
    + apply S, (pt_l _ PT); [|exact K]. apply in_or_app. right. exact J.
  - intros e J K. cbn [put_back mh_intr] in J. apply records_in in J. destruct J as [_ [J|(_ & E & _)]]; [|congruence]. apply S, (pt_r _ PT); [|exact K]. apply kept_intr_in, J.
  - intros k i K. destruct (pt_nbr _ PT k i K) as (f & a & b & J & E1 & E2 & E3). exists f, a, b. split; [exact (back_facets m1 st' L1 A f J)|]. split; [exact E1|]. split; [exact E2|apply S, E3].
Qed.
Lemma rs_eids : NoDup (map ed_id (all_edges M)).
Proof.
  assert (LT : forall e, In e (all_edges m1) -> (ed_id e < ms_ne st')%nat).
  { intros e J. assert (X := ld_enext _ L1 e J). assert (Y := af_ne _ _ A). cbn [opened ms_ne] in Y. lia. }
  unfold all_edges in *. cbn [put_back mh_intr mh_bdry]. rewrite map_app in *.
  assert (NP : NoDup (map ed_pair (mh_intr M))).
  { rewrite rs_pairs. apply (uses_two (p := 0%nat) (q := 0%nat)). intros p q. rewrite uses_app. destruct (Nat.eq_dec p q) as [->|NE].
    { assert (Z : forall l : list (nat * nat), (forall x, ~ In (x, x) l) -> uses q q l = 0%nat) by (intros l X; apply uses_zero, X).
      rewrite !Z; [lia| |].
      - intros x J. unfold rest in J. apply in_map_iff in J. destruct J as (e & E & J). apply filter_In in J. destruct (rs_pair e (proj1 J)) as (X & _). unfold pair_of in E. congruence.
      - intros x J. destruct (rs_inner _ _ J) as (X & _). congruence. }
    assert (X : (uses p q rest <= 1)%nat).
    { assert (X := uses_split interior fr p q). assert (Y := rs_cases p q NE). destruct Y as (Y & _). unfold rest. change (map pair_of (filter interior fr)) with (ends (filter interior fr)). lia. }
    assert (Y : (uses p q (ms_intr st') <= 1)%nat).
    { destruct (Nat.eq_dec (uses p q (ms_intr st')) 0) as [Z|Z]; [lia|]. assert (J := uses_some _ _ _ Z). destruct (rs_inner _ _ J) as (_ & U1 & U2 & D1 & D2).
      destruct (rs_cases p q NE) as (C1 & C2 & C3 & C4 & C5). destruct (rs_cases q p (fun E => NE (eq_sym E))) as (_ & _ & G3 & G4 & _).
      assert (F1 : F p q = 0%nat) by (destruct (Nat.eq_dec (F p q) 0) as [Z'|Z']; [exact Z'|exfalso; destruct C4 as (X' & _ & _); lia]).
      assert (F2 : F q p = 0%nat) by (destruct (Nat.eq_dec (F q p) 0) as [Z'|Z']; [exact Z'|exfalso; destruct G4 as (X' & _ & _); lia]).
      destruct (C5 D1 D2 F1 F2) as (_ & Y & _). rewrite uses_any_split in Y by exact NE. lia. }
    destruct (Nat.eq_dec (uses p q rest) 0) as [Z|Z]; [lia|]. destruct (Nat.eq_dec (uses p q (ms_intr st')) 0) as [Z'|Z']; [lia|exfalso].
    assert (J := uses_some _ _ _ Z'). destruct (rs_inner _ _ J) as (_ & U1 & _). assert (K := uses_some _ _ _ Z). unfold rest in K. apply in_map_iff in K.
    destruct K as (e & E & K). apply filter_In in K. unfold pair_of in E. injection E as <- <-. destruct (rs_free e (proj1 K)). lia. }
  cbn [put_back mh_intr] in NP. rewrite records_pairs in NP.
  set (l := add_remaining _ _ _) in *.
  assert (NO : NoDup (map ed_id (kept_intr m1))).
  { assert (X := nodup_left _ _ EID). revert X. clear. unfold kept_intr. generalize (mh_intr m1). intros l. induction l as [|e l IH]; intros ND; [constructor|].
    cbn [filter map] in *. inversion ND as [|? ? N1 N2]; subst. destruct (negb _); [|exact (IH N2)]. cbn [map]. constructor; [|exact (IH N2)].
    intros J. apply N1. apply in_map_iff in J. destruct J as (x & E & J). apply filter_In in J. rewrite <- E. apply in_map, J. }
  apply nodup_join.
  - apply records_ids; [exact NP|exact NO|]. intros e J. apply LT, in_or_app. left. apply kept_intr_in, J.
  - exact (nodup_right _ _ EID).
  - intros k J K. apply in_map_iff in J, K. destruct J as (e & E & J), K as (x & E' & K). apply records_in in J. destruct J as [_ [J|(_ & _ & _ & _ & J)]].
    + apply kept_intr_in in J. revert EID. clear - E E' J K. intros ND. subst k. apply (in_map ed_id) in J, K. rewrite E' in K. revert J K ND. generalize (ed_id e) (map ed_id (mh_intr m1)) (map ed_id (mh_bdry m1)).
      intros k l l'. induction l as [|y l IH]; intros J K ND; [destruct J|]. cbn [app] in ND. inversion ND as [|? ? N1 N2]; subst. destruct J as [->|J]; [apply N1, in_or_app; right; exact K|auto].
    + specialize (LT x (in_or_app _ _ _ (or_intror K))). lia.
Qed.
(* ---- the mesh opened again ---- *)
Notation M1 := (setup_facet_connectivity M).
Definition sided (p : nat * nat) : bool := Nat.eqb (U (fst p) (snd p)) 1.
Definition flip (p : nat * nat) : nat * nat := (snd p, fst p).
Lemma sided_in p : In p (all_sides M) <-> sided p = true.
Proof. destruct p as [a b]. rewrite rs_in. unfold sided. cbn [fst snd]. symmetry. apply Nat.eqb_eq. Qed.
Lemma rs_l e : In e (mh_intr M) -> is_some (ed_l (connect_intr M e)) = sided (ed_pair e).
Proof.
  intros J. apply is_some_iff. rewrite (connect_cases M (ld_ids _ LM) rs_corners rs_nodup CEN e). rewrite <- sided_in. unfold ed_pair. split; [|auto]. intros [X|X]; [exact X|].
  apply (pt_l _ rs_pointed e); [apply in_or_app; left; exact J|exact X].
Qed.
Lemma rs_r e : In e (mh_intr M) -> is_some (ed_r (connect_intr M e)) = sided (flip (ed_pair e)).
Proof.
  intros J. apply is_some_iff. rewrite (connect_cases' M (ld_ids _ LM) rs_corners rs_nodup CEN e). rewrite <- sided_in. unfold ed_pair, flip. cbn [fst snd]. split; [|auto]. intros [X|X]; [exact X|].
  apply (pt_r _ rs_pointed e J X).
Qed.
Lemma rs_bdry_pair e : In e (mh_bdry M) -> In (msig e) (map sig f0) /\ ~ In (ed_2 e, ed_1 e) (all_sides M).
Proof.
  cbn [put_back mh_bdry]. intros J. apply (in_map msig) in J. rewrite BD in J. split; [exact J|]. apply in_map_iff in J. destruct J as (x & E & J). unfold sig, msig in E. injection E as <- <- _ _.
  rewrite rs_in. destruct (rs_outer x J) as (NE & D1 & _). destruct (rs_cases _ _ NE) as (_ & _ & C3 & _). destruct (C3 D1). lia.
Qed.
Lemma rs_b e : In e (mh_bdry M) -> is_some (ed_l (connect_bdry M e)) = sided (ed_pair e).
Proof.
  intros J. destruct (rs_bdry_pair e J) as [_ NR]. apply is_some_iff. rewrite (connect_bdry_cases M (ld_ids _ LM) rs_corners rs_nodup CEN e NR). rewrite <- sided_in. unfold ed_pair. split; [|auto].
  intros [X|X]; [exact X|]. apply (pt_l _ rs_pointed e); [apply in_or_app; right; exact J|exact X].
Qed.
Definition open_pair (p : nat * nat) : bool := negb (sided p) || negb (sided (flip p)).
Lemma rs_half e : In e (mh_intr M) -> half_open (connect_intr M e) = open_pair (ed_pair e).
Proof. intros J. unfold half_open, open_pair. rewrite (rs_l e J), (rs_r e J). reflexivity. Qed.
Lemma connect_pair e : ed_pair (connect_intr M e) = ed_pair e.
Proof. destruct (connect_ends M e) as (E1 & E2 & _). unfold ed_pair. congruence. Qed.
Lemma open_inner p : In p (ms_intr st') -> open_pair p = false.
Proof. destruct p as [a b]. intros J. destruct (rs_inner a b J) as (_ & U1 & U2 & _). unfold open_pair, sided, flip. cbn [fst snd]. rewrite U1, U2. reflexivity. Qed.
Lemma open_rest p : In p rest -> open_pair p = true.
Proof.
  intros J. unfold rest in J. apply in_map_iff in J. destruct J as (e & <- & J). apply filter_In in J. destruct (rs_free e (proj1 J)) as [Z _].
  unfold open_pair, sided, pair_of. cbn [fst snd]. rewrite Z. reflexivity.
Qed.
Lemma rs_filter g : (forall e, In e (mh_intr M) -> g (connect_intr M e) = open_pair (ed_pair e)) ->
  map ed_pair (filter g (mh_intr M1)) = rest /\ map ed_pair (filter (fun e => negb (g e)) (mh_intr M1)) = ms_intr st'.
Proof.
  intros G. assert (E : map ed_pair (mh_intr M1) = ms_intr st' ++ rest).
  { cbn [setup_facet_connectivity mh_intr]. rewrite map_map. rewrite <- rs_pairs. apply map_ext. intros e. apply connect_pair. }
  assert (G' : forall e, In e (mh_intr M1) -> g e = open_pair (ed_pair e)).
  { intros e J. cbn [setup_facet_connectivity mh_intr] in J. apply in_map_iff in J. destruct J as (x & <- & J). rewrite connect_pair. apply G, J. }
  split.
  - rewrite (filter_pairs ed_pair g open_pair) by exact G'. rewrite E, filter_app, filter_none, filter_all; [reflexivity|exact open_rest|exact open_inner].
  - rewrite (filter_pairs ed_pair _ (fun p => negb (open_pair p))) by (intros x J; rewrite (G' x J); reflexivity).
    rewrite E, filter_app, filter_all, filter_none; [apply app_nil_r| |]; intros x J; [rewrite (open_rest x J)|rewrite (open_inner x J)]; reflexivity.
Qed.
Lemma rs_kept : ms_intr (opened M1) = ms_intr st'.
Proof.
  cbn [opened ms_intr]. unfold kept_intr.
  destruct (rs_filter (fun e => half_open e && in_square front_scale (ed_xy (mh_pos M1) e))) as [_ X]; [|exact X].
  intros e J. rewrite rs_half by exact J.
  assert (SQ : in_square front_scale (ed_xy (mh_pos M1) (connect_intr M e)) = true).
  { destruct (connect_ends M e) as (E1 & E2 & _). unfold ed_xy. rewrite E1, E2. destruct (back_edge m1 st' N e J) as (_ & V1 & V2).
    apply (wf_vlt _ (nt_wf _ _ _ N)) in V1, V2. apply (in_square_mid front_scale (ms_pos st') (BE 0 (ed_1 e) (ed_2 e) 0 0)); cbn [be_v1 be_v2]; apply (nt_fsq _ _ _ N); assumption. }
  rewrite SQ. apply andb_true_r.
Qed.
Definition old_open (x : nat * nat * Z * BinNums.N) : bool := negb (sided (ends_sig x)).
Lemma rs_front : Permutation (map sig fr) (map sig (ms_front (opened M1))).
Proof.
  cbn [opened ms_front]. rewrite front_from_sig. unfold front_edges. rewrite map_app.
  apply (Permutation_trans (Permutation_map sig (filter_parts interior fr))). rewrite map_app. apply Permutation_app.
  - change (fun e => negb (is_some (ed_l e)) || negb (is_some (ed_r e))) with half_open.
    destruct (rs_filter half_open rs_half) as [E _].
    assert (E' : map msig (filter half_open (mh_intr M1)) = map (fun p => (p, interior_edge_color, 0%N)) (map ed_pair (filter half_open (mh_intr M1)))).
    { rewrite map_map. apply map_ext_in. intros e J. apply filter_In in J. destruct J as [J _]. cbn [setup_facet_connectivity mh_intr] in J. apply in_map_iff in J. destruct J as (x & <- & J).
      destruct (rs_new x J) as [C1 C2]. destruct (connect_ends M x) as (_ & _ & _ & E4 & E5 & _). unfold msig, ed_pair. rewrite E4, E5, C1, C2. reflexivity. }
    rewrite E', E. unfold rest. rewrite map_map. match goal with |- Permutation ?a ?b => replace b with a; [apply Permutation_refl|] end.
    apply map_ext_in. intros e J. apply filter_In in J. destruct J as [J K]. destruct (rs_interior e J K) as ([C1 C2] & _). unfold sig, pair_of. rewrite C1, C2. reflexivity.
  - assert (E : map msig (filter (fun e => negb (is_some (ed_l e))) (mh_bdry M1)) = filter old_open (map sig f0)).
    { cbn [setup_facet_connectivity mh_bdry]. rewrite (filter_pairs msig _ old_open).
      - f_equal. rewrite <- BD. change (mh_bdry m1) with (mh_bdry M). rewrite map_map. apply map_ext. intros e. destruct (connect_bdry_ends M e) as (E1 & E2 & _ & E4 & E5 & _). unfold msig. congruence.
      - intros x J. apply in_map_iff in J. destruct J as (e & <- & J). rewrite (rs_b e J). destruct (connect_bdry_ends M e) as (E1 & E2 & _). unfold old_open, ends_sig, msig. cbn [fst]. rewrite E1, E2. reflexivity. }
    rewrite E. assert (NF : NoDup (map sig f0)) by (apply (nodup_of_map ends_sig); rewrite <- ends_sigs; exact (simple_pairs _ _ S0)).
    apply NoDup_Permutation.
    + rewrite boundary_sigs. apply NoDup_filter. apply (nodup_of_map ends_sig). rewrite <- ends_sigs. exact (simple_pairs _ _ (pw_simple _ _ _ _ _ _ P)).
    + apply NoDup_filter, NF.
    + intros x. split; intros J.
      * apply in_map_iff in J. destruct J as (e & <- & J). apply filter_In in J. destruct J as [J K]. apply negb_true_iff in K. destruct (rs_boundary e J K) as [B _]. apply filter_In. split; [exact B|].
        destruct (rs_free e J) as [Z _]. unfold old_open, sided, ends_sig, sig. cbn [fst snd]. rewrite Z. reflexivity.
      * apply filter_In in J. destruct J as [J K]. apply in_map_iff in J. destruct J as (y & <- & J). destruct (rs_outer y J) as (NE & D1 & _).
        destruct (rs_cases _ _ NE) as (_ & _ & C3 & _). destruct (C3 D1) as (_ & _ & _ & UF). unfold old_open, sided, ends_sig, sig in K. cbn [fst snd] in K. apply negb_true_iff, Nat.eqb_neq in K.
        assert (FI : In (be_v1 y, be_v2 y) (ends fr)) by (apply uses_some; lia). unfold ends in FI. apply in_map_iff in FI. destruct FI as (e & Ee & Je).
        assert (KI : interior e = false).
        { destruct (interior e) eqn:KI; [|reflexivity]. exfalso. destruct (rs_interior e Je KI) as (_ & Z & _). unfold pair_of in Ee. injection Ee as X1 X2. rewrite X1, X2 in Z. lia. }
        destruct (rs_boundary e Je KI) as [B _]. apply in_map_iff. exists e. split; [|apply filter_In; rewrite KI; auto].
        apply in_map_iff in B. destruct B as (z & Ez & Jz). rewrite <- Ez. f_equal. apply (nodup_map_in pair_of f0 z y); [exact (simple_pairs _ _ S0)|assumption..|].
        unfold sig in Ez. injection Ez as X1 X2 _ _. unfold pair_of in *. congruence.
Qed.
Lemma rs_elements : elements (opened M1) = ss.
Proof.
  assert (E : ms_tris (opened M1) = ms_tris st') by exact (tri_of_fin (ms_tris st')).
  assert (E' : ms_quads (opened M1) = ms_quads st') by exact (quad_of_fin (ms_quads st')).
  unfold elements, generated. rewrite E, E'. reflexivity.
Qed.
Lemma rs_partway : partway (mh_scale M) pos gen f0 (mh_col M) (opened M1).
Proof.
  assert (PE : Permutation (ends fr) (ends (ms_front (opened M1)))) by (rewrite !ends_sigs; apply Permutation_map, rs_front).
  assert (IN : forall e, In e (ms_front (opened M1)) -> exists x, In x fr /\ sig x = sig e).
  { intros e J. apply (in_map sig) in J. apply (Permutation_in _ (Permutation_sym rs_front)) in J. apply in_map_iff in J. destruct J as (x & E & J). exists x. auto. }
  assert (MC : mh_col M = mh_col m1) by (cbn [put_back mh_col]; exact (nt_col _ _ _ N)).
  constructor.
  - exact (opened_neat M1 (setup_laid M LM)).
  - apply (simple_same pos fr); [exact rs_front| |exact (pw_simple _ _ _ _ _ _ P)]. cbn [opened ms_front]. rewrite front_from_ids. apply seq_NoDup.
  - intros e J. destruct (IN e J) as (x & K & E). unfold sig in E. injection E as E1 E2 _ _. rewrite <- E1, <- E2. exact (pw_known _ _ _ _ _ _ P x K).
  - rewrite rs_elements. exact (pw_shape _ _ _ _ _ _ P).
  - intros w AW. rewrite rs_elements, <- (esum_perm w _ _ PE). exact (pw_total _ _ _ _ _ _ P w AW).
  - intros p q NE. rewrite rs_elements, rs_kept. assert (B := pw_balance _ _ _ _ _ _ P p q NE).
    assert (P1 : Permutation (ends (filter interior fr)) (ends (filter interior (ms_front (opened M1))))) by (rewrite !ends_sigs, !interior_sigs; apply Permutation_map, perm_filter, rs_front).
    assert (P2 : Permutation (ends (filter (fun e => negb (interior e)) fr)) (ends (filter (fun e => negb (interior e)) (ms_front (opened M1)))))
      by (rewrite !ends_sigs, !boundary_sigs; apply Permutation_map, perm_filter, rs_front).
    rewrite !uses_any_split in * by exact NE. rewrite (uses_perm p q _ _ P1), (uses_perm q p _ _ P1), (uses_perm p q _ _ P2), (uses_perm q p _ _ P2) in B. exact B.
  - intros e J. destruct (IN e J) as (x & K & E). destruct (pw_kind _ _ _ _ _ _ P x K) as [[X1 X2]|X]; [left|right].
    + unfold sig in E. injection E as _ _ E3 E4. split; congruence.
    + rewrite <- E. exact X.
  - rewrite rs_elements. exact (pw_area _ _ _ _ _ _ P).
Qed.
End Reopen.

(* ---- a mesh between two stages ---- *)
Record midway (pos : nat -> vec2) (gen : list tri) (f0 : list bedge) (m : mesh) : Prop := {
  mw_laid : laid m;
  mw_verts : mh_verts m <> [];
  mw_way : partway (mh_scale m) pos gen f0 (mh_col m) (opened (setup_facet_connectivity m));
  mw_bdry : map msig (mh_bdry m) = map sig f0;
  mw_point : pointed m;
  mw_new : forall e, In e (mh_intr m) -> ed_col e = interior_edge_color /\ ed_prop e = 0%N;
  mw_eids : NoDup (map ed_id (all_edges m))
}.
