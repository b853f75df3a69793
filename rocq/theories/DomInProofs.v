(* Boundaries made from definitions: proofs for DomInProps. *)
From Coq Require Import Lia Lqa Permutation.
From Verif Require Import Base Chain GeomModel GeomSpec UtilModel BdryModel BdrySpec BdryProofs BdryProps WindSpec WindProofs InsideProofs WindInside WindInsideProps PolySpec PolyProofs PolyMain PolyProps
  ClearSpec ClearStart ClearDomain ParaModel CsvModel AppModel ShapeModel ShapeProps DomCheckProofs DomInModel DomInSpec.
Open Scope Q_scope.

(* ---------- polygons with equal points and turned polygons ---------- *)
Lemma onseg_eq a b a' b' s : veq a a' -> veq b b' -> veq (on_seg a b s) (on_seg a' b' s).
Proof. intros [A1 A2] [B1 B2]. unfold on_seg. split; cbn [vx vy]; rewrite ?A1, ?A2, ?B1, ?B2; reflexivity. Qed.
Lemma onseg_swap a b s : veq (on_seg a b s) (on_seg b a (1 - s)).
Proof. unfold on_seg. split; cbn [vx vy]; ring. Qed.
Lemma v_sym p q : veq p q -> veq q p.
Proof. intros [A B]. split; symmetry; assumption. Qed.
Lemma v_trans p q r : veq p q -> veq q r -> veq p r.
Proof. intros [A B] [C D]. split; [rewrite A; exact C|rewrite B; exact D]. Qed.

Lemma f2_nth {A B} (R : A -> B -> Prop) l m : Forall2 R l m -> forall i b, nth_error m i = Some b -> exists a, nth_error l i = Some a /\ R a b.
Proof. induction 1 as [|a b l m H F IH]; intros [|i] y Y; try discriminate; cbn in *; [injection Y as <-; exists a; split; [reflexivity|exact H]|apply IH, Y]. Qed.
Lemma simple_moved l m : Forall2 veq l m -> simple_polygon l -> simple_polygon m.
Proof.
  intros F (L & P & M). assert (LE := Forall2_len _ _ _ F). split; [rewrite <- LE; exact L|].
  assert (R := ring_edges_Forall2 veq l m F). assert (ND := ring_nodup l P). split.
  - clear - F P. induction F as [|a b l m E F IH]; [constructor|]. inversion P as [|? ? P1 P2]; subst. constructor; [|apply IH, P2].
    rewrite Forall_forall in *. intros y Y. apply In_nth_error in Y. destruct Y as (i & Y). destruct (f2_nth _ _ _ F i y Y) as (x & X & XY).
    intros Z. apply (P1 x (nth_error_In _ _ X)). exact (v_trans _ _ _ E (v_trans _ _ _ Z (v_sym _ _ XY))).
  - intros e f s t I J N S T E. apply In_nth_error in I, J. destruct I as (i & I), J as (j & J).
    destruct (f2_nth _ _ _ R i e I) as (e0 & I0 & E1 & E2). destruct (f2_nth _ _ _ R j f J) as (f0 & J0 & E3 & E4).
    apply (M e0 f0 s t (nth_error_In _ _ I0) (nth_error_In _ _ J0)); [|exact S|exact T|].
    + intros Z. subst f0. assert (IL : (i < length (ring_edges l))%nat) by (apply nth_error_Some; congruence).
      assert (X := proj1 (NoDup_nth_error _) ND i j IL ltac:(congruence)). congruence.
    + exact (v_trans _ _ _ (onseg_eq _ _ _ _ s E1 E2) (v_trans _ _ _ E (v_sym _ _ (onseg_eq _ _ _ _ t E3 E4)))).
Qed.

Definition turned {A} (l : list A) : list A := match l with [] => [] | a :: t => a :: rev t end.
Lemma turned_perm {A} (l : list A) : Permutation l (turned l).
Proof. destruct l as [|a t]; [constructor|]. constructor. apply Permutation_rev. Qed.
Lemma turned_map {A B} (f : A -> B) l : turned (map f l) = map f (turned l).
Proof. destruct l as [|a t]; [reflexivity|]. cbn [map turned]. rewrite map_rev. reflexivity. Qed.
Lemma path_back {A} (x y : A) t : rev (map swap_edge (path_edges x (t ++ [y]))) = path_edges y (rev t ++ [x]).
Proof.
  revert x. induction t as [|z t IH]; intros x; [reflexivity|]. cbn [app path_edges map rev swap_edge fst snd]. rewrite IH.
  rewrite <- app_assoc. cbn [app]. rewrite (path_edges_app y (rev t) z [x]). reflexivity.
Qed.
Lemma ring_turned {A} (l : list A) : ring_edges (turned l) = reverse_edges (ring_edges l).
Proof. destruct l as [|a t]; [reflexivity|]. cbn [turned ring_edges]. unfold reverse_edges. symmetry. apply path_back. Qed.
Lemma in_reversed {A} (es : list (A * A)) e : In e (reverse_edges es) <-> In (swap_edge e) es.
Proof.
  unfold reverse_edges. rewrite <- in_rev, in_map_iff. split.
  - intros ([a b] & <- & I). exact I.
  - intros I. exists (swap_edge e). split; [destruct e; reflexivity|exact I].
Qed.
Lemma simple_turned l : simple_polygon l -> simple_polygon (turned l).
Proof.
  intros (L & P & M). split; [rewrite <- (Permutation_length (turned_perm l)); exact L|]. split.
  - apply (fop_perm (fun a b => ~ veq a b) l); [intros x y N E; apply N, v_sym, E|apply turned_perm|exact P].
  - rewrite ring_turned. intros e f s t I J N S T E. apply in_reversed in I, J.
    assert (K : (1 - s == 0 \/ 1 - s == 1) /\ (1 - t == 0 \/ 1 - t == 1)).
    { apply (M (swap_edge e) (swap_edge f) (1 - s) (1 - t) I J); [intros Z; apply N; destruct e, f; unfold swap_edge in Z; cbn [fst snd] in Z; injection Z as Z1 Z2; subst; reflexivity|lra|lra|].
      cbn [swap_edge fst snd]. apply (v_trans _ (on_seg (fst e) (snd e) s)); [apply v_sym, onseg_swap|]. apply (v_trans _ _ _ E). apply onseg_swap. }
    destruct K as [K1 K2]. split; [destruct K1|destruct K2]; lra.
Qed.
Lemma turned_Forall2 {A B} (R : A -> B -> Prop) l m : Forall2 R l m -> Forall2 R (turned l) (turned m).
Proof.
  intros F. destruct F as [|a b l m E F]; [constructor|]. cbn [turned]. constructor; [exact E|].
  induction F as [|x y l m H F IH]; [constructor|]. cbn [rev]. apply Forall2_app; [exact IH|]. constructor; [exact H|constructor].
Qed.
Lemma same_separate es es' fs fs' : same_points es es' -> same_points fs fs' -> separate es' fs' -> separate es fs.
Proof.
  intros E F S e f s t I J Hs Ht Z.
  assert (G : forall (es es' : list (vec2 * vec2)) e, same_points es es' -> In e es -> exists e', In e' es' /\ veq (fst e) (fst e') /\ veq (snd e) (snd e')).
  { clear. intros es es' e H. induction H as [|a b l m Q F IH]; intros I; [destruct I|]. destruct I as [<-|I]; [exists b; split; [left; reflexivity|exact Q]|].
    destruct (IH I) as (x & X & Y). exists x. split; [right; exact X|exact Y]. }
  destruct (G _ _ _ E I) as (e' & I' & E1 & E2). destruct (G _ _ _ F J) as (f' & J' & F1 & F2). apply (S e' f' s t I' J' Hs Ht).
  apply (v_trans _ _ _ (v_sym _ _ (onseg_eq _ _ _ _ s E1 E2))). apply (v_trans _ _ _ Z). exact (onseg_eq _ _ _ _ t F1 F2).
Qed.
Lemma reverse_separate es fs : separate es fs -> separate (reverse_edges es) fs.
Proof.
  intros S e f s t I J Hs Ht Z. apply in_reversed in I. apply (S (swap_edge e) f (1 - s) t I J); [lra|exact Ht|].
  cbn [swap_edge fst snd]. apply (v_trans _ (on_seg (fst e) (snd e) s)); [apply v_sym, onseg_swap|exact Z].
Qed.
Lemma separate_sym es fs : separate es fs -> separate fs es.
Proof. intros S e f s t I J Hs Ht Z. exact (S f e t s J I Ht Hs (v_sym _ _ Z)). Qed.

(* ---------- a boundary that was made ---------- *)
Lemma push_ids pos es : forall l, map be_id (el_edges l) = seq 0 (length (el_edges l)) ->
  let l' := fold_left (fun l e => match e with (a, b, c) => push_edge pos (BE (length (el_edges l)) a b c e_on_boundary) l end) es l in
  map be_id (el_edges l') = seq 0 (length (el_edges l')).
Proof.
  induction es as [|[[a b] c] es IH]; intros l H; cbn [fold_left]; [exact H|]. apply IH. unfold push_edge.
  assert (W : forall x, el_edges (with_area pos x) = el_edges x) by (intros x; unfold with_area; repeat match goal with |- context [if ?b then _ else _] => destruct b end; reflexivity).
  rewrite W. cbn [el_edges]. rewrite map_app, app_length, H. cbn [map length be_id]. rewrite Nat.add_1_r, seq_S. reflexivity.
Qed.
Lemma create_ring nearest bt store shape props colors store' l :
  create_boundary_shape nearest bt store shape props colors = Ok (store', l) ->
  exists vs, ends (el_edges l) = ring_edges vs /\ Forall (fun v => (v < length store')%nat) vs /\
    map be_id (el_edges l) = seq 0 (length (el_edges l)) /\
    Forall2 (fun p v => veq p (store_pos store' v)) (if is_forward bt (Qltb 0 (polygon_area shape)) then shape else turned shape) vs.
Proof.
  unfold create_boundary_shape. intros E. cbv zeta in E. set (fwd := is_forward bt (Qltb 0 (polygon_area shape))) in *.
  destruct (shape_vertices nearest store shape props) as [[st verts]| |] eqn:V; cbn [obind fst snd] in E; try discriminate.
  destruct (shape_edges fwd verts colors) as [es| |] eqn:S; cbn [obind] in E; try discriminate.
  injection E as E1 E2. subst st. destruct (shape_vertices_ok _ _ _ _ _ _ V) as [_ HF]. destruct (shape_edges_ok _ _ _ _ S) as [Hes _].
  change (fun v => match nth_error store' v with Some x => vi_xy x | None => V2 0 0 end) with (store_pos store') in E2.
  set (pos := store_pos store') in *.
  destruct (push_all pos es (EL (bdry_orient bt) [] 0)) as (_ & P2 & _); [destruct bt; reflexivity|].
  assert (ID := push_ids pos es (EL (bdry_orient bt) [] 0) eq_refl). cbv zeta in ID, P2. rewrite E2 in P2, ID. cbn [el_edges map app] in P2.
  assert (Hends : ends (el_edges l) = map fst es).
  { assert (X : map (fun x => (fst (fst (fst x)), snd (fst (fst x)))) (map payload (el_edges l)) =
       map (fun x => (fst (fst (fst x)), snd (fst (fst x)))) (map (fun e => (fst (fst e), snd (fst e), snd e, e_on_boundary)) es))
      by (rewrite P2; reflexivity).
    rewrite !map_map in X. unfold ends, payload in *. cbn in X. rewrite X. apply map_ext. intros [[a b] c]. reflexivity. }
  assert (IN : Forall (fun v => (v < length store')%nat) verts).
  { apply Forall_forall. intros v I. apply In_nth_error in I. destruct I as (k & K).
    assert (X : exists xy, nth_error shape k = Some xy) by (destruct (nth_error shape k) eqn:Z; [eexists; reflexivity|]; apply nth_error_None in Z; rewrite <- (Forall2_len _ _ _ HF) in Z; apply nth_error_None in Z; congruence).
    destruct X as (xy & X). destruct (f2_nth _ _ _ HF k xy X) as (v' & V' & x & N & _). rewrite K in V'. injection V' as <-. apply nth_error_Some. congruence. }
  assert (PF : Forall2 (fun p v => veq p (store_pos store' v)) shape verts).
  { clear - HF. induction HF as [|v p vs sh (x & X & Q) F IH]; constructor; [|exact IH]. unfold store_pos. rewrite X. apply v_sym, Q. }
  exists (if fwd then verts else turned verts). split; [rewrite Hends, Hes; destruct fwd; [reflexivity|symmetry; apply ring_turned]|].
  split; [destruct fwd; [exact IN|]; rewrite Forall_forall in *; intros v I; apply IN; apply (Permutation_in _ (Permutation_sym (turned_perm verts)) I)|].
  split; [exact ID|]. destruct fwd; [exact PF|apply turned_Forall2, PF].
Qed.

(* the boundary [b], over the vertices [store], runs around the polygon [shape] *)
Record around_shape (store : list vinfo) (bt : bdry_type) (b : elist) (shape : list vec2) : Prop := {
  ar_ring : exists vs, ends (el_edges b) = ring_edges vs /\ Forall (fun v => (v < length store)%nat) vs /\ simple_polygon (map (store_pos store) vs);
  ar_ids : map be_id (el_edges b) = seq 0 (length (el_edges b));
  ar_points : exists fwd : bool, same_points (created store b) (if fwd then ring_edges shape else reverse_edges (ring_edges shape));
  ar_area : el_area b == (match bt with EXTERIOR => 1 | INTERIOR => - (1) end) * Qabs.Qabs (signed_area shape);
  ar_simple : simple_boundary (Bd bt (created store b) (el_area b))
}.
Lemma created_ring store b vs : ends (el_edges b) = ring_edges vs -> created store b = ring_edges (map (store_pos store) vs).
Proof. intros E. rewrite ring_map, <- E. unfold created, ends. rewrite map_map. reflexivity. Qed.
Lemma signed_ring (pos : nat -> vec2) vs : signed_area (map pos vs) == (1 # 2) * esum (fun a b => vcross (pos a) (pos b)) (ring_edges vs).
Proof. unfold signed_area. rewrite ring_map, (esum_map pos vcross). reflexivity. Qed.
Lemma create_around nearest bt store shape props colors store' l :
  create_boundary_shape nearest bt store shape props colors = Ok (store', l) -> simple_polygon shape -> around_shape store' bt l shape.
Proof.
  intros E S. destruct (create_ring _ _ _ _ _ _ _ _ E) as (vs & V1 & V2 & V3 & V4).
  destruct (create_ok _ _ _ _ _ _ _ _ E) as (_ & _ & P & _ & _ & A & _ & AL & _). cbv zeta in P, A, AL. fold (created store' l) in P.
  set (fwd := is_forward bt (Qltb 0 (polygon_area shape))) in *.
  assert (V5 : Forall2 veq (if fwd then shape else turned shape) (map (store_pos store') vs)).
  { clear - V4. induction V4; cbn [map]; constructor; assumption. }
  assert (SP : simple_polygon (map (store_pos store') vs)) by (apply (simple_moved _ _ V5); destruct fwd; [exact S|apply simple_turned, S]).
  assert (SA : signed_area (map (store_pos store') vs) == (if fwd then polygon_area shape else - polygon_area shape)).
  { rewrite signed_ring, <- V1. exact A. }
  assert (SG : match bt with EXTERIOR => 0 < (if fwd then polygon_area shape else - polygon_area shape) | INTERIOR => (if fwd then polygon_area shape else - polygon_area shape) < 0 end).
  { assert (AS := area_signed shape). destruct (C56_polygon shape S) as [(Z & _)|(Z & _)]; rewrite <- AS in Z; unfold fwd, is_forward.
    - rewrite (proj2 (Qltb_true _ _) Z). destruct bt; cbn [negb]; lra.
    - assert (Q : Qltb 0 (polygon_area shape) = false) by (destruct (Qltb 0 (polygon_area shape)) eqn:X; [apply Qltb_true in X; lra|reflexivity]).
      rewrite Q. destruct bt; cbn [negb]; lra. }
  constructor.
  - exists vs. split; [exact V1|]. split; [exact V2|exact SP].
  - exact V3.
  - exists fwd. exact P.
  - rewrite (AL (proj1 S)), A. rewrite (Qabs.Qabs_wd _ _ (Qeq_sym _ _ (area_signed shape))).
    destruct bt; apply Qabs.Qabs_case; intros H; destruct fwd; lra.
  - exists (map (store_pos store') vs). cbn [bd_edges bd_type]. split; [apply created_ring, V1|]. split; [exact SP|]. destruct bt; rewrite SA; exact SG.
Qed.
Lemma around_later store ext bt b shape : around_shape store bt b shape -> around_shape (store ++ ext) bt b shape /\ created (store ++ ext) b = created store b.
Proof.
  intros [(vs & V1 & V2 & V3) ID P A SB].
  assert (M : map (store_pos (store ++ ext)) vs = map (store_pos store) vs).
  { clear - V2. induction V2 as [|v vs H F IH]; [reflexivity|]. cbn [map]. rewrite IH. f_equal. unfold store_pos. rewrite nth_error_app1 by exact H. reflexivity. }
  assert (C : created (store ++ ext) b = created store b) by (rewrite !(created_ring _ _ vs V1), M; reflexivity).
  split; [|exact C]. constructor; [|exact ID|rewrite C; exact P|exact A|rewrite C; exact SB].
  exists vs. split; [exact V1|]. split; [|rewrite M; exact V3]. rewrite Forall_forall in *. intros v I. specialize (V2 v I). rewrite app_length. lia.
Qed.

(* a winding number of the boundary is one of the polygon, up to its sign *)
Lemma around_winding store bt b shape p : around_shape store bt b shape ->
  (winding p (ring_edges shape) == 0 /\ winding p (created store b) == 0) \/
  (~ winding p (ring_edges shape) == 0 /\ winding p (created store b) == turning bt).
Proof.
  intros [_ _ (fwd & P) _ SB]. assert (W := simple_boundary_winding _ p SB). cbn [bd_edges bd_type] in W.
  assert (E : winding p (created store b) == (if fwd then 1 else - (1)) * winding p (ring_edges shape)).
  { rewrite (same_winding p _ _ P). destruct fwd; [ring|]. rewrite reversed_winding. ring. }
  destruct W as [W|W]; [left|right]; rewrite W in E; destruct bt; cbn [turning] in *; destruct fwd; split; try assumption; lra.
Qed.
Lemma around_separate store b1 b2 bt1 bt2 s1 s2 : around_shape store bt1 b1 s1 -> around_shape store bt2 b2 s2 -> separate (ring_edges s1) (ring_edges s2) ->
  separate (created store b1) (created store b2).
Proof.
  intros [_ _ (f1 & P1) _ _] [_ _ (f2 & P2) _ _] S. apply (same_separate _ _ _ _ P1 P2).
  assert (S1 : separate (if f1 then ring_edges s1 else reverse_edges (ring_edges s1)) (ring_edges s2)) by (destruct f1; [exact S|apply reverse_separate, S]).
  destruct f2; [exact S1|]. apply separate_sym, reverse_separate, separate_sym, S1.
Qed.
Lemma around_corner store bt b shape p : around_shape store bt b shape -> In p shape -> exists e, In e (created store b) /\ veq (fst e) p.
Proof.
  intros [_ _ (fwd & P) _ _] I.
  assert (X : exists f, In f (if fwd then ring_edges shape else reverse_edges (ring_edges shape)) /\ fst f = p).
  { destruct fwd.
    - rewrite <- (ring_starts shape), in_map_iff in I. destruct I as (f & F & J). exists f. split; assumption.
    - assert (I2 := Permutation_in _ (turned_perm shape) I). rewrite <- (ring_starts (turned shape)), ring_turned, in_map_iff in I2. destruct I2 as (f & F & J). exists f. split; assumption. }
  destruct X as (f & F & <-). clear I. apply In_nth_error in F. destruct F as (i & F). destruct (f2_nth _ _ _ P i f F) as (e & E & H & _). exists e. split; [exact (nth_error_In _ _ E)|exact H].
Qed.
