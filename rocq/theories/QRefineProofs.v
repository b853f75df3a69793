(* Proofs about the quad refinement, part 1: closed forms of the loops. *)
From Coq Require Import Lia Permutation.
From Verif Require Import Base GeomModel FacetModel UtilModel UtilProofs AdvanceModel Chain MeshModel MeshSpec MeshProofs
  QRefineModel QRefineSpec.

(* ---------- edges ---------- *)
Fixpoint new_mids (n : nat) (es : list medge) : list nat :=
  match es with [] => [] | _ :: r => n :: new_mids (3 + n) r end.
Fixpoint halves (col : medge -> Z) (pr : N) (n : nat) (es : list medge) : list medge :=
  match es with
  | [] => []
  | e :: r => ED (1 + n) (ed_1 e) n (col e) pr None None None ::
              ED (2 + n) n (ed_2 e) (col e) pr None None None :: halves col pr (3 + n) r
  end.

Definition untouched (m m' : mesh) : Prop :=
  mh_quads m' = mh_quads m /\ mh_tris m' = mh_tris m /\ mh_nbr m' = mh_nbr m /\
  mh_area m' = mh_area m /\ mh_col m' = mh_col m /\ mh_scale m' = mh_scale m.

Section EdgePhase.
Variable col : medge -> Z.
Variable pr : N.
Variable vp : N -> N -> N.
(* what both edge loops do in one step *)
Definition edge_step (lst : mesh -> list medge) (oth : mesh -> list medge) (stp : mesh * subs -> medge -> mesh * subs) : Prop :=
  forall m sub e, let r := stp (m, sub) e in let m' := fst r in
    untouched m m' /\ mh_verts m' = mh_verts m ++ [mh_next m] /\
    lst m' = lst m ++ [ED (1 + mh_next m) (ed_1 e) (mh_next m) (col e) pr None None None;
                       ED (2 + mh_next m) (mh_next m) (ed_2 e) (col e) pr None None None] /\
    oth m' = oth m /\ mh_next m' = (3 + mh_next m)%nat /\
    (forall v, v <> mh_next m -> mh_pos m' v = mh_pos m v) /\
    mh_pos m' (mh_next m) = ed_xy (mh_pos m) e /\
    (forall v, v <> mh_next m -> mh_prop m' v = mh_prop m v) /\
    mh_prop m' (mh_next m) = vp (mh_prop m (ed_1 e)) (mh_prop m (ed_2 e)) /\
    snd r = (fun k => if Nat.eqb k (ed_id e) then Some (mh_next m) else sub k).

Lemma edge_phase lst oth stp es : edge_step lst oth stp -> forall m sub m' sub',
  NoDup (map ed_id es) ->
  (forall e, In e es -> (ed_1 e < mh_next m)%nat /\ (ed_2 e < mh_next m)%nat) ->
  fold_left stp es (m, sub) = (m', sub') ->
  untouched m m' /\ mh_verts m' = mh_verts m ++ new_mids (mh_next m) es /\
  lst m' = lst m ++ halves col pr (mh_next m) es /\ oth m' = oth m /\
  mh_next m' = (3 * length es + mh_next m)%nat /\
  (forall v, (v < mh_next m)%nat -> mh_pos m' v = mh_pos m v) /\
  (forall v, (v < mh_next m)%nat -> mh_prop m' v = mh_prop m v) /\
  Forall2 (fun e v => sub' (ed_id e) = Some v /\ mh_pos m' v = ed_xy (mh_pos m) e /\
                     mh_prop m' v = vp (mh_prop m (ed_1 e)) (mh_prop m (ed_2 e))) es (new_mids (mh_next m) es) /\
  (forall k, ~ In k (map ed_id es) -> sub' k = sub k).
Proof.
  intros ST. induction es as [|e es IH]; intros m sub m' sub' ND HE H.
  - cbn in H. injection H as H1 H2. subst. cbn. rewrite !app_nil_r. repeat split; auto; intros; lia.
  - cbn [fold_left] in H. destruct (stp (m, sub) e) as [m1 sub1] eqn:E1.
    assert (S1 := ST m sub e). cbn zeta in S1. rewrite E1 in S1. cbn [fst snd] in S1.
    destruct S1 as [U [V [L [O [N [P [PM [PP [PV SB]]]]]]]]].
    cbn [map] in ND. inversion ND as [|? ? NI ND']. subst.
    assert (HE1 : forall x, In x es -> (ed_1 x < mh_next m1)%nat /\ (ed_2 x < mh_next m1)%nat).
    { intros x Hx. destruct (HE x (or_intror Hx)). rewrite N. lia. }
    destruct (IH m1 _ m' sub' ND' HE1 H) as [U' [V' [L' [O' [N' [P' [PP' [F' K']]]]]]]].
    split; [|split; [|split; [|split; [|split; [|split; [|split; [|split]]]]]]].
    + unfold untouched in *. destruct U as [a1 [a2 [a3 [a4 [a5 a6]]]]], U' as [b1 [b2 [b3 [b4 [b5 b6]]]]].
      rewrite b1, b2, b3, b4, b5, b6. auto 10.
    + rewrite V', V, N, <- app_assoc. reflexivity.
    + rewrite L', L, N, <- app_assoc. reflexivity.
    + rewrite O', O. reflexivity.
    + rewrite N', N. cbn [length]. lia.
    + intros v Hv. rewrite P' by lia. apply P. lia.
    + intros v Hv. rewrite PP' by lia. apply PP. lia.
    + cbn [new_mids]. constructor.
      * split; [rewrite K' by exact NI; rewrite Nat.eqb_refl; reflexivity|].
        rewrite P' by lia. rewrite PP' by lia. split; [exact PM|exact PV].
      * rewrite N in F'. revert F'. generalize (new_mids (3 + mh_next m) es). intros l F'.
        assert (X : forall x, In x es -> ed_xy (mh_pos m1) x = ed_xy (mh_pos m) x /\
            mh_prop m1 (ed_1 x) = mh_prop m (ed_1 x) /\ mh_prop m1 (ed_2 x) = mh_prop m (ed_2 x)).
        { intros x Hx. destruct (HE x (or_intror Hx)) as [X1 X2]. unfold ed_xy. rewrite !P by lia. rewrite !PP by lia. auto. }
        clear - F' X. induction F' as [|x v xs l [A [B B2]] F IH]; [constructor|].
        destruct (X x (or_introl eq_refl)) as [Y1 [Y2 Y3]].
        constructor; [rewrite B, B2, Y1, Y2, Y3; auto|].
        apply IH. intros y Hy. apply X. right. exact Hy.
    + intros k Hk. cbn [map] in Hk. rewrite K' by (intros X; apply Hk; right; exact X).
      destruct (Nat.eqb_spec k (ed_id e)); [exfalso; apply Hk; left; congruence|reflexivity].
Qed.
End EdgePhase.

Lemma refine_intr_step : edge_step (fun _ => interior_edge_color) 0%N
  (fun p q => flag_step (N.lor p q) (FRemove v_on_boundary)) mh_intr mh_bdry refine_intr.
Proof.
  intros m sub e. unfold refine_intr. cbn zeta. cbn [fst snd]. split; [repeat split|].
  cbn [add_intr add_vertex mh_verts mh_intr mh_bdry mh_next mh_pos mh_prop].
  rewrite Nat.eqb_refl, <- app_assoc. split; [reflexivity|]. split; [reflexivity|]. split; [reflexivity|].
  split; [reflexivity|]. split; [|split; [reflexivity|split; [|split; reflexivity]]];
    intros v Hv; (destruct (Nat.eqb_spec v (mh_next m)); [contradiction|reflexivity]).
Qed.
Lemma refine_bdry_step : edge_step ed_col e_on_boundary N.lor mh_bdry mh_intr refine_bdry.
Proof.
  intros m sub e. unfold refine_bdry. cbn zeta. cbn [fst snd]. split; [repeat split|].
  cbn [add_bdry add_vertex mh_verts mh_intr mh_bdry mh_next mh_pos mh_prop].
  rewrite Nat.eqb_refl, <- app_assoc. split; [reflexivity|]. split; [reflexivity|]. split; [reflexivity|].
  split; [reflexivity|]. split; [|split; [reflexivity|split; [|split; reflexivity]]];
    intros v Hv; (destruct (Nat.eqb_spec v (mh_next m)); [contradiction|reflexivity]).
Qed.

Lemma new_mids_range es : forall n v, In v (new_mids n es) -> (n <= v < 3 * length es + n)%nat.
Proof.
  induction es as [|e es IH]; intros n v H; [destruct H|]. cbn [new_mids length] in *.
  destruct H as [H|H]; [lia|]. apply IH in H. lia.
Qed.
Lemma new_mids_nodup es : forall n, NoDup (new_mids n es).
Proof.
  induction es as [|e es IH]; intros n; [constructor|]. cbn [new_mids]. constructor; [|apply IH].
  intros H. apply new_mids_range in H. lia.
Qed.
Lemma new_mids_length es : forall n, length (new_mids n es) = length es.
Proof. induction es as [|e es IH]; intros n; [reflexivity|]. cbn [new_mids length]. rewrite IH. reflexivity. Qed.
Lemma halves_range col pr es : forall n h, In h (halves col pr n es) -> (n <= ed_id h < 3 * length es + n)%nat.
Proof.
  induction es as [|e es IH]; intros n v H; [destruct H|]. cbn [halves length] in *.
  destruct H as [H|[H|H]]; [subst; cbn; lia|subst; cbn; lia|]. apply IH in H. lia.
Qed.
Lemma halves_nodup col pr es : forall n, NoDup (map ed_id (halves col pr n es)).
Proof.
  induction es as [|e es IH]; intros n; [constructor|]. cbn [halves map].
  assert (X : forall k, (k < 3 + n)%nat -> ~ In k (map ed_id (halves col pr (3 + n) es))).
  { intros k L H. apply in_map_iff in H. destruct H as [h [E H]]. apply halves_range in H. lia. }
  constructor; [|constructor; [apply X; cbn; lia|apply IH]].
  intros [H|H]; [cbn in H; lia|]. revert H. apply X. cbn. lia.
Qed.
Lemma halves_length col pr es : forall n, length (halves col pr n es) = (2 * length es)%nat.
Proof. induction es as [|e es IH]; intros n; [reflexivity|]. cbn [halves length]. rewrite IH. lia. Qed.
Definition ends_of (e : medge) : nat * nat := (ed_1 e, ed_2 e).
Lemma halves_ends col pr es : forall n,
  map ends_of (halves col pr n es) =
  flat_map (fun ev => [(ed_1 (fst ev), snd ev); (snd ev, ed_2 (fst ev))]) (combine es (new_mids n es)).
Proof.
  induction es as [|e es IH]; intros n; [reflexivity|].
  cbn [halves new_mids combine flat_map map app fst snd]. rewrite IH. reflexivity.
Qed.

(* ---------- elements ---------- *)
Definition sub_shapes (sg : nat -> nat -> nat) (g : nat) (f : facet) : list shape :=
  match fa_sh f with
  | Tri3 a b c => [Quad4 a (sg a b) g (sg c a); Quad4 b (sg b c) g (sg a b); Quad4 c (sg c a) g (sg b c)]
  | Quad4 a b c d => [Quad4 a (sg a b) g (sg d a); Quad4 b (sg b c) g (sg a b);
                      Quad4 c (sg c d) g (sg b c); Quad4 d (sg d a) g (sg c d)]
  end.
Definition spokes (sg : nat -> nat -> nat) (g : nat) (f : facet) : list (nat * nat) :=
  map (fun s => (sg (fst s) (snd s), g)) (sides f).
Definition ncorner (f : facet) : nat := length (corners (fa_sh f)).

Fixpoint number_quads (n : nat) (c : Z) (l : list shape) : list facet :=
  match l with [] => [] | s :: r => FA n s c false :: number_quads (S n) c r end.
Fixpoint number_edges (n : nat) (l : list (nat * nat)) : list medge :=
  match l with [] => [] | p :: r => ED n (fst p) (snd p) interior_edge_color 0%N None None None :: number_edges (S n) r end.
Fixpoint new_centres (n : nat) (fs : list facet) : list nat :=
  match fs with [] => [] | f :: r => n :: new_centres (1 + 2 * ncorner f + n) r end.
Fixpoint new_quads (sg : nat -> nat -> nat) (n : nat) (fs : list facet) : list facet :=
  match fs with
  | [] => []
  | f :: r => number_quads (1 + n) (fa_col f) (sub_shapes sg n f) ++ new_quads sg (1 + 2 * ncorner f + n) r
  end.
Fixpoint new_spokes (sg : nat -> nat -> nat) (n : nat) (fs : list facet) : list medge :=
  match fs with
  | [] => []
  | f :: r => number_edges (1 + ncorner f + n) (spokes sg n f) ++ new_spokes sg (1 + 2 * ncorner f + n) r
  end.

Definition refine_facet (sub : subs) (m : mesh) (f : facet) : outcome mesh :=
  match fa_sh f with Tri3 _ _ _ => refine_tri sub m f | Quad4 _ _ _ _ => refine_quad sub m f end.

Definition kept (m m' : mesh) : Prop :=
  mh_tris m' = mh_tris m /\ mh_bdry m' = mh_bdry m /\
  mh_area m' = mh_area m /\ mh_col m' = mh_col m /\ mh_scale m' = mh_scale m.

Lemma refine_facet_step sub sg m f :
  (forall a b, In (a, b) (sides f) -> sub_of m sub a b = Some (sg a b)) ->
  exists m', refine_facet sub m f = Ok m' /\ kept m m' /\
    mh_verts m' = mh_verts m ++ [mh_next m] /\
    mh_quads m' = mh_quads m ++ number_quads (1 + mh_next m) (fa_col f) (sub_shapes sg (mh_next m) f) /\
    mh_intr m' = mh_intr m ++ number_edges (1 + ncorner f + mh_next m) (spokes sg (mh_next m) f) /\
    mh_next m' = (1 + 2 * ncorner f + mh_next m)%nat /\
    (forall v, v <> mh_next m -> mh_pos m' v = mh_pos m v) /\
    mh_pos m' (mh_next m) = fa_xy (mh_pos m) f /\
    (forall v, v <> mh_next m -> mh_prop m' v = mh_prop m v) /\
    has_property (mh_prop m' (mh_next m)) v_on_boundary = false /\
    (forall k i, (k < mh_next m)%nat -> mh_nbr m' k i = mh_nbr m k i) /\
    (forall k i, In k (map fa_id (number_quads (1 + mh_next m) (fa_col f) (sub_shapes sg (mh_next m) f))) -> mh_nbr m' k i = None).
Proof.
  intros H. unfold refine_facet, refine_tri, refine_quad, sub_shapes, spokes, sides, ncorner in *.
  destruct (fa_sh f) as [a b c|a b c d] eqn:SH; cbn [corners ring_edges path_edges app] in H.
  - rewrite (H a b), (H b c), (H c a) by (cbn; auto 10).
    eexists. split; [reflexivity|].
    cbn [add_vertex add_quad add_intr mh_pos mh_prop mh_verts mh_quads mh_tris mh_intr mh_bdry mh_nbr mh_next mh_area mh_col mh_scale].
    rewrite <- ?app_assoc. cbn [app corners length ring_edges path_edges map fst snd number_quads number_edges fa_id].
    split; [repeat split|]. split; [reflexivity|]. split; [reflexivity|]. split; [reflexivity|]. split; [cbn; lia|].
    rewrite Nat.eqb_refl. split; [|split; [reflexivity|split; [|split; [apply remove_has; exact eq_refl|split]]]];
      try (intros v Hv; (destruct (Nat.eqb_spec v (mh_next m)); [contradiction|reflexivity])).
    + intros k i L. repeat (match goal with |- context [Nat.eqb k ?x] => destruct (Nat.eqb_spec k x); [lia|] end). reflexivity.
    + intros k i HK.
      repeat (match goal with |- context [Nat.eqb k ?x] => destruct (Nat.eqb_spec k x); [reflexivity|] end).
      exfalso. cbn in HK. lia.
  - rewrite (H a b), (H b c), (H c d), (H d a) by (cbn; auto 10).
    eexists. split; [reflexivity|].
    cbn [add_vertex add_quad add_intr mh_pos mh_prop mh_verts mh_quads mh_tris mh_intr mh_bdry mh_nbr mh_next mh_area mh_col mh_scale].
    rewrite <- ?app_assoc. cbn [app corners length ring_edges path_edges map fst snd number_quads number_edges fa_id].
    split; [repeat split|]. split; [reflexivity|]. split; [reflexivity|]. split; [reflexivity|]. split; [cbn; lia|].
    rewrite Nat.eqb_refl. split; [|split; [reflexivity|split; [|split; [apply remove_has; exact eq_refl|split]]]];
      try (intros v Hv; (destruct (Nat.eqb_spec v (mh_next m)); [contradiction|reflexivity])).
    + intros k i L. repeat (match goal with |- context [Nat.eqb k ?x] => destruct (Nat.eqb_spec k x); [lia|] end). reflexivity.
    + intros k i HK.
      repeat (match goal with |- context [Nat.eqb k ?x] => destruct (Nat.eqb_spec k x); [reflexivity|] end).
      exfalso. cbn in HK. lia.
Qed.

Lemma filter_none_app {A} (p : A -> bool) l l' : (forall x, In x l' -> p x = false) -> filter p (l ++ l') = filter p l.
Proof.
  intros H. rewrite filter_app.
  assert (E : filter p l' = []).
  { induction l' as [|a l' IH]; [reflexivity|]. cbn. rewrite (H a (or_introl eq_refl)). apply IH. intros x Hx. apply H. right. exact Hx. }
  rewrite E, app_nil_r. reflexivity.
Qed.

Lemma number_edges_in n l e : In e (number_edges n l) -> In (ends_of e) l /\ (n <= ed_id e < n + length l)%nat /\ ed_twin e = None.
Proof.
  revert n. induction l as [|p l IH]; intros n H; [destruct H|]. cbn [number_edges length] in *. destruct H as [H|H].
  - subst e. destruct p as [a b]. cbn. split; [left; reflexivity|]. split; [lia|reflexivity].
  - destruct (IH _ H) as [A [B C]]. split; [right; exact A|]. split; [lia|exact C].
Qed.

Lemma sub_of_stable sub m m' ns a b : mh_intr m' = mh_intr m ++ ns -> mh_bdry m' = mh_bdry m ->
  (forall x, In x ns -> ed_joins a b x = false) -> sub_of m' sub a b = sub_of m sub a b.
Proof.
  intros I B H. unfold sub_of, get_edge, find_edge. rewrite I, B, filter_none_app by exact H. reflexivity.
Qed.

Lemma facet_phase sub sg fs : forall m,
  (forall f a b, In f fs -> In (a, b) (sides f) -> sub_of m sub a b = Some (sg a b) /\
      (a < mh_next m)%nat /\ (b < mh_next m)%nat) ->
  (forall f v, In f fs -> In v (corners (fa_sh f)) -> (v < mh_next m)%nat) ->
  exists m', ofold (refine_facet sub) fs m = Ok m' /\ kept m m' /\
    mh_verts m' = mh_verts m ++ new_centres (mh_next m) fs /\
    mh_quads m' = mh_quads m ++ new_quads sg (mh_next m) fs /\
    mh_intr m' = mh_intr m ++ new_spokes sg (mh_next m) fs /\
    (mh_next m <= mh_next m')%nat /\
    (forall v, (v < mh_next m)%nat -> mh_pos m' v = mh_pos m v) /\
    (forall v, (v < mh_next m)%nat -> mh_prop m' v = mh_prop m v) /\
    Forall2 (fun f g => mh_pos m' g = fa_xy (mh_pos m) f) fs (new_centres (mh_next m) fs) /\
    (forall g, In g (new_centres (mh_next m) fs) -> (mh_next m <= g < mh_next m')%nat /\
       has_property (mh_prop m' g) v_on_boundary = false) /\
    (forall f, In f (new_quads sg (mh_next m) fs) -> (mh_next m <= fa_id f < mh_next m')%nat) /\
    (forall e, In e (new_spokes sg (mh_next m) fs) -> (mh_next m <= ed_id e < mh_next m')%nat) /\
    (forall f i, In f (new_quads sg (mh_next m) fs) -> mh_nbr m' (fa_id f) i = None).
Proof.
  induction fs as [|f fs IH]; intros m HS HC.
  - exists m. cbn. rewrite !app_nil_r. split; [reflexivity|]. split; [repeat split|].
    repeat (split; [solve [reflexivity | auto | constructor | lia | intros; contradiction]|]). intros; contradiction.
  - destruct (refine_facet_step sub sg m f) as [m1 [E1 [K1 [V1 [Q1 [I1 [N1 [P1 [X1 [PP1 [PC1 [NB1 NB1']]]]]]]]]]]].
    { intros a b Hab. apply (HS f a b (or_introl eq_refl) Hab). }
    assert (NC : (ncorner f = 3 \/ ncorner f = 4)%nat) by (unfold ncorner; destruct (fa_sh f); auto).
    destruct K1 as [KT [KB [KA [KC KS]]]].
    destruct (IH m1) as [m' [E' [K' [V' [Q' [I' [N' [P' [PP' [F' [G' [R' [S' NB']]]]]]]]]]]]].
    { intros f' a b Hf' Hab. destruct (HS f' a b (or_intror Hf') Hab) as [A [B1 B2]]. split; [|rewrite N1; lia].
      rewrite <- A. apply (sub_of_stable sub m m1 _ a b I1 KB). intros x Hx.
      apply number_edges_in in Hx. destruct Hx as [Hx _]. unfold spokes in Hx. apply in_map_iff in Hx.
      destruct Hx as [s [Es _]]. injection Es as Es1 Es2. unfold ed_joins. rewrite <- Es2.
      destruct (Nat.eqb_spec (mh_next m) a); [lia|]. destruct (Nat.eqb_spec (mh_next m) b); [lia|].
      rewrite !andb_false_r. reflexivity. }
    { intros f' v Hf' Hv. assert (T := HC f' v (or_intror Hf') Hv). rewrite N1. lia. }
    exists m'. cbn [ofold]. rewrite E1. cbn [obind]. split; [exact E'|].
    destruct K' as [KT' [KB' [KA' [KC' KS']]]].
    assert (LQ : forall x, In x (number_quads (1 + mh_next m) (fa_col f) (sub_shapes sg (mh_next m) f)) ->
       (mh_next m <= fa_id x < mh_next m1)%nat).
    { rewrite N1. assert (L : length (sub_shapes sg (mh_next m) f) = ncorner f) by (unfold sub_shapes, ncorner; destruct (fa_sh f); reflexivity).
      rewrite <- L. generalize (sub_shapes sg (mh_next m) f). intros l x Hx.
      assert (T : forall n l x, In x (number_quads n (fa_col f) l) -> (n <= fa_id x < n + length l)%nat).
      { clear. intros n l. revert n. induction l as [|s l IH]; intros n x H; [destruct H|]. cbn [number_quads length] in *.
        destruct H as [H|H]; [subst; cbn; lia|]. apply IH in H. lia. }
      apply T in Hx. lia. }
    split; [unfold kept; rewrite KT', KB', KA', KC', KS'; auto 10|].
    split; [rewrite V', V1, N1, <- app_assoc; reflexivity|].
    split; [rewrite Q', Q1, N1, <- app_assoc; reflexivity|].
    split; [rewrite I', I1, N1, <- app_assoc; reflexivity|].
    split; [lia|].
    split; [intros v Hv; rewrite P' by lia; apply P1; lia|].
    split; [intros v Hv; rewrite PP' by lia; apply PP1; lia|].
    cbn [new_centres new_quads new_spokes]. rewrite <- N1.
    split; [|split; [|split; [|split]]].
    + constructor; [rewrite P' by lia; exact X1|].
      assert (X : forall x, In x fs -> fa_xy (mh_pos m1) x = fa_xy (mh_pos m) x).
      { intros x Hx. assert (T := HC x). unfold fa_xy. destruct (fa_sh x) as [p q r|p q r s] eqn:SH;
          rewrite !P1; try reflexivity;
          match goal with |- ?v <> _ => assert (v < mh_next m)%nat by (apply (HC x v (or_intror Hx)); rewrite SH; cbn; auto); lia end. }
      clear - F' X. revert F'. generalize (new_centres (mh_next m1) fs). intros l F'.
      induction F' as [|x v xs l A F IH]; [constructor|]. constructor; [rewrite A; apply X; left; reflexivity|].
      apply IH. intros y Hy. apply X. right. exact Hy.
    + intros g [Hg|Hg]; [subst g; split; [lia|rewrite PP' by lia; exact PC1]|]. apply G' in Hg. split; [lia|tauto].
    + intros x Hx. apply in_app_or in Hx. destruct Hx as [Hx|Hx]; [apply LQ in Hx; lia|]. apply R' in Hx. lia.
    + intros x Hx. apply in_app_or in Hx. destruct Hx as [Hx|Hx]; [|apply S' in Hx; lia].
      apply number_edges_in in Hx. destruct Hx as [_ [B _]].
      assert (L : length (spokes sg (mh_next m) f) = ncorner f) by (unfold spokes, sides, ncorner; destruct (fa_sh f); reflexivity). lia.
    + intros x i Hx. apply in_app_or in Hx. destruct Hx as [Hx|Hx]; [|apply NB'; exact Hx].
      (* the later elements do not write to older addresses *)
      assert (OLD : forall k, (k < mh_next m1)%nat -> mh_nbr m' k i = mh_nbr m1 k i).
      { clear - E' HS HC I1 KB N1 P1. 
        assert (G : forall fs m0 m', ofold (refine_facet sub) fs m0 = Ok m' -> (mh_next m0 <= mh_next m')%nat /\
                  forall k, (k < mh_next m0)%nat -> mh_nbr m' k i = mh_nbr m0 k i).
        { clear. induction fs as [|f fs IH]; intros m0 m' E; [injection E as E; subst; auto|].
          cbn [ofold] in E. destruct (refine_facet sub m0 f) as [m1| |] eqn:E1; try discriminate. cbn [obind] in E.
          destruct (IH m1 m' E) as [A B].
          assert (S1 : (mh_next m0 <= mh_next m1)%nat /\ forall k, (k < mh_next m0)%nat -> mh_nbr m1 k i = mh_nbr m0 k i).
          { unfold refine_facet, refine_tri, refine_quad in E1. destruct (fa_sh f) as [a b c|a b c d].
            - destruct (sub_of m0 sub a b); [|discriminate]. destruct (sub_of m0 sub b c); [|discriminate].
              destruct (sub_of m0 sub c a); [|discriminate]. injection E1 as E1. subst m1.
              cbn [add_vertex add_quad add_intr mh_nbr mh_next]. split; [lia|]. intros k L.
              repeat (match goal with |- context [Nat.eqb k ?x] => destruct (Nat.eqb_spec k x); [lia|] end). reflexivity.
            - destruct (sub_of m0 sub a b); [|discriminate]. destruct (sub_of m0 sub b c); [|discriminate].
              destruct (sub_of m0 sub c d); [|discriminate]. destruct (sub_of m0 sub d a); [|discriminate]. injection E1 as E1. subst m1.
              cbn [add_vertex add_quad add_intr mh_nbr mh_next]. split; [lia|]. intros k L.
              repeat (match goal with |- context [Nat.eqb k ?x] => destruct (Nat.eqb_spec k x); [lia|] end). reflexivity. }
          destruct S1 as [C D]. split; [lia|]. intros k L. rewrite B by lia. apply D. exact L. }
        apply (G fs m1 m' E'). }
      rewrite OLD by (apply LQ in Hx; lia). apply NB1'. apply in_map. exact Hx.
Qed.
