(* Conservation laws of quad layers. *)
From Coq Require Import Lia Lqa Permutation.
From Verif Require Import Base Chain GeomModel GeomSpec FacetModel UtilModel BdryModel BdrySpec BdryProofs
  AdvanceModel AdvanceSpec AdvanceProofs AdvanceInv AdvanceMore MeshModel WindSpec WindProofs WindMesh QLayerModel QLayerSpec QLayerProofs QTileSpec.
Open Scope Q_scope.

Definition total (w : nat -> nat -> Q) (m : mstate) : Q :=
  esum w (flat_map shape_sides (elements m)) + esum w (ends (ms_front m)).
Definition keeps (m m' : mstate) : Prop := forall v, (v < ms_nv m)%nat -> ms_pos m' v = ms_pos m v.
Definition simple_elements (m : mstate) : Prop := forall s, In s (elements m) -> simple_shape (ms_pos m) s.
Definition quads_lt (m : mstate) : Prop := forall q, In q (ms_quads m) -> forall v, In v (corners (quad_element q)) -> (v < ms_nv m)%nat.
Definition base_ok (m : mstate) : Prop := wf m /\ quads_lt m.

Lemma perm_flat {A B} (f : A -> list B) l l' : Permutation l l' -> Permutation (flat_map f l) (flat_map f l').
Proof.
  induction 1 as [|a l l' _ IH|a b l|l1 l2 l3 _ IH1 _ IH2]; cbn [flat_map].
  - constructor.
  - apply Permutation_app_head. exact IH.
  - rewrite !app_assoc. apply Permutation_app_tail, Permutation_app_comm.
  - eapply Permutation_trans; eassumption.
Qed.
Lemma uses_in a b l : In (a, b) l -> (1 <= uses a b l)%nat.
Proof.
  intros H. unfold uses. apply in_split in H. destruct H as (l1 & l2 & ->). rewrite filter_app, app_length. cbn [filter fst snd].
  rewrite !Nat.eqb_refl. cbn. lia.
Qed.
Lemma joins_sym a b e : joins a b e = joins b a e.
Proof. unfold joins. destruct (Nat.eqb (be_v1 e) a), (Nat.eqb (be_v2 e) b), (Nat.eqb (be_v2 e) a), (Nat.eqb (be_v1 e) b); reflexivity. Qed.
Lemma get_sym es a b : get_edge_nodir es a b = get_edge_nodir es b a.
Proof. unfold get_edge_nodir. f_equal. apply filter_ext. apply joins_sym. Qed.
Lemma pair_in e es : In e es -> In (be_v1 e, be_v2 e) (ends es).
Proof. intros H. unfold ends. apply in_map_iff. exists e. auto. Qed.
(* an edge of the front found for a side of a fitting triangle runs along it *)
Lemma fits_along m t a b e : fits m t -> In (a, b) (tri_sides t) -> get_edge_nodir (ms_front m) a b = Some e ->
  In e (ms_front m) /\ be_v1 e = a /\ be_v2 e = b.
Proof.
  intros F S G. unfold get_edge_nodir in G. apply oldest_in, filter_In in G. destruct G as [I J]. split; [exact I|].
  unfold joins in J. apply orb_true_iff in J. rewrite !andb_true_iff, !Nat.eqb_eq in J. destruct J as [[A B]|[A B]]; [auto|].
  exfalso. destruct (F a b S) as [Z _]. pose proof (uses_in b a (ends (ms_front m))) as U. rewrite Z in U.
  assert (X : In (b, a) (ends (ms_front m))) by (rewrite <- A, <- B; apply pair_in; exact I). specialize (U X). lia.
Qed.
Lemma fits_front m m' t : ms_front m' = ms_front m -> fits m' t -> fits m t.
Proof. unfold fits. intros ->. auto. Qed.

Section Tests.
Variable mesh_scale : Q.
Variable tri_ok : mstate -> tri -> bool.
Variable vtx_ok : mstate -> nat -> bool.
Variable qual : mstate -> tri -> Q.
Notation fstep := (fstep mesh_scale tri_ok vtx_ok qual).

Definition sq (m : mstate) : Prop := vertices_in front_scale m /\ vertices_in mesh_scale m.
Record onward (m m' : mstate) : Prop := {
  ow_ok : base_ok m';
  ow_nv : (ms_nv m <= ms_nv m')%nat;
  ow_ne : (ms_ne m <= ms_ne m')%nat;
  ow_still : keeps m m';
  ow_sub : forall e, In e (ms_front m') -> In e (ms_front m) \/ (ms_ne m <= be_id e)%nat;
  ow_simple : sq m' -> simple_elements m -> simple_elements m';
  ow_total : sq m' -> forall w, antisym w -> total w m' == total w m
}.
Lemma sq_back m m' : (ms_nv m <= ms_nv m')%nat -> keeps m m' -> sq m' -> sq m.
Proof. intros N S [A B]. split; intros v Hv; rewrite <- (S v Hv); [apply A|apply B]; lia. Qed.
Lemma onward_refl m : base_ok m -> onward m m.
Proof. intros B. constructor; auto; try lia; [intros v _; reflexivity|reflexivity]. Qed.
Lemma onward_trans a b c : onward a b -> onward b c -> onward a c.
Proof.
  intros H K. pose proof (ow_nv _ _ H) as N1. pose proof (ow_nv _ _ K) as N2. pose proof (ow_ne _ _ H). pose proof (ow_ne _ _ K).
  assert (Q : sq c -> sq b) by (apply sq_back; apply K). constructor.
  - apply K.
  - lia.
  - lia.
  - intros v Hv. rewrite (ow_still _ _ K) by lia. apply H. exact Hv.
  - intros e He. destruct (ow_sub _ _ K e He) as [X|X]; [|right; lia]. apply (ow_sub _ _ H). exact X.
  - intros S X. apply K; [exact S|]. apply H; [apply Q; exact S|exact X].
  - intros S w A. rewrite (ow_total _ _ K S w A). apply H; [apply Q; exact S|exact A].
Qed.
Lemma elements_same m m' : generated m' = generated m -> ms_quads m' = ms_quads m -> elements m' = elements m.
Proof. unfold elements. intros -> ->. reflexivity. Qed.
Lemma elements_lt m s v : base_ok m -> In s (elements m) -> In v (corners s) -> (v < ms_nv m)%nat.
Proof.
  intros [W Q] H C. unfold elements in H. apply in_app_or in H. destruct H as [H|H]; apply in_map_iff in H; destruct H as (x & <- & H).
  - destruct (wf_tv _ W x (gen_in _ _ H)) as (A & B & D). cbn in C. destruct C as [<-|[<-|[<-|[]]]]; assumption.
  - exact (Q x H v C).
Qed.
Lemma simple_moved m m' : base_ok m -> keeps m m' -> simple_elements m -> forall s, In s (elements m) -> simple_shape (ms_pos m') s.
Proof. intros B S X s Hs. apply (simple_ext (ms_pos m)); [|apply X; exact Hs]. intros v Hv. apply S. exact (elements_lt m s v B Hs Hv). Qed.

(* nothing but the containers of triangles and vertices has changed *)
Lemma grown_onward m m' : base_ok m -> grown m m' -> wf m' -> onward m m'.
Proof.
  intros B G W. destruct G as [G1 G2 G3 G4 G5 G6 G7 G8 G9 G10]. assert (Q : quads_lt m').
  { intros q Hq v Hv. rewrite G8 in Hq. destruct B as [_ B]. specialize (B q Hq v Hv). lia. }
  assert (E : elements m' = elements m) by (apply elements_same; assumption).
  constructor; auto; try lia.
  - split; assumption.
  - rewrite G2. auto.
  - intros _ X s Hs. rewrite E in Hs. exact (simple_moved m m' B G9 X s Hs).
  - intros _ w _. unfold total. rewrite E, G2. reflexivity.
Qed.
(* a triangle is accepted *)
Lemma advance_onward m m1 e v t : base_ok m -> grown m m1 -> wf m1 -> In e (ms_front m1) -> (v < ms_nv m1)%nat ->
  v <> be_v1 e -> v <> be_v2 e -> In t (ms_tris m1) -> tr_act t = false ->
  Permutation (tri_sides t) [(be_v1 e, be_v2 e); (be_v2 e, v); (v, be_v1 e)] -> fits m1 t ->
  0 < det (ms_pos m1 (tr_v1 t)) (ms_pos m1 (tr_v2 t)) (ms_pos m1 (tr_v3 t)) ->
  onward m (advance_front m1 e v t) /\ Permutation (generated (advance_front m1 e v t)) (activated t :: generated m).
Proof.
  intros B G W I Lv N1 N2 It At P F D.
  set (m' := advance_front m1 e v t).
  assert (W' : wf m') by (apply advance_wf; assumption).
  assert (PG : Permutation (generated m') (activated t :: generated m)) by (rewrite <- (g_gen _ _ G); apply advance_generated; assumption).
  split; [|exact PG].
  assert (QE : ms_quads m' = ms_quads m) by (unfold m'; cbn [advance_front ms_quads]; apply G).
  assert (PE : Permutation (elements m') (tri_element t :: elements m)).
  { unfold elements. rewrite QE. change (tri_element t :: map tri_element (generated m) ++ map quad_element (ms_quads m))
      with (map tri_element (activated t :: generated m) ++ map quad_element (ms_quads m)). apply Permutation_app_tail, Permutation_map. exact PG. }
  assert (ST : keeps m m') by (intros x Hx; apply G; exact Hx).
  constructor.
  - split; [exact W'|]. intros q Hq x Hx. rewrite QE in Hq. destruct B as [_ B]. specialize (B q Hq x Hx). pose proof (g_nv _ _ G). cbn. lia.
  - apply G.
  - unfold m'. cbn [advance_front ms_ne]. rewrite (g_ne _ _ G). lia.
  - exact ST.
  - intros f Hf. unfold m' in Hf. rewrite advance_front_front in Hf by assumption. apply in_app_or in Hf. destruct Hf as [Hf|Hf].
    + left. rewrite <- (g_front _ _ G). exact (kept_in _ _ _ _ Hf).
    + right. apply new_edges_in in Hf. rewrite <- (g_ne _ _ G). lia.
  - intros _ X s Hs. apply (Permutation_in _ PE) in Hs. destruct Hs as [<-|Hs]; [exact D|]. exact (simple_moved m m' B ST X s Hs).
  - intros [V _] w A. unfold total. rewrite (esum_perm w _ _ (perm_flat shape_sides _ _ PE)). cbn [flat_map]. rewrite esum_app.
    assert (E1 : esum w (shape_sides (tri_element t)) == w (be_v1 e) (be_v2 e) + w (be_v2 e) v + w v (be_v1 e)).
    { change (shape_sides (tri_element t)) with (tri_sides t). rewrite (esum_perm w _ _ P). cbn [esum]. ring. }
    assert (X : sides_expected m1 (TR 0 (be_v1 e) (be_v2 e) v true 0)).
    { assert (S : forall a b, In (a, b) [(be_v1 e, be_v2 e); (be_v2 e, v); (v, be_v1 e)] -> In (a, b) (tri_sides t)).
      { intros a b. apply Permutation_in. apply Permutation_sym. exact P. }
      split; cbn [tr_v1 tr_v2 tr_v3]; intros f Hf.
      - apply (fits_along m1 t) in Hf; [tauto|exact F|]. apply S. cbn. tauto.
      - rewrite get_sym in Hf. apply (fits_along m1 t) in Hf; [tauto|exact F|]. apply S. cbn. tauto. }
    pose proof (front_sum_anti w m1 e v A W V I N1 N2 X) as Y. unfold m' at 1. rewrite advance_front_front by assumption.
    rewrite (g_front _ _ G) in Y. rewrite E1. lra.
Qed.

(* ---- one update of the front ---- *)
Hypothesis tri_fits : forall s t, tri_ok s t = true -> fits s t.
Hypothesis tri_positive : forall s t, tri_ok s t = true -> 0 < det (ms_pos s (tr_v1 t)) (ms_pos s (tr_v2 t)) (ms_pos s (tr_v3 t)).

Lemma update_base m k xy cands m' t b : wf m -> fstep m (FUpdate k xy cands) = Ok (m', Some t) -> find_edge k (ms_front m) = Some b ->
  tr_v1 t = be_v1 b /\ tr_v2 t = be_v2 b.
Proof.
  intros W H FE. cbn [AdvanceModel.fstep] in H. unfold update_front in H. rewrite FE in H.
  destruct (find_edge_in _ _ _ FE) as [Ib _]. set (cs := filter (in_list (ms_verts m)) cands) in *.
  assert (C : forall v, In v cs -> (v < ms_nv m)%nat) by (intros v Hv; apply filter_In in Hv; destruct Hv as [_ Hv]; apply in_list_spec in Hv; apply (wf_vlt _ W); exact Hv).
  pose proof (create_possible_spec mesh_scale tri_ok cs m b W Ib C) as (E & _ & S). cbv zeta in *.
  destruct (create_possible mesh_scale tri_ok m b cs) as [m1 ts]. cbn [fst snd] in *.
  destruct (sort_tris (qual m1) ts) as [|best others] eqn:ES.
  - destruct (add_vertex m1 xy) as [m2 v]. unfold add_triangle in H. 
    match type of H with (if ?c then _ else _) = _ => destruct c end; [|discriminate]. injection H as <- <-. cbn. auto.
  - injection H as <- <-. assert (I : In best ts) by (eapply Permutation_in; [apply Permutation_sym, sort_tris_perm|rewrite ES; left; reflexivity]).
    destruct (S best I) as (_ & _ & A & B & _). auto.
Qed.

Lemma update_onward m k xy cands m' r : base_ok m -> fstep m (FUpdate k xy cands) = Ok (m', r) ->
  onward m m' /\ match r with
                 | None => True
                 | Some t => Permutation (generated m') (activated t :: generated m) /\ (tr_v3 t < ms_nv m')%nat /\ fits m t /\
                     0 < det (ms_pos m' (tr_v1 t)) (ms_pos m' (tr_v2 t)) (ms_pos m' (tr_v3 t)) /\
                     (sq m' -> forall d, get_edge_nodir (ms_front m') (tr_v3 t) (tr_v2 t) = Some d ->
                        find_edge (be_id d) (ms_front m') = Some d /\ be_v1 d = tr_v3 t /\ be_v2 d = tr_v2 t)
                 end.
Proof.
  intros B H. pose proof B as [W _]. pose proof (step_wf mesh_scale tri_ok vtx_ok qual _ _ _ _ W H) as W'.
  cbn [AdvanceModel.fstep] in H. apply update_front_spec in H; [|exact W|intros v Hv; apply filter_In in Hv; apply in_list_spec; apply Hv]. destruct r as [t|].
  - destruct H as (m1 & b & T & -> & _). destruct T as [G W1 _ Ib V1 V2 L3 N1 N2 It At _ _ (stx & Gx & OK & PX & _)].
    assert (I1 : In b (ms_front m1)) by (rewrite (g_front _ _ G); exact Ib).
    assert (F : fits m t) by (apply (fits_front _ stx); [apply Gx|apply tri_fits; exact OK]).
    assert (F1 : fits m1 t) by (apply (fits_front _ m); [symmetry; apply G|exact F]).
    destruct (wf_tv _ W1 t It) as (L1 & L2 & _).
    assert (D : 0 < det (ms_pos m1 (tr_v1 t)) (ms_pos m1 (tr_v2 t)) (ms_pos m1 (tr_v3 t))).
    { pose proof (tri_positive _ _ OK) as D. rewrite !PX in D by assumption. exact D. }
    assert (P : Permutation (tri_sides t) [(be_v1 b, be_v2 b); (be_v2 b, tr_v3 t); (tr_v3 t, be_v1 b)]) by (unfold tri_sides; rewrite V1, V2; apply Permutation_refl).
    destruct (advance_onward m m1 b (tr_v3 t) t B G W1 I1 L3 N1 N2 It At P F1 D) as [O PG].
    split; [exact O|]. split; [exact PG|]. split; [exact L3|]. split; [exact F|]. split; [exact D|].
    intros [SF _] d Hd. rewrite V2 in *.
    assert (Id : In d (ms_front (advance_front m1 b (tr_v3 t) t)) /\ joins (tr_v3 t) (be_v2 b) d = true).
    { unfold get_edge_nodir in Hd. apply oldest_in, filter_In in Hd. exact Hd. }
    destruct Id as [Id J].
    assert (FD : find_edge (be_id d) (ms_front (advance_front m1 b (tr_v3 t) t)) = Some d).
    { unfold find_edge. destruct (find _ _) as [x|] eqn:E.
      - apply find_some in E. destruct E as [E1 E2]. apply Nat.eqb_eq in E2. f_equal. exact (id_inj _ _ _ (wf_eid _ W') E1 Id E2).
      - exfalso. apply (find_none _ _ E) in Id. rewrite Nat.eqb_refl in Id. discriminate. }
    split; [exact FD|]. unfold joins in J. apply orb_true_iff in J. rewrite !andb_true_iff, !Nat.eqb_eq in J. destruct J as [J|[J1 J2]]; [exact J|].
    (* against the new triangle: a second edge along its side *)
    exfalso. destruct (wf_ev _ W b Ib) as (_ & _ & Nb). rewrite advance_front_front in Id by assumption. apply in_app_or in Id. destruct Id as [Id|Id].
    + assert (S23 : In (be_v2 b, tr_v3 t) (tri_sides t)) by (unfold tri_sides; rewrite V2; cbn; tauto).
      destruct (F1 _ _ S23) as [_ U]. assert (VS : vertices_in front_scale m1) by exact SF.
      rewrite (uses_perm _ _ _ _ (perm_ends _ _ (front_split m1 b (tr_v3 t) W1 VS I1 N1 N2))) in U.
      destruct (get_edge_nodir (ms_front m1) (tr_v3 t) (be_v2 b)) as [f2|] eqn:E2.
      * assert (X2 := E2). rewrite get_sym in X2. apply (fits_along m1 t) in X2; [|exact F1|exact S23]. destruct X2 as (_ & A1 & A2).
        assert (IP : In f2 (fst (plan_of m1 b (tr_v3 t)))).
        { unfold plan_of, adv_plan. rewrite E2. destruct (get_edge_nodir (ms_front m1) (tr_v3 t) (be_v1 b)); cbn; tauto. }
        cbn [ends map] in U. rewrite uses_cons in U. rewrite map_app, uses_app in U.
        assert (K1 := uses_in (be_v2 b) (tr_v3 t) (map (fun e => (be_v1 e, be_v2 e)) (fst (plan_of m1 b (tr_v3 t))))).
        assert (K2 := uses_in (be_v2 b) (tr_v3 t) (map (fun e => (be_v1 e, be_v2 e)) (kept m1 b (tr_v3 t)))).
        assert (Z1 : In (be_v2 b, tr_v3 t) (map (fun e => (be_v1 e, be_v2 e)) (fst (plan_of m1 b (tr_v3 t))))) by (apply in_map_iff; exists f2; split; [congruence|exact IP]).
        assert (Z2 : In (be_v2 b, tr_v3 t) (map (fun e => (be_v1 e, be_v2 e)) (kept m1 b (tr_v3 t)))) by (apply in_map_iff; exists d; split; [congruence|exact Id]).
        specialize (K1 Z1). specialize (K2 Z2). lia.
      * destruct (get_edge_none _ _ _ E2 d (kept_in _ _ _ _ Id)) as [_ Y]. apply Y. auto.
    + apply new_edges_in in Id. destruct Id as (_ & Id & _). apply plan_new_ends in Id. unfold pair_of in Id. destruct Id as [Id|Id]; injection Id as Y1 Y2; congruence.
  - destruct H as (G & _). split; [|exact I]. exact (grown_onward m m' B G W').
Qed.

(* ---- two triangles become a quad ---- *)
Lemma nodup_map_filter {A} (g : A -> nat) p l : NoDup (map g l) -> NoDup (map g (filter p l)).
Proof.
  induction l as [|x l IH]; cbn; intros N; [constructor|]. inversion N; subst. destruct (p x); cbn; [|auto].
  constructor; [|auto]. intros C. apply H1. apply in_map_iff in C. destruct C as (y & E & C). apply filter_In in C.
  rewrite <- E. apply in_map. apply C.
Qed.
Notation remove_triangle := (remove_triangle mesh_scale).
Lemma remove_wf m t : wf m -> wf (remove_triangle m t).
Proof.
  intros W. unfold AdvanceModel.remove_triangle. destruct (in_square _ _); [|exact W]. constructor; cbn; try apply W.
  - apply nodup_map_filter. apply W.
  - intros x Hx. apply filter_In in Hx. apply W. apply Hx.
  - intros x Hx. apply filter_In in Hx. apply W. apply Hx.
Qed.
Lemma remove_same m t : ms_pos (remove_triangle m t) = ms_pos m /\ ms_nv (remove_triangle m t) = ms_nv m /\
  ms_front (remove_triangle m t) = ms_front m /\ ms_ne (remove_triangle m t) = ms_ne m /\ ms_quads (remove_triangle m t) = ms_quads m.
Proof. unfold AdvanceModel.remove_triangle. destruct (in_square _ _); cbn; auto. Qed.
Lemma filter_comm {A} (f g : A -> bool) l : filter f (filter g l) = filter g (filter f l).
Proof.
  induction l as [|x l IH]; [reflexivity|]. cbn. destruct (g x) eqn:G, (f x) eqn:F; cbn; rewrite ?G, ?F, IH; reflexivity.
Qed.
Lemma remove_generated m t : vertices_in mesh_scale m -> In t (ms_tris m) ->  wf m ->
  generated (remove_triangle m t) = filter (fun s => negb (Nat.eqb (tr_id s) (tr_id t))) (generated m).
Proof.
  intros V I W. unfold AdvanceModel.remove_triangle. destruct (wf_tv _ W t I) as (A & B & C).
  assert (E : in_square mesh_scale (tri_loc (ms_pos m) t) = true) by (apply in_square_centroid; apply V; assumption).
  rewrite E. unfold generated. cbn. apply filter_comm.
Qed.
Lemma remove_id m t t' : tr_id t = tr_id t' -> tri_loc (ms_pos m) t = tri_loc (ms_pos m) t' -> remove_triangle m t = remove_triangle m t'.
Proof. unfold AdvanceModel.remove_triangle. intros -> ->. reflexivity. Qed.
Lemma nodup_generated m : wf m -> NoDup (map tr_id (generated m)).
Proof. intros W. apply nodup_map_filter. apply W. Qed.
Lemma filter_head {A} (id : A -> nat) x l : NoDup (map id (x :: l)) -> filter (fun s => negb (Nat.eqb (id s) (id x))) (x :: l) = l.
Proof.
  intros N. cbn. rewrite Nat.eqb_refl. cbn. apply filter_all. intros y Hy. inversion N; subst.
  destruct (Nat.eqb_spec (id y) (id x)) as [E|]; [|reflexivity]. exfalso. apply H1. rewrite <- E. apply in_map. exact Hy.
Qed.

Lemma merge_onward m t1 t2 a b c d l : base_ok m -> (a < ms_nv m)%nat -> (b < ms_nv m)%nat -> (c < ms_nv m)%nat -> (d < ms_nv m)%nat ->
  Permutation (generated m) (activated t2 :: activated t1 :: l) ->
  (sq m -> tr_v1 t1 = a /\ tr_v2 t1 = b /\ tr_v3 t1 = d /\ tr_v1 t2 = d /\ tr_v2 t2 = b /\ tr_v3 t2 = c) ->
  onward m (merge_pair mesh_scale m t1 t2 a b c d) /\
  forall q, In q (ms_quads (merge_pair mesh_scale m t1 t2 a b c d)) -> In q (ms_quads m) \/ quad_element q = Quad4 a b c d.
Proof.
  intros B La Lb Lc Ld P V. unfold merge_pair. destruct (existsb _ _); [|split; [apply onward_refl; exact B|auto]].
  assert (W : wf m) by apply B.
  set (m1 := remove_interior m b d).
  assert (S1 : ms_pos m1 = ms_pos m /\ ms_nv m1 = ms_nv m /\ ms_front m1 = ms_front m /\ ms_ne m1 = ms_ne m /\ ms_quads m1 = ms_quads m /\
               ms_tris m1 = ms_tris m /\ wf m1).
  { unfold m1, remove_interior. destruct (in_square _ _); (do 6 (split; [reflexivity|])); [destruct W; constructor; assumption|exact W]. }
  destruct S1 as (P1 & V1 & F1 & E1 & Q1 & T1 & W1). clearbody m1.
  pose proof (remove_wf m1 t1 W1) as W2. destruct (remove_same m1 t1) as (P2 & V2' & F2 & E2 & Q2).
  set (m2 := remove_triangle m1 t1) in *.
  pose proof (remove_wf m2 t2 W2) as W3. destruct (remove_same m2 t2) as (P3 & V3 & F3 & E3 & Q3).
  set (m3 := remove_triangle m2 t2) in *.
  assert (QQ : ms_quads (add_quad m3 a b c d) = ms_quads m ++ [QU (ms_nt m3) a b c d true (ms_col m3)]) by (cbn; rewrite Q3, Q2, Q1; reflexivity).
  assert (PP : ms_pos (add_quad m3 a b c d) = ms_pos m) by (cbn; congruence).
  assert (VV : ms_nv (add_quad m3 a b c d) = ms_nv m) by (cbn; congruence).
  assert (G : sq m -> Permutation (generated m3) l).
  { intros [_ S]. assert (It : In (activated t1) (ms_tris m) /\ In (activated t2) (ms_tris m)).
    { split; apply gen_in; apply (Permutation_in _ (Permutation_sym P)); cbn; tauto. }
    destruct It as [I1 I2].
    assert (GE : generated m1 = generated m) by (unfold generated; rewrite T1; reflexivity).
    assert (N : NoDup (map tr_id (activated t2 :: activated t1 :: l))).
    { eapply Permutation_NoDup; [apply Permutation_map; exact P|]. apply nodup_generated. exact W. }
    assert (R1 : generated m2 = filter (fun s => negb (Nat.eqb (tr_id s) (tr_id t1))) (generated m)).
    { unfold m2. rewrite (remove_id m1 t1 (activated t1)) by reflexivity. rewrite remove_generated.
      - rewrite GE. reflexivity.
      - intros v Hv. rewrite P1. apply S. rewrite <- V1. exact Hv.
      - rewrite T1. exact I1.
      - exact W1. }
    assert (PR1 : Permutation (generated m2) (activated t2 :: l)).
    { rewrite R1. eapply Permutation_trans; [apply perm_filter; exact P|]. eapply Permutation_trans; [apply perm_filter; apply perm_swap|].
      change (tr_id t1) with (tr_id (activated t1)). rewrite filter_head; [apply Permutation_refl|].
      eapply Permutation_NoDup; [apply Permutation_map; apply perm_swap|]. exact N. }
    assert (R2 : generated m3 = filter (fun s => negb (Nat.eqb (tr_id s) (tr_id t2))) (generated m2)).
    { unfold m3. rewrite (remove_id m2 t2 (activated t2)) by reflexivity. rewrite remove_generated.
      - reflexivity.
      - intros v Hv. rewrite P2, P1. apply S. rewrite <- V1, <- V2'. exact Hv.
      - apply gen_in. apply (Permutation_in _ (Permutation_sym PR1)). left. reflexivity.
      - exact W2. }
    rewrite R2. eapply Permutation_trans; [apply perm_filter; exact PR1|]. change (tr_id t2) with (tr_id (activated t2)).
    rewrite filter_head; [apply Permutation_refl|]. cbn [map] in N |- *. inversion N as [|x y NI ND]; subst. constructor.
    - intros C. apply NI. right. exact C.
    - inversion ND; subst. assumption. }
  assert (PE : sq m -> Permutation (elements (add_quad m3 a b c d)) (Quad4 a b c d :: map tri_element l ++ map quad_element (ms_quads m))).
  { intros S. unfold elements. rewrite QQ, map_app. cbn [map].
    change (quad_element _) with (Quad4 a b c d). rewrite app_assoc. eapply Permutation_trans; [apply Permutation_app_comm|].
    cbn [app]. apply perm_skip, Permutation_app_tail, Permutation_map. exact (G S). }
  assert (PE0 : Permutation (elements m) (tri_element t2 :: tri_element t1 :: map tri_element l ++ map quad_element (ms_quads m))).
  { unfold elements. change (tri_element t2 :: tri_element t1 :: map tri_element l ++ map quad_element (ms_quads m))
      with (map tri_element (activated t2 :: activated t1 :: l) ++ map quad_element (ms_quads m)). apply Permutation_app_tail, Permutation_map. exact P. }
  assert (SQ : sq (add_quad m3 a b c d) -> sq m).
  { apply sq_back; [rewrite VV; lia|]. intros v _. rewrite PP. reflexivity. }
  split.
  2:{ intros q Hq. rewrite QQ in Hq. apply in_app_or in Hq. destruct Hq as [Hq|[<-|[]]]; [left; exact Hq|right; reflexivity]. }
  constructor.
  - split.
    + constructor; cbn [add_quad ms_front ms_ne ms_nv ms_tris ms_nt ms_verts]; try apply W3. intros t Ht. apply (wf_tlt _ W3) in Ht. lia.
    + intros q Hq v Hv. rewrite QQ in Hq. rewrite VV. apply in_app_or in Hq. destruct Hq as [Hq|[<-|[]]].
      * destruct B as [_ B]. exact (B q Hq v Hv).
      * cbn in Hv. destruct Hv as [<-|[<-|[<-|[<-|[]]]]]; assumption.
  - rewrite VV. lia.
  - cbn. rewrite E3, E2, E1. lia.
  - intros v _. rewrite PP. reflexivity.
  - intros e He. left. cbn in He. rewrite F3, F2, F1 in He. exact He.
  - intros S X s Hs. specialize (SQ S). destruct (V SQ) as (A1 & A2 & A3 & B1 & B2 & B3). rewrite PP.
    apply (Permutation_in _ (PE SQ)) in Hs. destruct Hs as [<-|Hs].
    + right. assert (D1 : simple_shape (ms_pos m) (tri_element t1)) by (apply X; apply (Permutation_in _ (Permutation_sym PE0)); cbn; tauto).
      assert (D2 : simple_shape (ms_pos m) (tri_element t2)) by (apply X; apply (Permutation_in _ (Permutation_sym PE0)); cbn; tauto).
      cbn [simple_shape tri_element] in D1, D2. rewrite A1, A2, A3 in D1. rewrite B1, B2, B3 in D2. unfold cuts, det in *. split; lra.
    + apply X. apply (Permutation_in _ (Permutation_sym PE0)). right. right. exact Hs.
  - intros S w A. specialize (SQ S). destruct (V SQ) as (A1 & A2 & A3 & B1 & B2 & B3). unfold total.
    rewrite (esum_perm w _ _ (perm_flat shape_sides _ _ (PE SQ))), (esum_perm w _ _ (perm_flat shape_sides _ _ PE0)).
    cbn [add_quad ms_front]. rewrite F3, F2, F1. cbn [flat_map]. rewrite !esum_app. unfold tri_element. rewrite A1, A2, A3, B1, B2, B3.
    pose proof (A b d) as K. cbn. lra.
Qed.
Lemma update_quads m k xy cands m' r : wf m -> fstep m (FUpdate k xy cands) = Ok (m', r) -> ms_quads m' = ms_quads m.
Proof.
  intros W H. cbn [AdvanceModel.fstep] in H. apply update_front_spec in H; [|exact W|intros v Hv; apply filter_In in Hv; apply in_list_spec; apply Hv].
  destruct r as [t|].
  - destruct H as (m1 & b & T & -> & _). cbn [advance_front ms_quads]. apply (tk_grown _ _ _ _ _ T).
  - destruct H as (G & _). apply G.
Qed.

(* ---- one element of the layer ---- *)
Variable norm : vec2 -> Q.
Variable query : mstate -> vec2 -> Q -> list nat.
Notation create_element := (create_element norm mesh_scale tri_ok vtx_ok qual query).
Notation create_layer := (create_layer norm mesh_scale tri_ok vtx_ok qual query).

Definition some_lt (m : mstate) (o : option nat) : Prop := match o with Some v => (v < ms_nv m)%nat | None => True end.
Definition made (v1 v2 : nat) (o1 o2 : option nat) (q : quad) : Prop :=
  match o1, o2 with Some w1, Some w2 => quad_element q = Quad4 v1 v2 w2 w1 | _, _ => False end.
Lemma some_onward m m' o : (ms_nv m <= ms_nv m')%nat -> some_lt m o -> some_lt m' o.
Proof. destruct o; cbn; [lia|auto]. Qed.

Lemma element_onward m e p1 p2 m' o1 o2 : base_ok m -> find_edge (be_id e) (ms_front m) = Some e ->
  create_element m e p1 p2 = Ok (m', (o1, o2)) ->
  onward m m' /\ some_lt m' o1 /\ some_lt m' o2 /\ (forall q, In q (ms_quads m') -> In q (ms_quads m) \/ made (be_v1 e) (be_v2 e) o1 o2 q).
Proof.
  intros B FE H. unfold QLayerModel.create_element in H.
  destruct (fstep m _) as [[m1 r1]| |] eqn:S1 in H; try discriminate. cbn [obind] in H.
  destruct (update_onward _ _ _ _ _ _ B S1) as [O1 R1]. pose proof (update_quads _ _ _ _ _ _ (proj1 B) S1) as Q1.
  destruct r1 as [t1|].
  2:{ injection H as <- <- <-. split; [exact O1|]. split; [exact I|]. split; [exact I|]. rewrite Q1. auto. }
  destruct R1 as (P1 & L1 & F1 & D1 & E1). destruct (update_base _ _ _ _ _ _ _ (proj1 B) S1 FE) as [V1 V2].
  destruct (get_edge_nodir (ms_front m1) (tr_v3 t1) (be_v2 e)) as [dg|] eqn:G.
  2:{ injection H as <- <- <-. split; [exact O1|]. split; [exact L1|]. split; [exact I|]. rewrite Q1. auto. }
  destruct (fstep m1 _) as [[m2 r2]| |] eqn:S2 in H; try discriminate. cbn [obind] in H.
  pose proof (ow_ok _ _ O1) as B1.
  destruct (update_onward _ _ _ _ _ _ B1 S2) as [O2 R2]. pose proof (update_quads _ _ _ _ _ _ (proj1 B1) S2) as Q2.
  pose proof (onward_trans _ _ _ O1 O2) as O12. pose proof (ow_nv _ _ O2) as N2. pose proof (ow_nv _ _ O1) as N1.
  destruct r2 as [t2|].
  2:{ injection H as <- <- <-. split; [exact O12|]. split; [cbn; lia|]. split; [exact I|]. rewrite Q2, Q1. auto. }
  destruct R2 as (P2 & L2 & F2 & D2 & E2). injection H as <- <- <-.
  destruct (find_edge_in _ _ _ FE) as [Ie _]. destruct (wf_ev _ (proj1 B) e Ie) as (A1 & A2 & _).
  assert (M := merge_onward m2 t1 t2 (be_v1 e) (be_v2 e) (tr_v3 t2) (tr_v3 t1) (generated m) (ow_ok _ _ O2)).
  destruct M as [O3 Q3]; try lia.
  - eapply Permutation_trans; [exact P2|]. apply perm_skip. exact P1.
  - intros S. assert (S1' : sq m1) by (apply (sq_back m1 m2); [exact N2|apply O2|exact S]).
    rewrite V2 in E1. destruct (E1 S1' dg G) as (FD & X1 & X2).
    destruct (update_base _ _ _ _ _ _ _ (proj1 B1) S2 FD) as [Y1 Y2]. repeat split; congruence.
  - pose proof (ow_nv _ _ O3) as N3. split; [exact (onward_trans _ _ _ O12 O3)|]. split; [cbn; lia|]. split; [cbn; lia|].
    intros q Hq. destruct (Q3 q Hq) as [X|X]; [left; rewrite Q2, Q1 in X; exact X|right; exact X].
Qed.

(* ---- the layer ---- *)
Definition cell_ok (m : mstate) (c : lcell) : Prop :=
  some_lt m (lc_v1 c) /\ some_lt m (lc_v2 c) /\ (be_v1 (lc_e c) < ms_nv m)%nat /\ (be_v2 (lc_e c) < ms_nv m)%nat.
Definition cell_quad (c : lcell) (q : quad) : Prop := made (be_v1 (lc_e c)) (be_v2 (lc_e c)) (lc_v1 c) (lc_v2 c) q.
Lemma cell_onward m m' c : (ms_nv m <= ms_nv m')%nat -> cell_ok m c -> cell_ok m' c.
Proof. intros N (A & B & C & D). repeat split; try (eapply some_onward; eassumption); lia. Qed.
(* an edge of an earlier front found by its index is that edge *)
Definition known (m : mstate) (e : bedge) : Prop :=
  (be_id e < ms_ne m)%nat /\ forall f, In f (ms_front m) -> be_id f = be_id e -> f = e.
Lemma find_same m0 m e f : onward m0 m -> known m0 e -> find_edge (be_id e) (ms_front m) = Some f -> f = e.
Proof.
  intros O [L K] H. destruct (find_edge_in _ _ _ H) as [If Ef]. destruct (ow_sub _ _ O f If) as [X|X]; [exact (K f X Ef)|lia].
Qed.
Lemma layer_onward m0 cs : forall m m' cs', onward m0 m -> (forall c, In c cs -> known m0 (lc_e c) /\ cell_ok m c) ->
  create_layer m cs = Ok (m', cs') ->
  onward m m' /\ map lc_e cs' = map lc_e cs /\ (forall c, In c cs' -> cell_ok m' c) /\
  (forall q, In q (ms_quads m') -> In q (ms_quads m) \/ exists c, In c cs' /\ cell_quad c q).
Proof.
  induction cs as [|c cs IH]; intros m m' cs' O HC H; cbn [QLayerModel.create_layer] in H.
  - injection H as <- <-. split; [apply onward_refl; apply O|]. split; [reflexivity|]. split; [intros c []|auto].
  - destruct (HC c (or_introl eq_refl)) as [Ic Cc].
    destruct (find_edge (be_id (lc_e c)) (ms_front m)) as [f|] eqn:FE.
    + assert (f = lc_e c) by (eapply find_same; eassumption). subst f.
      destruct (create_element m (lc_e c) (lc_p1 c) (lc_p2 c)) as [[m1 [o1 o2]]| |] eqn:E; try discriminate. cbn [obind fst snd] in H.
      destruct (create_layer m1 cs) as [[m2 r]| |] eqn:E2; try discriminate. cbn [obind fst snd] in H. injection H as <- <-.
      destruct (element_onward _ _ _ _ _ _ _ (ow_ok _ _ O) FE E) as (O1 & L1 & L2 & Q1).
      assert (HC' : forall d, In d cs -> known m0 (lc_e d) /\ cell_ok m1 d).
      { intros d Hd. destruct (HC d (or_intror Hd)) as [X Y]. split; [exact X|]. eapply cell_onward; [apply O1|exact Y]. }
      destruct (IH m1 m2 r (onward_trans _ _ _ O O1) HC' E2) as (O2 & M2 & C2 & Q2).
      pose proof (ow_nv _ _ O2) as N2. pose proof (ow_nv _ _ O1) as N1.
      split; [exact (onward_trans _ _ _ O1 O2)|]. split; [cbn; rewrite M2; reflexivity|]. split.
      * intros d [<-|Hd]; [|apply C2; exact Hd]. destruct Cc as (_ & _ & A1 & A2).
        repeat split; cbn; try (eapply some_onward; eassumption); lia.
      * intros q Hq. destruct (Q2 q Hq) as [X|(d & Hd & X)]; [|right; exists d; split; [right; exact Hd|exact X]].
        destruct (Q1 q X) as [Y|Y]; [left; exact Y|]. right. eexists. split; [left; reflexivity|]. exact Y.
    + destruct (create_layer m cs) as [[m2 r]| |] eqn:E2; try discriminate. cbn [obind fst snd] in H. injection H as <- <-.
      destruct (IH m m2 r O (fun d Hd => HC d (or_intror Hd)) E2) as (O2 & M2 & C2 & Q2).
      split; [exact O2|]. split; [cbn; rewrite M2; reflexivity|]. split.
      * intros d [<-|Hd]; [|apply C2; exact Hd]. eapply cell_onward; [apply O2|exact Cc].
      * intros q Hq. destruct (Q2 q Hq) as [X|(d & Hd & X)]; [left; exact X|]. right. exists d. split; [right; exact Hd|exact X].
Qed.

(* ---- gaps between neighbouring elements ---- *)
Variable sharp : vec2 -> vec2 -> bool.
Notation close_gap := (close_gap sharp mesh_scale tri_ok vtx_ok).
Notation close_gaps := (close_gaps sharp mesh_scale tri_ok vtx_ok).
Lemma det_same p q : det p q p == 0.
Proof. unfold det. ring. Qed.
Lemma det_same' p q : det p q q == 0.
Proof. unfold det. ring. Qed.
Lemma det_same'' p q : det p p q == 0.
Proof. unfold det. ring. Qed.
Lemma det_distinct (pos : nat -> vec2) a b c : 0 < det (pos a) (pos b) (pos c) -> a <> b /\ b <> c /\ c <> a.
Proof.
  intros H. split; [|split]; intros ->; [rewrite det_same'' in H|rewrite det_same' in H|rewrite det_same in H]; lra.
Qed.
Lemma filter_uses p q (g : bedge -> bool) l : (uses p q (ends (filter g l)) <= uses p q (ends l))%nat.
Proof.
  induction l as [|e l IH]; [cbn; lia|]. cbn [filter]. change (ends (e :: l)) with ((be_v1 e, be_v2 e) :: ends l). rewrite uses_cons.
  destruct (g e); [change (ends (e :: filter g l)) with ((be_v1 e, be_v2 e) :: ends (filter g l)); rewrite uses_cons|]; lia.
Qed.
Lemma kept_uses m e v p q : (uses p q (ends (kept m e v)) <= uses p q (ends (ms_front m)))%nat.
Proof.
  unfold kept, front_remove at 1. eapply Nat.le_trans; [apply filter_uses|]. generalize (ms_front m) as es.
  induction (fst (plan_of m e v)) as [|a L IH]; intros es; [apply Nat.le_refl|]. cbn [fold_left]. eapply Nat.le_trans; [apply IH|].
  unfold front_remove. apply filter_uses.
Qed.
Lemma gap_onward m a b c m' : base_ok m -> (a < ms_nv m)%nat -> (b < ms_nv m)%nat -> (c < ms_nv m)%nat ->
  close_gap m a b c = Ok m' -> onward m m' /\ ms_quads m' = ms_quads m.
Proof.
  intros B La Lb Lc H. pose proof B as [W _]. unfold QLayerModel.close_gap in H. cbv zeta in H.
  destruct (sharp _ _).
  - pose proof (add_triangle_ext m a b c La Lb Lc) as X. unfold add_triangle in H, X. cbn [fst] in X. cbv zeta in H, X.
    set (t := TR (ms_nt m) a b c false (ms_col m)) in *. set (m1 := with_tris m (ms_tris m ++ [t]) (S (ms_nt m))) in *.
    pose proof (extended_wf _ _ W X) as W1. pose proof (extended_grown _ _ X) as G1.
    destruct (tri_ok m1 t) eqn:OK; cbn [negb] in H.
    + destruct (get_edge_nodir (ms_front m1) b c) as [e|] eqn:GE; [|discriminate]. injection H as <-. split; [|reflexivity].
      pose proof (tri_fits _ _ OK) as F. pose proof (tri_positive _ _ OK) as D. cbn [t tr_v1 tr_v2 tr_v3] in D.
      destruct (det_distinct _ _ _ _ D) as (N1 & N2 & N3).
      destruct (fits_along m1 t b c e F) as (I & E1 & E2); [cbn; tauto|exact GE|].
      apply (advance_onward m m1 e a t); auto.
      * rewrite E1. exact N1.
      * rewrite E2. auto.
      * unfold m1. cbn. apply in_or_app. right. left. reflexivity.
      * rewrite E1, E2. unfold tri_sides. cbn. apply (Permutation_app_comm [(a, b)] [(b, c); (c, a)]).
    + injection H as <-. assert (X2 : extended m (remove_triangle m1 t)) by (apply remove_triangle_ext; [exact W|exact X|cbn; lia]).
      pose proof (extended_grown _ _ X2) as G2. split; [|apply G2]. apply grown_onward; [exact B|exact G2|exact (extended_wf _ _ W X2)].
  - set (xy := vadd (vadd (ms_pos m b) (vsub (ms_pos m a) (ms_pos m b))) (vsub (ms_pos m c) (ms_pos m b))) in *.
    destruct (add_vertex_grown m xy W) as [G1 W1]. unfold add_vertex in H, G1, W1. cbn [fst] in G1, W1. cbv zeta in H, G1, W1.
    set (v := ms_nv m) in *.
    match type of W1 with wf ?x => set (m1 := x) in * end.
    assert (N1 : ms_nv m1 = S v) by reflexivity. assert (FR1 : ms_front m1 = ms_front m) by reflexivity. clearbody m1.
    pose proof (add_triangle_ext m1 a b v ltac:(lia) ltac:(lia) ltac:(lia)) as X2.
    destruct (add_triangle m1 a b v) as [m2 t1] eqn:A1. cbn [fst] in X2.
    assert (T1 : t1 = TR (ms_nt m1) a b v false (ms_col m1) /\ m2 = with_tris m1 (ms_tris m1 ++ [t1]) (S (ms_nt m1))) by (unfold add_triangle in A1; injection A1 as <- <-; auto).
    destruct T1 as [T1 M2].
    assert (N2 : ms_nv m2 = S v) by (rewrite M2; exact N1).
    pose proof (add_triangle_ext m2 b c v ltac:(lia) ltac:(lia) ltac:(lia)) as X3.
    destruct (add_triangle m2 b c v) as [m3 t2] eqn:A2. cbn [fst] in X3.
    assert (T2 : t2 = TR (ms_nt m2) b c v false (ms_col m2) /\ m3 = with_tris m2 (ms_tris m2 ++ [t2]) (S (ms_nt m2))) by (unfold add_triangle in A2; injection A2 as <- <-; auto).
    destruct T2 as [T2 M3].
    assert (N3 : ms_nv m3 = S v) by (rewrite M3; exact N2).
    assert (FR3 : ms_front m3 = ms_front m) by (rewrite M3, M2; exact FR1).
    pose proof (extended_trans _ _ _ X2 X3) as X13. pose proof (extended_wf _ _ W1 X13) as W3.
    assert (G3 : grown m m3) by (eapply grown_trans; [exact G1|apply extended_grown; exact X13]).
    assert (K : ms_nt m2 = S (ms_nt m1)) by (rewrite M2; reflexivity).
    destruct (vtx_ok m3 v && tri_ok m3 t1 && tri_ok m3 t2) eqn:OK; cbn [negb] in H.
    + apply andb_true_iff in OK. destruct OK as [OK O2]. apply andb_true_iff in OK. destruct OK as [_ O1].
      pose proof (tri_fits _ _ O1) as F1. pose proof (tri_positive _ _ O1) as D1. rewrite T1 in D1. cbn [tr_v1 tr_v2 tr_v3] in D1.
      pose proof (tri_fits _ _ O2) as F2. pose proof (tri_positive _ _ O2) as D2. rewrite T2 in D2. cbn [tr_v1 tr_v2 tr_v3] in D2.
      destruct (det_distinct _ _ _ _ D1) as (Nab & _). destruct (det_distinct _ _ _ _ D2) as (Nbc & _).
      destruct (get_edge_nodir (ms_front m3) a b) as [e1|] eqn:GE1; [|discriminate].
      destruct (fits_along m3 t1 a b e1 F1) as (I1 & E1 & E2); [rewrite T1; cbn; tauto|exact GE1|].
      assert (It1 : In t1 (ms_tris m3)) by (rewrite M3, M2; cbn; rewrite <- app_assoc; apply in_or_app; right; left; reflexivity).
      assert (It2 : In t2 (ms_tris m3)) by (rewrite M3; cbn; apply in_or_app; right; left; reflexivity).
      destruct (advance_onward m m3 e1 v t1) as [OW PG]; auto; try (rewrite ?E1, ?E2; lia).
      { rewrite T1. reflexivity. }
      { rewrite T1, E1, E2. apply Permutation_refl. }
      assert (W4 : wf (advance_front m3 e1 v t1)) by apply OW.
      assert (FR4 := advance_front_front m3 e1 v t1 W3 I1).
      assert (EV : forall e, In e (ms_front m3) -> (be_v1 e < v)%nat /\ (be_v2 e < v)%nat) by (rewrite FR3; intros e He; destruct (wf_ev _ W e He) as (? & ? & _); auto).
      assert (It4 : In t2 (ms_tris (advance_front m3 e1 v t1))).
      { cbn [advance_front ms_tris]. unfold activate. apply in_map_iff. exists t2. split; [|exact It2].
        rewrite T1, T2. cbn [tr_id]. rewrite K. destruct (Nat.eqb_spec (S (ms_nt m1)) (ms_nt m1)); [lia|reflexivity]. }
      assert (NW : forall p q, uses p q (snd (plan_of m3 e1 v)) =
                   ((if Nat.eqb a p && Nat.eqb v q then 1 else 0) + (if Nat.eqb v p && Nat.eqb b q then 1 else 0))%nat).
      { assert (Z : forall u, get_edge_nodir (ms_front m3) v u = None).
        { intros u. destruct (get_edge_nodir (ms_front m3) v u) as [f|] eqn:Gf; [|reflexivity]. exfalso.
          unfold get_edge_nodir in Gf. apply oldest_in, filter_In in Gf. destruct Gf as [If J]. destruct (EV f If).
          unfold joins in J. apply orb_true_iff in J. rewrite !andb_true_iff, !Nat.eqb_eq in J. lia. }
        intros p q. unfold plan_of, adv_plan. rewrite !Z, E1, E2. cbn [snd]. rewrite !uses_cons. cbn. lia. }
      assert (F4 : fits (advance_front m3 e1 v t1) t2).
      { intros p q Hpq. rewrite FR4, ends_app, !uses_app, new_edges_ends, !NW.
        assert (FV : forall p q, p = v \/ q = v -> uses p q (ends (kept m3 e1 v)) = 0%nat).
        { intros p0 q0 Hv. apply uses_zero. intros C. unfold ends in C. apply in_map_iff in C. destruct C as (e & Ee & He).
          apply kept_in in He. destruct (EV e He). injection Ee as <- <-. lia. }
        rewrite T2 in Hpq. cbn in Hpq. destruct Hpq as [E|[E|[E|[]]]]; injection E as <- <-.
        - destruct (F2 b c) as [Z U]; [rewrite T2; cbn; tauto|]. pose proof (kept_uses m3 e1 v c b). pose proof (kept_uses m3 e1 v b c).
          destruct (Nat.eqb_spec v b), (Nat.eqb_spec v c); try lia. rewrite !andb_false_r. cbn. lia.
        - rewrite !FV by auto. destruct (Nat.eqb_spec a v), (Nat.eqb_spec v c), (Nat.eqb_spec b c); try lia; try contradiction.
          rewrite !Nat.eqb_refl. cbn. destruct (Nat.eqb a c); cbn; lia.
        - rewrite !FV by auto. destruct (Nat.eqb_spec a b), (Nat.eqb_spec v b), (Nat.eqb_spec a v); try lia; try contradiction.
          rewrite !Nat.eqb_refl. cbn. lia. }
      destruct (get_edge_nodir (ms_front (advance_front m3 e1 v t1)) b c) as [e2|] eqn:GE2; [|discriminate]. injection H as <-.
      destruct (fits_along _ t2 b c e2 F4) as (I2 & E3 & E4); [rewrite T2; cbn; tauto|exact GE2|].
      destruct (advance_onward _ (advance_front m3 e1 v t1) e2 v t2 (ow_ok _ _ OW) (grown_refl _) W4 I2) as [OW2 _]; auto; try (rewrite ?E3, ?E4; lia).
      { cbn. lia. }
      { rewrite T2. reflexivity. }
      { rewrite T2, E3, E4. apply Permutation_refl. }
      { rewrite T2. exact D2. }
      split; [exact (onward_trans _ _ _ OW OW2)|]. cbn. apply G3.
    + injection H as <-.
      assert (Y : extended m1 (remove_triangle (remove_triangle m3 t1) t2)).
      { apply remove_triangle_ext; [exact W1| |rewrite T2; cbn; lia]. apply remove_triangle_ext; [exact W1|exact X13|rewrite T1; cbn; lia]. }
      set (m5 := remove_triangle (remove_triangle m3 t1) t2) in *. clearbody m5.
      assert (G5 : grown m m5) by (eapply grown_trans; [exact G1|apply extended_grown; exact Y]). pose proof (extended_wf _ _ W1 Y) as W5.
      assert (G6 : grown m (remove_vertex mesh_scale m5 v) /\ wf (remove_vertex mesh_scale m5 v)).
      { unfold remove_vertex. destruct (in_square mesh_scale (ms_pos m5 v)); [|split; assumption]. split.
        - constructor; cbn; try apply G5.
        - constructor; cbn; try apply W5.
          + apply NoDup_filter. apply W5.
          + intros u Hu. apply filter_In in Hu. apply (wf_vlt _ W5). apply Hu. }
      destruct G6 as [G6 W6]. split; [apply grown_onward; assumption|apply G6].
Qed.
Lemma gaps_onward r : forall m c m', base_ok m -> (forall d, In d (c :: r) -> cell_ok m d) -> close_gaps m c r = Ok m' ->
  onward m m' /\ ms_quads m' = ms_quads m.
Proof.
  induction r as [|d r IH]; intros m c m' B HC H; cbn [QLayerModel.close_gaps] in H.
  - injection H as <-. split; [apply onward_refl; exact B|reflexivity].
  - assert (S : exists m1, (match lc_v1 d, lc_v2 c with Some x, Some y => if Nat.eqb x y then Ok m else close_gap m y (be_v1 (lc_e d)) x | _, _ => Ok m end) = Ok m1
              /\ close_gaps m1 d r = Ok m').
    { destruct (match lc_v1 d, lc_v2 c with Some x, Some y => _ | _, _ => _ end) as [m1| |]; try discriminate. exists m1. auto. }
    destruct S as (m1 & S1 & S2).
    assert (O : onward m m1 /\ ms_quads m1 = ms_quads m).
    { destruct (HC c (or_introl eq_refl)) as (_ & C2 & _). destruct (HC d (or_intror (or_introl eq_refl))) as (D1 & _ & D3 & _).
      destruct (lc_v1 d) as [x|], (lc_v2 c) as [y|]; try (injection S1 as <-; split; [apply onward_refl; exact B|reflexivity]).
      destruct (Nat.eqb x y); [injection S1 as <-; split; [apply onward_refl; exact B|reflexivity]|].
      cbn in C2, D1. apply (gap_onward m y (be_v1 (lc_e d)) x m1 B); assumption. }
    destruct O as [O Q]. destruct (IH m1 d m' (ow_ok _ _ O)) as [O2 Q2].
    + intros f Hf. eapply cell_onward; [apply O|]. apply HC. right. exact Hf.
    + exact S2.
    + split; [exact (onward_trans _ _ _ O O2)|]. rewrite Q2. exact Q.
Qed.
End Tests.
