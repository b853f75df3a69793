(* Conservation laws of quad layers, part 2: the ends of the layer, where a
   neighbouring edge of the front is split or its far vertex is moved. *)
From Coq Require Import Lia Lqa Permutation.
From Verif Require Import Base Chain GeomModel GeomSpec FacetModel UtilModel BdryModel BdrySpec BdryProofs
  AdvanceModel AdvanceSpec AdvanceProofs AdvanceInv AdvanceMore LoopModel MeshModel WindSpec WindProofs WindMesh QLayerModel QLayerSpec QLayerProofs QTileSpec QTileProofs.
Open Scope Q_scope.

(* ---- weights of directed segments ---- *)
Record straight (g : vec2 -> vec2 -> Q) : Prop := {
  sg_anti : forall a b, g b a == - g a b;
  sg_eq : forall a b a' b', veq a a' -> veq b b' -> g a b == g a' b';
  sg_line : forall p q x y z r s t,
    veq x (vadd p (vscale r (vsub q p))) -> veq y (vadd p (vscale s (vsub q p))) -> veq z (vadd p (vscale t (vsub q p))) ->
    g x z == g x y + g y z
}.
Definition of_pos (g : vec2 -> vec2 -> Q) (pos : nat -> vec2) (a b : nat) : Q := g (pos a) (pos b).
Definition gtotal (g : vec2 -> vec2 -> Q) (m : mstate) : Q := total (of_pos g (ms_pos m)) m.
Lemma crossing_straight o : straight (crossing o).
Proof. constructor; [apply crossing_antisym|intros; apply crossing_eq; assumption|intros; eapply crossing_line; eassumption]. Qed.
Lemma area_straight : straight (fun a b => vx a * vy b - vx b * vy a).
Proof.
  constructor.
  - intros. ring.
  - intros a b a' b' [A1 A2] [B1 B2]. rewrite A1, A2, B1, B2. reflexivity.
  - intros p q x y z r s t [X1 X2] [Y1 Y2] [Z1 Z2]. cbn in *. rewrite X1, X2, Y1, Y2, Z1, Z2. ring.
Qed.
Lemma side_corner s a b : In (a, b) (shape_sides s) -> In a (corners s) /\ In b (corners s).
Proof. destruct s; cbn; intuition (match goal with H : _ = _ |- _ => injection H as <- <- end; auto 10). Qed.
Lemma total_ext w w' m : base_ok m -> (forall a b, (a < ms_nv m)%nat -> (b < ms_nv m)%nat -> w a b == w' a b) -> total w m == total w' m.
Proof.
  intros B H. unfold total. apply Qplus_comp; apply esum_ext; intros a b I.
  - apply in_flat_map in I. destruct I as (s & Hs & I). apply side_corner in I. apply H; eapply elements_lt; try eassumption; apply I.
  - unfold ends in I. apply in_map_iff in I. destruct I as (e & Ee & He). injection Ee as <- <-.
    destruct (wf_ev _ (proj1 B) e He) as (X & Y & _). apply H; assumption.
Qed.
Lemma of_pos_antisym g pos : straight g -> antisym (of_pos g pos).
Proof. intros S a b. apply S. Qed.
Lemma onward_gtotal mesh_scale g m m' : straight g -> base_ok m -> onward mesh_scale m m' -> sq mesh_scale m' -> gtotal g m' == gtotal g m.
Proof.
  intros S B O Q. unfold gtotal. rewrite (ow_total _ _ _ O Q _ (of_pos_antisym g _ S)). apply total_ext; [exact B|].
  intros a b La Lb. unfold of_pos. rewrite !(ow_still _ _ _ O) by assumption. reflexivity.
Qed.
Lemma still_trans a b c : (ms_nv a <= ms_nv b)%nat -> still a b -> still b c -> still a c.
Proof. intros N H K v Hv. destruct (H v Hv), (K v ltac:(lia)). split; etransitivity; eassumption. Qed.
Lemma keeps_still a b : keeps a b -> still a b.
Proof. intros H v Hv. rewrite (H v Hv). split; reflexivity. Qed.
Lemma det_eq a b c a' b' c' : veq a a' -> veq b b' -> veq c c' -> det a b c == det a' b' c'.
Proof. intros [A1 A2] [B1 B2] [C1 C2]. unfold det. rewrite A1, A2, B1, B2, C1, C2. reflexivity. Qed.
Lemma simple_eq pos pos' s : (forall v, In v (corners s) -> veq (pos' v) (pos v)) -> simple_shape pos s -> simple_shape pos' s.
Proof.
  intros H. destruct s as [a b c|a b c d]; cbn [corners simple_shape] in *.
  - rewrite (det_eq _ _ _ _ _ _ (H a ltac:(cbn; auto)) (H b ltac:(cbn; auto)) (H c ltac:(cbn; auto))). auto.
  - pose proof (H a ltac:(cbn; auto)) as A. pose proof (H b ltac:(cbn; auto)) as B. pose proof (H c ltac:(cbn; auto)) as C.
    pose proof (H d ltac:(cbn; auto)) as D. unfold cuts.
    rewrite (det_eq _ _ _ _ _ _ A B C), (det_eq _ _ _ _ _ _ A C D), (det_eq _ _ _ _ _ _ B C D), (det_eq _ _ _ _ _ _ B D A). auto.
Qed.
Lemma in_square_eq s p q : veq p q -> in_square s q = true -> in_square s p = true.
Proof. rewrite !in_square_iff. intros [A B]. rewrite A, B. auto. Qed.

(* ---- splitting an edge of the front ---- *)
Definition bump (m : mstate) : mstate :=
  MS (ms_pos m) (ms_onf m) (ms_verts m) (ms_nv m) (ms_front m) (ms_ne m + 2) (ms_intr m) (ms_tris m) (ms_nt m) (ms_quads m) (ms_area m) (ms_col m).
Lemma insert_twice k x y l1 e l2 : be_id e = k -> ~ In k (map be_id l1) -> be_id x <> k ->
  insert_before k y (insert_before k x (l1 ++ e :: l2)) = l1 ++ x :: y :: e :: l2.
Proof.
  intros E N X. rewrite (insert_before_at k x l1 e l2 E N).
  replace (l1 ++ x :: e :: l2) with ((l1 ++ [x]) ++ e :: l2) by (rewrite <- app_assoc; reflexivity).
  rewrite insert_before_at; [rewrite <- app_assoc; reflexivity|exact E|]. rewrite map_app, in_app_iff. cbn. tauto.
Qed.
Lemma insert_vertex_perm w v l : Permutation (insert_vertex w v l) (v :: l).
Proof.
  induction l as [|x l IH]; cbn; [apply Permutation_refl|]. destruct (Nat.eqb x w); [apply Permutation_refl|].
  eapply Permutation_trans; [apply perm_skip; exact IH|apply perm_swap].
Qed.
Lemma split_parts m e s m1 v : wf m -> In e (ms_front m) -> split_front m e s = Some (m1, v) ->
  0 < s < 1 /\ v = ms_nv m /\ ms_nv m1 = S (ms_nv m) /\ ms_ne m1 = (ms_ne m + 2)%nat /\
  ms_tris m1 = ms_tris m /\ ms_nt m1 = ms_nt m /\ ms_quads m1 = ms_quads m /\ Permutation (ms_verts m1) (v :: ms_verts m) /\
  ms_pos m1 = (fun j => if Nat.eqb j v then vadd (vscale s (ms_pos m (be_v1 e))) (vscale (1 - s) (ms_pos m (be_v2 e))) else ms_pos m j) /\
  exists l1 l2, ms_front m = l1 ++ e :: l2 /\
    ms_front m1 = front_remove (ms_pos m1) (be_id e) (l1 ++ BE (ms_ne m) (be_v1 e) v (be_col e) (be_prop e) ::
                      BE (ms_ne m + 1) v (be_v2 e) (be_col e) (be_prop e) :: e :: l2).
Proof.
  intros W I H. unfold split_front in H. destruct (Qleb 1 s || Qleb s 0) eqn:C; [discriminate|].
  apply orb_false_iff in C. destruct C as [C1 C2]. apply Qleb_false in C1, C2. injection H as <- <-.
  apply in_split in I. destruct I as (l1 & l2 & E).
  assert (N : ~ In (be_id e) (map be_id l1)).
  { pose proof (wf_eid _ W) as N. rewrite E, map_app in N. cbn [map] in N. apply NoDup_remove_2 in N. rewrite in_app_iff in N. tauto. }
  assert (L : (be_id e < ms_ne m)%nat) by (apply (wf_elt _ W); rewrite E; apply in_or_app; right; left; reflexivity).
  do 7 (split; [try reflexivity; lra|]). split; [apply insert_vertex_perm|]. split; [reflexivity|].
  exists l1, l2. split; [exact E|]. cbn [ms_front ms_pos]. rewrite E at 1. rewrite insert_twice; [reflexivity|reflexivity|exact N|cbn; lia].
Qed.
Lemma split_front_in m e s m1 v f : wf m -> In e (ms_front m) -> split_front m e s = Some (m1, v) -> In f (ms_front m1) ->
  In f (ms_front m) \/ f = BE (ms_ne m) (be_v1 e) v (be_col e) (be_prop e) \/ f = BE (ms_ne m + 1) v (be_v2 e) (be_col e) (be_prop e).
Proof.
  intros W I H Hf. destruct (split_parts _ _ _ _ _ W I H) as (_ & _ & _ & _ & _ & _ & _ & _ & _ & l1 & l2 & E & F).
  rewrite F in Hf. apply front_remove_incl in Hf. rewrite E. apply in_app_or in Hf. cbn in Hf. rewrite in_app_iff. cbn. intuition.
Qed.
Lemma split_sum m e s m1 v w : wf m -> In e (ms_front m) -> split_front m e s = Some (m1, v) ->
  in_square front_scale (mid (ms_pos m) e) = true ->
  esum w (ends (ms_front m1)) + w (be_v1 e) (be_v2 e) == esum w (ends (ms_front m)) + w (be_v1 e) v + w v (be_v2 e).
Proof.
  intros W I H S. destruct (split_parts _ _ _ _ _ W I H) as (_ & V & _ & _ & _ & _ & _ & _ & P & l1 & l2 & E & F).
  destruct (wf_ev _ W e I) as (L1 & L2 & _).
  set (x := BE (ms_ne m) (be_v1 e) v (be_col e) (be_prop e)) in *. set (y := BE (ms_ne m + 1) v (be_v2 e) (be_col e) (be_prop e)) in *.
  assert (PM : Permutation (l1 ++ x :: y :: e :: l2) (x :: y :: ms_front m)).
  { rewrite E. eapply Permutation_trans; [apply Permutation_sym, Permutation_middle|]. apply perm_skip.
    apply Permutation_sym, Permutation_middle. }
  assert (N : NoDup (map be_id (l1 ++ x :: y :: e :: l2))).
  { eapply Permutation_NoDup; [apply Permutation_map, Permutation_sym; exact PM|]. cbn [map be_id x y].
    assert (Z : forall k, (ms_ne m <= k)%nat -> ~ In k (map be_id (ms_front m))).
    { intros k Hk C. apply in_map_iff in C. destruct C as (f & <- & C). apply (wf_elt _ W) in C. lia. }
    constructor; [intros [C|C]; [lia|]; apply Z in C; [exact C|lia]|]. constructor; [apply Z; lia|apply W]. }
  assert (M : in_square front_scale (mid (ms_pos m1) e) = true).
  { assert (EM : mid (ms_pos m1) e = mid (ms_pos m) e).
    { unfold mid. rewrite P. destruct (Nat.eqb_spec (be_v1 e) v); [lia|]. destruct (Nat.eqb_spec (be_v2 e) v); [lia|]. reflexivity. }
    rewrite EM. exact S. }
  pose proof (front_remove_perm (ms_pos m1) _ e N) as R. specialize (R ltac:(apply in_or_app; right; right; right; left; reflexivity) M).
  rewrite <- F in R. pose proof (Permutation_trans (Permutation_sym PM) R) as R2. apply perm_ends in R2.
  pose proof (esum_perm w _ _ R2) as K. cbn [ends map esum x y be_v1 be_v2] in K. unfold ends in *. lra.
Qed.
Lemma split_wf m e s m1 v : base_ok m -> In e (ms_front m) -> split_front m e s = Some (m1, v) -> base_ok (bump m1).
Proof.
  intros [W Q] I H. destruct (split_parts _ _ _ _ _ W I H) as (_ & V & N & NE & T & NT & QU & PV & P & l1 & l2 & E & F).
  destruct (wf_ev _ W e I) as (L1 & L2 & D).
  split.
  - constructor; cbn [bump ms_front ms_ne ms_nv ms_tris ms_nt ms_verts].
    + rewrite F. apply nodup_map_filter.
      set (x := BE (ms_ne m) (be_v1 e) v (be_col e) (be_prop e)) in *. set (y := BE (ms_ne m + 1) v (be_v2 e) (be_col e) (be_prop e)) in *.
      assert (PM : Permutation (l1 ++ x :: y :: e :: l2) (x :: y :: ms_front m)).
      { rewrite E. eapply Permutation_trans; [apply Permutation_sym, Permutation_middle|]. apply perm_skip.
        apply Permutation_sym, Permutation_middle. }
      eapply Permutation_NoDup; [apply Permutation_map, Permutation_sym; exact PM|]. cbn [map be_id x y].
      assert (Z : forall k, (ms_ne m <= k)%nat -> ~ In k (map be_id (ms_front m))).
      { intros k Hk C. apply in_map_iff in C. destruct C as (f & <- & C). apply (wf_elt _ W) in C. lia. }
      constructor; [intros [C|C]; [lia|]; apply Z in C; [exact C|lia]|]. constructor; [apply Z; lia|apply W].
    + intros f Hf. destruct (split_front_in _ _ _ _ _ _ W I H Hf) as [X|[->| ->]]; cbn; [apply (wf_elt _ W) in X|..]; lia.
    + intros f Hf. rewrite N. destruct (split_front_in _ _ _ _ _ _ W I H Hf) as [X|[->| ->]]; cbn; [destruct (wf_ev _ W f X) as (? & ? & ?)|..]; repeat split; auto; lia.
    + rewrite T. apply W.
    + rewrite T, NT. apply W.
    + rewrite T, N. intros t Ht. destruct (wf_tv _ W t Ht) as (? & ? & ?). repeat split; lia.
    + eapply Permutation_NoDup; [apply Permutation_sym; exact PV|]. constructor; [intros C; apply (wf_vlt _ W) in C; lia|apply W].
    + intros u Hu. rewrite N. apply (Permutation_in _ PV) in Hu. destruct Hu as [<-|Hu]; [lia|]. apply (wf_vlt _ W) in Hu. lia.
  - intros q Hq u Hu. cbn [bump ms_quads ms_nv] in *. rewrite QU in Hq. rewrite N. specialize (Q q Hq u Hu). lia.
Qed.

(* ---- what happens at an end of the layer ---- *)
Definition put (m : mstate) (w : nat) (xy : vec2) : mstate := with_pos m (fun j => if Nat.eqb j w then xy else ms_pos m j).
Inductive act (m : mstate) (e : bedge) (w v : nat) : mstate -> Prop :=
| act_none : act m e w v m
| act_move r : act m e w v (put m w (vadd (ms_pos m v) (vscale r (vsub (ms_pos m w) (ms_pos m v)))))
| act_split s m1 : split_front m e s = Some (m1, ms_nv m) -> act m e w v (bump m1).

Record prepared_from (m m' : mstate) : Prop := {
  pf_ok : base_ok m';
  pf_nv : (ms_nv m <= ms_nv m')%nat;
  pf_ne : (ms_ne m <= ms_ne m')%nat;
  pf_sub : forall e, In e (ms_front m') -> In e (ms_front m) \/ (ms_ne m <= be_id e)%nat;
  pf_gen : generated m' = generated m;
  pf_quads : ms_quads m' = ms_quads m
}.
Lemma prepared_refl m : base_ok m -> prepared_from m m.
Proof. intros B. constructor; auto. Qed.
Lemma prepared_trans a b c : prepared_from a b -> prepared_from b c -> prepared_from a c.
Proof.
  intros [A1 A2 A3 A4 A5 A6] [B1 B2 B3 B4 B5 B6]. constructor; auto; try lia; try congruence.
  intros e He. destruct (B4 e He) as [X|X]; [|right; lia]. auto.
Qed.
Lemma put_ok m w xy : base_ok m -> base_ok (put m w xy).
Proof. intros [W Q]. split; [destruct W; constructor; assumption|exact Q]. Qed.
Lemma act_prepared m e w v m' : base_ok m -> In e (ms_front m) -> act m e w v m' -> prepared_from m m'.
Proof.
  intros B I A. inversion A as [E|r E|s m1 H E]; subst.
  - apply prepared_refl. exact B.
  - constructor; cbn; auto. apply put_ok. exact B.
  - destruct (split_parts _ _ _ _ _ (proj1 B) I H) as (_ & _ & N & NE & T & NT & Q & _).
    constructor; cbn [bump ms_nv ms_ne ms_front ms_quads]; try lia; try assumption.
    + exact (split_wf _ _ _ _ _ B I H).
    + intros f Hf. destruct (split_front_in _ _ _ _ _ _ (proj1 B) I H Hf) as [X|[->| ->]]; cbn; auto; right; lia.
    + unfold generated. cbn. rewrite T. reflexivity.
Qed.
(* the front is unchanged, or one edge is split *)
Lemma act_kinds m e w v m' : base_ok m -> In e (ms_front m) -> act m e w v m' ->
  (ms_nv m' = ms_nv m /\ ms_front m' = ms_front m /\
   (ms_pos m' = ms_pos m \/ exists r, ms_pos m' = fun j => if Nat.eqb j w then vadd (ms_pos m v) (vscale r (vsub (ms_pos m w) (ms_pos m v))) else ms_pos m j)) \/
  (ms_nv m' = S (ms_nv m) /\ keeps m m' /\
   (exists s, ms_pos m' (ms_nv m) = vadd (vscale s (ms_pos m (be_v1 e))) (vscale (1 - s) (ms_pos m (be_v2 e)))) /\
   (in_square front_scale (mid (ms_pos m) e) = true -> forall g,
      esum g (ends (ms_front m')) + g (be_v1 e) (be_v2 e) == esum g (ends (ms_front m)) + g (be_v1 e) (ms_nv m) + g (ms_nv m) (be_v2 e)) /\
   (forall f, In f (ms_front m') -> In f (ms_front m) \/ (be_v1 f = be_v1 e /\ be_v2 f = ms_nv m) \/ (be_v1 f = ms_nv m /\ be_v2 f = be_v2 e))).
Proof.
  intros B I A. inversion A as [E|r E|s m1 H E]; subst.
  - left. auto.
  - left. split; [reflexivity|]. split; [reflexivity|]. right. exists r. reflexivity.
  - right. destruct (split_parts _ _ _ _ _ (proj1 B) I H) as (_ & _ & N & _ & _ & _ & _ & _ & P & _). cbn [bump ms_nv ms_pos ms_front].
    split; [exact N|]. split.
    { intros u Hu. cbn. rewrite P. destruct (Nat.eqb_spec u (ms_nv m)); [lia|reflexivity]. }
    split; [exists s; rewrite P, Nat.eqb_refl; reflexivity|]. split.
    + intros S g. exact (split_sum _ _ _ _ _ g (proj1 B) I H S).
    + intros f Hf. destruct (split_front_in _ _ _ _ _ _ (proj1 B) I H Hf) as [X|[->| ->]]; cbn; auto.
Qed.

(* the new vertex of a split lies on the line of the edge *)
Lemma split_line g (p q c : vec2) s : straight g -> veq c (vadd (vscale s p) (vscale (1 - s) q)) -> g p q == g p c + g c q.
Proof.
  intros S [C1 C2]. apply (sg_line g S p q p c q 0 (1 - s) 1); split; cbn in *; rewrite ?C1, ?C2; ring.
Qed.
Lemma veq_trans a b c : veq a b -> veq b c -> veq a c.
Proof. intros [A1 A2] [B1 B2]. split; etransitivity; eassumption. Qed.
Lemma veq_sym a b : veq a b -> veq b a.
Proof. intros [A1 A2]. split; symmetry; assumption. Qed.
Lemma comb_eq s p q p' q' : veq p p' -> veq q q' -> veq (vadd (vscale s p) (vscale (1 - s) q)) (vadd (vscale s p') (vscale (1 - s) q')).
Proof. intros [A1 A2] [B1 B2]. split; cbn; rewrite ?A1, ?A2, ?B1, ?B2; reflexivity. Qed.
Lemma edge_square m m' e : still m m' -> vertices_in front_scale m' -> (ms_nv m <= ms_nv m')%nat -> wf m -> In e (ms_front m) ->
  in_square front_scale (mid (ms_pos m) e) = true.
Proof.
  intros S V N W I. destruct (wf_ev _ W e I) as (A & B & _). apply in_square_mid.
  - apply (in_square_eq _ _ (ms_pos m' (be_v1 e))); [apply veq_sym, S; exact A|apply V; lia].
  - apply (in_square_eq _ _ (ms_pos m' (be_v2 e))); [apply veq_sym, S; exact B|apply V; lia].
Qed.
(* sums over the old front with the old and the new positions *)
Lemma front_moved g m m' : straight g -> base_ok m -> still m m' ->
  esum (of_pos g (ms_pos m')) (ends (ms_front m)) == esum (of_pos g (ms_pos m)) (ends (ms_front m)).
Proof.
  intros S B T. apply esum_ext. intros a b I. unfold ends in I. apply in_map_iff in I. destruct I as (e & Ee & He). injection Ee as <- <-.
  destruct (wf_ev _ (proj1 B) e He) as (X & Y & _). apply (sg_eq g S); apply T; assumption.
Qed.
Lemma gtotal_front g m m' : straight g -> base_ok m -> still m m' -> prepared_from m m' ->
  esum (of_pos g (ms_pos m')) (ends (ms_front m')) == esum (of_pos g (ms_pos m')) (ends (ms_front m)) -> gtotal g m' == gtotal g m.
Proof.
  intros S B T P F. unfold gtotal, total. rewrite (elements_same m m' (pf_gen _ _ P) (pf_quads _ _ P)), F, (front_moved g m m' S B T).
  apply Qplus_comp; [|reflexivity]. apply esum_ext. intros a b I. apply in_flat_map in I. destruct I as (s & Hs & I). apply side_corner in I.
  apply (sg_eq g S); apply T; eapply elements_lt; try eassumption; apply I.
Qed.
Lemma two_acts g m e w v m1 e' w' m2 : straight g -> base_ok m -> In e (ms_front m) -> act m e w v m1 ->
  In e' (ms_front m1) -> be_v2 e' = w' -> act m1 e' w' (be_v1 e') m2 -> still m m2 -> vertices_in front_scale m2 -> gtotal g m2 == gtotal g m.
Proof.
  intros S B I A I' Ew A' T V.
  pose proof (act_prepared _ _ _ _ _ B I A) as P1. pose proof (pf_ok _ _ P1) as B1. pose proof (act_prepared _ _ _ _ _ B1 I' A') as P2.
  apply gtotal_front; [exact S|exact B|exact T|exact (prepared_trans _ _ _ P1 P2)|].
  destruct (wf_ev _ (proj1 B) e I) as (L1 & L2 & _). destruct (wf_ev _ (proj1 B1) e' I') as (L1' & L2' & _).
  pose proof (pf_nv _ _ P1) as N1. pose proof (pf_nv _ _ P2) as N2. set (W := of_pos g (ms_pos m2)).
  destruct (act_kinds _ _ _ _ _ B I A) as [(EN & EF & EP)|(EN & EK & (s & ES) & EQ & EI)];
  destruct (act_kinds _ _ _ _ _ B1 I' A') as [(EN' & EF' & EP')|(EN' & EK' & (s' & ES') & EQ' & _)].
  - rewrite EF', EF. reflexivity.
  - assert (Q : in_square front_scale (mid (ms_pos m1) e') = true) by (apply (edge_square m1 m2); [apply keeps_still; exact EK'|exact V|lia|apply B1|exact I']).
    pose proof (EQ' Q W) as K. rewrite EF in K.
    assert (X : W (be_v1 e') (be_v2 e') == W (be_v1 e') (ms_nv m1) + W (ms_nv m1) (be_v2 e')).
    { unfold W, of_pos. apply (split_line g _ _ _ s' S). rewrite ES', (EK' _ L1'), (EK' _ L2'). split; reflexivity. }
    lra.
  - assert (Q : in_square front_scale (mid (ms_pos m) e) = true) by (apply (edge_square m m2); [exact T|exact V|lia|apply B|exact I]).
    pose proof (EQ Q W) as K. rewrite EF'.
    assert (X : W (be_v1 e) (be_v2 e) == W (be_v1 e) (ms_nv m) + W (ms_nv m) (be_v2 e)).
    { unfold W, of_pos. destruct EP' as [EP'|[r EP']].
      - apply (split_line g _ _ _ s S). rewrite EP', ES, (EK _ L1), (EK _ L2). split; reflexivity.
      - destruct (Nat.eq_dec w' (ms_nv m)) as [Ev|Nv].
        + (* the new vertex is moved along the split edge *)
          assert (Ea : be_v1 e' = be_v1 e).
          { destruct (EI e' I') as [Z|[[Z _]|[_ Z]]]; [destruct (wf_ev _ (proj1 B) e' Z) as (_ & Y & _); lia|exact Z|lia]. }
          assert (PN : ms_pos m2 (ms_nv m) = vadd (ms_pos m1 (be_v1 e)) (vscale r (vsub (ms_pos m1 (ms_nv m)) (ms_pos m1 (be_v1 e))))).
          { rewrite EP', <- Ev, Nat.eqb_refl, Ea. reflexivity. }
          assert (PA : ms_pos m2 (be_v1 e) = ms_pos m (be_v1 e)) by (rewrite EP'; destruct (Nat.eqb_spec (be_v1 e) w'); [lia|]; apply EK; exact L1).
          assert (PB : ms_pos m2 (be_v2 e) = ms_pos m (be_v2 e)) by (rewrite EP'; destruct (Nat.eqb_spec (be_v2 e) w'); [lia|]; apply EK; exact L2).
          rewrite PA, PB. apply (split_line g _ _ _ (1 - r * (1 - s)) S). rewrite PN, ES, (EK _ L1). split; cbn; ring.
        + assert (PN : ms_pos m2 (ms_nv m) = ms_pos m1 (ms_nv m)) by (rewrite EP'; destruct (Nat.eqb_spec (ms_nv m) w'); [congruence|reflexivity]).
          apply (split_line g _ _ _ s S). rewrite PN, ES. apply comb_eq; apply veq_sym, T; assumption. }
    lra.
  - assert (Q : in_square front_scale (mid (ms_pos m) e) = true) by (apply (edge_square m m2); [exact T|exact V|lia|apply B|exact I]).
    assert (Q' : in_square front_scale (mid (ms_pos m1) e') = true) by (apply (edge_square m1 m2); [apply keeps_still; exact EK'|exact V|lia|apply B1|exact I']).
    pose proof (EQ Q W) as K. pose proof (EQ' Q' W) as K'.
    assert (X : W (be_v1 e) (be_v2 e) == W (be_v1 e) (ms_nv m) + W (ms_nv m) (be_v2 e)).
    { unfold W, of_pos. apply (split_line g _ _ _ s S). rewrite (EK' (ms_nv m)) by lia. rewrite ES. apply comb_eq; apply veq_sym, T; assumption. }
    assert (X' : W (be_v1 e') (be_v2 e') == W (be_v1 e') (ms_nv m1) + W (ms_nv m1) (be_v2 e')).
    { unfold W, of_pos. apply (split_line g _ _ _ s' S). rewrite ES', (EK' _ L1'), (EK' _ L2'). split; reflexivity. }
    lra.
Qed.

(* ---- closed fronts ---- *)
Lemma elements_balanced m : balanced (flat_map shape_sides (elements m)).
Proof.
  intros f. induction (elements m) as [|s l IH]; [reflexivity|]. cbn [flat_map]. rewrite esum_app, IH. destruct s; cbn; ring.
Qed.
Lemma onward_closed mesh_scale m m' : onward mesh_scale m m' -> sq mesh_scale m' -> closed (ms_front m) -> closed (ms_front m').
Proof.
  intros O Q C. apply closed_balanced. apply closed_balanced in C. intros f.
  assert (A : antisym (fun a b : nat => f b - f a)) by (intros a b; ring).
  pose proof (ow_total _ _ _ O Q _ A) as E. unfold total in E. rewrite (elements_balanced m' f), (elements_balanced m f), (C f) in E. lra.
Qed.
Lemma act_closed m e w v m' : base_ok m -> In e (ms_front m) -> act m e w v m' -> in_square front_scale (mid (ms_pos m) e) = true ->
  closed (ms_front m) -> closed (ms_front m').
Proof.
  intros B I A Q C. destruct (act_kinds _ _ _ _ _ B I A) as [(_ & EF & _)|(_ & _ & _ & EQ & _)]; [rewrite EF; exact C|].
  apply closed_balanced. apply closed_balanced in C. intros f. pose proof (EQ Q (fun a b => f b - f a)) as K. cbv beta in K. rewrite (C f) in K. lra.
Qed.
Lemma two_acts_closed m e w v m1 e' w' v' m2 : base_ok m -> In e (ms_front m) -> act m e w v m1 ->
  In e' (ms_front m1) -> act m1 e' w' v' m2 -> still m m2 -> vertices_in front_scale m2 -> closed (ms_front m) -> closed (ms_front m2).
Proof.
  intros B I A I' A' T V C.
  pose proof (act_prepared _ _ _ _ _ B I A) as P1. pose proof (pf_ok _ _ P1) as B1. pose proof (act_prepared _ _ _ _ _ B1 I' A') as P2.
  pose proof (pf_nv _ _ P1) as N1. pose proof (pf_nv _ _ P2) as N2.
  assert (Q : in_square front_scale (mid (ms_pos m) e) = true) by (apply (edge_square m m2); [exact T|exact V|lia|apply B|exact I]).
  pose proof (act_closed _ _ _ _ _ B I A Q C) as C1.
  destruct (act_kinds _ _ _ _ _ B1 I' A') as [(_ & EF & _)|(_ & EK & _)]; [rewrite EF; exact C1|].
  apply (act_closed _ _ _ _ _ B1 I' A'); [|exact C1].
  apply (edge_square m1 m2); [apply keeps_still; exact EK|exact V|lia|apply B1|exact I'].
Qed.

(* ---- the layer ---- *)
Section Layer.
Variable norm : vec2 -> Q.
Variable sin_half : vec2 -> vec2 -> Q.
Variable cos_ang : vec2 -> vec2 -> Q.
Variable sharp : vec2 -> vec2 -> bool.
Variable rho : vec2 -> Q.
Variable mesh_scale : Q.
Variable tri_ok : mstate -> tri -> bool.
Variable vtx_ok : mstate -> nat -> bool.
Variable qual : mstate -> tri -> Q.
Variable query : mstate -> vec2 -> Q -> list nat.
Hypothesis tri_fits : forall s t, tri_ok s t = true -> fits s t.
Hypothesis tri_positive : forall s t, tri_ok s t = true -> 0 < det (ms_pos s (tr_v1 t)) (ms_pos s (tr_v2 t)) (ms_pos s (tr_v3 t)).
Notation place := (place norm cos_ang mesh_scale).
Notation setup_projection := (setup_projection norm sin_half cos_ang sharp mesh_scale).
Notation generate_layer := (generate_layer norm sin_half cos_ang sharp rho mesh_scale tri_ok vtx_ok qual query).
Notation layers := (layers norm sin_half cos_ang sharp rho mesh_scale tri_ok vtx_ok qual query).

Definition sig (c : lcell) := (lc_e c, lc_v1 c, lc_v2 c).
Lemma sig_p1 c x : sig (set_p1 c x) = sig c.
Proof. destruct x; reflexivity. Qed.
Lemma sig_p2 c x : sig (set_p2 c x) = sig c.
Proof. destruct x; reflexivity. Qed.
Lemma sig_first f cs : (forall c, sig (f c) = sig c) -> map sig (upd_first f cs) = map sig cs.
Proof. intros H. destruct cs; cbn; [reflexivity|]. rewrite H. reflexivity. Qed.
Lemma sig_last f cs : (forall c, sig (f c) = sig c) -> map sig (upd_last f cs) = map sig cs.
Proof. intros H. unfold upd_last. rewrite map_rev, sig_first by exact H. rewrite map_rev, rev_involutive. reflexivity. Qed.
Lemma sig_inner pos r : forall c, map sig (adjust_inner norm sin_half sharp pos c r) = map sig (c :: r).
Proof.
  induction r as [|d r IH]; intros c; [reflexivity|]. cbn [adjust_inner map]. rewrite sig_p2, IH. cbn [map]. rewrite sig_p1. reflexivity.
Qed.
Lemma sig_all pos cs : map sig (adjust_all norm sin_half sharp pos cs) = map sig cs.
Proof. destruct cs; [reflexivity|apply sig_inner]. Qed.
Lemma sig_closing pos cs : map sig (adjust_closing norm sin_half sharp pos cs) = map sig cs.
Proof.
  unfold adjust_closing. destruct cs as [|c r]; [reflexivity|]. destruct (rev (c :: r)); [reflexivity|].
  rewrite sig_last by (intros; apply sig_p2). apply sig_first. intros. apply sig_p1.
Qed.
Lemma sig_smooth pos : forall cs prev, map sig (smooth_from rho pos prev cs) = map sig cs.
Proof.
  induction cs as [|c cs IH]; intros prev; [reflexivity|]. cbn [smooth_from]. destruct cs as [|d cs]; [reflexivity|].
  cbn [map]. change (sig (set_h c _)) with (sig c). f_equal. apply IH.
Qed.
Lemma sig_heights pos cs : map sig (smooth_heights rho pos cs) = map sig cs.
Proof. destruct cs as [|c r]; [reflexivity|]. cbn [smooth_heights map]. rewrite sig_smooth. reflexivity. Qed.

Lemma place_act st e w v lo h p start st' xy : place st e w v lo h p start = Ok (st', xy) ->
  act (q_m st) e w v (q_m st') /\ q_in st' = q_in st.
Proof.
  unfold QLayerModel.place. intros H. destruct lo; cbn [negb] in H; [|injection H as <- <-; split; [constructor|reflexivity]].
  destruct (Qltb _ _); [|destruct (Qltb _ _)].
  - unfold move_vertex in H. destruct (movable mesh_scale st w); [|discriminate]. cbn [obind] in H. injection H as <- <-. split; [|reflexivity].
    apply act_move.
  - unfold split_both in H. destruct (split_front (q_m st) e _) as [[m1 u]|] eqn:SF; [|discriminate].
    destruct (split_bdry _ _ _ _ _) as [bs| |]; try discriminate. cbn [obind] in H. injection H as <- <-. split; [|reflexivity].
    assert (E : u = ms_nv (q_m st)) by (unfold split_front in SF; destruct (_ || _); [discriminate|]; injection SF as _ <-; reflexivity).
    subst u. eapply act_split. exact SF.
  - injection H as <- <-. split; [constructor|reflexivity].
Qed.
Lemma prev_spec es e f : get_prev_edge es e = Some f -> In f es /\ be_v2 f = be_v1 e.
Proof. intros H. unfold get_prev_edge in H. apply oldest_in, filter_In in H. destruct H as [I H]. apply andb_true_iff in H. rewrite Nat.eqb_eq in H. tauto. Qed.



Lemma act_pos m e w v m' : base_ok m -> In e (ms_front m) -> act m e w v m' -> forall u, (u < ms_nv m)%nat -> u <> w -> ms_pos m' u = ms_pos m u.
Proof.
  intros B I A u Hu N. destruct (act_kinds _ _ _ _ _ B I A) as [(_ & _ & [->|[r ->]])|(_ & K & _)]; [reflexivity| |apply K; exact Hu].
  destruct (Nat.eqb_spec u w); [contradiction|reflexivity].
Qed.

Lemma setup_spec st cl e_start e_end cs st' cs' : base_ok (q_m st) -> In e_end (ms_front (q_m st)) ->
  (exists r, map lc_e cs = e_start :: r) -> (exists r, map lc_e cs = r ++ [e_end]) ->
  setup_projection st cl e_start e_end cs = Ok (st', cs') ->
  map sig cs' = map sig cs /\ q_in st' = q_in st /\ prepared_from (q_m st) (q_m st') /\
  (cl = true -> q_m st' = q_m st) /\
  (forall v, (v < ms_nv (q_m st))%nat -> ms_pos (q_m st') v = ms_pos (q_m st) v \/ beside (q_m st) e_start e_end v) /\
  (still (q_m st) (q_m st') -> vertices_in front_scale (q_m st') ->
     (closed (ms_front (q_m st)) -> closed (ms_front (q_m st'))) /\ forall g, straight g -> gtotal g (q_m st') == gtotal g (q_m st)).
Proof.
  intros B Hf [r0 F] [r1 L] H. unfold QLayerModel.setup_projection in H. cbv zeta in H.
  pose proof (sig_all (ms_pos (q_m st)) cs) as SA. set (cs0 := adjust_all norm sin_half sharp (ms_pos (q_m st)) cs) in *. clearbody cs0.
  assert (ME : map lc_e cs0 = map lc_e cs).
  { transitivity (map (fun x => fst (fst x)) (map sig cs0)); [rewrite map_map; reflexivity|]. rewrite SA, map_map. reflexivity. }
  destruct cl.
  - injection H as <- <-. split; [rewrite sig_closing; exact SA|]. split; [reflexivity|]. split; [apply prepared_refl; exact B|].
    split; [reflexivity|]. split; [auto|]. intros _ _. split; [auto|reflexivity].
  - destruct cs0 as [|c0 cs0]; [discriminate|].
    assert (E0 : lc_e c0 = e_start) by (rewrite F in ME; cbn in ME; injection ME as X _; exact X).
    destruct (place_start norm cos_ang mesh_scale st e_start c0) as [[st1 x1]| |] eqn:PS; try discriminate. cbn [obind fst snd] in H.
    assert (SU : map sig (upd_first (fun c => set_p1 c (Some x1)) (c0 :: cs0)) = map sig (c0 :: cs0)) by (apply sig_first; intros; apply sig_p1).
    set (cs1 := upd_first (fun c => set_p1 c (Some x1)) (c0 :: cs0)) in *. clearbody cs1.
    destruct (rev cs1) as [|cz rl] eqn:R; [discriminate|].
    destruct (place_end norm cos_ang mesh_scale st1 e_end cz) as [[st2 x2]| |] eqn:PE; try discriminate. cbn [obind fst snd] in H. injection H as <- <-.
    assert (E1 : lc_e cz = e_end).
    { assert (M1 : map lc_e cs1 = r1 ++ [e_end]).
      { rewrite <- L, <- ME. transitivity (map (fun x => fst (fst x)) (map sig cs1)); [rewrite map_map; reflexivity|]. rewrite SU, map_map. reflexivity. }
      apply (f_equal (@rev bedge)) in M1. rewrite <- map_rev, R, rev_app_distr in M1. cbn in M1. injection M1 as X _. exact X. }
    unfold place_start in PS. destruct (get_prev_edge (ms_front (q_m st)) e_start) as [e|] eqn:GP; [|discriminate].
    destruct (prev_spec _ _ _ GP) as [I EP]. apply place_act in PS. destruct PS as [A Q1].
    unfold place_end in PE. destruct (get_next_edge (ms_front (q_m st1)) e_end) as [e'|] eqn:GN; [|discriminate].
    destruct (next_spec _ _ _ GN) as (I' & EN & _). apply place_act in PE. destruct PE as [A' Q2].
    rewrite E1, <- EN in A'.
    pose proof (act_prepared _ _ _ _ _ B I A) as P1. pose proof (pf_ok _ _ P1) as B1. pose proof (act_prepared _ _ _ _ _ B1 I' A') as P2.
    split; [rewrite sig_last by (intros; reflexivity); rewrite SU; exact SA|]. split; [congruence|]. split; [exact (prepared_trans _ _ _ P1 P2)|].
    split; [discriminate|]. split.
    + intros u Hu. pose proof (pf_nv _ _ P1) as N1.
      destruct (Nat.eq_dec u (be_v1 e)) as [->|Na]; [right; exists e; auto|].
      destruct (Nat.eq_dec u (be_v2 e')) as [Eu|Nb].
      * (* the edge may be the second half of the split one *)
        destruct (act_kinds _ _ _ _ _ B I A) as [(_ & EF & _)|(_ & _ & _ & _ & EI)].
        { right. exists e'. rewrite EF in I'. auto. }
        destruct (EI e' I') as [Z|[[Z1 Z2]|[Z1 Z2]]].
        -- right. exists e'. auto.
        -- lia.
        -- exfalso. destruct (wf_ev _ (proj1 B) e_end Hf) as (_ & Y & _). lia.
      * left. rewrite (act_pos _ _ _ _ _ B1 I' A' u) by (auto; lia). apply (act_pos _ _ _ _ _ B I A u); auto.
    + intros T V. split; [exact (two_acts_closed _ _ _ _ _ _ _ _ _ B I A I' A' T V)|]. intros g S. exact (two_acts g _ _ _ _ _ _ _ _ S B I A I' eq_refl A' T V).
Qed.

Lemma next_ends_closed m cs a b : next_ends m true cs = Some (a, b) -> a = b.
Proof. unfold next_ends. destruct (scan _ _); [|discriminate]. intros H. injection H as <- <-. reflexivity. Qed.
Lemma find_ends_in m xs xe e f closed : find_ends sharp m xs xe = Ok (Some (e, f, closed)) ->
  In e (ms_front m) /\ In f (ms_front m) /\ (xs = xe -> closed = true).
Proof.
  unfold find_ends. intros H. destruct (closest_vertex _ _ xs) as [vs|] eqn:C1; [|discriminate]. destruct (closest_vertex _ _ xe) as [ve|] eqn:C2; [|discriminate].
  destruct (edge_from _ _) as [e1|] eqn:E1; [|discriminate]. destruct (edge_to _ _) as [e2|] eqn:E2; [|discriminate].
  apply edge_from_spec in E1. apply edge_to_spec in E2.
  destruct (negb _); [discriminate|]. destruct (Nat.eqb_spec vs ve) as [Ev|Nv].
  - destruct (get_next_edge _ _) as [en|] eqn:EN; [apply next_spec in EN; destruct (sharp _ _)|]; injection H as <- <- <-; tauto.
  - injection H as <- <- <-. split; [tauto|]. split; [tauto|]. intros ->. rewrite C1 in C2. injection C2 as X. contradiction.
Qed.

Lemma generate_spec st height xs xe st' o : base_ok (q_m st) -> generate_layer st height xs xe = Ok (st', o) ->
  base_ok (q_m st') /\ (ms_nv (q_m st) <= ms_nv (q_m st'))%nat /\
  (forall v, q_in st v = true -> q_in st' v = true) /\
  (forall q, In q (ms_quads (q_m st')) -> In q (ms_quads (q_m st)) \/ forall v, In v (corners (quad_element q)) -> q_in st' v = true) /\
  (xs = xe -> keeps (q_m st) (q_m st') /\ match o with Some (a, b) => a = b | None => True end) /\
  (keeps (q_m st) (q_m st') \/ exists e f, find_ends sharp (q_m st) xs xe = Ok (Some (e, f, false)) /\
     forall v, (v < ms_nv (q_m st))%nat -> ms_pos (q_m st') v = ms_pos (q_m st) v \/ beside (q_m st) e f v) /\
  (still (q_m st) (q_m st') -> sq mesh_scale (q_m st') ->
     (simple_elements (q_m st) -> simple_elements (q_m st')) /\ (closed (ms_front (q_m st)) -> closed (ms_front (q_m st'))) /\
     forall g, straight g -> gtotal g (q_m st') == gtotal g (q_m st)).
Proof.
  intros B H. pose proof B as [W _]. unfold QLayerModel.generate_layer in H.
  destruct (find_ends sharp (q_m st) xs xe) as [[[[e f] closed]|]| |] eqn:FE; try discriminate; cbn [obind] in H.
  2:{ injection H as <- <-. assert (K : keeps (q_m st) (q_m st)) by (intros v _; reflexivity).
      split; [exact B|]. split; [lia|]. split; [auto|]. split; [auto|]. split; [auto|]. split; [left; exact K|]. intros _ _. split; [auto|]. split; [auto|reflexivity]. }
  destruct (find_ends_in _ _ _ _ _ _ FE) as (Ie & If & Cl).
  destruct (base_edges _ _ e f) as [bs| |] eqn:BE; try discriminate. cbn [obind] in H.
  destruct (base_shape _ f (wf_eid _ W) If _ _ _ BE Ie) as ((r0 & F0) & (r1 & F1) & INC & _).
  set (cs0 := smooth_heights rho (ms_pos (q_m st)) (map (new_cell norm (ms_pos (q_m st)) height) bs)) in *.
  assert (SG : map sig cs0 = map (fun b => (b, None, None)) bs) by (unfold cs0; rewrite sig_heights, map_map; reflexivity).
  assert (LE : map lc_e cs0 = bs).
  { transitivity (map (fun x => fst (fst x)) (map sig cs0)); [rewrite map_map; reflexivity|]. rewrite SG, map_map. cbn. apply map_id. }
  clearbody cs0.
  destruct (setup_projection st closed e f cs0) as [[st1 cs1]| |] eqn:SP; try discriminate. cbn [obind fst snd] in H.
  destruct (setup_spec st closed e f cs0 st1 cs1 B If) as (S1 & QI & PF & PC & PM & PG); [exists r0; congruence|exists r1; congruence|exact SP|].
  destruct (create_layer _ _ _ _ _ _ (q_m st1) cs1) as [[m2 cs2]| |] eqn:CL; try discriminate. cbn [obind fst snd] in H.
  pose proof (pf_ok _ _ PF) as B1.
  assert (HC : forall c, In c cs1 -> known (q_m st1) (lc_e c) /\ cell_ok (q_m st1) c).
  { intros c Hc. assert (X : In (sig c) (map (fun b => (b, None, None)) bs)) by (rewrite <- SG, <- S1; apply in_map; exact Hc).
    apply in_map_iff in X. destruct X as (b & Eb & Hb). unfold sig in Eb. injection Eb as E1 E2 E3. apply INC in Hb. rewrite E1 in Hb.
    pose proof (wf_elt _ W _ Hb) as Lb. destruct (wf_ev _ W _ Hb) as (V1 & V2 & _). pose proof (pf_nv _ _ PF) as N. pose proof (pf_ne _ _ PF) as NE. split.
    - split; [lia|]. intros x Hx Ex. destruct (pf_sub _ _ PF x Hx) as [X|X]; [exact (id_inj _ _ _ (wf_eid _ W) X Hb Ex)|lia].
    - unfold cell_ok. rewrite <- E2, <- E3. cbn. repeat split; lia. }
  destruct (layer_onward mesh_scale tri_ok vtx_ok qual tri_fits tri_positive norm query (q_m st1) cs1 (q_m st1) m2 cs2 (onward_refl _ _ B1) HC CL) as (O2 & M2 & C2 & Q2).
  unfold finish_layer in H. cbn [on_mesh q_m q_bdry q_in] in H.
  destruct (match cs2 with [] => Ok m2 | c :: r => close_gaps _ _ _ _ m2 c r end) as [m3| |] eqn:CG; try discriminate. cbn [obind q_m] in H. injection H as <- <-.
  assert (O3 : onward mesh_scale m2 m3 /\ ms_quads m3 = ms_quads m2).
  { destruct cs2 as [|c r]; [injection CG as <-; split; [apply onward_refl; apply O2|reflexivity]|].
    exact (gaps_onward mesh_scale tri_ok vtx_ok qual tri_fits tri_positive norm query sharp r m2 c m3 (ow_ok _ _ _ O2) C2 CG). }
  destruct O3 as [O3 Q3]. pose proof (onward_trans _ _ _ _ O2 O3) as O13. cbn [q_m q_in].
  pose proof (ow_nv _ _ _ O13) as N13. pose proof (pf_nv _ _ PF) as N01.
  split; [apply O13|]. split; [lia|]. split; [intros v Hv; rewrite QI, Hv; reflexivity|]. split.
  { intros q Hq. rewrite Q3 in Hq. destruct (Q2 q Hq) as [X|(c & Hc & X)]; [left; rewrite <- (pf_quads _ _ PF); exact X|].
    right. intros v Hv. apply orb_true_iff. right. apply in_list_spec. apply in_flat_map. exists c. split; [exact Hc|].
    unfold cell_quad, made in X. unfold cell_verts. destruct (lc_v1 c) as [w1|]; [|destruct X]. destruct (lc_v2 c) as [w2|]; [|destruct X].
    rewrite X in Hv. cbn in Hv |- *. tauto. }
  assert (KC : closed = true -> keeps (q_m st) m3).
  { intros C v Hv. rewrite (ow_still _ _ _ O13) by lia. rewrite (PC C). reflexivity. }
  split.
  { intros X. specialize (Cl X). split; [exact (KC Cl)|]. destruct (next_ends m3 closed cs2) as [[a b]|] eqn:NX; [|exact I].
    rewrite Cl in NX. exact (next_ends_closed _ _ _ _ NX). }
  split.
  { destruct closed; [left; apply KC; reflexivity|]. right. exists e, f. split; [reflexivity|]. intros v Hv.
    rewrite (ow_still _ _ _ O13) by lia. apply PM. exact Hv. }
  intros T S.
  assert (T1 : still (q_m st) (q_m st1)).
  { intros v Hv. specialize (T v Hv). rewrite (ow_still _ _ _ O13) in T by lia. exact T. }
  assert (SQ1 : sq mesh_scale (q_m st1)) by (apply (sq_back mesh_scale _ m3); [exact N13|apply O13|exact S]).
  split.
  - intros X. apply (ow_simple _ _ _ O13 S). intros s Hs. unfold elements in Hs. rewrite (pf_gen _ _ PF), (pf_quads _ _ PF) in Hs. fold (elements (q_m st)) in Hs.
    apply (simple_eq (ms_pos (q_m st))); [|apply X; exact Hs]. intros v Hv. apply T1. exact (elements_lt _ _ _ B Hs Hv).
  - destruct (PG T1 (proj1 SQ1)) as [PC1 PG1]. split; [intros C; exact (onward_closed _ _ _ O13 S (PC1 C))|].
    intros g G. rewrite (onward_gtotal mesh_scale g (q_m st1) m3 G B1 O13 S). apply PG1. exact G.
Qed.

(* ---- several layers ---- *)
Notation layers_still := (layers_still norm sin_half cos_ang sharp rho mesh_scale tri_ok vtx_ok qual query).
Lemma layers_spec n : forall st height rate xs xe st' ok hs, base_ok (q_m st) -> layers n st height rate xs xe = Ok (st', ok, hs) ->
  base_ok (q_m st') /\ (ms_nv (q_m st) <= ms_nv (q_m st'))%nat /\
  (forall v, q_in st v = true -> q_in st' v = true) /\
  (forall q, In q (ms_quads (q_m st')) -> In q (ms_quads (q_m st)) \/ forall v, In v (corners (quad_element q)) -> q_in st' v = true) /\
  (xs = xe -> keeps (q_m st) (q_m st') /\ layers_still n st height rate xs xe) /\
  (layers_still n st height rate xs xe -> still (q_m st) (q_m st') /\ (sq mesh_scale (q_m st') ->
     (simple_elements (q_m st) -> simple_elements (q_m st')) /\ (closed (ms_front (q_m st)) -> closed (ms_front (q_m st'))) /\
     forall g, straight g -> gtotal g (q_m st') == gtotal g (q_m st))).
Proof.
  assert (R : forall m, still m m) by (intros m v _; split; reflexivity).
  induction n as [|n IH]; intros st height rate xs xe st' ok hs B H; cbn [QLayerModel.layers] in H.
  - injection H as <- <- <-. cbn [QTileSpec.layers_still]. split; [exact B|]. split; [lia|]. split; [auto|]. split; [auto|]. split.
    + intros _. split; [intros v _; reflexivity|exact I].
    + intros _. split; [apply R|]. intros _. split; [auto|]. split; [auto|reflexivity].
  - cbn [QTileSpec.layers_still]. destruct (generate_layer st height xs xe) as [[st1 o]| |] eqn:G; try discriminate. cbn [obind fst snd] in H.
    destruct (generate_spec _ _ _ _ _ _ B G) as (B1 & N1 & M1 & Q1 & K1 & _ & T1).
    destruct o as [[a b]|].
    + destruct (layers n st1 (height * rate) rate a b) as [[[st2 ok2] hs2]| |] eqn:L; try discriminate. cbn [obind fst snd] in H. injection H as <- <- <-.
      destruct (IH _ _ _ _ _ _ _ _ B1 L) as (B2 & N2 & M2 & Q2 & K2 & T2).
      split; [exact B2|]. split; [lia|]. split; [auto|]. split.
      { intros q Hq. destruct (Q2 q Hq) as [X|X]; [|right; exact X]. destruct (Q1 q X) as [Y|Y]; [left; exact Y|right; auto]. }
      split.
      { intros E. destruct (K1 E) as [X1 X2]. destruct (K2 X2) as [Y1 Y2]. split; [|split; [apply keeps_still; exact X1|exact Y2]].
        intros v Hv. rewrite (Y1 v) by lia. apply X1. exact Hv. }
      intros [X1 X2]. destruct (T2 X2) as [Y1 Y2]. split; [exact (still_trans _ _ _ N1 X1 Y1)|]. intros S.
      assert (S1 : sq mesh_scale (q_m st1)).
      { destruct S as [SA SB]. split; intros v Hv; apply (in_square_eq _ _ (ms_pos (q_m st2) v)); try (apply veq_sym, Y1; exact Hv); [apply SA|apply SB]; lia. }
      destruct (Y2 S) as (Z1 & Z2 & Z3). destruct (T1 X1 S1) as (W1 & W2 & W3). split; [auto|]. split; [auto|].
      intros g Sg. rewrite (Z3 g Sg). apply W3. exact Sg.
    + injection H as <- <- <-. split; [exact B1|]. split; [exact N1|]. split; [exact M1|]. split; [exact Q1|]. split.
      { intros E. destruct (K1 E) as [X1 _]. split; [exact X1|]. split; [apply keeps_still; exact X1|exact I]. }
      intros [X1 _]. split; [exact X1|]. intros S. apply T1; assumption.
Qed.
End Layer.
