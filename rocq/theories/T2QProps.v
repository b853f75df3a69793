(* C32: the triangle-to-quad modification. *)
From Coq Require Import Lia Permutation Lqa Setoid Sorted.
From Verif Require Import Base GeomModel GeomSpec GeomProofs FacetModel UtilModel AdvanceModel Chain AdvanceProofs MeshModel MeshSpec MeshProofs MeshCheck
  QRefineModel QRefineSpec QRefineShape QRefineConf QRefineProps MeshProps CleanSpec CleanModel MergeProofs CleanProofs CleanPass CleanScan DegenProofs
  DegenPass CleanCheck CleanProps T2QModel T2QSpec T2QProofs.

(* triangles that are not tiny lie on the left of their sides for the code *)
Lemma tri_centred pos f : is_tri f -> 3 * tol26 <= 2 * fa_area pos f -> centred pos f.
Proof.
  intros T A a b Sab. destruct (tri_side_rot f a b T Sab) as [c R]. rewrite is_left_iff.
  assert (X : det (pos a) (pos b) (fa_xy pos f) == (2#3) * fa_area pos f /\ det (pos b) (pos a) (fa_xy pos f) == - ((2#3) * fa_area pos f)).
  { unfold fa_xy, fa_area. destruct R as [R|[R|R]]; rewrite R; unfold tri_centroid, det, tri_area, vcross, vsub, vadd, vscale; cbn [vx vy]; split; field. }
  destruct X as [X1 X2]. assert (TP := tol_pos). split; [rewrite X1; lra|].
  apply Bool.not_true_iff_false. rewrite is_left_iff, X2. lra.
Qed.

Lemma sides_permuted_area pos l r h a b : Permutation (sides l ++ sides r) ((a, b) :: (b, a) :: sides h) ->
  fa_area pos h == fa_area pos l + fa_area pos r.
Proof.
  intros P. rewrite !fa_area_sides, <- esum_app, (esum_perm _ _ _ P). unfold esum. cbn [map sumQ fold_right fst snd].
  assert (H := half_cross_antisym pos a b). rewrite H. ring.
Qed.

(* each new quad is two triangles of the mesh without their common side, no
   triangle is used twice, the other elements stay, and in the end no two
   triangles have a common side *)
Theorem C32_merge_partial own m : sound m -> well_sided m -> tris_centred m ->
  exists m' ds, merge_triangles own (setup_facet_connectivity m) = Ok m' /\ kept m m' /\ mh_verts m' = mh_verts m /\
    Permutation (mh_tris m) (flat_map pair_of ds ++ mh_tris m') /\ NoDup (flat_map pair_of ds ++ mh_tris m') /\
    mh_quads m' = mh_quads m ++ map snd ds /\
    (forall l r h, In (l, r, h) ds -> joined l r h /\ fa_area (mh_pos m) h == fa_area (mh_pos m) l + fa_area (mh_pos m) r) /\
    (length (mh_intr m') + length ds = length (mh_intr m))%nat /\
    tris_apart m'.
Proof.
  intros S W T. destruct (setup_sides m S W T) as [W0 X0]. assert (S0 := setup_sound m S).
  destruct (merge_triangles_ok own _ S0 W0 X0) as [m' [ds [E [SW AP]]]]. exists m', ds.
  assert (PT := sw_tris _ _ _ _ SW). cbn [setup_facet_connectivity mh_tris] in PT.
  split; [exact E|]. split; [exact (keeps_kept _ _ (keeps_trans _ _ _ (setup_keeps m S) (sw_keeps _ _ _ _ SW)))|].
  split; [exact (sw_verts _ _ _ _ SW)|]. split; [exact PT|]. split.
  { apply (Permutation_NoDup PT). apply (NoDup_map_inv' fa_id). apply (nodup_ids_app fa_id (mh_quads m) _ (cf_ids _ (sd_conf _ S))). }
  split; [exact (sw_quads _ _ _ _ SW)|]. split; [|split; [|exact AP]].
  - intros l r h H. assert (J := sw_joined _ _ _ _ SW l r h H). split; [exact J|]. destruct J as [_ [_ [_ [a [b J]]]]].
    exact (sides_permuted_area (mh_pos m) l r h a b J).
  - assert (L := sw_intr _ _ _ _ SW). cbn [setup_facet_connectivity mh_intr] in L. rewrite map_length in L. exact L.
Qed.

(* the whole modification: area, boundary, conformity and (for meshes of one
   colour) the colour are kept *)
Lemma swapped_one_colour own m m' ds : swapped own m m' ds -> one_colour m -> one_colour m'.
Proof.
  intros SW O f Hf. rewrite (kp_col _ _ (sw_keeps _ _ _ _ SW)). unfold facets in Hf. rewrite (sw_quads _ _ _ _ SW) in Hf.
  rewrite <- app_assoc in Hf. apply in_app_or in Hf. destruct Hf as [Hf|Hf]; [apply O; apply in_or_app; auto|].
  apply in_app_or in Hf. destruct Hf as [Hf|Hf].
  - apply in_map_iff in Hf. destruct Hf as [[[l r] h] [E Hd]]. cbn in E. subst h. rewrite (sw_cols _ _ _ _ SW l r f Hd). unfold colour_of.
    assert (X : fa_col l = mh_col m).
    { apply O. apply in_or_app. right. apply (Permutation_in _ (Permutation_sym (sw_tris _ _ _ _ SW))). apply in_or_app. left.
      apply in_flat_map. exists (l, r, f). split; [exact Hd|cbn; auto]. }
    rewrite X. destruct own; [destruct (Z.ltb _ _)|]; reflexivity.
  - apply O. apply in_or_app. right. apply (Permutation_in _ (Permutation_sym (sw_tris _ _ _ _ SW))). apply in_or_app. auto.
Qed.
Theorem C32_tri2quad_partial own m : sound m -> well_sided m -> tris_centred m ->
  exists m', tri2quad own m = Ok m' /\ kept m m' /\ (length (facets m') <= length (facets m))%nat /\
    (one_colour m -> forall c, covered_by c m' == covered_by c m).
Proof.
  intros S W T. destruct (setup_sides m S W T) as [W0 X0]. assert (S0 := setup_sound m S).
  destruct (merge_triangles_ok own _ S0 W0 X0) as [m1 [ds [E [SW AP]]]].
  assert (K1 := keeps_trans _ _ _ (setup_keeps m S) (sw_keeps _ _ _ _ SW)).
  destruct (pass_kept true true m1 (kp_sound _ _ K1) (or_introl eq_refl)) as [m2 [E2 [K2 [L2 [O2 _]]]]].
  destruct (pass_kept false false m2 (kp_sound _ _ K2) (or_intror L2)) as [m3 [E3 [K3 [_ [O3 _]]]]].
  assert (K := keeps_trans _ _ _ (keeps_trans _ _ _ K1 K2) K3).
  exists m3. unfold tri2quad. rewrite E. cbn [obind]. rewrite pass_quads, E2. cbn [obind]. rewrite pass_tris. split; [exact E3|].
  split; [exact (keeps_kept _ _ K)|]. split; [exact (kp_le _ _ K)|].
  intros O c. assert (O0 : one_colour (setup_facet_connectivity m)) by exact O.
  rewrite (covered_by_one c m3 (O3 (O2 (swapped_one_colour _ _ _ _ SW O0)))), (covered_by_one c m O), (kp_col _ _ K).
  destruct (Z.eqb (mh_col m) c); [exact (kp_area _ _ K)|reflexivity].
Qed.

(* merging keeps the area of every colour when neighbouring triangles have the
   same colour (ModificationStrategy.h; MeshCleanup.h only for the colour of the mesh) *)
Theorem C32_colour_partial m : sound m -> well_sided m -> tris_centred m ->
  (forall f g a b, In f (mh_tris m) -> In g (mh_tris m) -> In (a, b) (sides f) -> In (b, a) (sides g) -> fa_col f = fa_col g /\ (0 <= fa_col f)%Z) ->
  exists m', merge_triangles true (setup_facet_connectivity m) = Ok m' /\ forall c, covered_by c m' == covered_by c m.
Proof.
  intros S W T N. destruct (setup_sides m S W T) as [W0 X0]. assert (S0 := setup_sound m S).
  destruct (merge_triangles_ok true _ S0 W0 X0) as [m' [ds [E [SW _]]]]. exists m'. split; [exact E|]. intros c.
  assert (PT := sw_tris _ _ _ _ SW). cbn [setup_facet_connectivity mh_tris] in PT.
  assert (D : forall d, In d ds -> fa_col (snd d) = fa_col (fst (fst d)) /\ fa_col (snd d) = fa_col (snd (fst d)) /\
    fa_area (mh_pos m) (snd d) == fa_area (mh_pos m) (fst (fst d)) + fa_area (mh_pos m) (snd (fst d))).
  { intros [[l r] h] Hd. cbn [fst snd]. assert (J := sw_joined _ _ _ _ SW l r h Hd). destruct J as [Tl [Tr [Qh [a [b J]]]]].
    assert (Il : In l (mh_tris m)).
    { apply (Permutation_in _ (Permutation_sym PT)). apply in_or_app. left. apply in_flat_map. exists (l, r, h). split; [exact Hd|cbn; auto]. }
    assert (Ir : In r (mh_tris m)).
    { apply (Permutation_in _ (Permutation_sym PT)). apply in_or_app. left. apply in_flat_map. exists (l, r, h). split; [exact Hd|cbn; auto]. }
    assert (COL : fa_col l = fa_col r /\ (0 <= fa_col l)%Z).
    { assert (C := sd_conf _ S). assert (Fl : In l (facets m)) by (apply in_or_app; auto). assert (Fr : In r (facets m)) by (apply in_or_app; auto).
      assert (H1 : In (a, b) (sides l ++ sides r)) by (apply (Permutation_in _ (Permutation_sym J)); cbn; auto).
      assert (H2 : In (b, a) (sides l ++ sides r)) by (apply (Permutation_in _ (Permutation_sym J)); cbn; auto).
      apply in_app_or in H1, H2. destruct H1 as [H1|H1], H2 as [H2|H2].
      - destruct (side_no_rev l a b (cf_corners _ C l Fl) H1 H2).
      - exact (N l r a b Il Ir H1 H2).
      - exact (N l r b a Il Ir H2 H1).
      - destruct (side_no_rev r a b (cf_corners _ C r Fr) H1 H2). }
    destruct COL as [E1 P]. assert (Ch := sw_cols _ _ _ _ SW l r h Hd). unfold colour_of in Ch.
    destruct (Z.ltb_spec (fa_col l) 0); [lia|]. split; [exact Ch|]. split; [congruence|]. exact (sides_permuted_area _ _ _ _ a b J). }
  assert (PP : mh_pos m' = mh_pos m) by exact (kp_pos _ _ (sw_keeps _ _ _ _ SW)).
  unfold covered_by, facets. rewrite PP, (sw_quads _ _ _ _ SW). cbn [setup_facet_connectivity mh_quads].
  rewrite !filter_app, !map_app, !sumQ_app, (sumQ_perm _ _ (Permutation_map (fa_area (mh_pos m)) (perm_filter (fun f => Z.eqb (fa_col f) c) _ _ PT))).
  rewrite filter_app, map_app, sumQ_app.
  assert (SUM : sumQ (map (fa_area (mh_pos m)) (filter (fun f => Z.eqb (fa_col f) c) (map snd ds))) ==
                sumQ (map (fa_area (mh_pos m)) (filter (fun f => Z.eqb (fa_col f) c) (flat_map pair_of ds)))).
  { clear - D. induction ds as [|d ds IH]; [reflexivity|]. assert (IH' := IH (fun x Hx => D x (or_intror Hx))). clear IH.
    destruct (D d (or_introl eq_refl)) as [C1 [C2 A]]. change (flat_map pair_of (d :: ds)) with (fst (fst d) :: snd (fst d) :: flat_map pair_of ds). cbn [map filter]. rewrite <- C1, <- C2.
    destruct (Z.eqb (fa_col (snd d)) c).
    - cbn [map sumQ]. rewrite IH', A. ring.
    - exact IH'. }
  rewrite SUM. ring.
Qed.

(* ---------- the order of the edges ---------- *)
(* sides of the two triangles at an edge *)
Definition sides_at (m : mesh) (e : medge) (p : nat * nat) : Prop :=
  exists f, In f (mh_tris m) /\ (In (ed_1 e, ed_2 e) (sides f) \/ In (ed_2 e, ed_1 e) (sides f)) /\ In p (sides f).
(* a side at e is no longer than every side at e' *)
Definition before (m : mesh) (e e' : medge) : Prop :=
  exists p, sides_at m e p /\ forall q, sides_at m e' q -> side_length2 (mh_pos m) p <= side_length2 (mh_pos m) q.
Lemma min2_spec a b : min2 a b <= a /\ min2 a b <= b /\ (min2 a b == a \/ min2 a b == b).
Proof. unfold min2. destruct (Qltb b a) eqn:E; [apply Qltb_true in E|apply Qltb_false in E]; (split; [lra|]; split; [lra|]); [right|left]; reflexivity. Qed.
Lemma fold_min l : forall x, fold_left min2 l x <= x /\ (forall y, In y l -> fold_left min2 l x <= y) /\
  (fold_left min2 l x == x \/ exists y, In y l /\ fold_left min2 l x == y).
Proof.
  induction l as [|b l IH]; intros x; cbn [fold_left].
  - split; [lra|]. split; [intros y []|]. left. reflexivity.
  - destruct (IH (min2 x b)) as [H1 [H2 H3]]. destruct (min2_spec x b) as [M1 [M2 M3]]. split; [lra|]. split.
    + intros y [<-|Hy]; [lra|exact (H2 y Hy)].
    + destruct H3 as [H3|[y [Hy H3]]]; [|right; exists y; cbn; auto]. destruct M3 as [M|M]; [left; lra|right; exists b; split; [cbn; auto|lra]].
Qed.
Lemma min_edge2_spec pos f : (exists p, In p (sides f) /\ min_edge2 pos f == side_length2 pos p) /\
  (forall q, In q (sides f) -> min_edge2 pos f <= side_length2 pos q).
Proof.
  unfold min_edge2, sides. destruct (ring_edges (corners (fa_sh f))) as [|x l] eqn:E.
  { destruct (fa_sh f); discriminate. }
  cbn [map]. destruct (fold_min (map (side_length2 pos) l) (side_length2 pos x)) as [H1 [H2 H3]]. split.
  - destruct H3 as [H3|[y [Hy H3]]]; [exists x; cbn; auto|]. apply in_map_iff in Hy. destruct Hy as [p [<- Hp]]. exists p. cbn; auto.
  - intros q [<-|Hq]; [exact H1|]. apply H2. apply in_map. exact Hq.
Qed.
(* k is the shortest squared length of a side at e *)
Definition shortest (m : mesh) (e : medge) (k : Q) : Prop :=
  (exists p, sides_at m e p /\ k == side_length2 (mh_pos m) p) /\ (forall q, sides_at m e q -> k <= side_length2 (mh_pos m) q).
Lemma tri_edge_key m e k : sound m -> well_sided m -> In e (mh_intr m) -> tri_edge m e = Ok (Some k) -> shortest m e (fst k).
Proof.
  intros S W He E. assert (C := sd_conf _ S). destruct (W e He) as [WL WR]. unfold tri_edge in E.
  destruct (pointed_ok m _ _ _ C WL) as [[_ PL]|[fl [_ [PL [Hl Dl]]]]]; rewrite PL in E; cbn [obind] in E; [discriminate|].
  destruct (tri_or_quad fl) as [Tl|Ql]; [|rewrite n_corners_len in E; unfold is_quad in Ql; rewrite Ql in E; discriminate].
  rewrite n_corners_len in E. assert (Tl' := Tl). unfold is_tri in Tl'. rewrite Tl', Nat.eqb_refl in E.
  destruct (pointed_ok m _ _ _ C WR) as [[_ PR]|[fr [_ [PR [Hr Dr]]]]]; rewrite PR in E; cbn [obind] in E; [discriminate|].
  destruct (tri_or_quad fr) as [Tr|Qr]; [|rewrite n_corners_len in E; unfold is_quad in Qr; rewrite Qr in E; discriminate].
  rewrite n_corners_len in E. assert (Tr' := Tr). unfold is_tri in Tr'. rewrite Tr', Nat.eqb_refl in E. injection E as <-. cbn [fst].
  destruct Dl as [Dl|Dl]; [|destruct (tri_not_quad fl Tl Dl)]. destruct Dr as [Dr|Dr]; [|destruct (tri_not_quad fr Tr Dr)].
  destruct (min_edge2_spec (mh_pos m) fl) as [[pl [Il El]] Ml]. destruct (min_edge2_spec (mh_pos m) fr) as [[pr [Ir Er]] Mr].
  destruct (min2_spec (min_edge2 (mh_pos m) fl) (min_edge2 (mh_pos m) fr)) as [A [B D]]. split.
  - destruct D as [D|D].
    + exists pl. split; [|rewrite D; exact El]. exists fl. split; [apply tri_in; assumption|auto].
    + exists pr. split; [|rewrite D; exact Er]. exists fr. split; [apply tri_in; assumption|auto].
  - intros q [f [Hf [DS Iq]]]. assert (If : In f (facets m)) by (apply in_or_app; auto). destruct DS as [DS|DS].
    + assert (f = fl) by (apply (side_owner m f fl (ed_1 e, ed_2 e) C); assumption). subst f. specialize (Ml q Iq). lra.
    + assert (f = fr) by (apply (side_owner m f fr (ed_2 e, ed_1 e) C); assumption). subst f. specialize (Mr q Iq). lra.
Qed.
Definition keyed (m : mesh) (k : Q * nat) (e : medge) : Prop := In e (mh_intr m) /\ ed_id e = snd k /\ shortest m e (fst k) /\ both_tris m e.
Lemma collect_keys m es : sound m -> well_sided m -> exact_sides m -> incl es (mh_intr m) -> forall ks, collect m es = Ok ks ->
  forall k, In k ks -> exists e, keyed m k e.
Proof.
  intros S W X. induction es as [|e es IH]; intros I ks E k Hk.
  - injection E as <-. destruct Hk.
  - cbn [collect] in E. destruct (tri_edge_ok m e S W X (I e (or_introl eq_refl))) as [o [Eo [O1 O2]]]. rewrite Eo in E. cbn [obind] in E.
    destruct (collect m es) as [l| |] eqn:EC; cbn [obind] in E; try discriminate. injection E as <-.
    assert (REST : In k l -> exists e, keyed m k e) by (apply (IH (fun x Hx => I x (or_intror Hx)) l eq_refl)).
    destruct o as [x|]; [|exact (REST Hk)]. destruct Hk as [<-|Hk]; [|exact (REST Hk)]. exists e.
    destruct (O2 x eq_refl) as [Ex [B _]]. split; [apply I; left; reflexivity|]. split; [congruence|].
    split; [exact (tri_edge_key m e x S W (I e (or_introl eq_refl)) Eo)|exact B].
Qed.
Lemma ins_key_sorted k l : StronglySorted (fun a b => fst a <= fst b) l -> StronglySorted (fun a b => fst a <= fst b) (ins_key k l).
Proof.
  induction l as [|x l IH]; intros SS; [repeat constructor|]. inversion SS as [|? ? SL FA0]; subst. cbn [ins_key].
  destruct (Qltb (fst x) (fst k)) eqn:E; [apply Qltb_true in E|apply Qltb_false in E].
  - constructor; [exact (IH SL)|]. apply (Permutation_Forall (Permutation_sym (ins_key_perm k l))). constructor; [lra|exact FA0].
  - constructor; [exact SS|]. constructor; [exact E|]. eapply Forall_impl; [|exact FA0]. cbn. intros a Ha. lra.
Qed.
Lemma sort_keys_sorted l : StronglySorted (fun a b => fst a <= fst b) (sort_keys l).
Proof. induction l as [|k l IH]; [constructor|]. apply ins_key_sorted. exact IH. Qed.

(* the edges between two triangles are visited in the order of the shortest side
   of their two triangles *)
Theorem C32_order own m : sound m -> well_sided m -> tris_centred m ->
  exists es, merge_triangles own (setup_facet_connectivity m) = ofold (merge_edge own) (map ed_id es) (setup_facet_connectivity m) /\
    StronglySorted (before m) es /\ NoDup es /\
    (forall e, In e es <-> In e (mh_intr (setup_facet_connectivity m)) /\ both_tris m e).
Proof.
  intros S W T. destruct (setup_sides m S W T) as [W0 X0]. assert (S0 := setup_sound m S). set (m0 := setup_facet_connectivity m) in *.
  assert (C0 := sd_conf _ S0). assert (NI := proj1 (nodup_ids_app ed_id _ _ (cf_eids _ C0))).
  destruct (collect_ok m0 (mh_intr m0) S0 W0 X0 (incl_refl _) NI) as [ks [E [K1 [_ [_ K4]]]]].
  assert (KEY := collect_keys m0 (mh_intr m0) S0 W0 X0 (incl_refl _) ks E).
  assert (LIST : forall l, (forall k, In k l -> exists e, keyed m0 k e) -> exists es, Forall2 (keyed m0) l es).
  { induction l as [|k l IH]; intros H; [exists []; constructor|]. destruct (IH (fun x Hx => H x (or_intror Hx))) as [es F].
    destruct (H k (or_introl eq_refl)) as [e He]. exists (e :: es). constructor; assumption. }
  destruct (LIST (sort_keys ks)) as [es F].
  { intros k Hk. apply KEY. exact (Permutation_in _ (sort_keys_perm ks) Hk). }
  assert (IDS : map ed_id es = map snd (sort_keys ks)).
  { clear - F. induction F as [|k e l es K F IH]; [reflexivity|]. cbn [map]. rewrite IH. destruct K as [_ [-> _]]. reflexivity. }
  assert (ALL : forall e, In e es -> In e (mh_intr m0) /\ both_tris m0 e).
  { clear - F. induction F as [|k e l es K F IH]; intros x Hx; [destruct Hx|]. destruct Hx as [<-|Hx]; [|exact (IH x Hx)]. destruct K as [K1 [_ [_ K2]]]. auto. }
  exists es. split; [unfold merge_triangles; rewrite E; cbn [obind]; rewrite IDS; reflexivity|]. split; [|split].
  - assert (SK := sort_keys_sorted ks). clear - F SK. induction F as [|k e l es K F IH]; [constructor|]. inversion SK as [|? ? SL FL]; subst.
    constructor; [exact (IH SL)|]. clear - K F FL. induction F as [|k' e' l es K' F IH]; [constructor|]. inversion FL as [|? ? L1 FL']; subst.
    constructor; [|exact (IH FL')]. destruct K as [_ [_ [[[p [SP EP]] _] _]]]. destruct K' as [_ [_ [[_ MQ] _]]].
    exists p. split; [exact SP|]. intros q SQ. specialize (MQ q SQ). change (mh_pos m0) with (mh_pos m) in *. lra.
  - apply (NoDup_map_inv' ed_id). rewrite IDS. exact (Permutation_NoDup (Permutation_sym (Permutation_map snd (sort_keys_perm ks))) K1).
  - intros e. split; [intros H; exact (ALL e H)|]. intros [He B]. 
    assert (H : In (ed_id e) (map ed_id es)).
    { rewrite IDS. apply (Permutation_in _ (Permutation_sym (Permutation_map snd (sort_keys_perm ks)))). apply K4; [exact He|exact B]. }
    apply in_map_iff in H. destruct H as [x [Ex Hx]]. rewrite <- (nodup_map_inj' ed_id _ x e NI (proj1 (ALL x Hx)) He Ex). exact Hx.
Qed.

(* ---------- cases ---------- *)
Definition trisb (m : mesh) : bool := forallb (fun f => Qle_bool (3 * tol26) (2 * fa_area (mh_pos m) f)) (mh_tris m).
Lemma trisb_centred m : conforming m -> trisb m = true -> tris_centred m.
Proof.
  unfold trisb. rewrite forallb_forall. intros C H f Hf. apply tri_centred; [exact (tri_facet m f C Hf)|]. apply Qle_bool_iff. exact (H f Hf).
Qed.
Definition unpointed (m : mesh) : Prop := forall e, In e (mh_intr m) -> ed_l e = None /\ ed_r e = None.
Lemma unpointed_sided m : unpointed m -> well_sided m.
Proof. intros U e He. destruct (U e He) as [-> ->]. split; intros i Ei; discriminate. Qed.
Ltac bare_edges := intros e He; cbn in He; or_destruct He; try contradiction; subst e; split; reflexivity.

(* a rectangle of two squares, each cut into two triangles of colours c1 and c2 *)
Definition strip (c1 c2 : Z) : mesh :=
  MH (ptl [V2 0 0; V2 2 0; V2 4 0; V2 0 3; V2 2 3; V2 4 3]) (fun _ => 0%N) [0;1;2;3;4;5]%nat
     [] [FA 6 (Tri3 0 1 4) c1 true; FA 7 (Tri3 0 4 3) c2 true; FA 8 (Tri3 1 2 5) c1 true; FA 9 (Tri3 1 5 4) c2 true]
     [fresh_edge 10 0 4 (-1); fresh_edge 11 4 1 (-1); fresh_edge 12 1 5 (-1)]
     [fresh_edge 13 0 1 1; fresh_edge 14 1 2 1; fresh_edge 15 2 5 2; fresh_edge 16 5 4 3; fresh_edge 17 4 3 3; fresh_edge 18 3 0 4]
     (fun _ _ => None) 19 12 1 100.
Lemma strip_ready c1 c2 : sound (strip c1 c2) /\ well_sided (strip c1 c2) /\ tris_centred (strip c1 c2).
Proof.
  assert (S : sound (strip c1 c2)) by (apply soundb_sound; vm_compute; reflexivity). split; [exact S|]. split.
  - apply unpointed_sided. bare_edges.
  - apply trisb_centred; [exact (sd_conf _ S)|vm_compute; reflexivity].
Qed.
Example C32_strip_case : one_colour (strip 1 1) /\ exists m', tri2quad true (strip 1 1) = Ok m' /\ map fa_sh (mh_quads m') = [Quad4 3 0 1 4; Quad4 4 1 2 5] /\ mh_tris m' = [].
Proof.
  split.
  - intros f Hf. cbn in Hf. or_destruct Hf; try contradiction; subst f; reflexivity.
  - destruct (tri2quad true (strip 1 1)) as [m'| |] eqn:E; vm_compute in E; try discriminate. exists m'. split; [reflexivity|]. injection E as <-. vm_compute. auto.
Qed.

(* As stated C32 is FALSE, and more goes wrong. *)
(* (a) two triangles of different colours become a quad of one of the colours *)
Theorem C32_colour_refuted : exists m m', sound m /\ well_sided m /\ tris_centred m /\ tri2quad true m = Ok m' /\ ~ covered_by 2 m' == covered_by 2 m.
Proof.
  exists (strip 1 2). destruct (tri2quad true (strip 1 2)) as [m'| |] eqn:E; vm_compute in E; try discriminate. exists m'.
  destruct (strip_ready 1 2) as [S [W T]]. split; [exact S|]. split; [exact W|]. split; [exact T|]. split; [reflexivity|].
  injection E as <-. vm_compute. discriminate.
Qed.
(* (b) the copy in MeshCleanup.h loses every colour but the colour of the mesh *)
Theorem C32_cleanup_colour_refuted : exists m m', sound m /\ well_sided m /\ tris_centred m /\ tri2quad false m = Ok m' /\
  (forall f, In f (facets m) -> fa_col f = 7%Z) /\ ~ covered_by 7 m' == covered_by 7 m.
Proof.
  exists (strip 7 7). destruct (tri2quad false (strip 7 7)) as [m'| |] eqn:E; vm_compute in E; try discriminate. exists m'.
  destruct (strip_ready 7 7) as [S [W T]]. split; [exact S|]. split; [exact W|]. split; [exact T|]. split; [reflexivity|]. split.
  - intros f Hf. cbn in Hf. or_destruct Hf; try contradiction; subst f; reflexivity.
  - injection E as <-. vm_compute. discriminate.
Qed.
(* (c) there is no test of the shape: two triangles become a concave quad *)
Definition chevron : mesh :=
  MH (ptl [V2 (-4) 0; V2 0 3; V2 4 0; V2 0 4]) (fun _ => 0%N) [0;1;2;3]%nat
     [] [FA 4 (Tri3 0 1 3) 1 true; FA 5 (Tri3 1 2 3) 1 true] [fresh_edge 6 1 3 (-1)]
     [fresh_edge 7 0 1 1; fresh_edge 8 1 2 1; fresh_edge 9 2 3 1; fresh_edge 10 3 0 1]
     (fun _ _ => None) 11 4 1 100.
Theorem C32_concave_refuted : exists m m', sound m /\ well_sided m /\ tris_centred m /\ tri2quad true m = Ok m' /\
  exists f a b c d, In f (mh_quads m') /\ fa_sh f = Quad4 a b c d /\ det (mh_pos m' a) (mh_pos m' b) (mh_pos m' c) < 0.
Proof.
  exists chevron. destruct (tri2quad true chevron) as [m'| |] eqn:E; vm_compute in E; try discriminate. exists m'.
  assert (S : sound chevron) by (apply soundb_sound; vm_compute; reflexivity). split; [exact S|]. split; [apply unpointed_sided; bare_edges|].
  split; [apply trisb_centred; [exact (sd_conf _ S)|vm_compute; reflexivity]|]. split; [reflexivity|]. injection E as <-.
  exists (FA 11 (Quad4 0 1 2 3) 1 true), 0%nat, 1%nat, 2%nat, 3%nat. split; [vm_compute; auto|]. split; [reflexivity|]. vm_compute. reflexivity.
Qed.
(* (d) the final cleanup leaves two triangles with a common side *)
Definition corner_ring : mesh :=
  MH (ptl [V2 0 0; V2 6 0; V2 0 6; V2 1 4; V2 6 6]) (fun _ => 0%N) [0;1;2;3;4]%nat
     [] [FA 5 (Tri3 0 1 3) 1 true; FA 6 (Tri3 1 2 3) 1 true; FA 7 (Tri3 2 0 3) 1 true; FA 8 (Tri3 1 4 2) 1 true]
     [fresh_edge 9 3 1 (-1); fresh_edge 10 0 3 (-1); fresh_edge 11 3 2 (-1); fresh_edge 12 1 2 (-1)]
     [fresh_edge 13 0 1 1; fresh_edge 14 1 4 1; fresh_edge 15 4 2 1; fresh_edge 16 2 0 1]
     (fun _ _ => None) 17 36 1 100.
Theorem C32_apart_refuted : exists m m', sound m /\ well_sided m /\ tris_centred m /\ tri2quad true m = Ok m' /\ ~ tris_apart m'.
Proof.
  exists corner_ring. destruct (tri2quad true corner_ring) as [m'| |] eqn:E; vm_compute in E; try discriminate. exists m'.
  assert (S : sound corner_ring) by (apply soundb_sound; vm_compute; reflexivity). split; [exact S|]. split; [apply unpointed_sided; bare_edges|].
  split; [apply trisb_centred; [exact (sd_conf _ S)|vm_compute; reflexivity]|]. split; [reflexivity|]. injection E as <-.
  intros A. apply (A (FA 8 (Tri3 1 4 2) 1 true) (FA 18 (Tri3 0 1 2) 1 true) 2%nat 1%nat); vm_compute; auto 10.
Qed.
(* (e) a facet pointer of an edge is never reset: after a cleanup pass has made a
   concave quad the modification reads a deleted element *)
Definition roof : mesh :=
  MH (ptl [V2 (-10) 0; V2 0 (9#10); V2 10 0; V2 0 1; V2 0 (19#20); V2 0 (-5)]) (fun _ => 0%N) [0;1;2;3;4;5]%nat
     [FA 6 (Quad4 0 1 4 3) 1 true; FA 7 (Quad4 1 2 3 4) 1 true] [FA 8 (Tri3 0 5 1) 1 true; FA 9 (Tri3 1 5 2) 1 true]
     [fresh_edge 10 1 4 (-1); fresh_edge 11 4 3 (-1); fresh_edge 12 0 1 (-1); fresh_edge 13 1 2 (-1); fresh_edge 14 1 5 (-1)]
     [fresh_edge 15 0 5 1; fresh_edge 16 5 2 1; fresh_edge 17 2 3 1; fresh_edge 18 3 0 1]
     (fun _ _ => None) 19 60 1 100.
Theorem C32_dangling_refuted : exists m m', sound m /\ unpointed m /\ tris_centred m /\ clear_double_quads true m = Ok m' /\ sound m' /\ tri2quad true m' = UB.
Proof.
  exists roof. destruct (clear_double_quads true roof) as [m'| |] eqn:E; vm_compute in E; try discriminate. exists m'.
  assert (S : sound roof) by (apply soundb_sound; vm_compute; reflexivity). split; [exact S|]. split; [bare_edges|].
  split; [apply trisb_centred; [exact (sd_conf _ S)|vm_compute; reflexivity]|]. split; [reflexivity|].
  injection E as <-. split; [apply soundb_sound; vm_compute; reflexivity|]. vm_compute. reflexivity.
Qed.

Print Assumptions C32_merge_partial.
Print Assumptions C32_tri2quad_partial.
Print Assumptions C32_colour_partial.
Print Assumptions C32_order.
Print Assumptions C32_colour_refuted.
Print Assumptions C32_cleanup_colour_refuted.
Print Assumptions C32_concave_refuted.
Print Assumptions C32_apart_refuted.
Print Assumptions C32_dangling_refuted.
