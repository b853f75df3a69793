(* merge_degenerate_triangles: one vertex, then all of them. *)
From Coq Require Import Lia Permutation Lqa Setoid Relations.
From Verif Require Import Base GeomModel FacetModel UtilModel AdvanceModel Chain AdvanceProofs MeshModel MeshSpec MeshProofs
  QRefineModel QRefineSpec QRefineShape QRefineConf QRefineProps MeshProps CleanSpec CleanModel MergeProofs CleanProofs CleanPass CleanScan DegenProofs.

Lemma area2_tri p q r : area2 p q r == 2 * tri_area p q r.
Proof. unfold area2, tri_area, vcross, vsub. cbn [vx vy]. ring. Qed.

Section One.
Variable m : mesh.
Variable v : nat.
Variables g0 g1 g2 : facet.
Variables x0 x1 x2 : nat.
Variable olds : list facet.
Variable es : list medge.
Variables e0 e1 e2 : medge.
Variable col : Z.
Hypothesis S : sound m.
Hypothesis T : star m v g0 g1 g2 x0 x1 x2.
Hypothesis PO : Permutation olds [g0; g1; g2].
Hypothesis PE : Permutation es [e0; e1; e2].
Hypothesis I0 : In e0 (mh_intr m).
Hypothesis I1 : In e1 (mh_intr m).
Hypothesis I2 : In e2 (mh_intr m).
Hypothesis J0 : ends e0 v x0.
Hypothesis J1 : ends e1 v x1.
Hypothesis J2 : ends e2 v x2.
Let C := sd_conf _ S.
Let A := sd_addr _ S.

Definition merged : mesh := add_tri (drop m [] (map fa_id olds) (map ed_id es) [v]) x0 x1 x2 col false.
Definition hull : facet := FA (mh_next m) (Tri3 x0 x1 x2) col false.
Definition unmerged : list facet := mh_quads m ++ remove_facets m (map fa_id olds) (mh_tris m).

Lemma es_nodup : NoDup es.
Proof.
  destruct (st_distinct _ _ _ _ _ _ _ _ S T) as [D1 [D2 [D3 [D4 [D5 D6]]]]].
  apply (Permutation_NoDup (Permutation_sym PE)).
  assert (N : forall e e' x y, ends e v x -> ends e' v y -> x <> y -> v <> x -> v <> y -> e <> e').
  { clear. intros e e' x y H H' N1 N2 N3 <-. destruct H as [[H1 H2]|[H1 H2]], H' as [[K1 K2]|[K1 K2]]; congruence. }
  constructor; [intros [X|[X|[]]]|constructor; [intros [X|[]]|constructor; [intros []|constructor]]]; symmetry in X; revert X.
  - exact (N e0 e1 x0 x1 J0 J1 ltac:(congruence) ltac:(congruence) ltac:(congruence)).
  - exact (N e0 e2 x0 x2 J0 J2 ltac:(congruence) ltac:(congruence) ltac:(congruence)).
  - exact (N e1 e2 x1 x2 J1 J2 ltac:(congruence) ltac:(congruence) ltac:(congruence)).
Qed.
Lemma es_in e : In e es -> In e (mh_intr m) /\ exists x, ends e v x /\ (x = x0 \/ x = x1 \/ x = x2).
Proof. intros H. apply (Permutation_in _ PE) in H. destruct H as [<-|[<-|[<-|[]]]]; split; eauto. Qed.
Lemma olds_tri f : In f olds -> In f (mh_tris m) /\ (f = g0 \/ f = g1 \/ f = g2).
Proof. intros H. apply (Permutation_in _ PO) in H. destruct T. destruct H as [<-|[<-|[<-|[]]]]; auto. Qed.
Lemma merged_facets : mh_quads merged = mh_quads m /\ mh_tris merged = remove_facets m (map fa_id olds) (mh_tris m) ++ [hull].
Proof. split; [exact (remove_facets_nil m (mh_quads m))|reflexivity]. Qed.

Lemma star_merge : merge m merged olds hull unmerged es.
Proof.
  assert (ND := nodup_ids_app fa_id _ _ (cf_ids _ C)). destruct ND as [NQ [NT NX]].
  destruct merged_facets as [MQ MT]. constructor.
  - reflexivity.
  - reflexivity.
  - unfold unmerged, facets. 
    assert (X : Permutation (mh_tris m) (olds ++ remove_facets m (map fa_id olds) (mh_tris m))).
    { apply remove_facets_perm; [exact NT|exact (Permutation_NoDup (Permutation_sym PO) (st_nodup _ _ _ _ _ _ _ _ S T))| |].
      - intros f Hf. apply olds_tri. exact Hf.
      - intros f Hf. apply (facet_in_square m f A (sd_fits _ S)). apply in_or_app. right. apply olds_tri. exact Hf. }
    rewrite X at 1. rewrite !app_assoc. apply Permutation_app_tail. apply Permutation_app_comm.
  - unfold unmerged, facets. rewrite MQ, MT, app_assoc. symmetry. apply Permutation_cons_append.
  - rewrite (Permutation_flat_map sides PO), (Permutation_flat_map edge_pair PE). cbn [flat_map]. rewrite !app_nil_r.
    rewrite (st_sides _ _ _ _ _ _ _ _ T), (ends_pair _ _ _ J0), (ends_pair _ _ _ J1), (ends_pair _ _ _ J2). reflexivity.
  - change (mh_intr merged) with (remove_edges m (map ed_id es) (mh_intr m)). rewrite <- map_app. apply Permutation_map. apply remove_edges_perm.
    + assert (N := nodup_ids_app ed_id _ _ (cf_eids _ C)). apply N.
    + exact es_nodup.
    + intros e He. apply es_in. exact He.
    + intros e He. apply (edge_in_square m e C A (sd_fits _ S)). apply in_or_app. left. apply es_in. exact He.
  - reflexivity.
  - cbn. lia.
  - destruct (st_distinct _ _ _ _ _ _ _ _ S T) as [D1 [D2 [D3 [D4 [D5 D6]]]]]. repeat constructor; cbn [In]; intuition congruence.
  - intros f Hf. rewrite MQ in Hf. exact (cf_quads _ C f Hf).
  - intros f Hf. rewrite MT in Hf. apply in_app_or in Hf. destruct Hf as [Hf|[<-|[]]]; [|cbn; eauto].
    apply (cf_tris _ C). exact (remove_facets_in _ _ _ _ Hf).
Qed.
Lemma merged_verts w : In w (mh_verts merged) <-> In w (mh_verts m) /\ w <> v.
Proof.
  cbn [merged add_tri drop mh_verts]. rewrite filter_In. cbn [existsb]. rewrite orb_false_r. split.
  - intros [H1 H2]. split; [exact H1|]. intros E. subst w. rewrite Nat.eqb_refl, (proj1 (sd_fits _ S v H1)) in H2. discriminate.
  - intros [H1 H2]. split; [exact H1|]. destruct (Nat.eqb_spec w v); [contradiction|reflexivity].
Qed.
Lemma merged_sound : sound merged.
Proof.
  assert (G := star_merge). constructor.
  - exact (merge_conforming _ _ _ _ _ _ G C A).
  - apply (merge_addressed _ _ _ _ _ _ G A).
    + cbn [merged add_tri drop mh_verts]. apply NoDup_filter. exact (ad_verts _ A).
    + intros w Hw. apply merged_verts in Hw. apply Hw.
    + intros f w Hf Hw. apply merged_verts. apply (Permutation_in _ (mg_facets' _ _ _ _ _ _ G)) in Hf. destruct Hf as [<-|Hf].
      * destruct (st_distinct _ _ _ _ _ _ _ _ S T) as [D1 [D2 [D3 [D4 [D5 D6]]]]]. split.
        -- destruct (side_corner_next hull w Hw) as [b Sb]. assert (X := mg_h_side _ _ _ _ _ _ G _ Sb). apply in_flat_map in X. destruct X as [f [Hf Sf]].
           apply (ad_corner _ A f); [exact (mg_old_in _ _ _ _ _ _ G f Hf)|apply (side_corners f w b Sf)].
        -- cbn [hull fa_sh corners In] in Hw. intuition congruence.
      * assert (Hf' := mg_rest_in _ _ _ _ _ _ G f Hf). split; [exact (ad_corner _ A f w Hf' Hw)|]. intros E. subst w.
        refine (olds_rest _ _ _ _ _ _ G C f _ Hf). apply (Permutation_in _ (Permutation_sym PO)).
        destruct (st_only _ _ _ _ _ _ _ _ T f Hf' Hw) as [X|[X|X]]; subst; cbn; auto.
    + cbn. lia.
    + cbn. lia.
  - intros w Hw. apply merged_verts in Hw. apply (sd_fits _ S). apply Hw.
  - exact (merge_fans _ _ _ _ _ _ G C (sd_fans _ S)).
  - apply (merge_positive _ _ _ _ _ _ G (sd_pos _ S)). intros E. rewrite E in PO. apply Permutation_nil in PO. discriminate.
  - apply (merge_unset _ _ _ _ _ _ G C (sd_unset _ S)).
    + intros f i Hf. assert (L := ad_fnext _ A f (mg_rest_in _ _ _ _ _ _ G f Hf)). cbn [merged add_tri drop mh_nbr mh_next].
      destruct (Nat.eqb_spec (fa_id f) (mh_next m)); [lia|reflexivity].
    + intros i. cbn [merged add_tri drop mh_nbr mh_next hull fa_id]. rewrite Nat.eqb_refl. reflexivity.
Qed.
Lemma merged_keeps : keeps m merged /\ (length (facets merged) + 2 = length (facets m))%nat.
Proof.
  assert (G := star_merge).
  assert (L : (length (facets merged) + 2 = length (facets m))%nat).
  { rewrite (Permutation_length (mg_facets' _ _ _ _ _ _ G)), (Permutation_length (mg_facets _ _ _ _ _ _ G)), app_length, (Permutation_length PO). cbn [length]. lia. }
  split; [|exact L]. constructor; try reflexivity.
  - exact merged_sound.
  - exact (merge_covered _ _ _ _ _ _ G).
  - intros w Hw. apply merged_verts in Hw. apply Hw.
  - intros x Hx. apply (Permutation_in _ (Permutation_sym (mg_intr _ _ _ _ _ _ G))). apply in_or_app. auto.
  - lia.
Qed.
Lemma merged_sized : sized m -> sized merged.
Proof.
  intros Z f Hf. destruct merged_facets as [_ MT]. rewrite MT in Hf. apply in_app_or in Hf. destruct Hf as [Hf|[<-|[]]].
  - apply Z. exact (remove_facets_in _ _ _ _ Hf).
  - destruct (st_pos _ _ _ _ _ _ _ _ S T) as [P0 [P1 [P2 PH]]]. assert (E := st_area _ _ _ _ _ _ _ _ T).
    assert (Z0 := Z g0 (st_i0 _ _ _ _ _ _ _ _ T)). change (fa_area (mh_pos merged) hull) with (hull_area m x0 x1 x2).
    revert Z0 P0 P1 P2 PH E. generalize (hull_area m x0 x1 x2) (fa_area (mh_pos m) g0) (fa_area (mh_pos m) g1) (fa_area (mh_pos m) g2). clear.
    intros h a b c Z0 P0 P1 P2 PH E. assert (L : a <= h) by lra. nra.
Qed.
(* no triangle is smaller than the smallest one before *)
Lemma merged_grows c : (forall f, In f (mh_tris m) -> c <= fa_area (mh_pos m) f) -> forall f, In f (mh_tris merged) -> c <= fa_area (mh_pos merged) f.
Proof.
  intros Z f Hf. destruct merged_facets as [_ MT]. rewrite MT in Hf. apply in_app_or in Hf. destruct Hf as [Hf|[<-|[]]].
  - apply Z. exact (remove_facets_in _ _ _ _ Hf).
  - destruct (st_pos _ _ _ _ _ _ _ _ S T) as [P0 [P1 [P2 PH]]]. assert (E := st_area _ _ _ _ _ _ _ _ T).
    assert (Z0 := Z g0 (st_i0 _ _ _ _ _ _ _ _ T)). change (fa_area (mh_pos merged) hull) with (hull_area m x0 x1 x2).
    revert Z0 P0 P1 P2 PH E. generalize (hull_area m x0 x1 x2) (fa_area (mh_pos m) g0) (fa_area (mh_pos m) g1) (fa_area (mh_pos m) g2). clear.
    intros. lra.
Qed.
(* nothing changes around other vertices *)
Lemma merged_elsewhere w : w <> v -> w <> x0 -> w <> x1 -> w <> x2 ->
  facets_at merged w = facets_at m w /\ edges_at merged w = edges_at m w.
Proof.
  intros N N0 N1 N2.
  assert (FF : forall {X} (p r : X -> bool) l, (forall x, In x l -> p x = true -> r x = true) -> filter p (filter r l) = filter p l).
  { intros X p r l. induction l as [|a l IH]; intros H; [reflexivity|]. cbn [filter]. destruct (r a) eqn:E; cbn [filter].
    - rewrite IH by (intros x Hx; apply H; right; exact Hx). reflexivity.
    - rewrite IH by (intros x Hx; apply H; right; exact Hx). destruct (p a) eqn:E'; [|reflexivity]. rewrite (H a (or_introl eq_refl) E') in E. discriminate. }
  split.
  - unfold facets_at, facets. destruct merged_facets as [MQ MT]. rewrite MQ, MT. f_equal. rewrite !filter_app. f_equal.
    cbn [filter hull fa_sh corners existsb].
    destruct (Nat.eqb_spec w x0); [contradiction|]. destruct (Nat.eqb_spec w x1); [contradiction|]. destruct (Nat.eqb_spec w x2); [contradiction|].
    cbn [orb]. rewrite app_nil_r. apply FF. intros f Hf Hw. apply negb_true_iff. apply andb_false_iff. left. apply existsb_notin.
    intros H. apply in_map_iff in H. destruct H as [g [E Hg]]. destruct (olds_tri g Hg) as [Tg Cg].
    assert (g = f) by (apply (id_facet m g f C); [apply in_or_app; auto|apply in_or_app; auto|exact E]). subst g.
    apply existsb_exists in Hw. destruct Hw as [y [Hy Ey]]. apply Nat.eqb_eq in Ey. subst y.
    destruct T as [R0 R1 R2 _ _ _ _].
    destruct Cg as [X|[X|X]]; subst f; [apply (rot3_corner _ _ _ _ w R0) in Hy|apply (rot3_corner _ _ _ _ w R1) in Hy|apply (rot3_corner _ _ _ _ w R2) in Hy]; intuition.
  - unfold edges_at. change (mh_bdry merged) with (mh_bdry m). rewrite !filter_app. f_equal. apply FF.
    intros e He Hw. apply negb_true_iff. apply andb_false_iff. left. apply existsb_notin. intros H. apply in_map_iff in H. destruct H as [g [E Hg]].
    destruct (es_in g Hg) as [Ig [x [Jx Cx]]].
    assert (N' := nodup_ids_app ed_id _ _ (cf_eids _ C)). destruct N' as [NE _].
    assert (g = e) by (apply (nodup_map_inj' ed_id (mh_intr m)); assumption). subst g.
    apply orb_true_iff in Hw. rewrite !Nat.eqb_eq in Hw. unfold ends in Jx. intuition congruence.
Qed.
End One.

(* colours: one merge *)
Lemma merge_covered_by c m m' olds h rest es : merge m m' olds h rest es -> (forall f, In f olds -> fa_col f = fa_col h) ->
  covered_by c m' == covered_by c m.
Proof.
  intros G E. unfold covered_by.
  assert (P1 : Permutation (filter (fun f => Z.eqb (fa_col f) c) (facets m)) (filter (fun f => Z.eqb (fa_col f) c) (olds ++ rest))) by (apply perm_filter; exact (mg_facets _ _ _ _ _ _ G)).
  assert (P2 : Permutation (filter (fun f => Z.eqb (fa_col f) c) (facets m')) (filter (fun f => Z.eqb (fa_col f) c) (h :: rest))) by (apply perm_filter; exact (mg_facets' _ _ _ _ _ _ G)).
  rewrite (sumQ_perm _ _ (Permutation_map (fa_area (mh_pos m)) P1)), (sumQ_perm _ _ (Permutation_map (fa_area (mh_pos m')) P2)).
  assert (EH := merge_area _ _ _ _ _ _ G). rewrite (mg_pos _ _ _ _ _ _ G) in *.
  rewrite filter_app, map_app, sumQ_app. cbn [filter]. destruct (Z.eqb (fa_col h) c) eqn:B.
  - rewrite (filter_all _ olds) by (intros f Hf; rewrite (E f Hf); exact B). cbn [map sumQ]. rewrite EH. reflexivity.
  - rewrite (filter_empty _ olds) by (intros f Hf; rewrite (E f Hf); exact B). cbn [map sumQ]. ring.
Qed.

(* ---------- one vertex ---------- *)
Definition grows (m m' : mesh) : Prop := forall c, (forall f, In f (mh_tris m) -> c <= fa_area (mh_pos m) f) ->
  forall f, In f (mh_tris m') -> c <= fa_area (mh_pos m') f.
Lemma merge_degenerate_ok m v : sound m -> sized m -> degenerate m v = true -> (forall f, In f (mh_tris m) -> (0 <= fa_col f)%Z) ->
  exists m', merge_degenerate m v = Ok m' /\ keeps m m' /\ sized m' /\ (length (facets m') + 2 = length (facets m))%nat /\
    (forall w, In w (mh_verts m') <-> In w (mh_verts m) /\ w <> v) /\
    (forall w, degenerate m w = true -> w <> v -> degenerate m' w = true) /\
    (forall c, covered_by c m' == covered_by c m) /\ (forall f, In f (mh_tris m') -> (0 <= fa_col f)%Z) /\ mh_quads m' = mh_quads m /\ grows m m'.
Proof.
  intros S Z D NC. assert (C := sd_conf _ S).
  destruct (degenerate_star m v C D) as [NF [g0 [g1 [g2 [x0 [x1 [x2 [F [C1 [C2 [K0 [K1 [K2 T]]]]]]]]]]]]].
  unfold merge_degenerate. rewrite F, K0, K1, K2.
  assert (E : exists e0 e1 e2, (find_edge (mh_intr m) v x0 = Some e0 /\ In e0 (mh_intr m) /\ ends e0 v x0) /\
     (find_edge (mh_intr m) v x1 = Some e1 /\ In e1 (mh_intr m) /\ ends e1 v x1) /\
     (find_edge (mh_intr m) v x2 = Some e2 /\ In e2 (mh_intr m) /\ ends e2 v x2)).
  { destruct T as [T|T]; destruct (st_in _ _ _ _ _ _ _ _ T) as [I0 [I1 I2]]; destruct T as [R0 R1 R2 _ _ _ _].
    - destruct (st_edge m v S x0 x1 x2 g0 g2 I0 I2 R0 R2) as [e0 X0]. destruct (st_edge m v S x1 x2 x0 g1 g0 I1 I0 R1 R0) as [e1 X1].
      destruct (st_edge m v S x2 x0 x1 g2 g1 I2 I1 R2 R1) as [e2 X2]. eauto 10.
    - destruct (st_edge m v S x0 x2 x1 g0 g1 I0 I2 R0 R2) as [e0 X0]. destruct (st_edge m v S x2 x1 x0 g2 g0 I1 I0 R1 R0) as [e2 X2].
      destruct (st_edge m v S x1 x0 x2 g1 g2 I2 I1 R2 R1) as [e1 X1]. eauto 10. }
  destruct E as [e0 [e1 [e2 [[F0 [I0 J0]] [[F1 [I1 J1]] [F2 [I2 J2]]]]]]]. rewrite F0, F1, F2.
  assert (CG : Z.ltb (fa_col g0) 0 = false).
  { apply Z.ltb_ge. apply NC. destruct T as [T|T]; exact (st_i0 _ _ _ _ _ _ _ _ T). }
  rewrite CG.
  assert (DONE : forall k0 k1 k2 y0 y1 y2 a0 a1 a2, star m v k0 k1 k2 y0 y1 y2 -> Permutation [g0; g1; g2] [k0; k1; k2] -> Permutation [e0; e1; e2] [a0; a1; a2] ->
    In a0 (mh_intr m) -> In a1 (mh_intr m) -> In a2 (mh_intr m) -> ends a0 v y0 -> ends a1 v y1 -> ends a2 v y2 ->
    let m' := merged m v y0 y1 y2 [g0; g1; g2] [e0; e1; e2] (fa_col g0) in
    keeps m m' /\ sized m' /\ (length (facets m') + 2 = length (facets m))%nat /\
    (forall w, In w (mh_verts m') <-> In w (mh_verts m) /\ w <> v) /\
    (forall w, degenerate m w = true -> w <> v -> degenerate m' w = true) /\
    (forall c, covered_by c m' == covered_by c m) /\ (forall f, In f (mh_tris m') -> (0 <= fa_col f)%Z) /\ mh_quads m' = mh_quads m /\ grows m m').
  { intros k0 k1 k2 y0 y1 y2 a0 a1 a2 T' PO PE A0 A1 A2 B0 B1 B2 m'.
    destruct (merged_keeps m v k0 k1 k2 y0 y1 y2 _ _ a0 a1 a2 (fa_col g0) S T' PO PE A0 A1 A2 B0 B1 B2) as [K L].
    split; [exact K|]. split; [exact (merged_sized m v k0 k1 k2 y0 y1 y2 _ [e0; e1; e2] (fa_col g0) S T' Z)|]. split; [exact L|].
    split; [exact (merged_verts m v y0 y1 y2 [g0; g1; g2] [e0; e1; e2] (fa_col g0) S)|]. split; [|split; [|split; [|split]]].
    - intros w Dw NW. destruct (degenerate_apart m v w _ _ _ _ _ _ S T' Dw NW) as [N0 [N1 N2]].
      destruct (merged_elsewhere m v k0 k1 k2 y0 y1 y2 _ _ a0 a1 a2 (fa_col g0) S T' PO PE A0 A1 A2 B0 B1 B2 w NW N0 N1 N2) as [EF EE].
      unfold degenerate in *. unfold m'. rewrite EF, EE. exact Dw.
    - intros c. apply (merge_covered_by c _ _ _ _ _ _ (star_merge m v k0 k1 k2 y0 y1 y2 _ _ a0 a1 a2 (fa_col g0) S T' PO PE A0 A1 A2 B0 B1 B2)).
      intros f [<-|[<-|[<-|[]]]]; cbn; auto.
    - intros f Hf. apply in_app_or in Hf. destruct Hf as [Hf|[<-|[]]]; [apply NC; exact (remove_facets_in _ _ _ _ Hf)|]. cbn. apply Z.ltb_ge. exact CG.
    - exact (remove_facets_nil m (mh_quads m)).
    - intros c. exact (merged_grows m v k0 k1 k2 y0 y1 y2 _ [e0; e1; e2] (fa_col g0) S T' c). }
  destruct T as [T|T].
  - destruct (st_pos _ _ _ _ _ _ _ _ S T) as [P0 [P1 [P2 PH]]].
    assert (O : orientation (mh_pos m x0) (mh_pos m x1) (mh_pos m x2) = CCW).
    { unfold orientation. assert (E2 := area2_tri (mh_pos m x0) (mh_pos m x1) (mh_pos m x2)). fold (hull_area m x0 x1 x2) in E2.
      assert (Z0 := Z g0 (st_i0 _ _ _ _ _ _ _ _ T)). assert (EA := st_area _ _ _ _ _ _ _ _ T).
      destruct (Qltb _ small) eqn:B1.
      - exfalso. apply Qltb_true in B1. revert Z0 P0 P1 P2 PH EA E2 B1.
        generalize (area2 (mh_pos m x0) (mh_pos m x1) (mh_pos m x2)) (hull_area m x0 x1 x2) (fa_area (mh_pos m) g0) (fa_area (mh_pos m) g1) (fa_area (mh_pos m) g2). clear.
        intros z h a b c Z0 P0 P1 P2 PH E E2 B1. assert (L : a <= h) by lra. rewrite E2 in B1. nra.
      - destruct (Qltb 0 _) eqn:B2; [reflexivity|]. apply Qltb_false in B2. lra. }
    rewrite O. exists (merged m v x0 x1 x2 [g0; g1; g2] [e0; e1; e2] (fa_col g0)). split; [reflexivity|].
    apply (DONE g0 g1 g2 x0 x1 x2 e0 e1 e2); auto.
  - destruct (st_pos _ _ _ _ _ _ _ _ S T) as [P0 [P1 [P2 PH]]].
    assert (O : orientation (mh_pos m x0) (mh_pos m x1) (mh_pos m x2) <> CCW).
    { unfold orientation. destruct (Qltb _ small); [discriminate|]. destruct (Qltb 0 _) eqn:B2; [|discriminate]. apply Qltb_true in B2. exfalso.
      unfold hull_area, tri_area, vcross, vsub in PH. cbn [vx vy] in PH. unfold area2 in B2. lra. }
    exists (merged m v x0 x2 x1 [g0; g1; g2] [e0; e1; e2] (fa_col g0)). split; [destruct (orientation _ _ _); try reflexivity; contradiction|].
    apply (DONE g0 g2 g1 x0 x2 x1 e0 e2 e1); auto; perm.
Qed.

(* ---------- all vertices ---------- *)
Lemma merge_all_ok vs : forall m, sound m -> sized m -> (forall f, In f (mh_tris m) -> (0 <= fa_col f)%Z) -> NoDup vs ->
  (forall v, In v vs -> degenerate m v = true) ->
  exists m', ofold merge_degenerate vs m = Ok m' /\ keeps m m' /\ sized m' /\ (length (facets m') + 2 * length vs = length (facets m))%nat /\
    (forall w, In w (mh_verts m') <-> In w (mh_verts m) /\ ~ In w vs) /\ (forall c, covered_by c m' == covered_by c m) /\ mh_quads m' = mh_quads m /\ grows m m'.
Proof.
  induction vs as [|v vs IH]; intros m S Z NC ND D.
  - exists m. cbn [ofold length]. split; [reflexivity|]. split; [apply keeps_refl; exact S|]. split; [exact Z|]. split; [lia|].
    split; [cbn; tauto|]. split; [reflexivity|]. split; [reflexivity|]. intros c H. exact H.
  - destruct (merge_degenerate_ok m v S Z (D v (or_introl eq_refl)) NC) as [m1 [E [K [Z1 [L [V [P [CB [NC1 [MQ GR]]]]]]]]]].
    inversion ND as [|? ? NI ND']. subst. cbn [ofold]. rewrite E. cbn [obind].
    destruct (IH m1 (kp_sound _ _ K) Z1 NC1 ND') as [m' [E' [K' [Z' [L' [V' [CB' [MQ' GR']]]]]]]].
    { intros w Hw. apply P; [apply D; right; exact Hw|]. intros X. subst. contradiction. }
    exists m'. split; [exact E'|]. split; [exact (keeps_trans _ _ _ K K')|]. split; [exact Z'|]. split; [cbn [length]; lia|].
    split; [|split; [intros c; rewrite CB'; apply CB|split; [congruence|intros c H; exact (GR' c (GR c H))]]]. intros w. rewrite V', V. cbn [In]. split.
    + intros [[X1 X2] X3]. split; [exact X1|]. intros [Y|Y]; [congruence|contradiction].
    + intros [X1 X2]. split; [split; [exact X1|intros Y; subst; apply X2; auto]|auto].
Qed.
Lemma merge_degenerates_ok m : sound m -> sized m -> (forall f, In f (mh_tris m) -> (0 <= fa_col f)%Z) ->
  exists m', merge_degenerates m = Ok m' /\ keeps m m' /\ linked m' /\ sized m' /\
    (forall w, In w (mh_verts m') <-> In w (mh_verts m) /\ degenerate m w = false) /\ (forall c, covered_by c m' == covered_by c m) /\ mh_quads m' = mh_quads m /\ grows m m'.
Proof.
  intros S Z NC. destruct (merge_all_ok (filter (degenerate m) (mh_verts m)) m S Z NC) as [m1 [E [K [Z1 [L [V [CB [MQ GR]]]]]]]].
  - apply NoDup_filter. exact (ad_verts _ (sd_addr _ S)).
  - intros v Hv. apply filter_In in Hv. apply Hv.
  - unfold merge_degenerates. rewrite E. cbn [obind]. exists (setup_facet_connectivity m1). split; [reflexivity|].
    split; [exact (keeps_trans _ _ _ K (setup_keeps m1 (kp_sound _ _ K)))|]. split; [exact (setup_linked m1 (kp_sound _ _ K))|].
    split; [exact Z1|]. split; [|split; [exact CB|split; [exact MQ|exact GR]]]. intros w. change (mh_verts (setup_facet_connectivity m1)) with (mh_verts m1).
    rewrite V, filter_In. destruct (degenerate m w) eqn:DW; intuition congruence.
Qed.
