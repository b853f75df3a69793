(* Property C31 (quad refinement). *)
From Coq Require Import Lia Permutation Lqa Setoid.
From Verif Require Import Base GeomModel FacetModel UtilModel UtilProofs AdvanceModel Chain AdvanceProofs MeshModel MeshSpec
  MeshProofs MeshCheck QRefineModel QRefineSpec QRefineProofs QRefineShape QRefineConf MeshProps.

(* ---------- positions of the new vertices ---------- *)
Section Area.
Variables c m : mesh.
Hypothesis C : conforming c.
Hypothesis A : addressed c.
Hypothesis R : refined c m.

Lemma mid_pos a b : In (a, b) (all_sides c) ->
  vx (mh_pos m (mid_of c a b)) == (1#2) * (vx (mh_pos c a) + vx (mh_pos c b)) /\
  vy (mh_pos m (mid_of c a b)) == (1#2) * (vy (mh_pos c a) + vy (mh_pos c b)).
Proof.
  intros H. destruct (side_edge c a b C H) as [e [He J]]. rewrite (rf_mid _ _ R _ _ He).
  unfold ed_xy. cbn [vx vy vscale vadd]. apply ed_joins_iff in J.
  destruct J as [[<- <-]|[<- <-]]; split; ring.
Qed.
Lemma old_pos f v : In f (facets c) -> In v (corners (fa_sh f)) -> mh_pos m v = mh_pos c v.
Proof. intros Hf Hv. apply (rf_old _ _ R). exact (ad_vnext _ A _ (ad_corner _ A f v Hf Hv)). Qed.

Lemma sub_area f g n col : In (f, g) (facet_centres c) ->
  sumQ (map (fa_area (mh_pos m)) (number_quads n col (sub_shapes (mid_of c) g f))) == fa_area (mh_pos c) f.
Proof.
  intros H. destruct (fc_in c m R f g H) as [Hf _]. assert (G := rf_cen _ _ R f g H).
  assert (O := old_pos f). specialize (fun v => O v Hf).
  assert (M : forall a b, In (a, b) (sides f) ->
     vx (mh_pos m (mid_of c a b)) == (1#2) * (vx (mh_pos c a) + vx (mh_pos c b)) /\
     vy (mh_pos m (mid_of c a b)) == (1#2) * (vy (mh_pos c a) + vy (mh_pos c b))).
  { intros a b Hs. apply mid_pos. apply all_sides_in. exists f. auto. }
  unfold sub_shapes, sides in *. unfold fa_area at 2. unfold fa_xy in G.
  destruct (fa_sh f) as [p q r|p q r s];
    cbn [corners ring_edges path_edges app] in M, O;
    cbn [number_quads map sumQ fold_right fa_area fa_sh].
  - destruct (M p q) as [X1 Y1]; [cbn; auto|]. destruct (M q r) as [X2 Y2]; [cbn; auto|]. destruct (M r p) as [X3 Y3]; [cbn; auto|].
    rewrite (O p), (O q), (O r) by (cbn; auto). rewrite G.
    unfold quad_area, tri_area, tri_centroid, vcross, vsub. cbn [vx vy].
    rewrite X1, X2, X3, Y1, Y2, Y3. field.
  - destruct (M p q) as [X1 Y1]; [cbn; auto|]. destruct (M q r) as [X2 Y2]; [cbn; auto|]. destruct (M r s) as [X3 Y3]; [cbn; auto|].
    destruct (M s p) as [X4 Y4]; [cbn; auto 6|].
    rewrite (O p), (O q), (O r), (O s) by (cbn; auto). rewrite G.
    unfold quad_area, quad_centroid, vcross, vsub. cbn [vx vy].
    rewrite X1, X2, X3, X4, Y1, Y2, Y3, Y4. ring.
Qed.

Lemma filter_all_col (P : Z -> bool) n col l : filter (fun f => P (fa_col f)) (number_quads n col l) =
  if P col then number_quads n col l else [].
Proof.
  revert n. induction l as [|s l IH]; intros n; [destruct (P col); reflexivity|].
  cbn [number_quads filter fa_col]. rewrite IH. destruct (P col); reflexivity.
Qed.
Lemma areas (P : Z -> bool) fs : forall n,
  (forall f g, In (f, g) (combine fs (new_centres n fs)) -> In (f, g) (facet_centres c)) ->
  sumQ (map (fa_area (mh_pos m)) (filter (fun f => P (fa_col f)) (new_quads (mid_of c) n fs))) ==
  sumQ (map (fa_area (mh_pos c)) (filter (fun f => P (fa_col f)) fs)).
Proof.
  induction fs as [|f fs IH]; intros n H; [reflexivity|]. cbn [new_quads filter].
  rewrite filter_app, map_app, sumQ_app, IH, filter_all_col.
  - destruct (P (fa_col f)).
    + rewrite sub_area by (apply H; left; reflexivity). cbn [map sumQ fold_right]. reflexivity.
    + cbn [map sumQ fold_right]. ring.
  - intros f' g Hg. apply H. right. exact Hg.
Qed.
Lemma sumQ_perm l l' : Permutation l l' -> sumQ l == sumQ l'.
Proof.
  induction 1; cbn [sumQ fold_right] in *; [reflexivity|unfold sumQ in *; lra|unfold sumQ in *; lra|lra].
Qed.
Lemma covered_gen (P : Z -> bool) :
  sumQ (map (fa_area (mh_pos m)) (filter (fun f => P (fa_col f)) (facets m))) ==
  sumQ (map (fa_area (mh_pos c)) (filter (fun f => P (fa_col f)) (facets c))).
Proof.
  unfold facets at 1. rewrite (rf_tris _ _ R), app_nil_r, (rf_quads _ _ R).
  rewrite areas by (intros f g H; exact H). apply sumQ_perm. apply Permutation_map.
  unfold order, facets. rewrite !filter_app. apply Permutation_app_comm.
Qed.
End Area.

Lemma area2_split (a b x y z : vec2) : 
  vx x == (1#2) * (vx a + vx b) -> vy x == (1#2) * (vy a + vy b) ->
  vx y == vx z -> vy y == vy z -> area2 a x y == (1#2) * area2 a b z.
Proof. intros H1 H2 H3 H4. unfold area2. rewrite H1, H2, H3, H4. ring. Qed.

(* ------------------------------------------------------------------ *)
(* C31 *)
Theorem C31_refined_closed c : refinable c -> exists m, refine c = Ok (m, true) /\ refined c m.
Proof. intros [C A F T]. exact (refine_closed c C A F T). Qed.

Theorem C31_counts_partial c : refinable c -> exists m, refine c = Ok (m, true) /\
  length (mh_verts m) = (length (mh_verts c) + length (mh_intr c) + length (mh_bdry c) + length (mh_tris c) + length (mh_quads c))%nat /\
  length (mh_quads m) = (3 * length (mh_tris c) + 4 * length (mh_quads c))%nat /\
  mh_tris m = [] /\
  length (mh_intr m) = (2 * length (mh_intr c) + 3 * length (mh_tris c) + 4 * length (mh_quads c))%nat /\
  length (mh_bdry m) = (2 * length (mh_bdry c))%nat.
Proof.
  intros RB. destruct (C31_refined_closed c RB) as [m [E R]]. destruct RB as [C A F T]. exists m. split; [exact E|].
  assert (NC : forall l, (forall f, In f l -> exists a b d, fa_sh f = Tri3 a b d) -> forall n l',
     length (new_quads (mid_of c) n (l ++ l')) = (3 * length l + length (new_quads (mid_of c) (fold_left (fun n f => 1 + 2 * ncorner f + n) l n) l'))%nat /\
     length (new_spokes (mid_of c) n (l ++ l')) = (3 * length l + length (new_spokes (mid_of c) (fold_left (fun n f => 1 + 2 * ncorner f + n) l n) l'))%nat).
  { induction l as [|f l IH]; intros H n l'; [split; reflexivity|]. cbn [app new_quads new_spokes fold_left length].
    rewrite !app_length. destruct (IH (fun g Hg => H g (or_intror Hg)) (1 + 2 * ncorner f + n)%nat l') as [E1 E2]. rewrite E1, E2.
    destruct (H f (or_introl eq_refl)) as [x [y [z S]]]. unfold sub_shapes, spokes, sides. rewrite S. cbn [length map number_quads number_edges corners ring_edges path_edges app]. lia. }
  assert (NQ : forall l, (forall f, In f l -> exists a b d e, fa_sh f = Quad4 a b d e) -> forall n,
     length (new_quads (mid_of c) n l) = (4 * length l)%nat /\ length (new_spokes (mid_of c) n l) = (4 * length l)%nat).
  { induction l as [|f l IH]; intros H n; [split; reflexivity|]. cbn [new_quads new_spokes length].
    rewrite !app_length. destruct (IH (fun g Hg => H g (or_intror Hg)) (1 + 2 * ncorner f + n)%nat) as [E1 E2]. rewrite E1, E2.
    destruct (H f (or_introl eq_refl)) as [x [y [z [w S]]]]. unfold sub_shapes, spokes, sides. rewrite S. cbn [length map number_quads number_edges corners ring_edges path_edges app]. lia. }
  destruct (NC (mh_tris c) (cf_tris _ C) (cstart c) (mh_quads c)) as [L1 L2].
  fold (order c) in L1, L2. destruct (NQ (mh_quads c) (cf_quads _ C) (fold_left (fun n f => 1 + 2 * ncorner f + n)%nat (mh_tris c) (cstart c))) as [L3 L4].
  split; [|split; [|split; [exact (rf_tris _ _ R)|split]]].
  - rewrite (rf_verts _ _ R), !app_length. unfold mids, centres, order, all_edges.
    rewrite new_mids_length, new_centres_length, !app_length. lia.
  - rewrite (rf_quads _ _ R), L1, L3. reflexivity.
  - rewrite (rf_intr _ _ R), app_length, halves_length, L2, L4. lia.
  - rewrite (rf_bdry _ _ R), halves_length. reflexivity.
Qed.

(* everything needed for the next refinement is preserved *)
Theorem C31_preserved_partial c : refinable c -> exists m, refine c = Ok (m, true) /\
  refinable m /\ boundary_unset m /\ mh_area m = mh_area c /\ mh_col m = mh_col c /\
  (forall v, In v (mh_verts c) -> In v (mh_verts m) /\ mh_pos m v = mh_pos c v /\ mh_prop m v = mh_prop c v).
Proof.
  intros RB. destruct (C31_refined_closed c RB) as [m [E R]]. destruct RB as [C A F T]. exists m. split; [exact E|].
  split; [|split; [|split; [exact (rf_area _ _ R)|split; [exact (rf_col _ _ R)|]]]].
  - constructor; [exact (refined_conforming c m C A R)|exact (refined_addressed c m C A R)| |].
    + assert (P : forall s, (forall v, In v (mh_verts c) -> in_square s (mh_pos c v) = true) ->
                 forall v, In v (mh_verts m) -> in_square s (mh_pos m v) = true).
      { intros s H v Hv. rewrite (rf_verts _ _ R) in Hv. apply in_app_or in Hv. destruct Hv as [Hv|Hv].
        - rewrite (rf_old _ _ R) by exact (ad_vnext _ A _ Hv). exact (H v Hv).
        - apply in_app_or in Hv. destruct Hv as [Hv|Hv].
          + assert (X : exists e, In (e, v) (edge_mids c)).
            { unfold edge_mids. assert (L : length (all_edges c) = length (mids c)) by (unfold mids; rewrite new_mids_length; reflexivity).
              revert L Hv. generalize (mids c) (all_edges c). clear. induction l as [|y l IH]; intros [|x k] L H; try discriminate; [destruct H|].
              destruct H as [H|H]; [subst; exists x; left; reflexivity|]. destruct (IH k ltac:(injection L; auto) H) as [e He]. exists e. right. exact He. }
            destruct X as [e He]. rewrite (rf_mid _ _ R e v He). destruct (edge_mids_in _ _ _ He) as [Hin _].
            destruct (edge_old c e C A Hin) as [V1 [V2 _]]. apply in_square_ed_xy; auto.
          + assert (X : exists f, In (f, v) (facet_centres c)).
            { unfold facet_centres. assert (L : length (order c) = length (centres c)) by (unfold centres; rewrite new_centres_length; reflexivity).
              revert L Hv. generalize (centres c) (order c). clear. induction l as [|y l IH]; intros [|x k] L H; try discriminate; [destruct H|].
              destruct H as [H|H]; [subst; exists x; left; reflexivity|]. destruct (IH k ltac:(injection L; auto) H) as [e He]. exists e. right. exact He. }
            destruct X as [f Hf]. rewrite (rf_cen _ _ R f v Hf). destruct (fc_in c m R f v Hf) as [Hin _].
            apply in_square_fa_xy. intros w Hw. apply H. exact (ad_corner _ A f w Hin Hw). }
      intros v Hv. rewrite (rf_scale _ _ R). split; apply P; try exact Hv; intros w Hw; apply (F w Hw).
    + intros e He. rewrite (rf_bdry _ _ R) in He. revert He. clear.
      generalize (3 * length (mh_intr c) + mh_next c)%nat. induction (mh_bdry c) as [|x l IH]; intros n H; [destruct H|].
      cbn [halves] in H. destruct H as [H|[H|H]]; [subst; reflexivity|subst; reflexivity|exact (IH _ H)].
  - intros f i a b Hf _ _. unfold facets in Hf. rewrite (rf_tris _ _ R), app_nil_r in Hf. exact (rf_nbr _ _ R f i Hf).
  - intros v Hv. split; [rewrite (rf_verts _ _ R); apply in_or_app; left; exact Hv|].
    assert (L := ad_vnext _ A _ Hv). split; [exact (rf_old _ _ R v L)|exact (rf_prop _ _ R v L)].
Qed.

(* total area and area of every colour *)
Theorem C31_area_partial c : refinable c -> exists m, refine c = Ok (m, true) /\
  covered m == covered c /\ forall k, covered_by k m == covered_by k c.
Proof.
  intros RB. destruct (C31_refined_closed c RB) as [m [E R]]. destruct RB as [C A F T]. exists m. split; [exact E|]. split.
  - assert (X := covered_gen c m C A R (fun _ => true)). unfold covered.
    assert (FA : forall l, filter (fun f : facet => true) l = l) by (induction l as [|x l IH]; cbn; [reflexivity|rewrite IH; reflexivity]).
    rewrite !FA in X. exact X.
  - intros k. exact (covered_gen c m C A R (fun z => Z.eqb z k)).
Qed.

(* the boundary is halved edge by edge, in order, with its colours; boundary
   vertices stay marked *)
Theorem C31_boundary_partial c : refinable c -> exists m, refine c = Ok (m, true) /\
  (exists hs, mh_bdry m = in_pairs hs /\ Forall2 (halved m) (mh_bdry c) hs) /\
  (boundary_marked c -> boundary_marked m).
Proof.
  intros RB. destruct (C31_refined_closed c RB) as [m [E R]]. destruct RB as [C A F T]. exists m. split; [exact E|]. split.
  - rewrite (rf_bdry _ _ R).
    assert (EM : forall e v, In (e, v) (combine (mh_bdry c) (new_mids (3 * length (mh_intr c) + mh_next c) (mh_bdry c))) -> In (e, v) (edge_mids c)).
    { intros e v H. unfold edge_mids, mids, all_edges. rewrite new_mids_app, combine_app' by (rewrite new_mids_length; reflexivity).
      apply in_or_app. right. exact H. }
    assert (OP : forall e, In e (mh_bdry c) -> mh_pos m (ed_1 e) = mh_pos c (ed_1 e) /\ mh_pos m (ed_2 e) = mh_pos c (ed_2 e)).
    { intros e He. destruct (edge_old c e C A (in_or_app _ _ _ (or_intror He))) as [_ [_ [L1 [L2 _]]]].
      split; apply (rf_old _ _ R); assumption. }
    assert (RM := rf_mid _ _ R). revert EM OP. generalize (3 * length (mh_intr c) + mh_next c)%nat.
    induction (mh_bdry c) as [|e l IH]; intros n EM OP; [exists []; split; [reflexivity|constructor]|].
    destruct (IH (3 + n)%nat) as [hs [H1 H2]].
    { intros e' v H. apply EM. right. exact H. }
    { intros e' H. apply OP. right. exact H. }
    exists ((ED (1 + n) (ed_1 e) n (ed_col e) e_on_boundary None None None,
             ED (2 + n) n (ed_2 e) (ed_col e) e_on_boundary None None None) :: hs).
    split; [cbn [halves in_pairs]; rewrite H1; reflexivity|]. constructor; [|exact H2].
    unfold halved. cbn [fst snd ed_1 ed_2 ed_col]. split; [reflexivity|]. split; [reflexivity|]. split; [reflexivity|].
    split; [|auto]. rewrite (RM e n) by (apply EM; left; reflexivity).
    destruct (OP e (or_introl eq_refl)) as [-> ->]. unfold ed_xy, veq. split; reflexivity.
  - intros BM e He. assert (X : forall v, In v (mh_verts c) -> mh_prop m v = mh_prop c v).
    { intros v Hv. apply (rf_prop _ _ R). exact (ad_vnext _ A _ Hv). }
    destruct (bdry_end c m C R e He) as [x [Hx [HE P]]].
    destruct (edge_old c x C A (in_or_app _ _ _ (or_intror Hx))) as [V1 [V2 _]].
    destruct (BM x Hx) as [B1 B2].
    assert (BV : has_property (mh_prop m (mid_of c (ed_1 x) (ed_2 x))) v_on_boundary = true).
    { rewrite (rf_bprop _ _ R x _ Hx HE). apply has_property_bits in B1. destruct B1 as [i [I1 I2]].
      apply has_property_bits. exists i. split; [|exact I2]. rewrite N.lor_spec, I1. reflexivity. }
    destruct P as [P|P]; apply pair_eq in P; destruct P as [P1 P2]; rewrite P1, P2.
    + rewrite (X _ V1). auto.
    + rewrite (X _ V2). auto.
Qed.

(* interior vertices created by the refinement are never marked as boundary *)
Theorem C31_interior_unmarked_partial c : refinable c -> exists m, refine c = Ok (m, true) /\
  forall v, In v (mh_verts m) -> ~ In v (mh_verts c) ->
    (forall e, In e (mh_bdry m) -> ed_1 e <> v /\ ed_2 e <> v) -> has_property (mh_prop m v) v_on_boundary = false.
Proof.
  intros RB. destruct (C31_refined_closed c RB) as [m [E R]]. destruct RB as [C A F T]. exists m. split; [exact E|].
  intros v Hv NC NB. rewrite (rf_verts _ _ R) in Hv. apply in_app_or in Hv. destruct Hv as [Hv|Hv]; [contradiction|].
  apply in_app_or in Hv. destruct Hv as [Hv|Hv]; [|exact (rf_cprop _ _ R v Hv)].
  assert (X : exists e, In (e, v) (edge_mids c)).
  { unfold edge_mids. assert (L : length (all_edges c) = length (mids c)) by (unfold mids; rewrite new_mids_length; reflexivity).
    revert L Hv. generalize (mids c) (all_edges c). clear. induction l as [|y l IH]; intros [|x k] L H; try discriminate; [destruct H|].
    destruct H as [H|H]; [subst; exists x; left; reflexivity|]. destruct (IH k ltac:(injection L; auto) H) as [e He]. exists e. right. exact He. }
  destruct X as [e He]. destruct (edge_mids_in _ _ _ He) as [Hin _]. unfold all_edges in Hin. apply in_app_or in Hin.
  destruct Hin as [Hin|Hin].
  - rewrite (rf_iprop _ _ R e v Hin He). apply remove_has. exact eq_refl.
  - exfalso.
    assert (In (ED (1 + v) (ed_1 e) v (ed_col e) e_on_boundary None None None) (mh_bdry m)).
    { rewrite (rf_bdry _ _ R). unfold edge_mids, mids, all_edges in He.
      rewrite new_mids_app, combine_app' in He by (rewrite new_mids_length; reflexivity).
      apply in_app_or in He. destruct He as [He|He].
      - exfalso. apply in_combine_l in He. assert (N := cf_eids _ C). unfold all_edges in N. rewrite map_app in N.
        apply (NoDup_app_in _ _ (ed_id e) N); apply in_map; assumption.
      - revert He. generalize (3 * length (mh_intr c) + mh_next c)%nat. clear. induction (mh_bdry c) as [|x l IH]; intros n H; [destruct H|].
        cbn [new_mids combine] in H. cbn [halves]. destruct H as [H|H].
        + apply pair_eq in H. destruct H as [-> ->]. left. reflexivity.
        + right. right. exact (IH _ H). }
    destruct (NB _ H) as [_ N]. apply N. reflexivity.
Qed.

(* convex elements stay convex *)
Theorem C31_convex_partial c : refinable c -> (forall f, In f (facets c) -> strictly_convex (mh_pos c) f) ->
  exists m, refine c = Ok (m, true) /\ forall f, In f (facets m) -> strictly_convex (mh_pos m) f.
Proof.
  intros RB CV. destruct (C31_refined_closed c RB) as [m [E R]]. destruct RB as [C A F T]. exists m. split; [exact E|].
  intros q Hq. unfold facets in Hq. rewrite (rf_tris _ _ R), app_nil_r, (rf_quads _ _ R) in Hq.
  apply (in_map fa_sh) in Hq. rewrite new_quads_sh in Hq. apply in_flat_map in Hq. destruct Hq as [[f g] [H Hs]].
  fold (centres c) in H. fold (facet_centres c) in H. cbn [fst snd] in Hs. destruct (fc_in c m R f g H) as [Hf _].
  assert (G := rf_cen _ _ R f g H). assert (O := old_pos c m A R f). specialize (fun v => O v Hf).
  assert (M : forall a b, In (a, b) (sides f) ->
     vx (mh_pos m (mid_of c a b)) == (1#2) * (vx (mh_pos c a) + vx (mh_pos c b)) /\
     vy (mh_pos m (mid_of c a b)) == (1#2) * (vy (mh_pos c a) + vy (mh_pos c b))).
  { intros a b Hab. apply (mid_pos c m C R). apply all_sides_in. exists f. auto. }
  assert (V := CV f Hf). unfold strictly_convex in V |- *. unfold sub_shapes, sides in *. unfold fa_xy in G.
  destruct (fa_sh f) as [p r s|p r s t]; cbn [corners ring_edges path_edges app] in M, O; cbn [In] in Hs.
  - destruct (M p r) as [X1 Y1]; [cbn; auto|]. destruct (M r s) as [X2 Y2]; [cbn; auto|]. destruct (M s p) as [X3 Y3]; [cbn; auto|].
    assert (Op := O p). assert (Or := O r). assert (Os := O s). specialize (Op ltac:(cbn; auto)). specialize (Or ltac:(cbn; auto)). specialize (Os ltac:(cbn; auto)).
    revert G X1 X2 X3 Y1 Y2 Y3 V Hs. rewrite <- Op, <- Or, <- Os.
    generalize (mid_of c p r) (mid_of c r s) (mid_of c s p). intros x y z G X1 X2 X3 Y1 Y2 Y3 V Hs.
    unfold tri_centroid in G. clear - G X1 X2 X3 Y1 Y2 Y3 V Hs.
    or_destruct Hs; try contradiction; rewrite <- Hs; unfold area2 in *; rewrite G; cbn [vx vy];
      rewrite ?X1, ?X2, ?X3, ?Y1, ?Y2, ?Y3; unfold Qdiv; change (/3) with (1#3);
      (split; [|split; [|split]]); lra.
  - destruct (M p r) as [X1 Y1]; [cbn; auto|]. destruct (M r s) as [X2 Y2]; [cbn; auto|]. destruct (M s t) as [X3 Y3]; [cbn; auto|].
    destruct (M t p) as [X4 Y4]; [cbn; auto 6|].
    assert (Op := O p). assert (Or := O r). assert (Os := O s). assert (Ot := O t).
    specialize (Op ltac:(cbn; auto)). specialize (Or ltac:(cbn; auto)). specialize (Os ltac:(cbn; auto)). specialize (Ot ltac:(cbn; auto)).
    revert G X1 X2 X3 X4 Y1 Y2 Y3 Y4 V Hs. rewrite <- Op, <- Or, <- Os, <- Ot.
    generalize (mid_of c p r) (mid_of c r s) (mid_of c s t) (mid_of c t p). intros x y z w G X1 X2 X3 X4 Y1 Y2 Y3 Y4 V Hs.
    destruct V as [V1 [V2 [V3 V4]]].
    unfold quad_centroid in G. clear - G X1 X2 X3 X4 Y1 Y2 Y3 Y4 V1 V2 V3 V4 Hs.
    or_destruct Hs; try contradiction; rewrite <- Hs; unfold area2 in *; rewrite G; cbn [vx vy];
      rewrite ?X1, ?X2, ?X3, ?X4, ?Y1, ?Y2, ?Y3, ?Y4;
      (split; [|split; [|split]]); lra.
Qed.

(* a mesh with a neighbour is left alone *)
Theorem C31_interface c : (exists e, In e (mh_bdry c) /\ ed_twin e <> None) -> refine c = Ok (c, false).
Proof.
  intros [e [He T]]. unfold refine.
  assert (X : existsb (fun e => is_some (ed_twin e)) (mh_bdry c) = true).
  { apply existsb_exists. exists e. split; [exact He|]. destruct (ed_twin e); [reflexivity|contradiction]. }
  rewrite X. reflexivity.
Qed.

(* any number of refinements *)
Fixpoint refine_n (k : nat) (m : mesh) : outcome mesh :=
  match k with O => Ok m | S k => obind (refine m) (fun r => refine_n k (fst r)) end.
Theorem C31_repeated_partial k : forall c, refinable c -> exists m, refine_n k c = Ok m /\ refinable m /\
  covered m == covered c /\ (forall z, covered_by z m == covered_by z c) /\
  length (mh_bdry m) = (Nat.pow 2 k * length (mh_bdry c))%nat /\
  ((0 < k)%nat -> mh_tris m = [] /\
     length (mh_quads m) = (Nat.pow 4 (k - 1) * (3 * length (mh_tris c) + 4 * length (mh_quads c)))%nat).
Proof.
  induction k as [|k IH]; intros c RB.
  - exists c. split; [reflexivity|]. split; [exact RB|]. split; [reflexivity|]. split; [reflexivity|].
    split; [cbn; lia|intros H; lia].
  - destruct (C31_preserved_partial c RB) as [m1 [E1 [R1 _]]].
    destruct (C31_area_partial c RB) as [m1' [E1' [A1 B1]]]. rewrite E1 in E1'. injection E1' as <-.
    destruct (C31_counts_partial c RB) as [m1'' [E1'' [_ [Q1 [T1 [_ D1]]]]]]. rewrite E1 in E1''. injection E1'' as <-.
    destruct (IH m1 R1) as [m [E [R [A2 [B2 [D2 Q2]]]]]].
    exists m. cbn [refine_n]. rewrite E1. cbn [obind fst]. split; [exact E|]. split; [exact R|].
    split; [rewrite A2; exact A1|]. split; [intros z; rewrite B2; apply B1|]. split; [rewrite D2, D1; cbn [Nat.pow]; lia|].
    intros _. destruct k as [|k].
    + cbn in E. injection E as <-. split; [exact T1|]. rewrite Q1. cbn. lia.
    + destruct (Q2 ltac:(lia)) as [T2 Q3]. split; [exact T2|]. rewrite Q3, T1, Q1.
      replace (S (S k) - 1)%nat with (S (S k - 1))%nat by lia. cbn [Nat.pow length]. lia.
Qed.

(* ---------- cases ---------- *)
Example C31_house_case : refinable house /\ boundary_unset house /\ (forall f, In f (facets house) -> strictly_convex (mh_pos house) f).
Proof.
  split; [constructor|split].
  - apply C30_house_conforming.
  - constructor.
    + apply (nodupb_sound Nat.eqb Nat.eqb_refl). vm_compute. reflexivity.
    + intros f v Hf Hv. cbn in Hf. or_destruct Hf; try contradiction; subst f; cbn in Hv |- *; intuition.
    + intros v Hv. cbn in Hv |- *. intuition lia.
    + intros f Hf. cbn in Hf |- *. or_destruct Hf; try contradiction; subst f; cbn; lia.
    + intros e He. cbn in He |- *. or_destruct He; try contradiction; subst e; cbn; lia.
  - intros v Hv. cbn in Hv. or_destruct Hv; try contradiction; subst v; vm_compute; auto.
  - intros e He. cbn in He. or_destruct He; try contradiction; subst e; reflexivity.
  - apply C30_house_conforming.
  - intros f Hf. cbn in Hf. or_destruct Hf; try contradiction; subst f; vm_compute; auto.
Qed.

(* As stated C31 is FALSE: the edge lists keep the quadtree scale of 10000, so
   edges with a midpoint outside of [-5000,5000]^2 are not removed.  The big
   triangle has three boundary edges, its refinement nine instead of six, three
   of which still span two of the others. *)
Definition big_tri : mesh :=
  MH (ptl [V2 0 0; V2 20000 0; V2 0 20000]) (fun _ => 0%N) [0;1;2]%nat
     [] [FA 3 (Tri3 0 1 2) 1 false]
     [] [fresh_edge 4 0 1 1; fresh_edge 5 1 2 1; fresh_edge 6 2 0 1]
     (fun _ _ => None) 7 200000000 1 42000.
Theorem C31_refuted : exists c m, conforming c /\ addressed c /\ no_twins c /\
  (forall v, In v (mh_verts c) -> in_square (mh_scale c) (mh_pos c v) = true) /\
  refine c = Ok (m, true) /\ length (mh_bdry m) <> (2 * length (mh_bdry c))%nat /\ ~ conforming m.
Proof.
  exists big_tri. destruct (refine big_tri) as [[m b]| |] eqn:E; [|vm_compute in E; discriminate|vm_compute in E; discriminate].
  exists m. split; [apply conformingb_sound; vm_compute; reflexivity|]. split.
  { constructor.
    + apply (nodupb_sound Nat.eqb Nat.eqb_refl). vm_compute. reflexivity.
    + intros f v Hf Hv. cbn in Hf. or_destruct Hf; try contradiction; subst f; cbn in Hv |- *; intuition.
    + intros v Hv. cbn in Hv |- *. intuition lia.
    + intros f Hf. cbn in Hf |- *. or_destruct Hf; try contradiction; subst f; cbn; lia.
    + intros e He. cbn in He |- *. or_destruct He; try contradiction; subst e; cbn; lia. }
  split; [intros e He; cbn in He; or_destruct He; try contradiction; subst e; reflexivity|].
  split; [intros v Hv; cbn in Hv; or_destruct Hv; try contradiction; subst v; reflexivity|].
  assert (B : b = true) by (vm_compute in E; congruence). subst b. split; [reflexivity|].
  assert (L : length (mh_bdry m) = 9%nat) by (vm_compute in E; injection E as <-; reflexivity).
  split; [rewrite L; discriminate|]. intros C.
  assert (I : In (fresh_edge 4 0 1 1) (mh_bdry m)).
  { vm_compute in E. injection E as <-. left. reflexivity. }
  destruct (cf_bdry _ C _ I) as [S _]. vm_compute in E. injection E as <-. vm_compute in S.
  or_destruct S; try contradiction; discriminate.
Qed.

Print Assumptions C31_refined_closed.
Print Assumptions C31_counts_partial.
Print Assumptions C31_preserved_partial.
Print Assumptions C31_area_partial.
Print Assumptions C31_boundary_partial.
Print Assumptions C31_interior_unmarked_partial.
Print Assumptions C31_convex_partial.
Print Assumptions C31_interface.
Print Assumptions C31_repeated_partial.
Print Assumptions C31_refuted.
