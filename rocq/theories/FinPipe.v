(* The steps after the triangulation on meshes of triangles: proofs for FinProps. *)
From Coq Require Import Lia Permutation Lqa.
From Verif Require Import Base GeomModel GeomSpec GeomProofs FacetModel UtilModel AdvanceModel Chain AdvanceProofs MeshModel MeshSpec MeshProofs
  QRefineModel QRefineSpec QRefineShape QRefineConf QRefineProps MeshProps CleanSpec CleanModel MergeProofs CleanProofs CleanPass CleanScan DegenProofs
  DegenPass CleanProps T2QModel T2QSpec T2QProofs T2QProps.
Open Scope Q_scope.

(* whatever the pointers were before: both are set anew *)
Lemma setup_sides_tris m : sound m -> mh_quads m = [] -> tris_centred m ->
  well_sided (setup_facet_connectivity m) /\ exact_sides (setup_facet_connectivity m).
Proof.
  intros S NQ T. assert (C := sd_conf _ S).
  assert (FT : forall f, In f (facets m) -> In f (mh_tris m)) by (intros f I; unfold facets in I; rewrite NQ in I; exact I).
  assert (CASES : forall x, In x (mh_intr m) -> exists f g, In f (facets m) /\ In g (facets m) /\ In (ed_1 x, ed_2 x) (sides f) /\ In (ed_2 x, ed_1 x) (sides g) /\
    ed_l (connect_intr m x) = Some (fa_id f) /\ ed_r (connect_intr m x) = Some (fa_id g)).
  { intros x Hx. destruct (cf_intr _ C x Hx) as [H1 H2]. apply all_sides_in in H1, H2. destruct H1 as [f [Hf Pf]], H2 as [g [Hg Pg]].
    destruct (in_side_at _ _ Pf) as [i Si]. destruct (in_side_at _ _ Pg) as [j Sj]. exists f, g. split; [exact Hf|]. split; [exact Hg|].
    split; [exact Pf|]. split; [exact Pg|]. unfold connect_intr.
    destruct (T f (FT f Hf) _ _ Pf) as [Lf _]. destruct (T g (FT g Hg) _ _ Pg) as [_ Lg].
    destruct (sharing_interior m _ _ f g i j C Hf Hg Si Sj) as [E|E]; rewrite E; unfold set_side; rewrite ?Lf, ?Lg; cbn; rewrite ?Lf, ?Lg; cbn; auto. }
  split.
  - intros e He. cbn [setup_facet_connectivity mh_intr] in He. apply in_map_iff in He. destruct He as [x [<- Hx]].
    assert (B := bare_fields _ _ (connect_intr_bare m x)). destruct B as [_ [E1 [E2 _]]]. rewrite E1, E2.
    destruct (CASES x Hx) as [f [g [Hf [Hg [Sf [Sg [-> ->]]]]]]]. split; intros i Ei; injection Ei as <-; [exists f|exists g]; auto.
  - intros e f g He Hf Hg Sf Sg. cbn [setup_facet_connectivity mh_intr mh_tris] in He, Hf, Hg. apply in_map_iff in He. destruct He as [x [<- Hx]].
    assert (B := bare_fields _ _ (connect_intr_bare m x)). destruct B as [_ [E1 [E2 _]]]. rewrite E1, E2 in Sf, Sg.
    destruct (CASES x Hx) as [f0 [g0 [Hf0 [Hg0 [Sf0 [Sg0 [-> ->]]]]]]].
    assert (f = f0) by (apply (side_owner m f f0 (ed_1 x, ed_2 x) C); [apply in_or_app; auto|exact Hf0|exact Sf|exact Sf0]). subst f0.
    assert (g = g0) by (apply (side_owner m g g0 (ed_2 x, ed_1 x) C); [apply in_or_app; auto|exact Hg0|exact Sg|exact Sg0]). subst g0.
    auto.
Qed.

Lemma tri2quad_tris own m : sound m -> mh_quads m = [] -> tris_centred m ->
  exists m', tri2quad own m = Ok m' /\ keeps m m' /\ (one_colour m -> one_colour m').
Proof.
  intros S NQ T. destruct (setup_sides_tris m S NQ T) as [W0 X0]. assert (S0 := setup_sound m S).
  destruct (merge_triangles_ok own _ S0 W0 X0) as [m1 [ds [E [SW AP]]]].
  assert (K1 := keeps_trans _ _ _ (setup_keeps m S) (sw_keeps _ _ _ _ SW)).
  destruct (pass_kept true true m1 (kp_sound _ _ K1) (or_introl eq_refl)) as [m2 [E2 [K2 [L2 [O2 _]]]]].
  destruct (pass_kept false false m2 (kp_sound _ _ K2) (or_intror L2)) as [m3 [E3 [K3 [_ [O3 _]]]]].
  assert (K := keeps_trans _ _ _ (keeps_trans _ _ _ K1 K2) K3).
  exists m3. unfold tri2quad. rewrite E. cbn [obind]. rewrite pass_quads, E2. cbn [obind]. rewrite pass_tris. split; [exact E3|].
  split; [exact K|]. intros O. assert (O0 : one_colour (setup_facet_connectivity m)) by exact O.
  exact (O3 (O2 (swapped_one_colour _ _ _ _ SW O0))).
Qed.

(* without quads the first two passes of the clean-up change no element *)
Lemma pass_none quad4 m : mh_quads m = [] ->
  pass quad4 (setup_facet_connectivity m) = Ok (setup_facet_connectivity (setup_facet_connectivity m)).
Proof.
  intros NQ. unfold pass. change (mh_quads (setup_facet_connectivity m)) with (mh_quads m). rewrite NQ. cbn [scan_doubles obind].
  unfold batch. cbn [ofold obind flat_map map]. f_equal. f_equal.
  set (s := setup_facet_connectivity m). destruct s as [pos prop verts quads tris intr bdry nbr next area col scale] eqn:Q. unfold drop. cbn [mh_pos mh_prop mh_verts mh_quads mh_tris mh_intr mh_bdry mh_nbr mh_next mh_area mh_col mh_scale].
  f_equal; try (destruct quad4; cbn [q_ids t_ids flat_map map]; unfold remove_facets, remove_edges; apply filter_all; reflexivity).
Qed.
Lemma cleanup_tris m c : sound m -> fine m -> mh_quads m = [] -> (forall f, In f (mh_tris m) -> c <= fa_area (mh_pos m) f) ->
  exists m', cleanup m = Ok m' /\ keeps m m' /\ mh_quads m' = [] /\ (forall f, In f (mh_tris m') -> c <= fa_area (mh_pos m') f) /\
    (forall k, covered_by k m' == covered_by k m) /\
    (forall v, In v (mh_verts m') <-> In v (mh_verts m) /\ ~ (three_ring m v /\ has_property (mh_prop m v) v_is_fixed = false)).
Proof.
  intros S F NQ A. unfold cleanup. rewrite pass_quads, pass_none by exact NQ. cbn [obind]. rewrite pass_tris, pass_none by exact NQ. cbn [obind].
  set (s := setup_facet_connectivity (setup_facet_connectivity (setup_facet_connectivity (setup_facet_connectivity m)))).
  assert (K : keeps m s).
  { unfold s. assert (KK := fun x (Sx : sound x) => setup_keeps x Sx). assert (K1 := KK _ S). assert (K2 := keeps_trans _ _ _ K1 (KK _ (kp_sound _ _ K1))).
    assert (K3 := keeps_trans _ _ _ K2 (KK _ (kp_sound _ _ K2))). exact (keeps_trans _ _ _ K3 (KK _ (kp_sound _ _ K3))). }
  destruct F as [Z [NC _]]. destruct (merge_degenerates_ok s (kp_sound _ _ K) Z NC) as [m' [E [K' [_ [_ [V [CB [MQ GR]]]]]]]].
  exists m'. split; [exact E|]. split; [exact (keeps_trans _ _ _ K K')|]. split; [rewrite MQ; exact NQ|]. split; [apply GR; exact A|]. split; [exact CB|].
  intros v. rewrite V. change (mh_verts s) with (mh_verts m). split; intros [H1 H2]; (split; [exact H1|]).
  - intros [R FX]. assert (X := ring_degenerate s v (kp_sound _ _ K) R FX). congruence.
  - destruct (degenerate s v) eqn:D; [|reflexivity]. exfalso. apply H2. exact (degenerate_ring s v (kp_sound _ _ K) D).
Qed.
