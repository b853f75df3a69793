(* Quad layers as a stage of a mesh, and meshes built from several stages: proofs for
   LayProps. *)
From Coq Require Import Lqa Lia Permutation.
From Verif Require Import Base Chain GeomModel GeomSpec GeomProofs FacetModel UtilModel BdryModel BdrySpec
  AdvanceModel AdvanceSpec AdvanceProofs AdvanceInv AdvanceMore AdvanceGeom MeshModel MeshSpec MeshProofs QRefineModel QRefineSpec WindSpec WindProofs ClearSpec ClearRun
  ClearEnd ClearProps CleanModel CleanSpec T2QSpec FinModel FinMesh QLayerModel QTileSpec QTileProofs MixSpec MixShape MixRun ContModel ContSpec OpenConn ContProofs ContMesh ContStage ContEnd ContRun
  LayModel LaySpec LayRun LayNeat LayWay LayGap LayLayers.
Open Scope Q_scope.

(* ---- the boundary edges and the marks of the vertices ---- *)
Lemma back_same_from l : forall k l0, (forall i, nth_error l i = nth_error l0 (k + i)) ->
  map (fun b => match nth_error l0 (be_id b) with Some e => e | None => ED (be_id b) (be_v1 b) (be_v2 b) (be_col b) (be_prop b) None None None end) (front_from k l) = l.
Proof.
  induction l as [|e l IH]; intros k l0 H; [reflexivity|]. cbn [front_from map be_id]. f_equal.
  - specialize (H 0%nat). rewrite Nat.add_0_r in H. rewrite <- H. reflexivity.
  - apply IH. intros i. specialize (H (S i)). rewrite Nat.add_succ_r in H. exact H.
Qed.
Lemma back_same m : bdry_back m (front_from 0 (mh_bdry m)) = mh_bdry m.
Proof. apply back_same_from. reflexivity. Qed.
Lemma layer_back_same m st' : q_bdry st' = front_from 0 (mh_bdry m) -> layer_back m st' = mark (q_in st') (put_back m (q_m st')).
Proof. intros E. unfold layer_back. rewrite E, back_same. unfold with_bdry. destruct m; reflexivity. Qed.
Lemma mark_laid g m : laid m -> laid (mark g m).
Proof. intros L. constructor; apply L. Qed.
Lemma mark_grows g m : grows m (mark g m).
Proof. constructor; try reflexivity; auto; apply incl_refl. Qed.
Lemma setup_mark g m : setup_facet_connectivity (mark g m) = mark g (setup_facet_connectivity m).
Proof. destruct m. reflexivity. Qed.
Lemma partway_same scale pos gen f0 c x y : ms_pos y = ms_pos x -> ms_verts y = ms_verts x -> ms_nv y = ms_nv x -> ms_front y = ms_front x -> ms_ne y = ms_ne x -> ms_intr y = ms_intr x ->
  ms_tris y = ms_tris x -> ms_nt y = ms_nt x -> ms_quads y = ms_quads x -> ms_area y = ms_area x -> ms_col y = ms_col x -> partway scale pos gen f0 c x -> partway scale pos gen f0 c y.
Proof.
  destruct x as [p1 o1 v1 n1 f1 e1 i1 t1 k1 q1 a1 c1], y as [p2 o2 v2 n2 f2 e2 i2 t2 k2 q2 a2 c2]. cbn [ms_pos ms_verts ms_nv ms_front ms_ne ms_intr ms_tris ms_nt ms_quads ms_area ms_col].
  intros -> -> -> -> -> -> -> -> -> -> -> P. destruct P as [N P2 P3 P4 P5 P6 P7 P8]. destruct N as [W N2 N3 N4 N5 N6 N7 N8 N9]. destruct W as [W1 W2 W3 W4 W5 W6 W7 W8].
  constructor; [|assumption ..]. constructor; [|assumption ..]. constructor; assumption.
Qed.
Lemma opened_mark g scale pos gen f0 c m : partway scale pos gen f0 c (opened m) -> partway scale pos gen f0 c (opened (mark g m)).
Proof. intros P. destruct m as [a1 a2 a3 a4 a5 a6 a7 a8 a9 b1 b2 b3]. eapply partway_same; [..|exact P]; reflexivity. Qed.
Lemma mark_midway g pos gen f0 m : midway pos gen f0 m -> midway pos gen f0 (mark g m).
Proof.
  intros M. constructor.
  - exact (mark_laid g m (mw_laid _ _ _ _ M)).
  - exact (mw_verts _ _ _ _ M).
  - rewrite setup_mark. exact (opened_mark g _ _ _ _ _ _ (mw_way _ _ _ _ M)).
  - exact (mw_bdry _ _ _ _ M).
  - assert (PT := mw_point _ _ _ _ M). constructor; apply PT.
  - exact (mw_new _ _ _ _ M).
  - exact (mw_eids _ _ _ _ M).
Qed.

(* ---- one stage ---- *)
Section Stage.
Variable rho : vec2 -> Q.
Variable a : layering.
Variable m : mesh.
Notation m1 := (setup_facet_connectivity m).
Variable st' : qstate.
Variable ok : bool.
Variable hs : list Q.
Hypothesis LO : layering_ok rho a.
Hypothesis SY : steady a m1.
Hypothesis RL : run_layers a m1 = Ok (st', ok, hs).
Hypothesis SE : settled (mh_scale m) (q_m st').
Hypothesis L : laid m.
Hypothesis NV : mh_verts m <> [].

Lemma lst_positive s t : la_ok a s t = true -> 0 < det (ms_pos s (tr_v1 t)) (ms_pos s (tr_v2 t)) (ms_pos s (tr_v3 t)).
Proof. destruct LO as [(so & dom & E) _]. rewrite E. apply valid_positive. Qed.
Lemma lst_sq : QTileProofs.sq (mh_scale m) (q_m st').
Proof. split; intros v J; apply (SE v J). Qed.
Lemma lst_lay : lay (opened m1) (q_m st') /\ q_bdry st' = front_from 0 (mh_bdry m1).
Proof.
  assert (N := opened_neat m1 (setup_laid m L)).
  exact (layers_lay (la_norm a) (la_sin a) (la_cos a) (la_sharp a) (la_rho a) (mh_scale m) (la_qual a) (la_query a) (la_ok a) (la_vok a) lst_positive (la_n a)
    (ready m1) (la_height a) (la_rate a) (la_start a) (la_end a) st' ok hs (neat_ok _ _ _ N) SY RL).
Qed.
Lemma lst_neat : neat (mh_scale m) (mh_col m) (q_m st').
Proof.
  exact (layers_neat (la_norm a) (la_sin a) (la_cos a) (la_sharp a) (la_rho a) (mh_scale m) (la_qual a) (la_query a) (la_ok a) (la_vok a) lst_positive (mh_col m) (la_n a)
    (ready m1) (la_height a) (la_rate a) (la_start a) (la_end a) st' ok hs (opened_neat m1 (setup_laid m L)) SY RL lst_sq).
Qed.
Lemma lst_back : layer_back m1 st' = mark (q_in st') (put_back m1 (q_m st')).
Proof. apply layer_back_same. apply lst_lay. Qed.
Lemma lst_weak : laid (layer_back m1 st') /\ mh_verts (layer_back m1 st') <> [] /\ grows m (layer_back m1 st').
Proof.
  rewrite lst_back. destruct lst_lay as [LY _]. assert (N := lst_neat). assert (L1 := setup_laid m L). assert (N1 := opened_neat m1 L1).
  assert (AV : forall v, In v (mh_verts m1) -> In v (ms_verts (q_m st'))) by exact (ly_verts _ _ LY).
  split; [apply mark_laid; exact (back_laid_any m1 (q_m st') L1 N AV (ly_ne _ _ LY) NV)|]. split.
  - cbn [mark put_back mh_verts]. destruct (mh_verts m) as [|v l] eqn:E; [congruence|]. intros Z.
    assert (X : In v (ms_verts (q_m st'))) by (apply AV; cbn [setup_facet_connectivity mh_verts]; rewrite E; left; reflexivity). rewrite Z in X. destruct X.
  - eapply grows_trans; [|apply mark_grows]. constructor.
    + intros v J. cbn [put_back mh_pos]. rewrite (ly_keeps _ _ LY v) by exact (wf_vlt _ (nt_wf _ _ _ N1) v J). reflexivity.
    + exact AV.
    + intros f J. apply (back_facets_any m1 (q_m st') L1 f); [| |exact J].
      * intros t I. assert (X : In t (generated (q_m st'))) by (apply (ly_tris _ _ LY); rewrite (neat_gen _ _ _ N1); exact I). rewrite (neat_gen _ _ _ N) in X. exact X.
      * exact (ly_quads _ _ LY).
    + exact (setup_bdry_sig m).
    + exact (nt_col _ _ _ N).
    + reflexivity.
Qed.

Variable pos : nat -> vec2.
Variable verts : list nat.
Variable ss : list shape.
Variable f0 : list bedge.
Hypothesis EX : exact_at pos verts.
Hypothesis FO : found_at (near rho) pos f0 (pieces ss).
Hypothesis B0 : forall e, In e f0 -> interior e = false /\ ghost e = false.
Hypothesis S0 : simple_front pos f0.
Hypothesis LA : lasts pos verts ss (layer_back m1 st').
Lemma lst_lasts : lasts_st pos verts (pieces ss) (q_m st').
Proof.
  assert (B := LA). rewrite lst_back in B. assert (N := lst_neat). constructor.
  - exact (ls_pos _ _ _ _ B).
  - exact (ls_verts _ _ _ _ B).
  - intros s t I J. assert (K : In s ss).
    { apply (ls_shapes _ _ _ _ B). change (facets (mark (q_in st') (put_back m1 (q_m st')))) with (facets (put_back m1 (q_m st'))). rewrite back_shapes. unfold elements in I.
      rewrite (neat_gen _ _ _ N) in I. apply in_app_or in I. apply in_or_app. tauto. }
    exists t. split; [|auto]. apply in_flat_map. exists s. split; assumption.
Qed.
Lemma lst_midway : midway pos (pieces ss) f0 m -> (forall f, In f (facets (layer_back m1 st')) -> centred (mh_pos (layer_back m1 st')) f) ->
  midway pos (pieces ss) f0 (layer_back m1 st') /\ partway (mh_scale m) pos (pieces ss) f0 (mh_col m) (q_m st').
Proof.
  intros MW C. destruct LO as [(so & dom & E1) (ins & E2)]. assert (SY' := SY). assert (RL' := RL). unfold steady in SY'. unfold run_layers in RL'. rewrite E1, E2 in SY', RL'.
  destruct (layers_way (la_norm a) (la_sin a) (la_cos a) (la_sharp a) (la_rho a) (mh_scale m) (la_qual a) (la_query a) rho so dom ins pos verts (pieces ss) f0 (mh_col m) EX FO B0 S0 (la_n a)
    (ready m1) (la_height a) (la_rate a) (la_start a) (la_end a) st' ok hs (mw_way _ _ _ _ MW) SY' RL' lst_sq lst_lasts) as [P A].
  rewrite lst_back in C |- *. split; [|exact P]. apply mark_midway.
  exact (proj1 (reopen_midway pos ss f0 B0 S0 m (q_m st') MW lst_neat A P C)).
Qed.
End Stage.

(* ---- any number of stages ---- *)
Lemma layer_bare m m1 st' : q_bdry st' = front_from 0 (mh_bdry m1) -> map bare (mh_bdry m1) = map bare (mh_bdry m) -> map bare (mh_bdry (layer_back m1 st')) = map bare (mh_bdry m).
Proof. intros E B. rewrite (layer_back_same m1 st' E). exact B. Qed.
Lemma built_weak rho m m' : laid m -> mh_verts m <> [] -> built rho m m' ->
  laid m' /\ mh_verts m' <> [] /\ grows m m' /\ map bare (mh_bdry m') = map bare (mh_bdry m).
Proof.
  intros L NV H. induction H as [|so dom ins qual os m1 m2 H IH O E|a m1 st' ok hs H IH LO SY RL SE].
  - split; [exact L|]. split; [exact NV|]. split; [apply grows_refl|reflexivity].
  - destruct IH as (L1 & V1 & G1 & B1). destruct (stage_weak _ _ _ _ _ _ L1 V1 O E) as (L2 & V2 & G2). destruct (stage_same _ _ _ _ _ _ L1 E) as [_ B2].
    split; [exact L2|]. split; [exact V2|]. split; [exact (grows_trans _ _ _ G1 G2)|]. rewrite B2; exact B1.
  - destruct IH as (L1 & V1 & G1 & B1). destruct (lst_weak rho a m1 st' ok hs LO SY RL SE L1 V1) as (L2 & V2 & G2).
    split; [exact L2|]. split; [exact V2|]. split; [exact (grows_trans _ _ _ G1 G2)|].
    apply layer_bare; [exact (proj2 (lst_lay rho a m1 st' ok hs LO SY RL L1))|]. rewrite setup_bare. exact B1.
Qed.
Lemma built_midway rho pos verts ss f0 m m' : exact_at pos verts -> found_at (near rho) pos f0 (pieces ss) ->
  (forall e, In e f0 -> interior e = false /\ ghost e = false) -> simple_front pos f0 ->
  midway pos (pieces ss) f0 m -> built rho m m' -> lasts pos verts ss m' -> (forall f, In f (facets m') -> centred (mh_pos m') f) -> midway pos (pieces ss) f0 m'.
Proof.
  intros EX FO B0 S0 MW H. induction H as [|so dom ins qual os m1 m2 H IH O E|a m1 st' ok hs H IH LO SY RL SE]; intros B C; [exact MW| |].
  - destruct (built_weak rho m m1 (mw_laid _ _ _ _ MW) (mw_verts _ _ _ _ MW) H) as (L1 & V1 & _).
    destruct (stage_weak _ _ _ _ _ _ L1 V1 O E) as (L2 & V2 & G2).
    assert (C1 : forall f, In f (facets m1) -> centred (mh_pos m1) f).
    { intros f J. apply (centred_ext (mh_pos m2)); [|apply C, (gr_facets _ _ G2), J]. intros v K. symmetry. apply (gr_pos _ _ G2). apply (ld_facets _ L1 f J), K. }
    assert (M1 := IH (lasts_grows _ _ _ _ _ G2 B) C1).
    exact (proj1 (stage_midway rho so dom ins qual pos verts ss f0 EX FO B0 S0 m1 os m2 M1 O E B C)).
  - destruct (built_weak rho m m1 (mw_laid _ _ _ _ MW) (mw_verts _ _ _ _ MW) H) as (L1 & V1 & _).
    destruct (lst_weak rho a m1 st' ok hs LO SY RL SE L1 V1) as (L2 & V2 & G2).
    assert (C1 : forall f, In f (facets m1) -> centred (mh_pos m1) f).
    { intros f J. apply (centred_ext (mh_pos (layer_back (setup_facet_connectivity m1) st'))); [|apply C, (gr_facets _ _ G2), J]. intros v K. symmetry. apply (gr_pos _ _ G2). apply (ld_facets _ L1 f J), K. }
    assert (M1 := IH (lasts_grows _ _ _ _ _ G2 B) C1).
    exact (proj1 (lst_midway rho a m1 st' ok hs LO SY RL SE L1 pos verts ss f0 EX FO B0 S0 B M1 C)).
Qed.

(* ---- from a blank mesh ---- *)
Section Blank.
Variable rho : vec2 -> Q.
Variables m0 m : mesh.
Hypothesis BL : blank m0.
Hypothesis S0 : simple_front (mh_pos m0) (outline 0 m0).
Hypothesis BU : built rho m0 m.
Hypothesis EX : exact_at (mh_pos m) (mh_verts m).
Hypothesis FO : found_at (near rho) (mh_pos m) (outline 0 m0) (pieces (map fa_sh (facets m))).
Hypothesis CE : forall f, In f (facets m) -> centred (mh_pos m) f.
Lemma bu_weak : laid m /\ mh_verts m <> [] /\ grows m0 m /\ map bare (mh_bdry m) = map bare (mh_bdry m0).
Proof. exact (built_weak rho m0 m (bl_laid _ BL) (blank_verts m0 BL) BU). Qed.
Lemma bu_simple : simple_front (mh_pos m) (outline 0 m0).
Proof.
  destruct bu_weak as (_ & _ & G & _). apply (simple_front_ext (mh_pos m0)); [|exact S0]. intros v J. apply (gr_pos _ _ G), (outline_front m0 BL), J.
Qed.
Lemma bu_mid : midway (mh_pos m) (pieces (map fa_sh (facets m))) (outline 0 m0) m.
Proof.
  apply (built_midway rho (mh_pos m) (mh_verts m) (map fa_sh (facets m)) (outline 0 m0) m0 m EX FO (outline_kind m0 BL) bu_simple).
  - exact (blank_midway _ _ _ BL bu_simple).
  - exact BU.
  - constructor; auto; apply incl_refl.
  - exact CE.
Qed.
Lemma bu_pinch : unpinched_mesh m0 -> unpinched_mesh m.
Proof.
  intros U e f I J E. destruct bu_weak as (_ & _ & _ & B).
  assert (K : forall x, In x (mh_bdry m) -> exists y, In y (mh_bdry m0) /\ bare y = bare x).
  { intros x X. apply (in_map bare) in X. rewrite B in X. apply in_map_iff in X. destruct X as (y & E1 & X). exists y. auto. }
  destruct (K e I) as (e0 & I0 & Ee). destruct (K f J) as (g0 & J0 & Ef).
  assert (X : e0 = g0) by (apply (U e0 g0 I0 J0); apply (f_equal ed_2) in Ee, Ef; cbn in Ee, Ef; congruence).
  subst g0. assert (ID : NoDup (map ed_id (mh_bdry m))).
  { assert (Y : map ed_id (mh_bdry m) = map ed_id (map bare (mh_bdry m))) by (rewrite map_map; reflexivity). rewrite Y, B, map_map. exact (bl_eids _ BL). }
  apply (nodup_map_in ed_id (mh_bdry m) e f ID I J). rewrite Ee in Ef. exact (f_equal ed_id Ef).
Qed.
Lemma bu_convex : (forall f, In f (mh_quads m) -> strictly_convex (mh_pos m) f) -> forall f, In f (facets m) -> strictly_convex (mh_pos m) f.
Proof.
  intros QC f J. destruct bu_weak as (L & _). assert (S := mid_shape _ _ _ _ bu_mid f J). unfold facets in J. apply in_app_or in J. destruct J as [J|J]; [exact (QC f J)|].
  destruct (ld_tris _ L f J) as (a & b & c & E). unfold strictly_convex. rewrite E in *. cbn [simple_shape] in S.
  assert (X : area2 (mh_pos m a) (mh_pos m b) (mh_pos m c) == det (mh_pos m a) (mh_pos m b) (mh_pos m c)) by (unfold area2, det; try unfold vcross, vsub; cbn [vx vy]; ring).
  rewrite X. exact S.
Qed.
End Blank.
