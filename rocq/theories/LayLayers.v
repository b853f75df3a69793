(* Several quad layers whose preparation leaves the front as it is: proofs for LayProps. *)
From Coq Require Import Lia Lqa Permutation.
From Verif Require Import Base Chain GeomModel GeomSpec FacetModel UtilModel BdryModel BdrySpec
  AdvanceModel AdvanceSpec AdvanceProofs AdvanceInv AdvanceMore AdvanceGeom MeshModel WindSpec QLayerModel QLayerSpec QLayerProofs QTileSpec QTileProofs QTileSetup
  ClearSpec MixSpec MixRun ContModel ContSpec LayModel LaySpec LayRun LayNeat LayWay LayGap.
Open Scope Q_scope.

Section Layers.
Variable norm : vec2 -> Q.
Variable sin_half : vec2 -> vec2 -> Q.
Variable cos_ang : vec2 -> vec2 -> Q.
Variable sharp : vec2 -> vec2 -> bool.
Variable hrho : vec2 -> Q.
Variable scale : Q.
Variable qual : mstate -> tri -> Q.
Variable query : mstate -> vec2 -> Q -> list nat.
Notation steady_layer := (steady_layer norm sin_half cos_ang sharp hrho scale).
Notation sq := (QTileProofs.sq scale).

Section Plain.
Variable tri_ok : mstate -> tri -> bool.
Variable vtx_ok : mstate -> nat -> bool.
Notation create_layer := (create_layer norm scale tri_ok vtx_ok qual query).
Notation close_gaps := (close_gaps sharp scale tri_ok vtx_ok).
Notation generate_layer := (generate_layer norm sin_half cos_ang sharp hrho scale tri_ok vtx_ok qual query).
Notation layers := (layers norm sin_half cos_ang sharp hrho scale tri_ok vtx_ok qual query).
Notation steady_layers := (steady_layers norm sin_half cos_ang sharp hrho scale tri_ok vtx_ok qual query).

(* a layer is create_layer and close_gaps on edges of the front *)
Lemma generate_parts st height xs xe st' o : base_ok (q_m st) -> steady_layer st height xs xe -> generate_layer st height xs xe = Ok (st', o) ->
  (st' = st /\ o = None) \/
  exists cs m cs' closed, (forall x, In x cs -> In (lc_e x) (ms_front (q_m st)) /\ lc_v1 x = None /\ lc_v2 x = None) /\ linked_up (map lc_e cs) /\
    create_layer (q_m st) cs = Ok (m, cs') /\ (match cs' with [] => Ok m | x :: r => close_gaps m x r end) = Ok (q_m st') /\
    q_bdry st' = q_bdry st /\ (xs = xe -> closed = true) /\ o = next_ends (q_m st') closed cs'.
Proof.
  intros B SY H. pose proof B as [W _]. unfold QLayerModel.generate_layer in H.
  destruct (find_ends sharp (q_m st) xs xe) as [[[[e f] closed]|]| |] eqn:FE; try discriminate; cbn [obind] in H.
  2:{ injection H as <- <-. left. auto. }
  right. destruct (find_ends_in norm sin_half cos_ang sharp hrho scale vtx_ok qual query _ _ _ _ _ _ FE) as (Ie & If & Cl).
  destruct (base_edges _ _ e f) as [bs| |] eqn:BE; try discriminate. cbn [obind] in H.
  destruct (base_shape _ f (wf_eid _ W) If _ _ _ BE Ie) as ((r0 & F0) & (r1 & F1) & INC & LU & _).
  specialize (SY e f closed bs). cbv zeta in H.
  set (cs0 := smooth_heights hrho (ms_pos (q_m st)) (map (new_cell norm (ms_pos (q_m st)) height) bs)) in *.
  assert (SG : map QTileSetup.sig cs0 = map (fun b => (b, None, None)) bs) by (unfold cs0; rewrite sig_heights, map_map; reflexivity).
  assert (LE : map lc_e cs0 = bs).
  { transitivity (map (fun x => fst (fst x)) (map QTileSetup.sig cs0)); [rewrite map_map; reflexivity|]. rewrite SG, map_map. cbn. apply map_id. }
  clearbody cs0.
  destruct (setup_projection _ _ _ _ _ st closed e f cs0) as [[st1 cs1]| |] eqn:SP; try discriminate. cbn [obind fst snd] in H.
  assert (X := SY _ FE BE eq_refl). cbn [fst] in X. subst st1.
  destruct (setup_spec norm sin_half cos_ang sharp scale st closed e f cs0 st cs1 B If) as (S1 & _); [exists r0; congruence|exists r1; congruence|exact SP|].
  destruct (create_layer (q_m st) cs1) as [[m2 cs2]| |] eqn:CL; try discriminate. cbn [obind fst snd] in H.
  unfold finish_layer in H. cbn [on_mesh q_m q_bdry q_in] in H.
  destruct (match cs2 with [] => Ok m2 | x :: r => close_gaps m2 x r end) as [m3| |] eqn:CG; try discriminate. cbn [obind q_m] in H. injection H as <- <-.
  exists cs1, m2, cs2, closed. split.
  { intros x Hx. assert (X : In (QTileSetup.sig x) (map (fun b => (b, None, None)) bs)) by (rewrite <- SG, <- S1; apply in_map; exact Hx).
    apply in_map_iff in X. destruct X as (b & Eb & Hb). unfold QTileSetup.sig in Eb. injection Eb as E1 E2 E3. rewrite <- E1. auto. }
  split.
  { assert (E : map lc_e cs1 = bs).
    { rewrite <- LE. transitivity (map (fun x => fst (fst x)) (map QTileSetup.sig cs1)); [rewrite map_map; reflexivity|]. rewrite S1, map_map. reflexivity. }
    rewrite E. exact LU. }
  cbn [q_m q_bdry]. auto 10.
Qed.

Hypothesis tri_positive : forall s t, tri_ok s t = true -> 0 < det (ms_pos s (tr_v1 t)) (ms_pos s (tr_v2 t)) (ms_pos s (tr_v3 t)).

Lemma fresh_cells m cs : base_ok m -> (forall x, In x cs -> In (lc_e x) (ms_front m) /\ lc_v1 x = None /\ lc_v2 x = None) ->
  forall x, In x cs -> kept_edge m (lc_e x) /\ cell_ok m x.
Proof.
  intros [W _] H x J. destruct (H x J) as (I & E1 & E2). destruct (wf_ev _ W _ I) as (V1 & V2 & _). split.
  - split; [exact (wf_elt _ W _ I)|]. intros f Jf E. exact (id_inj _ _ _ (wf_eid _ W) Jf I E).
  - unfold cell_ok. rewrite E1, E2. cbn. repeat split; assumption.
Qed.
Lemma generate_lay st height xs xe st' o : base_ok (q_m st) -> steady_layer st height xs xe -> generate_layer st height xs xe = Ok (st', o) ->
  lay (q_m st) (q_m st') /\ q_bdry st' = q_bdry st.
Proof.
  intros B SY H. destruct (generate_parts _ _ _ _ _ _ B SY H) as [[-> _]|(cs & m & cs' & cl & HC & _ & CL & CG & BD & _)]; [split; [apply lay_refl; exact B|reflexivity]|].
  split; [|exact BD]. destruct (layer_lay scale tri_ok vtx_ok qual norm query (q_m st) cs _ _ _ (lay_refl _ B) (fresh_cells _ _ B HC) CL) as (L1 & _ & C1).
  destruct cs' as [|x r]; [injection CG as <-; exact L1|].
  exact (lay_trans _ _ _ L1 (gaps_lay scale tri_ok vtx_ok tri_positive sharp r m x _ (ly_ok _ _ L1) C1 CG)).
Qed.
Lemma layers_lay n : forall st height rate xs xe st' ok hs, base_ok (q_m st) -> steady_layers n st height rate xs xe -> layers n st height rate xs xe = Ok (st', ok, hs) ->
  lay (q_m st) (q_m st') /\ q_bdry st' = q_bdry st.
Proof.
  induction n as [|n IH]; intros st height rate xs xe st' ok hs B SY H; cbn [QLayerModel.layers] in H.
  - injection H as <- _ _. split; [apply lay_refl; exact B|reflexivity].
  - destruct SY as [SY SN]. destruct (generate_layer st height xs xe) as [[st1 o]| |] eqn:G; try discriminate. cbn [obind fst snd] in H.
    destruct (generate_lay _ _ _ _ _ _ B SY G) as [L1 B1]. destruct o as [[a b]|]; [|injection H as <- _ _; auto].
    destruct (layers n st1 (height * rate) rate a b) as [[[st2 ok2] hs2]| |] eqn:L; try discriminate. cbn [obind fst snd] in H. injection H as <- _ _.
    destruct (IH _ _ _ _ _ _ _ _ (ly_ok _ _ L1) (SN _ _ _ eq_refl) L) as [L2 B2]. split; [exact (lay_trans _ _ _ L1 L2)|congruence].
Qed.

Variable c : Z.
Lemma generate_neat st height xs xe st' o : neat scale c (q_m st) -> steady_layer st height xs xe -> generate_layer st height xs xe = Ok (st', o) ->
  sq (q_m st') -> neat scale c (q_m st').
Proof.
  intros N SY H SQ. pose proof (neat_ok _ _ _ N) as B.
  destruct (generate_parts _ _ _ _ _ _ B SY H) as [[-> _]|(cs & m & cs' & cl & HC & _ & CL & CG & BD & _)]; [exact N|].
  pose proof (fresh_cells _ _ B HC) as FC.
  destruct (layer_lay scale tri_ok vtx_ok qual norm query (q_m st) cs _ _ _ (lay_refl _ B) FC CL) as (L1 & _ & C1).
  assert (HN : forall x, In x cs -> kept_edge (q_m st) (lc_e x) /\ cell_ok (q_m st) x /\ cell_in (q_m st) x).
  { intros x J. destruct (FC x J) as [X1 X2]. split; [exact X1|]. split; [exact X2|]. destruct (HC x J) as (I & E1 & E2). destruct (nt_front _ _ _ N _ I) as [Y1 Y2].
    unfold cell_in. rewrite E1, E2. repeat split; try assumption; discriminate. }
  assert (SQ1 : sq m).
  { destruct cs' as [|x r]; [injection CG as ->; exact SQ|]. exact (lay_sq _ _ _ (gaps_lay scale tri_ok vtx_ok tri_positive sharp r m x _ (ly_ok _ _ L1) C1 CG) SQ). }
  destruct (layer_neat scale tri_ok vtx_ok qual c norm query (q_m st) cs _ _ _ (lay_refl _ B) N HN CL SQ1) as [N1 C2].
  destruct cs' as [|x r]; [injection CG as <-; exact N1|].
  apply (gaps_neat scale tri_ok vtx_ok c tri_positive sharp r m x _ N1); auto.
Qed.
Lemma layers_neat n : forall st height rate xs xe st' ok hs, neat scale c (q_m st) -> steady_layers n st height rate xs xe -> layers n st height rate xs xe = Ok (st', ok, hs) ->
  sq (q_m st') -> neat scale c (q_m st').
Proof.
  induction n as [|n IH]; intros st height rate xs xe st' ok hs N SY H SQ; cbn [QLayerModel.layers] in H.
  - injection H as <- _ _. exact N.
  - destruct SY as [SY SN]. destruct (generate_layer st height xs xe) as [[st1 o]| |] eqn:G; try discriminate. cbn [obind fst snd] in H.
    destruct (generate_lay _ _ _ _ _ _ (neat_ok _ _ _ N) SY G) as [L1 _]. destruct o as [[a b]|].
    + destruct (layers n st1 (height * rate) rate a b) as [[[st2 ok2] hs2]| |] eqn:L; try discriminate. cbn [obind fst snd] in H. injection H as <- _ _.
      destruct (layers_lay n _ _ _ _ _ _ _ _ (ly_ok _ _ L1) (SN _ _ _ eq_refl) L) as [L2 _].
      exact (IH _ _ _ _ _ _ _ _ (generate_neat _ _ _ _ _ _ N SY G (lay_sq _ _ _ L2 SQ)) (SN _ _ _ eq_refl) L SQ).
    + injection H as <- _ _. exact (generate_neat _ _ _ _ _ _ N SY G SQ).
Qed.

(* a layer that starts where it ends is not adjusted *)
Lemma closed_steady st height xs : steady_layer st height xs xs.
Proof.
  intros e f closed bs y FE BE SP.
  destruct (find_ends_in norm sin_half cos_ang sharp hrho scale vtx_ok qual query _ _ _ _ _ _ FE) as (_ & _ & Cl).
  rewrite (Cl eq_refl) in SP. unfold setup_projection in SP. injection SP as <-. reflexivity.
Qed.
Lemma closed_layers n : forall st height rate xs, base_ok (q_m st) -> steady_layers n st height rate xs xs.
Proof.
  induction n as [|n IH]; intros st height rate xs B; cbn [LaySpec.steady_layers]; [exact I|]. split; [apply closed_steady|].
  intros st1 a b G. pose proof (closed_steady st height xs) as SY. destruct (generate_lay _ _ _ _ _ _ B SY G) as [L1 _].
  destruct (generate_parts _ _ _ _ _ _ B SY G) as [[_ X]|(cs & m & cs' & cl & _ & _ & _ & _ & _ & Cl & E)]; [discriminate|].
  rewrite (Cl eq_refl) in E. symmetry in E. apply next_ends_closed in E. subst b. apply IH. apply L1.
Qed.
End Plain.

(* with the tests of the code *)
Section Way.
Variable rho : vec2 -> Q.
Variable shape_ok : vec2 -> vec2 -> vec2 -> bool.
Variable dom : list (vec2 * vec2).
Variable inside : vec2 -> bool.
Notation valid := (triangle_is_valid rho shape_ok dom).
Notation vvalid := (vertex_is_valid rho inside).
Notation generate_layer := (generate_layer norm sin_half cos_ang sharp hrho scale valid vvalid qual query).
Notation layers := (layers norm sin_half cos_ang sharp hrho scale valid vvalid qual query).
Notation steady_layers := (steady_layers norm sin_half cos_ang sharp hrho scale valid vvalid qual query).
Variable pos : nat -> vec2.
Variable verts : list nat.
Variable gen : list tri.
Variable f0 : list bedge.
Variable c : Z.
Hypothesis EX : exact_at pos verts.
Hypothesis FO : found_at (near rho) pos f0 gen.
Hypothesis B0 : forall e, In e f0 -> interior e = false /\ ghost e = false.
Hypothesis S0 : simple_front pos f0.
Notation partway := (partway scale pos gen f0 c).
Notation lasts_st := (lasts_st pos verts gen).
Notation TP := (valid_positive rho shape_ok dom).

Lemma generate_way st height xs xe st' o : partway (q_m st) -> steady_layer st height xs xe -> generate_layer st height xs xe = Ok (st', o) ->
  sq (q_m st') -> lasts_st (q_m st') -> partway (q_m st') /\ after (q_m st) (q_m st').
Proof.
  intros P SY H SQ LT. pose proof (partway_ok _ _ _ _ _ _ P) as B.
  destruct (generate_parts valid vvalid _ _ _ _ _ _ B SY H) as [[-> _]|(cs & m & cs' & cl & HC & LU & CL & CG & BD & _)]; [split; [exact P|apply after_refl]|].
  pose proof (fresh_cells _ _ B HC) as FC.
  destruct (layer_lay scale valid vvalid qual norm query (q_m st) cs _ _ _ (lay_refl _ B) FC CL) as (L1 & ME & C1).
  assert (HN : forall x, In x cs -> kept_edge (q_m st) (lc_e x) /\ cell_ok (q_m st) x /\ cell_sides (q_m st) x).
  { intros x J. destruct (FC x J) as [X1 X2]. split; [exact X1|]. split; [exact X2|]. destruct (HC x J) as (I & E1 & E2).
    unfold cell_sides. rewrite E1, E2. split; discriminate. }
  assert (L2 : lay m (q_m st')).
  { destruct cs' as [|x r]; [injection CG as <-; apply lay_refl; apply L1|]. exact (gaps_lay scale valid vvalid TP sharp r m x _ (ly_ok _ _ L1) C1 CG). }
  pose proof (lasts_back _ _ _ _ _ (ly_ok _ _ L1) L2 LT) as LT1. pose proof (lay_sq _ _ _ L2 SQ) as SQ1.
  destruct (layer_way rho shape_ok dom scale inside qual pos verts gen f0 c EX FO B0 S0 norm query (q_m st) cs _ _ _ (lay_refl _ B) P HN CL SQ1 LT1) as (P1 & A1 & C2).
  destruct cs' as [|x r]; [injection CG as <-; auto|].
  destruct (gaps_way rho shape_ok dom scale inside qual pos verts gen f0 c EX FO B0 S0 sharp r m x (q_m st') P1) as [P2 A2]; auto.
  - rewrite ME. exact LU.
  - split; [exact P2|exact (after_trans _ _ _ A1 A2)].
Qed.
Lemma layers_way n : forall st height rate xs xe st' ok hs, partway (q_m st) -> steady_layers n st height rate xs xe -> layers n st height rate xs xe = Ok (st', ok, hs) ->
  sq (q_m st') -> lasts_st (q_m st') -> partway (q_m st') /\ after (q_m st) (q_m st').
Proof.
  induction n as [|n IH]; intros st height rate xs xe st' ok hs P SY H SQ LT; cbn [QLayerModel.layers] in H.
  - injection H as <- _ _. split; [exact P|apply after_refl].
  - destruct SY as [SY SN]. destruct (generate_layer st height xs xe) as [[st1 o]| |] eqn:G; try discriminate. cbn [obind fst snd] in H.
    destruct (generate_lay valid vvalid TP _ _ _ _ _ _ (partway_ok _ _ _ _ _ _ P) SY G) as [L1 _]. destruct o as [[a b]|].
    + destruct (layers n st1 (height * rate) rate a b) as [[[st2 ok2] hs2]| |] eqn:L; try discriminate. cbn [obind fst snd] in H. injection H as <- _ _.
      destruct (layers_lay valid vvalid TP n _ _ _ _ _ _ _ _ (ly_ok _ _ L1) (SN _ _ _ eq_refl) L) as [L2 _].
      destruct (generate_way _ _ _ _ _ _ P SY G (lay_sq _ _ _ L2 SQ) (lasts_back _ _ _ _ _ (ly_ok _ _ L1) L2 LT)) as [P1 A1].
      destruct (IH _ _ _ _ _ _ _ _ P1 (SN _ _ _ eq_refl) L SQ LT) as [P2 A2]. split; [exact P2|exact (after_trans _ _ _ A1 A2)].
    + injection H as <- _ _. exact (generate_way _ _ _ _ _ _ P SY G SQ LT).
Qed.
End Way.
End Layers.
