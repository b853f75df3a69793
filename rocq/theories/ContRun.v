(* Runs of several attempts: proofs for ContProps. *)
From Coq Require Import Lqa Lia Permutation.
From Verif Require Import Base Chain GeomModel GeomSpec GeomProofs FacetModel UtilModel BdryModel BdrySpec
  AdvanceModel AdvanceSpec AdvanceProofs AdvanceInv AdvanceMore AdvanceGeom LoopModel LoopProps MeshModel MeshSpec MeshProofs QRefineModel QRefineSpec WindSpec WindProofs ClearSpec ClearRun
  ClearEnd ClearProps CleanModel CleanSpec T2QSpec T2QProps FinModel FinMesh QTileSpec MixSpec MixShape MixRun ContModel ContSpec OpenConn ContProofs ContMesh ContStage ContEnd.
Open Scope Q_scope.

Lemma run_quads scale tri_ok vtx_ok qual os : forall st st', wf st -> frun scale tri_ok vtx_ok qual st os = Ok st' -> ms_quads st' = ms_quads st.
Proof.
  induction os as [|o os IH]; intros st st' W H; cbn [frun] in H; [injection H as <-; reflexivity|].
  destruct (fstep scale tri_ok vtx_ok qual st o) as [[s r]| |] eqn:E; try discriminate. cbn [obind fst] in H.
  rewrite (IH s st' (step_wf _ _ _ _ st o s r W E) H). apply (step_fresh scale tri_ok vtx_ok qual st o s r W E).
Qed.
Lemma setup_bare m : map bare (mh_bdry (setup_facet_connectivity m)) = map bare (mh_bdry m).
Proof.
  cbn [setup_facet_connectivity mh_bdry]. rewrite map_map. apply map_ext. intros e. destruct (connect_bdry_ends m e) as (E1 & E2 & E3 & E4 & E5 & E6). unfold bare. congruence.
Qed.
Lemma stage_same tri_ok vtx_ok qual m os m' : laid m -> stage tri_ok vtx_ok qual m os = Ok m' -> mh_quads m' = mh_quads m /\ map bare (mh_bdry m') = map bare (mh_bdry m).
Proof.
  intros L H. unfold stage in H. destruct (frun _ _ _ _ _ os) as [st'| |] eqn:R; try discriminate. cbn [obind] in H. injection H as <-.
  assert (L1 := setup_laid m L). cbn [put_back mh_quads mh_bdry]. split; [|apply setup_bare].
  rewrite (run_quads _ _ _ _ _ _ _ (nt_wf _ _ _ (opened_neat _ L1)) R). cbn [opened ms_quads]. exact (fin_quad_of _ (ld_quads _ L1)).
Qed.

Lemma continued_weak rho m m' : laid m -> mh_verts m <> [] -> continued rho m m' ->
  laid m' /\ mh_verts m' <> [] /\ grows m m' /\ mh_quads m' = mh_quads m /\ map bare (mh_bdry m') = map bare (mh_bdry m).
Proof.
  intros L NV H. induction H as [|so dom ins qual os m1 m2 H IH O E].
  - split; [exact L|]. split; [exact NV|]. split; [apply grows_refl|]. auto.
  - destruct IH as (L1 & V1 & G1 & Q1 & B1). destruct (stage_weak _ _ _ _ _ _ L1 V1 O E) as (L2 & V2 & G2). destruct (stage_same _ _ _ _ _ _ L1 E) as [Q2 B2].
    split; [exact L2|]. split; [exact V2|]. split; [exact (grows_trans _ _ _ G1 G2)|]. split; [rewrite Q2; exact Q1|rewrite B2; exact B1].
Qed.
Lemma continued_midway rho pos verts ss f0 m m' : exact_at pos verts -> found_at (near rho) pos f0 (pieces ss) ->
  (forall e, In e f0 -> interior e = false /\ ghost e = false) -> simple_front pos f0 ->
  midway pos (pieces ss) f0 m -> continued rho m m' -> lasts pos verts ss m' -> (forall f, In f (facets m') -> centred (mh_pos m') f) -> midway pos (pieces ss) f0 m'.
Proof.
  intros EX FO B0 S0 MW H. induction H as [|so dom ins qual os m1 m2 H IH O E]; intros B C; [exact MW|].
  destruct (continued_weak rho m m1 (mw_laid _ _ _ _ MW) (mw_verts _ _ _ _ MW) H) as (L1 & V1 & _).
  destruct (stage_weak _ _ _ _ _ _ L1 V1 O E) as (L2 & V2 & G2).
  assert (C1 : forall f, In f (facets m1) -> centred (mh_pos m1) f).
  { intros f J. apply (centred_ext (mh_pos m2)); [|apply C, (gr_facets _ _ G2), J]. intros v K. symmetry. apply (gr_pos _ _ G2). apply (ld_facets _ L1 f J), K. }
  assert (M1 := IH (lasts_grows _ _ _ _ _ G2 B) C1).
  exact (proj1 (stage_midway rho so dom ins qual pos verts ss f0 EX FO B0 S0 m1 os m2 M1 O E B C)).
Qed.

(* ---- from a blank mesh ---- *)
Section Blank.
Variable rho : vec2 -> Q.
Variables m0 m : mesh.
Hypothesis BL : blank m0.
Hypothesis S0 : simple_front (mh_pos m0) (outline 0 m0).
Hypothesis CO : continued rho m0 m.
Hypothesis EX : exact_at (mh_pos m) (mh_verts m).
Hypothesis FO : found_at (near rho) (mh_pos m) (outline 0 m0) (pieces (map fa_sh (facets m))).
Hypothesis AR : forall f, In f (mh_tris m) -> 3 * tol26 <= 2 * fa_area (mh_pos m) f.
Notation f0 := (outline 0 m0).

Lemma blank_verts : mh_verts m0 <> [].
Proof.
  destruct (mh_bdry m0) as [|e l] eqn:E; [destruct (bl_some _ BL E)|]. destruct (ld_edges _ (bl_laid _ BL) e) as (_ & X & _); [apply in_or_app; right; rewrite E; left; reflexivity|].
  intros Z. rewrite Z in X. destruct X.
Qed.
Lemma blank_weak : laid m /\ mh_verts m <> [] /\ grows m0 m /\ mh_quads m = [] /\ map bare (mh_bdry m) = map bare (mh_bdry m0).
Proof. rewrite <- (bl_quads _ BL). exact (continued_weak rho m0 m (bl_laid _ BL) blank_verts CO). Qed.
Lemma outline_in e : In e f0 -> exists x, In x (mh_bdry m0) /\ ed_1 x = be_v1 e /\ ed_2 x = be_v2 e /\ ed_prop x = be_prop e.
Proof. intros J. rewrite outline_from in J. apply front_from_in in J. destruct J as (x & J & E1 & E2 & _ & E4). exists x. auto. Qed.
Lemma outline_kind e : In e f0 -> interior e = false /\ ghost e = false.
Proof.
  intros J. destruct (outline_in e J) as (x & I & _ & _ & E). destruct (bl_kind _ BL x I) as (K1 & K2 & _). unfold interior, ghost. rewrite <- E, K1, K2. auto.
Qed.
Lemma outline_front v : on_front f0 v -> In v (mh_verts m0).
Proof.
  intros (e & J & K). destruct (outline_in e J) as (x & I & E1 & E2 & _). destruct (ld_edges _ (bl_laid _ BL) x) as (_ & X & Y); [apply in_or_app; right; exact I|].
  destruct K as [<-|<-]; [rewrite <- E1|rewrite <- E2]; assumption.
Qed.
Lemma outline_simple : simple_front (mh_pos m) f0.
Proof.
  destruct blank_weak as (_ & _ & G & _). apply (simple_front_ext (mh_pos m0)); [|exact S0]. intros v J. apply (gr_pos _ _ G), outline_front, J.
Qed.
Lemma blank_centred f : In f (facets m) -> centred (mh_pos m) f.
Proof.
  destruct blank_weak as (L & _ & _ & NQ & _). intros J. unfold facets in J. rewrite NQ in J. cbn [app] in J. apply tri_centred; [|exact (AR f J)].
  destruct (ld_tris _ L f J) as (a & b & c & E). unfold is_tri. rewrite E. reflexivity.
Qed.
Lemma blank_mid : midway (mh_pos m) (pieces (map fa_sh (facets m))) f0 m.
Proof.
  apply (continued_midway rho (mh_pos m) (mh_verts m) (map fa_sh (facets m)) f0 m0 m EX FO outline_kind outline_simple).
  - exact (blank_midway _ _ _ BL outline_simple).
  - exact CO.
  - constructor; auto; apply incl_refl.
  - exact blank_centred.
Qed.
Lemma blank_pinch : unpinched_mesh m0 -> unpinched_mesh m.
Proof.
  intros U e f I J E. destruct blank_weak as (_ & _ & _ & _ & B).
  assert (K : forall x, In x (mh_bdry m) -> exists y, In y (mh_bdry m0) /\ bare y = bare x).
  { intros x X. apply (in_map bare) in X. rewrite B in X. apply in_map_iff in X. destruct X as (y & E1 & X). exists y. auto. }
  destruct (K e I) as (e0 & I0 & Ee). destruct (K f J) as (g0 & J0 & Ef).
  assert (X : e0 = g0) by (apply (U e0 g0 I0 J0); apply (f_equal ed_2) in Ee, Ef; cbn in Ee, Ef; congruence).
  subst g0. assert (ID : NoDup (map ed_id (mh_bdry m))).
  { assert (Y : map ed_id (mh_bdry m) = map ed_id (map bare (mh_bdry m))) by (rewrite map_map; reflexivity). rewrite Y, B, map_map. exact (bl_eids _ BL). }
  apply (nodup_map_in ed_id (mh_bdry m) e f ID I J). rewrite Ee in Ef. exact (f_equal ed_id Ef).
Qed.
Lemma blank_convex f : In f (facets m) -> strictly_convex (mh_pos m) f.
Proof.
  intros J. destruct blank_weak as (L & _ & _ & NQ & _). assert (S := mid_shape _ _ _ _ blank_mid f J). unfold facets in J. rewrite NQ in J. cbn [app] in J.
  destruct (ld_tris _ L f J) as (a & b & c & E). unfold strictly_convex. rewrite E in *. cbn [simple_shape] in S.
  assert (X : area2 (mh_pos m a) (mh_pos m b) (mh_pos m c) == det (mh_pos m a) (mh_pos m b) (mh_pos m c)) by (unfold area2, det; try unfold vcross, vsub; cbn [vx vy]; ring).
  rewrite X. exact S.
Qed.
End Blank.

(* ---- the loops are histories ---- *)
Lemma no_front scale tri_ok vtx_ok qual newpos query fuel n st : ms_front st = [] ->
  generate scale tri_ok vtx_ok qual newpos query fuel n st = match fuel with O => None | S _ => Some UB end.
Proof. intros E. unfold generate, sort_edges. rewrite E. cbn. destruct fuel as [|k]; [reflexivity|]. reflexivity. Qed.
Lemma loops_stage rho a m st' r c : setting_ok rho (mh_scale m) a -> laid m -> loops a m = Some (Ok (st', r, c)) ->
  exists shape_ok dom inside os, ops_in (mh_scale m) os /\
    stage (triangle_is_valid rho shape_ok dom) (vertex_is_valid rho inside) (se_qual a) m os = Ok (put_back (setup_facet_connectivity m) st') /\
    frun (mh_scale m) (triangle_is_valid rho shape_ok dom) (vertex_is_valid rho inside) (se_qual a) (opened (setup_facet_connectivity m)) os = Ok st' /\
    (r = false -> ms_front st' <> []) /\ (r = true -> ms_front st' = [] \/ Z.of_nat c = se_n a).
Proof.
  intros ((so & dom & E1) & (ins & E2) & NP & Hn) L H. unfold loops in H. rewrite E1, E2 in H.
  assert (NE : ms_front (opened (setup_facet_connectivity m)) <> []).
  { intros Z. rewrite (no_front _ _ _ _ _ _ _ _ _ Z) in H. destruct (se_fuel a); discriminate. }
  destruct (C27_success_partial _ _ _ _ _ _ _ _ _ _ (nt_wf _ _ _ (opened_neat _ (setup_laid m L))) NE Hn H) as (st1 & r1 & c1 & os & Q & _ & R & O & _ & _ & R1 & R2).
  injection Q as <- <- <-. exists so, dom, ins, os. split; [split; apply O; intros s e; apply NP|]. split; [unfold stage; rewrite R; reflexivity|]. auto.
Qed.
Lemma attempts_app l : forall m r, attempts m (l ++ r) = match attempts m l with Some (Ok m') => attempts m' r | x => x end.
Proof.
  induction l as [|a l IH]; intros m r; [reflexivity|]. cbn [app attempts]. destruct (attempt a m) as [[m'| |]|]; try reflexivity. apply IH.
Qed.
Lemma halted_run rho m l m' : laid m -> mh_verts m <> [] -> mh_bdry m <> [] -> Forall (setting_ok rho (mh_scale m)) l -> halted m l m' ->
  continued rho m m' /\ attempts m l = Some (Ok m').
Proof.
  intros L NV NB F H. induction H as [|l m1 a st' r c H IH E CH]; [split; [constructor|reflexivity]|].
  apply Forall_app in F. destruct F as [F Fa]. inversion Fa as [|? ? A _]; subst. destruct (IH F) as [C AT].
  destruct (continued_weak rho m m1 L NV C) as (L1 & V1 & G1 & _ & B1).
  rewrite <- (gr_scale _ _ G1) in A. destruct (loops_stage rho a m1 st' r c A L1 E) as (so & dom & ins & os & O & S & _ & _).
  split; [exact (co_next rho m so dom ins _ os m1 _ C O S)|]. rewrite attempts_app, AT. cbn [attempts]. unfold attempt.
  destruct (mh_bdry m1) as [|x y] eqn:Z; [destruct (mh_bdry m); [congruence|discriminate]|]. rewrite E. cbv zeta. rewrite CH. reflexivity.
Qed.
