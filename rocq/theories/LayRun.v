(* Quad layers with the tests of the code, first without geometry: proofs for LayProps. *)
From Coq Require Import Lia Lqa Permutation.
From Verif Require Import Base Chain GeomModel GeomSpec FacetModel UtilModel BdryModel BdrySpec BdryProofs
  AdvanceModel AdvanceSpec AdvanceProofs AdvanceInv AdvanceMore MeshModel WindSpec WindProofs WindMesh QLayerModel QLayerSpec QLayerProofs QTileSpec QTileProofs
  ClearSpec ClearRun MixSpec MixShape MixRun.
Open Scope Q_scope.

Section Lay.
Variable scale : Q.
Variable tri_ok : mstate -> tri -> bool.
Variable vtx_ok : mstate -> nat -> bool.
Variable qual : mstate -> tri -> Q.
Notation fstep := (fstep scale tri_ok vtx_ok qual).
Hypothesis tri_positive : forall s t, tri_ok s t = true -> 0 < det (ms_pos s (tr_v1 t)) (ms_pos s (tr_v2 t)) (ms_pos s (tr_v3 t)).

(* the elements and vertices of the first state are in the second one *)
Record lay (m m' : mstate) : Prop := {
  ly_ok : base_ok m';
  ly_nv : (ms_nv m <= ms_nv m')%nat;
  ly_ne : (ms_ne m <= ms_ne m')%nat;
  ly_nt : (ms_nt m <= ms_nt m')%nat;
  ly_keeps : keeps m m';
  ly_verts : incl (ms_verts m) (ms_verts m');
  ly_sub : forall e, In e (ms_front m') -> In e (ms_front m) \/ (ms_ne m <= be_id e)%nat;
  ly_tris : incl (generated m) (generated m');
  ly_quads : incl (ms_quads m) (ms_quads m')
}.
Lemma lay_refl m : base_ok m -> lay m m.
Proof. intros B. constructor; auto using incl_refl. intros v _. reflexivity. Qed.
Lemma lay_trans a b c : lay a b -> lay b c -> lay a c.
Proof.
  intros H K. pose proof (ly_nv _ _ H) as N1. pose proof (ly_nv _ _ K) as N2. pose proof (ly_ne _ _ H). pose proof (ly_ne _ _ K). pose proof (ly_nt _ _ H). pose proof (ly_nt _ _ K). constructor.
  - apply K.
  - lia.
  - lia.
  - lia.
  - intros v Hv. rewrite (ly_keeps _ _ K) by lia. apply H. exact Hv.
  - eapply incl_tran; [apply H|apply K].
  - intros e He. destruct (ly_sub _ _ K e He) as [X|X]; [|right; lia]. apply (ly_sub _ _ H). exact X.
  - eapply incl_tran; [apply H|apply K].
  - eapply incl_tran; [apply H|apply K].
Qed.
Lemma lay_elements m m' : lay m m' -> incl (elements m) (elements m').
Proof.
  intros L s I. unfold elements in *. apply in_or_app. apply in_app_or in I. destruct I as [I|I]; [left|right]; apply in_map_iff in I; destruct I as (x & <- & I); apply in_map; [apply (ly_tris _ _ L), I|apply (ly_quads _ _ L), I].
Qed.
Lemma lay_sq m m' : lay m m' -> sq scale m' -> sq scale m.
Proof. intros L. apply sq_back; apply L. Qed.

Lemma step_lay m o m' r : base_ok m -> fstep m o = Ok (m', r) -> lay m m'.
Proof.
  intros B H. pose proof B as [W Q]. destruct (step_pos _ _ _ _ _ _ _ _ W H) as [N P]. destruct (step_fresh scale tri_ok vtx_ok qual m o m' r W H) as (T & E & QS & _). constructor.
  - split; [exact (step_wf _ _ _ _ _ _ _ _ W H)|]. intros q Iq v Iv. rewrite QS in Iq. specialize (Q q Iq v Iv). lia.
  - exact N.
  - exact E.
  - exact T.
  - exact P.
  - exact (step_verts_mono scale tri_ok vtx_ok qual m o m' r W H).
  - intros e I. pose proof (fstep_spec scale tri_ok vtx_ok qual m o m' r W H) as SP. destruct r as [t|].
    + destruct SP as (m2 & base & TK & -> & _). pose proof (tk_grown _ _ _ _ _ TK) as G.
      rewrite advance_front_front in I; [|apply (tk_wf _ _ _ _ _ TK)|rewrite (g_front _ _ G); apply (tk_base _ _ _ _ _ TK)].
      apply in_app_or in I. destruct I as [I|I]; [left; rewrite <- (g_front _ _ G); exact (kept_in _ _ _ _ I)|right].
      apply new_edges_in in I. rewrite <- (g_ne _ _ G). lia.
    + destruct SP as (QT & _). left. apply (Permutation_in _ (Permutation_sym (q_front _ _ QT)) I).
  - exact (step_gen_mono scale tri_ok vtx_ok qual m o m' r W H).
  - rewrite QS. apply incl_refl.
Qed.

(* ---- coordinates that do not matter ---- *)
Lemma update_in m k xy cands m' r : wf m -> fstep m (FUpdate k xy cands) = Ok (m', r) -> sq scale m' ->
  exists xy', fstep m (FUpdate k xy' cands) = Ok (m', r) /\ in_square scale xy' = true /\ in_square front_scale xy' = true.
Proof.
  intros W H [SF SS]. destruct (step_pos _ _ _ _ _ _ _ _ W H) as [NV PP].
  cbn [AdvanceModel.fstep] in H |- *. unfold update_front in H |- *.
  destruct (find_edge k (ms_front m)) as [base|] eqn:FE; [|discriminate]. set (cs := filter _ cands) in *.
  destruct (find_edge_in _ _ _ FE) as [Hb _].
  assert (HC : forall v, In v cs -> (v < ms_nv m)%nat) by (intros v Hv; apply (wf_vlt _ W); apply filter_In in Hv; apply in_list_spec, Hv).
  destruct (create_possible_spec scale tri_ok cs m base W Hb HC) as (X & _ & _).
  destruct (create_possible scale tri_ok m base cs) as [m1 ts]. cbn [fst snd] in *.
  destruct (sort_tris (qual m1) ts) as [|best others] eqn:ES.
  - exists xy. split; [exact H|].
    assert (K : (ms_nv m1 < ms_nv m')%nat /\ ms_pos m' (ms_nv m1) = xy).
    { cbn [add_vertex add_triangle] in H. destruct (_ && _); injection H as <- _.
      - cbn. rewrite Nat.eqb_refl. split; [lia|reflexivity].
      - unfold remove_vertex, remove_triangle. repeat (destruct (in_square _ _)); cbn; rewrite Nat.eqb_refl; (split; [lia|reflexivity]). }
    destruct K as [K1 K2]. rewrite <- K2. split; [apply SS|apply SF]; exact K1.
  - exists (ms_pos m (be_v1 base)). split; [exact H|]. destruct (wf_ev _ W base Hb) as (L & _ & _). rewrite <- (PP _ L). split; [apply SS|apply SF]; lia.
Qed.

(* ---- merging ---- *)
Lemma remove_more m t : ms_verts (remove_triangle scale m t) = ms_verts m /\ ms_nt (remove_triangle scale m t) = ms_nt m /\ ms_intr (remove_triangle scale m t) = ms_intr m /\
  ms_area (remove_triangle scale m t) = ms_area m /\ ms_col (remove_triangle scale m t) = ms_col m.
Proof. unfold remove_triangle. destruct (in_square _ _); cbn; auto. Qed.
Lemma remove_others m t s : tr_id s <> tr_id t -> In s (ms_tris m) -> In s (ms_tris (remove_triangle scale m t)).
Proof.
  intros N I. unfold remove_triangle. destruct (in_square _ _); [|exact I]. cbn. apply filter_In. split; [exact I|]. apply negb_true_iff. apply Nat.eqb_neq. exact N.
Qed.
Lemma interior_same m a b : let m' := remove_interior m a b in ms_pos m' = ms_pos m /\ ms_verts m' = ms_verts m /\ ms_nv m' = ms_nv m /\ ms_front m' = ms_front m /\ ms_ne m' = ms_ne m /\
  ms_tris m' = ms_tris m /\ ms_nt m' = ms_nt m /\ ms_quads m' = ms_quads m /\ ms_area m' = ms_area m /\ ms_col m' = ms_col m.
Proof. unfold remove_interior. destruct (in_square _ _); cbn; repeat split; reflexivity. Qed.
Lemma wf_same m m' : ms_front m' = ms_front m -> ms_ne m' = ms_ne m -> ms_nv m' = ms_nv m -> ms_tris m' = ms_tris m -> ms_nt m' = ms_nt m -> ms_verts m' = ms_verts m -> wf m -> wf m'.
Proof. intros E1 E2 E3 E4 E5 E6 []. constructor; rewrite ?E1, ?E2, ?E3, ?E4, ?E5, ?E6; assumption. Qed.
Lemma merge_lay m m2 t1 t2 a b c d : base_ok m -> lay m m2 -> (a < ms_nv m2)%nat -> (b < ms_nv m2)%nat -> (c < ms_nv m2)%nat -> (d < ms_nv m2)%nat ->
  (ms_nt m <= tr_id t1)%nat -> (ms_nt m <= tr_id t2)%nat -> lay m (merge_pair scale m2 t1 t2 a b c d).
Proof.
  intros [W0 _] L La Lb Lc Ld T1 T2. unfold merge_pair. destruct (existsb _ _); [|exact L]. pose proof (ly_ok _ _ L) as [W Q].
  destruct (interior_same m2 b d) as (P1 & V1 & N1 & F1 & E1 & R1 & X1 & Q1 & A1 & C1). set (m3 := remove_interior m2 b d) in *.
  pose proof (wf_same m2 m3 F1 E1 N1 R1 X1 V1 W) as W3.
  pose proof (remove_wf scale m3 t1 W3) as W4. destruct (remove_same scale m3 t1) as (P2 & N2 & F2 & E2 & Q2). destruct (remove_more m3 t1) as (V2 & X2 & _).
  pose proof (remove_others m3 t1) as O1. set (m4 := remove_triangle scale m3 t1) in *.
  pose proof (remove_wf scale m4 t2 W4) as W5. destruct (remove_same scale m4 t2) as (P3 & N3 & F3 & E3 & Q3). destruct (remove_more m4 t2) as (V3 & X3 & _).
  pose proof (remove_others m4 t2) as O2. set (m5 := remove_triangle scale m4 t2) in *.
  assert (QQ : ms_quads (add_quad m5 a b c d) = ms_quads m2 ++ [QU (ms_nt m5) a b c d true (ms_col m5)]) by (cbn; rewrite Q3, Q2, Q1; reflexivity).
  assert (NN : ms_nv (add_quad m5 a b c d) = ms_nv m2) by (cbn; congruence).
  constructor.
  - split.
    + constructor; cbn [add_quad ms_front ms_ne ms_nv ms_tris ms_nt ms_verts]; try apply W5. intros t Ht. apply (wf_tlt _ W5) in Ht. lia.
    + intros q Hq v Hv. rewrite QQ in Hq. rewrite NN. apply in_app_or in Hq. destruct Hq as [Hq|[<-|[]]]; [exact (Q q Hq v Hv)|].
      cbn in Hv. destruct Hv as [<-|[<-|[<-|[<-|[]]]]]; assumption.
  - rewrite NN. apply L.
  - cbn. rewrite E3, E2, E1. apply L.
  - cbn. rewrite X3, X2, X1. pose proof (ly_nt _ _ L). lia.
  - intros v Hv. cbn. rewrite P3, P2, P1. apply L. exact Hv.
  - cbn. rewrite V3, V2, V1. apply L.
  - intros e He. apply (ly_sub _ _ L). cbn in He. rewrite F3, F2, F1 in He. exact He.
  - intros s I. pose proof (ly_tris _ _ L s I) as I2. apply gen_in in I. pose proof (wf_tlt _ W0 s I). unfold generated in *. apply filter_In in I2. apply filter_In. split; [|apply I2].
    cbn. apply O2; [lia|]. apply O1; [lia|]. rewrite R1. apply I2.
  - intros q Iq. rewrite QQ. apply in_or_app. left. apply (ly_quads _ _ L), Iq.
Qed.

(* ---- an accepted triangle outside of update_front ---- *)
Lemma advance_lay m m1 e v t : base_ok m -> grown m m1 -> wf m1 -> (ms_nt m <= ms_nt m1)%nat -> incl (ms_verts m) (ms_verts m1) -> In e (ms_front m1) -> (v < ms_nv m1)%nat ->
  v <> be_v1 e -> v <> be_v2 e -> In t (ms_tris m1) -> tr_act t = false ->
  lay m (advance_front m1 e v t).
Proof.
  intros [W0 Q0] G W NT IV I Lv N1 N2 It At.
  assert (W' : wf (advance_front m1 e v t)) by (apply advance_wf; assumption).
  assert (PG : Permutation (generated (advance_front m1 e v t)) (activated t :: generated m)) by (rewrite <- (g_gen _ _ G); apply advance_generated; assumption).
  assert (QE : ms_quads (advance_front m1 e v t) = ms_quads m) by (cbn [advance_front ms_quads]; apply G).
  constructor.
  - split; [exact W'|]. intros q Hq x Hx. rewrite QE in Hq. specialize (Q0 q Hq x Hx). pose proof (g_nv _ _ G). cbn. lia.
  - apply G.
  - cbn [advance_front ms_ne]. rewrite (g_ne _ _ G). lia.
  - exact NT.
  - intros x Hx. apply G. exact Hx.
  - exact IV.
  - intros f Hf. rewrite advance_front_front in Hf by assumption. apply in_app_or in Hf. destruct Hf as [Hf|Hf].
    + left. rewrite <- (g_front _ _ G). exact (kept_in _ _ _ _ Hf).
    + right. apply new_edges_in in Hf. rewrite <- (g_ne _ _ G). lia.
  - intros s Hs. apply (Permutation_in _ (Permutation_sym PG)). right. exact Hs.
  - rewrite QE. apply incl_refl.
Qed.
Lemma grown_lay m m' : base_ok m -> grown m m' -> wf m' -> (ms_nt m <= ms_nt m')%nat -> incl (ms_verts m) (ms_verts m') -> lay m m'.
Proof.
  intros [_ B] G W NT IV. destruct G as [G1 G2 G3 G4 G5 G6 G7 G8 G9 G10]. constructor; auto; try lia.
  - split; [exact W|]. intros q Hq v Hv. rewrite G8 in Hq. specialize (B q Hq v Hv). lia.
  - intros e. rewrite G2. auto.
  - rewrite G5. apply incl_refl.
  - rewrite G8. apply incl_refl.
Qed.

(* ---- one element of the layer ---- *)
Variable norm : vec2 -> Q.
Variable query : mstate -> vec2 -> Q -> list nat.
Notation create_element := (create_element norm scale tri_ok vtx_ok qual query).
Notation create_layer := (create_layer norm scale tri_ok vtx_ok qual query).
Lemma update_some m k xy cands m' t : wf m -> fstep m (FUpdate k xy cands) = Ok (m', Some t) -> (tr_v3 t < ms_nv m')%nat.
Proof.
  intros W H. pose proof (fstep_spec scale tri_ok vtx_ok qual m _ m' _ W H) as (m2 & base & TK & -> & _). cbn. apply (tk_v3 _ _ _ _ _ TK).
Qed.
Lemma element_lay m e p1 p2 m' o1 o2 : base_ok m -> In e (ms_front m) -> create_element m e p1 p2 = Ok (m', (o1, o2)) -> lay m m' /\ some_lt m' o1 /\ some_lt m' o2.
Proof.
  intros B Ie H. unfold QLayerModel.create_element in H.
  destruct (fstep m _) as [[m1 r1]| |] eqn:S1 in H; try discriminate. cbn [obind] in H.
  pose proof (step_lay _ _ _ _ B S1) as L1. pose proof (ly_ok _ _ L1) as B1.
  destruct r1 as [t1|]; [|injection H as <- <- <-; split; [exact L1|cbn; auto]].
  pose proof (update_some _ _ _ _ _ _ (proj1 B) S1) as K1.
  destruct (get_edge_nodir (ms_front m1) (tr_v3 t1) (be_v2 e)) as [dg|] eqn:G; [|injection H as <- <- <-; split; [exact L1|cbn; auto]].
  destruct (fstep m1 _) as [[m2 r2]| |] eqn:S2 in H; try discriminate. cbn [obind] in H.
  pose proof (step_lay _ _ _ _ B1 S2) as L2. pose proof (lay_trans _ _ _ L1 L2) as L12. pose proof (ly_nv _ _ L2) as N2. pose proof (ly_nv _ _ L12) as N12.
  destruct r2 as [t2|]; [|injection H as <- <- <-; split; [exact L12|cbn; split; [lia|auto]]].
  pose proof (update_some _ _ _ _ _ _ (proj1 B1) S2) as K2.
  injection H as <- <- <-. destruct (wf_ev _ (proj1 B) e Ie) as (A1 & A2 & _).
  destruct (step_fresh scale tri_ok vtx_ok qual m _ m1 _ (proj1 B) S1) as (_ & _ & _ & X1). destruct (step_fresh scale tri_ok vtx_ok qual m1 _ m2 _ (proj1 B1) S2) as (_ & _ & _ & X2).
  specialize (X1 t1 eq_refl). specialize (X2 t2 eq_refl). pose proof (ly_nt _ _ L1).
  assert (L3 : lay m (merge_pair scale m2 t1 t2 (be_v1 e) (be_v2 e) (tr_v3 t2) (tr_v3 t1))) by (apply merge_lay; try assumption; lia).
  assert (NM : ms_nv (merge_pair scale m2 t1 t2 (be_v1 e) (be_v2 e) (tr_v3 t2) (tr_v3 t1)) = ms_nv m2).
  { unfold merge_pair. destruct (existsb _ _); [|reflexivity]. cbn [add_quad ms_nv]. 
    rewrite (proj1 (proj2 (remove_same _ _ _))), (proj1 (proj2 (remove_same _ _ _))). apply (interior_same m2 (be_v2 e) (tr_v3 t1)). }
  split; [exact L3|]. cbn [some_lt]. rewrite NM. split; lia.
Qed.
Definition kept_edge (m : mstate) (e : bedge) : Prop := QTileProofs.known m e.
Lemma find_kept m0 m e f : lay m0 m -> kept_edge m0 e -> find_edge (be_id e) (ms_front m) = Some f -> f = e.
Proof.
  intros O [L K] H. destruct (find_edge_in _ _ _ H) as [If Ef]. destruct (ly_sub _ _ O f If) as [X|X]; [exact (K f X Ef)|lia].
Qed.
Lemma layer_lay m0 cs : forall m m' cs', lay m0 m -> (forall c, In c cs -> kept_edge m0 (lc_e c) /\ cell_ok m c) ->
  create_layer m cs = Ok (m', cs') -> lay m m' /\ map lc_e cs' = map lc_e cs /\ (forall c, In c cs' -> cell_ok m' c).
Proof.
  induction cs as [|c cs IH]; intros m m' cs' O HC H; cbn [QLayerModel.create_layer] in H.
  - injection H as <- <-. split; [apply lay_refl; apply O|]. split; [reflexivity|intros c []].
  - destruct (HC c (or_introl eq_refl)) as [Ic Cc].
    destruct (find_edge (be_id (lc_e c)) (ms_front m)) as [f|] eqn:FE.
    + assert (f = lc_e c) by (eapply find_kept; eassumption). subst f.
      destruct (create_element m (lc_e c) (lc_p1 c) (lc_p2 c)) as [[m1 [o1 o2]]| |] eqn:E; try discriminate. cbn [obind fst snd] in H.
      destruct (create_layer m1 cs) as [[m2 r]| |] eqn:E2; try discriminate. cbn [obind fst snd] in H. injection H as <- <-.
      destruct (element_lay _ _ _ _ _ _ _ (ly_ok _ _ O) (proj1 (find_edge_in _ _ _ FE)) E) as (O1 & L1 & L2).
      assert (HC' : forall d, In d cs -> kept_edge m0 (lc_e d) /\ cell_ok m1 d).
      { intros d Hd. destruct (HC d (or_intror Hd)) as [X Y]. split; [exact X|]. eapply cell_onward; [apply O1|exact Y]. }
      destruct (IH m1 m2 r (lay_trans _ _ _ O O1) HC' E2) as (O2 & M2 & C2).
      pose proof (ly_nv _ _ O2) as N2. pose proof (ly_nv _ _ O1) as N1.
      split; [exact (lay_trans _ _ _ O1 O2)|]. split; [cbn; rewrite M2; reflexivity|].
      intros d [<-|Hd]; [|apply C2; exact Hd]. destruct Cc as (_ & _ & A1 & A2).
      repeat split; cbn; try (eapply some_onward; eassumption); lia.
    + destruct (create_layer m cs) as [[m2 r]| |] eqn:E2; try discriminate. cbn [obind fst snd] in H. injection H as <- <-.
      destruct (IH m m2 r O (fun d Hd => HC d (or_intror Hd)) E2) as (O2 & M2 & C2).
      split; [exact O2|]. split; [cbn; rewrite M2; reflexivity|].
      intros d [<-|Hd]; [|apply C2; exact Hd]. eapply cell_onward; [apply O2|exact Cc].
Qed.

(* ---- gaps between neighbouring elements ---- *)
Variable sharp : vec2 -> vec2 -> bool.
Notation close_gap := (close_gap sharp scale tri_ok vtx_ok).
Notation close_gaps := (close_gaps sharp scale tri_ok vtx_ok).
Lemma extended_more m m' : extended m m' -> (ms_nt m <= ms_nt m')%nat /\ ms_verts m' = ms_verts m.
Proof. intros (Y & n & -> & L & _). cbn. auto. Qed.
Lemma gap_lay m a b c m' : base_ok m -> (a < ms_nv m)%nat -> (b < ms_nv m)%nat -> (c < ms_nv m)%nat -> close_gap m a b c = Ok m' -> lay m m'.
Proof.
  intros B La Lb Lc H. pose proof B as [W _]. unfold QLayerModel.close_gap in H. cbv zeta in H.
  assert (JN : forall es p q e, get_edge_nodir es p q = Some e -> In e es /\ ((be_v1 e = p /\ be_v2 e = q) \/ (be_v1 e = q /\ be_v2 e = p))) by (intros es p q e G; apply get_edge_in in G; exact G).
  destruct (sharp _ _).
  - pose proof (add_triangle_ext m a b c La Lb Lc) as X. unfold add_triangle in H, X. cbn [fst] in X. cbv zeta in H, X.
    set (t := TR (ms_nt m) a b c false (ms_col m)) in *. set (m1 := with_tris m (ms_tris m ++ [t]) (S (ms_nt m))) in *.
    pose proof (extended_wf _ _ W X) as W1. pose proof (extended_grown _ _ X) as G1.
    destruct (tri_ok m1 t) eqn:OK; cbn [negb] in H.
    + destruct (get_edge_nodir (ms_front m1) b c) as [e|] eqn:GE; [|discriminate]. injection H as <-.
      pose proof (tri_positive _ _ OK) as D. cbn [t tr_v1 tr_v2 tr_v3] in D. destruct (det_distinct _ _ _ _ D) as (N1 & N2 & N3).
      destruct (JN _ _ _ _ GE) as (I & K). apply (advance_lay m m1 e a t B G1 W1); try assumption.
      * cbn. lia.
      * apply incl_refl.
      * destruct K as [[E1 E2]|[E1 E2]]; congruence.
      * destruct K as [[E1 E2]|[E1 E2]]; congruence.
      * unfold m1. cbn. apply in_or_app. right. left. reflexivity.
      * reflexivity.
    + injection H as <-. assert (X2 : extended m (remove_triangle scale m1 t)) by (apply remove_triangle_ext; [exact W|exact X|cbn; lia]).
      destruct (extended_more _ _ X2) as [Y1 Y2]. apply grown_lay; [exact B|exact (extended_grown _ _ X2)|exact (extended_wf _ _ W X2)|exact Y1|rewrite Y2; apply incl_refl].
  - set (xy := vadd (vadd (ms_pos m b) (vsub (ms_pos m a) (ms_pos m b))) (vsub (ms_pos m c) (ms_pos m b))) in *.
    destruct (add_vertex_grown m xy W) as [G1 W1]. unfold add_vertex in H, G1, W1. cbn [fst] in G1, W1. cbv zeta in H, G1, W1.
    set (v := ms_nv m) in *.
    match type of W1 with wf ?x => set (m1 := x) in * end.
    assert (N1 : ms_nv m1 = S v) by reflexivity. assert (T1 : ms_nt m1 = ms_nt m) by reflexivity. assert (FR1 : ms_front m1 = ms_front m) by reflexivity.
    assert (V1 : ms_verts m1 = ms_verts m ++ [v]) by reflexivity. clearbody m1.
    pose proof (add_triangle_ext m1 a b v ltac:(lia) ltac:(lia) ltac:(lia)) as X2.
    destruct (add_triangle m1 a b v) as [m2 t1] eqn:A1. cbn [fst] in X2.
    assert (T1' : t1 = TR (ms_nt m1) a b v false (ms_col m1) /\ m2 = with_tris m1 (ms_tris m1 ++ [t1]) (S (ms_nt m1))) by (unfold add_triangle in A1; injection A1 as <- <-; auto).
    destruct T1' as [T1' M2].
    assert (N2 : ms_nv m2 = S v) by (rewrite M2; exact N1).
    pose proof (add_triangle_ext m2 b c v ltac:(lia) ltac:(lia) ltac:(lia)) as X3.
    destruct (add_triangle m2 b c v) as [m3 t2] eqn:A2. cbn [fst] in X3.
    assert (T2 : t2 = TR (ms_nt m2) b c v false (ms_col m2) /\ m3 = with_tris m2 (ms_tris m2 ++ [t2]) (S (ms_nt m2))) by (unfold add_triangle in A2; injection A2 as <- <-; auto).
    destruct T2 as [T2 M3].
    assert (N3 : ms_nv m3 = S v) by (rewrite M3; exact N2).
    assert (FR3 : ms_front m3 = ms_front m) by (rewrite M3, M2; exact FR1).
    pose proof (extended_trans _ _ _ X2 X3) as X13. pose proof (extended_wf _ _ W1 X13) as W3. destruct (extended_more _ _ X13) as [NT3 VT3].
    assert (G3 : grown m m3) by (eapply grown_trans; [exact G1|apply extended_grown; exact X13]).
    assert (K : ms_nt m2 = S (ms_nt m1)) by (rewrite M2; reflexivity).
    assert (IV : incl (ms_verts m) (ms_verts m3)) by (rewrite VT3, V1; intros u Iu; apply in_or_app; left; exact Iu).
    destruct (vtx_ok m3 v && tri_ok m3 t1 && tri_ok m3 t2) eqn:OK; cbn [negb] in H.
    + destruct (get_edge_nodir (ms_front m3) a b) as [e1|] eqn:GE1; [|discriminate].
      destruct (JN _ _ _ _ GE1) as (I1 & E1).
      assert (It1 : In t1 (ms_tris m3)) by (rewrite M3, M2; cbn; rewrite <- app_assoc; apply in_or_app; right; left; reflexivity).
      assert (It2 : In t2 (ms_tris m3)) by (rewrite M3; cbn; apply in_or_app; right; left; reflexivity).
      assert (L4 : lay m (advance_front m3 e1 v t1)).
      { apply advance_lay; try assumption; try lia. rewrite T1'. reflexivity. }
      pose proof (ly_ok _ _ L4) as B4.
      assert (It4 : In t2 (ms_tris (advance_front m3 e1 v t1))).
      { cbn [advance_front ms_tris]. unfold activate. apply in_map_iff. exists t2. split; [|exact It2].
        rewrite T1', T2. cbn [tr_id]. rewrite K. destruct (Nat.eqb_spec (S (ms_nt m1)) (ms_nt m1)); [lia|reflexivity]. }
      destruct (get_edge_nodir (ms_front (advance_front m3 e1 v t1)) b c) as [e2|] eqn:GE2; [|discriminate]. injection H as <-.
      destruct (JN _ _ _ _ GE2) as (I2 & E2).
      apply (lay_trans _ _ _ L4). apply advance_lay; try assumption; try lia.
      * constructor; try reflexivity; try lia; auto.
      * apply B4.
      * apply incl_refl.
      * cbn. lia.
      * rewrite T2. reflexivity.
    + injection H as <-.
      assert (Y : extended m1 (remove_triangle scale (remove_triangle scale m3 t1) t2)).
      { apply remove_triangle_ext; [exact W1| |rewrite T2; cbn; lia]. apply remove_triangle_ext; [exact W1|exact X13|rewrite T1'; cbn; lia]. }
      set (m5 := remove_triangle scale (remove_triangle scale m3 t1) t2) in *. clearbody m5. destruct (extended_more _ _ Y) as [NT5 VT5].
      assert (G5 : grown m m5) by (eapply grown_trans; [exact G1|apply extended_grown; exact Y]). pose proof (extended_wf _ _ W1 Y) as W5.
      assert (VL : forall u, In u (ms_verts m) -> (u < v)%nat) by exact (wf_vlt _ W).
      unfold remove_vertex. destruct (in_square scale (ms_pos m5 v)).
      * apply grown_lay; [exact B| | | |].
        -- constructor; cbn; try apply G5.
        -- constructor; cbn; try apply W5; [apply NoDup_filter; apply W5|]. intros u Hu. apply filter_In in Hu. apply (wf_vlt _ W5). apply Hu.
        -- cbn. lia.
        -- intros u Iu. cbn. apply filter_In. split; [rewrite VT5, V1; apply in_or_app; left; exact Iu|]. apply negb_true_iff, Nat.eqb_neq. specialize (VL u Iu). lia.
      * apply grown_lay; [exact B|exact G5|exact W5|lia|]. rewrite VT5, V1. intros u Iu. apply in_or_app. left. exact Iu.
Qed.
Lemma gaps_lay r : forall m c m', base_ok m -> (forall d, In d (c :: r) -> cell_ok m d) -> close_gaps m c r = Ok m' -> lay m m'.
Proof.
  induction r as [|d r IH]; intros m c m' B HC H; cbn [QLayerModel.close_gaps] in H.
  - injection H as <-. apply lay_refl. exact B.
  - assert (S : exists m1, (match lc_v1 d, lc_v2 c with Some x, Some y => if Nat.eqb x y then Ok m else close_gap m y (be_v1 (lc_e d)) x | _, _ => Ok m end) = Ok m1
              /\ close_gaps m1 d r = Ok m').
    { destruct (match lc_v1 d, lc_v2 c with Some x, Some y => _ | _, _ => _ end) as [m1| |]; try discriminate. exists m1. auto. }
    destruct S as (m1 & S1 & S2).
    assert (O : lay m m1).
    { destruct (HC c (or_introl eq_refl)) as (_ & C2 & _). destruct (HC d (or_intror (or_introl eq_refl))) as (D1 & _ & D3 & _).
      destruct (lc_v1 d) as [x|], (lc_v2 c) as [y|]; try (injection S1 as <-; apply lay_refl; exact B).
      destruct (Nat.eqb x y); [injection S1 as <-; apply lay_refl; exact B|].
      cbn in C2, D1. apply (gap_lay m y (be_v1 (lc_e d)) x m1 B); assumption. }
    apply (lay_trans _ _ _ O). apply (IH m1 d m' (ly_ok _ _ O)); [|exact S2].
    intros f Hf. eapply cell_onward; [apply O|]. apply HC. right. exact Hf.
Qed.
End Lay.
