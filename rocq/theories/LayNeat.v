(* Quad layers with any tests: the containers stay in order.  Proofs for LayProps. *)
From Coq Require Import Lia Lqa Permutation.
From Verif Require Import Base Chain GeomModel GeomSpec FacetModel UtilModel BdryModel BdrySpec BdryProofs
  AdvanceModel AdvanceSpec AdvanceProofs AdvanceInv AdvanceMore MeshModel WindSpec WindProofs WindMesh QLayerModel QLayerSpec QLayerProofs QTileSpec QTileProofs
  ClearSpec ClearRun MixSpec MixShape MixRun LayRun LayWay LayGap.
Open Scope Q_scope.

Lemma nodup_sub {X Y} (g : X -> Y) (f : X -> bool) (l : list Y) k : NoDup (l ++ map g k) -> NoDup (l ++ map g (filter f k)).
Proof.
  assert (I : forall y, In y (map g (filter f k)) -> In y (map g k)) by (intros y J; apply in_map_iff in J; destruct J as (x & <- & J); apply filter_In in J; apply in_map, J).
  induction l as [|y l IH]; cbn [app]; intros H.
  - clear I. induction k as [|x k IH]; cbn [filter map] in *; [constructor|]. inversion H as [|x' y' NI ND E]. destruct (f x); [|exact (IH ND)]. cbn [map]. constructor; [|exact (IH ND)].
    intros J. apply NI. apply in_map_iff in J. destruct J as (z & <- & J). apply filter_In in J. apply in_map, J.
  - inversion H as [|x' y' NI ND E]. constructor; [|exact (IH ND)]. intros J. apply NI. apply in_app_or in J. apply in_or_app. destruct J as [J|J]; [left; exact J|right; exact (I y J)].
Qed.
Lemma neat_ok scale c m : neat scale c m -> base_ok m.
Proof.
  intros N. split; [apply N|]. intros q J. destruct (nt_quads _ _ _ N q J) as (_ & _ & _ & A & B & C & D). intros v K. apply (wf_vlt _ (nt_wf _ _ _ N)).
  unfold quad_element in K. cbn in K. destruct K as [<-|[<-|[<-|[<-|[]]]]]; assumption.
Qed.

Section LayNeat.
Variable scale : Q.
Variable tri_ok : mstate -> tri -> bool.
Variable vtx_ok : mstate -> nat -> bool.
Variable qual : mstate -> tri -> Q.
Variable c : Z.
Notation fstep := (fstep scale tri_ok vtx_ok qual).
Notation sq := (QTileProofs.sq scale).
Notation neat := (neat scale c).
Hypothesis tri_positive : forall s t, tri_ok s t = true -> 0 < det (ms_pos s (tr_v1 t)) (ms_pos s (tr_v2 t)) (ms_pos s (tr_v3 t)).

Lemma grown_neat m m' : neat m -> grown m m' -> ms_tris m' = ms_tris m -> incl (ms_verts m) (ms_verts m') -> wf m' -> sq m' -> (ms_nt m <= ms_nt m')%nat -> neat m'.
Proof.
  intros N G ET IV W' [SF SS] NT.
  constructor; rewrite ?ET, ?(g_front _ _ G), ?(g_intr _ _ G), ?(g_quads _ _ G), ?(g_col _ _ G); try assumption; try apply N.
  - intros e I. destruct (nt_front _ _ _ N e I). split; apply IV; assumption.
  - intros t I. destruct (nt_tris _ _ _ N t I) as (A & B & D1 & D2 & D3). repeat split; try assumption; apply IV; assumption.
  - intros q I. destruct (nt_quads _ _ _ N q I) as (A & B & D & D1 & D2 & D3 & D4). split; [exact A|]. split; [exact B|]. split; [lia|]. repeat split; apply IV; assumption.
  - intros a b I. destruct (nt_intr _ _ _ N a b I) as (A & D1 & D2). split; [exact A|]. split; apply IV; assumption.
Qed.
Lemma advance_neat m x y z e v : neat m -> In e (ms_front m) -> In v (ms_verts m) -> v <> be_v1 e -> v <> be_v2 e ->
  In x (ms_verts m) -> In y (ms_verts m) -> In z (ms_verts m) -> neat (advance_front (fst (add_triangle m x y z)) e v (snd (add_triangle m x y z))).
Proof.
  intros N Ie Iv N1 N2 IX IY IZ. pose proof (nt_wf _ _ _ N) as W.
  destruct (nt_front _ _ _ N e Ie) as [V1 V2]. pose proof (wf_vlt _ W _ V1) as L1. pose proof (wf_vlt _ W _ V2) as L2. pose proof (wf_vlt _ W _ Iv) as L3.
  pose proof (add_triangle_ext m x y z (wf_vlt _ W _ IX) (wf_vlt _ W _ IY) (wf_vlt _ W _ IZ)) as X.
  unfold add_triangle in *. cbn [fst snd] in *. set (t := TR (ms_nt m) x y z false (ms_col m)) in *. set (m1 := with_tris m (ms_tris m ++ [t]) (S (ms_nt m))) in *.
  pose proof (extended_wf _ _ W X) as W1. pose proof (extended_grown _ _ X) as G.
  assert (Ie1 : In e (ms_front m1)) by exact Ie.
  assert (It : In t (ms_tris m1)) by (unfold m1; cbn; apply in_or_app; right; left; reflexivity).
  pose proof (advance_front_front m1 e v t W1 Ie1) as EF.
  assert (ET : ms_tris (advance_front m1 e v t) = ms_tris m ++ [activated t]).
  { cbn [advance_front ms_tris]. unfold m1. cbn [with_tris ms_tris]. unfold activate. rewrite map_app. cbn [map]. rewrite Nat.eqb_refl. f_equal.
    rewrite <- (map_id (ms_tris m)) at 2. apply map_ext_in. intros s Is. pose proof (wf_tlt _ W s Is). destruct (Nat.eqb_spec (tr_id s) (tr_id t)) as [E|E]; [cbn in E; lia|reflexivity]. }
  assert (WM : wf (advance_front m1 e v t)) by (apply advance_wf; assumption).
  set (M := advance_front m1 e v t) in *. constructor.
  - exact WM.
  - exact (nt_sq _ _ _ N).
  - exact (nt_fsq _ _ _ N).
  - intros f J. rewrite EF in J. apply in_app_or in J. destruct J as [J|J].
    + apply kept_in in J. exact (nt_front _ _ _ N f J).
    + apply new_edges_in in J. destruct J as (_ & J & _). apply plan_new_ends in J. unfold pair_of in J. change (ms_verts M) with (ms_verts m).
      destruct J as [J|J]; injection J as -> ->; auto.
  - exact (nt_col _ _ _ N).
  - intros s Is. rewrite ET in Is. apply in_app_or in Is. destruct Is as [Is|[<-|[]]]; [exact (nt_tris _ _ _ N s Is)|].
    cbn [activated t tr_act tr_col tr_v1 tr_v2 tr_v3]. split; [reflexivity|]. split; [exact (nt_col _ _ _ N)|]. auto.
  - intros q Iq. destruct (nt_quads _ _ _ N q Iq) as (A & B & L & R). split; [exact A|]. split; [exact B|]. split; [cbn; lia|exact R].
  - rewrite ET, map_app. change (ms_quads M) with (ms_quads m). cbn [map activated tr_id]. apply nodup_middle_last; [exact (nt_ids _ _ _ N)| |]; intros I; apply in_map_iff in I; destruct I as (u & Eu & Iu); cbn in Eu.
    + destruct (nt_quads _ _ _ N u Iu) as (_ & _ & L & _). lia.
    + pose proof (wf_tlt _ W u Iu). lia.
  - intros a b I. apply advance_intr in I.
    assert (FE : forall f, In f (ms_front m) -> pair_of f = (a, b) -> a <> b /\ In a (ms_verts m) /\ In b (ms_verts m)).
    { intros f If Ef. injection Ef as <- <-. split; [apply (wf_ev _ W f If)|apply (nt_front _ _ _ N f If)]. }
    destruct I as [I|[(f & If & Ef)|(_ & I)]]; [exact (nt_intr _ _ _ N a b I)|exact (FE f If Ef)|exact (FE e Ie I)].
Qed.

Lemma remove_sub m t : exists f, ms_tris (remove_triangle scale m t) = filter f (ms_tris m).
Proof.
  unfold remove_triangle. destruct (in_square scale (tri_loc (ms_pos m) t)); cbn; [eexists; reflexivity|]. exists (fun _ => true). symmetry. apply filter_all. auto.
Qed.
Lemma merge_neat m2 t1 t2 a b c' d : neat m2 -> base_ok (merge_pair scale m2 t1 t2 a b c' d) -> In a (ms_verts m2) -> In b (ms_verts m2) -> In c' (ms_verts m2) -> In d (ms_verts m2) ->
  neat (merge_pair scale m2 t1 t2 a b c' d).
Proof.
  intros N BO Va Vb Vc Vd. destruct (merge_same scale m2 t1 t2 a b c' d) as (MP & MN & MV & MF & MA & MC).
  unfold merge_pair in *. destruct (existsb (joins2 b d) (ms_intr m2)) eqn:EI; [|exact N].
  destruct (interior_same m2 b d) as (X1 & X2 & X3 & X4 & X5 & X6 & X7 & X8 & X9 & X10).
  assert (IN : forall p, In p (ms_intr (remove_interior m2 b d)) -> In p (ms_intr m2)).
  { intros p. unfold remove_interior. destruct (in_square front_scale (shown_xy (ms_pos m2) b d)); cbn; [apply drop_in|auto]. }
  set (m3 := remove_interior m2 b d) in *.
  destruct (remove_same scale m3 t1) as (Y1 & Y2 & Y3 & Y4 & Y5). destruct (remove_more scale m3 t1) as (Y6 & Y7 & Y8 & Y9 & Y10). destruct (remove_sub m3 t1) as (f1 & S1). set (m4 := remove_triangle scale m3 t1) in *.
  destruct (remove_same scale m4 t2) as (Z1 & Z2 & Z3 & Z4 & Z5). destruct (remove_more scale m4 t2) as (Z6 & Z7 & Z8 & Z9 & Z10). destruct (remove_sub m4 t2) as (f2 & S2). set (m5 := remove_triangle scale m4 t2) in *.
  assert (TM : ms_tris m5 = filter f2 (filter f1 (ms_tris m2))) by (rewrite S2, S1, X6; reflexivity).
  set (M := add_quad m5 a b c' d) in *.
  assert (QM : ms_quads M = ms_quads m2 ++ [QU (ms_nt m2) a b c' d true (ms_col m2)]) by (cbn [M add_quad ms_quads]; rewrite Z5, Y5, X8, Z7, Y7, X7, Z10, Y10, X10; reflexivity).
  assert (NT : ms_nt M = S (ms_nt m2)) by (cbn [M add_quad ms_nt]; rewrite Z7, Y7, X7; reflexivity).
  assert (SUBT : forall s, In s (ms_tris M) -> In s (ms_tris m2)) by (intros s J; change (ms_tris M) with (ms_tris m5) in J; rewrite TM in J; apply filter_In in J; destruct J as [J _]; apply filter_In in J; apply J).
  assert (VERT : ms_verts M = ms_verts m2) by exact MV. constructor.
  - apply BO.
  - intros v Hv. rewrite MP. apply (nt_sq _ _ _ N). rewrite MN in Hv. exact Hv.
  - intros v Hv. rewrite MP. apply (nt_fsq _ _ _ N). rewrite MN in Hv. exact Hv.
  - rewrite MF, VERT. apply N.
  - rewrite MC. apply N.
  - intros t J. rewrite VERT. exact (nt_tris _ _ _ N t (SUBT t J)).
  - intros q J. rewrite VERT, NT. rewrite QM in J. apply in_app_or in J. destruct J as [J|[<-|[]]].
    + destruct (nt_quads _ _ _ N q J) as (B1 & B2 & B3 & B4). split; [exact B1|]. split; [exact B2|]. split; [lia|exact B4].
    + cbn [qu_act qu_col qu_id qu_v1 qu_v2 qu_v3 qu_v4]. split; [reflexivity|]. split; [apply N|]. split; [lia|]. auto.
  - rewrite QM, map_app. cbn [map qu_id]. change (ms_tris M) with (ms_tris m5). rewrite TM. apply nodup_sub, nodup_sub. rewrite <- app_assoc. cbn [app].
    eapply Permutation_NoDup; [apply Permutation_middle|]. constructor; [|exact (nt_ids _ _ _ N)]. intros J. apply in_app_or in J. destruct J as [J|J]; apply in_map_iff in J; destruct J as (x & Ex & J).
    + destruct (nt_quads _ _ _ N x J) as (_ & _ & L & _). lia.
    + pose proof (wf_tlt _ (nt_wf _ _ _ N) x J). lia.
  - intros x y J. rewrite VERT. apply (nt_intr _ _ _ N). apply IN. cbn [M add_quad ms_intr] in J. rewrite Z8, Y8 in J. exact J.
Qed.
Lemma update_neat m k xy cands m' r : neat m -> fstep m (FUpdate k xy cands) = Ok (m', r) -> sq m' -> neat m'.
Proof.
  intros N H S. destruct (update_in scale tri_ok vtx_ok qual m k xy cands m' r (nt_wf _ _ _ N) H S) as (xy' & H' & O & OF).
  exact (proj1 (step_neat scale tri_ok vtx_ok qual c m (FUpdate k xy' cands) m' r N O OF H')).
Qed.

Variable norm : vec2 -> Q.
Variable query : mstate -> vec2 -> Q -> list nat.
Notation create_element := (create_element norm scale tri_ok vtx_ok qual query).
Notation create_layer := (create_layer norm scale tri_ok vtx_ok qual query).
(* the vertices of a cell are in the mesh *)
Definition cell_in (m : mstate) (x : lcell) : Prop :=
  (forall w, lc_v1 x = Some w -> In w (ms_verts m)) /\ (forall w, lc_v2 x = Some w -> In w (ms_verts m)) /\ In (be_v1 (lc_e x)) (ms_verts m) /\ In (be_v2 (lc_e x)) (ms_verts m).
Lemma cell_in_lay m m' x : lay m m' -> cell_in m x -> cell_in m' x.
Proof. intros L (A & B & C & D). repeat split; intros; apply (ly_verts _ _ L); auto. Qed.
Lemma element_neat m e p1 p2 m' o1 o2 : neat m -> In e (ms_front m) -> create_element m e p1 p2 = Ok (m', (o1, o2)) -> sq m' ->
  neat m' /\ (forall w, o1 = Some w -> In w (ms_verts m')) /\ (forall w, o2 = Some w -> In w (ms_verts m')).
Proof.
  intros N Ie H SQ. pose proof (neat_ok _ _ _ N) as BO. pose proof (proj1 BO) as W.
  destruct (element_lay _ _ _ _ _ _ _ _ _ _ _ _ _ BO Ie H) as (LY & _).
  unfold QLayerModel.create_element in H. destruct (fstep m _) as [[m1 r1]| |] eqn:ST1 in H; try discriminate. cbn [obind] in H.
  pose proof (step_lay _ _ _ _ _ _ _ _ BO ST1) as L1. pose proof (ly_ok _ _ L1) as B1.
  destruct (step_verts scale tri_ok vtx_ok qual m _ m1 r1 W (nt_front _ _ _ N) ST1) as [M1 M3].
  destruct r1 as [t1|].
  2:{ injection H as <- <- <-. split; [exact (update_neat _ _ _ _ _ _ N ST1 SQ)|]. split; discriminate. }
  specialize (M3 t1 eq_refl).
  destruct (get_edge_nodir (ms_front m1) (tr_v3 t1) (be_v2 e)) as [dg|] eqn:GD.
  2:{ injection H as <- <- <-. split; [exact (update_neat _ _ _ _ _ _ N ST1 SQ)|]. split; [|discriminate]. intros w E. injection E as <-. exact M3. }
  destruct (fstep m1 _) as [[m2 r2]| |] eqn:ST2 in H; try discriminate. cbn [obind] in H.
  pose proof (step_lay _ _ _ _ _ _ _ _ B1 ST2) as L2.
  destruct r2 as [t2|].
  2:{ injection H as <- <- <-. assert (N1 := update_neat _ _ _ _ _ _ N ST1 (lay_sq _ _ _ L2 SQ)). split; [exact (update_neat _ _ _ _ _ _ N1 ST2 SQ)|]. split; [|discriminate].
      intros w E. injection E as <-. apply (ly_verts _ _ L2), M3. }
  injection H as EM <- <-. destruct (merge_same scale m2 t1 t2 (be_v1 e) (be_v2 e) (tr_v3 t2) (tr_v3 t1)) as (MP & MN & MV & _). rewrite EM in MP, MN, MV.
  assert (SQ2 : sq m2) by (destruct SQ as [SA SB]; split; intros v Hv; rewrite <- MP; [apply SA|apply SB]; rewrite MN; exact Hv).
  assert (N1 := update_neat _ _ _ _ _ _ N ST1 (lay_sq _ _ _ L2 SQ2)). assert (N2 := update_neat _ _ _ _ _ _ N1 ST2 SQ2).
  destruct (step_verts scale tri_ok vtx_ok qual m1 _ m2 _ (proj1 B1) (nt_front _ _ _ N1) ST2) as [_ M4]. specialize (M4 t2 eq_refl).
  destruct (nt_front _ _ _ N e Ie) as [E1 E2].
  split.
  - rewrite <- EM. apply merge_neat; try assumption; [rewrite EM; apply LY|apply (ly_verts _ _ L2), M1, E1|apply (ly_verts _ _ L2), M1, E2|apply (ly_verts _ _ L2), M3].
  - rewrite MV. split; intros w E; injection E as <-; [apply (ly_verts _ _ L2), M3|exact M4].
Qed.
Lemma layer_neat m0 cs : forall m m' cs', lay m0 m -> neat m -> (forall x, In x cs -> kept_edge m0 (lc_e x) /\ cell_ok m x /\ cell_in m x) ->
  create_layer m cs = Ok (m', cs') -> sq m' -> neat m' /\ (forall x, In x cs' -> cell_in m' x).
Proof.
  induction cs as [|x cs IH]; intros m m' cs' O N HC H SQ; cbn [QLayerModel.create_layer] in H.
  - injection H as <- <-. split; [exact N|intros x []].
  - destruct (HC x (or_introl eq_refl)) as (Ic & Cc & Sc).
    destruct (find_edge (be_id (lc_e x)) (ms_front m)) as [f|] eqn:FE.
    + assert (f = lc_e x) by (eapply find_kept; eassumption). subst f.
      destruct (create_element m (lc_e x) (lc_p1 x) (lc_p2 x)) as [[m1 [o1 o2]]| |] eqn:E; try discriminate. cbn [obind fst snd] in H.
      destruct (create_layer m1 cs) as [[m2 r]| |] eqn:E2; try discriminate. cbn [obind fst snd] in H. injection H as <- <-.
      destruct (find_edge_in _ _ _ FE) as [Ie _].
      destruct (element_lay _ _ _ _ _ _ _ _ _ _ _ _ _ (neat_ok _ _ _ N) Ie E) as (O1 & L1 & L2).
      assert (HC1 : forall y, In y cs -> kept_edge m0 (lc_e y) /\ cell_ok m1 y).
      { intros y Hy. destruct (HC y (or_intror Hy)) as (X & Y & _). split; [exact X|]. eapply cell_onward; [apply O1|exact Y]. }
      destruct (layer_lay scale tri_ok vtx_ok qual norm query m0 cs m1 m2 r (lay_trans _ _ _ O O1) HC1 E2) as (O2 & _).
      destruct (element_neat m (lc_e x) _ _ m1 o1 o2 N Ie E (lay_sq _ _ _ O2 SQ)) as (N1 & X1 & X2).
      destruct (IH m1 m2 r (lay_trans _ _ _ O O1) N1) as (N2 & X); try assumption.
      { intros y Hy. destruct (HC1 y Hy) as [Y1 Y2]. split; [exact Y1|]. split; [exact Y2|]. destruct (HC y (or_intror Hy)) as (_ & _ & Z). exact (cell_in_lay _ _ _ O1 Z). }
      split; [exact N2|]. intros y [<-|Hy]; [|exact (X y Hy)]. apply (cell_in_lay _ _ _ O2). destruct Sc as (_ & _ & C3 & C4). split; [exact X1|]. split; [exact X2|].
      split; apply (ly_verts _ _ O1); assumption.
    + destruct (create_layer m cs) as [[m2 r]| |] eqn:E2; try discriminate. cbn [obind fst snd] in H. injection H as <- <-.
      destruct (IH m m2 r O N (fun y Hy => HC y (or_intror Hy)) E2 SQ) as (N2 & X).
      destruct (layer_lay scale tri_ok vtx_ok qual norm query m0 cs m m2 r O (fun y Hy => conj (proj1 (HC y (or_intror Hy))) (proj1 (proj2 (HC y (or_intror Hy))))) E2) as (O2 & _).
      split; [exact N2|]. intros y [<-|Hy]; [|exact (X y Hy)]. exact (cell_in_lay _ _ _ O2 Sc).
Qed.

Variable sharp : vec2 -> vec2 -> bool.
Notation close_gap := (close_gap sharp scale tri_ok vtx_ok).
Notation close_gaps := (close_gaps sharp scale tri_ok vtx_ok).
Lemma gap_neat m a b c' m' : neat m -> In a (ms_verts m) -> In b (ms_verts m) -> In c' (ms_verts m) -> close_gap m a b c' = Ok m' -> sq m' -> neat m'.
Proof.
  intros N Ia Ib Ic H SQ. pose proof (neat_ok _ _ _ N) as BO. pose proof (proj1 BO) as W.
  pose proof (wf_vlt _ W _ Ia) as La. pose proof (wf_vlt _ W _ Ib) as Lb. pose proof (wf_vlt _ W _ Ic) as Lc.
  assert (JN : forall es p q e, get_edge_nodir es p q = Some e -> In e es /\ ((be_v1 e = p /\ be_v2 e = q) \/ (be_v1 e = q /\ be_v2 e = p))) by (intros es p q e G; apply get_edge_in in G; exact G).
  unfold QLayerModel.close_gap in H. cbv zeta in H. destruct (sharp _ _).
  - pose proof (add_triangle_ext m a b c' La Lb Lc) as X. destruct (add_triangle m a b c') as [m1 t] eqn:AD. cbn [fst] in X.
    assert (TE : t = TR (ms_nt m) a b c' false (ms_col m) /\ m1 = with_tris m (ms_tris m ++ [t]) (S (ms_nt m))) by (unfold add_triangle in AD; injection AD as <- <-; auto).
    destruct TE as [TE ME].
    assert (FR : ms_front m1 = ms_front m) by (rewrite ME; reflexivity). assert (PR : ms_pos m1 = ms_pos m) by (rewrite ME; reflexivity).
    destruct (tri_ok m1 t) eqn:OK; cbn [negb] in H.
    + destruct (get_edge_nodir (ms_front m1) b c') as [e|] eqn:GE; [|discriminate]. injection H as EM. rewrite FR in GE. destruct (JN _ _ _ _ GE) as (Ie & KE).
      pose proof (tri_positive _ _ OK) as D. rewrite TE in D. cbn [tr_v1 tr_v2 tr_v3] in D. destruct (det_distinct _ _ _ _ D) as (D1 & D2 & D3).
      assert (R := advance_neat m a b c' e a N Ie Ia ltac:(destruct KE as [[E1 E2]|[E1 E2]]; congruence) ltac:(destruct KE as [[E1 E2]|[E1 E2]]; congruence) Ia Ib Ic).
      rewrite AD in R. cbn [fst snd] in R. rewrite EM in R. exact R.
    + injection H as EM. assert (X2 : extended m (remove_triangle scale m1 t)) by (apply remove_triangle_ext; [exact W|exact X|rewrite TE; cbn; lia]). rewrite EM in X2.
      destruct (extended_more _ _ X2) as [Y1 Y2]. apply (grown_neat m); try assumption.
      * exact (extended_grown _ _ X2).
      * rewrite <- EM, remove_tris.
        -- rewrite ME, TE. cbn [with_tris ms_tris tr_id]. rewrite filter_app, filter_fresh by apply W. cbn. rewrite Nat.eqb_refl. cbn. apply app_nil_r.
        -- rewrite TE, PR. apply in_square_centroid; apply (nt_sq _ _ _ N); assumption.
      * rewrite Y2. apply incl_refl.
      * exact (extended_wf _ _ W X2).
  - set (xy := vadd (vadd (ms_pos m b) (vsub (ms_pos m a) (ms_pos m b))) (vsub (ms_pos m c') (ms_pos m b))) in *.
    destruct (add_vertex_grown m xy W) as [G1 W1]. unfold add_vertex in H, G1, W1. cbn [fst] in G1, W1. cbv zeta in H, G1, W1.
    set (v := ms_nv m) in *.
    match type of W1 with wf ?x => set (m1 := x) in * end.
    assert (N1 : ms_nv m1 = S v) by reflexivity. assert (T1 : ms_nt m1 = ms_nt m) by reflexivity. assert (FR1 : ms_front m1 = ms_front m) by reflexivity.
    assert (V1 : ms_verts m1 = ms_verts m ++ [v]) by reflexivity. assert (TR1 : ms_tris m1 = ms_tris m) by reflexivity. clearbody m1.
    pose proof (add_triangle_ext m1 a b v ltac:(lia) ltac:(lia) ltac:(lia)) as X2.
    destruct (add_triangle m1 a b v) as [m2 t1] eqn:A1. cbn [fst] in X2.
    assert (T1' : t1 = TR (ms_nt m1) a b v false (ms_col m1) /\ m2 = with_tris m1 (ms_tris m1 ++ [t1]) (S (ms_nt m1))) by (unfold add_triangle in A1; injection A1 as <- <-; auto).
    destruct T1' as [T1' M2].
    assert (N2 : ms_nv m2 = S v) by (rewrite M2; exact N1).
    pose proof (add_triangle_ext m2 b c' v ltac:(lia) ltac:(lia) ltac:(lia)) as X3.
    destruct (add_triangle m2 b c' v) as [m3 t2] eqn:A2. cbn [fst] in X3.
    assert (T2 : t2 = TR (ms_nt m2) b c' v false (ms_col m2) /\ m3 = with_tris m2 (ms_tris m2 ++ [t2]) (S (ms_nt m2))) by (unfold add_triangle in A2; injection A2 as <- <-; auto).
    destruct T2 as [T2 M3].
    pose proof (extended_trans _ _ _ X2 X3) as X13. destruct (extended_more _ _ X13) as [NT3 VT3].
    assert (K : ms_nt m2 = S (ms_nt m1)) by (rewrite M2; reflexivity).
    assert (PR3 : ms_pos m3 = ms_pos m1) by (rewrite M3, M2; reflexivity). assert (N3 : ms_nv m3 = S v) by (rewrite M3; exact N2).
    assert (FR3 : ms_front m3 = ms_front m) by (rewrite M3, M2; exact FR1).
    assert (IV1 : incl (ms_verts m) (ms_verts m1)) by (rewrite V1; intros u Iu; apply in_or_app; left; exact Iu).
    destruct (vtx_ok m3 v && tri_ok m3 t1 && tri_ok m3 t2) eqn:OK; cbn [negb] in H.
    + destruct (get_edge_nodir (ms_front m3) a b) as [e1|] eqn:GE1; [|discriminate]. rewrite FR3 in GE1. destruct (JN _ _ _ _ GE1) as (I1 & E1).
      destruct (get_edge_nodir (ms_front (advance_front m3 e1 v t1)) b c') as [e2|] eqn:GE2; [|discriminate]. injection H as EM. destruct (JN _ _ _ _ GE2) as (I2 & E2).
      assert (MP : ms_pos m' = ms_pos m1 /\ ms_nv m' = ms_nv m1) by (rewrite <- EM; cbn; split; congruence). destruct MP as (MP & MN).
      assert (SQ1 : sq m1) by (destruct SQ as [Sa Sb]; split; intros u Hu; rewrite <- MP; [apply Sa|apply Sb]; rewrite MN; exact Hu).
      assert (NA := grown_neat m m1 N G1 TR1 IV1 W1 SQ1 ltac:(lia)).
      assert (Iv : In v (ms_verts m1)) by (rewrite V1; apply in_or_app; right; left; reflexivity).
      assert (M4 : advance_front m3 e1 v t1 = fst (add_triangle (advance_front m2 e1 v t1) b c' v)).
      { assert (E3 : m3 = fst (add_triangle m2 b c' v)) by (rewrite A2; reflexivity). rewrite E3. apply advance_add. rewrite T1'. cbn. lia. }
      assert (T24 : t2 = snd (add_triangle (advance_front m2 e1 v t1) b c' v)) by (rewrite T2; reflexivity).
      assert (NB : neat (advance_front m2 e1 v t1)).
      { assert (R := advance_neat m1 a b v e1 v NA). rewrite A1 in R. cbn [fst snd] in R. apply R; try (rewrite FR1); auto; destruct E1 as [[Q1 Q2]|[Q1 Q2]]; lia. }
      rewrite M4 in EM, I2. change (ms_front (fst (add_triangle (advance_front m2 e1 v t1) b c' v))) with (ms_front (advance_front m2 e1 v t1)) in I2.
      assert (VB : ms_verts (advance_front m2 e1 v t1) = ms_verts m1) by (rewrite M2; reflexivity).
      assert (R := advance_neat (advance_front m2 e1 v t1) b c' v e2 v NB I2). rewrite <- T24, EM in R. rewrite VB in R. apply R; auto; destruct E2 as [[Q1 Q2]|[Q1 Q2]]; lia.
    + injection H as EM.
      assert (Y0 : extended m1 (remove_triangle scale m3 t1)) by (apply remove_triangle_ext; [exact W1|exact X13|rewrite T1'; cbn; lia]).
      assert (Y : extended m1 (remove_triangle scale (remove_triangle scale m3 t1) t2)) by (apply remove_triangle_ext; [exact W1|exact Y0|rewrite T2; cbn; lia]).
      assert (MP : ms_pos m' = ms_pos m1 /\ ms_nv m' = ms_nv m1).
      { rewrite <- EM. unfold remove_vertex, remove_triangle. repeat (destruct (in_square _ _)); cbn; (split; [exact PR3|congruence]). }
      destruct MP as (MP & MN).
      assert (S1 : forall u, (u < S v)%nat -> in_square scale (ms_pos m1 u) = true) by (intros u Hu; rewrite <- MP; apply SQ; rewrite MN, N1; exact Hu).
      assert (TE5 : ms_tris (remove_triangle scale (remove_triangle scale m3 t1) t2) = ms_tris m).
      { rewrite remove_tris.
        - rewrite remove_tris.
          + rewrite M3, M2. cbn [with_tris ms_tris]. rewrite TR1, T1', T2. cbn [tr_id]. rewrite K. rewrite !filter_app. rewrite (filter_fresh (ms_tris m) (ms_nt m1)) by (rewrite T1; apply W).
            rewrite (filter_fresh (ms_tris m) (S (ms_nt m1))) by (intros t It; pose proof (wf_tlt _ W t It); lia). cbn [filter tr_id]. rewrite Nat.eqb_refl. cbn [negb filter app].
            destruct (Nat.eqb_spec (S (ms_nt m1)) (ms_nt m1)) as [EQ|_]; [lia|]. cbn [negb filter tr_id]. rewrite Nat.eqb_refl. cbn. rewrite ?app_nil_r. reflexivity.
          + rewrite T1', PR3. apply in_square_centroid; apply S1; cbn [tr_v1 tr_v2 tr_v3]; lia.
        - assert (PQ : ms_pos (remove_triangle scale m3 t1) = ms_pos m1) by (rewrite (proj1 (remove_same scale m3 t1)); exact PR3). rewrite T2, PQ. apply in_square_centroid; apply S1; cbn [tr_v1 tr_v2 tr_v3]; lia. }
      set (m5 := remove_triangle scale (remove_triangle scale m3 t1) t2) in *. destruct (extended_more _ _ Y) as [NT5 VT5].
      assert (G5 : grown m m5) by (eapply grown_trans; [exact G1|apply extended_grown; exact Y]). pose proof (extended_wf _ _ W1 Y) as W5. clearbody m5.
      assert (VL : forall u, In u (ms_verts m) -> (u < v)%nat) by exact (wf_vlt _ W).
      unfold remove_vertex in EM. destruct (in_square scale (ms_pos m5 v)).
      * apply (grown_neat m); try assumption; rewrite <- EM.
        -- constructor; cbn; try apply G5.
        -- exact TE5.
        -- intros u Iu. cbn. apply filter_In. split; [rewrite VT5, V1; apply in_or_app; left; exact Iu|]. apply negb_true_iff, Nat.eqb_neq. pose proof (VL u Iu) as VLu. lia.
        -- constructor; cbn; try apply W5; [apply NoDup_filter; apply W5|]. intros u Hu. apply filter_In in Hu. apply (wf_vlt _ W5). apply Hu.
        -- cbn. lia.
      * apply (grown_neat m); try assumption; rewrite <- EM; try assumption; try lia. rewrite VT5, V1. intros u Iu. apply in_or_app. left. exact Iu.
Qed.
Lemma gaps_neat r : forall m x m', neat m -> (forall d, In d (x :: r) -> cell_ok m d /\ cell_in m d) -> close_gaps m x r = Ok m' -> sq m' -> neat m'.
Proof.
  induction r as [|d r IH]; intros m x m' N HC H SQ; cbn [QLayerModel.close_gaps] in H.
  - injection H as <-. exact N.
  - assert (S : exists m1, (match lc_v1 d, lc_v2 x with Some u, Some y => if Nat.eqb u y then Ok m else close_gap m y (be_v1 (lc_e d)) u | _, _ => Ok m end) = Ok m1
              /\ close_gaps m1 d r = Ok m').
    { destruct (match lc_v1 d, lc_v2 x with Some u, Some y => _ | _, _ => _ end) as [m1| |]; try discriminate. exists m1. auto. }
    destruct S as (m1 & S1 & S2). pose proof (neat_ok _ _ _ N) as BO.
    destruct (HC x (or_introl eq_refl)) as ((_ & C2 & _) & (_ & X2 & _)). destruct (HC d (or_intror (or_introl eq_refl))) as ((D1 & _ & D3 & _) & (X1 & _ & X3 & _)).
    assert (L1 : lay m m1).
    { destruct (lc_v1 d) as [u|], (lc_v2 x) as [y|]; try (injection S1 as <-; apply lay_refl; exact BO).
      destruct (Nat.eqb u y); [injection S1 as <-; apply lay_refl; exact BO|].
      cbn in C2, D1. apply (gap_lay scale tri_ok vtx_ok tri_positive sharp m y (be_v1 (lc_e d)) u m1 BO); assumption. }
    assert (HC1 : forall f, In f (d :: r) -> cell_ok m1 f /\ cell_in m1 f).
    { intros f Hf. destruct (HC f (or_intror Hf)) as [Y1 Y2]. split; [eapply cell_onward; [apply L1|exact Y1]|exact (cell_in_lay _ _ _ L1 Y2)]. }
    pose proof (gaps_lay scale tri_ok vtx_ok tri_positive sharp r m1 d m' (ly_ok _ _ L1) (fun f Hf => proj1 (HC1 f Hf)) S2) as L2.
    assert (SQ1 := lay_sq _ _ _ L2 SQ).
    apply (IH m1 d m'); try assumption.
    destruct (lc_v1 d) as [u|], (lc_v2 x) as [y|]; try (injection S1 as <-; exact N).
    destruct (Nat.eqb u y); [injection S1 as <-; exact N|].
    apply (gap_neat m y (be_v1 (lc_e d)) u m1 N); auto.
Qed.
End LayNeat.
