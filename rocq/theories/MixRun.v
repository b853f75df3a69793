(* Histories that start part way, with quads in the mesh: proofs for ContProps. *)
From Coq Require Import Lqa Lia Permutation.
From Verif Require Import Base Chain GeomModel GeomSpec GeomProofs FacetModel UtilModel BdryModel BdrySpec
  AdvanceModel AdvanceSpec AdvanceProofs AdvanceInv AdvanceMore AdvanceGeom MeshModel WindSpec WindProofs QTileSpec
  ClearSpec ClearRun FinProofs MixSpec MixShape.
Open Scope Q_scope.

Lemma nodup_middle_last {A} (l l' : list A) x : NoDup (l ++ l') -> ~ In x l -> ~ In x l' -> NoDup (l ++ l' ++ [x]).
Proof.
  intros N A1 A2. rewrite app_assoc. apply (Permutation_NoDup (l := x :: l ++ l')).
  - apply Permutation_cons_append.
  - constructor; [|exact N]. intros I. apply in_app_or in I. tauto.
Qed.

Section Steps.
Variable scale : Q.
Variable tri_ok : mstate -> tri -> bool.
Variable vtx_ok : mstate -> nat -> bool.
Variable qual : mstate -> tri -> Q.
Notation fstep := (fstep scale tri_ok vtx_ok qual).
Notation frun := (frun scale tri_ok vtx_ok qual).

(* ---- addresses grow ---- *)
Lemma remove_nt st t : ms_nt (remove_triangle scale st t) = ms_nt st /\ ms_ne (remove_triangle scale st t) = ms_ne st /\ ms_quads (remove_triangle scale st t) = ms_quads st.
Proof. unfold remove_triangle. destruct (in_square _ _); auto. Qed.
Lemma fold_remove_nt ts : forall st, ms_nt (fold_left (remove_triangle scale) ts st) = ms_nt st /\ ms_ne (fold_left (remove_triangle scale) ts st) = ms_ne st /\
  ms_quads (fold_left (remove_triangle scale) ts st) = ms_quads st.
Proof.
  induction ts as [|t ts IH]; intros st; [auto|]. cbn [fold_left]. destruct (IH (remove_triangle scale st t)) as (-> & -> & ->). apply remove_nt.
Qed.
Lemma step_fresh st o st' r : wf st -> fstep st o = Ok (st', r) ->
  (ms_nt st <= ms_nt st')%nat /\ (ms_ne st <= ms_ne st')%nat /\ ms_quads st' = ms_quads st /\ (forall t, r = Some t -> (ms_nt st <= tr_id t)%nat).
Proof.
  intros W H. destruct o as [k xy cands|k v|a]; cbn [AdvanceModel.fstep] in H.
  - unfold update_front in H. destruct (find_edge k (ms_front st)) as [base|] eqn:Fb; [|discriminate].
    apply find_edge_in in Fb. destruct Fb as [Hb _]. set (cs := filter _ cands) in H.
    assert (HC' : forall v, In v cs -> (v < ms_nv st)%nat) by (intros v Hv; apply (wf_vlt _ W); apply filter_In in Hv; apply in_list_spec, Hv).
    destruct (create_possible_spec scale tri_ok cs st base W Hb HC') as (X & N & C).
    destruct (create_possible scale tri_ok st base cs) as [st1 ts]. cbn [fst snd] in *.
    assert (X1 : (ms_nt st <= ms_nt st1)%nat /\ ms_ne st1 = ms_ne st /\ ms_quads st1 = ms_quads st) by (destruct X as (Y & n & -> & L & _); cbn; auto). destruct X1 as (X1 & X2 & X3).
    pose proof (sort_tris_perm (qual st1) ts) as P. destruct (sort_tris (qual st1) ts) as [|best others].
    + cbn [add_vertex add_triangle] in H. destruct (_ && _).
      * injection H as <- <-. cbn [advance_front ms_nt ms_ne ms_quads with_tris]. cbn. split; [lia|]. split; [lia|]. split; [exact X3|].
        intros t E. injection E as <-. cbn. exact X1.
      * injection H as <- <-. unfold remove_vertex. match goal with |- context [remove_triangle scale ?s ?t] => destruct (remove_nt s t) as (R1 & R2 & R3) end.
        destruct (in_square _ _); cbn [ms_nt ms_ne ms_quads]; rewrite R1, R2, R3; cbn; (split; [lia|]); (split; [lia|]); (split; [exact X3|discriminate]).
    + injection H as <- <-. cbn [advance_front ms_nt ms_ne ms_quads]. destruct (fold_remove_nt others st1) as (R1 & R2 & R3). rewrite R1, R2, R3.
      split; [lia|]. split; [lia|]. split; [exact X3|]. intros t E. injection E as <-.
      destruct (C best) as (_ & L & _); [eapply Permutation_in; [apply Permutation_sym, P|left; reflexivity]|exact L].
  - destruct (existsb (incident v) (ms_front st)); [|discriminate]. unfold update_front_exhaustive in H.
    destruct (find_edge k (ms_front st)) as [base|]; [|discriminate].
    destruct (negb _); [injection H as <- <-; split; [lia|]; split; [lia|]; split; [reflexivity|discriminate]|].
    destruct (negb _); [injection H as <- <-; split; [lia|]; split; [lia|]; split; [reflexivity|discriminate]|].
    cbn [add_triangle] in H. destruct (tri_ok _ _); injection H as <- <-.
    + cbn. split; [lia|]. split; [lia|]. split; [reflexivity|]. intros t E. injection E as <-. cbn. lia.
    + match goal with |- context [remove_triangle scale ?s ?t] => destruct (remove_nt s t) as (R1 & R2 & R3) end. rewrite R1, R2, R3. cbn.
      split; [lia|]. split; [lia|]. split; [reflexivity|discriminate].
  - injection H as <- <-. cbn. split; [lia|]. split; [lia|]. split; [reflexivity|discriminate].
Qed.

(* ---- what holds without geometry ---- *)
Record neat (c : Z) (st : mstate) : Prop := {
  nt_wf : wf st;
  nt_sq : vertices_in scale st;
  nt_fsq : vertices_in front_scale st;
  nt_front : forall e, In e (ms_front st) -> In (be_v1 e) (ms_verts st) /\ In (be_v2 e) (ms_verts st);
  nt_col : ms_col st = c;
  nt_tris : forall t, In t (ms_tris st) -> tr_act t = true /\ tr_col t = c /\
    In (tr_v1 t) (ms_verts st) /\ In (tr_v2 t) (ms_verts st) /\ In (tr_v3 t) (ms_verts st);
  nt_quads : forall q, In q (ms_quads st) -> qu_act q = true /\ qu_col q = c /\ (qu_id q < ms_nt st)%nat /\
    In (qu_v1 q) (ms_verts st) /\ In (qu_v2 q) (ms_verts st) /\ In (qu_v3 q) (ms_verts st) /\ In (qu_v4 q) (ms_verts st);
  nt_ids : NoDup (map qu_id (ms_quads st) ++ map tr_id (ms_tris st));
  nt_intr : forall a b, In (a, b) (ms_intr st) -> a <> b /\ In a (ms_verts st) /\ In b (ms_verts st)
}.
Lemma neat_gen c st : neat c st -> generated st = ms_tris st.
Proof. intros N. unfold generated. apply filter_all. intros t I. apply (nt_tris _ _ N t I). Qed.

(* nothing of the state is lost *)
Record after (st st' : mstate) : Prop := {
  af_pos : forall v, In v (ms_verts st) -> ms_pos st' v = ms_pos st v;
  af_verts : forall v, In v (ms_verts st) -> In v (ms_verts st');
  af_tris : forall t, In t (ms_tris st) -> In t (ms_tris st');
  af_quads : forall q, In q (ms_quads st) -> In q (ms_quads st');
  af_intr : forall p, In p (ms_intr st) -> In p (ms_intr st');
  af_nt : (ms_nt st <= ms_nt st')%nat;
  af_ne : (ms_ne st <= ms_ne st')%nat
}.
Lemma after_refl st : after st st.
Proof. constructor; auto. Qed.
Lemma after_trans a b c : after a b -> after b c -> after a c.
Proof.
  intros X Y. constructor; intros.
  - rewrite (af_pos _ _ Y) by (apply (af_verts _ _ X); assumption). apply (af_pos _ _ X); assumption.
  - apply (af_verts _ _ Y), (af_verts _ _ X); assumption.
  - apply (af_tris _ _ Y), (af_tris _ _ X); assumption.
  - apply (af_quads _ _ Y), (af_quads _ _ X); assumption.
  - apply (af_intr _ _ Y), (af_intr _ _ X); assumption.
  - pose proof (af_nt _ _ X). pose proof (af_nt _ _ Y). lia.
  - pose proof (af_ne _ _ X). pose proof (af_ne _ _ Y). lia.
Qed.

Lemma advance_intr st2 base v t a b : In (a, b) (ms_intr (advance_front st2 base v t)) ->
  In (a, b) (ms_intr st2) \/ (exists e, In e (ms_front st2) /\ pair_of e = (a, b)) \/ (interior base = true /\ pair_of base = (a, b)).
Proof.
  intros J. cbn [advance_front ms_intr] in J. fold (plan_of st2 base v) in J.
  assert (B1 : In (a, b) (ms_intr st2 ++ map pair_of (filter interior (fst (plan_of st2 base v)))) -> In (a, b) (ms_intr st2) \/ exists e, In e (ms_front st2) /\ pair_of e = (a, b)).
  { intros L. apply in_app_or in L. destruct L as [L|L]; [left; exact L|right]. apply in_map_iff in L. destruct L as (e & Ee & L). apply filter_In in L.
    exists e. split; [|exact Ee]. exact (plan_in _ _ _ _ (proj1 L)). }
  destruct (interior base && negb (ghost base)) eqn:X; [|destruct (B1 J) as [K|K]; auto].
  apply andb_true_iff in X. apply in_app_or in J. destruct J as [J|[J|[]]]; [destruct (B1 J) as [K|K]; auto|right; right; split; [apply X|exact J]].
Qed.
Lemma step_neat c st o st' r : neat c st -> op_in scale o -> op_in front_scale o -> fstep st o = Ok (st', r) -> neat c st' /\ after st st'.
Proof.
  intros T O OF H. destruct T as [W V VF F C TR QD ID I].
  pose proof (step_tris scale tri_ok vtx_ok qual st o st' r W V O H) as E.
  destruct (step_verts scale tri_ok vtx_ok qual st o st' r W F H) as [M M3].
  pose proof (step_wf scale tri_ok vtx_ok qual st o st' r W H) as W'.
  pose proof (step_square scale tri_ok vtx_ok qual scale st o st' r W V O H) as V'.
  pose proof (step_square scale tri_ok vtx_ok qual front_scale st o st' r W VF OF H) as VF'.
  destruct (step_pos _ _ _ _ _ _ _ _ W H) as [NV PP].
  destruct (step_fresh st o st' r W H) as (L1 & L2 & QS & LF).
  pose proof (fstep_spec scale tri_ok vtx_ok qual st o st' r W H) as SP.
  assert (QD' : forall q, In q (ms_quads st') -> qu_act q = true /\ qu_col q = c /\ (qu_id q < ms_nt st')%nat /\
    In (qu_v1 q) (ms_verts st') /\ In (qu_v2 q) (ms_verts st') /\ In (qu_v3 q) (ms_verts st') /\ In (qu_v4 q) (ms_verts st')).
  { intros q Iq. rewrite QS in Iq. destruct (QD q Iq) as (A & B & D & D1 & D2 & D3 & D4). split; [exact A|]. split; [exact B|]. split; [lia|].
    split; [apply M, D1|]. split; [apply M, D2|]. split; [apply M, D3|apply M, D4]. }
  assert (ID' : NoDup (map qu_id (ms_quads st') ++ map tr_id (ms_tris st'))).
  { rewrite QS, E, map_app. destruct r as [t|]; [|cbn [map]; rewrite app_nil_r; exact ID]. cbn [map activated tr_id].
    specialize (LF t eq_refl). apply nodup_middle_last; [exact ID| |]; intros J; apply in_map_iff in J.
    - destruct J as (q & Eq & Iq). destruct (QD q Iq) as (_ & _ & L & _). lia.
    - destruct J as (u & Eu & Iu). pose proof (wf_tlt _ W u Iu). lia. }
  assert (AT : forall t, In t (ms_tris st) -> In t (ms_tris st')) by (intros t It; rewrite E; apply in_or_app; left; exact It).
  assert (AP : forall v, In v (ms_verts st) -> ms_pos st' v = ms_pos st v) by (intros v Iv; apply PP, (wf_vlt _ W v Iv)).
  assert (AQ : forall q, In q (ms_quads st) -> In q (ms_quads st')) by (rewrite QS; auto).
  destruct r as [t|].
  - destruct SP as (st2 & base & TK & -> & _). pose proof (tk_base _ _ _ _ _ TK) as Hb. destruct (F base Hb) as [Fb1 Fb2].
    pose proof (tk_grown _ _ _ _ _ TK) as G. pose proof (M3 t eq_refl) as F3.
    assert (Hb2 : In base (ms_front st2)) by (rewrite (g_front _ _ G); exact Hb).
    pose proof (advance_front_front st2 base (tr_v3 t) t (tk_wf _ _ _ _ _ TK) Hb2) as EF.
    split; constructor; try assumption.
    + intros e Ie. rewrite EF in Ie. apply in_app_or in Ie. destruct Ie as [Ie|Ie].
      * apply kept_in in Ie. rewrite (g_front _ _ G) in Ie. destruct (F e Ie). split; apply M; assumption.
      * apply new_edges_in in Ie. destruct Ie as (_ & Ie & _). apply plan_new_ends in Ie. unfold pair_of in Ie.
        destruct Ie as [Ie|Ie]; injection Ie as -> ->; split; first [exact F3|apply M; assumption].
    + cbn. rewrite (g_col _ _ G). exact C.
    + intros s Is. rewrite E in Is. apply in_app_or in Is. destruct Is as [Is|[<-|[]]].
      * destruct (TR s Is) as (A & B & D1 & D2 & D3). split; [exact A|]. split; [exact B|]. split; [apply M, D1|]. split; [apply M, D2|apply M, D3].
      * cbn [activated tr_act tr_col tr_v1 tr_v2 tr_v3]. split; [reflexivity|]. split; [rewrite (tk_col _ _ _ _ _ TK); exact C|].
        rewrite (tk_v1 _ _ _ _ _ TK), (tk_v2 _ _ _ _ _ TK). split; [apply M, Fb1|]. split; [apply M, Fb2|exact F3].
    + intros a b J. apply advance_intr in J.
      assert (FE : forall e, In e (ms_front st2) -> pair_of e = (a, b) -> a <> b /\ In a (ms_verts st) /\ In b (ms_verts st)).
      { intros e Ie Ee. rewrite (g_front _ _ G) in Ie. injection Ee as <- <-. split; [apply (wf_ev _ W e Ie)|apply (F e Ie)]. }
      assert (K : a <> b /\ In a (ms_verts st) /\ In b (ms_verts st)).
      { destruct J as [J|[(e & Ie & Ee)|(_ & J)]]; [rewrite (g_intr _ _ G) in J; exact (I a b J)|exact (FE e Ie Ee)|exact (FE base Hb2 J)]. }
      destruct K as (K1 & K2 & K3). split; [exact K1|]. split; apply M; assumption.
    + intros p Ip. cbn [advance_front ms_intr]. rewrite <- (g_intr _ _ G) in Ip. destruct (interior base && negb (ghost base)); [apply in_or_app; left|]; apply in_or_app; left; exact Ip.
  - destruct SP as (QT & _). rewrite app_nil_r in E. split; constructor; try assumption.
    + intros e Ie. destruct (F e (Permutation_in _ (Permutation_sym (q_front _ _ QT)) Ie)). split; apply M; assumption.
    + rewrite (q_col _ _ QT). exact C.
    + intros s Is. rewrite E in Is. destruct (TR s Is) as (A & B & D1 & D2 & D3). split; [exact A|]. split; [exact B|]. split; [apply M, D1|]. split; [apply M, D2|apply M, D3].
    + intros a b J. rewrite (q_intr _ _ QT) in J. destruct (I a b J) as (K1 & K2 & K3). split; [exact K1|]. split; apply M; assumption.
    + intros p. rewrite (q_intr _ _ QT). auto.
Qed.
Lemma run_neat c os st st' : neat c st -> Forall (op_in scale) os -> Forall (op_in front_scale) os -> frun st os = Ok st' -> neat c st' /\ after st st'.
Proof.
  revert st. induction os as [|o os IH]; intros st N O OF H.
  - cbn [AdvanceModel.frun] in H. injection H as <-. split; [exact N|apply after_refl].
  - cbn [AdvanceModel.frun] in H. destruct (fstep st o) as [[s r]| |] eqn:E; try discriminate. cbn [obind fst] in H.
    inversion O; subst. inversion OF; subst. destruct (step_neat c st o s r N) as [N1 A1]; try assumption.
    destruct (IH s N1) as [N2 A2]; try assumption. split; [exact N2|exact (after_trans _ _ _ A1 A2)].
Qed.
End Steps.

(* ---- with the tests of the code ---- *)
Lemma elements_sum w st : esum w (flat_map shape_sides (elements st)) ==
  esum w (sides (generated st)) + esum w (flat_map shape_sides (map quad_element (ms_quads st))).
Proof.
  unfold elements. rewrite flat_map_app, esum_app. apply Qplus_comp; [|reflexivity]. unfold sides.
  induction (generated st) as [|t l IH]; [reflexivity|]. cbn [map flat_map]. rewrite !esum_app, IH. reflexivity.
Qed.
Definition new_sig (e : bedge) : Prop := be_col e = interior_edge_color /\ be_prop e = 0%N.

Section Way.
Variable rho : vec2 -> Q.
Variable shape_ok : vec2 -> vec2 -> vec2 -> bool.
Variable dom : list (vec2 * vec2).
Variable scale : Q.
Variable inside : vec2 -> bool.
Variable qual : mstate -> tri -> Q.
Notation valid := (triangle_is_valid rho shape_ok dom).
Notation fstep := (fstep scale valid (vertex_is_valid rho inside) qual).
Notation frun := (frun scale valid (vertex_is_valid rho inside) qual).

Variable pos : nat -> vec2.
Variable verts : list nat.
Variable gen : list tri.
Variable f0 : list bedge.
Variable c : Z.
Hypothesis EX : exact_at pos verts.
Hypothesis FO : found_at (near rho) pos f0 gen.
Hypothesis B0 : forall e, In e f0 -> interior e = false /\ ghost e = false.

Record partway (st : mstate) : Prop := {
  pw_neat : neat scale c st;
  pw_simple : simple_front pos (ms_front st);
  pw_known : forall e, In e (ms_front st) -> known f0 gen (be_v1 e) (be_v2 e);
  pw_shape : forall s, In s (elements st) -> simple_shape pos s;
  pw_total : forall w, antisym w -> esum w (flat_map shape_sides (elements st)) + esum w (ends (ms_front st)) == esum w (ends f0);
  pw_balance : forall p q, p <> q ->
    (uses_any p q (flat_map shape_sides (elements st)) + uses_any p q (ends (filter (fun e => negb (interior e)) (ms_front st))) =
     2 * uses_any p q (ms_intr st) + uses_any p q (ends (filter interior (ms_front st))) + uses_any p q (ends f0))%nat;
  pw_kind : forall e, In e (ms_front st) -> new_sig e \/ In (sig e) (map sig f0);
  pw_area : ms_area st == esum (w_area pos) (flat_map shape_sides (elements st))
}.
Notation before := (before pos verts gen).

Lemma new_interior e : new_sig e -> interior e = true /\ ghost e = false.
Proof. intros [_ P]. unfold interior, ghost. rewrite P. split; reflexivity. Qed.
Lemma old_boundary e : In (sig e) (map sig f0) -> interior e = false /\ ghost e = false.
Proof.
  intros I. apply in_map_iff in I. destruct I as (x & E & I). unfold sig in E. injection E as _ _ _ E. unfold interior, ghost. rewrite <- E. apply (B0 x I).
Qed.
Lemma way_ghosts st : partway st -> no_ghosts st.
Proof. intros P e I. destruct (pw_kind _ P e I) as [K|K]; [apply new_interior, K|apply old_boundary, K]. Qed.
Lemma way_old st : partway st -> forall e, In e (ms_front st) -> interior e = false -> In (pair_of e) (ends f0).
Proof.
  intros P e I N. destruct (pw_kind _ P e I) as [K|K]; [destruct (new_interior e K); congruence|].
  apply in_map_iff in K. destruct K as (x & E & K). unfold sig in E. injection E as E1 E2 _ _. unfold ends, pair_of. rewrite <- E1, <- E2. apply in_map_iff. exists x. split; [reflexivity|exact K].
Qed.

Lemma step_partway st o st' r : partway st -> op_in scale o -> op_in front_scale o -> fstep st o = Ok (st', r) -> before st' -> partway st'.
Proof.
  intros P O OF H B. pose proof (pw_neat _ P) as N. pose proof (nt_wf _ _ _ N) as W.
  destruct (step_neat scale _ _ qual c st o st' r N O OF H) as [N' AF].
  assert (J : on_way pos gen f0 st) by (constructor; [exact W|apply N|apply P|apply N|apply P]).
  destruct (step_on_way rho shape_ok dom scale inside qual pos verts gen f0 EX FO st o st' r J OF H B) as [J' SX].
  pose proof (step_tris scale _ _ qual st o st' r W (nt_sq _ _ _ N) O H) as ET.
  destruct (step_fresh scale _ _ qual st o st' r W H) as (_ & _ & QS & _).
  pose proof (step_pos _ _ _ _ _ _ _ _ W H) as [_ PP].
  pose proof (neat_gen _ _ _ N) as GE. pose proof (neat_gen _ _ _ N') as GE'.
  constructor.
  - exact N'.
  - apply J'.
  - apply J'.
  - intros s I. unfold elements in I. rewrite GE', ET, QS, map_app in I. rewrite <- app_assoc in I. apply in_app_or in I. destruct I as [I|I].
    { apply (pw_shape _ P). unfold elements. rewrite GE. apply in_or_app. left. exact I. }
    apply in_app_or in I. destruct I as [I|I]; [|apply (pw_shape _ P); unfold elements; apply in_or_app; right; exact I].
    destruct r as [t|]; [|destruct I]. destruct I as [<-|[]]. unfold activated, tri_element. cbn [tr_v1 tr_v2 tr_v3 simple_shape].
    assert (IT : In (activated t) (ms_tris st')) by (rewrite ET; apply in_or_app; right; left; reflexivity).
    destruct (nt_tris _ _ _ N' _ IT) as (_ & _ & K1 & K2 & K3). cbn [activated tr_v1 tr_v2 tr_v3] in K1, K2, K3.
    apply fstep_spec in H; [|exact W]. destruct H as (st2 & base & TK & E & _). destruct (tk_ok _ _ _ _ _ TK) as (stx & _ & OK & PX & _).
    destruct (valid_facts _ _ _ _ _ OK) as (D0 & _). unfold corner1, corner2, corner3 in D0.
    destruct (wf_tv _ (tk_wf _ _ _ _ _ TK) t (tk_in _ _ _ _ _ TK)) as (L1 & L2 & L3).
    rewrite !PX in D0 by assumption. rewrite (bf_pos _ _ _ _ B _ K1), (bf_pos _ _ _ _ B _ K2), (bf_pos _ _ _ _ B _ K3).
    rewrite E. cbn [advance_front ms_pos]. assert (TD := WindMesh.tri_area_det (ms_pos st2 (tr_v1 t)) (ms_pos st2 (tr_v2 t)) (ms_pos st2 (tr_v3 t))). lra.
  - intros w A. pose proof (step_anti scale _ _ qual w st o st' r A W (nt_fsq _ _ _ N) OF H SX) as E. unfold wtotal in E.
    pose proof (pw_total _ P w A) as T. rewrite elements_sum in T. rewrite elements_sum, QS. lra.
  - intros p q NE. pose proof (step_sym scale _ _ qual _ st o st' r (w_any_sym p q) W (nt_fsq _ _ _ N) OF (way_ghosts st P) H) as E.
    pose proof (pw_balance _ P p q NE) as T. apply (f_equal nQ) in T. 
    assert (T' : nQ (uses_any p q (flat_map shape_sides (elements st)) + uses_any p q (ends (filter (fun e => negb (interior e)) (ms_front st)))) ==
      nQ (2 * uses_any p q (ms_intr st) + uses_any p q (ends (filter interior (ms_front st))) + uses_any p q (ends f0))) by (rewrite T; reflexivity).
    apply nQ_inj. change (2 * uses_any p q (ms_intr st))%nat with (uses_any p q (ms_intr st) + (uses_any p q (ms_intr st) + 0))%nat in T'.
    change (2 * uses_any p q (ms_intr st'))%nat with (uses_any p q (ms_intr st') + (uses_any p q (ms_intr st') + 0))%nat.
    rewrite !nQ_plus, <- !esum_any, !elements_sum in T'. rewrite !nQ_plus, <- !esum_any, !elements_sum, QS. unfold wbalance in E. change (nQ 0) with 0 in *. lra.
  - intros e I. pose proof (fstep_spec scale _ _ qual st o st' r W H) as SP. destruct r as [t|].
    + destruct SP as (st2 & base & TK & -> & _). pose proof (tk_grown _ _ _ _ _ TK) as G.
      assert (Hb2 : In base (ms_front st2)) by (rewrite (g_front _ _ G); apply (tk_base _ _ _ _ _ TK)).
      rewrite (advance_front_front st2 base (tr_v3 t) t (tk_wf _ _ _ _ _ TK) Hb2) in I. apply in_app_or in I. destruct I as [I|I].
      * apply kept_in in I. rewrite (g_front _ _ G) in I. exact (pw_kind _ P e I).
      * apply new_edges_in in I. left. split; apply I.
    + destruct SP as (QT & _). apply (pw_kind _ P e). apply (Permutation_in _ (Permutation_sym (q_front _ _ QT)) I).
  - pose proof (step_area scale _ _ qual st o st' r W H) as E. pose proof (pw_area _ P) as T.
    rewrite elements_sum in T. rewrite elements_sum, QS. rewrite sides_area in *.
    pose proof (step_before rho shape_ok dom scale inside qual pos verts gen st o st' r W H B) as BS.
    assert (X1 : tri_areas (ms_pos st') (generated st') == tri_areas pos (generated st')).
    { apply tri_areas_ext. intros t I. rewrite GE' in I. destruct (nt_tris _ _ _ N' t I) as (_ & _ & K1 & K2 & K3).
      rewrite (bf_pos _ _ _ _ B _ K1), (bf_pos _ _ _ _ B _ K2), (bf_pos _ _ _ _ B _ K3). auto. }
    assert (X2 : tri_areas (ms_pos st) (generated st) == tri_areas pos (generated st)).
    { apply tri_areas_ext. intros t I. rewrite GE in I. destruct (nt_tris _ _ _ N t I) as (_ & _ & K1 & K2 & K3).
      rewrite (bf_pos _ _ _ _ BS _ K1), (bf_pos _ _ _ _ BS _ K2), (bf_pos _ _ _ _ BS _ K3). auto. }
    lra.
Qed.
Lemma run_partway os st st' : partway st -> Forall (op_in scale) os -> Forall (op_in front_scale) os -> frun st os = Ok st' -> before st' -> partway st'.
Proof.
  revert st. induction os as [|o os IH]; intros st P O OF H B.
  - cbn [AdvanceModel.frun] in H. injection H as <-. exact P.
  - cbn [AdvanceModel.frun] in H. destruct (fstep st o) as [[s r]| |] eqn:E; try discriminate. cbn [obind fst] in H.
    inversion O; subst. inversion OF; subst. apply (IH s); try assumption.
    pose proof (step_wf _ _ _ _ _ _ _ _ (nt_wf _ _ _ (pw_neat _ P)) E) as W1.
    apply (step_partway st o s r P); try assumption. exact (run_before rho shape_ok dom scale inside qual pos verts gen os s st' W1 H B).
Qed.
End Way.
