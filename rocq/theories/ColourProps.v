(* C43: colours of elements *)
From Coq Require Import Lia Permutation.
From Verif Require Import Base GeomModel FacetModel UtilModel BdryModel AdvanceModel AdvanceProps LoopModel QLayerModel ColourModel.
From Verif Require Import Chain MeshModel MeshSpec QRefineModel QRefineSpec QRefineProofs QRefineShape QRefineConf QRefineProps
  CleanModel MergerModel SmoothModel SmoothSpec SmoothProps MergerProps MeshProps.
Open Scope Z_scope.

(* all elements of the mesh have colour c, and the mesh gives it to new ones *)
Definition coloured (c : Z) (st : mstate) : Prop :=
  ms_col st = c /\ (forall t, In t (ms_tris st) -> tr_col t = c) /\ (forall q, In q (ms_quads st) -> qu_col q = c).

Section Generation.
Variable c : Z.
Notation coloured := (coloured c).

Lemma same_elements st st' : ms_col st' = ms_col st -> ms_tris st' = ms_tris st -> ms_quads st' = ms_quads st -> coloured st -> coloured st'.
Proof. intros E1 E2 E3 (A & B & C). unfold coloured. rewrite E1, E2, E3. split; [exact A|split; [exact B|exact C]]. Qed.
Ltac same := apply same_elements; reflexivity.

Lemma add_vertex_coloured st xy : coloured st -> coloured (fst (AdvanceModel.add_vertex st xy)).
Proof. same. Qed.
Lemma add_triangle_coloured st x y z : coloured st -> coloured (fst (add_triangle st x y z)).
Proof.
  intros (A & B & C). split; [exact A|]. split; [|exact C]. cbn. intros t H. apply in_app_or in H.
  destruct H as [H|[<-|[]]]; [exact (B t H)|exact A].
Qed.
Lemma remove_triangle_coloured scale st t : coloured st -> coloured (remove_triangle scale st t).
Proof.
  intros (A & B & C). unfold remove_triangle. destruct (in_square _ _); [|split; [exact A|split; [exact B|exact C]]].
  split; [exact A|]. split; [|exact C]. cbn. intros s H. apply filter_In in H. exact (B s (proj1 H)).
Qed.
Lemma remove_triangles_coloured scale ts : forall st, coloured st -> coloured (fold_left (remove_triangle scale) ts st).
Proof. induction ts as [|t ts IH]; intros st H; [exact H|]. cbn [fold_left]. apply IH, remove_triangle_coloured, H. Qed.
Lemma remove_vertex_coloured scale st v : coloured st -> coloured (remove_vertex scale st v).
Proof. unfold remove_vertex. destruct (in_square _ _); [same|exact (fun H => H)]. Qed.
Lemma advance_coloured st base v t : coloured st -> coloured (advance_front st base v t).
Proof.
  intros (A & B & C). split; [exact A|]. split; [|exact C]. unfold advance_front. cbn [ms_tris]. intros s H.
  unfold activate in H. apply in_map_iff in H. destruct H as (r & E & H). specialize (B r H).
  destruct (Nat.eqb (tr_id r) (tr_id t)); subst s; exact B.
Qed.
Lemma sort_coloured st a : coloured st -> coloured (sort_edges st a).
Proof. same. Qed.

Section Oracles.
Variable scale : Q.
Variable tri_ok : mstate -> tri -> bool.
Variable vtx_ok : mstate -> nat -> bool.
Variable qual : mstate -> tri -> Q.
Lemma create_coloured base vs : forall st, coloured st -> coloured (fst (create_possible scale tri_ok st base vs)).
Proof.
  induction vs as [|v vs IH]; intros st H; [exact H|]. cbn [create_possible].
  destruct (negb (ms_onf st v)); [apply IH, H|]. destruct (orient_eqb _ _); [apply IH, H|].
  assert (K := add_triangle_coloured st (be_v1 base) (be_v2 base) v H).
  destruct (add_triangle st (be_v1 base) (be_v2 base) v) as [st1 t]. cbn [fst] in K.
  destruct (tri_ok st1 t); [|apply IH, remove_triangle_coloured, K].
  specialize (IH st1 K). destruct (create_possible scale tri_ok st1 base vs). exact IH.
Qed.
Lemma fstep_coloured st o st' r : fstep scale tri_ok vtx_ok qual st o = Ok (st', r) -> coloured st -> coloured st'.
Proof.
  intros E H. destruct o as [k xy cands|k v|a]; cbn [fstep] in E.
  - unfold update_front in E. destruct (BdryModel.find_edge k (ms_front st)) as [base|]; [|discriminate].
    assert (K := create_coloured base (filter (in_list (ms_verts st)) cands) st H).
    destruct (create_possible scale tri_ok st base _) as [st1 ts]. cbn [fst] in K.
    destruct (sort_tris (qual st1) ts) as [|best others].
    + assert (K2 := add_vertex_coloured st1 xy K). destruct (AdvanceModel.add_vertex st1 xy) as [st2 v]. cbn [fst] in K2.
      assert (K3 := add_triangle_coloured st2 (be_v1 base) (be_v2 base) v K2).
      destruct (add_triangle st2 (be_v1 base) (be_v2 base) v) as [st3 t]. cbn [fst] in K3.
      destruct (vtx_ok st3 v && tri_ok st3 t)%bool; injection E as <- <-; [apply advance_coloured, K3|apply remove_vertex_coloured, remove_triangle_coloured, K3].
    + injection E as <- <-. apply advance_coloured, remove_triangles_coloured, K.
  - destruct (existsb (incident v) (ms_front st)); [|discriminate]. unfold update_front_exhaustive in E.
    destruct (BdryModel.find_edge k (ms_front st)) as [base|]; [|discriminate].
    destruct (negb (ms_onf st v)); [injection E as <- <-; exact H|].
    destruct (negb (orient_eqb _ _)); [injection E as <- <-; exact H|].
    assert (K := add_triangle_coloured st (be_v1 base) (be_v2 base) v H).
    destruct (add_triangle st (be_v1 base) (be_v2 base) v) as [st1 t]. cbn [fst] in K.
    destruct (tri_ok st1 t); injection E as <- <-; [apply advance_coloured, K|apply remove_triangle_coloured, K].
  - injection E as <- <-. apply sort_coloured, H.
Qed.

Variable newpos : mstate -> bedge -> vec2.
Variable query : mstate -> bedge -> bool -> list nat.
Notation coloured_l s := (coloured (l_st s)).
Lemma adv_check_st n s : l_st (fst (adv_check n s)) = l_st s.
Proof. unfold adv_check. cbn [fst]. destruct (_ && _)%bool; reflexivity. Qed.
Lemma adv_iter_coloured n s s' r : adv_iter scale tri_ok vtx_ok qual newpos query n s = Ok (s', r) -> coloured_l s -> coloured_l s'.
Proof.
  unfold adv_iter, advance_front_triangle. intros E H. destruct (l_cur s) as [k|]; [|discriminate].
  destruct (BdryModel.find_edge k (ms_front (l_st s))) as [e|]; [|discriminate].
  destruct (fstep scale tri_ok vtx_ok qual (l_st s) _) as [[st1 o]| |] eqn:F; cbn [obind fst snd] in E; try discriminate.
  assert (K := fstep_coloured _ _ _ _ F H). destruct (succeeded o).
  - injection E as <- _. cbn. destruct (_ && _)%bool; cbn [l_st]; destruct (l_wide s); try exact K; apply sort_coloured, K.
  - destruct (l_base s) as [b|]; [|discriminate]. destruct (set_base_next (ms_front st1) b) as [b'| |]; cbn [obind] in E; try discriminate.
    assert (X := f_equal (fun y => match y with Ok z => Some (l_st (fst z)) | _ => None end) E). cbv beta iota in X.
    rewrite adv_check_st in X. injection X as <-. exact K.
Qed.
Lemma adv_loop_coloured n fuel : forall s s' r, adv_loop scale tri_ok vtx_ok qual newpos query fuel n s = Some (Ok (s', r)) -> coloured_l s -> coloured_l s'.
Proof.
  induction fuel as [|fuel IH]; intros s s' r E H; [discriminate|]. cbn [adv_loop] in E.
  destruct (adv_iter scale tri_ok vtx_ok qual newpos query n s) as [[s1 [b|]]| |] eqn:I; try discriminate.
  - injection E as <- <-. exact (adv_iter_coloured _ _ _ _ I H).
  - exact (IH _ _ _ E (adv_iter_coloured _ _ _ _ I H)).
Qed.
Lemma exh_walk_coloured base i : forall st next st' r, exh_walk scale tri_ok vtx_ok qual i st base next = Ok (st', r) -> coloured st -> coloured st'.
Proof.
  induction i as [|i IH]; intros st next st' r E H; cbn [exh_walk] in E; [injection E as <- <-; exact H|].
  destruct next as [f|]; [|injection E as <- <-; exact H].
  destruct (Nat.eqb (be_id f) (be_id base)); [injection E as <- <-; exact H|].
  destruct (_ && _)%bool; [|exact (IH _ _ _ _ E H)].
  destruct (fstep scale tri_ok vtx_ok qual st (FExhaust (be_id base) (be_v2 f))) as [[st1 [t|]]| |] eqn:F; try discriminate.
  - injection E as <- <-. exact (fstep_coloured _ _ _ _ F H).
  - exact (IH _ _ _ _ E (fstep_coloured _ _ _ _ F H)).
Qed.
Lemma exh_iter_coloured n s s' r : exh_iter scale tri_ok vtx_ok qual n s = Ok (s', r) -> coloured_l s -> coloured_l s'.
Proof.
  unfold exh_iter, exhaustive_search_triangle. intros E H. destruct (l_cur s) as [k|]; [|discriminate].
  destruct (BdryModel.find_edge k (ms_front (l_st s))) as [e|]; [|discriminate].
  destruct (exh_walk scale tri_ok vtx_ok qual _ (l_st s) e _) as [[st1 ok]| |] eqn:F; cbn [obind] in E; try discriminate.
  assert (K := exh_walk_coloured _ _ _ _ _ _ F H). destruct ok; [injection E as <- _; exact K|].
  destruct (l_base s) as [b|]; [|discriminate]. destruct (set_base_next (ms_front st1) b) as [b'| |]; cbn [obind] in E; try discriminate.
  injection E as <- _. exact K.
Qed.
Lemma exh_loop_coloured n fuel : forall s s' r, exh_loop scale tri_ok vtx_ok qual fuel n s = Some (Ok (s', r)) -> coloured_l s -> coloured_l s'.
Proof.
  induction fuel as [|fuel IH]; intros s s' r E H; [discriminate|]. cbn [exh_loop] in E.
  destruct (exh_iter scale tri_ok vtx_ok qual n s) as [[s1 [b|]]| |] eqn:I; try discriminate.
  - injection E as <- <-. exact (exh_iter_coloured _ _ _ _ I H).
  - exact (IH _ _ _ E (exh_iter_coloured _ _ _ _ I H)).
Qed.
Lemma generate_coloured fuel n st st' b k : generate scale tri_ok vtx_ok qual newpos query fuel n st = Some (Ok (st', b, k)) -> coloured st -> coloured st'.
Proof.
  intros E H. unfold generate in E. assert (K := sort_coloured st false H).
  destruct (adv_loop scale tri_ok vtx_ok qual newpos query fuel (to_int n) _) as [[[s r]| |]|] eqn:L; try discriminate.
  assert (K1 : coloured_l s) by exact (adv_loop_coloured _ _ _ _ _ L K). destruct r; [injection E as <- <- <-; exact K1|].
  destruct (exhaustive scale tri_ok vtx_ok qual fuel _ (l_st s)) as [[[s' r']| |]|] eqn:X; try discriminate. injection E as <- <- <-.
  unfold exhaustive in X. assert (K2 := sort_coloured (l_st s) true K1).
  destruct (set_base_first (ms_front (sort_edges (l_st s) true))) as [b0|]; [|injection X as <- <-; exact K2].
  exact (exh_loop_coloured _ _ _ _ _ X K2).
Qed.

(* ---- quad layers ---- *)
Variable norm : vec2 -> Q.
Variable sin_half cos_ang : vec2 -> vec2 -> Q.
Variable sharp : vec2 -> vec2 -> bool.
Variable rho : vec2 -> Q.
Variable near : mstate -> vec2 -> Q -> list nat.
Notation coloured_q st := (coloured (q_m st)).
Lemma place_coloured st e w v left_of h p start x : place norm cos_ang scale st e w v left_of h p start = Ok x -> coloured_q st -> coloured_q (fst x).
Proof.
  unfold place. intros E H. destruct (negb left_of); [injection E as <-; exact H|].
  destruct (Qltb _ (h * h)).
  - unfold move_vertex in E. destruct (movable scale st w); cbn [obind] in E; [|discriminate]. injection E as <-. cbn [fst on_mesh q_m]. revert H. same.
  - destruct (Qltb h _); [|injection E as <-; exact H]. unfold split_both, split_front in E.
    destruct (Qleb 1 _ || Qleb _ 0)%bool; [discriminate|]. destruct (split_bdry _ _ _ _ _) as [bs| |]; cbn [obind] in E; try discriminate.
    injection E as <-. cbn [fst q_m]. revert H. same.
Qed.
Lemma projection_coloured st closed e f cs x : setup_projection norm sin_half cos_ang sharp scale st closed e f cs = Ok x -> coloured_q st -> coloured_q (fst x).
Proof.
  unfold setup_projection. intros E H. destruct closed; [injection E as <-; exact H|].
  destruct (adjust_all norm sin_half sharp (ms_pos (q_m st)) cs) as [|first r]; [discriminate|].
  unfold place_start in E. destruct (get_prev_edge _ e) as [p|]; [|discriminate].
  destruct (place _ _ _ st p _ _ _ _ _ _) as [y| |] eqn:P; cbn [obind] in E; try discriminate. assert (K := place_coloured _ _ _ _ _ _ _ _ _ P H).
  destruct (rev _) as [|last r']; [discriminate|]. unfold place_end in E. destruct (get_next_edge _ f) as [n|]; [|discriminate].
  destruct (place _ _ _ (fst y) n _ _ _ _ _ _) as [z| |] eqn:P'; cbn [obind] in E; try discriminate. injection E as <-. cbn [fst].
  exact (place_coloured _ _ _ _ _ _ _ _ _ P' K).
Qed.
Lemma merge_pair_coloured m t1 t2 x y z w : coloured m -> coloured (QLayerModel.merge_pair scale m t1 t2 x y z w).
Proof.
  intros H. unfold QLayerModel.merge_pair. destruct (existsb _ _); [|exact H].
  assert (K : coloured (remove_interior m y w)) by (unfold remove_interior; destruct (in_square _ _); [revert H; same|exact H]).
  assert (K2 := remove_triangle_coloured scale _ t2 (remove_triangle_coloured scale _ t1 K)).
  destruct K2 as (A & B & C). split; [exact A|]. split; [exact B|]. cbn [add_quad ms_quads QLayerModel.add_quad]. intros q Q. apply in_app_or in Q.
  destruct Q as [Q|[<-|[]]]; [exact (C q Q)|exact A].
Qed.
Lemma element_coloured m e p1 p2 x : create_element norm scale tri_ok vtx_ok qual near m e p1 p2 = Ok x -> coloured m -> coloured (fst x).
Proof.
  unfold create_element. intros E H.
  destruct (fstep scale tri_ok vtx_ok qual m _) as [[m1 [t1|]]| |] eqn:F; cbn [obind] in E; try discriminate.
  2: { injection E as <-. exact (fstep_coloured _ _ _ _ F H). }
  assert (K := fstep_coloured _ _ _ _ F H). destruct (get_edge_nodir (ms_front m1) (tr_v3 t1) (be_v2 e)) as [dg|]; [|injection E as <-; exact K].
  destruct (fstep scale tri_ok vtx_ok qual m1 _) as [[m2 [t2|]]| |] eqn:F2; cbn [obind] in E; try discriminate; injection E as <-.
  - exact (merge_pair_coloured _ _ _ _ _ _ _ (fstep_coloured _ _ _ _ F2 K)).
  - exact (fstep_coloured _ _ _ _ F2 K).
Qed.
Lemma layer_coloured cs : forall m x, create_layer norm scale tri_ok vtx_ok qual near m cs = Ok x -> coloured m -> coloured (fst x).
Proof.
  induction cs as [|c0 cs IH]; intros m x E H; cbn [create_layer] in E; [injection E as <-; exact H|].
  destruct (BdryModel.find_edge (be_id (lc_e c0)) (ms_front m)).
  - destruct (create_element _ _ _ _ _ _ m _ _ _) as [y| |] eqn:C; cbn [obind] in E; try discriminate. assert (K := element_coloured _ _ _ _ _ C H).
    destruct (create_layer _ _ _ _ _ _ (fst y) cs) as [z| |] eqn:L; cbn [obind] in E; try discriminate. injection E as <-. exact (IH _ _ L K).
  - destruct (create_layer _ _ _ _ _ _ m cs) as [z| |] eqn:L; cbn [obind] in E; try discriminate. injection E as <-. exact (IH _ _ L H).
Qed.
Lemma gap_coloured m x y z m' : close_gap sharp scale tri_ok vtx_ok m x y z = Ok m' -> coloured m -> coloured m'.
Proof.
  unfold close_gap. intros E H. destruct (sharp _ _).
  - assert (K := add_triangle_coloured m x y z H). destruct (add_triangle m x y z) as [m1 t]. cbn [fst] in K.
    destruct (negb (tri_ok m1 t)); [injection E as <-; apply remove_triangle_coloured, K|].
    destruct (get_edge_nodir (ms_front m1) y z) as [e|]; [|discriminate]. injection E as <-. apply advance_coloured, K.
  - match type of E with context [AdvanceModel.add_vertex m ?p] => assert (K := add_vertex_coloured m p H); destruct (AdvanceModel.add_vertex m p) as [m1 v] end. cbn [fst] in K.
    assert (K1 := add_triangle_coloured m1 x y v K). destruct (add_triangle m1 x y v) as [m2 t1]. cbn [fst] in K1.
    assert (K2 := add_triangle_coloured m2 y z v K1). destruct (add_triangle m2 y z v) as [m3 t2]. cbn [fst] in K2.
    destruct (negb _); [injection E as <-; apply remove_vertex_coloured, remove_triangle_coloured, remove_triangle_coloured, K2|].
    destruct (get_edge_nodir (ms_front m3) x y) as [e1|]; [|discriminate].
    destruct (get_edge_nodir _ y z) as [e2|]; [|discriminate]. injection E as <-. apply advance_coloured, advance_coloured, K2.
Qed.
Lemma gaps_coloured r : forall c0 m m', close_gaps sharp scale tri_ok vtx_ok m c0 r = Ok m' -> coloured m -> coloured m'.
Proof.
  induction r as [|d r IH]; intros c0 m m' E H; cbn [close_gaps] in E; [injection E as <-; exact H|].
  destruct (lc_v1 d) as [x|], (lc_v2 c0) as [y|]; cbn [obind] in E; try exact (IH _ _ _ E H).
  destruct (Nat.eqb x y); cbn [obind] in E; [exact (IH _ _ _ E H)|].
  destruct (close_gap _ _ _ _ m y _ x) as [m1| |] eqn:G; cbn [obind] in E; try discriminate. exact (IH _ _ _ E (gap_coloured _ _ _ _ _ G H)).
Qed.
Lemma generate_layer_coloured st h xs xe x : generate_layer norm sin_half cos_ang sharp rho scale tri_ok vtx_ok qual near st h xs xe = Ok x ->
  coloured_q st -> coloured_q (fst x).
Proof.
  unfold generate_layer. intros E H. destruct (find_ends sharp (q_m st) xs xe) as [[[[e f] closed]|]| |]; cbn [obind] in E; try discriminate.
  2: { injection E as <-. exact H. }
  destruct (base_edges _ _ e f) as [bs| |]; cbn [obind] in E; try discriminate.
  destruct (setup_projection _ _ _ _ _ st closed e f _) as [y| |] eqn:P; cbn [obind] in E; try discriminate. assert (K := projection_coloured _ _ _ _ _ _ P H).
  destruct (create_layer _ _ _ _ _ _ (q_m (fst y)) (snd y)) as [z| |] eqn:L; cbn [obind] in E; try discriminate. assert (K2 := layer_coloured _ _ _ L K).
  destruct (finish_layer sharp scale tri_ok vtx_ok (on_mesh (fst y) (fst z)) (snd z)) as [w| |] eqn:F; cbn [obind] in E; try discriminate. injection E as <-. cbn [fst].
  unfold finish_layer in F. cbn [on_mesh q_m] in F. destruct (snd z) as [|c0 r]; cbn [obind] in F.
  - injection F as <-. exact K2.
  - destruct (close_gaps sharp scale tri_ok vtx_ok (fst z) c0 r) as [m'| |] eqn:G; cbn [obind] in F; try discriminate. injection F as <-. exact (gaps_coloured _ _ _ _ G K2).
Qed.
Lemma layers_coloured n : forall st h rate xs xe x, layers norm sin_half cos_ang sharp rho scale tri_ok vtx_ok qual near n st h rate xs xe = Ok x ->
  coloured_q st -> coloured_q (fst (fst x)).
Proof.
  induction n as [|n IH]; intros st h rate xs xe x E H; cbn [layers] in E; [injection E as <-; exact H|].
  destruct (generate_layer _ _ _ _ _ _ _ _ _ _ st h xs xe) as [y| |] eqn:G; cbn [obind] in E; try discriminate. assert (K := generate_layer_coloured _ _ _ _ _ G H).
  destruct (snd y) as [[a b]|]; [|injection E as <-; exact K].
  destruct (layers _ _ _ _ _ _ _ _ _ _ n (fst y) _ rate a b) as [z| |] eqn:L; cbn [obind] in E; try discriminate. injection E as <-. exact (IH _ _ _ _ _ _ L K).
Qed.
End Oracles.

Lemma gstep_coloured o st k st' : gstep o st k = Ok st' -> coloured (q_m st) -> coloured (q_m st').
Proof.
  intros E H. destruct k as [onf front ne|fuel n|n h rate xs xe]; cbn [gstep] in E.
  - injection E as <-. revert H. same.
  - destruct (generate _ _ _ _ _ _ fuel n (q_m st)) as [[[[m b] k]| |]|] eqn:G; try discriminate. injection E as <-. exact (generate_coloured _ _ _ _ _ _ _ _ _ _ _ _ G H).
  - destruct (layers _ _ _ _ _ _ _ _ _ _ n st h rate xs xe) as [x| |] eqn:L; cbn [obind] in E; try discriminate. injection E as <-.
    apply layers_coloured in L; [|exact H]. revert L. same.
Qed.
End Generation.

(* C43, generation: after any sequence of triangulations and quad layers on a new mesh,
   complete or not, every element has the absolute value of the colour of new_mesh *)
Theorem C43_generated o color pos onf verts nv front ne st bs inq calls st' :
  new_mesh color pos onf verts nv front ne = Ok st -> gruns o (QS st bs inq) calls = Ok st' ->
  (forall t, In t (ms_tris (q_m st')) -> tr_col t = Z.abs color) /\ (forall q, In q (ms_quads (q_m st')) -> qu_col q = Z.abs color) /\
  ms_col (q_m st') = Z.abs color.
Proof.
  intros N R. enough (K : coloured (Z.abs color) (q_m st')) by (destruct K as (A & B & C); auto).
  assert (K : coloured (Z.abs color) st).
  { unfold new_mesh, int_abs in N. destruct (Z.ltb_spec 0 color) as [L|L]; cbn [obind] in N.
    - injection N as <-. split; [cbn; lia|]. split; intros ? [].
    - destruct (Z.eqb color int_min); cbn [obind] in N; [discriminate|]. injection N as <-. split; [cbn; lia|]. split; intros ? []. }
  clear N. enough (G : forall calls s, coloured (Z.abs color) (q_m s) -> gruns o s calls = Ok st' -> coloured (Z.abs color) (q_m st')) by exact (G calls (QS st bs inq) K R).
  clear. induction calls as [|k r IH]; intros s K R; cbn [gruns] in R; [injection R as <-; exact K|].
  destruct (gstep o s k) as [s'| |] eqn:E; cbn [obind] in R; try discriminate. exact (IH s' (gstep_coloured _ _ _ _ _ E K) R).
Qed.
(* the smallest int has no absolute value *)
Theorem C43_new_mesh color pos onf verts nv front ne : int_min <= color ->
  (exists st, new_mesh color pos onf verts nv front ne = Ok st) <-> color <> int_min.
Proof.
  intros L. unfold new_mesh, int_abs. unfold int_min in *. destruct (Z.ltb_spec 0 color); cbn [obind]; [split; [intros _; lia|eauto]|].
  destruct (Z.eqb_spec color (- 2 ^ 31)); cbn [obind]; [split; [intros [st E]; discriminate|contradiction]|split; eauto].
Qed.

Definition plain_oracles : oracles := OR (21 # 5) sq_valid sq_vertex (fun _ _ => 0%Q) (fun _ _ => V2 1 1) (fun _ _ _ => [0; 1; 2; 3]%nat)
  (fun v => vx v + vy v)%Q (fun _ _ => 1%Q) (fun _ _ => 0%Q) (fun _ _ => false) (fun _ => 1%Q) (fun _ _ _ => [0; 1; 2; 3]%nat).
(* a square is filled with triangles of colour 7 *)
Example C43_generated_ex : 
  match new_mesh (-7) (ms_pos sq) (ms_onf sq) (ms_verts sq) (ms_nv sq) (ms_front sq) (ms_ne sq) with
  | Ok st => match gruns plain_oracles (QS st [] (fun _ => false)) [GTriangulate 100 10] with
             | Ok s => map tr_col (ms_tris (q_m s)) = [7; 7]
             | _ => False end
  | _ => False end.
Proof. vm_compute. reflexivity. Qed.

(* ---- finished meshes ---- *)
Definition quad_colours (m : mesh) : list Z := map fa_col (mh_quads m).
Definition tri_colours (m : mesh) : list Z := map fa_col (mh_tris m).
Definition has_colour (m : mesh) (c : Z) : Prop := exists f, In f (facets m) /\ fa_col f = c.

(* C43, refinement: no assumption on the mesh is needed for the colours to come from
   the mesh before *)
Definition from (c m : mesh) : Prop := mh_tris m = mh_tris c /\ forall f, In f (mh_quads m) -> has_colour c (fa_col f).
Lemma from_add_quad c m x y z w col act : from c m -> has_colour c col -> from c (add_quad m x y z w col act).
Proof.
  intros (A & B) H. split; [exact A|]. cbn [add_quad mh_quads]. intros f F. apply in_app_or in F.
  destruct F as [F|[<-|[]]]; [exact (B f F)|exact H].
Qed.
Lemma from_same c m m' : mh_tris m' = mh_tris m -> mh_quads m' = mh_quads m -> from c m -> from c m'.
Proof. unfold from. intros -> ->. exact (fun H => H). Qed.
Lemma refine_tri_from sub c m t m' : refine_tri sub m t = Ok m' -> In t (facets c) -> from c m -> from c m'.
Proof.
  unfold refine_tri. intros E T F. destruct (fa_sh t) as [v1 v3 v5|]; [|discriminate].
  destruct (sub_of m sub v1 v3) as [v2|]; [|discriminate]. destruct (sub_of m sub v3 v5) as [v4|]; [|discriminate].
  destruct (sub_of m sub v5 v1) as [v6|]; [|discriminate]. injection E as <-. assert (H : has_colour c (fa_col t)) by (exists t; auto).
  do 3 (eapply from_same; [| |]; [reflexivity|reflexivity|]). repeat (apply from_add_quad; [|exact H]). revert F. apply from_same; reflexivity.
Qed.
Lemma refine_quad_from sub c m t m' : refine_quad sub m t = Ok m' -> In t (facets c) -> from c m -> from c m'.
Proof.
  unfold refine_quad. intros E T F. destruct (fa_sh t) as [|v1 v3 v5 v7]; [discriminate|].
  destruct (sub_of m sub v1 v3) as [v2|]; [|discriminate]. destruct (sub_of m sub v3 v5) as [v4|]; [|discriminate].
  destruct (sub_of m sub v5 v7) as [v6|]; [|discriminate]. destruct (sub_of m sub v7 v1) as [v8|]; [|discriminate].
  injection E as <-. assert (H : has_colour c (fa_col t)) by (exists t; auto).
  do 4 (eapply from_same; [| |]; [reflexivity|reflexivity|]). repeat (apply from_add_quad; [|exact H]). revert F. apply from_same; reflexivity.
Qed.
Lemma ofold_from (f : mesh -> facet -> outcome mesh) c l : (forall m t m', f m t = Ok m' -> In t (facets c) -> from c m -> from c m') ->
  (forall t, In t l -> In t (facets c)) -> forall m m', ofold f l m = Ok m' -> from c m -> from c m'.
Proof.
  intros S. induction l as [|t l IH]; intros I m m' E F; cbn [ofold] in E; [injection E as <-; exact F|].
  destruct (f m t) as [m1| |] eqn:E1; cbn [obind] in E; try discriminate.
  apply (IH (fun x X => I x (or_intror X)) m1 m' E). exact (S _ _ _ E1 (I t (or_introl eq_refl)) F).
Qed.
Theorem C43_refinement c m b : refine c = Ok (m, b) -> forall f, In f (facets m) -> has_colour c (fa_col f).
Proof.
  unfold refine. intros E. assert (SELF : forall f, In f (facets c) -> has_colour c (fa_col f)) by (intros f F; exists f; auto).
  destruct (existsb _ (mh_bdry c)); [injection E as <- _; exact SELF|].
  assert (F0 : from c c). { split; [reflexivity|]. intros f F. apply SELF. unfold facets. apply in_or_app. auto. }
  assert (F1 : from c (fst (fold_left refine_intr (mh_intr c) (c, fun _ => None)))).
  { enough (K : forall l s, from c (fst s) -> from c (fst (fold_left refine_intr l s))) by exact (K (mh_intr c) (c, fun _ => None) F0).
    induction l as [|e l IH]; intros [m1 sub] F; [exact F|]. cbn [fold_left]. apply IH. revert F. apply from_same; reflexivity. }
  destruct (fold_left refine_intr (mh_intr c) (c, fun _ => None)) as [m1 s1]. cbn [fst] in F1.
  assert (F2 : from c (fst (fold_left refine_bdry (mh_bdry c) (m1, s1)))).
  { enough (K : forall l s, from c (fst s) -> from c (fst (fold_left refine_bdry l s))) by exact (K (mh_bdry c) (m1, s1) F1).
    clear. induction l as [|e l IH]; intros [m1 sub] F; [exact F|]. cbn [fold_left]. apply IH. revert F. apply from_same; reflexivity. }
  destruct (fold_left refine_bdry (mh_bdry c) (m1, s1)) as [m2 sub]. cbn [fst] in F2.
  destruct (ofold (refine_tri sub) (mh_tris c) m2) as [m3| |] eqn:E3; cbn [obind] in E; try discriminate.
  assert (F3 : from c m3).
  { apply (ofold_from (refine_tri sub) c (mh_tris c) (fun m t m' => refine_tri_from sub c m t m')) with (2 := E3); [|exact F2]. intros t T. unfold facets. apply in_or_app. auto. }
  destruct (ofold (refine_quad sub) (mh_quads c) m3) as [m4| |] eqn:E4; cbn [obind] in E; try discriminate.
  assert (F4 : from c m4).
  { apply (ofold_from (refine_quad sub) c (mh_quads c) (fun m t m' => refine_quad_from sub c m t m')) with (2 := E4); [|exact F3]. intros t T. unfold facets. apply in_or_app. auto. }
  injection E as <- _. destruct F4 as (A & B). intros f F. unfold facets in F. apply in_app_or in F. unfold remove_old, remove_facets in F. cbn [mh_quads mh_tris] in F.
  destruct F as [F|F]; apply filter_In in F; destruct F as (F & _); [exact (B f F)|]. rewrite A in F. apply SELF. unfold facets. apply in_or_app. auto.
Qed.
(* and each element is replaced by quads of its own colour *)
Definition sub_count (f : facet) : nat := match fa_sh f with Tri3 _ _ _ => 3 | Quad4 _ _ _ _ => 4 end.
Lemma number_colours n c l : map fa_col (number_quads n c l) = repeat c (length l).
Proof. revert n. induction l as [|s l IH]; intros n; [reflexivity|]. cbn [number_quads map repeat length fa_col]. rewrite IH. reflexivity. Qed.
Theorem C43_refinement_exact c : refinable c -> exists m, refine c = Ok (m, true) /\ tri_colours m = [] /\
  quad_colours m = flat_map (fun f => repeat (fa_col f) (sub_count f)) (mh_tris c ++ mh_quads c).
Proof.
  intros RB. destruct (C31_refined_closed c RB) as [m [E R]]. exists m. split; [exact E|]. unfold tri_colours, quad_colours.
  rewrite (rf_tris _ _ R), (rf_quads _ _ R). split; [reflexivity|]. fold (order c).
  enough (K : forall l n, map fa_col (new_quads (mid_of c) n l) = flat_map (fun f => repeat (fa_col f) (sub_count f)) l) by apply K.
  induction l as [|f l IH]; intros n; [reflexivity|]. cbn [new_quads flat_map]. rewrite map_app, number_colours, IH, sub_shapes_length.
  unfold ncorner, sub_count. destruct (fa_sh f); reflexivity.
Qed.

(* C43, smoothing: the elements are the same ones *)
Theorem C43_smoothing s m ks m' : run s m ks = Ok m' -> mh_quads m' = mh_quads m /\ mh_tris m' = mh_tris m.
Proof. intros E. destruct (C35_moves s m ks m' E) as (S & _). split; [exact (ss_quads _ _ S)|exact (ss_tris _ _ S)]. Qed.

(* C43, merging: the elements of the receiver keep their colours, those of the donor
   follow with theirs *)
Definition colours (m : mesh) : list Z := map fa_col (facets m).
Definition same_facets (m m' : mesh) : Prop := mh_quads m' = mh_quads m /\ mh_tris m' = mh_tris m /\ mh_col m' = mh_col m.
Lemma sf_refl m : same_facets m m.
Proof. split; [|split]; reflexivity. Qed.
Lemma sf_trans a b c : same_facets a b -> same_facets b c -> same_facets a c.
Proof. intros (A & B & C) (A' & B' & C'). unfold same_facets. rewrite A', B', C'. auto. Qed.
Lemma sf_colours m m' : same_facets m m' -> colours m' = colours m.
Proof. intros (A & B & _). unfold colours, facets. rewrite A, B. reflexivity. Qed.
Lemma copy_vertex_same d vs : forall s, same_facets (fst s) (fst (fold_left (copy_vertex d) vs s)).
Proof.
  induction vs as [|v vs IH]; intros s; [apply sf_refl|]. cbn [fold_left]. apply (sf_trans _ (fst (copy_vertex d s v))); [|apply IH].
  unfold copy_vertex. destruct (snd s v); [apply sf_refl|split; [|split]; reflexivity].
Qed.
Lemma copy_facet_colours nv m f m' : copy_facet nv m f = Ok m' -> mh_col m' = mh_col m /\ Permutation (colours m') (own_colour m (fa_col f) :: colours m).
Proof.
  unfold copy_facet. intros E. destruct (fa_sh f) as [a b c|a b c d].
  - destruct (vget nv a); cbn [obind] in E; try discriminate. destruct (vget nv b); cbn [obind] in E; try discriminate.
    destruct (vget nv c); cbn [obind] in E; try discriminate. injection E as <-. split; [reflexivity|].
    unfold colours, facets. cbn [add_tri mh_quads mh_tris]. rewrite !map_app. cbn [map fa_col]. rewrite app_assoc. symmetry. apply Permutation_cons_append.
  - destruct (vget nv a); cbn [obind] in E; try discriminate. destruct (vget nv b); cbn [obind] in E; try discriminate.
    destruct (vget nv c); cbn [obind] in E; try discriminate. destruct (vget nv d); cbn [obind] in E; try discriminate. injection E as <-. split; [reflexivity|].
    unfold colours, facets. cbn [add_quad mh_quads mh_tris]. rewrite !map_app. cbn [map fa_col].
    rewrite <- app_assoc. cbn [app]. symmetry. apply Permutation_middle.
Qed.
Lemma copy_facets_colours nv fs : (forall f, In f fs -> 0 <= fa_col f) -> forall m m', ofold (copy_facet nv) fs m = Ok m' ->
  mh_col m' = mh_col m /\ Permutation (colours m') (map fa_col fs ++ colours m).
Proof.
  induction fs as [|f fs IH]; intros P m m' E; cbn [ofold] in E; [injection E as <-; split; reflexivity|].
  destruct (copy_facet nv m f) as [m1| |] eqn:E1; cbn [obind] in E; try discriminate.
  destruct (copy_facet_colours _ _ _ _ E1) as (C1 & P1). destruct (IH (fun x X => P x (or_intror X)) _ _ E) as (C2 & P2).
  split; [congruence|]. rewrite P2, P1. assert (L := P f (or_introl eq_refl)). unfold own_colour. destruct (Z.ltb_spec (fa_col f) 0); [lia|].
  cbn [map app]. symmetry. apply Permutation_middle.
Qed.
Lemma copy_intr_same nv es : forall m m', ofold (copy_intr nv) es m = Ok m' -> same_facets m m'.
Proof.
  induction es as [|e es IH]; intros m m' E; cbn [ofold] in E; [injection E as <-; apply sf_refl|]. unfold copy_intr at 1 in E.
  destruct (vget nv (ed_1 e)); cbn [obind] in E; try discriminate. destruct (vget nv (ed_2 e)); cbn [obind] in E; try discriminate.
  apply IH in E. eapply sf_trans; [|exact E]. split; [|split]; reflexivity.
Qed.
Lemma copy_bdry_same nv es : forall w w', ofold (copy_bdry nv) es w = Ok w' -> same_facets (w_rec w) (w_rec w').
Proof.
  induction es as [|e es IH]; intros w w' E; cbn [ofold] in E; [injection E as <-; apply sf_refl|]. unfold copy_bdry at 1 in E.
  destruct (twin_in w (w_rec w) e) as [[t|]| |]; cbn [obind] in E; try discriminate; [exact (IH _ _ E)|].
  destruct (vget nv (ed_1 e)); cbn [obind] in E; try discriminate. destruct (vget nv (ed_2 e)); cbn [obind] in E; try discriminate.
  destruct (ed_twin e); cbn [obind] in E; apply IH in E; (eapply sf_trans; [|exact E]); (split; [|split]; reflexivity).
Qed.
Lemma convert_same m s : same_facets m (convert m s).
Proof.
  unfold convert. apply (sf_trans _ (set_bdry m (remove_edges m (fst s) (mh_bdry m)))); [split; [|split]; reflexivity|].
  generalize (set_bdry m (remove_edges m (fst s) (mh_bdry m))). induction (snd s) as [|p l IH]; intros x; [apply sf_refl|].
  cbn [fold_left]. eapply sf_trans; [|apply IH]. split; [|split]; reflexivity.
Qed.
Theorem C43_merging r d oth b w : merge_pair (WD r d oth) = Ok (b, w) -> (forall f, In f (facets d) -> 0 <= fa_col f) ->
  Permutation (colours (w_rec w)) (colours r ++ (if b then colours d else [])).
Proof.
  unfold merge_pair. cbn [w_rec w_don w_oth]. intros E P. set (D := setup_facet_connectivity d) in *. set (R := setup_facet_connectivity r) in *.
  destruct (ofold _ (mh_bdry R) _) as [[[nv prop] n]| |]; cbn [obind] in E; try discriminate.
  destruct (Nat.eqb n 0); [injection E as <- <-; rewrite app_nil_r; reflexivity|].
  set (r1 := set_prop (set_next R (fresh_next (w_all (WD r d oth)))) prop) in *.
  assert (S1 := copy_vertex_same D (mh_verts D) (r1, nv)). destruct (fold_left (copy_vertex D) (mh_verts D) (r1, nv)) as [r2 nv2]. cbn [fst] in S1.
  assert (C1 : colours r2 = colours r) by (rewrite (sf_colours _ _ S1); reflexivity). clearbody r1. clear S1.
  assert (PQ : forall f, In f (mh_quads D) -> 0 <= fa_col f) by (intros f F; apply P; unfold facets; apply in_or_app; left; exact F).
  assert (PT : forall f, In f (mh_tris D) -> 0 <= fa_col f) by (intros f F; apply P; unfold facets; apply in_or_app; right; exact F).
  destruct (ofold (copy_facet nv2) (mh_quads D) r2) as [r3| |] eqn:E3; cbn [obind] in E; try discriminate. apply (copy_facets_colours nv2 _ PQ) in E3. destruct E3 as (_ & P3).
  destruct (ofold (copy_facet nv2) (mh_tris D) r3) as [r4| |] eqn:E4; cbn [obind] in E; try discriminate. apply (copy_facets_colours nv2 _ PT) in E4. destruct E4 as (_ & P4).
  destruct (ofold (copy_intr nv2) (mh_intr D) r4) as [r5| |] eqn:E5; cbn [obind] in E; try discriminate. apply copy_intr_same, sf_colours in E5.
  destruct (ofold (copy_bdry nv2) (mh_bdry D) _) as [w6| |] eqn:E6; cbn [obind] in E; try discriminate. apply copy_bdry_same, sf_colours in E6. cbn [w_rec] in E6.
  destruct (ofold _ (mh_bdry (w_rec w6)) _) as [s| |]; cbn [obind] in E; try discriminate. injection E as <- <-. cbn [w_rec].
  change (colours (remark (convert (w_rec w6) s))) with (colours (convert (w_rec w6) s)).
  rewrite (sf_colours _ _ (convert_same (w_rec w6) s)), E6, E5, P4, P3, C1.
  change (colours d) with (map fa_col (mh_quads D ++ mh_tris D)). rewrite map_app, app_assoc, Permutation_app_comm. apply Permutation_app_head, Permutation_app_comm.
Qed.
(* any sequence of refinement, smoothing and merging (tri2quad and clean up excluded:
   C32_colour_refuted, C32_cleanup_colour_refuted, C33_colour_refuted) *)
Inductive worked (base : mesh -> Prop) : mesh -> Prop :=
| WBase m : base m -> worked base m
| WRefine m m' b : worked base m -> refine m = Ok (m', b) -> worked base m'
| WSmooth s ks m m' : worked base m -> run s m ks = Ok m' -> worked base m'
| WMerge r d oth b w : worked base r -> worked base d -> merge_pair (WD r d oth) = Ok (b, w) -> worked base (w_rec w).
Theorem C43_history (base : mesh -> Prop) m : (forall x f, base x -> In f (facets x) -> 0 <= fa_col f) -> worked base m ->
  forall f, In f (facets m) -> exists x, base x /\ has_colour x (fa_col f).
Proof.
  intros P W. assert (Q : forall m, (forall f, In f (facets m) -> exists x, base x /\ has_colour x (fa_col f)) -> forall f, In f (facets m) -> 0 <= fa_col f).
  { intros y H f F. destruct (H f F) as (x & B & g & G & <-). exact (P x g B G). }
  induction W as [m B|m m' b W IH E|s ks m m' W IH E|r d oth b w W1 IH1 W2 IH2 E]; intros f F.
  - exists m. split; [exact B|]. exists f. auto.
  - destruct (C43_refinement _ _ _ E f F) as (g & G & <-). exact (IH g G).
  - destruct (C43_smoothing _ _ _ _ E) as (A & B). unfold facets in F, IH. rewrite A, B in F. exact (IH f F).
  - assert (PM := C43_merging _ _ _ _ _ E (Q d IH2)). assert (I : In (fa_col f) (colours (w_rec w))) by (apply in_map; exact F).
    apply (Permutation_in _ PM) in I. apply in_app_or in I. destruct I as [I|I].
    + apply in_map_iff in I. destruct I as (g & <- & G). exact (IH1 g G).
    + destruct b; [|destruct I]. apply in_map_iff in I. destruct I as (g & <- & G). exact (IH2 g G).
Qed.
Example C43_history_ex :
  match merge_pair (WD sq_left sq_mid [sq_right]) with
  | Ok (b, w) => b = true /\ colours sq_left = [1] /\ colours sq_mid = [5; 6] /\ colours (w_rec w) = [1; 5; 6]
  | _ => False end /\
  match refine house with Ok (m, b) => b = true /\ colours house = [7; 8] /\ colours m = [8; 8; 8; 7; 7; 7; 7] | _ => False end /\
  match smooth_with (plain square4 false) laplace (3 # 4) 1 1 (fan_mesh 0) with Ok m => colours m = colours (fan_mesh 0) /\ colours m <> [] | _ => False end.
Proof. vm_compute. repeat split; discriminate. Qed.

Print Assumptions C43_generated.
Print Assumptions C43_new_mesh.
Print Assumptions C43_refinement.
Print Assumptions C43_refinement_exact.
Print Assumptions C43_smoothing.
Print Assumptions C43_merging.
Print Assumptions C43_history.
