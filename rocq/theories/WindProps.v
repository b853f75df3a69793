(* C50: the elements cover the domain exactly once; part 1, the advancing front. *)
From Coq Require Import Lqa Lia Permutation.
From Verif Require Import Base Chain GeomModel GeomSpec FacetModel UtilModel BdryModel BdrySpec
  AdvanceModel AdvanceSpec AdvanceProofs AdvanceInv AdvanceMore AdvanceGeom AdvanceProps LoopModel LoopProps
  FrontModel FrontSpec FrontProofs FrontProps MeshModel WindSpec WindProofs WindFront WindMesh.
Open Scope Q_scope.

(* ---------- the advancing front ---------- *)
Definition tri_shape (t : tri) : shape := Tri3 (tr_v1 t) (tr_v2 t) (tr_v3 t).
Definition front_segments (st : mstate) : list (vec2 * vec2) :=
  map (fun e => (ms_pos st (be_v1 e), ms_pos st (be_v2 e))) (ms_front st).
Definition front_region (st : mstate) (p : vec2) : Q := winding p (front_segments st).
Lemma front_region_ends st p : front_region st p == esum (at_pos (ms_pos st) p) (ends (ms_front st)).
Proof.
  unfold front_region, winding, front_segments, ends. induction (ms_front st) as [|e l IH]; [reflexivity|]. cbn [map esum]. rewrite IH. reflexivity.
Qed.
Lemma tri_shape_sides ts : flat_map shape_sides (map tri_shape ts) = AdvanceSpec.sides ts.
Proof. induction ts as [|t ts IH]; [reflexivity|]. cbn [map flat_map]. rewrite IH. reflexivity. Qed.

(* whatever is accepted: counter-clockwise elements own every point as often as
   the consumed part of the front winds around it *)
Theorem C50_front_partial : forall mesh_scale tri_ok vtx_ok qual os st st',
  wf st -> vertices_in front_scale st -> Forall (op_in front_scale) os ->
  accepted mesh_scale tri_ok vtx_ok qual sides_expected st os ->
  frun mesh_scale tri_ok vtx_ok qual st os = Ok st' -> generated st = [] ->
  (forall t, In t (generated st') -> 0 < tri_area (ms_pos st' (tr_v1 t)) (ms_pos st' (tr_v2 t)) (ms_pos st' (tr_v3 t))) ->
  tiles (ms_pos st') (map tri_shape (generated st')) (fun p => front_region st p - front_region st' p).
Proof.
  intros mesh_scale tri_ok vtx_ok qual os st st' W V O X H G P p.
  destruct (all_owned (ms_pos st') p (map tri_shape (generated st'))) as [bs [B E]].
  { intros s Hs. apply in_map_iff in Hs. destruct Hs as [t [<- Ht]]. cbn. specialize (P t Ht). assert (D := WindMesh.tri_area_det (ms_pos st' (tr_v1 t)) (ms_pos st' (tr_v2 t)) (ms_pos st' (tr_v3 t))). lra. }
  exists bs. split; [exact B|]. rewrite E, tri_shape_sides, !front_region_ends.
  assert (A : antisym (at_pos (ms_pos st') p)) by apply at_pos_antisym.
  pose proof (run_anti mesh_scale tri_ok vtx_ok qual _ os st st' A W V O X H) as K. unfold wtotal in K. rewrite G in K. cbn [AdvanceSpec.sides flat_map esum] in K.
  destruct (run_wf mesh_scale tri_ok vtx_ok qual os st st' W H) as (_ & _ & PO & _).
  assert (F : esum (at_pos (ms_pos st') p) (ends (ms_front st)) == esum (at_pos (ms_pos st) p) (ends (ms_front st))).
  { apply esum_ext. intros a b Hab. unfold ends in Hab. apply in_map_iff in Hab. destruct Hab as [e [Ee He]]. injection Ee as <- <-.
    destruct (wf_ev _ W e He) as (L1 & L2 & _). unfold at_pos. rewrite (PO _ L1), (PO _ L2). reflexivity. }
  rewrite <- F. lra.
Qed.
(* with the tests of the code and an empty front: exactly the initial front; the
   elements do not overlap, though nothing compares them with each other *)
Theorem C50_generated_partial : forall rho shape_ok dom mesh_scale inside qual os st st',
  wf st -> vertices_in front_scale st -> Forall (op_in front_scale) os -> generated st = [] ->
  accepted mesh_scale (triangle_is_valid rho shape_ok dom) (vertex_is_valid rho inside) qual sides_expected st os ->
  frun mesh_scale (triangle_is_valid rho shape_ok dom) (vertex_is_valid rho inside) qual st os = Ok st' -> ms_front st' = [] ->
  tiles (ms_pos st') (map tri_shape (generated st')) (front_region st) /\
  (simple_region (front_region st) -> forall i j t u p, i <> j ->
     nth_error (generated st') i = Some t -> nth_error (generated st') j = Some u ->
     ~ (inside_shape (ms_pos st') (tri_shape t) p /\ inside_shape (ms_pos st') (tri_shape u) p)).
Proof.
  intros rho shape_ok dom mesh_scale inside qual os st st' W V O G X H F.
  assert (T : tiles (ms_pos st') (map tri_shape (generated st')) (front_region st)).
  { apply (tiles_eq _ _ (fun p => front_region st p - front_region st' p)).
    - intros p. assert (Z : front_region st' p == 0) by (unfold front_region, front_segments; rewrite F; reflexivity). rewrite Z. ring.
    - refine (C50_front_partial _ _ _ _ _ _ _ W V O X H G _). exact (C24_positive rho shape_ok dom mesh_scale inside qual os st st' W G H). }
  split; [exact T|]. intros R i j t u p N Hi Hj [It Iu]. apply N.
  apply (tiles_disjoint _ _ _ T R i j (tri_shape t) (tri_shape u) p); [| |exact It|exact Iu]; apply map_nth_error; assumption.
Qed.

(* ---------- from the domain boundary to the finished triangulation ---------- *)
(* the boundary edges of the domain, those along a neighbour mesh replaced by its edges *)
Definition domain_region (bounds : list dedge) (meshes : list (list dedge)) (p : vec2) : Q :=
  winding p (map fst (flat_map (wanted meshes) bounds)).
Lemma domain_region_alone bounds p : domain_region bounds [] p = winding p (map de_ends bounds).
Proof. unfold domain_region, winding. f_equal. induction bounds as [|e l IH]; [reflexivity|]. cbn [flat_map map app]. rewrite <- IH. reflexivity. Qed.

(* the test of the code with the assumption of C23 and C24 added to it *)
Definition expected_side (o : option bedge) (a b : nat) : bool :=
  match o with Some e => Nat.eqb (be_v1 e) a && Nat.eqb (be_v2 e) b | None => true end.
Definition strict (tri_ok : mstate -> tri -> bool) (st : mstate) (t : tri) : bool :=
  tri_ok st t &&
  expected_side (get_edge_nodir (ms_front st) (tr_v3 t) (tr_v1 t)) (tr_v3 t) (tr_v1 t) &&
  expected_side (get_edge_nodir (ms_front st) (tr_v3 t) (tr_v2 t)) (tr_v2 t) (tr_v3 t).
Lemma strict_expected tri_ok st t : strict tri_ok st t = true -> tri_ok st t = true /\ sides_expected st t.
Proof.
  unfold strict, expected_side, sides_expected. rewrite !andb_true_iff. intros ((A & B) & C). split; [exact A|]. split; intros e E; rewrite E in *.
  - apply andb_true_iff in B. rewrite !Nat.eqb_eq in B. exact B.
  - apply andb_true_iff in C. rewrite !Nat.eqb_eq in C. exact C.
Qed.
Section Tests.
Variable mesh_scale : Q.
Variable tri_ok : mstate -> tri -> bool.
Variable vtx_ok : mstate -> nat -> bool.
Variable qual : mstate -> tri -> Q.
Lemma expected_accepted os st : (forall s t, tri_ok s t = true -> sides_expected s t) -> wf st ->
  accepted mesh_scale tri_ok vtx_ok qual sides_expected st os.
Proof.
  intros X. revert st. induction os as [|o os IH]; intros st W; [exact I|]. cbn [accepted].
  destruct (fstep mesh_scale tri_ok vtx_ok qual st o) as [[st' [t|]]| |] eqn:E; try exact I.
  - split; [|apply IH; exact (step_wf _ _ _ _ _ _ _ _ W E)].
    destruct (fstep_spec _ _ _ _ _ _ _ _ W E) as (st2 & base & T & _). destruct (tk_ok _ _ _ _ _ T) as (stx & G & OK & _).
    specialize (X stx t OK). unfold sides_expected in *. rewrite (g_front _ _ G) in X. exact X.
  - apply IH. exact (step_wf _ _ _ _ _ _ _ _ W E).
Qed.
Definition all_positive (st : mstate) : Prop := forall t, In t (generated st) ->
  0 < tri_area (ms_pos st (tr_v1 t)) (ms_pos st (tr_v2 t)) (ms_pos st (tr_v3 t)).
Lemma run_positive os st st' : (forall s t, tri_ok s t = true -> 0 < tri_area (ms_pos s (tr_v1 t)) (ms_pos s (tr_v2 t)) (ms_pos s (tr_v3 t))) ->
  wf st -> all_positive st -> frun mesh_scale tri_ok vtx_ok qual st os = Ok st' -> all_positive st'.
Proof.
  intros X. revert st. induction os as [|o os IH]; intros st W P H; cbn [frun] in H; [injection H as <-; exact P|].
  destruct (fstep mesh_scale tri_ok vtx_ok qual st o) as [[s r]| |] eqn:E; try discriminate. cbn [obind fst] in H.
  apply (IH s); [exact (step_wf _ _ _ _ _ _ _ _ W E)| |exact H]. clear IH H.
  pose proof (step_pos _ _ _ _ _ _ _ _ W E) as [_ PP].
  assert (OLD : forall t, In t (generated st) -> 0 < tri_area (ms_pos s (tr_v1 t)) (ms_pos s (tr_v2 t)) (ms_pos s (tr_v3 t))).
  { intros t Ht. destruct (wf_tv _ W t (gen_in _ _ Ht)) as (A & B & C). rewrite !PP by assumption. exact (P t Ht). }
  apply fstep_spec in E; [|exact W]. destruct r as [t|].
  - destruct E as (st2 & base & T & E & _). destruct (tk_ok _ _ _ _ _ T) as (stx & G & OK & PX & _).
    pose proof (advance_generated st2 base (tr_v3 t) t (tk_wf _ _ _ _ _ T) (tk_in _ _ _ _ _ T) (tk_act _ _ _ _ _ T)) as PG.
    rewrite <- E, (g_gen _ _ (tk_grown _ _ _ _ _ T)) in PG.
    assert (E2 : ms_pos s = ms_pos st2) by (rewrite E; reflexivity).
    destruct (wf_tv _ (tk_wf _ _ _ _ _ T) t (tk_in _ _ _ _ _ T)) as (B1 & B2 & B3).
    intros u Hu. apply (Permutation_in _ PG) in Hu. destruct Hu as [<-|Hu]; [|apply OLD; exact Hu].
    specialize (X stx t OK). rewrite !PX in X by assumption. cbn [activated tr_v1 tr_v2 tr_v3]. rewrite E2. exact X.
  - destruct E as (G & _). intros t Ht. rewrite (q_gen _ _ G) in Ht. apply OLD. exact Ht.
Qed.
End Tests.

(* an initial front of the domain, the loops of generate_elements, success with
   an empty front; the additional test never has an effect: every point lies in
   as many elements as the domain boundary winds around it *)
Theorem C50_domain_partial : forall bounds fixed meshes sub loose col rho shape_ok dom mesh_scale inside qual newpos query fuel n st' c,
  closed_curves (map de_ends bounds) ->
  (forall e, In e bounds -> neighbours meshes e <> [] -> covered e (neighbours meshes e)) ->
  (forall e, In e bounds -> de_fix e = false) -> (forall e, In e fixed -> de_fix e = true) ->
  (forall e, In e (concat meshes) -> de_fix e = false) ->
  (forall e, In e (bounds ++ fixed ++ concat meshes) -> veqb (de_a e) (de_b e) = false /\
     in_square front_scale (de_a e) = true /\ in_square front_scale (de_b e) = true) ->
  (forall a b, Forall (on_line a b) (sub a b)) ->
  (forall a b p, In p (sub a b) -> in_square front_scale a = true -> in_square front_scale b = true ->
     in_square front_scale p = true) ->
  (forall p, In p loose -> in_square front_scale p = true) ->
  (forall s e, in_square front_scale (newpos s e) = true) -> (0 < n < 2 ^ 31)%Z ->
  let st := prepared sub (collect_front_edges bounds fixed meshes) loose col in
  let tri_ok := triangle_is_valid rho shape_ok dom in
  let vtx_ok := vertex_is_valid rho inside in
  generate mesh_scale tri_ok vtx_ok qual newpos query fuel n st = Some (Ok (st', true, c)) ->
  generate mesh_scale (strict tri_ok) vtx_ok qual newpos query fuel n st = Some (Ok (st', true, c)) ->
  ms_front st <> [] -> ms_front st' = [] ->
  tiles (ms_pos st') (map tri_shape (generated st')) (domain_region bounds meshes).
Proof.
  intros bounds fixed meshes sub loose col rho shape_ok dom mesh_scale inside qual newpos query fuel n st' c
    CC CV HB HF HM HE HL HS HO NP Hn st tri_ok vtx_ok _ G NE F.
  destruct (C21_start_partial bounds fixed meshes sub loose col CC CV HB HF HM HE HS HO) as (W & _ & V & _ & GE & _). fold st in W, V, GE.
  destruct (C27_success_partial mesh_scale (strict tri_ok) vtx_ok qual newpos query fuel n st _ W NE Hn G) as (st1 & r & c1 & os & E & _ & R & O & _).
  injection E as <- <- <-.
  assert (P : all_positive st').
  { apply (run_positive mesh_scale (strict tri_ok) vtx_ok qual os st st'); [|exact W| |exact R].
    - intros s t K. apply strict_expected in K. exact (proj1 (valid_facts _ _ _ _ _ (proj1 K))).
    - intros t Ht. rewrite GE in Ht. destruct Ht. }
  assert (A := expected_accepted mesh_scale (strict tri_ok) vtx_ok qual os st (fun s t K => proj2 (strict_expected tri_ok s t K)) W).
  apply (tiles_eq _ _ (fun p => front_region st p - front_region st' p)).
  - intros p. assert (Z : front_region st' p == 0) by (unfold front_region, front_segments; rewrite F; reflexivity).
    pose proof (initial_winding p bounds fixed meshes sub loose col HB HF HM HE HL) as IW. cbv zeta in IW. fold st in IW. rewrite Z, front_region_ends, IW. unfold domain_region. ring.
  - exact (C50_front_partial _ _ _ _ os st st' W V (O _ NP) A R GE P).
Qed.

(* ---------- cases ---------- *)
(* the square of the cases of C23 - C25, meshed with two triangles *)
Lemma square_simple : simple_region (front_region sq).
Proof.
  intros p. destruct (shape_owned (ms_pos sq) p (Quad4 0 1 2 3)) as [b [_ E]].
  - left. split; vm_compute; reflexivity.
  - assert (K : front_region sq p == esum (at_pos (ms_pos sq) p) (shape_sides (Quad4 0 1 2 3))) by (rewrite front_region_ends; reflexivity).
    rewrite K. destruct b; lra.
Qed.
Example C50_square_case : wf sq /\ vertices_in front_scale sq /\ Forall (op_in front_scale) sq_ops /\ generated sq = [] /\
  accepted (21 # 5) sq_valid sq_vertex (fun _ _ => 0) sides_expected sq sq_ops /\ sq_run = Ok sq_end /\ ms_front sq_end = [] /\
  simple_region (front_region sq) /\ length (generated sq_end) = 2%nat /\ front_region sq (V2 1 1) == 1 /\ front_region sq (V2 3 1) == 0.
Proof.
  split; [exact sq_wf|]. split; [exact sq_square|]. split; [exact sq_ops_in|]. split; [reflexivity|].
  split; [refine (accepted_imp _ _ _ _ _ _ _ _ _ sq_accepted); tauto|]. split; [apply sq_ends|]. split; [vm_compute; reflexivity|].
  split; [exact square_simple|]. split; [vm_compute; reflexivity|]. split; vm_compute; reflexivity.
Qed.

(* a square domain from its boundary edges to the finished triangulation *)
Definition box2 : list dedge := [e0 0 0 2 0 1; e0 2 0 2 2 2; e0 2 2 0 2 3; e0 0 2 0 0 4].
Definition box_start : mstate := prepared no_sub (collect_front_edges box2 [] []) [] 1%Z.
Example C50_box_case : closed_curves (map de_ends box2) /\
  (exists st', generate (21 # 5) sq_valid sq_vertex (fun _ _ => 0) (fun _ _ => V2 1 1) (fun _ _ _ => [0; 1; 2; 3]%nat) 100 10 box_start = Some (Ok (st', true, 2%nat)) /\
    generate (21 # 5) (strict sq_valid) sq_vertex (fun _ _ => 0) (fun _ _ => V2 1 1) (fun _ _ _ => [0; 1; 2; 3]%nat) 100 10 box_start = Some (Ok (st', true, 2%nat)) /\
    ms_front st' = [] /\ tiles (ms_pos st') (map tri_shape (generated st')) (domain_region box2 [])) /\
  domain_region box2 [] (V2 1 1) == 1 /\ domain_region box2 [] (V2 3 1) == 0.
Proof.
  assert (CC : closed_curves (map de_ends box2)).
  { intros x. unfold starting, ending, box2. cbn [map de_ends e0 de_a de_b fst snd filter].
    rewrite (veqb_sym (V2 0 0) x), (veqb_sym (V2 2 0) x), (veqb_sym (V2 2 2) x), (veqb_sym (V2 0 2) x).
    destruct (veqb x (V2 0 0)), (veqb x (V2 2 0)), (veqb x (V2 2 2)), (veqb x (V2 0 2)); reflexivity. }
  split; [exact CC|]. split; [|split; vm_compute; reflexivity].
  assert (EQ : generate (21 # 5) (strict sq_valid) sq_vertex (fun _ _ => 0) (fun _ _ => V2 1 1) (fun _ _ _ => [0; 1; 2; 3]%nat) 100 10 box_start =
    generate (21 # 5) sq_valid sq_vertex (fun _ _ => 0) (fun _ _ => V2 1 1) (fun _ _ _ => [0; 1; 2; 3]%nat) 100 10 box_start) by (vm_compute; reflexivity).
  assert (S : match generate (21 # 5) sq_valid sq_vertex (fun _ _ => 0) (fun _ _ => V2 1 1) (fun _ _ _ => [0; 1; 2; 3]%nat) 100 10 box_start with
    | Some (Ok (s, r, c)) => (ms_front s, r, c) = ([], true, 2%nat) | _ => False end) by (vm_compute; reflexivity).
  destruct (generate (21 # 5) sq_valid sq_vertex (fun _ _ => 0) (fun _ _ => V2 1 1) (fun _ _ _ => [0; 1; 2; 3]%nat) 100 10 box_start) as [[[[st' r] c]| |]|] eqn:G;
    try contradiction.
  injection S as F -> ->. exists st'. split; [reflexivity|]. split; [exact EQ|]. split; [exact F|].
  refine (C50_domain_partial box2 [] [] no_sub [] 1%Z (fun _ => 2) no_shape (edge_pts sq_pts sq_front) (21 # 5) (fun _ => true) (fun _ _ => 0)
    (fun _ _ => V2 1 1) (fun _ _ _ => [0; 1; 2; 3]%nat) 100 10 _ 2 CC _ _ _ _ _ _ _ _ _ _ G EQ _ F).
  - intros e _ N. exfalso. apply N. reflexivity.
  - intros e H. cbn in H. repeat (destruct H as [<-|H]; [reflexivity|]). destruct H.
  - intros e [].
  - intros e [].
  - intros e H. cbn in H. repeat (destruct H as [<-|H]; [split; [|split]; vm_compute; reflexivity|]). destruct H.
  - intros a b. constructor.
  - intros a b p [].
  - intros p [].
  - intros _ _. vm_compute. reflexivity.
  - lia.
  - vm_compute. discriminate.
Qed.

Print Assumptions C50_front_partial.
Print Assumptions C50_generated_partial.
Print Assumptions C50_domain_partial.
