(* C62: meshing attempts that go on where others have stopped. *)
From Coq Require Import Lia Permutation Lqa.
From Verif Require Import Base Chain GeomModel GeomSpec GeomProofs FacetModel UtilModel BdryModel BdrySpec AdvanceModel AdvanceSpec AdvanceProofs AdvanceInv AdvanceMore AdvanceGeom AdvanceProps
  LoopModel LoopProps FrontModel FrontSpec FrontProofs FrontProps WindInsideProps PolySpec PolyMain PolyProps WindProps ClearStart ClearDomain MeshModel MeshSpec MeshProofs MeshCheck QRefineModel QRefineSpec CleanModel CleanSpec CleanProps T2QSpec T2QProps WindSpec WindProofs ClearSpec ClearRun ClearEnd ClearProps
  FinModel FinMesh FinProps QTileSpec MixSpec MixShape MixRun ContModel ContSpec OpenConn ContProofs ContMesh ContStage ContEnd ContRun.
Open Scope Q_scope.

Lemma front_lines m k l : map (seg (mh_pos m)) (front_from k l) = map (line_of m) l.
Proof. revert k. induction l as [|e l IH]; intros k; [reflexivity|]. cbn [front_from map]. rewrite IH. reflexivity. Qed.
Lemma outline_lines m0 m : grows m0 m -> laid m0 -> map (seg (mh_pos m)) (outline 0 m0) = map (line_of m0) (mh_bdry m0).
Proof.
  intros G L. rewrite outline_from. assert (X : forall e, In e (mh_bdry m0) -> line_of m e = line_of m0 e).
  { intros e J. unfold line_of. destruct (ld_edges _ L e) as (_ & X & Y); [apply in_or_app; right; exact J|]. rewrite !(gr_pos _ _ G) by assumption. reflexivity. }
  rewrite front_lines. apply map_ext_in. exact X.
Qed.
Lemma enclosed_lines pos es : enclosed pos es == (1 # 2) * esum vcross (map (seg pos) es).
Proof.
  unfold enclosed, ends. apply Qmult_comp; [reflexivity|]. induction es as [|e es IH]; [reflexivity|]. cbn [map esum]. unfold seg at 1. cbn [esum]. rewrite IH. reflexivity.
Qed.

(* ---------- without conditions on the geometry ---------- *)
(* No attempt loses or moves anything: vertices, elements and boundary edges stay, with
   their colours and properties. *)
Theorem C62_keeps : forall rho m m', laid m -> mh_verts m <> [] -> continued rho m m' ->
  incl (mh_verts m) (mh_verts m') /\ (forall v, In v (mh_verts m) -> mh_pos m' v = mh_pos m v) /\
  incl (facets m) (facets m') /\ mh_quads m' = mh_quads m /\ map bare (mh_bdry m') = map bare (mh_bdry m) /\ laid m'.
Proof.
  intros rho m m' L NV H. destruct (continued_weak rho m m' L NV H) as (L' & _ & G & Q & B).
  split; [exact (gr_verts _ _ G)|]. split; [exact (gr_pos _ _ G)|]. split; [exact (gr_facets _ _ G)|]. auto.
Qed.

(* ---------- between two attempts ---------- *)
(* The front, the interior edges and the elements at the end of an attempt are found
   again by the next one.  Partial: under the conditions of C57 on the vertices and the
   segments, and without elements that orientation() takes for collinear. *)
Theorem C62_restart_partial : forall rho shape_ok dom inside qual m0 m os m',
  blank m0 -> simple_front (mh_pos m0) (outline 0 m0) -> continued rho m0 m -> ops_in (mh_scale m) os ->
  stage (triangle_is_valid rho shape_ok dom) (vertex_is_valid rho inside) qual m os = Ok m' ->
  exact_at (mh_pos m') (mh_verts m') -> found_at (near rho) (mh_pos m') (outline 0 m0) (pieces (map fa_sh (facets m'))) ->
  (forall f, In f (mh_tris m') -> 3 * tol26 <= 2 * fa_area (mh_pos m') f) ->
  exists st', frun (mh_scale m) (triangle_is_valid rho shape_ok dom) (vertex_is_valid rho inside) qual (opened (setup_facet_connectivity m)) os = Ok st' /\
    m' = put_back (setup_facet_connectivity m) st' /\ same_state st' (opened (setup_facet_connectivity m')).
Proof.
  intros rho shape_ok dom inside qual m0 m os m' BL S0 CO O E EX FO AR.
  assert (CO' : continued rho m0 m') by exact (co_next rho m0 shape_ok dom inside qual os m m' CO O E).
  assert (K := outline_kind m0 BL). assert (S := outline_simple rho m0 m' BL S0 CO').
  assert (C := blank_centred rho m0 m' BL CO' AR).
  destruct (continued_weak rho m0 m (bl_laid _ BL) (blank_verts m0 BL) CO) as (L1 & V1 & _).
  destruct (stage_weak _ _ _ _ _ _ L1 V1 O E) as (_ & _ & G2).
  assert (LS : lasts (mh_pos m') (mh_verts m') (map fa_sh (facets m')) m') by (constructor; auto; apply incl_refl).
  assert (M : midway (mh_pos m') (pieces (map fa_sh (facets m'))) (outline 0 m0) m).
  { apply (continued_midway rho (mh_pos m') (mh_verts m') (map fa_sh (facets m')) (outline 0 m0) m0 m EX FO K S (blank_midway _ _ _ BL S) CO (lasts_grows _ _ _ _ _ G2 LS)).
    intros f J. apply (centred_ext (mh_pos m')); [|apply C, (gr_facets _ _ G2), J]. intros v X. symmetry. apply (gr_pos _ _ G2). apply (ld_facets _ L1 f J), X. }
  destruct (stage_midway rho shape_ok dom inside qual _ _ _ _ EX FO K S m os m' M O E LS C) as (_ & st' & R & P & _ & SS). exists st'. auto.
Qed.

(* At any time the elements are apart, inside the boundary and outside of the front that
   is left, and cover the difference; the area is what the mesh has added up; the check
   finds out whether every boundary edge has an element, and nothing about the rest. *)
Theorem C62_between_partial : forall rho m0 m, blank m0 -> simple_front (mh_pos m0) (outline 0 m0) -> continued rho m0 m ->
  exact_at (mh_pos m) (mh_verts m) -> found_at (near rho) (mh_pos m) (outline 0 m0) (pieces (map fa_sh (facets m))) ->
  (forall f, In f (mh_tris m) -> 3 * tol26 <= 2 * fa_area (mh_pos m) f) ->
  (forall f g z, In f (facets m) -> In g (facets m) -> inside_shape (mh_pos m) (fa_sh f) z -> inside_shape (mh_pos m) (fa_sh g) z -> f = g) /\
  (forall f z, In f (facets m) -> inside_shape (mh_pos m) (fa_sh f) z -> whole_region m0 z == 1 /\ open_region m z == 0) /\
  (forall z, whole_region m0 z == 1 -> open_region m z == 0 -> exists f, In f (facets m) /\ in_closure (mh_pos m) (fa_sh f) z) /\
  (forall z, 0 <= open_region m z <= whole_region m0 z) /\
  NoDup (all_sides m) /\
  mh_area m == QRefineSpec.covered m /\
  QRefineSpec.covered m + line_area m (front_edges (setup_facet_connectivity m)) == line_area m0 (mh_bdry m0) /\
  (check_mesh_validity m = true <-> forall e, In e (mh_bdry m) -> In (ed_1 e, ed_2 e) (all_sides m)).
Proof.
  intros rho m0 m BL S0 CO EX FO AR. assert (M := blank_mid rho m0 m BL S0 CO EX FO AR). assert (S := outline_simple rho m0 m BL S0 CO). assert (K := outline_kind m0 BL).
  destruct (blank_weak rho m0 m BL CO) as (L & V & G & NQ & B).
  assert (E0 : map (seg (mh_pos m)) (outline 0 m0) = map (line_of m0) (mh_bdry m0)) by exact (outline_lines m0 m G (bl_laid _ BL)).
  assert (E1 : map (seg (mh_pos m)) (ms_front (opened (setup_facet_connectivity m))) = map (line_of m) (front_edges (setup_facet_connectivity m))) by exact (front_lines m _ _).
  assert (T := end_tiles _ _ _ m M). unfold open_region, whole_region. rewrite <- E0, <- E1.
  split; [exact (end_apart _ _ _ m S M)|]. split; [exact (end_inside _ _ _ m S M)|]. split; [|split; [|split; [|split; [|split]]]].
  - intros z W O. destruct (tiles_cover _ _ _ z T) as (s & Hs & C); [cbn beta; lra|]. apply in_map_iff in Hs. destruct Hs as (f & <- & J). exists f. auto.
  - intros z. assert (A := sf_region _ _ (pw_simple _ _ _ _ _ _ (mw_way _ _ _ _ M)) z). split; [apply A|]. destruct (T z) as (bs & _ & C). assert (P := how_many_nonneg bs). lra.
  - exact (mid_nodup _ _ _ m S M).
  - exact (proj1 (end_area _ _ _ m M (fun v _ => eq_refl))).
  - destruct (end_area _ _ _ m M (fun v _ => eq_refl)) as [_ A]. rewrite !enclosed_lines, E0, E1 in A. exact A.
  - exact (end_check _ _ _ m S K M).
Qed.

(* ---------- complete meshes ---------- *)
(* When nothing is left of the front the mesh is sound, passes the check, and the
   clean up that follows succeeds: C60 for any number of attempts. *)
Theorem C62_complete_partial : forall rho m0 m, blank m0 -> simple_front (mh_pos m0) (outline 0 m0) -> unpinched_mesh m0 -> continued rho m0 m ->
  exact_at (mh_pos m) (mh_verts m) -> found_at (near rho) (mh_pos m) (outline 0 m0) (pieces (map fa_sh (facets m))) ->
  (forall f, In f (mh_tris m) -> 3 * tol26 <= 2 * fa_area (mh_pos m) f) -> (0 <= mh_col m0)%Z ->
  front_edges (setup_facet_connectivity m) = [] ->
  sound m /\ check_mesh_validity m = true /\ one_colour m /\ QRefineSpec.covered m == line_area m0 (mh_bdry m0) /\
  (forall z, whole_region m0 z == 1 -> exists f, In f (facets m) /\ in_closure (mh_pos m) (fa_sh f) z) /\
  exists m', cleanup m = Ok m' /\ kept m m' /\ mh_quads m' = [] /\ one_colour m' /\
    (forall f, In f (mh_tris m') -> 3 * tol26 <= 2 * fa_area (mh_pos m') f).
Proof.
  intros rho m0 m BL S0 UP CO EX FO AR C0 F. assert (M := blank_mid rho m0 m BL S0 CO EX FO AR). assert (S := outline_simple rho m0 m BL S0 CO). assert (K := outline_kind m0 BL).
  destruct (blank_weak rho m0 m BL CO) as (L & V & G & NQ & B).
  assert (FE : ms_front (opened (setup_facet_connectivity m)) = []) by (cbn [opened ms_front]; rewrite F; reflexivity).
  assert (SD := full_sound _ _ _ m S M FE eq_refl (blank_convex rho m0 m BL S0 CO EX FO AR) (blank_pinch rho m0 m BL CO UP)).
  assert (OC : one_colour m) by (intros f J; apply (ld_facets _ L f J)).
  destruct (C62_between_partial rho m0 m BL S0 CO EX FO AR) as (_ & _ & CV & _ & _ & _ & A & _).
  split; [exact SD|]. split; [exact (full_check _ _ _ m S K M FE)|]. split; [exact OC|]. split; [rewrite <- A, F; unfold line_area; cbn; lra|]. split.
  { intros z W. apply CV; [exact W|]. unfold open_region. rewrite F. reflexivity. }
  assert (TP := tol_pos).
  destruct (C60_cleanup_partial m SD NQ OC) as (m' & E & KE & NQ' & OC' & _ & _ & GR).
  { rewrite (gr_col _ _ G). exact C0. }
  { intros f J. assert (X := AR f J). lra. }
  exists m'. split; [exact E|]. split; [exact KE|]. split; [exact NQ'|]. split; [exact OC'|].
  intros f J. assert (X : (3 # 2) * tol26 <= fa_area (mh_pos m') f); [|lra]. apply GR; [|exact J]. intros g I. assert (Y := AR g I). lra.
Qed.

(* The same for calls of generate_elements: all attempts but the last end with a failed
   check, the last one with an empty front. *)
Theorem C62_attempts_partial : forall rho m0 l m a st' r c, blank m0 -> simple_front (mh_pos m0) (outline 0 m0) -> unpinched_mesh m0 ->
  Forall (setting_ok rho (mh_scale m0)) (l ++ [a]) -> halted m0 l m -> loops a m = Some (Ok (st', r, c)) ->
  let m1 := put_back (setup_facet_connectivity m) st' in
  exact_at (mh_pos m1) (mh_verts m1) -> found_at (near rho) (mh_pos m1) (outline 0 m0) (pieces (map fa_sh (facets m1))) ->
  (forall f, In f (mh_tris m1) -> 3 * tol26 <= 2 * fa_area (mh_pos m1) f) -> (0 <= mh_col m0)%Z -> ms_front st' = [] ->
  exists m', attempts m0 (l ++ [a]) = Some (Ok m') /\ sound m' /\ mh_quads m' = [] /\ one_colour m' /\
    QRefineSpec.covered m' == line_area m0 (mh_bdry m0) /\ map bare (mh_bdry m') = map bare (mh_bdry m0) /\
    (forall f, In f (mh_tris m') -> 3 * tol26 <= 2 * fa_area (mh_pos m') f).
Proof.
  intros rho m0 l m a st' r c BL S0 UP FS HA LO m1 EX FO AR C0 F.
  apply Forall_app in FS. destruct FS as [FL FA]. inversion FA as [|? ? SA _]; subst.
  destruct (halted_run rho m0 l m (bl_laid _ BL) (blank_verts m0 BL) (bl_some _ BL) FL HA) as [CO AT].
  destruct (continued_weak rho m0 m (bl_laid _ BL) (blank_verts m0 BL) CO) as (L & V & G & NQ & B).
  rewrite <- (gr_scale _ _ G) in SA. destruct (loops_stage rho a m st' r c SA L LO) as (so & dom & ins & os & O & E & R & _). fold m1 in E.
  assert (CO1 : continued rho m0 m1) by exact (co_next rho m0 so dom ins _ os m m1 CO O E).
  assert (FE : front_edges (setup_facet_connectivity m1) = []).
  { destruct (C62_restart_partial rho so dom ins (se_qual a) m0 m os m1 BL S0 CO O E EX FO AR) as (s & R' & _ & SS). rewrite R in R'. injection R' as <-.
    assert (X := Permutation_length (ss_front _ _ SS)). rewrite !map_length, F in X. cbn [opened ms_front length] in X.
    destruct (front_edges (setup_facet_connectivity m1)); [reflexivity|discriminate]. }
  destruct (C62_complete_partial rho m0 m1 BL S0 UP CO1 EX FO AR C0 FE) as (_ & CK & _ & CV & _ & m' & CL & KE & NQ' & OC' & AR').
  exists m'. destruct (blank_weak rho m0 m1 BL CO1) as (_ & _ & _ & _ & B1). split; [|split; [|split; [|split; [|split; [|split]]]]].
  - rewrite attempts_app, AT. cbn [attempts]. unfold attempt. destruct (mh_bdry m) as [|x y] eqn:Z; [destruct (bl_some _ BL); destruct (mh_bdry m0); [reflexivity|discriminate]|].
    rewrite LO. cbv zeta. fold m1. rewrite CK, CL. reflexivity.
  - apply KE.
  - exact NQ'.
  - exact OC'.
  - destruct KE as (_ & A & _). rewrite A. exact CV.
  - destruct KE as (_ & _ & (B' & _) & _). rewrite B'. exact B1.
  - exact AR'.
Qed.

(* ---------- one attempt too many ---------- *)
(* On a complete mesh the front is empty, and the first step of the loops goes through
   a null pointer. *)
Theorem C62_no_front : forall a m, mh_bdry m <> [] -> front_edges (setup_facet_connectivity m) = [] -> (0 < se_fuel a)%nat -> attempt a m = Some UB.
Proof.
  intros a m NB F FU. unfold attempt, loops. destruct (mh_bdry m); [destruct (NB eq_refl)|]. rewrite no_front by (cbn [opened ms_front]; rewrite F; reflexivity).
  destruct (se_fuel a); [lia|reflexivity].
Qed.
Lemma some_true {X} (o : option X) : o <> None -> is_some o = true.
Proof. destruct o; [reflexivity|congruence]. Qed.
Theorem C62_full_front : forall m, conforming m -> (forall f, In f (facets m) -> centred (mh_pos m) f) -> front_edges (setup_facet_connectivity m) = [].
Proof.
  intros m C CEN. unfold front_edges. cbn [setup_facet_connectivity mh_intr mh_bdry]. rewrite !filter_none; [reflexivity| |].
  - intros e J. apply in_map_iff in J. destruct J as (x & <- & J). destruct (cf_bdry _ C x J) as [X Y]. apply negb_false_iff, some_true.
    apply (connect_bdry_cases m (cf_ids _ C) (cf_corners _ C) (cf_sides _ C) CEN x Y). left. exact X.
  - intros e J. apply in_map_iff in J. destruct J as (x & <- & J). destruct (cf_intr _ C x J) as [X Y]. apply orb_false_iff. split; apply negb_false_iff, some_true.
    + apply (connect_cases m (cf_ids _ C) (cf_corners _ C) (cf_sides _ C) CEN x). left. exact X.
    + apply (connect_cases' m (cf_ids _ C) (cf_corners _ C) (cf_sides _ C) CEN x). left. exact Y.
Qed.
Theorem C62_once_more : forall a m, sound m -> mh_quads m = [] -> mh_bdry m <> [] -> (forall f, In f (mh_tris m) -> 3 * tol26 <= 2 * fa_area (mh_pos m) f) ->
  (0 < se_fuel a)%nat -> attempt a m = Some UB.
Proof.
  intros a m S NQ NB AR FU. apply C62_no_front; [exact NB| |exact FU]. apply C62_full_front; [exact (sd_conf _ S)|]. intros f J. unfold facets in J. rewrite NQ in J. cbn [app] in J.
  apply tri_centred; [|exact (AR f J)]. destruct (cf_tris _ (sd_conf _ S) f J) as (x & y & z & E). unfold is_tri. rewrite E. reflexivity.
Qed.

(* ---------- the mesh to start with ---------- *)
(* the mesh of a prepared state without elements: MeshBuilder.h:226-257 *)
Lemma start_remaining l : forall bd, incl l bd -> add_remaining bd [] l = [].
Proof.
  induction l as [|[a b] l IH]; intros bd I; [reflexivity|]. cbn [add_remaining has_edge existsb].
  assert (X : has_edge bd a b = true) by (apply has_edge_true; left; apply I; left; reflexivity). rewrite X. apply IH. intros x J. apply I. right. exact J.
Qed.
Lemma start_blank scale twin prop st : wf st -> vertices_in scale st -> vertices_in front_scale st -> front_in_mesh st -> no_ghosts st ->
  ms_intr st = [] -> ms_area st == 0 -> (forall e, In e (ms_front st) -> interior e = false) -> ms_tris st = [] -> ms_quads st = [] -> ms_front st <> [] ->
  blank (finished scale twin prop st st) /\ (map sig (outline 0 (finished scale twin prop st st)) = map sig (ms_front st)) /\
  mh_bdry (finished scale twin prop st st) = map (fin_bdry twin) (ms_front st).
Proof.
  intros W V VF FM NG NI A0 IN NT NQ NE. set (m := finished scale twin prop st st).
  assert (EI : mh_intr m = []).
  { unfold m, finished. cbn [mh_intr]. rewrite NI, start_remaining by apply incl_refl. reflexivity. }
  assert (EB : mh_bdry m = map (fin_bdry twin) (ms_front st)) by reflexivity.
  assert (ET : mh_tris m = []) by (unfold m, finished; cbn [mh_tris]; rewrite NT; reflexivity).
  assert (EQ : mh_quads m = []) by (unfold m, finished; cbn [mh_quads]; rewrite NQ; reflexivity).
  assert (EN : mh_next m = (ms_nv st + ms_nt st + ms_ne st)%nat).
  { unfold m, finished. cbn [mh_next]. rewrite NI, start_remaining by apply incl_refl. cbn [length]. lia. }
  assert (NF : facets m = []) by (unfold facets; rewrite ET, EQ; reflexivity).
  assert (AE : forall e, In e (all_edges m) -> exists x, In x (ms_front st) /\ e = fin_bdry twin x).
  { intros e J. unfold all_edges in J. rewrite EI, EB in J. cbn [app] in J. apply in_map_iff in J. destruct J as (x & <- & J). exists x. auto. }
  split; [|split; [|exact EB]].
  - constructor; try assumption.
    + constructor.
      * exact (wf_vid _ W).
      * intros v J. assert (X : (v < ms_nv st)%nat); [|split; [exact (V v X)|exact (VF v X)]].
        change (mh_verts m) with (ms_verts st) in J. destruct (ms_verts st) as [|w l] eqn:E.
        { destruct (ms_front st) as [|x y] eqn:Q; [destruct (NE eq_refl)|]. destruct (FM x) as [Z _]; [rewrite Q; left; reflexivity|]. rewrite E in Z. destruct Z. }
        apply (Nat.le_lt_trans _ _ _ J). apply list_max_lt; [discriminate|]. apply Forall_forall. intros u K. apply (wf_vlt _ W). rewrite E. exact K.
      * intros e J. destruct (AE e J) as (x & K & ->). cbn [fin_bdry ed_1 ed_2]. split; [apply (wf_ev _ W x K)|exact (FM x K)].
      * intros v J. assert (X := wf_vlt _ W v J). lia.
      * intros e J. destruct (AE e J) as (x & K & ->). cbn [fin_bdry ed_id]. assert (X := wf_elt _ W x K). lia.
      * rewrite ET. intros f [].
      * rewrite EQ. intros f [].
      * rewrite NF. intros f [].
      * rewrite NF. constructor.
    + rewrite EB. destruct (ms_front st); [congruence|discriminate].
    + rewrite EB, map_map. exact (wf_eid _ W).
    + rewrite EB. intros e J. apply in_map_iff in J. destruct J as (x & <- & J). cbn [fin_bdry ed_prop ed_l]. assert (X := IN x J). assert (Y := NG x J). unfold interior in X. unfold ghost in Y.
      apply negb_false_iff in X. auto.
    + reflexivity.
  - rewrite outline_from, front_from_sig, EB, map_map. reflexivity.
Qed.

(* the mesh of a prepared proper domain is one to start with *)
Lemma domain_blank bs bounds fixed sub loose col scale twin prop :
  proper_domain bs -> map de_ends bounds = domain_segments bs ->
  (forall e, In e bounds -> de_fix e = false) -> (forall e, In e fixed -> de_fix e = true) ->
  (forall e, In e (bounds ++ fixed) -> veqb (de_a e) (de_b e) = false /\
     in_square front_scale (de_a e) = true /\ in_square front_scale (de_b e) = true) ->
  (forall a b, Forall (on_line a b) (sub a b)) -> (forall a b, ~ veq a b -> strictly_inside a b (sub a b)) ->
  (forall a b p, In p (sub a b) -> in_square front_scale a = true -> in_square front_scale b = true ->
     in_square front_scale p = true) ->
  (forall p, In p loose -> in_square front_scale p = true) ->
  let st := FrontModel.prepared sub (collect_front_edges bounds fixed []) loose col in
  let m0 := finished scale twin prop st st in
  vertices_in scale st -> ms_front st <> [] ->
  blank m0 /\ simple_front (mh_pos m0) (outline 0 m0) /\ unpinched_mesh m0 /\ mh_bdry m0 = map (fin_bdry twin) (ms_front st) /\
  line_area m0 (mh_bdry m0) == (1 # 2) * esum vcross (domain_segments bs).
Proof.
  intros PD E HB HF HE HL HI HS HO st m0 VM NE.
  assert (WN : map fst (flat_map (wanted []) bounds) = domain_segments bs).
  { rewrite <- E. clear. induction bounds as [|e l IH]; [reflexivity|]. cbn [flat_map map]. rewrite <- IH. reflexivity. }
  assert (HE' : forall e, In e (bounds ++ fixed ++ concat []) -> veqb (de_a e) (de_b e) = false /\ in_square front_scale (de_a e) = true /\ in_square front_scale (de_b e) = true).
  { intros e. cbn [concat]. rewrite app_nil_r. apply HE. }
  assert (SC := domain_curves bs PD).
  destruct (C21_start_partial bounds fixed [] sub loose col) as (W & _ & V & NG & G & NI & A0 & IN & _); try assumption.
  { rewrite E. exact (sc_closed _ SC). }
  { intros e _ N. exfalso. apply N. reflexivity. }
  { intros e []. }
  fold st in W, V, NG, G, NI, A0, IN.
  destruct (start_front bounds fixed [] sub loose col) as (S & FM & EN); try assumption.
  { rewrite WN. exact SC. }
  { intros e []. }
  fold st in S, FM, EN.
  assert (PN : unpinched (ms_front st)) by (unfold unpinched; apply EN; rewrite WN; exact (domain_ends bs PD)).
  assert (INT : forall e, In e (ms_front st) -> interior e = false).
  { intros e K. destruct (interior e) eqn:Q; [|reflexivity]. exfalso. assert (X : In e (filter interior (ms_front st))) by (apply filter_In; split; assumption). rewrite IN in X. exact X. }
  destruct (start_blank scale twin prop st W VM V FM NG NI A0 INT eq_refl eq_refl NE) as (BL & SG & EB). fold m0 in BL, SG, EB.
  assert (S0 : simple_front (mh_pos m0) (outline 0 m0)).
  { change (mh_pos m0) with (ms_pos st). apply (simple_same (ms_pos st) (ms_front st)); [rewrite SG; apply Permutation_refl| |exact S].
    rewrite outline_from, front_from_ids. apply seq_NoDup. }
  assert (UP : unpinched_mesh m0).
  { intros e f I J Q. rewrite EB in I, J. apply in_map_iff in I, J. destruct I as (x & <- & I). destruct J as (y & <- & J). f_equal. exact (PN x y I J Q). }
  split; [exact BL|]. split; [exact S0|]. split; [exact UP|]. split; [exact EB|].
  unfold line_area. assert (Q : map (line_of m0) (mh_bdry m0) = map (seg (ms_pos st)) (ms_front st)) by (rewrite EB, map_map; reflexivity). rewrite Q, <- enclosed_lines.
  assert (A := C21_area_partial bounds fixed [] sub loose col HB HF ltac:(intros e []) HE' HL). cbv zeta in A. fold st in A. rewrite A.
  apply Qmult_comp; [reflexivity|]. rewrite <- WN. clear. induction (flat_map (wanted []) bounds) as [|x l IH]; [reflexivity|]. cbn [map esum sumQ]. rewrite IH. destruct x as [[a b] z]. reflexivity.
Qed.

(* From a proper domain to the finished mesh in any number of attempts. *)
Theorem C62_domain_partial : forall bs bounds fixed sub loose col rho scale twin prop l m a st' r c,
  proper_domain bs -> map de_ends bounds = domain_segments bs ->
  (forall e, In e bounds -> de_fix e = false) -> (forall e, In e fixed -> de_fix e = true) ->
  (forall e, In e (bounds ++ fixed) -> veqb (de_a e) (de_b e) = false /\
     in_square front_scale (de_a e) = true /\ in_square front_scale (de_b e) = true) ->
  (forall a b, Forall (on_line a b) (sub a b)) -> (forall a b, ~ veq a b -> strictly_inside a b (sub a b)) ->
  (forall a b p, In p (sub a b) -> in_square front_scale a = true -> in_square front_scale b = true ->
     in_square front_scale p = true) ->
  (forall p, In p loose -> in_square front_scale p = true) ->
  let st := FrontModel.prepared sub (collect_front_edges bounds fixed []) loose col in
  let m0 := finished scale twin prop st st in
  vertices_in scale st -> (0 <= col)%Z -> ms_front st <> [] ->
  Forall (setting_ok rho scale) (l ++ [a]) -> halted m0 l m -> loops a m = Some (Ok (st', r, c)) ->
  let m1 := put_back (setup_facet_connectivity m) st' in
  exact_at (mh_pos m1) (mh_verts m1) -> found_at (near rho) (mh_pos m1) (outline 0 m0) (pieces (map fa_sh (facets m1))) ->
  (forall f, In f (mh_tris m1) -> 3 * tol26 <= 2 * fa_area (mh_pos m1) f) -> ms_front st' = [] ->
  exists m', attempts m0 (l ++ [a]) = Some (Ok m') /\ sound m' /\ mh_quads m' = [] /\ one_colour m' /\
    QRefineSpec.covered m' == (1 # 2) * esum vcross (domain_segments bs) /\ map bare (mh_bdry m') = map (fin_bdry twin) (ms_front st) /\
    (forall f, In f (mh_tris m') -> 3 * tol26 <= 2 * fa_area (mh_pos m') f).
Proof.
  intros bs bounds fixed sub loose col rho scale twin prop l m a st' r c PD E HB HF HE HL HI HS HO st m0 VM C0 NE FS HA LO m1 EX FO AR F.
  destruct (domain_blank bs bounds fixed sub loose col scale twin prop PD E HB HF HE HL HI HS HO VM NE) as (BL & S0 & UP & EB & LA). fold st in BL, S0, UP, EB, LA. fold m0 in BL, S0, UP, EB, LA.
  destruct (C62_attempts_partial rho m0 l m a st' r c BL S0 UP FS HA LO EX FO AR C0 F) as (m' & X1 & X2 & X3 & X4 & X5 & X6 & X7).
  exists m'. split; [exact X1|]. split; [exact X2|]. split; [exact X3|]. split; [exact X4|]. split; [rewrite X5; exact LA|]. split; [|exact X7].
  rewrite X6, EB, map_map. reflexivity.
Qed.

(* ---------- cases ---------- *)
Definition exact_atb (pos : nat -> vec2) (verts : list nat) : bool :=
  forallb (fun a => forallb (fun b => forallb (fun c => sharpb (det (pos a) (pos b) (pos c))) verts) verts) verts.
Lemma exact_atb_sound pos verts : exact_atb pos verts = true -> exact_at pos verts.
Proof.
  intros H a b c A B C. unfold exact_atb in H. rewrite forallb_forall in H. specialize (H a A). rewrite forallb_forall in H. specialize (H b B).
  rewrite forallb_forall in H. apply sharpb_sound, (H c C).
Qed.
Definition found_atb (rho : vec2 -> Q) (pos : nat -> vec2) (f0 : list bedge) (gen : list tri) : bool :=
  forallb (fun t => forallb (fun e => AdvanceModel.within (tri_loc pos t) (search2 rho pos t) (vscale (1 # 2) (vadd (pos (fst e)) (pos (snd e)))) &&
    AdvanceModel.within (tri_loc pos t) (search2 rho pos t) (vscale (1 # 2) (vadd (pos (snd e)) (pos (fst e))))) (ends f0 ++ AdvanceSpec.sides gen)) gen.
Lemma found_atb_sound rho pos f0 gen : found_atb rho pos f0 gen = true -> found_at (near rho) pos f0 gen.
Proof.
  intros H t a b T K _. unfold found_atb in H. rewrite forallb_forall in H. specialize (H t T). rewrite forallb_forall in H. unfold near.
  destruct K as [K|[K|K]].
  - assert (X := H (a, b) ltac:(apply in_or_app; left; exact K)). apply andb_true_iff in X. apply X.
  - assert (X := H (a, b) ltac:(apply in_or_app; right; exact K)). apply andb_true_iff in X. apply X.
  - assert (X := H (b, a) ltac:(apply in_or_app; right; exact K)). apply andb_true_iff in X. apply X.
Qed.
Definition largeb (m : mesh) : bool := forallb (fun f => Qle_bool (3 * tol26) (2 * fa_area (mh_pos m) f)) (mh_tris m).
Lemma largeb_sound m : largeb m = true -> forall f, In f (mh_tris m) -> 3 * tol26 <= 2 * fa_area (mh_pos m) f.
Proof. intros H f J. unfold largeb in H. rewrite forallb_forall in H. apply Qle_bool_iff, (H f J). Qed.
Definition fineb (rho : vec2 -> Q) (m0 m : mesh) : bool :=
  exact_atb (mh_pos m) (mh_verts m) && found_atb rho (mh_pos m) (outline 0 m0) (pieces (map fa_sh (facets m))) && largeb m.
Lemma setting_checked rho scale so dom ins qual new query n fuel : (forall s e, in_square scale (new s e) = true /\ in_square front_scale (new s e) = true) -> (0 < n < 2 ^ 31)%Z ->
  setting_ok rho scale (SET (triangle_is_valid rho so dom) (vertex_is_valid rho ins) qual new query n fuel).
Proof. intros N Hn. split; [exists so, dom; reflexivity|]. split; [exists ins; reflexivity|]. split; assumption. Qed.

(* the frame of C57_frame_case, in two attempts of 3 and 5 elements *)
Definition frame_set (n : Z) : setting :=
  SET (triangle_is_valid (fun _ => 2) no_shape (domain_segments frame2)) (vertex_is_valid (fun _ => 2) (fun _ => true)) (fun _ _ => 0)
    (fun _ _ => V2 (1 # 2) (1 # 2)) (fun _ _ _ => [0; 1; 2; 3; 4; 5; 6; 7]%nat) n 100.
Definition frame_blank : mesh := finished 7 (fun _ => None) (fun _ => 0%N) frame_start frame_start.
Lemma frame_settings n : (0 < n < 2 ^ 31)%Z -> setting_ok (fun _ => 2) 7 (frame_set n).
Proof. apply setting_checked. intros s e. split; reflexivity. Qed.
Example C62_frame_case : exists m', attempts frame_blank [frame_set 3; frame_set 20] = Some (Ok m') /\ sound m' /\ QRefineSpec.covered m' == 8 /\
  (forall n, attempts frame_blank [frame_set 3; frame_set 20; frame_set n] = Some UB) /\
  (exists st m, loops (frame_set 3) frame_blank = Some (Ok (st, true, 3%nat)) /\ m = put_back (setup_facet_connectivity frame_blank) st /\ continued (fun _ => 2) frame_blank m /\
     exact_at (mh_pos m) (mh_verts m) /\ found_at (near (fun _ => 2)) (mh_pos m) (outline 0 frame_blank) (pieces (map fa_sh (facets m))) /\
     (forall f, In f (mh_tris m) -> 3 * tol26 <= 2 * fa_area (mh_pos m) f) /\ check_mesh_validity m = false /\ length (front_edges (setup_facet_connectivity m)) = 11%nat) /\
  blank frame_blank /\ simple_front (mh_pos frame_blank) (outline 0 frame_blank) /\ unpinched_mesh frame_blank.
Proof.
  assert (X : match loops (frame_set 3) frame_blank with
    | Some (Ok (s, r, c)) => let m := put_back (setup_facet_connectivity frame_blank) s in
        r && Nat.eqb c 3 && fineb (fun _ => 2) frame_blank m && negb (check_mesh_validity m) && Nat.eqb (length (front_edges (setup_facet_connectivity m))) 11 &&
        match loops (frame_set 20) m with
        | Some (Ok (s', _, _)) => fineb (fun _ => 2) frame_blank (put_back (setup_facet_connectivity m) s') && (match ms_front s' with [] => true | _ => false end)
        | _ => false end = true
    | _ => False end) by (vm_compute; reflexivity).
  destruct (loops (frame_set 3) frame_blank) as [[[[s r] c]| |]|] eqn:L1; try contradiction. cbv zeta in X. rewrite !andb_true_iff in X. destruct X as (((((X1 & X2) & X3) & X4) & X5) & X6).
  apply Nat.eqb_eq in X2, X5. apply negb_true_iff in X4. subst r c. set (m := put_back (setup_facet_connectivity frame_blank) s) in *.
  destruct (loops (frame_set 20) m) as [[[[s' r'] c']| |]|] eqn:L2; [|discriminate X6|discriminate X6|discriminate X6]. apply andb_true_iff in X6. destruct X6 as [X6 X7].
  assert (F : ms_front s' = []) by (destruct (ms_front s'); [reflexivity|discriminate X7]). clear X7.
  unfold fineb in X3, X6. rewrite !andb_true_iff in X3, X6. destruct X3 as ((A1 & A2) & A3). destruct X6 as ((B1 & B2) & B3).
  apply exact_atb_sound in A1, B1. apply found_atb_sound in A2, B2. assert (A4 := largeb_sound _ A3). assert (B4 := largeb_sound _ B3). clear A3 B3.
  assert (E : map de_ends frame_bounds = domain_segments frame2) by reflexivity.
  assert (HE : forall e, In e (frame_bounds ++ []) -> veqb (de_a e) (de_b e) = false /\ in_square front_scale (de_a e) = true /\ in_square front_scale (de_b e) = true).
  { intros e H. cbn in H. repeat (destruct H as [<-|H]; [split; [|split]; vm_compute; reflexivity|]). destruct H. }
  assert (HB : forall e, In e frame_bounds -> de_fix e = false) by (intros e I; unfold frame_bounds in I; apply in_map_iff in I; destruct I as (x & <- & _); reflexivity).
  assert (HI : forall a b, ~ veq a b -> strictly_inside a b (no_sub a b)) by (intros a b _; exists []; split; [cbn; lra|constructor]).
  assert (HL : forall a b, Forall (on_line a b) (no_sub a b)) by (intros a b; constructor).
  assert (NE : ms_front frame_start <> []) by (vm_compute; discriminate).
  assert (VM : vertices_in 7 frame_start).
  { intros v L. change (ms_nv frame_start) with 8%nat in L. do 8 (destruct v as [|v]; [vm_compute; reflexivity|]). lia. }
  assert (HA : halted frame_blank ([] ++ [frame_set 3]) m) by exact (ha_next frame_blank [] frame_blank (frame_set 3) s true 3%nat (ha_start frame_blank) L1 X4).
  assert (FS : Forall (setting_ok (fun _ => 2) 7) ([frame_set 3] ++ [frame_set 20])) by (cbn [app]; constructor; [apply frame_settings; lia|constructor; [apply frame_settings; lia|constructor]]).
  assert (BB := domain_blank frame2 frame_bounds [] no_sub [] 1%Z 7 (fun _ => None) (fun _ => 0%N) frame_proper E HB (fun e (H : In e []) => match H with end) HE HL HI
    (fun a b p (H : In p []) => match H with end) (fun p (H : In p []) => match H with end) VM NE). cbv zeta in BB. fold frame_start in BB. fold frame_blank in BB.
  destruct BB as (BL & S0 & UP & _).
  destruct (C62_domain_partial frame2 frame_bounds [] no_sub [] 1%Z (fun _ => 2) 7 (fun _ => None) (fun _ => 0%N) [frame_set 3] m (frame_set 20) s' r' c' frame_proper E HB
    (fun e (H : In e []) => match H with end) HE HL HI (fun a b p (H : In p []) => match H with end) (fun p (H : In p []) => match H with end) VM ltac:(lia) NE FS HA L2 B1 B2 B4 F)
    as (m' & Y1 & Y2 & Y3 & Y4 & Y5 & Y6 & Y7).
  exists m'. split; [exact Y1|]. split; [exact Y2|]. split; [rewrite Y5; vm_compute; reflexivity|]. split; [|split; [|exact (conj BL (conj S0 UP))]].
  - intros n. change [frame_set 3; frame_set 20; frame_set n] with (([frame_set 3] ++ [frame_set 20]) ++ [frame_set n]). rewrite attempts_app.
    change (finished 7 (fun _ => None) (fun _ => 0%N) (FrontModel.prepared no_sub (collect_front_edges frame_bounds [] []) [] 1%Z) (FrontModel.prepared no_sub (collect_front_edges frame_bounds [] []) [] 1%Z)) with frame_blank in Y1.
    rewrite Y1. cbn [attempts]. rewrite (C62_once_more (frame_set n) m' Y2 Y3); [reflexivity| |exact Y7|cbn; lia].
    intros Z. rewrite Z in Y6. cbn in Y6. fold frame_start in Y6. destruct (ms_front frame_start); [congruence|discriminate].
  - exists s, m. split; [reflexivity|]. split; [reflexivity|].
    split; [|split; [exact A1|split; [exact A2|split; [exact A4|split; [exact X4|exact X5]]]]].
    apply (halted_run (fun _ => 2) frame_blank [frame_set 3] m (bl_laid _ BL) (blank_verts _ BL) (bl_some _ BL)); [|exact HA]. constructor; [apply frame_settings; lia|constructor].
Qed.


(* The triangle of C60_stopped_refuted: after three elements the check finds nothing
   although a hole is left, so a passed check does not mean that the mesh is complete.
   A later attempt fills the hole. *)
Definition hole_set (n : Z) : setting :=
  SET (triangle_is_valid (fun _ => 6) no_shape (domain_segments hole_domain)) (vertex_is_valid (fun _ => 6) (fun _ => true)) (fun _ _ => 0)
    (fun _ e => match be_v1 e with 0%nat => V2 3 1 | 1%nat => V2 2 2 | _ => V2 1 3 end) (fun _ _ _ => []) n 100.
Definition fill_set (n : Z) : setting :=
  SET (triangle_is_valid (fun _ => 6) no_shape (domain_segments hole_domain)) (vertex_is_valid (fun _ => 6) (fun _ => true)) (fun _ _ => 0)
    (fun _ e => V2 7 7) (fun _ _ _ => [0; 1; 2; 3; 4; 5]%nat) n 100.
Definition hole_blank : mesh := finished 14 (fun _ => None) (fun _ => 0%N) hole_start hole_start.
Lemma hole_settings n : (0 < n < 2 ^ 31)%Z -> setting_ok (fun _ => 6) 14 (hole_set n).
Proof. apply setting_checked. intros s e. destruct (be_v1 e) as [|[|k]]; split; reflexivity. Qed.
Theorem C62_check_refuted : exists rho m0 a st m, blank m0 /\ simple_front (mh_pos m0) (outline 0 m0) /\ unpinched_mesh m0 /\
  loops a m0 = Some (Ok (st, true, 3%nat)) /\ m = put_back (setup_facet_connectivity m0) st /\ continued rho m0 m /\
  exact_at (mh_pos m) (mh_verts m) /\ found_at (near rho) (mh_pos m) (outline 0 m0) (pieces (map fa_sh (facets m))) /\
  (forall f, In f (mh_tris m) -> 3 * tol26 <= 2 * fa_area (mh_pos m) f) /\
  check_mesh_validity m = true /\ front_edges (setup_facet_connectivity m) <> [] /\ QRefineSpec.covered m < line_area m0 (mh_bdry m0) /\
  match attempts m0 [a; fill_set 20] with
  | Some (Ok m2) => check_mesh_validity m2 = true /\ front_edges (setup_facet_connectivity m2) = [] /\ QRefineSpec.covered m2 == line_area m0 (mh_bdry m0)
  | _ => False end.
Proof.
  assert (X : match loops (hole_set 3) hole_blank with
    | Some (Ok (s, r, c)) => let m := put_back (setup_facet_connectivity hole_blank) s in
        r && Nat.eqb c 3 && fineb (fun _ => 6) hole_blank m && check_mesh_validity m && Nat.eqb (length (front_edges (setup_facet_connectivity m))) 6 &&
        negb (Qle_bool (line_area hole_blank (mh_bdry hole_blank)) (QRefineSpec.covered m)) = true
    | _ => False end) by (vm_compute; reflexivity).
  assert (Y : match attempts hole_blank [hole_set 3; fill_set 20] with
    | Some (Ok m2) => check_mesh_validity m2 && (match front_edges (setup_facet_connectivity m2) with [] => true | _ => false end) &&
        Qeq_bool (QRefineSpec.covered m2) (line_area hole_blank (mh_bdry hole_blank)) = true
    | _ => False end) by (vm_compute; reflexivity).
  destruct (loops (hole_set 3) hole_blank) as [[[[s r] c]| |]|] eqn:L1; [|destruct X..]. cbv zeta in X. apply andb_true_iff in X; destruct X as [X X6]. apply andb_true_iff in X; destruct X as [X X5]. apply andb_true_iff in X; destruct X as [X X4]. apply andb_true_iff in X; destruct X as [X X3]. apply andb_true_iff in X; destruct X as [X1 X2].
  apply Nat.eqb_eq in X2, X5. subst r c. set (m := put_back (setup_facet_connectivity hole_blank) s) in *.
  unfold fineb in X3. apply andb_true_iff in X3; destruct X3 as [X3 A3]. apply andb_true_iff in X3; destruct X3 as [A1 A2]. apply exact_atb_sound in A1. apply found_atb_sound in A2. assert (A4 := largeb_sound _ A3).
  assert (E : map de_ends hole_bounds = domain_segments hole_domain) by reflexivity.
  assert (HE : forall e, In e (hole_bounds ++ []) -> veqb (de_a e) (de_b e) = false /\ in_square front_scale (de_a e) = true /\ in_square front_scale (de_b e) = true).
  { intros e H. cbn in H. repeat (destruct H as [<-|H]; [split; [|split]; vm_compute; reflexivity|]). destruct H. }
  assert (HB : forall e, In e hole_bounds -> de_fix e = false) by (intros e I; unfold hole_bounds in I; apply in_map_iff in I; destruct I as (x & <- & _); reflexivity).
  assert (HI : forall a b, ~ veq a b -> strictly_inside a b (no_sub a b)) by (intros a b _; exists []; split; [cbn; lra|constructor]).
  assert (HL : forall a b, Forall (on_line a b) (no_sub a b)) by (intros a b; constructor).
  assert (NE : ms_front hole_start <> []) by (vm_compute; discriminate).
  assert (VM : vertices_in 14 hole_start).
  { intros v L. change (ms_nv hole_start) with 3%nat in L. do 3 (destruct v as [|v]; [vm_compute; reflexivity|]). lia. }
  assert (PD : proper_domain hole_domain) by (apply alone_proper; [apply simpleb_sound|]; vm_compute; reflexivity).
  assert (BB := domain_blank hole_domain hole_bounds [] no_sub [] 1%Z 14 (fun _ => None) (fun _ => 0%N) PD E HB (fun e (H : In e []) => match H with end) HE HL HI
    (fun a b p (H : In p []) => match H with end) (fun p (H : In p []) => match H with end) VM NE). cbv zeta in BB. fold hole_start in BB. fold hole_blank in BB.
  destruct BB as (BL & S0 & UP & _).
  destruct (loops_stage (fun _ => 6) (hole_set 3) hole_blank s true 3%nat (hole_settings 3 ltac:(lia)) (bl_laid _ BL) L1) as (so & dom & ins & os & O & ST & _).
  exists (fun _ => 6), hole_blank, (hole_set 3), s, m. split; [exact BL|]. split; [exact S0|]. split; [exact UP|]. split; [exact L1|]. split; [reflexivity|].
  split; [exact (co_next _ hole_blank so dom ins _ os hole_blank m (co_start _ _) O ST)|]. split; [exact A1|]. split; [exact A2|]. split; [exact A4|]. split; [exact X4|].
  split; [intros Z; rewrite Z in X5; discriminate X5|]. split.
  - apply negb_true_iff in X6. destruct (Qlt_le_dec (QRefineSpec.covered m) (line_area hole_blank (mh_bdry hole_blank))) as [Q|Q]; [exact Q|]. apply Qle_bool_iff in Q. rewrite Q in X6. discriminate X6.
  - clear - Y. destruct (attempts hole_blank [hole_set 3; fill_set 20]) as [[m2| |]|]; [|destruct Y..]. apply andb_true_iff in Y; destruct Y as [Y Y3]. apply andb_true_iff in Y; destruct Y as [Y1 Y2].
    split; [exact Y1|]. split; [destruct (front_edges _); [reflexivity|discriminate Y2]|apply Qeq_bool_iff, Y3].
Qed.

(* The full statement that an attempt on any mesh with a boundary is harmless is FALSE:
   a complete mesh is undefined behaviour. *)
Theorem C62_once_more_refuted : exists m0 l a m, blank m0 /\ attempts m0 l = Some (Ok m) /\ sound m /\ attempts m0 (l ++ [a]) = Some UB.
Proof.
  destruct C62_frame_case as (m & E & S & _ & U & _ & BL & _). exists frame_blank, [frame_set 3; frame_set 20], (frame_set 1), m.
  split; [exact BL|]. split; [exact E|]. split; [exact S|]. exact (U 1%Z).
Qed.

Print Assumptions C62_keeps.
Print Assumptions C62_restart_partial.
Print Assumptions C62_between_partial.
Print Assumptions C62_complete_partial.
Print Assumptions C62_attempts_partial.
Print Assumptions C62_no_front.
Print Assumptions C62_full_front.
Print Assumptions C62_once_more.
Print Assumptions C62_domain_partial.
Print Assumptions C62_check_refuted.
Print Assumptions C62_once_more_refuted.
