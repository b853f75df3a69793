(* C68: quad layers and triangulations in any order give a sound mixed mesh. *)
From Coq Require Import Lia Permutation Lqa.
From Verif Require Import Base Chain GeomModel GeomSpec GeomProofs FacetModel UtilModel BdryModel BdrySpec AdvanceModel AdvanceSpec AdvanceProofs AdvanceInv AdvanceMore AdvanceGeom AdvanceProps
  LoopModel LoopProps FrontModel FrontSpec FrontProofs FrontProps WindInsideProps PolySpec PolyMain PolyProps WindProps ClearStart ClearDomain MeshModel MeshSpec MeshProofs MeshCheck QRefineModel QRefineSpec CleanModel CleanSpec CleanProps T2QSpec T2QProps WindSpec WindProofs ClearSpec ClearRun ClearEnd ClearProps
  FinModel FinMesh FinProps QTileSpec MixSpec MixShape MixRun ContModel ContSpec OpenConn ContProofs ContMesh ContStage ContEnd ContRun ContProps
  QLayerModel LayRun LayWay LayGap LayNeat LayModel LaySpec LayLayers LayStage.
From Verif Require QLayerProps.
Open Scope Q_scope.

(* ---------- without conditions on the geometry ---------- *)
(* Neither layers nor triangulations lose or move anything: vertices, elements and
   boundary edges stay. *)
Theorem C68_keeps : forall rho m m', laid m -> mh_verts m <> [] -> built rho m m' ->
  incl (mh_verts m) (mh_verts m') /\ (forall v, In v (mh_verts m) -> mh_pos m' v = mh_pos m v) /\
  incl (facets m) (facets m') /\ map bare (mh_bdry m') = map bare (mh_bdry m) /\ laid m'.
Proof.
  intros rho m m' L NV H. destruct (built_weak rho m m' L NV H) as (L' & _ & G & B).
  split; [exact (gr_verts _ _ G)|]. split; [exact (gr_pos _ _ G)|]. split; [exact (gr_facets _ _ G)|]. auto.
Qed.

(* Layers that run around a closed boundary, from a vertex to itself, move no vertex and
   split no edge: they belong to the histories of the other theorems. *)
Theorem C68_closed : forall rho a m, laid m -> layering_ok rho a -> la_start a = la_end a -> steady a (setup_facet_connectivity m).
Proof.
  intros rho a m L LO E. unfold steady. rewrite <- E. destruct LO as [(so & dom & X) _].
  apply closed_layers.
  - rewrite X. intros s t. apply valid_positive.
  - exact (neat_ok _ _ _ (opened_neat _ (setup_laid m L))).
Qed.

(* One call of generate_elements of the quad layers is such a step, if the vertices are
   in the squares of the quadtrees. *)
Theorem C68_stage : forall rho m0 m a m' ok, built rho m0 m -> laid m -> layering_ok rho a -> la_start a = la_end a -> mh_bdry m <> [] ->
  layer_stage a m = Ok (m', ok) ->
  exists st' hs, run_layers a (setup_facet_connectivity m) = Ok (st', ok, hs) /\ m' = layer_back (setup_facet_connectivity m) st' /\
    (settled (mh_scale m) (q_m st') -> built rho m0 m').
Proof.
  intros rho m0 m a m' ok BU L LO E NE R. unfold layer_stage in R. destruct (mh_bdry m) as [|x y]; [congruence|].
  destruct (run_layers a (setup_facet_connectivity m)) as [[[st' k] hs]| |] eqn:RL; [|discriminate R..]. cbn [obind fst snd] in R.
  assert (X : layer_back (setup_facet_connectivity m) st' = m' /\ k = ok) by (split; congruence). destruct X as [X <-]. clear R.
  exists st', hs. split; [reflexivity|]. split; [symmetry; exact X|]. intros SE. rewrite <- X.
  exact (bu_layers rho m0 a m st' k hs BU LO (C68_closed rho a m L LO E) RL SE).
Qed.

(* ---------- between two stages ---------- *)
(* At any time the quads and triangles are apart, inside the boundary and outside of the
   front that is left, and cover the difference; the area is what the mesh has added up.
   Partial: under the conditions of C57 on the vertices and the segments, without
   elements that orientation() takes for collinear, and for layers whose preparation
   moves no vertex and splits no edge (e.g. those of C68_closed). *)
Theorem C68_between_partial : forall rho m0 m, blank m0 -> simple_front (mh_pos m0) (outline 0 m0) -> built rho m0 m ->
  exact_at (mh_pos m) (mh_verts m) -> found_at (near rho) (mh_pos m) (outline 0 m0) (pieces (map fa_sh (facets m))) ->
  (forall f, In f (facets m) -> centred (mh_pos m) f) ->
  (forall f g z, In f (facets m) -> In g (facets m) -> inside_shape (mh_pos m) (fa_sh f) z -> inside_shape (mh_pos m) (fa_sh g) z -> f = g) /\
  (forall f z, In f (facets m) -> inside_shape (mh_pos m) (fa_sh f) z -> whole_region m0 z == 1 /\ open_region m z == 0) /\
  (forall z, whole_region m0 z == 1 -> open_region m z == 0 -> exists f, In f (facets m) /\ in_closure (mh_pos m) (fa_sh f) z) /\
  (forall z, 0 <= open_region m z <= whole_region m0 z) /\
  NoDup (all_sides m) /\
  mh_area m == QRefineSpec.covered m /\
  QRefineSpec.covered m + line_area m (front_edges (setup_facet_connectivity m)) == line_area m0 (mh_bdry m0) /\
  (check_mesh_validity m = true <-> forall e, In e (mh_bdry m) -> In (ed_1 e, ed_2 e) (all_sides m)).
Proof.
  intros rho m0 m BL S0 BU EX FO CE. assert (M := bu_mid rho m0 m BL S0 BU EX FO CE). assert (S := bu_simple rho m0 m BL S0 BU). assert (K := outline_kind m0 BL).
  destruct (bu_weak rho m0 m BL BU) as (L & V & G & B).
  assert (E0 : map (seg (mh_pos m)) (outline 0 m0) = map (line_of m0) (mh_bdry m0)) by exact (outline_lines m0 m G (bl_laid _ BL)).
  assert (E1 : map (seg (mh_pos m)) (ms_front (opened (setup_facet_connectivity m))) = map (line_of m) (front_edges (setup_facet_connectivity m))) by exact (front_lines m _ _).
  assert (T := end_tiles _ _ _ m M). unfold open_region, whole_region. rewrite <- E0, <- E1.
  split; [exact (end_apart _ _ _ m S M)|]. split; [exact (end_inside _ _ _ m S M)|]. split; [|split; [|split; [|split; [|split]]]].
  - intros z W O. destruct (tiles_cover _ _ _ z T) as (s & Hs & C); [cbn beta; lra|]. apply in_map_iff in Hs. destruct Hs as (f & <- & J). exists f. auto.
  - intros z. assert (A := sf_region _ _ (pw_simple _ _ _ _ _ _ (mw_way _ _ _ _ M)) z). split; [apply A|]. destruct (T z) as (bs & _ & C). assert (P := how_many_nonneg bs). lra.
  - exact (mid_nodup _ _ _ m S M).
  - exact (proj1 (end_area _ _ _ m M (fun v _ => eq_refl))).
  - destruct (end_area _ _ _ m M (fun v _ => eq_refl)) as [_ A]. rewrite !enclosed_lines, E0, E1 in A. exact A.
  - exact (end_check _ _ _ m S K M).
Qed.

(* ---------- complete meshes ---------- *)
(* When nothing is left of the front the mixed mesh is sound, passes the check, covers
   the domain, and the clean up that follows succeeds.  Partial: as before, with strictly
   convex quads and triangles that are not tiny. *)
Theorem C68_complete_partial : forall rho m0 m, blank m0 -> simple_front (mh_pos m0) (outline 0 m0) -> unpinched_mesh m0 -> built rho m0 m ->
  exact_at (mh_pos m) (mh_verts m) -> found_at (near rho) (mh_pos m) (outline 0 m0) (pieces (map fa_sh (facets m))) ->
  (forall f, In f (facets m) -> centred (mh_pos m) f) -> (forall f, In f (mh_quads m) -> strictly_convex (mh_pos m) f) ->
  sized m -> (0 <= mh_col m0)%Z ->
  front_edges (setup_facet_connectivity m) = [] ->
  sound m /\ check_mesh_validity m = true /\ one_colour m /\ QRefineSpec.covered m == line_area m0 (mh_bdry m0) /\
  (forall z, whole_region m0 z == 1 -> exists f, In f (facets m) /\ in_closure (mh_pos m) (fa_sh f) z) /\
  exists m', cleanup m = Ok m' /\ kept m m' /\ (forall c, covered_by c m' == covered_by c m).
Proof.
  intros rho m0 m BL S0 UP BU EX FO CE QC SZ C0 F. assert (M := bu_mid rho m0 m BL S0 BU EX FO CE). assert (S := bu_simple rho m0 m BL S0 BU). assert (K := outline_kind m0 BL).
  destruct (bu_weak rho m0 m BL BU) as (L & V & G & B).
  assert (FE : ms_front (opened (setup_facet_connectivity m)) = []) by (cbn [opened ms_front]; rewrite F; reflexivity).
  assert (SD := full_sound _ _ _ m S M FE eq_refl (bu_convex rho m0 m BL S0 BU EX FO CE QC) (bu_pinch rho m0 m BL BU UP)).
  assert (OC : one_colour m) by (intros f J; apply (ld_facets _ L f J)).
  destruct (C68_between_partial rho m0 m BL S0 BU EX FO CE) as (_ & _ & CV & _ & _ & _ & A & _).
  split; [exact SD|]. split; [exact (full_check _ _ _ m S K M FE)|]. split; [exact OC|]. split; [rewrite <- A, F; unfold line_area; cbn; lra|]. split.
  { intros z W. apply CV; [exact W|]. unfold open_region. rewrite F. reflexivity. }
  destruct (C33_cleanup_partial m SD) as (m' & E & KE & CB).
  { split; [exact SZ|]. rewrite (gr_col _ _ G). split; [|exact C0]. intros f J. rewrite (OC f) by (unfold facets; apply in_or_app; right; exact J). rewrite (gr_col _ _ G). exact C0. }
  exists m'. split; [exact E|]. split; [exact KE|]. exact (CB OC).
Qed.

(* ---------- layers, then calls of the triangulation ---------- *)
Lemma built_on rho m0 m1 m : built rho m0 m1 -> continued rho m1 m -> built rho m0 m.
Proof. intros B C. induction C as [|so dom ins q os x y C IH O E]; [exact B|exact (bu_tri rho m0 so dom ins q os x y IH O E)]. Qed.
(* On a mesh that was built in any number of stages all attempts of the triangulation but
   the last end with a failed check, the last one with an empty front: the mixed mesh is
   complete.  Partial: as C68_complete_partial. *)
Theorem C68_attempts_partial : forall rho m0 m1 l m b st' r c, blank m0 -> simple_front (mh_pos m0) (outline 0 m0) -> unpinched_mesh m0 ->
  built rho m0 m1 -> Forall (setting_ok rho (mh_scale m0)) (l ++ [b]) -> halted m1 l m -> loops b m = Some (Ok (st', r, c)) ->
  let m2 := put_back (setup_facet_connectivity m) st' in
  exact_at (mh_pos m2) (mh_verts m2) -> found_at (near rho) (mh_pos m2) (outline 0 m0) (pieces (map fa_sh (facets m2))) ->
  (forall f, In f (facets m2) -> centred (mh_pos m2) f) -> (forall f, In f (mh_quads m2) -> strictly_convex (mh_pos m2) f) ->
  sized m2 -> (0 <= mh_col m0)%Z -> ms_front st' = [] ->
  incl (facets m1) (facets m2) /\
  exists m', attempts m1 (l ++ [b]) = Some (Ok m') /\ sound m' /\ QRefineSpec.covered m' == line_area m0 (mh_bdry m0) /\ map bare (mh_bdry m') = map bare (mh_bdry m0) /\
    (forall c, covered_by c m' == if Z.eqb (mh_col m0) c then line_area m0 (mh_bdry m0) else 0).
Proof.
  intros rho m0 m1 l m b st' r c BL S0 UP B1 FS HA LO m2 EX FO CE QC SZ C0 F.
  destruct (bu_weak rho m0 m1 BL B1) as (L1 & V1 & G1 & BB1). rewrite <- (gr_scale _ _ G1) in FS.
  apply Forall_app in FS. destruct FS as [FL FA]. inversion FA as [|? ? SA _]; subst.
  assert (NB : mh_bdry m1 <> []) by (intros Z; rewrite Z in BB1; destruct (bl_some _ BL); destruct (mh_bdry m0); [reflexivity|discriminate]).
  destruct (halted_run rho m1 l m L1 V1 NB FL HA) as [CO AT].
  destruct (continued_weak rho m1 m L1 V1 CO) as (L & V & G & _ & B).
  rewrite <- (gr_scale _ _ G) in SA. destruct (loops_stage rho b m st' r c SA L LO) as (so & dom & ins & os & O & E & R & _). fold m2 in E.
  assert (BU : built rho m0 m) by exact (built_on rho m0 m1 m B1 CO).
  assert (BU2 : built rho m0 m2) by exact (bu_tri rho m0 so dom ins _ os m m2 BU O E).
  destruct (stage_weak _ _ _ _ _ _ L V O E) as (_ & _ & G2).
  assert (K := outline_kind m0 BL). assert (S := bu_simple rho m0 m2 BL S0 BU2).
  assert (LS : lasts (mh_pos m2) (mh_verts m2) (map fa_sh (facets m2)) m2) by (constructor; auto; apply incl_refl).
  assert (FE : front_edges (setup_facet_connectivity m2) = []).
  { assert (M : midway (mh_pos m2) (pieces (map fa_sh (facets m2))) (outline 0 m0) m).
    { apply (built_midway rho (mh_pos m2) (mh_verts m2) (map fa_sh (facets m2)) (outline 0 m0) m0 m EX FO K S (blank_midway _ _ _ BL S) BU (lasts_grows _ _ _ _ _ G2 LS)).
      intros f J. apply (centred_ext (mh_pos m2)); [|apply CE, (gr_facets _ _ G2), J]. intros v X. symmetry. apply (gr_pos _ _ G2). apply (ld_facets _ L f J), X. }
    destruct (stage_midway rho so dom ins (se_qual b) _ _ _ _ EX FO K S m os m2 M O E LS CE) as (_ & s & R' & _ & _ & SS). rewrite R in R'. injection R' as <-.
    assert (X := Permutation_length (ss_front _ _ SS)). rewrite !map_length, F in X. cbn [opened ms_front length] in X.
    destruct (front_edges (setup_facet_connectivity m2)); [reflexivity|discriminate]. }
  destruct (C68_complete_partial rho m0 m2 BL S0 UP BU2 EX FO CE QC SZ C0 FE) as (_ & CK & OC & CV & _ & m' & CL & KE & CB).
  split; [intros f J; apply (gr_facets _ _ G2), (gr_facets _ _ G), J|].
  exists m'. destruct (bu_weak rho m0 m2 BL BU2) as (_ & _ & G02 & B2). split; [|split; [apply KE|split; [|split]]].
  - rewrite attempts_app, AT. cbn [attempts]. unfold attempt. destruct (mh_bdry m) as [|x y] eqn:Z; [destruct (mh_bdry m1); [congruence|discriminate]|].
    rewrite LO. cbv zeta. fold m2. rewrite CK, CL. reflexivity.
  - destruct KE as (_ & A & _). rewrite A. exact CV.
  - destruct KE as (_ & _ & (B' & _) & _). rewrite B'. exact B2.
  - intros c'. rewrite CB, (covered_by_one c' m2 OC), (gr_col _ _ G02). destruct (Z.eqb (mh_col m0) c'); [exact CV|reflexivity].
Qed.

(* From a proper domain to the mixed mesh of it. *)
Theorem C68_domain_partial : forall bs bounds fixed sub loose col rho scale twin prop m1 l m b st' r c,
  proper_domain bs -> map de_ends bounds = domain_segments bs ->
  (forall e, In e bounds -> de_fix e = false) -> (forall e, In e fixed -> de_fix e = true) ->
  (forall e, In e (bounds ++ fixed) -> veqb (de_a e) (de_b e) = false /\
     in_square front_scale (de_a e) = true /\ in_square front_scale (de_b e) = true) ->
  (forall a b, Forall (on_line a b) (sub a b)) -> (forall a b, ~ veq a b -> strictly_inside a b (sub a b)) ->
  (forall a b p, In p (sub a b) -> in_square front_scale a = true -> in_square front_scale b = true ->
     in_square front_scale p = true) ->
  (forall p, In p loose -> in_square front_scale p = true) ->
  let st := FrontModel.prepared sub (collect_front_edges bounds fixed []) loose col in
  let m0 := finished scale twin prop st st in
  vertices_in scale st -> (0 <= col)%Z -> ms_front st <> [] ->
  built rho m0 m1 -> Forall (setting_ok rho scale) (l ++ [b]) -> halted m1 l m -> loops b m = Some (Ok (st', r, c)) ->
  let m2 := put_back (setup_facet_connectivity m) st' in
  exact_at (mh_pos m2) (mh_verts m2) -> found_at (near rho) (mh_pos m2) (outline 0 m0) (pieces (map fa_sh (facets m2))) ->
  (forall f, In f (facets m2) -> centred (mh_pos m2) f) -> (forall f, In f (mh_quads m2) -> strictly_convex (mh_pos m2) f) ->
  sized m2 -> ms_front st' = [] ->
  exists m', attempts m1 (l ++ [b]) = Some (Ok m') /\ sound m' /\
    QRefineSpec.covered m' == (1 # 2) * esum vcross (domain_segments bs) /\ map bare (mh_bdry m') = map (fin_bdry twin) (ms_front st).
Proof.
  intros bs bounds fixed sub loose col rho scale twin prop m1 l m b st' r c PD E HB HF HE HL HI HS HO st m0 VM C0 NE BU FS HA LO m2 EX FO CE QC SZ F.
  destruct (domain_blank bs bounds fixed sub loose col scale twin prop PD E HB HF HE HL HI HS HO VM NE) as (BL & S0 & UP & EB & LA). fold st in BL, S0, UP, EB, LA. fold m0 in BL, S0, UP, EB, LA.
  destruct (C68_attempts_partial rho m0 m1 l m b st' r c BL S0 UP BU FS HA LO EX FO CE QC SZ C0 F) as (_ & m' & X1 & X2 & X3 & X4 & _).
  exists m'. split; [exact X1|]. split; [exact X2|]. split; [rewrite X3; exact LA|]. rewrite X4, EB, map_map. reflexivity.
Qed.

(* ---------- a case ---------- *)
Definition centredb (m : mesh) : bool :=
  forallb (fun f => forallb (fun e => is_left (mh_pos m (fst e)) (mh_pos m (snd e)) (fa_xy (mh_pos m) f) && negb (is_left (mh_pos m (snd e)) (mh_pos m (fst e)) (fa_xy (mh_pos m) f))) (MeshSpec.sides f)) (facets m).
Lemma centredb_sound m : centredb m = true -> forall f, In f (facets m) -> centred (mh_pos m) f.
Proof.
  intros H f J a b K. unfold centredb in H. rewrite forallb_forall in H. specialize (H f J). rewrite forallb_forall in H. specialize (H (a, b) K).
  apply andb_true_iff in H. destruct H as [H1 H2]. apply negb_true_iff in H2. split; assumption.
Qed.
Definition convexb (m : mesh) : bool :=
  forallb (fun f => match fa_sh f with
    | Tri3 a b c => Qltb 0 (area2 (mh_pos m a) (mh_pos m b) (mh_pos m c))
    | Quad4 a b c d => Qltb 0 (area2 (mh_pos m a) (mh_pos m b) (mh_pos m c)) && Qltb 0 (area2 (mh_pos m b) (mh_pos m c) (mh_pos m d)) &&
        Qltb 0 (area2 (mh_pos m c) (mh_pos m d) (mh_pos m a)) && Qltb 0 (area2 (mh_pos m d) (mh_pos m a) (mh_pos m b)) end) (mh_quads m).
Lemma convexb_sound m : convexb m = true -> forall f, In f (mh_quads m) -> strictly_convex (mh_pos m) f.
Proof.
  intros H f J. unfold convexb in H. rewrite forallb_forall in H. specialize (H f J). unfold strictly_convex. destruct (fa_sh f).
  - apply Qltb_true, H.
  - apply andb_true_iff in H. destruct H as [H H4]. apply andb_true_iff in H. destruct H as [H H3]. apply andb_true_iff in H. destruct H as [H1 H2].
    apply Qltb_true in H1, H2, H3, H4. auto.
Qed.
Definition sizedb (m : mesh) : bool := forallb (fun f => Qle_bool small ((2 * fa_area (mh_pos m) f) * (2 * fa_area (mh_pos m) f))) (mh_tris m).
Lemma sizedb_sound m : sizedb m = true -> sized m.
Proof. intros H f J. unfold sizedb in H. rewrite forallb_forall in H. apply Qle_bool_iff, (H f J). Qed.
Definition settledb (scale : Q) (st : mstate) : bool := forallb (fun v => in_square scale (ms_pos st v) && in_square front_scale (ms_pos st v)) (seq 0 (ms_nv st)).
Lemma settledb_sound scale st : settledb scale st = true -> settled scale st.
Proof. intros H v J. unfold settledb in H. rewrite forallb_forall in H. apply andb_true_iff, (H v). apply in_seq. lia. Qed.

(* a closed layer around a square of side 4 and two triangles in the middle; with the
   real tests, the sine of the half angle taken as 1 and the box norm *)
Definition sq4_pts : list vec2 := [V2 0 0; V2 4 0; V2 4 4; V2 0 4].
Definition sq4 : list boundary := [Bd EXTERIOR (ring_edges sq4_pts) 1].
Definition sq4_bounds : list dedge := map (fun e => DE (fst e) (snd e) 1%Z false) (ring_edges sq4_pts).
Definition sq4_start : mstate := FrontModel.prepared no_sub (collect_front_edges sq4_bounds [] []) [] 1%Z.
Definition sq4_blank : mesh := finished 14 (fun _ => None) (fun _ => 0%N) sq4_start sq4_start.
Definition sq4_rho (_ : vec2) : Q := 6.
Definition sq4_layer : layering :=
  LAY QLayerProps.box_norm (fun _ _ => 1) (fun _ _ => 0) QLayerProps.never sq4_rho (triangle_is_valid sq4_rho no_shape (domain_segments sq4)) (vertex_is_valid sq4_rho (fun _ => true))
    (fun _ _ => 0) QLayerProps.near 1 1 1 (V2 0 0) (V2 0 0).
Definition sq4_set : setting :=
  SET (triangle_is_valid sq4_rho no_shape (domain_segments sq4)) (vertex_is_valid sq4_rho (fun _ => true)) (fun _ _ => 0)
    (fun _ _ => V2 2 2) (fun _ _ _ => [0; 1; 2; 3; 4; 5; 6; 7]%nat) 20 100.
Notation sq4_ringed := (run_layers sq4_layer (setup_facet_connectivity sq4_blank)).
Example C68_case : exists m1 m', layer_stage sq4_layer sq4_blank = Ok (m1, true) /\ built sq4_rho sq4_blank m1 /\ length (mh_quads m1) = 4%nat /\
  attempts m1 [sq4_set] = Some (Ok m') /\ sound m' /\ QRefineSpec.covered m' == 16 /\ incl (mh_quads m1) (facets m1) /\
  blank sq4_blank /\ simple_front (mh_pos sq4_blank) (outline 0 sq4_blank) /\ unpinched_mesh sq4_blank /\
  exists st', loops sq4_set m1 = Some (Ok (st', true, 2%nat)) /\ ms_front st' = [] /\
    let m2 := put_back (setup_facet_connectivity m1) st' in
    exact_at (mh_pos m2) (mh_verts m2) /\ found_at (near sq4_rho) (mh_pos m2) (outline 0 sq4_blank) (pieces (map fa_sh (facets m2))) /\
    (forall f, In f (facets m2) -> centred (mh_pos m2) f) /\ (forall f, In f (mh_quads m2) -> strictly_convex (mh_pos m2) f) /\ sized m2.
Proof.
  assert (X : match sq4_ringed with
    | Ok (s, k, _) => let m := layer_back (setup_facet_connectivity sq4_blank) s in
        k && settledb 14 (q_m s) && Nat.eqb (length (mh_quads m)) 4 &&
        match loops sq4_set m with
        | Some (Ok (s', r, c)) => let m2 := put_back (setup_facet_connectivity m) s' in
            r && Nat.eqb c 2 && (match ms_front s' with [] => true | _ => false end) && exact_atb (mh_pos m2) (mh_verts m2) &&
            found_atb sq4_rho (mh_pos m2) (outline 0 sq4_blank) (pieces (map fa_sh (facets m2))) && centredb m2 && convexb m2 && sizedb m2
        | _ => false end = true
    | _ => False end) by (vm_compute; reflexivity).
  destruct sq4_ringed as [[[s k] hs]| |] eqn:RL; [|destruct X..]. cbv zeta in X. set (m1 := layer_back (setup_facet_connectivity sq4_blank) s) in *.
  apply andb_true_iff in X; destruct X as [X X4]. apply andb_true_iff in X; destruct X as [X X3]. apply andb_true_iff in X; destruct X as [X1 X2]. subst k. apply Nat.eqb_eq in X3. apply settledb_sound in X2.
  destruct (loops sq4_set m1) as [[[[s' r] c]| |]|] eqn:L1; [|discriminate X4..]. set (m2 := put_back (setup_facet_connectivity m1) s') in *.
  apply andb_true_iff in X4; destruct X4 as [X4 A5]. apply andb_true_iff in X4; destruct X4 as [X4 A4]. apply andb_true_iff in X4; destruct X4 as [X4 A3]. apply andb_true_iff in X4; destruct X4 as [X4 A2].
  apply andb_true_iff in X4; destruct X4 as [X4 A1]. apply andb_true_iff in X4; destruct X4 as [X4 A0]. apply andb_true_iff in X4; destruct X4 as [X4 A6]. apply Nat.eqb_eq in A6. subst r c.
  assert (F : ms_front s' = []) by (destruct (ms_front s'); [reflexivity|discriminate A0]). clear A0.
  apply exact_atb_sound in A1. apply found_atb_sound in A2. assert (B3 := centredb_sound _ A3). assert (B4 := convexb_sound _ A4). apply sizedb_sound in A5. clear A3 A4.
  assert (E : map de_ends sq4_bounds = domain_segments sq4) by reflexivity.
  assert (HE : forall e, In e (sq4_bounds ++ []) -> veqb (de_a e) (de_b e) = false /\ in_square front_scale (de_a e) = true /\ in_square front_scale (de_b e) = true).
  { intros e H. cbn in H. repeat (destruct H as [<-|H]; [split; [|split]; vm_compute; reflexivity|]). destruct H. }
  assert (HB : forall e, In e sq4_bounds -> de_fix e = false) by (intros e I; unfold sq4_bounds in I; apply in_map_iff in I; destruct I as (x & <- & _); reflexivity).
  assert (HI : forall a b, ~ veq a b -> strictly_inside a b (no_sub a b)) by (intros a b _; exists []; split; [cbn; lra|constructor]).
  assert (HL : forall a b, Forall (on_line a b) (no_sub a b)) by (intros a b; constructor).
  assert (NE : ms_front sq4_start <> []) by (vm_compute; discriminate).
  assert (VM : vertices_in 14 sq4_start).
  { intros v L. change (ms_nv sq4_start) with 4%nat in L. do 4 (destruct v as [|v]; [vm_compute; reflexivity|]). lia. }
  assert (PD : proper_domain sq4) by (apply alone_proper; [apply simpleb_sound|]; vm_compute; reflexivity).
  assert (BB := domain_blank sq4 sq4_bounds [] no_sub [] 1%Z 14 (fun _ => None) (fun _ => 0%N) PD E HB (fun e (H : In e []) => match H with end) HE HL HI
    (fun a b p (H : In p []) => match H with end) (fun p (H : In p []) => match H with end) VM NE). cbv zeta in BB. fold sq4_start in BB. fold sq4_blank in BB.
  destruct BB as (BL & S0 & UP & _ & LA).
  assert (LO : layering_ok sq4_rho sq4_layer) by (split; [exists no_shape, (domain_segments sq4); reflexivity|exists (fun _ => true); reflexivity]).
  assert (B1 : built sq4_rho sq4_blank m1).
  { exact (bu_layers sq4_rho sq4_blank sq4_layer sq4_blank s true hs (bu_start _ _) LO (C68_closed sq4_rho sq4_layer sq4_blank (bl_laid _ BL) LO eq_refl) RL X2). }
  assert (FS : Forall (setting_ok sq4_rho 14) ([] ++ [sq4_set])).
  { constructor; [|constructor]. apply setting_checked; [intros x y; split; reflexivity|lia]. }
  destruct (C68_attempts_partial sq4_rho sq4_blank m1 [] m1 sq4_set s' true 2%nat BL S0 UP B1 FS (ha_start m1) L1 A1 A2 B3 B4 A5 ltac:(cbn; lia) F) as (_ & m' & Y1 & Y2 & Y3 & _).
  exists m1, m'. split; [|split; [exact B1|split; [exact X3|split; [exact Y1|split; [exact Y2|split; [rewrite Y3, LA; vm_compute; reflexivity|]]]]]].
  - unfold layer_stage. rewrite RL. destruct (mh_bdry sq4_blank) eqn:Z; [destruct (bl_some _ BL Z)|]. reflexivity.
  - split; [intros f J; unfold facets; apply in_or_app; left; exact J|]. split; [exact BL|]. split; [exact S0|]. split; [exact UP|]. exists s'. split; [exact L1|]. split; [exact F|]. cbv zeta. fold m2. auto 10.
Qed.

(* An open layer of height 1 in a channel of height 9/10 lifts the upper corners of the
   domain before any element is tested: the call reports failure, and the boundary of
   the mesh is no more that of the domain (cf. C55_refuted). *)
Definition low_pts : list vec2 := [V2 0 0; V2 4 0; V2 4 (9 # 10); V2 0 (9 # 10)].
Definition halves (a b : vec2) : list vec2 := if Qltb 9 (vnorm2 (vsub b a)) then [vadd a (vscale (1 # 2) (vsub b a))] else [].
Lemma halves_line a b : Forall (on_line a b) (halves a b).
Proof. unfold halves. destruct Qltb; [|constructor]. constructor; [|constructor]. exists (1 # 2). split; reflexivity. Qed.
Lemma halves_inside a b : strictly_inside a b (halves a b).
Proof.
  unfold halves. destruct Qltb; [exists [1 # 2]|exists []]; (split; [cbn; lra|]); [|constructor]. constructor; [|constructor]. split; reflexivity.
Qed.
Lemma halves_in a b p : In p (halves a b) -> in_square front_scale a = true -> in_square front_scale b = true -> in_square front_scale p = true.
Proof.
  unfold halves. destruct Qltb; [|intros []]. intros [<-|[]]. rewrite !in_square_iff. unfold vadd, vscale, vsub. cbn [vx vy]. intros A B. lra.
Qed.
Definition low : list boundary := [Bd EXTERIOR (ring_edges low_pts) 1].
Definition low_bounds : list dedge := map (fun e => DE (fst e) (snd e) 1%Z false) (ring_edges low_pts).
Definition low_start : mstate := FrontModel.prepared halves (collect_front_edges low_bounds [] []) [] 1%Z.
Definition low_blank : mesh := finished 14 (fun _ => None) (fun _ => 0%N) low_start low_start.
Definition low_layer : layering :=
  LAY QLayerProps.box_norm (fun _ _ => 1) (fun _ _ => 1) QLayerProps.never sq4_rho (triangle_is_valid sq4_rho no_shape (domain_segments low)) (vertex_is_valid sq4_rho (fun _ => true))
    (fun _ _ => 0) QLayerProps.near 1 1 1 (V2 0 0) (V2 4 0).
Notation low_result := (layer_stage low_layer low_blank).
Theorem C68_refuted : exists rho a m m' v, blank m /\ simple_front (mh_pos m) (outline 0 m) /\ unpinched_mesh m /\ layering_ok rho a /\
  layer_stage a m = Ok (m', false) /\ In v (mh_verts m) /\ ~ veq (mh_pos m' v) (mh_pos m v) /\
  line_area m (mh_bdry m) == 18 # 5 /\ line_area m' (mh_bdry m') == 19 # 5.
Proof.
  assert (X : match low_result with
    | Ok (m', k) => negb k && negb (Qeq_bool (vy (mh_pos m' 2%nat)) (vy (mh_pos low_blank 2%nat))) &&
        Qeq_bool (line_area m' (mh_bdry m')) (19 # 5) = true
    | _ => False end) by (vm_compute; reflexivity).
  destruct low_result as [[m' k]| |] eqn:RL; [|destruct X..].
  apply andb_true_iff in X; destruct X as [X X4]. apply andb_true_iff in X; destruct X as [X1 X3].
  apply negb_true_iff in X1, X3. subst k.
  assert (E : map de_ends low_bounds = domain_segments low) by reflexivity.
  assert (HE : forall e, In e (low_bounds ++ []) -> veqb (de_a e) (de_b e) = false /\ in_square front_scale (de_a e) = true /\ in_square front_scale (de_b e) = true).
  { intros e H. cbn in H. repeat (destruct H as [<-|H]; [split; [|split]; vm_compute; reflexivity|]). destruct H. }
  assert (HB : forall e, In e low_bounds -> de_fix e = false) by (intros e I; unfold low_bounds in I; apply in_map_iff in I; destruct I as (x & <- & _); reflexivity).
  assert (NE : ms_front low_start <> []) by (vm_compute; discriminate).
  assert (VM : vertices_in 14 low_start).
  { intros v L. change (ms_nv low_start) with 6%nat in L. do 6 (destruct v as [|v]; [vm_compute; reflexivity|]). lia. }
  assert (PD : proper_domain low) by (apply alone_proper; [apply simpleb_sound|]; vm_compute; reflexivity).
  assert (BB := domain_blank low low_bounds [] halves [] 1%Z 14 (fun _ => None) (fun _ => 0%N) PD E HB (fun e (H : In e []) => match H with end) HE halves_line (fun a b _ => halves_inside a b)
    halves_in (fun p (H : In p []) => match H with end) VM NE). cbv zeta in BB. fold low_start in BB. fold low_blank in BB.
  destruct BB as (BL & S0 & UP & _ & LA).
  exists sq4_rho, low_layer, low_blank, m', 2%nat. split; [exact BL|]. split; [exact S0|]. split; [exact UP|].
  split; [split; [exists no_shape, (domain_segments low); reflexivity|exists (fun _ => true); reflexivity]|].
  split; [exact RL|]. split; [clear; vm_compute; auto 10|]. split.
  { intros [_ Y]. apply Qeq_bool_neq in X3. apply X3. exact Y. }
  split; [rewrite LA; vm_compute; reflexivity|apply Qeq_bool_iff; exact X4].
Qed.

(* Two open layers that meet at a corner of a square: the second one splits the edge of
   the front next to it, which is a side of a quad of the first one.  Both calls report
   success; the quad keeps the whole side, no edge of the mesh belongs to it any more,
   and a vertex lies in the middle of it. *)
Definition two_start : mstate := FrontModel.prepared halves (collect_front_edges sq4_bounds [] []) [] 1%Z.
Definition two_blank : mesh := finished 14 (fun _ => None) (fun _ => 0%N) two_start two_start.
Definition two_rho (_ : vec2) : Q := 2.
Definition two_layer (a b : vec2) : layering :=
  LAY QLayerProps.box_norm (fun _ _ => 1) (fun _ _ => 1) QLayerProps.never two_rho (triangle_is_valid two_rho no_shape (domain_segments sq4)) (vertex_is_valid two_rho (fun _ => true))
    (fun _ _ => 0) QLayerProps.near 1 1 1 a b.
Notation two_first := (layer_stage (two_layer (V2 0 0) (V2 4 0)) two_blank).
Definition hangs (m : mesh) (f : facet) (u v w : nat) : bool :=
  existsb (fun e => Nat.eqb (fst e) u && Nat.eqb (snd e) v) (MeshSpec.sides f) && in_list (mh_verts m) w &&
  veqb (mh_pos m w) (vadd (mh_pos m u) (vscale (1 # 2) (vsub (mh_pos m v) (mh_pos m u)))) && negb (veqb (mh_pos m u) (mh_pos m v)) &&
  forallb (fun e => negb (Nat.eqb (ed_1 e) u && Nat.eqb (ed_2 e) v || Nat.eqb (ed_1 e) v && Nat.eqb (ed_2 e) u)) (mh_intr m ++ mh_bdry m).
Theorem C68_hanging_refuted : exists rho a b m m1 m2 f u v w, blank m /\ simple_front (mh_pos m) (outline 0 m) /\ unpinched_mesh m /\
  layering_ok rho a /\ layering_ok rho b /\ layer_stage a m = Ok (m1, true) /\ layer_stage b m1 = Ok (m2, true) /\
  In f (mh_quads m2) /\ In (u, v) (MeshSpec.sides f) /\ In w (mh_verts m2) /\ ~ veq (mh_pos m2 u) (mh_pos m2 v) /\
  veq (mh_pos m2 w) (vadd (mh_pos m2 u) (vscale (1 # 2) (vsub (mh_pos m2 v) (mh_pos m2 u)))) /\
  (forall e, In e (mh_intr m2 ++ mh_bdry m2) -> ~ (ed_1 e = u /\ ed_2 e = v) /\ ~ (ed_1 e = v /\ ed_2 e = u)).
Proof.
  assert (X : match two_first with
    | Ok (m1, k) => k && match layer_stage (two_layer (V2 4 0) (V2 4 4)) m1 with
        | Ok (m2, k') => k' && existsb (fun f => hangs m2 f 9 10 11) (mh_quads m2)
        | _ => false end = true
    | _ => False end) by (vm_compute; reflexivity).
  destruct two_first as [[m1 k]| |] eqn:R1; [|destruct X..]. apply andb_true_iff in X. destruct X as [X1 X]. subst k.
  destruct (layer_stage (two_layer (V2 4 0) (V2 4 4)) m1) as [[m2 k]| |] eqn:R2; [|discriminate X..]. apply andb_true_iff in X. destruct X as [X1 X]. subst k.
  apply existsb_exists in X. destruct X as (f & If & X). unfold hangs in X.
  apply andb_true_iff in X; destruct X as [X X5]. apply andb_true_iff in X; destruct X as [X X4]. apply andb_true_iff in X; destruct X as [X X3]. apply andb_true_iff in X; destruct X as [X1 X2].
  apply existsb_exists in X1. destruct X1 as ((x & y) & I & Z). cbn [fst snd] in Z. apply andb_true_iff in Z. destruct Z as [Z1 Z2]. apply Nat.eqb_eq in Z1, Z2. subst x y.
  assert (E : map de_ends sq4_bounds = domain_segments sq4) by reflexivity.
  assert (HE : forall e, In e (sq4_bounds ++ []) -> veqb (de_a e) (de_b e) = false /\ in_square front_scale (de_a e) = true /\ in_square front_scale (de_b e) = true).
  { intros e H. cbn in H. repeat (destruct H as [<-|H]; [split; [|split]; vm_compute; reflexivity|]). destruct H. }
  assert (HB : forall e, In e sq4_bounds -> de_fix e = false) by (intros e J; unfold sq4_bounds in J; apply in_map_iff in J; destruct J as (x & <- & _); reflexivity).
  assert (NE : ms_front two_start <> []) by (vm_compute; discriminate).
  assert (VM : vertices_in 14 two_start).
  { intros v L. change (ms_nv two_start) with 8%nat in L. do 8 (destruct v as [|v]; [vm_compute; reflexivity|]). lia. }
  assert (PD : proper_domain sq4) by (apply alone_proper; [apply simpleb_sound|]; vm_compute; reflexivity).
  assert (BB := domain_blank sq4 sq4_bounds [] halves [] 1%Z 14 (fun _ => None) (fun _ => 0%N) PD E HB (fun e (H : In e []) => match H with end) HE halves_line (fun a b _ => halves_inside a b)
    halves_in (fun p (H : In p []) => match H with end) VM NE). cbv zeta in BB. fold two_start in BB. fold two_blank in BB.
  destruct BB as (BL & S0 & UP & _).
  exists two_rho, (two_layer (V2 0 0) (V2 4 0)), (two_layer (V2 4 0) (V2 4 4)), two_blank, m1, m2, f, 9%nat, 10%nat, 11%nat.
  assert (LO : forall a b, layering_ok two_rho (two_layer a b)) by (intros a b; split; [exists no_shape, (domain_segments sq4); reflexivity|exists (fun _ => true); reflexivity]).
  split; [exact BL|]. split; [exact S0|]. split; [exact UP|]. split; [apply LO|]. split; [apply LO|]. split; [exact R1|]. split; [exact R2|].
  split; [exact If|]. split; [exact I|]. split; [apply in_list_spec; exact X2|]. split.
  { intros Y. apply veqb_true in Y. rewrite Y in X4. discriminate X4. }
  split; [apply veqb_true; exact X3|]. intros e J. rewrite forallb_forall in X5. specialize (X5 e J). apply negb_true_iff, orb_false_iff in X5. destruct X5 as [Y1 Y2].
  split; intros [A B]; rewrite A, B in *; discriminate.
Qed.

Print Assumptions C68_keeps.
Print Assumptions C68_closed.
Print Assumptions C68_stage.
Print Assumptions C68_between_partial.
Print Assumptions C68_complete_partial.
Print Assumptions C68_attempts_partial.
Print Assumptions C68_domain_partial.
Print Assumptions C68_refuted.
Print Assumptions C68_hanging_refuted.
