(* C60: a complete triangulation is a sound mesh for every later step. *)
From Coq Require Import Lia Permutation Lqa.
From Verif Require Import Base Chain GeomModel GeomSpec GeomProofs FacetModel UtilModel BdryModel BdrySpec AdvanceModel AdvanceSpec AdvanceProofs AdvanceInv AdvanceGeom
  AdvanceProps LoopModel LoopProps FrontModel FrontSpec FrontProofs FrontProps MeshModel MeshSpec MeshProofs MeshCheck QRefineModel QRefineSpec QRefineProps
  CleanModel CleanSpec CleanPass DegenPass CleanProps T2QModel T2QSpec T2QProofs T2QProps WindInsideProps PolySpec PolyMain PolyProps WindSpec WindProps ClearSpec ClearStart ClearDomain ClearEnd ClearProps
  FanProofs FinModel FinProofs FinMesh FinPipe.
Open Scope Q_scope.

(* ---------- the check at the end of the triangulation ---------- *)
(* It finds out whether every edge of the mesh is a side of an element, and no more. *)
Theorem C60_check : forall m, check_mesh_validity m = true <->
  forall e, In e (all_edges m) -> In (ed_1 e, ed_2 e) (all_sides m) \/ In (ed_2 e, ed_1 e) (all_sides m).
Proof. exact validity_iff. Qed.
Theorem C60_check_conforming : forall m, conforming m -> check_mesh_validity m = true.
Proof.
  intros m C. apply C60_check. intros e I. unfold all_edges in I. apply in_app_or in I. destruct I as [I|I].
  - left. apply (cf_intr _ C e I).
  - left. apply (cf_bdry _ C e I).
Qed.

(* ---------- histories ---------- *)
Definition unpinched (es : list bedge) : Prop := forall e f, In e es -> In f es -> be_v2 e = be_v2 f -> e = f.

Lemma tol_small : small == tol26 * tol26.
Proof. reflexivity. Qed.
Lemma finished_sized mesh_scale twin prop st st' c : tidy mesh_scale c st' -> exact_vertices st' ->
  (forall t, In t (ms_tris st') -> 0 < tri_area (ms_pos st' (tr_v1 t)) (ms_pos st' (tr_v2 t)) (ms_pos st' (tr_v3 t))) ->
  forall f, In f (mh_tris (finished mesh_scale twin prop st st')) -> tol26 <= 2 * fa_area (ms_pos st') f.
Proof.
  intros T EX A f I. unfold finished in I. cbn [mh_tris] in I. apply in_map_iff in I. destruct I as (t & <- & I).
  destruct (td_tris _ _ _ T t I) as (_ & _ & K1 & K2 & K3). assert (P := A t I). assert (S := EX _ _ _ K1 K2 K3).
  cbn [fin_tri fa_area fa_sh]. assert (TP := tol_pos). assert (D := WindMesh.tri_area_det (ms_pos st' (tr_v1 t)) (ms_pos st' (tr_v2 t)) (ms_pos st' (tr_v3 t))).
  unfold fa_area. cbn [fa_sh]. destruct S as [S|[S|S]]; lra.
Qed.

(* Every history of the advancing front that starts from a front of simple closed
   curves on an empty mesh and ends with an empty front (under the conditions of C57),
   where no two edges of the initial front end at the same vertex and all vertices lie
   in the square of the mesh: the mesh is conforming, its boundary is the initial
   front, the elements around each vertex form one fan, all elements have a positive
   area and cover the enclosed area. *)
Theorem C60_finished_partial : forall rho shape_ok dom mesh_scale inside qual twin prop os st st',
  wf st -> vertices_in front_scale st -> Forall (op_in front_scale) os ->
  simple_front (ms_pos st) (ms_front st) -> front_in_mesh st ->
  no_ghosts st -> ms_intr st = [] -> ms_area st == 0 -> (forall e, In e (ms_front st) -> interior e = false) ->
  ms_tris st = [] -> ms_quads st = [] -> vertices_in mesh_scale st -> Forall (op_in mesh_scale) os -> unpinched (ms_front st) ->
  frun mesh_scale (triangle_is_valid rho shape_ok dom) (vertex_is_valid rho inside) qual st os = Ok st' ->
  exact_vertices st' -> found (near rho) (ms_front st) st' -> ms_front st' = [] ->
  let m := finished mesh_scale twin prop st st' in
  sound m /\ check_mesh_validity m = true /\ covered m == enclosed (ms_pos st) (ms_front st) /\ mh_area m == covered m /\
  one_colour m /\ mh_col m = ms_col st /\ mh_quads m = [] /\ mh_bdry m = map (fin_bdry twin) (ms_front st) /\
  (forall f, In f (mh_tris m) -> tol26 <= 2 * fa_area (mh_pos m) f).
Proof.
  intros rho shape_ok dom mesh_scale inside qual twin prop os st st' W V O S I NG NI A0 IN NT NQ VM OM PN R EX FO F m.
  assert (G : generated st = []) by (unfold generated; rewrite NT; reflexivity).
  assert (T0 : tidy mesh_scale (ms_col st) st).
  { constructor; try assumption; try reflexivity; [rewrite NT; intros t []|rewrite NI; intros a b []]. }
  assert (T := run_tidy mesh_scale _ _ qual (ms_col st) os st st' T0 OM R).
  assert (GE : generated st' = ms_tris st').
  { unfold generated. apply filter_all. intros t It. apply (td_tris _ _ _ T t It). }
  destruct (C57_conform_partial rho shape_ok dom mesh_scale inside qual os st st' W V O S I G NG NI A0 IN R EX FO F) as (AR & AA & CF).
  assert (A := history_positive rho shape_ok dom mesh_scale inside qual st st' os W R G).
  assert (D := history_apart rho shape_ok dom mesh_scale inside qual st st' os W V O S I R EX FO G).
  assert (V' : vertices_in front_scale st').
  { apply (run_ind mesh_scale (triangle_is_valid rho shape_ok dom) (vertex_is_valid rho inside) qual (fun s => wf s /\ vertices_in front_scale s) (op_in front_scale) (fun _ _ => True)) with (os := os) (st := st) (st' := st');
      [|split; assumption|exact O|apply accepted_true|exact R].
    intros s o s' r [Ws Vs] Oo H _. split; [exact (step_wf mesh_scale _ _ qual s o s' r Ws H)|exact (step_square mesh_scale _ _ qual front_scale s o s' r Ws Vs Oo H)]. }
  rewrite GE in AR, CF, A, D.
  assert (SD : sound m) by exact (fm_sound mesh_scale twin prop st st' (ms_col st) W T V' S F A D CF PN).
  split; [exact SD|]. split; [exact (C60_check_conforming m (sd_conf _ SD))|].
  assert (CO := fm_covered mesh_scale twin prop st st' (ms_col st) T). fold m in CO. split; [rewrite CO; exact AR|].
  split; [rewrite CO, AR; exact AA|]. split; [exact (fm_colour mesh_scale twin prop st st' (ms_col st) T)|].
  split; [exact (td_col _ _ _ T)|]. split; [unfold m, finished; cbn [mh_quads]; rewrite (td_quads _ _ _ T); reflexivity|].
  split; [reflexivity|]. exact (finished_sized mesh_scale twin prop st st' (ms_col st) T EX A).
Qed.

(* ---------- what the later steps make of such a mesh ---------- *)
Lemma no_twins_kept m m' : map bare (mh_bdry m') = map bare (mh_bdry m) -> no_twins m -> no_twins m'.
Proof.
  intros B H e I. apply (in_map bare) in I. rewrite B in I. apply in_map_iff in I. destruct I as (x & E & I).
  assert (X := f_equal ed_twin E). cbn in X. rewrite <- X. apply H, I.
Qed.
Lemma colour_kept m m' : keeps m m' -> (forall k, covered_by k m' == covered_by k m) -> one_colour m -> one_colour m'.
Proof.
  intros K CB OC f I. rewrite (kp_col _ _ K). destruct (Z.eq_dec (fa_col f) (mh_col m)) as [E|N]; [exact E|exfalso].
  specialize (CB (fa_col f)). rewrite (covered_by_one _ _ OC) in CB. destruct (Z.eqb_spec (mh_col m) (fa_col f)) as [X|_]; [congruence|].
  assert (P := sd_pos _ (kp_sound _ _ K)). unfold positive in P. unfold covered_by in CB.
  assert (L : fa_area (mh_pos m') f <= sumQ (map (fa_area (mh_pos m')) (filter (fun g => Z.eqb (fa_col g) (fa_col f)) (facets m')))).
  { revert I P. clear. generalize (facets m'). intros l. induction l as [|g l IH]; intros I P; [destruct I|].
    assert (NN : 0 <= sumQ (map (fa_area (mh_pos m')) (filter (fun g => Z.eqb (fa_col g) (fa_col f)) l))).
    { assert (P' := fun h J => P h (or_intror J)). clear IH I P. induction l as [|h l IH]; [cbn; lra|]. cbn [filter].
      assert (PH := P' h (or_introl eq_refl)). specialize (IH (fun x J => P' x (or_intror J))).
      destruct (Z.eqb (fa_col h) (fa_col f)); cbn [map sumQ fold_right] in *; lra. }
    destruct I as [->|I].
    - cbn [filter]. rewrite Z.eqb_refl. cbn [map sumQ fold_right]. lra.
    - specialize (IH I (fun h J => P h (or_intror J))). cbn [filter]. assert (PG := P g (or_introl eq_refl)).
      destruct (Z.eqb (fa_col g) (fa_col f)); cbn [map sumQ fold_right]; lra. }
  assert (PF := P f I). lra.
Qed.
(* The clean-up succeeds; it removes exactly the unfixed vertices in the middle of
   three triangles. *)
Theorem C60_cleanup_partial : forall m, sound m -> mh_quads m = [] -> one_colour m -> (0 <= mh_col m)%Z ->
  (forall f, In f (mh_tris m) -> tol26 <= 2 * fa_area (mh_pos m) f) ->
  exists m', cleanup m = Ok m' /\ kept m m' /\ mh_quads m' = [] /\ one_colour m' /\ mh_col m' = mh_col m /\
    (forall v, In v (mh_verts m') <-> In v (mh_verts m) /\ ~ (three_ring m v /\ has_property (mh_prop m v) v_is_fixed = false)) /\
    (forall c, (forall f, In f (mh_tris m) -> c <= fa_area (mh_pos m) f) -> forall f, In f (mh_tris m') -> c <= fa_area (mh_pos m') f).
Proof.
  intros m S NQ OC C0 Z.
  assert (SZ : sized m).
  { intros f I. assert (P := Z f I). assert (TP := tol_pos). rewrite tol_small. clear - P TP. revert P TP. generalize (2 * fa_area (mh_pos m) f) tol26. intros x t P TP. nra. }
  destruct (cleanup_tris m ((1 # 2) * tol26) S) as [m' [E [K [NQ' [Z' [CB V]]]]]]; try assumption.
  - split; [exact SZ|]. split; [|exact C0]. intros f I. rewrite (OC f); [exact C0|]. apply in_or_app. right. exact I.
  - intros f I. assert (P := Z f I). lra.
  - exists m'. split; [exact E|]. split; [exact (keeps_kept _ _ K)|]. split; [exact NQ'|]. split; [exact (colour_kept m m' K CB OC)|]. split; [exact (kp_col _ _ K)|]. split; [exact V|].
    intros c GC. destruct (cleanup_tris m c S) as [m1 [E1 [_ [_ [G1 _]]]]]; try assumption.
    + split; [exact SZ|]. split; [|exact C0]. intros f I. rewrite (OC f); [exact C0|]. apply in_or_app. right. exact I.
    + rewrite E in E1. injection E1 as <-. exact G1.
Qed.

(* Then converting triangles to quads and refining any number of times succeed as
   well, and the area, the colour and the outline stay. *)
Theorem C60_steps_partial : forall own k m, sound m -> mh_quads m = [] -> one_colour m -> no_twins m ->
  (forall f, In f (mh_tris m) -> 3 * tol26 <= 2 * fa_area (mh_pos m) f) ->
  exists m1 m2, tri2quad own m = Ok m1 /\ kept m m1 /\ one_colour m1 /\ (length (facets m1) <= length (facets m))%nat /\
    refine_n k m1 = Ok m2 /\ refinable m2 /\ covered m2 == covered m /\ (forall c, covered_by c m2 == covered_by c m) /\
    length (mh_bdry m2) = (Nat.pow 2 k * length (mh_bdry m))%nat /\
    ((0 < k)%nat -> mh_tris m2 = [] /\ length (mh_quads m2) = (Nat.pow 4 (k - 1) * (3 * length (mh_tris m1) + 4 * length (mh_quads m1)))%nat).
Proof.
  intros own k m S NQ OC NT Z.
  destruct (tri2quad_tris own m S NQ) as [m1 [E1 [K1 O1]]].
  { intros f I. apply tri_centred; [exact (tri_facet m f (sd_conf _ S) I)|exact (Z f I)]. }
  assert (S1 := kp_sound _ _ K1). specialize (O1 OC).
  destruct (C31_repeated_partial k m1) as [m2 [E2 [R2 [A2 [B2 [D2 Q2]]]]]].
  { constructor; [exact (sd_conf _ S1)|exact (sd_addr _ S1)|exact (sd_fits _ S1)|exact (no_twins_kept m m1 (kp_bdry _ _ K1) NT)]. }
  assert (CB : forall c, covered_by c m1 == covered_by c m).
  { intros c. rewrite (covered_by_one c m1 O1), (covered_by_one c m OC), (kp_col _ _ K1). destruct (Z.eqb (mh_col m) c); [exact (kp_area _ _ K1)|reflexivity]. }
  exists m1, m2. split; [exact E1|]. split; [exact (keeps_kept _ _ K1)|]. split; [exact O1|]. split; [exact (kp_le _ _ K1)|]. split; [exact E2|].
  split; [exact R2|]. split; [rewrite A2; exact (kp_area _ _ K1)|]. split; [intros c; rewrite B2; apply CB|]. split; [|exact Q2].
  rewrite D2. f_equal. assert (L := f_equal (@length _) (kp_bdry _ _ K1)). rewrite !map_length in L. exact L.
Qed.

(* ---------- from the boundaries of a domain to the mesh ---------- *)
(* A proper domain (C57) whose triangulation ends with an empty front: the rest of
   generate_elements succeeds.  The mesh is sound, its boundary edges are the edges of
   the initial front, and its elements have the area of the domain. *)
Theorem C60_generated_partial : forall bs bounds fixed sub loose col rho shape_ok dom mesh_scale inside qual newpos query fuel n twin prop st' r c,
  proper_domain bs -> map de_ends bounds = domain_segments bs ->
  (forall e, In e bounds -> de_fix e = false) -> (forall e, In e fixed -> de_fix e = true) ->
  (forall e, In e (bounds ++ fixed) -> veqb (de_a e) (de_b e) = false /\
     in_square front_scale (de_a e) = true /\ in_square front_scale (de_b e) = true) ->
  (forall a b, Forall (on_line a b) (sub a b)) -> (forall a b, ~ veq a b -> strictly_inside a b (sub a b)) ->
  (forall a b p, In p (sub a b) -> in_square front_scale a = true -> in_square front_scale b = true ->
     in_square front_scale p = true) ->
  (forall p, In p loose -> in_square front_scale p = true) ->
  (forall s e, in_square front_scale (newpos s e) = true) -> (0 < n < 2 ^ 31)%Z ->
  let st := FrontModel.prepared sub (collect_front_edges bounds fixed []) loose col in
  vertices_in mesh_scale st -> (forall s e, in_square mesh_scale (newpos s e) = true) -> (0 <= col)%Z ->
  generate mesh_scale (triangle_is_valid rho shape_ok dom) (vertex_is_valid rho inside) qual newpos query fuel n st = Some (Ok (st', r, c)) ->
  exact_vertices st' -> found (near rho) (ms_front st) st' -> ms_front st <> [] -> ms_front st' = [] ->
  exists m, finish mesh_scale twin prop st st' = Ok m /\ sound m /\ mh_quads m = [] /\ one_colour m /\ mh_col m = col /\
    map bare (mh_bdry m) = map (fin_bdry twin) (ms_front st) /\
    (forall v, mh_pos m v = ms_pos st' v) /\ incl (mh_verts m) (ms_verts st') /\
    covered m == (1 # 2) * esum vcross (domain_segments bs) /\
    (forall x, (forall t, In t (ms_tris st') -> x <= tri_area (ms_pos st' (tr_v1 t)) (ms_pos st' (tr_v2 t)) (ms_pos st' (tr_v3 t))) ->
       forall f, In f (mh_tris m) -> x <= fa_area (mh_pos m) f).
Proof.
  intros bs bounds fixed sub loose col rho shape_ok dom mesh_scale inside qual newpos query fuel n twin prop st' r c
    PD E HB HF HE HL HI HS HO NP Hn st VM NM C0 GE EX FO NE F.
  assert (WN : map fst (flat_map (wanted []) bounds) = domain_segments bs).
  { rewrite <- E. clear. induction bounds as [|e l IH]; [reflexivity|]. cbn [flat_map map]. rewrite <- IH. reflexivity. }
  assert (HE' : forall e, In e (bounds ++ fixed ++ concat []) -> veqb (de_a e) (de_b e) = false /\ in_square front_scale (de_a e) = true /\ in_square front_scale (de_b e) = true).
  { intros e. cbn [concat]. rewrite app_nil_r. apply HE. }
  assert (SC := domain_curves bs PD).
  destruct (C21_start_partial bounds fixed [] sub loose col) as (W & _ & V & NG & G & NI & A0 & IN & _); try assumption.
  { rewrite E. exact (sc_closed _ SC). }
  { intros e _ N. exfalso. apply N. reflexivity. }
  { intros e []. }
  fold st in W, V, NG, G, NI, A0, IN.
  destruct (start_front bounds fixed [] sub loose col) as (S & FM & EN); try assumption.
  { rewrite WN. exact SC. }
  { intros e []. }
  fold st in S, FM, EN.
  assert (PN : unpinched (ms_front st)) by (unfold unpinched; apply EN; rewrite WN; exact (domain_ends bs PD)).
  destruct (C27_success_partial mesh_scale _ _ qual newpos query fuel n st _ W NE Hn GE) as (st1 & r1 & c1 & os & Q & _ & R & O & _).
  injection Q as <- <- <-.
  assert (INT : forall e, In e (ms_front st) -> interior e = false).
  { intros e K. destruct (interior e) eqn:Q; [|reflexivity]. exfalso. assert (X : In e (filter interior (ms_front st))) by (apply filter_In; split; assumption). rewrite IN in X. exact X. }
  destruct (C60_finished_partial rho shape_ok dom mesh_scale inside qual twin prop os st st' W V (O _ NP) S FM NG NI A0 INT eq_refl eq_refl VM (O _ NM) PN R EX FO F)
    as (SD & CK & CO & _ & OC & MC & NQ & BD & Z).
  set (m := finished mesh_scale twin prop st st') in *. change (ms_col st) with col in MC.
  destruct (C60_cleanup_partial m SD NQ OC ltac:(rewrite MC; exact C0) Z) as [m' (E' & K & NQ' & OC' & MC' & _ & GR)].
  destruct K as (S' & A' & (B' & _) & P' & V' & _). exists m'.
  split; [unfold finish; fold m; rewrite CK; exact E'|]. split; [exact S'|]. split; [exact NQ'|]. split; [exact OC'|]. split; [rewrite MC'; exact MC|].
  split; [rewrite B', BD, map_map; reflexivity|]. split; [exact P'|]. split; [exact V'|]. split.
  - rewrite A', CO. assert (AR := C21_area_partial bounds fixed [] sub loose col HB HF ltac:(intros e []) HE' HL). cbv zeta in AR. fold st in AR. rewrite AR.
    apply Qmult_comp; [reflexivity|]. rewrite <- WN. clear. induction (flat_map (wanted []) bounds) as [|x l IH]; [reflexivity|]. cbn [map esum sumQ]. rewrite IH. destruct x as [[a b] z]. reflexivity.
  - intros x HX. apply GR. intros f I. unfold m, finished in I. cbn [mh_tris] in I. apply in_map_iff in I. destruct I as (t & <- & I). exact (HX t I).
Qed.

(* The whole sequence: triangulation, conversion to quads and k refinements of a proper
   domain.  Where no triangle of the front has an area below 3/2 of the tolerance
   1e-6*1e-6 of orientation(), nothing fails, and the area stays that of the domain. *)
Theorem C60_pipeline_partial : forall bs bounds fixed sub loose col rho shape_ok dom mesh_scale inside qual newpos query fuel n prop own k st' r c,
  proper_domain bs -> map de_ends bounds = domain_segments bs ->
  (forall e, In e bounds -> de_fix e = false) -> (forall e, In e fixed -> de_fix e = true) ->
  (forall e, In e (bounds ++ fixed) -> veqb (de_a e) (de_b e) = false /\
     in_square front_scale (de_a e) = true /\ in_square front_scale (de_b e) = true) ->
  (forall a b, Forall (on_line a b) (sub a b)) -> (forall a b, ~ veq a b -> strictly_inside a b (sub a b)) ->
  (forall a b p, In p (sub a b) -> in_square front_scale a = true -> in_square front_scale b = true ->
     in_square front_scale p = true) ->
  (forall p, In p loose -> in_square front_scale p = true) ->
  (forall s e, in_square front_scale (newpos s e) = true) -> (0 < n < 2 ^ 31)%Z ->
  let st := FrontModel.prepared sub (collect_front_edges bounds fixed []) loose col in
  vertices_in mesh_scale st -> (forall s e, in_square mesh_scale (newpos s e) = true) -> (0 <= col)%Z ->
  generate mesh_scale (triangle_is_valid rho shape_ok dom) (vertex_is_valid rho inside) qual newpos query fuel n st = Some (Ok (st', r, c)) ->
  exact_vertices st' -> found (near rho) (ms_front st) st' -> ms_front st <> [] -> ms_front st' = [] ->
  (forall t, In t (ms_tris st') -> (3 # 2) * tol26 <= tri_area (ms_pos st' (tr_v1 t)) (ms_pos st' (tr_v2 t)) (ms_pos st' (tr_v3 t))) ->
  exists m m1 m2, finish mesh_scale (fun _ => None) prop st st' = Ok m /\ tri2quad own m = Ok m1 /\ refine_n k m1 = Ok m2 /\
    sound m /\ sound m1 /\ refinable m2 /\
    covered m == (1 # 2) * esum vcross (domain_segments bs) /\ covered m1 == (1 # 2) * esum vcross (domain_segments bs) /\
    covered m2 == (1 # 2) * esum vcross (domain_segments bs) /\
    length (mh_bdry m2) = (Nat.pow 2 k * length (ms_front st))%nat /\ ((0 < k)%nat -> mh_tris m2 = []).
Proof.
  intros bs bounds fixed sub loose col rho shape_ok dom mesh_scale inside qual newpos query fuel n prop own k st' r c
    PD E HB HF HE HL HI HS HO NP Hn st VM NM C0 GE EX FO NE F Z.
  destruct (C60_generated_partial bs bounds fixed sub loose col rho shape_ok dom mesh_scale inside qual newpos query fuel n (fun _ => None) prop st' r c
    PD E HB HF HE HL HI HS HO NP Hn VM NM C0 GE EX FO NE F) as (m & EM & S & NQ & OC & MC & BD & _ & _ & CO & GR).
  destruct (C60_steps_partial own k m S NQ OC) as (m1 & m2 & E1 & K1 & _ & _ & E2 & R2 & A2 & _ & L2 & T2).
  { intros e I. apply (in_map bare) in I. rewrite BD in I. apply in_map_iff in I. destruct I as (x & X & _). apply (f_equal ed_twin) in X. cbn in X. symmetry. exact X. }
  { intros f I. assert (X := GR _ Z f I). lra. }
  exists m, m1, m2. split; [exact EM|]. split; [exact E1|]. split; [exact E2|]. split; [exact S|]. split; [apply K1|]. split; [exact R2|]. split; [exact CO|].
  split; [destruct K1 as (_ & A1 & _); rewrite A1; exact CO|]. split; [rewrite A2; exact CO|]. split; [|intros P; apply (T2 P)].
  rewrite L2. f_equal. assert (L := f_equal (@length _) BD). rewrite !map_length in L. exact L.
Qed.

(* ---------- cases ---------- *)
(* the frame of C57_frame_case: 8 triangles, 4 quads, 16 quads *)
Example C60_frame_case : exists st', frame_run = Some (Ok (st', true, 8%nat)) /\ ms_front st' = [] /\
  exact_vertices st' /\ found (near (fun _ => 2)) (ms_front frame_start) st' /\ vertices_in 7 frame_start /\ unpinched (ms_front frame_start) /\
  (forall t, In t (ms_tris st') -> (3 # 2) * tol26 <= tri_area (ms_pos st' (tr_v1 t)) (ms_pos st' (tr_v2 t)) (ms_pos st' (tr_v3 t))) /\
  (1 # 2) * esum vcross (domain_segments frame2) == 8 /\
  (exists m m1 m2, finish 7 (fun _ => None) (fun _ => 0%N) frame_start st' = Ok m /\ tri2quad true m = Ok m1 /\ refine_n 1 m1 = Ok m2 /\
     sound m /\ sound m1 /\ refinable m2 /\ covered m == 8 /\ covered m1 == 8 /\ covered m2 == 8 /\
     length (mh_bdry m2) = 16%nat /\ mh_tris m2 = []) /\
  match finish 7 (fun _ => None) (fun _ => 0%N) frame_start st' with
  | Ok m => match tri2quad true m with
            | Ok m1 => match refine_n 1 m1 with
                       | Ok m2 => (Nat.eqb (length (mh_tris m)) 8 && Nat.eqb (length (mh_quads m1)) 4 && Nat.eqb (length (mh_tris m1)) 0 && Nat.eqb (length (mh_quads m2)) 16)%bool = true
                       | _ => False end
            | _ => False end
  | _ => False end.
Proof.
  assert (X : match frame_run with
    | Some (Ok (s, r, c)) => exactb s && foundb (fun _ => 2) (ms_front frame_start) s && Nat.eqb (length (generated s)) 8 && r && Nat.eqb c 8 &&
        (match ms_front s with [] => true | _ => false end) &&
        forallb (fun t => Qle_bool ((3 # 2) * tol26) (tri_area (ms_pos s (tr_v1 t)) (ms_pos s (tr_v2 t)) (ms_pos s (tr_v3 t)))) (ms_tris s) &&
        (match finish 7 (fun _ => None) (fun _ => 0%N) frame_start s with
         | Ok m => match tri2quad true m with
                   | Ok m1 => match refine_n 1 m1 with
                              | Ok m2 => Nat.eqb (length (mh_tris m)) 8 && Nat.eqb (length (mh_quads m1)) 4 && Nat.eqb (length (mh_tris m1)) 0 && Nat.eqb (length (mh_quads m2)) 16
                              | _ => false end
                   | _ => false end
         | _ => false end) = true
    | _ => False end) by (vm_compute; reflexivity).
  destruct frame_run as [[[[s r] c]| |]|] eqn:G; try contradiction. rewrite !andb_true_iff in X. destruct X as (((((((X1 & X2) & X3) & X4) & X5) & X6) & X7) & X8).
  apply Nat.eqb_eq in X5. subst r c. exists s. split; [reflexivity|].
  assert (F : ms_front s = []) by (destruct (ms_front s); [reflexivity|discriminate]). split; [exact F|].
  apply exactb_sound in X1. apply foundb_sound in X2. split; [exact X1|]. split; [exact X2|].
  assert (VM : vertices_in 7 frame_start).
  { intros v L. change (ms_nv frame_start) with 8%nat in L. do 8 (destruct v as [|v]; [vm_compute; reflexivity|]). lia. }
  split; [exact VM|]. split.
  { intros e f I J. change (ms_front frame_start) with [BE 0 0 1 1 1; BE 1 1 2 1 1; BE 2 2 3 1 1; BE 3 3 0 1 1; BE 4 4 5 1 1; BE 5 5 6 1 1; BE 6 6 7 1 1; BE 7 7 4 1 1] in I, J.
    cbn in I, J. repeat (destruct I as [<-|I]; [repeat (destruct J as [<-|J]; [first [reflexivity|discriminate]|]); destruct J|]). destruct I. }
  assert (Z : forall t, In t (ms_tris s) -> (3 # 2) * tol26 <= tri_area (ms_pos s (tr_v1 t)) (ms_pos s (tr_v2 t)) (ms_pos s (tr_v3 t))).
  { intros t I. rewrite forallb_forall in X7. apply Qle_bool_iff, (X7 t I). }
  split; [exact Z|]. assert (A8 : (1 # 2) * esum vcross (domain_segments frame2) == 8) by (vm_compute; reflexivity). split; [exact A8|]. split.
  - clear X3 X6 X7 X8. assert (E : map de_ends frame_bounds = domain_segments frame2) by reflexivity.
    assert (HE : forall e, In e (frame_bounds ++ []) -> veqb (de_a e) (de_b e) = false /\ in_square front_scale (de_a e) = true /\ in_square front_scale (de_b e) = true).
    { intros e H. cbn in H. repeat (destruct H as [<-|H]; [split; [|split]; vm_compute; reflexivity|]). destruct H. }
    assert (HB : forall e, In e frame_bounds -> de_fix e = false) by (intros e I; unfold frame_bounds in I; apply in_map_iff in I; destruct I as (x & <- & _); reflexivity).
    assert (HI : forall a b, ~ veq a b -> strictly_inside a b (no_sub a b)) by (intros a b _; exists []; split; [cbn; lra|constructor]).
    assert (HL : forall a b, Forall (on_line a b) (no_sub a b)) by (intros a b; constructor).
    assert (NE : ms_front frame_start <> []) by (vm_compute; discriminate).
    assert (P := C60_pipeline_partial frame2 frame_bounds [] no_sub [] 1%Z (fun _ => 2) no_shape (domain_segments frame2) 7 (fun _ => true) (fun _ _ => 0)
      (fun _ _ => V2 (1 # 2) (1 # 2)) (fun _ _ _ => [0; 1; 2; 3; 4; 5; 6; 7]%nat) 100%nat 20%Z (fun _ => 0%N) true 1%nat s true 8%nat frame_proper E HB
      (fun e (H : In e []) => match H with end) HE HL HI (fun a b p (H : In p []) => match H with end) (fun p (H : In p []) => match H with end)
      (fun _ _ => eq_refl) (conj eq_refl eq_refl)).
    cbv zeta in P. fold frame_start in P. specialize (P VM (fun _ _ => eq_refl) ltac:(lia) G X1 X2 NE F Z).
    destruct P as (m & m1 & m2 & E1 & E2 & E3 & S1 & S2 & S3 & A1 & A2 & A3 & L & T).
    rewrite A8 in A1, A2, A3. exists m, m1, m2. split; [exact E1|]. split; [exact E2|]. split; [exact E3|]. split; [exact S1|]. split; [exact S2|]. split; [exact S3|]. split; [exact A1|]. split; [exact A2|]. split; [exact A3|]. split; [exact L|]. apply T. clear. lia.
  - clear - X8. destruct (finish 7 (fun _ => None) (fun _ => 0%N) frame_start s) as [m| |]; [|discriminate|discriminate].
    destruct (tri2quad true m) as [m1| |]; [|discriminate|discriminate]. destruct (refine_n 1 m1) as [m2| |]; [|discriminate|discriminate]. exact X8.
Qed.


(* A triangle whose triangulation stops at the given number of elements: the loops
   report success and the check finds nothing, although a hole is left inside.  The
   condition of an empty front cannot be replaced by success and a passed check. *)
Definition hole_pts : list vec2 := [V2 0 0; V2 6 0; V2 0 6].
Definition hole_domain : list boundary := [Bd EXTERIOR (ring_edges hole_pts) 1].
Definition hole_bounds : list dedge := map (fun e => DE (fst e) (snd e) 1%Z false) (ring_edges hole_pts).
Definition hole_start : mstate := FrontModel.prepared no_sub (collect_front_edges hole_bounds [] []) [] 1%Z.
Definition hole_new (_ : mstate) (e : bedge) : vec2 := match be_id e with 0%nat => V2 3 1 | 1%nat => V2 2 2 | _ => V2 1 3 end.
Notation hole_run := (generate 14 (triangle_is_valid (fun _ => 2) no_shape (domain_segments hole_domain)) (vertex_is_valid (fun _ => 2) (fun _ => true)) (fun _ _ => 0)
  hole_new (fun _ _ _ => []) 100 3 hole_start).
Theorem C60_stopped_refuted : exists bs bounds rho newpos n st' m,
  let st := FrontModel.prepared no_sub (collect_front_edges bounds [] []) [] 1%Z in
  proper_domain bs /\ map de_ends bounds = domain_segments bs /\ vertices_in 14 st /\ (forall s e, in_square 14 (newpos s e) = true) /\
  generate 14 (triangle_is_valid rho no_shape (domain_segments bs)) (vertex_is_valid rho (fun _ => true)) (fun _ _ => 0) newpos (fun _ _ _ => []) 100 n st =
    Some (Ok (st', true, 3%nat)) /\ exact_vertices st' /\
  check_mesh_validity (finished 14 (fun _ => None) (fun _ => 0%N) st st') = true /\
  finish 14 (fun _ => None) (fun _ => 0%N) st st' = Ok m /\
  ~ conforming m /\ covered m < (1 # 2) * esum vcross (domain_segments bs).
Proof.
  assert (X : match hole_run with
    | Some (Ok (s, r, c)) => exactb s && r && Nat.eqb c 3 && check_mesh_validity (finished 14 (fun _ => None) (fun _ => 0%N) hole_start s) &&
        (match finish 14 (fun _ => None) (fun _ => 0%N) hole_start s with
         | Ok m => negb (Qle_bool 18 (covered m)) && negb (forallb (fun e => memb (ed_1 e, ed_2 e) (all_sides m)) (mh_intr m))
         | _ => false end) = true
    | _ => False end) by (vm_compute; reflexivity).
  destruct hole_run as [[[[s r] c]| |]|] eqn:G; try contradiction. rewrite !andb_true_iff in X. destruct X as ((((X1 & X2) & X3) & X4) & X5).
  apply Nat.eqb_eq in X3. subst r c. destruct (finish 14 (fun _ => None) (fun _ => 0%N) hole_start s) as [m| |] eqn:E; [|discriminate|discriminate].
  apply andb_true_iff in X5. destruct X5 as [X5 X6].
  exists hole_domain, hole_bounds, (fun _ => 2), hole_new, 3%Z, s, m. cbv zeta. fold hole_start.
  split; [apply alone_proper; [apply simpleb_sound|]; vm_compute; reflexivity|]. split; [reflexivity|]. split.
  { intros v L. change (ms_nv hole_start) with 3%nat in L. do 3 (destruct v as [|v]; [vm_compute; reflexivity|]). lia. }
  split; [intros t e; unfold hole_new; destruct (be_id e) as [|[|k]]; vm_compute; reflexivity|].
  split; [exact G|]. split; [apply exactb_sound; exact X1|]. split; [exact X4|]. split; [exact E|]. clear - X5 X6. split.
  - intros C. apply negb_true_iff in X6. assert (Y : forallb (fun e => memb (ed_1 e, ed_2 e) (all_sides m)) (mh_intr m) = true); [|congruence].
    apply forallb_forall. intros e I. apply memb_in. apply (cf_intr _ C e I).
  - assert (A : (1 # 2) * esum vcross (domain_segments hole_domain) == 18) by (vm_compute; reflexivity). rewrite A. apply negb_true_iff in X5. apply Qnot_le_lt. intros H. apply Qle_bool_iff in H. congruence.
Qed.

Print Assumptions C60_check.
Print Assumptions C60_check_conforming.
Print Assumptions C60_finished_partial.
Print Assumptions C60_cleanup_partial.
Print Assumptions C60_steps_partial.
Print Assumptions C60_generated_partial.
Print Assumptions C60_pipeline_partial.
Print Assumptions C60_stopped_refuted.
