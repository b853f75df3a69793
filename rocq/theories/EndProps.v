(* C65: from the parameter file to the mesh. *)
From Coq Require Import Reals Qreals Lra Lqa Lia Permutation.
From Verif Require Import Base Chain GeomModel GeomSpec GeomProofs FacetModel UtilModel BdryModel BdrySpec BdryProofs AdvanceModel AdvanceSpec AdvanceProofs AdvanceInv AdvanceGeom
  AdvanceProps LoopModel LoopSpec LoopProps FrontModel FrontSpec FrontProofs FrontProps MeshModel MeshSpec MeshProofs QRefineModel QRefineSpec QRefineProps CleanModel CleanSpec CleanPass CleanScan CleanProps
  T2QModel T2QSpec T2QProofs T2QProps SmoothModel SmoothSpec WindSpec WindProofs WindMesh WindMeshProps WindInsideProps PolySpec PolyMain PolyProps ClearSpec ClearStart ClearDomain ClearProps
  FinModel FinPipe FinProps ShapeModel ShapeSpec ShapeProofs ShapeProps SmoothProofs SmoothProps DomInModel DomInSpec DomInProofs DomInBuild ConvexProofs CircProofs PlateSpec PlateProofs BdryProps DomInProps NearRange EndSpec EndClean EndProofs.
From Verif Require Import AppModel.
Open Scope Q_scope.

(* ---------- clean-up and conversion to quadrilaterals ---------- *)
(* Two simple quadrilaterals with two common sides make a simple one: the clean-up of
   doubled edges covers the region of the mesh exactly. *)
Theorem C65_doubled_quads : forall init m, sound m -> init = true \/ linked m -> simple_elements m ->
  exists m', clear_double_quads init m = Ok m' /\ sound m' /\ simple_elements m' /\ tiles (mh_pos m') (shapes m') (mesh_region m).
Proof.
  intros init m S I SE. destruct (pass_kept true init m S I) as [m' [E [K _]]]. exists m'. split; [rewrite pass_quads; exact E|].
  assert (SE' := pass_simple true init m m' S I E SE). split; [exact (kp_sound _ _ K)|]. split; [exact SE'|].
  apply C50_cleanup_partial; [exact (keeps_kept _ _ K)|]. intros f J. apply SE', in_or_app. left. exact J.
Qed.
Theorem C65_doubled_tris : forall init m, sound m -> init = true \/ linked m -> simple_elements m ->
  exists m', clear_double_tris init m = Ok m' /\ sound m' /\ simple_elements m' /\ tiles (mh_pos m') (shapes m') (mesh_region m).
Proof.
  intros init m S I SE. destruct (pass_kept false init m S I) as [m' [E [K _]]]. exists m'. split; [rewrite pass_tris; exact E|].
  assert (SE' := pass_simple false init m m' S I E SE). split; [exact (kp_sound _ _ K)|]. split; [exact SE'|].
  apply C50_cleanup_partial; [exact (keeps_kept _ _ K)|]. intros f J. apply SE', in_or_app. left. exact J.
Qed.
(* the whole conversion, not only its first step (C50_tri2quad_partial); meshes of
   triangles need no assumption on the pointers of the edges *)
Theorem C65_converted_partial : forall own m, sound m -> mh_quads m = [] \/ (well_sided m /\ simple_elements m) -> tris_centred m ->
  exists m', tri2quad own m = Ok m' /\ CleanProps.kept m m' /\ simple_elements m' /\ tiles (mh_pos m') (shapes m') (mesh_region m).
Proof.
  intros own m S H T. assert (X : exists m1 ds, merge_triangles own (setup_facet_connectivity m) = Ok m1 /\ swapped own (setup_facet_connectivity m) m1 ds).
  { destruct H as [NQ|[W _]]; [destruct (setup_sides_tris m S NQ T) as [W0 X0]|destruct (setup_sides m S W T) as [W0 X0]];
      destruct (merge_triangles_ok own _ (CleanPass.setup_sound m S) W0 X0) as [m1 [ds [E [SW _]]]]; exists m1, ds; split; assumption. }
  destruct X as (m1 & ds & E & SW). assert (SE : simple_elements m) by (destruct H as [NQ|[_ SE]]; [exact (tris_simple m S NQ)|exact SE]).
  destruct (converted own m m1 ds S E SW SE) as (m2 & E2 & K & SE2). exists m2. split; [exact E2|]. split; [exact (keeps_kept _ _ K)|]. split; [exact SE2|].
  apply C50_cleanup_partial; [exact (keeps_kept _ _ K)|]. intros f J. apply SE2, in_or_app. left. exact J.
Qed.
(* any number of refinements of a mesh of convex elements *)
Theorem C65_refined : forall k c, refinable c -> (forall f, In f (facets c) -> strictly_convex (mh_pos c) f) ->
  exists m, refine_n k c = Ok m /\ refinable m /\ (forall f, In f (facets m) -> strictly_convex (mh_pos m) f) /\ tiles (mh_pos m) (shapes m) (mesh_region c).
Proof.
  intros k c R CV. destruct (refined_many k c R CV) as (m & E & RM & SE & CM & G). exists m. split; [exact E|]. split; [exact RM|]. split; [exact CM|].
  apply (tiles_eq _ _ (mesh_region m) _ G). apply mesh_tiles; [exact (rb_conf _ RM)|exact SE].
Qed.

(* ---------- from the file to the mesh ---------- *)
Theorem C65_mesh_partial : forall nearest cosn sinn sqrt3 stod store ext int d0 c0 css, answers nearest ->
  chosen kinds ext = Some d0 -> gives cosn sinn sqrt3 stod store EXTERIOR d0 c0 ->
  Forall2 (gives cosn sinn sqrt3 stod store INTERIOR) (interior_definitions int) css -> nested (places c0) (map places css) ->
  (forall cs p, In cs (c0 :: css) -> In p (places cs) -> in_square front_scale p = true) ->
  exists new bds, init_boundaries nearest cosn sinn sqrt3 stod store ext int = Ok (store ++ new, bds) /\
  let area := Qabs.Qabs (signed_area (places c0)) - total css in
  forall fixed sub loose col rho shape_ok dom mesh_scale inside qual newpos query fuel n prop own st' r c,
  (forall e, In e fixed -> de_fix e = true /\ veqb (de_a e) (de_b e) = false /\
     in_square front_scale (de_a e) = true /\ in_square front_scale (de_b e) = true) ->
  (forall a b, Forall (on_line a b) (sub a b)) -> (forall a b, ~ veq a b -> strictly_inside a b (sub a b)) ->
  (forall a b p, In p (sub a b) -> in_square front_scale a = true -> in_square front_scale b = true ->
     in_square front_scale p = true) ->
  (forall p, In p loose -> in_square front_scale p = true) ->
  (forall s e, in_square front_scale (newpos s e) = true) -> (0 < n < 2 ^ 31)%Z ->
  let st := FrontModel.prepared sub (collect_front_edges (file_edges (store ++ new) bds) fixed []) loose col in
  vertices_in mesh_scale st -> (forall s e, in_square mesh_scale (newpos s e) = true) -> (0 <= col)%Z ->
  generate mesh_scale (triangle_is_valid rho shape_ok dom) (vertex_is_valid rho inside) qual newpos query fuel n st = Some (Ok (st', r, c)) ->
  exact_vertices st' -> found (AdvanceGeom.near rho) (ms_front st) st' -> ms_front st' = [] ->
  (forall t, In t (ms_tris st') -> (3 # 2) * tol26 <= tri_area (ms_pos st' (tr_v1 t)) (ms_pos st' (tr_v2 t)) (ms_pos st' (tr_v3 t))) ->
  exists m m1, finish mesh_scale (fun _ => None) prop st st' = Ok m /\ tri2quad own m = Ok m1 /\
    sound m /\ sound m1 /\ covered m == area /\ covered m1 == area /\
    fills m (places c0) (map places css) /\ fills m1 (places c0) (map places css) /\
    (forall e, In e (mh_bdry m) -> exists cs, In cs (c0 :: css) /\ In (ed_col e) (colours cs) /\ along (places cs) (mh_pos m (ed_1 e)) (mh_pos m (ed_2 e))) /\
    map bare (mh_bdry m1) = map bare (mh_bdry m) /\
    (forall k, exists m2, refine_n k m1 = Ok m2 /\ refinable m2 /\ covered m2 == area /\
       ((forall f, In f (facets m1) -> strictly_convex (mh_pos m1) f) -> fills m2 (places c0) (map places css))) /\
    (forall s ks, boundary_marked m -> domain_fits (sm_inside s) m -> exists m', SmoothModel.run s m ks = Ok m' /\ sound m' /\
       covered m' == area /\ fills m' (places c0) (map places css)).
Proof.
  intros nearest cosn sinn sqrt3 stod store ext int d0 c0 css A C D F NE SQ.
  destruct (boundaries_described nearest cosn sinn sqrt3 stod A store ext int d0 c0 css C D (ne_outer _ _ NE) F) as (new & b & bs & E & F0 & FS).
  { intros cs I. apply (ne_holes _ _ NE), in_map, I. }
  exists new, ((EXTERIOR, b) :: bs). split; [exact E|]. cbv zeta.
  assert (AF := all_fit _ _ _ _ _ F0 FS). assert (PD := built_proper _ _ _ _ _ F0 FS NE). assert (W := built_winding _ _ _ _ _ F0 FS NE).
  assert (AR : (1 # 2) * esum vcross (domain_segments (domain_of (store ++ new) ((EXTERIOR, b) :: bs))) == Qabs.Qabs (signed_area (places c0)) - total css).
  { rewrite (domain_half _ _ _ AF). destruct (C64_domain nearest cosn sinn sqrt3 stod store ext int d0 c0 css A C D F NE) as (new' & b' & bs' & E' & R).
    rewrite E in E'. assert (X : store ++ new = store ++ new' /\ b = b' /\ bs = bs') by (injection E' as X1 X2 X3; auto). destruct X as (X1 & <- & <-). rewrite X1. cbv zeta in R. apply R. }
  set (bds := (EXTERIOR, b) :: bs) in *. set (st0 := store ++ new) in *. clearbody st0 bds. clear E F0 FS A C D F b bs d0 ext int new store nearest cosn sinn sqrt3 stod.
  intros fixed sub loose col rho shape_ok dom mesh_scale inside qual newpos query fuel n prop own st' r c HFX HL HI HS HO NP Hn VM NM C0 GE EX FO F Z.
  set (bounds := file_edges st0 bds) in *. set (st := FrontModel.prepared sub (collect_front_edges bounds fixed []) loose col) in *.
  assert (EB : map de_ends bounds = domain_segments (domain_of st0 bds)) by apply file_segments.
  assert (SC := domain_curves _ PD). rewrite <- EB in SC.
  assert (HB : forall e, In e bounds -> de_fix e = false) by (intros e I; exact (file_fix _ _ _ I)).
  assert (HF : forall e, In e fixed -> de_fix e = true) by (intros e I; apply (HFX e I)).
  assert (HE : forall e, In e (bounds ++ fixed) -> veqb (de_a e) (de_b e) = false /\ in_square front_scale (de_a e) = true /\ in_square front_scale (de_b e) = true).
  { intros e I. apply in_app_or in I. destruct I as [I|I]; [|apply (HFX e I)]. split.
    - destruct (veqb (de_a e) (de_b e)) eqn:Q; [|reflexivity]. exfalso. apply veqb_true in Q. exact (sc_proper _ SC (de_ends e) (in_map _ _ _ I) Q).
    - destruct (file_side _ _ _ _ AF I) as (cs & x & y & I1 & _ & I2 & I3). destruct (ring_ends _ _ _ I2) as [J1 J2].
      assert (Q1 := SQ cs x I1 J1). assert (Q2 := SQ cs y I1 J2).
      destruct I3 as [[V1 V2]|[V1 V2]]; rewrite (in_square_eq _ _ _ V1), (in_square_eq _ _ _ V2); split; assumption. }
  destruct (front_pieces bounds fixed sub loose col SC HB HF HE HI) as [NF FP]. fold st in NF, FP.
  assert (NEF : ms_front st <> []).
  { apply NF. intros Q. assert (X := pd_exterior _ PD). destruct X as (l1 & x & l2 & X1 & X2 & _). assert (Y := pd_simple _ PD x). destruct Y as (l & Y1 & (Y2 & _) & _).
    - rewrite X1. apply in_or_app. right. left. reflexivity.
    - rewrite Q in EB. cbn [map] in EB. rewrite X1 in EB. unfold domain_segments in EB. rewrite flat_map_app in EB. symmetry in EB. apply app_eq_nil in EB. destruct EB as [_ EB].
      cbn [flat_map] in EB. apply app_eq_nil in EB. destruct EB as [EB _]. rewrite Y1 in EB. assert (L := ring_edges_length l). rewrite EB in L. cbn in L. lia. }
  destruct (C60_generated_partial _ bounds fixed sub loose col rho shape_ok dom mesh_scale inside qual newpos query fuel n (fun _ => None) prop st' r c
    PD EB HB HF HE HL HI HS HO NP Hn VM NM C0 GE EX FO NEF F) as (m & EM & S & NQ & OC & MC & BD & PO & _ & CO & GR).
  fold st in EM, BD.
  assert (PF : forall e, In e (ms_front st) -> mh_pos m (be_v1 e) = ms_pos st (be_v1 e) /\ mh_pos m (be_v2 e) = ms_pos st (be_v2 e)).
  { destruct (C21_start_partial bounds fixed [] sub loose col (sc_closed _ SC) ltac:(intros e _ N; exfalso; apply N; reflexivity) HB HF ltac:(intros e []) ltac:(intros e; cbn [concat]; rewrite app_nil_r; apply HE) HS HO) as (WF & _). fold st in WF.
    destruct (C27_success_partial mesh_scale _ _ qual newpos query fuel n st _ WF NEF Hn GE) as (st1 & r1 & c1 & os & Q & _ & R & _). injection Q as <- <- <-.
    assert (PS : forall v, (v < ms_nv st)%nat -> ms_pos st' v = ms_pos st v) by (apply (run_wf _ _ _ _ os st st' WF R)).
    intros e I. destruct (wf_ev _ WF e I) as (L1 & L2 & _). rewrite !PO. split; apply PS; assumption. }
  assert (RG : forall p, mesh_region m p == winding p (domain_segments (domain_of st0 bds))).
  { apply (made_region _ bounds fixed sub loose col (fun _ => None) m EB HB HF HE HL); fold st; assumption. }
  assert (W' : forall p, (winding p (domain_segments (domain_of st0 bds)) == 1 /\ ~ winding p (ring_edges (places c0)) == 0 /\ forall l, In l (map places css) -> winding p (ring_edges l) == 0) \/
     (winding p (domain_segments (domain_of st0 bds)) == 0 /\ (winding p (ring_edges (places c0)) == 0 \/ exists l, In l (map places css) /\ ~ winding p (ring_edges l) == 0))).
  { intros p. destruct (W p) as [(X1 & X2 & X3)|(X1 & X2)]; [left|right].
    - split; [exact X1|]. split; [exact X2|]. intros l I. apply in_map_iff in I. destruct I as (cs & <- & I). exact (X3 cs I).
    - split; [exact X1|]. destruct X2 as [X2|(cs & I & X2)]; [left; exact X2|right]. exists (places cs). split; [apply in_map, I|exact X2]. }
  clear W. rewrite AR in CO.
  assert (TC : tris_centred m).
  { intros f I. apply tri_centred; [exact (tri_facet m f (sd_conf _ S) I)|]. assert (X := GR _ Z f I). Lqa.lra. }
  destruct (C65_converted_partial own m S (or_introl NQ) TC) as (m1 & E1 & K1 & SE1 & _). assert (S1 : sound m1) by apply K1. assert (CO1 : covered m1 == covered m) by apply K1. assert (B1 : map bare (mh_bdry m1) = map bare (mh_bdry m)) by apply K1.
  assert (NT : no_twins m).
  { intros e I. apply (in_map bare) in I. rewrite BD in I. apply in_map_iff in I. destruct I as (x & X & _). apply (f_equal ed_twin) in X. cbn in X. symmetry. exact X. }
  exists m, m1. split; [exact EM|]. split; [exact E1|]. split; [exact S|]. split; [exact S1|]. split; [exact CO|]. split; [rewrite CO1; exact CO|].
  split; [exact (fills_region m _ _ _ (sd_conf _ S) (tris_simple m S NQ) RG W')|].
  split; [apply (fills_region m1 (domain_segments (domain_of st0 bds)) _ _ (sd_conf _ S1) SE1); [intros p; rewrite (kept_region m m1 K1); apply RG|exact W']|].
  split.
  { intros e I. assert (J := in_map bare _ _ I). rewrite BD in J. apply in_map_iff in J. destruct J as (x & X & J).
    assert (X1 := f_equal ed_1 X). assert (X2 := f_equal ed_2 X). assert (X3 := f_equal ed_col X). cbn in X1, X2, X3. rewrite <- X1, <- X2, <- X3.
    destruct (PF x J) as [P1 P2]. rewrite P1, P2. destruct (FP x J) as (y & l & h & Y & CY & L1 & L2 & L3 & V1 & V2).
    destruct (file_side _ _ _ _ AF Y) as (cs & u & v & I1 & I2 & I3 & I4). exists cs. split; [exact I1|]. split; [rewrite CY; exact I2|].
    assert (OS : forall a b u v s, veq a u -> veq b v -> veq (on_seg a b s) (on_seg u v s)).
    { intros a b u' v' s [Q1 Q2] [Q3 Q4]. unfold veq, on_seg. cbn [vx vy]. rewrite Q1, Q2, Q3, Q4. split; reflexivity. }
    assert (OR : forall a b s, veq (on_seg a b s) (on_seg b a (1 - s))) by (intros a b s; unfold veq, on_seg; cbn [vx vy]; split; ring).
    destruct I4 as [[Q1 Q2]|[Q1 Q2]].
    - exists u, v, l, h. split; [exact I3|]. split; [Lqa.lra|]. split; [Lqa.lra|]. split; [exact (veq_trans _ _ _ V1 (OS _ _ _ _ l Q1 Q2))|exact (veq_trans _ _ _ V2 (OS _ _ _ _ h Q1 Q2))].
    - exists u, v, (1 - l), (1 - h). split; [exact I3|]. split; [Lqa.lra|]. split; [Lqa.lra|].
      split; [exact (veq_trans _ _ _ V1 (veq_trans _ _ _ (OS _ _ _ _ l Q1 Q2) (OR _ _ l)))|exact (veq_trans _ _ _ V2 (veq_trans _ _ _ (OS _ _ _ _ h Q1 Q2) (OR _ _ h)))]. }
  split; [exact B1|]. split.
  - intros k. assert (R1 : refinable m1) by (constructor; [exact (sd_conf _ S1)|exact (sd_addr _ S1)|exact (sd_fits _ S1)|exact (no_twins_kept m m1 B1 NT)]).
    destruct (C31_repeated_partial k m1 R1) as (m2 & E2 & R2 & A2 & _). exists m2. split; [exact E2|]. split; [exact R2|]. split; [rewrite A2, CO1; exact CO|].
    intros CV. destruct (refined_many k m1 R1 CV) as (m3 & E3 & _ & SE3 & _ & G). rewrite E2 in E3. injection E3 as <-.
    apply (fills_region m2 (domain_segments (domain_of st0 bds)) _ _ (rb_conf _ R2) SE3); [|exact W']. intros p. rewrite (G p), (kept_region m m1 K1). apply RG.
  - intros s ks BM DF. destruct (C35_defined s m ks S DF) as [m' RU]. exists m'. split; [exact RU|]. assert (S' := C35_triangle_mesh s m ks m' S NQ DF RU). destruct (C35_moves s m ks m' RU) as [SS [ST _]].
    assert (SB : same_boundary m m') by (split; [exact (ss_bdry _ _ SS)|]; intros e He; destruct (BM e He) as [Q1 Q2]; split; apply ST; left; right; left; assumption).
    split; [exact S'|]. split; [|apply (fills_region m' (domain_segments (domain_of st0 bds)) _ _ (sd_conf _ S')); [|intros p; rewrite (same_boundary_region m m' SB); apply RG|exact W']].
    + rewrite (C35_area s m ks m' (sd_conf _ S) (sd_unset _ S) BM RU). exact CO.
    + apply tris_simple; [exact S'|]. rewrite (ss_quads _ _ SS). exact NQ.
Qed.

(* ---------- plates with round holes ---------- *)
(* What the mesh of such a plate covers (C65_mesh_partial gives the first two hypotheses):
   no part of the holes except for what the polygons leave out, all of the plate farther
   away from the centres than the corners, and the area of the plate without the discs
   up to the error of the polygons. *)
Theorem C65_plate : forall m cosn sinn c0 css xy w h os (e : R),
  fills m (places c0) (map places css) -> covered m == Qabs.Qabs (signed_area (places c0)) - total css ->
  places c0 = rect_shape xy w h -> 0 < w -> 0 < h ->
  map places css = map (fun o => circle_shape cosn sinn (ho_xy o) (ho_r o) (ho_n o)) os ->
  (0 <= e)%R -> (forall o, In o os -> in_plate cosn sinn e xy w h o) -> ForallOrdPairs (holes_apart e) os ->
  nested (places c0) (map places css) /\
  (forall p, vx xy - (1 # 2) * w < vx p < vx xy + (1 # 2) * w -> vy xy - (1 # 2) * h < vy p < vy xy + (1 # 2) * h ->
     (forall o, In o os -> (reach e o ^ 2 < sq_distance p (ho_xy o))%R) -> exists f, In f (facets m) /\ in_closure (mh_pos m) (fa_sh f) p) /\
  (forall p o rho, In o os -> (0 <= rho < 1 - 8 / INR (ho_n o) ^ 2 - 4 * INR (ho_n o) * e)%R -> (sq_distance p (ho_xy o) <= (rho * radius o) ^ 2)%R ->
     forall f, In f (facets m) -> ~ inside_shape (mh_pos m) (fa_sh f) p) /\
  (Rabs (Q2R (covered m) - (Q2R w * Q2R h - discs_area os)) <= polygon_error e os)%R.
Proof.
  intros m cosn sinn c0 css xy w h os e [_ FA FO] CO PC W H PS E0 IP AP.
  assert (NE := circles_nested cosn sinn e xy w h os E0 W H IP AP). rewrite <- PS, <- PC in NE. split; [exact NE|].
  assert (RC := rect_convex xy w h W H).
  split.
  { intros p PX PY PO. apply FA. split.
    - rewrite PC, (inside_convex _ RC ltac:(cbn; lia) p (rect_left xy w h p W H PX PY)). discriminate.
    - intros l I. rewrite PS in I. apply in_map_iff in I. destruct I as (o & <- & J).
      exact (circle_outside cosn sinn o e p (ip_corners _ _ _ _ _ _ _ (IP o J)) (ip_radius _ _ _ _ _ _ _ (IP o J)) (ip_circle _ _ _ _ _ _ _ (IP o J)) (PO o J)). }
  split.
  { intros p o rho I [P0 P1] P2 f IF INS. destruct (FO p f IF INS) as [_ Z]. destruct (IP o I) as [N R0 E3 T _ _].
    assert (J := in_map (fun o => circle_shape cosn sinn (ho_xy o) (ho_r o) (ho_n o)) _ _ I). rewrite <- PS in J. specialize (Z _ J).
    rewrite inside_convex in Z; [discriminate| | |].
    - apply (circle_convex cosn sinn _ _ _ e N E0 E3 T). intros X. rewrite X in R0. discriminate.
    - rewrite shape_length. exact N.
    - intros e0 I0. assert (AX := apothem (ho_n o) N). apply (circle_left cosn sinn (ho_xy o) (ho_r o) (ho_n o) e N E0 E3 T p rho R0 P0); [Lra.lra|exact P2|exact I0]. }
  rewrite (Qeq_eqR _ _ CO), Q2R_minus, PC. destruct (C56_rectangle xy w h W H) as [_ AR].
  assert (AQ : Qabs.Qabs (signed_area (rect_shape xy w h)) == w * h) by (rewrite AR; apply Qabs.Qabs_pos, Qlt_le_weak, Qmult_lt_0_compat; assumption).
  rewrite (Qeq_eqR _ _ AQ), Q2R_mult.
  assert (TT : (discs_area os - polygon_error e os <= Q2R (total css) <= discs_area os + polygon_error e os)%R).
  { clear - PS IP E0. revert os PS IP. induction css as [|cs css IH]; intros [|o os] PS IP; try discriminate; cbn [total fold_right discs_area polygon_error].
    - replace (Q2R 0) with 0%R by (unfold Q2R; cbn; Lra.lra). Lra.lra.
    - cbn [map] in PS. injection PS as P1 P2. specialize (IH os P2 (fun x I => IP x (or_intror I))). fold (total css). fold (discs_area os). fold (polygon_error e os).
      rewrite Q2R_plus, P1. assert (HA := hole_area cosn sinn e xy w h o E0 (IP o (or_introl eq_refl))). Lra.lra. }
  apply abs_le. Lra.lra.
Qed.

(* ---------- the range of the search ---------- *)
(* The neighbours of a new triangle are looked for in a range around its centroid.  None
   is missed if no edge is longer than 12/7 of the size function there: this gives the
   condition [found] of C57, C60, C62 and of C65_mesh_partial.  C57_refuted has longer edges. *)
Theorem C65_graded : forall rho f0 st,
  (forall t, In t (generated st) -> 0 < tri_area (ms_pos st (tr_v1 t)) (ms_pos st (tr_v2 t)) (ms_pos st (tr_v3 t))) ->
  (forall t a b, In t (generated st) -> known f0 (generated st) a b ->
     (exists s, 0 <= s <= 1 /\ touching (on_seg (ms_pos st a) (ms_pos st b) s) (ms_pos st (tr_v1 t)) (ms_pos st (tr_v2 t)) (ms_pos st (tr_v3 t))) ->
     exists L, 0 <= L /\ L <= (12 # 7) * rho (tri_centroid (ms_pos st (tr_v1 t)) (ms_pos st (tr_v2 t)) (ms_pos st (tr_v3 t))) /\
       forall u v, In (u, v) ((a, b) :: tri_sides t) -> edge_len2 (ms_pos st u) (ms_pos st v) <= L * L) ->
  found (AdvanceGeom.near rho) f0 st.
Proof.
  intros rho f0 st P G. apply graded_found.
  - intros t I. assert (X := P t I). unfold tri_area, vcross, vsub in X. unfold det. cbn [vx vy] in X. Lqa.lra.
  - intros t a b I K S. destruct (G t a b I K S) as (L & L0 & LR & LE). exists L. split; [exact L0|]. split; [unfold tri_loc; Lqa.lra|].
    split; [apply LE; left; reflexivity|]. repeat split; apply LE; right; cbn; auto.
Qed.
(* ---------- cases ---------- *)
(* a square plate with a square hole: 8 triangles, then 4 quads *)
Definition frame_file : list given := [GV (DSquare (shape_of [1; 3 # 2; 3 # 2; 3; 1; 1])) true].
Definition frame_hole : list given := [GV (DSquare (shape_of [2; 3 # 2; 3 # 2; 1; 1; 1])) true].
Notation frame_made := (init_boundaries scan cos4 sin4 1 whole_number [] frame_file frame_hole).
Definition made_store : list vinfo := Eval vm_compute in match frame_made with Ok (s, _) => s | _ => [] end.
Definition made_bds : list (bdry_type * elist) := Eval vm_compute in match frame_made with Ok (_, b) => b | _ => [] end.
Definition made_edges : list dedge := file_edges made_store made_bds.
Definition made_start : mstate := FrontModel.prepared no_sub (collect_front_edges made_edges [] []) [] 1%Z.
Notation made_run := (generate 7 (triangle_is_valid (fun _ => 2) no_shape (map de_ends made_edges)) (vertex_is_valid (fun _ => 2) (fun _ => true)) (fun _ _ => 0)
  (fun _ _ => V2 (1 # 2) (1 # 2)) (fun _ _ _ => [0; 1; 2; 3; 4; 5; 6; 7]%nat) 100 20 made_start).
Definition frame_outer : list vec2 := [V2 0 0; V2 3 0; V2 3 3; V2 0 3].
Definition frame_inner : list vec2 := [V2 1 1; V2 2 1; V2 2 2; V2 1 2].

Example C65_frame_case : exists c0 css, answers scan /\ chosen kinds frame_file = Some (DSquare (shape_of [1; 3 # 2; 3 # 2; 3; 1; 1])) /\
  describes cos4 sin4 1 whole_number (DSquare (shape_of [1; 3 # 2; 3 # 2; 3; 1; 1])) c0 /\
  Forall2 (describes cos4 sin4 1 whole_number) (interior_definitions frame_hole) css /\ nested (places c0) (map places css) /\
  (forall cs p, In cs (c0 :: css) -> In p (places cs) -> in_square front_scale p = true) /\
  Forall2 veq (places c0) frame_outer /\ Forall2 (Forall2 veq) (map places css) [frame_inner] /\
  frame_made = Ok (made_store, made_bds) /\
  exists st', made_run = Some (Ok (st', true, 8%nat)) /\ ms_front st' = [] /\ exact_vertices st' /\ found (AdvanceGeom.near (fun _ => 2)) (ms_front made_start) st' /\
    vertices_in 7 made_start /\
    exists m m1, finish 7 (fun _ => None) (fun _ => 0%N) made_start st' = Ok m /\ tri2quad true m = Ok m1 /\
      sound m /\ sound m1 /\ covered m == 8 /\ covered m1 == 8 /\ fills m (places c0) (map places css) /\ fills m1 (places c0) (map places css) /\
      (forall e, In e (mh_bdry m) -> ed_col e = 1%Z /\ along (places c0) (mh_pos m (ed_1 e)) (mh_pos m (ed_2 e)) \/
         ed_col e = 2%Z /\ exists l, In l (map places css) /\ along l (mh_pos m (ed_1 e)) (mh_pos m (ed_2 e))).
Proof.
  assert (NN : forall (x : Q) l, x :: l <> []) by (intros; discriminate).
  assert (A : answers scan) by exact (proj1 C63_circle_case).
  assert (I1 : int_of 1 1) by (repeat split; try lia; intros; try Lqa.lra; discriminate). assert (I2 : int_of 2 2) by (repeat split; try lia; intros; try Lqa.lra; discriminate).
  assert (D0 := DomInSpec.ds_square cos4 sin4 1 whole_number (shape_of [1; 3 # 2; 3 # 2; 3; 1; 1]) 1 1 (3 # 2) (3 # 2) 3 1 1 (row_of_shape _ (NN _ _)) I1).
  assert (D1 := DomInSpec.ds_square cos4 sin4 1 whole_number (shape_of [2; 3 # 2; 3 # 2; 1; 1; 1]) 2 2 (3 # 2) (3 # 2) 1 1 1 (row_of_shape _ (NN _ _)) I2).
  match type of D0 with describes _ _ _ _ _ ?c => set (c0 := c) in * end. match type of D1 with describes _ _ _ _ _ ?c => set (c1 := c) in * end.
  assert (NE : nested (places c0) (map places [c1])).
  { constructor.
    - apply PolyMain.simpleb_sound. vm_compute. reflexivity.
    - intros l [<-|[]]. apply PolyMain.simpleb_sound. vm_compute. reflexivity.
    - repeat constructor. apply separateb_sound. vm_compute. reflexivity.
    - intros l [<-|[]]. exists (V2 ((3 # 2) - (1 # 2) * 1) ((3 # 2) - (1 # 2) * 1)). split; [left; reflexivity|]. vm_compute. discriminate.
    - repeat constructor. }
  assert (SQ : forall cs p, In cs [c0; c1] -> In p (places cs) -> in_square front_scale p = true).
  { intros cs p [<-|[<-|[]]] I; cbn in I; repeat (destruct I as [<-|I]; [vm_compute; reflexivity|]); destruct I. }
  exists c0, [c1]. split; [exact A|]. split; [reflexivity|]. split; [exact D0|]. split; [constructor; [exact D1|constructor]|]. split; [exact NE|]. split; [exact SQ|].
  split; [repeat constructor|]. split; [repeat constructor|]. assert (EM : frame_made = Ok (made_store, made_bds)) by (vm_compute; reflexivity). split; [exact EM|].
  assert (T := C65_mesh_partial scan cos4 sin4 1 whole_number [] frame_file frame_hole _ c0 [c1] A eq_refl (gv_shape _ _ _ _ _ _ _ _ D0) (Forall2_cons _ _ (gv_shape _ _ _ _ _ _ _ _ D1) (Forall2_nil _)) NE SQ).
  destruct T as (new & bds & E & T). rewrite EM in E. assert (E1 : made_store = [] ++ new /\ made_bds = bds) by (injection E as X Y; split; assumption). destruct E1 as [E1 <-]. rewrite <- E1 in T. clear E E1 EM new.
  cbv zeta in T. fold made_edges in T.
  assert (X : match made_run with
    | Some (Ok (s, r, c)) => exactb s && foundb (fun _ => 2) (ms_front made_start) s && r && Nat.eqb c 8 &&
        (match ms_front s with [] => true | _ => false end) &&
        forallb (fun t => Qle_bool ((3 # 2) * tol26) (tri_area (ms_pos s (tr_v1 t)) (ms_pos s (tr_v2 t)) (ms_pos s (tr_v3 t)))) (ms_tris s) = true
    | _ => False end) by (vm_compute; reflexivity).
  destruct made_run as [[[[s r] c]| |]|] eqn:G; [|destruct X|destruct X|destruct X].
  apply andb_true_iff in X. destruct X as [X X6]. apply andb_true_iff in X. destruct X as [X X5]. apply andb_true_iff in X. destruct X as [X X4]. apply andb_true_iff in X. destruct X as [X X3]. apply andb_true_iff in X. destruct X as [X1 X2].
  apply Nat.eqb_eq in X4. subst r c. exists s. split; [reflexivity|].
  assert (F : ms_front s = []) by (destruct (ms_front s); [reflexivity|discriminate X5]). split; [exact F|].
  apply exactb_sound in X1. apply foundb_sound in X2. split; [exact X1|]. split; [exact X2|].
  assert (VM : vertices_in 7 made_start).
  { assert (NV : ms_nv made_start = 8%nat) by (vm_compute; reflexivity). intros v L. rewrite NV in L. do 8 (destruct v as [|v]; [vm_compute; reflexivity|]). exfalso. lia. }
  split; [exact VM|].
  assert (Z : forall t, In t (ms_tris s) -> (3 # 2) * tol26 <= tri_area (ms_pos s (tr_v1 t)) (ms_pos s (tr_v2 t)) (ms_pos s (tr_v3 t))).
  { intros t I. rewrite forallb_forall in X6. apply Qle_bool_iff, (X6 t I). }
  assert (HI : forall a b, ~ veq a b -> strictly_inside a b (no_sub a b)) by (intros a b _; exists []; split; [cbn; Lqa.lra|constructor]).
  assert (HL : forall a b, Forall (on_line a b) (no_sub a b)) by (intros a b; constructor).
  specialize (T [] no_sub [] 1%Z (fun _ => 2) no_shape (map de_ends made_edges) 7 (fun _ => true) (fun _ _ => 0)
      (fun _ _ => V2 (1 # 2) (1 # 2)) (fun _ _ _ => [0; 1; 2; 3; 4; 5; 6; 7]%nat) 100%nat 20%Z (fun _ => 0%N) true s true 8%nat
      (fun e (H : In e []) => match H with end) HL HI (fun a b p (H : In p []) => match H with end) (fun p (H : In p []) => match H with end)
      (fun _ _ => eq_refl) (conj eq_refl eq_refl)).
  fold made_start in T. specialize (T VM (fun _ _ => eq_refl) ltac:(lia) G X1 X2 F Z).
  assert (A8 : Qabs.Qabs (signed_area (places c0)) - total [c1] == 8) by (vm_compute; reflexivity).
  destruct T as (m & m1 & E1 & E2 & S1 & S2 & A1 & A2 & F1 & F2 & B & _). rewrite A8 in A1, A2.
  exists m, m1. split; [exact E1|]. split; [exact E2|]. split; [exact S1|]. split; [exact S2|]. split; [exact A1|]. split; [exact A2|]. split; [exact F1|]. split; [exact F2|].
  clear - B. intros e I. destruct (B e I) as (cs & [<-|[<-|[]]] & C & L); cbn in C; [left|right].
  - split; [|exact L]. repeat (destruct C as [C|C]; [symmetry; exact C|]). destruct C.
  - split; [|exists (places c1); split; [left; reflexivity|exact L]]. repeat (destruct C as [C|C]; [symmetry; exact C|]). destruct C.
Qed.
(* the sides of this plate have length 3, the size function is 2 *)
Example C65_graded_case : exists st', made_run = Some (Ok (st', true, 8%nat)) /\ length (generated st') = 8%nat /\
  (forall t, In t (generated st') -> 0 < tri_area (ms_pos st' (tr_v1 t)) (ms_pos st' (tr_v2 t)) (ms_pos st' (tr_v3 t))) /\
  3 <= (12 # 7) * 2 /\ (forall t a b u v, In t (generated st') -> known (ms_front made_start) (generated st') a b -> In (u, v) ((a, b) :: tri_sides t) -> edge_len2 (ms_pos st' u) (ms_pos st' v) <= 3 * 3).
Proof.
  assert (X : match made_run with
    | Some (Ok (s, r, c)) => r && Nat.eqb c 8 && Nat.eqb (length (generated s)) 8 &&
        forallb (fun t => Qltb 0 (tri_area (ms_pos s (tr_v1 t)) (ms_pos s (tr_v2 t)) (ms_pos s (tr_v3 t)))) (generated s) &&
        forallb (fun e => Qle_bool (edge_len2 (ms_pos s (fst e)) (ms_pos s (snd e))) (3 * 3)) (ends (ms_front made_start) ++ flat_map tri_sides (generated s)) = true
    | _ => False end) by (vm_compute; reflexivity).
  destruct made_run as [[[[s r] c]| |]|] eqn:G; [|destruct X|destruct X|destruct X].
  apply andb_true_iff in X. destruct X as [X X5]. apply andb_true_iff in X. destruct X as [X X4]. apply andb_true_iff in X. destruct X as [X X3]. apply andb_true_iff in X. destruct X as [X1 X2].
  apply Nat.eqb_eq in X2, X3. subst r c. exists s. split; [reflexivity|]. split; [exact X3|]. rewrite forallb_forall in X4, X5. split; [intros t I; apply Qltb_true, (X4 t I)|]. split; [discriminate|].
  clear G X3 X4. assert (B : forall u v, In (u, v) (ends (ms_front made_start) ++ flat_map tri_sides (generated s)) -> edge_len2 (ms_pos s u) (ms_pos s v) <= 3 * 3) by (intros u v I; apply Qle_bool_iff, (X5 (u, v) I)). clear X5.
  intros t a b u v T K [I|I].
  - injection I as <- <-. destruct K as [K|[K|K]]; [apply B, in_or_app; left; exact K|apply B, in_or_app; right; exact K|]. rewrite len_sym. apply B, in_or_app. right. exact K.
  - apply B, in_or_app. right. apply in_flat_map. exists t. split; assumption.
Qed.
(* two pairs of quads with two common sides; a quad and a triangle with two *)
Example C65_pairs_case : sound (CleanProps.pairs 1 0) /\ simple_elements (CleanProps.pairs 1 0) /\
  match clear_double_quads true (CleanProps.pairs 1 0) with Ok m' => Nat.ltb (length (mh_quads m')) (length (mh_quads (CleanProps.pairs 1 0))) = true | _ => False end.
Proof. split; [apply pairs_sound|]. split; [apply simple_all|]; vm_compute; reflexivity. Qed.
Example C65_kite_case : sound CleanProps.kite /\ simple_elements CleanProps.kite /\
  match clear_double_tris true CleanProps.kite with Ok m' => Nat.ltb (length (facets m')) (length (facets CleanProps.kite)) = true | _ => False end.
Proof. split; [exact (proj1 C33_kite_case)|]. split; [apply simple_all|]; vm_compute; reflexivity. Qed.
Example C65_strip_case : sound (strip 1 1) /\ well_sided (strip 1 1) /\ simple_elements (strip 1 1) /\ tris_centred (strip 1 1).
Proof. destruct C50_strip_case as (A & B & C & D). tauto. Qed.
Example C65_house_case : refinable MeshProps.house /\ (forall f, In f (facets MeshProps.house) -> strictly_convex (mh_pos MeshProps.house) f).
Proof. destruct C50_house_case as (A & B & _). split; assumption. Qed.
(* a plate with a round hole of four corners *)
Definition round_file : list given := [GV (DRect (shape_of [1; 0; 0; 4; 4; 1; 1])) true].
Definition round_hole : list given := [GV (DCirc (shape_of [2; 0; 0; 1; 4; 1; 1])) true].
Notation round_made := (init_boundaries scan cos4 sin4 1 whole_number [] round_file round_hole).
Definition round_store : list vinfo := Eval vm_compute in match round_made with Ok (s, _) => s | _ => [] end.
Definition round_bds : list (bdry_type * elist) := Eval vm_compute in match round_made with Ok (_, b) => b | _ => [] end.
Definition round_edges : list dedge := file_edges round_store round_bds.
Definition round_start : mstate := FrontModel.prepared no_sub (collect_front_edges round_edges [] []) [] 1%Z.
Notation round_run := (generate 7 (triangle_is_valid (fun _ => 2) no_shape (map de_ends round_edges)) (vertex_is_valid (fun _ => 2) (fun _ => true)) (fun _ _ => 0)
  (fun _ _ => V2 (-1) (3 # 4)) (fun _ _ _ => [0; 1; 2; 3; 4; 5; 6; 7]%nat) 100 20 round_start).
Definition round_holes : list hole := [HO (V2 0 0) 1 4].
Example C65_plate_case : exists m c0 css, fills m (places c0) (map places css) /\ covered m == Qabs.Qabs (signed_area (places c0)) - total css /\ covered m == 14 /\
  places c0 = rect_shape (V2 0 0) 4 4 /\ map places css = map (fun o => circle_shape cos4 sin4 (ho_xy o) (ho_r o) (ho_n o)) round_holes /\
  (forall o, In o round_holes -> in_plate cos4 sin4 0 (V2 0 0) 4 4 o) /\ ForallOrdPairs (holes_apart 0) round_holes.
Proof.
  assert (NN : forall (x : Q) l, x :: l <> []) by (intros; discriminate).
  assert (A : answers scan) by exact (proj1 C63_circle_case). assert (NC := proj2 (proj2 C63_circle_case)).
  assert (I1 : int_of 1 1) by (repeat split; try lia; intros; try Lqa.lra; discriminate). assert (I2 : int_of 2 2) by (repeat split; try lia; intros; try Lqa.lra; discriminate). assert (I4 : int_of 4 (Z.of_nat 4)) by (repeat split; cbn; try lia; intros; try Lqa.lra; discriminate).
  assert (D0 := DomInSpec.ds_rect cos4 sin4 1 whole_number (shape_of [1; 0; 0; 4; 4; 1; 1]) 1 1 0 0 4 4 1 1 (row_of_shape _ (NN _ _)) I1).
  assert (D1 := DomInSpec.ds_circ cos4 sin4 1 whole_number (shape_of [2; 0; 0; 1; 4; 1; 1]) 2 2 0 0 1 4 4 1 1 (row_of_shape _ (NN _ _)) I2 I4 ltac:(lia)).
  match type of D0 with describes _ _ _ _ _ ?c => set (c0 := c) in * end. match type of D1 with describes _ _ _ _ _ ?c => set (c1 := c) in * end.
  assert (IP : (forall o, In o round_holes -> in_plate cos4 sin4 0 (V2 0 0) 4 4 o) /\ ForallOrdPairs (holes_apart 0) round_holes).
  { assert (Q : forall z, Q2R (inject_Z z) = IZR z) by (intros z; unfold Q2R, inject_Z; cbn; field).
    assert (Q0 := Q 0%Z). assert (Q1 := Q 1%Z). assert (Q4 := Q 4%Z). unfold inject_Z in *. split; [|repeat constructor].
    intros o [<-|[]]; constructor; cbn [ho_n ho_r ho_xy vx vy]; unfold reach, radius; cbn [ho_n ho_r ho_xy vx vy]; try lia; try reflexivity; try exact NC; try (cbn; Lra.lra); rewrite ?Q0, ?Q1, ?Q4; split; Lra.lra. }
  assert (NE : nested (places c0) (map places [c1])).
  { destruct IP as [IP AP]. exact (circles_nested cos4 sin4 0 (V2 0 0) 4 4 round_holes (Rle_refl 0) eq_refl eq_refl IP AP). }
  assert (SQ : forall cs p, In cs [c0; c1] -> In p (places cs) -> in_square front_scale p = true).
  { intros cs p [<-|[<-|[]]] I; cbn in I; repeat (destruct I as [<-|I]; [vm_compute; reflexivity|]); destruct I. }
  assert (EM : round_made = Ok (round_store, round_bds)) by (vm_compute; reflexivity).
  assert (T := C65_mesh_partial scan cos4 sin4 1 whole_number [] round_file round_hole _ c0 [c1] A eq_refl (gv_shape _ _ _ _ _ _ _ _ D0) (Forall2_cons _ _ (gv_shape _ _ _ _ _ _ _ _ D1) (Forall2_nil _)) NE SQ).
  destruct T as (new & bds & E & T). rewrite EM in E. assert (E1 : round_store = [] ++ new /\ round_bds = bds) by (injection E as X Y; split; assumption). destruct E1 as [E1 <-]. rewrite <- E1 in T. clear E E1 EM new.
  cbv zeta in T. fold round_edges in T.
  assert (X : match round_run with
    | Some (Ok (s, r, c)) => exactb s && foundb (fun _ => 2) (ms_front round_start) s &&
        (match ms_front s with [] => true | _ => false end) &&
        forallb (fun t => Qle_bool ((3 # 2) * tol26) (tri_area (ms_pos s (tr_v1 t)) (ms_pos s (tr_v2 t)) (ms_pos s (tr_v3 t)))) (ms_tris s) = true
    | _ => False end) by (vm_compute; reflexivity).
  destruct round_run as [[[[s r] c]| |]|] eqn:G; [|destruct X|destruct X|destruct X].
  apply andb_true_iff in X. destruct X as [X X4]. apply andb_true_iff in X. destruct X as [X X3]. apply andb_true_iff in X. destruct X as [X1 X2].
  assert (F : ms_front s = []) by (destruct (ms_front s); [reflexivity|discriminate X3]). apply exactb_sound in X1. apply foundb_sound in X2.
  assert (VM : vertices_in 7 round_start).
  { assert (NV : ms_nv round_start = 8%nat) by (vm_compute; reflexivity). intros v L. rewrite NV in L. do 8 (destruct v as [|v]; [vm_compute; reflexivity|]). exfalso. lia. }
  assert (Z : forall t, In t (ms_tris s) -> (3 # 2) * tol26 <= tri_area (ms_pos s (tr_v1 t)) (ms_pos s (tr_v2 t)) (ms_pos s (tr_v3 t))).
  { intros t I. rewrite forallb_forall in X4. apply Qle_bool_iff, (X4 t I). }
  assert (HI : forall a b, ~ veq a b -> strictly_inside a b (no_sub a b)) by (intros a b _; exists []; split; [cbn; Lqa.lra|constructor]).
  assert (HL : forall a b, Forall (on_line a b) (no_sub a b)) by (intros a b; constructor).
  specialize (T [] no_sub [] 1%Z (fun _ => 2) no_shape (map de_ends round_edges) 7 (fun _ => true) (fun _ _ => 0)
      (fun _ _ => V2 (-1) (3 # 4)) (fun _ _ _ => [0; 1; 2; 3; 4; 5; 6; 7]%nat) 100%nat 20%Z (fun _ => 0%N) true s r c
      (fun e (H : In e []) => match H with end) HL HI (fun a b p (H : In p []) => match H with end) (fun p (H : In p []) => match H with end)
      (fun _ _ => eq_refl) (conj eq_refl eq_refl)).
  fold round_start in T. specialize (T VM (fun _ _ => eq_refl) ltac:(lia) G X1 X2 F Z).
  destruct T as (m & _ & _ & _ & _ & _ & A1 & _ & F1 & _). exists m, c0, [c1]. split; [exact F1|]. split; [exact A1|].
  assert (A8 : Qabs.Qabs (signed_area (places c0)) - total [c1] == 14) by (vm_compute; reflexivity). split; [rewrite A1; exact A8|].
  split; [reflexivity|]. split; [reflexivity|]. exact IP.
Qed.

Print Assumptions C65_doubled_quads.
Print Assumptions C65_doubled_tris.
Print Assumptions C65_converted_partial.
Print Assumptions C65_refined.
Print Assumptions C65_mesh_partial.
Print Assumptions C65_plate.
Print Assumptions C65_graded.
