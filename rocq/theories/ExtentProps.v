(* C69: vertices are searched in squares that hold them. *)
From Coq Require Import Ascii String Lra Lqa Lia Permutation.
From Verif Require Import Base Chain GeomModel GeomSpec GeomProofs FacetModel UtilModel BdryModel BdrySpec BdryProofs AdvanceModel AdvanceSpec AdvanceProofs AdvanceInv
  AdvanceProps LoopModel LoopSpec LoopProps FrontModel FrontSpec FrontProofs RefineProofs InitProofs FrontProps MeshModel MeshSpec MeshProofs QRefineModel QRefineSpec QRefineProps CleanModel CleanSpec CleanPass CleanScan CleanProps
  T2QModel T2QSpec T2QProofs T2QProps SmoothModel SmoothSpec WindSpec WindProofs WindMesh WindMeshProps WindInsideProps PolySpec PolyMain PolyProps ClearSpec ClearStart ClearDomain ClearProps
  FinModel FinPipe FinProps ShapeModel ShapeProps DomInModel DomInSpec DomInProofs DomInBuild BdryProps DomInProps EndSpec EndProofs.
From Verif Require Import AppModel AppProps CsvModel CsvProofs ParaModel ParaSpec FileModel FileSpec FileBuild QTreeModel ExtentModel ExtentSpec ExtentProofs ExtentBuild.
From Verif Require FileCheck FileExamples FileProps EndProps FileMeshProps QTreeCont QTreeMore QTreeSpec AdvanceGeom.
Open Scope list_scope.
Open Scope Q_scope.
Notation in_square := AdvanceModel.in_square.

(* ---------- the search ---------- *)
(* In its square the container answers every search, with a vertex that no other one is
   closer than, and it finds a vertex at the very place if there is one.  Outside the search
   is undefined. *)
Theorem C69_search : forall p sq store xy, (0 <= cp_items p)%Z -> 0 < cp_scale p -> QTreeCont.sqrt_ok sq ->
  (in_square (cp_scale p) xy = true -> exists o, tree_nearest p sq store xy = Ok o /\
    (forall i, o = Some i -> exists v, nth_error store i = Some v /\
       forall j w, nth_error store j = Some w -> in_square (cp_scale p) (vi_xy w) = true -> QTreeSpec.dist2 (vi_xy v) xy <= QTreeSpec.dist2 (vi_xy w) xy) /\
    ((exists j w, nth_error store j = Some w /\ veq (vi_xy w) xy) -> exists i v, o = Some i /\ nth_error store i = Some v /\ veq (vi_xy v) xy)) /\
  (in_square (cp_scale p) xy = false -> tree_nearest p sq store xy = UB).
Proof.
  intros p sq store xy MI SC SQ. split; [apply tree_found; assumption|]. intros H.
  destruct (QTreeMore.hist_ok p MI _ (pushes_safe p store c_init)) as (s & rs & R & _).
  apply (tree_outside p sq store xy s); [unfold vertex_container; rewrite R; reflexivity|exact H].
Qed.

(* ---------- the boundaries ---------- *)
(* A shape in the square: every corner gets a vertex at its place, an existing one if there
   is one there, so that no two vertices are made at one place. *)
Theorem C69_shape : forall p sq bt store shape props colors, (0 <= cp_items p)%Z -> 0 < cp_scale p -> QTreeCont.sqrt_ok sq ->
  (forall q, In q shape -> in_square (cp_scale p) q = true) -> length props = length shape -> length colors = length shape ->
  exists new l, create_boundary_shape (tree_nearest p sq) bt store shape props colors = Ok (store ++ new, l) /\
    (simple_polygon shape -> around_shape (store ++ new) bt l shape) /\
    (apart store -> apart (store ++ new)) /\ (forall v, In v new -> In (vi_xy v) shape).
Proof.
  intros p sq bt store shape props colors MI SC SQ IN L1 L2. destruct (create_tree p sq MI SC SQ bt store shape props colors IN L1 L2) as (new & l & E1 & _ & A & P).
  exists new, l. split; [exact E1|]. split; [intros S; exact (create_around _ _ _ _ _ _ _ _ E1 S)|]. split; assumption.
Qed.
(* one corner outside, and the program is undefined *)
Theorem C69_shape_outside : forall p sq bt store q shape props colors, (0 <= cp_items p)%Z -> 0 < cp_scale p -> QTreeCont.sqrt_ok sq -> in_square (cp_scale p) q = false -> props <> [] ->
  create_boundary_shape (tree_nearest p sq) bt store (q :: shape) props colors = UB.
Proof.
  intros p sq bt store q shape props colors MI SC SQ H N. unfold create_boundary_shape. destruct props as [|[s r] props]; [contradiction|]. cbn [shape_vertices].
  rewrite (proj2 (C69_search p sq store q MI SC SQ) H). reflexivity.
Qed.

(* ---------- the extent of a file ---------- *)
Lemma biggest_ge vs : forall e, e <= fold_left (fun e v => Qbigger (Qbigger e (absQ (vx v))) (absQ (vy v))) vs e /\ reaches (fold_left (fun e v => Qbigger (Qbigger e (absQ (vx v))) (absQ (vy v))) vs e) vs.
Proof.
  assert (B : forall a b, a <= Qbigger a b /\ b <= Qbigger a b).
  { intros a b. unfold Qbigger. destruct (Qle_bool b a) eqn:E; [apply Qle_bool_iff in E; split; lra|]. assert (X : ~ b <= a) by (rewrite <- Qle_bool_iff, E; discriminate). split; lra. }
  assert (AB : forall x, - absQ x <= x /\ x <= absQ x).
  { intros x. unfold absQ. destruct (Qle_bool 0 x) eqn:E; [apply Qle_bool_iff in E; split; lra|]. assert (X : ~ 0 <= x) by (rewrite <- Qle_bool_iff, E; discriminate). split; lra. }
  induction vs as [|v vs IH]; intros e; cbn [fold_left]; [split; [lra|intros v []]|].
  destruct (IH (Qbigger (Qbigger e (absQ (vx v))) (absQ (vy v)))) as [I1 I2]. set (m := fold_left _ vs _) in *.
  destruct (B e (absQ (vx v))) as [B1 B2]. destruct (B (Qbigger e (absQ (vx v))) (absQ (vy v))) as [B3 B4]. destruct (AB (vx v)), (AB (vy v)).
  split; [lra|]. intros w [<-|I]; [repeat split; lra|exact (I2 w I)].
Qed.
Lemma biggest_least m vs : forall e, e <= m -> reaches m vs -> fold_left (fun e v => Qbigger (Qbigger e (absQ (vx v))) (absQ (vy v))) vs e <= m.
Proof.
  assert (AB : forall x, - m <= x /\ x <= m -> absQ x <= m) by (intros x H; unfold absQ; destruct (Qle_bool 0 x); lra).
  induction vs as [|v vs IH]; intros e L R; cbn [fold_left]; [exact L|]. apply IH; [|intros w W; apply R; right; exact W].
  destruct (R v (or_introl eq_refl)) as [RX RY]. specialize (AB (vx v) RX) as AX. specialize (AB (vy v) RY) as AY. unfold Qbigger. repeat destruct (Qle_bool _ _); assumption.
Qed.
Lemma reach_square m s v : (- m <= vx v /\ vx v <= m) /\ (- m <= vy v /\ vy v <= m) -> m <= s * (1 # 2) -> in_square s v = true.
Proof. intros H L. apply in_square_iff. repeat split; lra. Qed.
Lemma fixed_marked q n : forall j l, read_vertices true q n j = Ok l -> forall u, In u l -> iv_fixed u = true.
Proof.
  induction n as [|n IH]; intros j l Q u U; cbn [read_vertices] in Q; [assert (l = []) by congruence; subst l; destruct U|].
  destruct (entry q 0 j) as [a| |]; cbn [obind] in Q; try discriminate. destruct (entry q 1 j) as [b| |]; cbn [obind] in Q; try discriminate. destruct (entry q 2 j) as [c| |]; cbn [obind] in Q; try discriminate. destruct (entry q 3 j) as [d| |]; cbn [obind] in Q; try discriminate.
  destruct (read_vertices true q n (S j)) as [m| |] eqn:M; cbn [obind] in Q; try discriminate. assert (l = IV (V2 a b) (V2 c d) true :: m) by congruence. subst l. destruct U as [<-|U]; [reflexivity|exact (IH (S j) m M u U)].
Qed.
(* the square of the domain holds the boundary vertices of the file *)
Theorem C69_extent : forall tq x side store v, file_extent tq x = Ok side -> file_store tq x = Ok store -> In v store ->
  (in_vertices x = None -> side = tq /\ vi_prop v = 4%N) /\ (in_square side (vi_xy v) = true \/ vi_prop v = 4%N).
Proof.
  intros tq x side store v E ST I. unfold file_extent, file_store, init_vertices in *.
  destruct (match in_vertices x with Some p => obind (read_vertices false p (pr_nrow p) 0) (fun vs => Ok (vs, estimate vs)) | None => Ok ([], tq) end) as [[vs e]| |] eqn:RV; cbn [obind] in *; try discriminate.
  destruct (match in_fixed x with Some q => read_vertices true q (pr_nrow q) 0 | None => Ok [] end) as [fs| |] eqn:RF; cbn [obind fst snd] in *; try discriminate.
  assert (ES : side = e) by congruence. assert (SS := f_equal (fun o => match o with Ok l => l | _ => [] end) ST). cbn beta iota in SS. rewrite <- SS, map_app in I. clear E ST SS.
  assert (FX : forall w, In w fs -> iv_fixed w = true).
  { intros w W. destruct (in_fixed x) as [q|]; [exact (fixed_marked _ _ _ _ RF w W)|]. assert (fs = []) by congruence. subst fs. destruct W. }
  apply in_app_or in I. destruct I as [I|I]; apply in_map_iff in I; destruct I as (w & <- & I); cbn [vi_xy vi_prop].
  - destruct (in_vertices x) as [p|]; [|assert (vs = []) by congruence; subst vs; destruct I]. split; [discriminate|left].
    destruct (read_vertices false p (pr_nrow p) 0) as [l| |]; cbn [obind] in RV; try discriminate. assert (l = vs /\ estimate l = e) by (split; congruence). destruct H as [-> <-]. subst side. apply estimate_covers, I.
  - rewrite (FX w I). split; [|right; reflexivity]. intros N. rewrite N in RV. cbn beta iota in RV. split; [congruence|reflexivity].
Qed.
(* boundaries that are lists of edges between such vertices lie in the square *)
Theorem C69_edges : forall tq x side store cosn sinn sqrt3 stod bt p cs, file_extent tq x = Ok side -> file_store tq x = Ok store ->
  (forall v, In v store -> vi_prop v <> 4%N) -> gives cosn sinn sqrt3 stod store bt (DEdges p) cs -> forall q, In q (places cs) -> in_square side q = true.
Proof.
  intros tq x side store cosn sinn sqrt3 stod bt p cs E ST NF G q I. inversion G as [d c D|p' vs c N L R V O]; subst; [inversion D|].
  unfold places in I. apply in_map_iff in I. destruct I as (c & <- & I). apply In_nth_error in I. destruct I as (j & J).
  destruct (nth_error vs j) as [v|] eqn:JV; [|exfalso; apply nth_error_None in JV; assert (X : nth_error cs j = None) by (apply nth_error_None; exact (eq_ind_r (fun n => (n <= j)%nat) JV L)); assert (Q := eq_trans (eq_sym J) X); discriminate Q].
  destruct (V j v c JV J) as (_ & w & W & <-). apply nth_error_In in W. destruct (C69_extent tq x side store w E ST W) as [_ [H|H]]; [exact H|]. exfalso. exact (NF w W H).
Qed.

(* ---------- from the file to the domain ---------- *)
Lemma polygon_side side l : simple_polygon l -> (forall q, In q l -> in_square side q = true) -> 0 < side.
Proof.
  intros (L & D & _) IN. destruct l as [|a [|b l]]; try (cbn in L; lia). inversion D as [|? ? F _]; subst. rewrite Forall_forall in F. specialize (F b (or_introl eq_refl)).
  assert (A := IN a (or_introl eq_refl)). assert (B := IN b (or_intror (or_introl eq_refl))). rewrite in_square_iff in A, B.
  destruct (Qlt_le_dec 0 side) as [H|H]; [exact H|]. exfalso. apply F. split; Lqa.lra.
Qed.
(* As C67_domain, with the search of the container of the domain instead of an oracle, in
   the square that the file gives. *)
Theorem C69_domain : forall to_double files sq cosn sinn sqrt3 stod tq file ss k s store i0 more c0 css, QTreeCont.sqrt_ok sq ->
  file_of to_double file ss -> nth_error ss k = Some s -> stands to_double (se_items s) store ->
  boundaries true (se_items s) = i0 :: more -> draws to_double files cosn sinn sqrt3 stod store EXTERIOR i0 c0 ->
  Forall2 (draws to_double files cosn sinn sqrt3 stod store INTERIOR) (boundaries false (se_items s)) css -> nested (places c0) (map places css) ->
  exists xs x side, read_file to_double files file = Ok xs /\ nth_error xs k = Some x /\ file_extent tq x = Ok side /\ file_store tq x = Ok store /\
  ((forall cs p, In cs (c0 :: css) -> In p (places cs) -> in_square side p = true) ->
   exists new bds, tree_domain sq cosn sinn sqrt3 stod tq x = Ok (store ++ new, bds) /\
    (apart store -> apart (store ++ new)) /\ (forall v, In v new -> in_square side (vi_xy v) = true) /\
    let dom := domain_of (store ++ new) bds in
    Forall2 (fun b cs => forall e, In e (el_edges (snd b)) -> In (be_col e) (colours cs)) bds (c0 :: css) /\
    proper_domain dom /\
    (forall p, (forall b, In b dom -> WindInside.clear_of p (bd_edges b)) -> domain_inside dom p = true <->
       ~ winding p (ring_edges (places c0)) == 0 /\ forall cs, In cs css -> winding p (ring_edges (places cs)) == 0) /\
    domain_area dom == Qabs.Qabs (signed_area (places c0)) - total css).
Proof.
  intros to_double files sq cosn sinn sqrt3 stod tq file ss k s store i0 more c0 css SQ F K ST B D0 DS NE.
  destruct (file_read to_double files file ss F) as (xs & E & M).
  assert (X : exists x, nth_error xs k = Some x /\ means to_double files (se_items s) x).
  { clear - M K. revert k K. induction M as [|s' x ss xs H M IH]; intros [|k] K; try discriminate; [cbn in K; assert (KE : s' = s) by congruence; rewrite KE in H; exists x; split; [reflexivity|exact H]|exact (IH k K)]. }
  destruct X as (x & KX & MX). assert (SR := store_read to_double files tq _ x store MX ST).
  assert (EX : exists side, file_extent tq x = Ok side).
  { unfold file_store, file_extent in *. destruct (init_vertices tq (in_vertices x) (in_fixed x)) as [y| |]; try discriminate. exists (snd y). reflexivity. }
  destruct EX as (side & EX). exists xs, x, side. split; [exact E|]. split; [exact KX|]. split; [exact EX|]. split; [exact SR|]. intros IN.
  assert (SC : 0 < side) by exact (polygon_side side (places c0) (ne_outer _ _ NE) (fun q => IN c0 q (or_introl eq_refl))).
  assert (MI : (0 <= cp_items (domain_params side))%Z) by (cbn; lia).
  destruct (FileMeshProps.C67_domain to_double files (calm (domain_params side) sq) cosn sinn sqrt3 stod tq file ss k s store i0 more c0 css (calm_answers _ _) F K ST B D0 DS NE) as (xs' & x' & new & bds & E' & KX' & DM & R).
  assert (XX : xs' = xs) by congruence. subst xs'. assert (XX : x' = x) by congruence. subst x'.
  destruct (domain_asks to_double files _ x i0 more cosn sinn sqrt3 stod store c0 css MX B D0 DS) as (d0 & EXT & G0 & GS).
  destruct (boundaries_tree (domain_params side) sq MI SC SQ cosn sinn sqrt3 stod store [GV d0 true] (map (fun d => GV d true) (in_interior x)) d0 c0 css (exterior_one d0) G0 (ne_outer _ _ NE) GS) as (BT & BN).
  { intros cs I. apply (ne_holes _ _ NE), in_map, I. }
  { exact IN. }
  unfold file_domain in DM. rewrite SR in DM. cbn [obind] in DM. rewrite EXT in DM.
  exists new, bds. split; [unfold tree_domain; rewrite EX; cbn [obind]; unfold file_domain; rewrite SR; cbn [obind]; rewrite EXT, BT; exact DM|].
  destruct (BN new bds DM) as [A P]. split; [exact A|]. split; [|exact R]. intros v I. destruct (P v I) as (cs & C1 & C2). exact (IN cs _ C1 C2).
Qed.

(* ---------- the vertices of the mesh ---------- *)
Lemma amid_square s a b q : amid a b q -> in_square s a = true -> in_square s b = true -> in_square s q = true.
Proof.
  intros (t & T & [E1 E2]) A B. rewrite in_square_iff in *. unfold vadd, vscale, vsub in *. cbn [vx vy] in *. rewrite E1, E2. destruct A as [[A1 A2] [A3 A4]], B as [[B1 B2] [B3 B4]]. clear E1 E2. repeat split; nra.
Qed.
(* Whatever the square of the mesh: if it holds the boundary and the fixed edges, then it
   holds the vertices with which the mesh generation starts. *)
Theorem C69_start : forall side bounds fixed meshes sub loose col,
  (forall e, In e (bounds ++ fixed ++ concat meshes) -> in_square front_scale (de_a e) = true /\ in_square front_scale (de_b e) = true) ->
  (forall e, In e (bounds ++ fixed ++ concat meshes) -> in_square side (de_a e) = true /\ in_square side (de_b e) = true) ->
  (forall a b q, In q (sub a b) -> amid a b q) -> (forall q, In q loose -> in_square side q = true) ->
  vertices_in side (FrontModel.prepared sub (collect_front_edges bounds fixed meshes) loose col).
Proof.
  intros side bounds fixed meshes sub loose col HF HE HS HL. set (d := collect_front_edges bounds fixed meshes).
  assert (OK : indices_ok d) by apply collect_indices.
  assert (NB : forall e n, In n (neighbours meshes e) -> In n (concat meshes)) by (intros e n Hn; exact (proj1 (neighbours_in _ _ _ Hn))).
  assert (SF : coords_in front_scale d) by (apply collect_coords; assumption).
  assert (SQ : coords_in side d) by (apply collect_coords; assumption).
  intros v Hv. destruct (refined_spec sub d OK SF) as (_ & PO & _ & _ & _ & _ & NP).
  change (ms_nv (FrontModel.prepared sub d loose col)) with (rs_nv (refined_state sub d) + length loose)%nat in Hv.
  destruct (Nat.lt_ge_cases v (rs_nv (refined_state sub d))) as [L|L].
  - rewrite prepared_pos by exact L. destruct (Nat.lt_ge_cases v (length (fd_verts d))) as [M|M].
    + rewrite PO by exact M. apply SQ, nth_In, M.
    + destruct (NP v (conj M L)) as (f & Hf & Hp). unfold edge_inner in Hp. destruct (fe_twin f); [destruct Hp|].
      destruct (OK f Hf) as [O1 O2]. apply (amid_square side _ _ _ (HS _ _ _ Hp)); apply SQ, nth_In; assumption.
  - apply HL. unfold FrontModel.prepared, init_front. cbn [ms_pos rs_nv rs_pos]. fold (refined_state sub d).
    replace v with (rs_nv (refined_state sub d) + (v - rs_nv (refined_state sub d)))%nat by lia.
    rewrite set_positions_new by lia. apply nth_In. lia.
Qed.

(* ---------- from the file to the mesh ---------- *)
(* As C67_mesh_partial, with the search of the container; the mesh takes the square of the
   domain, and that its vertices lie in it is no longer assumed. *)
Theorem C69_mesh_partial : forall to_double files sq cosn sinn sqrt3 stod tq file ss k s store i0 more c0 css, QTreeCont.sqrt_ok sq ->
  file_of to_double file ss -> nth_error ss k = Some s -> stands to_double (se_items s) store ->
  boundaries true (se_items s) = i0 :: more -> draws to_double files cosn sinn sqrt3 stod store EXTERIOR i0 c0 ->
  Forall2 (draws to_double files cosn sinn sqrt3 stod store INTERIOR) (boundaries false (se_items s)) css -> nested (places c0) (map places css) ->
  exists xs x side, read_file to_double files file = Ok xs /\ nth_error xs k = Some x /\ file_extent tq x = Ok side /\ file_store tq x = Ok store /\
  ((forall cs p, In cs (c0 :: css) -> In p (places cs) -> in_square side p = true /\ in_square front_scale p = true) ->
  exists new bds, tree_domain sq cosn sinn sqrt3 stod tq x = Ok (store ++ new, bds) /\
  let area := Qabs.Qabs (signed_area (places c0)) - total css in
  let held q := in_square side q = true /\ in_square front_scale q = true in
  forall fixed sub loose col rho shape_ok dom inside qual newpos query fuel n prop own st' r c,
  (forall e, In e fixed -> de_fix e = true /\ veqb (de_a e) (de_b e) = false /\ held (de_a e) /\ held (de_b e)) ->
  (forall a b q, In q (sub a b) -> amid a b q) -> (forall a b, ~ veq a b -> strictly_inside a b (sub a b)) ->
  (forall q, In q loose -> held q) -> (forall s e, held (newpos s e)) -> (0 < n < 2 ^ 31)%Z -> (0 <= col)%Z ->
  let st := FrontModel.prepared sub (collect_front_edges (file_edges (store ++ new) bds) fixed []) loose col in
  generate side (triangle_is_valid rho shape_ok dom) (vertex_is_valid rho inside) qual newpos query fuel n st = Some (Ok (st', r, c)) ->
  exact_vertices st' -> found (AdvanceGeom.near rho) (ms_front st) st' -> ms_front st' = [] ->
  (forall t, In t (ms_tris st') -> (3 # 2) * tol26 <= tri_area (ms_pos st' (tr_v1 t)) (ms_pos st' (tr_v2 t)) (ms_pos st' (tr_v3 t))) ->
  vertices_in side st /\
  exists m m1, finish side (fun _ => None) prop st st' = Ok m /\ tri2quad own m = Ok m1 /\
    sound m /\ sound m1 /\ QRefineSpec.covered m == area /\ QRefineSpec.covered m1 == area /\
    fills m (places c0) (map places css) /\ fills m1 (places c0) (map places css) /\
    (forall e, In e (mh_bdry m) -> exists cs, In cs (c0 :: css) /\ In (ed_col e) (colours cs) /\ along (places cs) (mh_pos m (ed_1 e)) (mh_pos m (ed_2 e))) /\
    (forall k, exists m2, refine_n k m1 = Ok m2 /\ refinable m2 /\ QRefineSpec.covered m2 == area) /\
    (forall s ks, boundary_marked m -> domain_fits (sm_inside s) m -> exists m', SmoothModel.run s m ks = Ok m' /\ sound m' /\
       QRefineSpec.covered m' == area /\ fills m' (places c0) (map places css))).
Proof.
  intros to_double files sq cosn sinn sqrt3 stod tq file ss k s store i0 more c0 css SQ F K ST B D0 DS NE.
  destruct (C69_domain to_double files sq cosn sinn sqrt3 stod tq file ss k s store i0 more c0 css SQ F K ST B D0 DS NE) as (xs & x & side & E & KX & EX & SR & TD).
  exists xs, x, side. split; [exact E|]. split; [exact KX|]. split; [exact EX|]. split; [exact SR|]. intros IN.
  destruct (TD (fun cs p I J => proj1 (IN cs p I J))) as (new & bds & ET & _). exists new, bds. split; [exact ET|]. clear TD. cbv zeta.
  destruct (FileMeshProps.C67_mesh_partial to_double files (calm (domain_params side) sq) cosn sinn sqrt3 stod tq file ss k s store i0 more c0 css (calm_answers _ _) F K ST B D0 DS NE (fun cs p I J => proj2 (IN cs p I J)))
    as (xs' & x' & new' & bds' & E' & KX' & DM & R).
  assert (XX : xs' = xs) by congruence. subst xs'. assert (XX : x' = x) by congruence. subst x'.
  assert (MX : means to_double files (se_items s) x).
  { destruct (file_read to_double files file ss F) as (ys & E'' & M). assert (XX : ys = xs) by congruence. subst ys. clear - M K KX. revert k K KX. induction M as [|s' y ss ys H M IH]; intros [|k] K KX; try discriminate; [cbn in K, KX; congruence|exact (IH k K KX)]. }
  destruct (domain_asks to_double files _ x i0 more cosn sinn sqrt3 stod store c0 css MX B D0 DS) as (d0 & EXT & G0 & GS).
  assert (SC : 0 < side) by exact (polygon_side side (places c0) (ne_outer _ _ NE) (fun q J => proj1 (IN c0 q (or_introl eq_refl) J))).
  assert (HO : forall cs, In cs css -> simple_polygon (places cs)) by (intros cs I; apply (ne_holes _ _ NE), in_map, I).
  destruct (boundaries_tree (domain_params side) sq ltac:(cbn; lia) SC SQ cosn sinn sqrt3 stod store [GV d0 true] (map (fun d => GV d true) (in_interior x)) d0 c0 css (exterior_one d0) G0 (ne_outer _ _ NE) GS HO (fun cs q I J => proj1 (IN cs q I J))) as (BT & _).
  unfold tree_domain in ET. rewrite EX in ET. cbn [obind] in ET. unfold file_domain in ET, DM. rewrite SR in ET, DM. cbn [obind] in ET, DM. rewrite EXT in ET, DM. rewrite BT, DM in ET.
  assert (NB : store ++ new' = store ++ new /\ bds' = bds) by (injection ET as Q1 Q2; auto). destruct NB as [NB ->]. apply app_inv_head in NB. subst new'.
  destruct (boundaries_described (calm (domain_params side) sq) cosn sinn sqrt3 stod (calm_answers _ _) store [GV d0 true] (map (fun d => GV d true) (in_interior x)) d0 c0 css (exterior_one d0) G0 (ne_outer _ _ NE) GS HO) as (new2 & b & bs & EB & F0 & FS).
  rewrite DM in EB. assert (NB : store ++ new = store ++ new2 /\ bds = (EXTERIOR, b) :: bs) by (injection EB as Q1 Q2; auto). destruct NB as [NB BB]. apply app_inv_head in NB. subst new2.
  assert (AF := all_fit _ _ _ _ _ F0 FS). rewrite <- BB in AF.
  intros fixed sub loose col rho shape_ok dom inside qual newpos query fuel n prop own st' r c HF HA HI HL HN Hn C0 GE EXV FO FR TA.
  assert (BE : forall e, In e (file_edges (store ++ new) bds) -> (in_square side (de_a e) = true /\ in_square side (de_b e) = true) /\ in_square front_scale (de_a e) = true /\ in_square front_scale (de_b e) = true).
  { intros e I. destruct (file_side _ _ _ _ AF I) as (cs & u & v & I1 & _ & I2 & I3). destruct (ring_ends _ _ _ I2) as [J1 J2].
    destruct (IN cs u I1 J1) as [U1 U2]. destruct (IN cs v I1 J2) as [V1 V2]. destruct I3 as [[W1 W2]|[W1 W2]]; rewrite !(EndProofs.in_square_eq _ _ _ W1), !(EndProofs.in_square_eq _ _ _ W2); repeat split; assumption. }
  assert (VI : vertices_in side (FrontModel.prepared sub (collect_front_edges (file_edges (store ++ new) bds) fixed []) loose col)).
  { apply C69_start; [| |exact HA|intros q I; apply (HL q I)]; intros e I; cbn [concat] in I; rewrite app_nil_r in I; apply in_app_or in I; destruct I as [I|I]; try apply (BE e I); destruct (HF e I) as (_ & _ & [P1 P2] & [P3 P4]); split; assumption. }
  split; [exact VI|].
  refine (R fixed sub loose col rho shape_ok dom side inside qual newpos query fuel n prop own st' r c _ _ HI _ _ _ Hn VI _ C0 GE EXV FO FR TA).
  - intros e I. destruct (HF e I) as (P1 & P2 & [P3 P4] & [P5 P6]). repeat split; assumption.
  - intros u v. apply Forall_forall. intros q I. destruct (HA u v q I) as (t & _ & Q). exists t. exact Q.
  - intros u v q I A1 A2. exact (amid_square _ _ _ _ (HA u v q I) A1 A2).
  - intros q I. apply (HL q I).
  - intros s1 e1. apply (HN s1 e1).
  - intros s1 e1. apply (HN s1 e1).
Qed.

(* ---------- the square of a new mesh ---------- *)
(* create_empty_mesh without an extent: all vertices of the domain and all that lies
   between them *)
Lemma takes_square t v : ts_centre t = V2 0 0 -> takes t v = in_square (ts_scale t) v.
Proof.
  intros C. apply Bool.eq_true_iff_eq. rewrite in_square_iff. unfold takes. rewrite C. cbn [vx vy]. rewrite !Bool.andb_true_iff, !Qle_bool_iff.
  assert (E : ts_scale t / 2 == ts_scale t * (1 # 2)) by (unfold Qdiv; reflexivity). rewrite !E. split; [intros [[[A B] C'] D]|intros [[A B] [C' D]]]; repeat split; Lqa.lra.
Qed.
Lemma unset q : eq0 0 q = true <-> q == 0.
Proof.
  unfold eq0, EQtol. assert (A : 0 <= ABSq q /\ (ABSq q == q \/ ABSq q == - q)).
  { unfold ABSq. destruct (Qltb 0 q) eqn:E; [apply Qltb_true in E; split; [Lqa.lra|left; reflexivity]|]. assert (X : ~ 0 < q) by (rewrite <- Qltb_true, E; discriminate). split; [Lqa.lra|right; reflexivity]. }
  assert (A0 : ABSq (q - 0) == ABSq q).
  { unfold ABSq. assert (Z : q - 0 == q) by ring. destruct (Qltb 0 (q - 0)) eqn:E1, (Qltb 0 q) eqn:E2; try (rewrite Z; reflexivity).
    - apply Qltb_true in E1. assert (X : ~ 0 < q) by (rewrite <- Qltb_true, E2; discriminate). exfalso. Lqa.lra.
    - apply Qltb_true in E2. assert (X : ~ 0 < q - 0) by (rewrite <- Qltb_true, E1; discriminate). exfalso. Lqa.lra. }
  destruct (Qleb (ABSq (q - 0)) 0) eqn:E; [apply Qleb_true in E; split; [intros _; destruct A as [A [B|B]]; Lqa.lra|reflexivity]|].
  assert (N : ~ ABSq q <= 0) by (rewrite <- A0, <- Qleb_true, E; discriminate). rewrite Qleb_true. split; [|intros Z; exfalso; apply N; destruct A as [_ [B|B]]; Lqa.lra].
  intros H. exfalso. change (ABSq 0) with (-0) in H. unfold Qmaxb in H. destruct (Qltb (-0) (ABSq q)) eqn:M.
  - rewrite A0 in H. unfold dbl_eps in H. Lqa.lra.
  - rewrite A0 in H. unfold dbl_eps in H. Lqa.lra.
Qed.
Theorem C69_empty : forall extent vs, extent == 0 -> let t := empty_mesh_square extent vs in
  (forall v, In v vs -> takes t v = true) /\ (forall a b q, In a vs -> In b vs -> amid a b q -> takes t q = true) /\
  (exists m, reaches m vs /\ (forall m', 0 <= m' -> reaches m' vs -> m <= m') /\ ts_scale t == (21 # 10) * m).
Proof.
  intros extent vs Z t. destruct (biggest_ge vs extent) as [B R]. set (m := fold_left (fun e v => Qbigger (Qbigger e (absQ (vx v))) (absQ (vy v))) vs extent) in *.
  assert (TS : ts_scale t = m * (21 # 10)) by (unfold t, empty_mesh_square, empty_extent; cbn [ts_scale]; rewrite (proj2 (unset extent) Z); reflexivity).
  assert (A : forall v, In v vs -> in_square (ts_scale t) v = true) by (intros v I; apply (reach_square m); [exact (R v I)|rewrite TS; Lqa.lra]).
  split; [intros v I; rewrite takes_square by reflexivity; exact (A v I)|]. split.
  - intros a b q IA IB M. rewrite takes_square by reflexivity. exact (amid_square _ _ _ _ M (A a IA) (A b IB)).
  - exists m. split; [exact R|]. split; [intros m' M0 R'; apply biggest_least; [lra|exact R']|]. rewrite TS. ring.
Qed.
(* a mesh with an extent of the caller has that extent *)
Theorem C69_given : forall extent vs v, ~ extent == 0 -> takes (empty_mesh_square extent vs) v = in_square extent v.
Proof.
  intros extent vs v N. rewrite takes_square by reflexivity. unfold empty_mesh_square, empty_extent. cbn [ts_scale]. destruct (eq0 0 extent) eqn:E; [exfalso; apply N, unset, E|reflexivity].
Qed.
(* create_empty_mesh_ptr: the square of the domain, as long as its centre was not moved *)
Theorem C69_mesh_square_partial : forall t v, ts_centre t = V2 0 0 -> takes (mesh_square t) v = takes t v.
Proof. intros t v C. rewrite !takes_square by (try reflexivity; exact C). reflexivity. Qed.
Theorem C69_centre_refuted : exists t t' v, quad_tree_center t (V2 10 0) = Ok t' /\ takes t' v = true /\ takes (mesh_square t') v = false.
Proof. exists (TS 4 (V2 0 0) 0), (TS 4 (V2 10 0) 0), (V2 11 1). repeat split. Qed.
(* the square can only be changed before the first vertex *)
Theorem C69_set_first : forall t s c, (ts_size t = 0%nat -> quad_tree_scale t s = Ok (TS s (ts_centre t) 0) /\ quad_tree_center t c = Ok (TS (ts_scale t) c 0)) /\
  (ts_size t <> 0%nat -> quad_tree_scale t s = Throw /\ quad_tree_center t c = Throw).
Proof. intros [a b [|n]] s c; split; intros H; try (cbn in H; lia); split; reflexivity. Qed.

(* ---------- the claim for files is false ---------- *)
(* A small hole between vertices and a large rectangle: the square is estimated from the
   vertices alone, the corners of the rectangle are searched outside of it. *)
Definition hole_lines : list string :=
  ["Define boundary vertices:"; "0, 0"; "0, 1"; "1, 0"; "End boundary vertices"; "Define exterior rectangular boundary: 1, 0, 0, 10, 10, 1, 1";
   "Define interior boundary edges:"; "0, 1, 2"; "1, 2, 2"; "2, 0, 2"; "End interior boundary edges"]%string.
Theorem C69_refuted : exists x store bds, read_file FileExamples.decimal FileExamples.no_files (FileProps.block hole_lines) = Ok [x] /\
  file_extent 1000 x = Ok (21 # 10) /\
  file_domain scan (fun _ _ => 0) (fun _ _ => 0) 1 (fun _ => None) 1000 x = Ok (store, bds) /\ apart store /\
  map (fun b => map de_ends (file_edges store [b])) bds =
    [[(V2 (-10 # 2) (-10 # 2), V2 (10 # 2) (-10 # 2)); (V2 (10 # 2) (-10 # 2), V2 (10 # 2) (10 # 2)); (V2 (10 # 2) (10 # 2), V2 (-10 # 2) (10 # 2)); (V2 (-10 # 2) (10 # 2), V2 (-10 # 2) (-10 # 2))]; [(V2 0 0, V2 0 1); (V2 0 1, V2 1 0); (V2 1 0, V2 0 0)]] /\
  forall sq, tree_domain sq (fun _ _ => 0) (fun _ _ => 0) 1 (fun _ => None) 1000 x = UB.
Proof.
  assert (X : match read_file FileExamples.decimal FileExamples.no_files (FileProps.block hole_lines) with Ok [x] => True | _ => False end) by (vm_compute; exact I).
  destruct (read_file FileExamples.decimal FileExamples.no_files (FileProps.block hole_lines)) as [[|x [|y l]]| |] eqn:E; try contradiction. clear X. vm_compute in E. assert (EX := f_equal (fun o => match o with Ok (z :: _) => z | _ => x end) E). cbn beta iota in EX. clear E.
  exists x. rewrite <- EX. clear EX x.
  eexists. eexists. split; [reflexivity|]. split; [vm_compute; reflexivity|]. split; [vm_compute; reflexivity|]. split; [|split; [vm_compute; reflexivity|intros sq; vm_compute; reflexivity]].
  intros i j v w I J V. do 7 (destruct i as [|i]; [do 7 (destruct j as [|j]; [cbn in I, J; first [reflexivity|exfalso; assert (A := f_equal (fun o => match o with Some z => vi_xy z | None => V2 0 0 end) I); assert (B := f_equal (fun o => match o with Some z => vi_xy z | None => V2 0 0 end) J); cbn in A, B; rewrite <- A, <- B in V; destruct V as [V1 V2]; cbn in V1, V2; Lqa.lra]|]); destruct j; discriminate J|]).
  destruct i; discriminate I.
Qed.

(* ---------- cases ---------- *)
Example C69_shape_case : exists new l, create_boundary_shape (tree_nearest (domain_params 4) QTreeMore.sq_up) EXTERIOR [VI (V2 1 1) 1 1 0%N; VI (V2 0 0) 1 1 0%N] (rect_shape (V2 0 0) 2 2)
    (repeat (1, 1) 4) (repeat 1%Z 4) = Ok ([VI (V2 1 1) 1 1 0%N; VI (V2 0 0) 1 1 0%N] ++ new, l) /\ length new = 3%nat /\ QTreeCont.sqrt_ok QTreeMore.sq_up /\ 0 < cp_scale (domain_params 4).
Proof. eexists. eexists. split; [vm_compute; reflexivity|]. split; [reflexivity|]. split; [exact QTreeMore.sq_up_ok|reflexivity]. Qed.
(* the plate of C67_plate_case, in the square of a file without vertices *)
Example C69_plate_case : exists c0 c1, file_of FileExamples.decimal (joined newline FileMeshProps.plate_lines) [FileMeshProps.plate_section] /\ stands FileExamples.decimal (se_items FileMeshProps.plate_section) [] /\
  boundaries true (se_items FileMeshProps.plate_section) = [FileMeshProps.plate_outer] /\ boundaries false (se_items FileMeshProps.plate_section) = [FileMeshProps.plate_inner] /\
  draws FileExamples.decimal FileExamples.no_files cos4 sin4 1 whole_number [] EXTERIOR FileMeshProps.plate_outer c0 /\
  draws FileExamples.decimal FileExamples.no_files cos4 sin4 1 whole_number [] INTERIOR FileMeshProps.plate_inner c1 /\ nested (places c0) (map places [c1]) /\
  exists x new bds, read_file FileExamples.decimal FileExamples.no_files (joined newline FileMeshProps.plate_lines) = Ok [x] /\ file_extent front_scale x = Ok front_scale /\
    tree_domain QTreeMore.sq_up cos4 sin4 1 whole_number front_scale x = Ok ([] ++ new, bds) /\ length new = 8%nat /\ apart new /\ domain_area (domain_of new bds) == 14.
Proof.
  destruct FileMeshProps.C67_plate_case as (c0 & c1 & _ & H1 & H2 & H3 & H4 & H5 & H6 & H7 & H8 & H9). exists c0, c1.
  split; [exact H1|]. split; [exact H2|]. split; [exact H3|]. split; [exact H4|]. split; [exact H5|]. split; [exact H6|]. split; [exact H7|].
  assert (DS : Forall2 (draws FileExamples.decimal FileExamples.no_files cos4 sin4 1 whole_number [] INTERIOR) (boundaries false (se_items FileMeshProps.plate_section)) [c1]) by (rewrite H4; constructor; [exact H6|constructor]).
  destruct (C69_domain FileExamples.decimal FileExamples.no_files QTreeMore.sq_up cos4 sin4 1 whole_number front_scale _ _ 0%nat FileMeshProps.plate_section [] _ _ c0 [c1] QTreeMore.sq_up_ok H1 eq_refl H2 H3 H5 DS H7) as (xs & x & side & E & K & EX & _ & R).
  assert (X : exists y, read_file FileExamples.decimal FileExamples.no_files (joined newline FileMeshProps.plate_lines) = Ok [y] /\ file_extent front_scale y = Ok front_scale) by (eexists; split; [vm_compute; reflexivity|vm_compute; reflexivity]).
  destruct X as (y & Y1 & Y2). assert (XX : xs = [y]) by congruence. subst xs. cbn in K. assert (XX : x = y) by congruence. subst y. assert (XX : side = front_scale) by congruence. subst side.
  destruct (R H8) as (new & bds & TD & AP & _ & _ & _ & _ & AR). exists x, new, bds. split; [exact Y1|]. split; [exact Y2|]. split; [exact TD|].
  assert (A0 : apart (@nil vinfo)) by (intros i j v w I; destruct i; discriminate I).
  split; [|split; [exact (AP A0)|]].
  { assert (X : exists y n b, read_file FileExamples.decimal FileExamples.no_files (joined newline FileMeshProps.plate_lines) = Ok [y] /\ tree_domain QTreeMore.sq_up cos4 sin4 1 whole_number front_scale y = Ok (n, b) /\ length n = 8%nat)
      by (eexists; eexists; eexists; split; [vm_compute; reflexivity|split; [vm_compute; reflexivity|reflexivity]]).
    destruct X as (y & n & b & X1 & X2 & X3). assert (XX : x = y) by congruence. subst y. assert (XX : n = [] ++ new) by congruence. rewrite XX in X3. exact X3. }
  { cbn [app] in AR. rewrite AR. exact H9. }
Qed.
Example C69_search_case : tree_nearest (CP 8 1 2) QTreeMore.sq_up [VI (V2 1 1) 1 1 0%N; VI (V2 (-1) 1) 1 1 0%N; VI (V2 3 2) 1 1 0%N] (V2 2 2) = Ok (Some 2%nat) /\
  tree_nearest (CP 8 1 2) QTreeMore.sq_up [VI (V2 1 1) 1 1 0%N] (V2 5 0) = UB.
Proof. split; vm_compute; reflexivity. Qed.
Example C69_empty_case : ts_scale (empty_mesh_square 0 [V2 1 2; V2 (-3) 1; V2 0 0]) == 63 # 10 /\ takes (empty_mesh_square 0 [V2 1 2; V2 (-3) 1; V2 0 0]) (V2 (-2) 1) = true /\
  takes (empty_mesh_square 5 [V2 1 2; V2 (-3) 1; V2 0 0]) (V2 (-3) 1) = false.
Proof. repeat split. Qed.
(* the front of a square of side 2 in a container of side 4 *)
Example C69_start_case : let e a b := DE a b 1%Z false in let bounds := [e (V2 (-1) (-1)) (V2 1 (-1)); e (V2 1 (-1)) (V2 1 1); e (V2 1 1) (V2 (-1) 1); e (V2 (-1) 1) (V2 (-1) (-1))] in
  (forall x, In x (bounds ++ [] ++ concat []) -> in_square front_scale (de_a x) = true /\ in_square front_scale (de_b x) = true) /\
  (forall x, In x (bounds ++ [] ++ concat []) -> in_square 4 (de_a x) = true /\ in_square 4 (de_b x) = true) /\
  (forall a b q, In q ((fun a b => [vadd a (vscale (1 # 2) (vsub b a))]) a b) -> amid a b q) /\
  vertices_in 4 (FrontModel.prepared (fun a b => [vadd a (vscale (1 # 2) (vsub b a))]) (collect_front_edges bounds [] []) [] 1%Z).
Proof.
  intros e bounds. assert (B : forall s, 2 <= s -> forall x, In x (bounds ++ [] ++ concat []) -> in_square s (de_a x) = true /\ in_square s (de_b x) = true).
  { intros s L x I. cbn in I. destruct I as [<-|[<-|[<-|[<-|[]]]]]; cbv delta [e]; cbn [de_a de_b]; split; apply in_square_iff; cbn [vx vy]; repeat split; Lqa.lra. }
  assert (M : forall a b q, In q ((fun a b => [vadd a (vscale (1 # 2) (vsub b a))]) a b) -> amid a b q).
  { intros a b q [<-|[]]. exists (1 # 2). split; [split; discriminate|split; reflexivity]. }
  split; [apply B; discriminate|]. split; [apply B; discriminate|]. split; [exact M|].
  apply C69_start; [apply B; discriminate|apply B; discriminate|exact M|intros q []].
Qed.

Print Assumptions C69_search.
Print Assumptions C69_shape.
Print Assumptions C69_shape_outside.
Print Assumptions C69_extent.
Print Assumptions C69_edges.
Print Assumptions C69_domain.
Print Assumptions C69_start.
Print Assumptions C69_mesh_partial.
Print Assumptions C69_empty.
Print Assumptions C69_given.
Print Assumptions C69_mesh_square_partial.
Print Assumptions C69_centre_refuted.
Print Assumptions C69_set_first.
Print Assumptions C69_refuted.
