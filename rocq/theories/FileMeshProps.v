(* C67: from the text of a parameter file to the domain and to the mesh. *)
From Coq Require Import Reals Qreals Ascii String Lra Lqa Lia Permutation.
From Verif Require Import Base Chain GeomModel GeomSpec GeomProofs FacetModel UtilModel BdryModel BdrySpec BdryProofs AdvanceModel AdvanceSpec AdvanceProofs AdvanceInv AdvanceGeom
  AdvanceProps LoopModel LoopSpec LoopProps FrontModel FrontSpec FrontProofs FrontProps MeshModel MeshSpec MeshProofs QRefineModel QRefineSpec QRefineProps CleanModel CleanSpec CleanPass CleanScan CleanProps
  T2QModel T2QSpec T2QProofs T2QProps SmoothModel SmoothSpec WindSpec WindProofs WindMesh WindMeshProps WindInsideProps PolySpec PolyMain PolyProps ClearSpec ClearStart ClearDomain ClearProps
  FinModel FinPipe FinProps ShapeModel ShapeSpec ShapeProofs ShapeProps SmoothProofs SmoothProps DomInModel DomInSpec DomInProofs DomInBuild ConvexProofs CircProofs PlateSpec PlateProofs BdryProps DomInProps NearRange EndSpec EndClean EndProofs.
From Verif Require Import AppModel CsvModel CsvProofs ParaModel ParaSpec FileModel FileSpec FileBuild.
From Verif Require FileCheck FileExamples EndProps.
Open Scope list_scope.
Open Scope Q_scope.

(* the domain of a block is the region between the polygons that its lines describe *)
Theorem C67_domain : forall to_double files nearest cosn sinn sqrt3 stod tq file ss k s store i0 more c0 css, answers nearest ->
  file_of to_double file ss -> nth_error ss k = Some s -> stands to_double (se_items s) store ->
  boundaries true (se_items s) = i0 :: more -> draws to_double files cosn sinn sqrt3 stod store EXTERIOR i0 c0 ->
  Forall2 (draws to_double files cosn sinn sqrt3 stod store INTERIOR) (boundaries false (se_items s)) css -> nested (places c0) (map places css) ->
  exists xs x new bds, read_file to_double files file = Ok xs /\ nth_error xs k = Some x /\
    file_domain nearest cosn sinn sqrt3 stod tq x = Ok (store ++ new, bds) /\
    let dom := domain_of (store ++ new) bds in
    Forall2 (fun b cs => forall e, In e (el_edges (snd b)) -> In (be_col e) (colours cs)) bds (c0 :: css) /\
    proper_domain dom /\
    (forall p, (forall b, In b dom -> WindInside.clear_of p (bd_edges b)) -> domain_inside dom p = true <->
       ~ winding p (ring_edges (places c0)) == 0 /\ forall cs, In cs css -> winding p (ring_edges (places cs)) == 0) /\
    domain_area dom == Qabs.Qabs (signed_area (places c0)) - total css.
Proof.
  intros to_double files nearest cosn sinn sqrt3 stod tq file ss k s store i0 more c0 css A F K ST B D0 DS NE.
  destruct (file_read to_double files file ss F) as (xs & E & M).
  assert (X : exists x, nth_error xs k = Some x /\ means to_double files (se_items s) x).
  { clear - M K. revert k K. induction M as [|s' x ss xs H M IH]; intros [|k] K; try discriminate; [cbn in K; assert (KE : s' = s) by congruence; rewrite KE in H; exists x; split; [reflexivity|exact H]|exact (IH k K)]. }
  destruct X as (x & KX & MX). destruct (domain_asks to_double files _ x i0 more cosn sinn sqrt3 stod store c0 css MX B D0 DS) as (d0 & EX & G0 & GS).
  destruct (C64_domain nearest cosn sinn sqrt3 stod store [GV d0 true] (map (fun d => GV d true) (in_interior x)) d0 c0 css A (exterior_one d0) G0 GS NE) as (new & b & bs & EB & R).
  exists xs, x, new, ((EXTERIOR, b) :: bs). split; [exact E|]. split; [exact KX|].
  split; [unfold file_domain; rewrite (store_read to_double files tq _ x store MX ST); cbn [obind]; rewrite EX; exact EB|].
  cbv zeta in R. cbv zeta. destruct R as (R1 & _ & R2 & _ & R3 & R4 & _).
  split; [clear - R1; revert R1; generalize ((EXTERIOR, b) :: bs) (c0 :: css); intros l m R; induction R as [|y z l m H R IH]; constructor; [intros e I; apply (H e I)|exact IH]|].
  split; [exact R2|]. split; [exact R3|exact R4].
Qed.

(* and so is the mesh; as in C65 the run of the advancing front is given *)
Theorem C67_mesh_partial : forall to_double files nearest cosn sinn sqrt3 stod tq file ss k s store i0 more c0 css, answers nearest ->
  file_of to_double file ss -> nth_error ss k = Some s -> stands to_double (se_items s) store ->
  boundaries true (se_items s) = i0 :: more -> draws to_double files cosn sinn sqrt3 stod store EXTERIOR i0 c0 ->
  Forall2 (draws to_double files cosn sinn sqrt3 stod store INTERIOR) (boundaries false (se_items s)) css -> nested (places c0) (map places css) ->
  (forall cs p, In cs (c0 :: css) -> In p (places cs) -> in_square front_scale p = true) ->
  exists xs x new bds, read_file to_double files file = Ok xs /\ nth_error xs k = Some x /\
  file_domain nearest cosn sinn sqrt3 stod tq x = Ok (store ++ new, bds) /\
  let area := Qabs.Qabs (signed_area (places c0)) - total css in
  forall fixed sub loose col rho shape_ok dom mesh_scale inside qual newpos query fuel n prop own st' r c,
  (forall e, In e fixed -> de_fix e = true /\ veqb (de_a e) (de_b e) = false /\
     in_square front_scale (de_a e) = true /\ in_square front_scale (de_b e) = true) ->
  (forall a b, Forall (on_line a b) (sub a b)) -> (forall a b, ~ veq a b -> strictly_inside a b (sub a b)) ->
  (forall a b p, In p (sub a b) -> in_square front_scale a = true -> in_square front_scale b = true ->
     in_square front_scale p = true) ->
  (forall p, In p loose -> in_square front_scale p = true) ->
  (forall s e, in_square front_scale (newpos s e) = true) -> (0 < n < 2 ^ 31)%Z ->
  let st := FrontModel.prepared sub (collect_front_edges (file_edges (store ++ new) bds) fixed []) loose col in
  vertices_in mesh_scale st -> (forall s e, in_square mesh_scale (newpos s e) = true) -> (0 <= col)%Z ->
  generate mesh_scale (triangle_is_valid rho shape_ok dom) (vertex_is_valid rho inside) qual newpos query fuel n st = Some (Ok (st', r, c)) ->
  exact_vertices st' -> found (AdvanceGeom.near rho) (ms_front st) st' -> ms_front st' = [] ->
  (forall t, In t (ms_tris st') -> (3 # 2) * tol26 <= tri_area (ms_pos st' (tr_v1 t)) (ms_pos st' (tr_v2 t)) (ms_pos st' (tr_v3 t))) ->
  exists m m1, finish mesh_scale (fun _ => None) prop st st' = Ok m /\ tri2quad own m = Ok m1 /\
    sound m /\ sound m1 /\ covered m == area /\ covered m1 == area /\
    fills m (places c0) (map places css) /\ fills m1 (places c0) (map places css) /\
    (forall e, In e (mh_bdry m) -> exists cs, In cs (c0 :: css) /\ In (ed_col e) (colours cs) /\ along (places cs) (mh_pos m (ed_1 e)) (mh_pos m (ed_2 e))) /\
    (forall k, exists m2, refine_n k m1 = Ok m2 /\ refinable m2 /\ covered m2 == area) /\
    (forall s ks, boundary_marked m -> domain_fits (sm_inside s) m -> exists m', SmoothModel.run s m ks = Ok m' /\ sound m' /\
       covered m' == area /\ fills m' (places c0) (map places css)).
Proof.
  intros to_double files nearest cosn sinn sqrt3 stod tq file ss k s store i0 more c0 css A F K ST B D0 DS NE SQ.
  destruct (file_read to_double files file ss F) as (xs & E & M).
  assert (X : exists x, nth_error xs k = Some x /\ means to_double files (se_items s) x).
  { clear - M K. revert k K. induction M as [|s' x ss xs H M IH]; intros [|k] K; try discriminate; [cbn in K; assert (KE : s' = s) by congruence; rewrite KE in H; exists x; split; [reflexivity|exact H]|exact (IH k K)]. }
  destruct X as (x & KX & MX). destruct (domain_asks to_double files _ x i0 more cosn sinn sqrt3 stod store c0 css MX B D0 DS) as (d0 & EX & G0 & GS).
  destruct (EndProps.C65_mesh_partial nearest cosn sinn sqrt3 stod store [GV d0 true] (map (fun d => GV d true) (in_interior x)) d0 c0 css A (exterior_one d0) G0 GS NE SQ) as (new & bds & EB & R).
  exists xs, x, new, bds. split; [exact E|]. split; [exact KX|].
  split; [unfold file_domain; rewrite (store_read to_double files tq _ x store MX ST); cbn [obind]; rewrite EX; exact EB|].
  cbv zeta in R. cbv zeta. intros fixed sub loose col rho shape_ok dom mesh_scale inside qual newpos query fuel n prop own st' r c H1 H2 H3 H4 H5 H6 H7 H8 H9 H10 H11 H12 H13 H14 H15.
  destruct (R fixed sub loose col rho shape_ok dom mesh_scale inside qual newpos query fuel n prop own st' r c H1 H2 H3 H4 H5 H6 H7 H8 H9 H10 H11 H12 H13 H14 H15) as (m & m1 & Q1 & Q2 & Q3 & Q4 & Q5 & Q6 & Q7 & Q8 & Q9 & _ & Q11 & Q12).
  exists m, m1. split; [exact Q1|]. split; [exact Q2|]. split; [exact Q3|]. split; [exact Q4|]. split; [exact Q5|]. split; [exact Q6|]. split; [exact Q7|]. split; [exact Q8|]. split; [exact Q9|]. split; [|exact Q12].
  intros j. destruct (Q11 j) as (m2 & T1 & T2 & T3 & _). exists m2. auto.
Qed.

(* ---- a plate with a hole, as text ---- *)
Definition plate_lines : list text := map FileExamples.txt
  ["Define mesh:"; "  Output file prefix: plate"; "  Output file format: VTU"; "  # one size everywhere"; "  Element size: 1.0"; "";
   "  Define exterior rectangular boundary: 1, 0, 0, 4, 4, 1, 1   # color, center, width, height"; "  Define interior circular boundary: (2), 0, 0, 1, 4, 1, 1"; "End mesh"]%string.
Definition plate_outer : item := Value (Bdry true KRect) (FileExamples.txt "  Define exterior rectangular boundary: 1, 0, 0, 4, 4, 1, 1   # color, center, width, height").
Definition plate_inner : item := Value (Bdry false KCirc) (FileExamples.txt "  Define interior circular boundary: (2), 0, 0, 1, 4, 1, 1").
Definition plate_section : FileSpec.section := SE [] (FileExamples.txt "Define mesh:")
  [Value Prefix (FileExamples.txt "  Output file prefix: plate"); Value Format (FileExamples.txt "  Output file format: VTU"); Value Size (FileExamples.txt "  Element size: 1.0"); Plain [];
   plate_outer; plate_inner] (FileExamples.txt "End mesh").
Lemma shape_holds vs : vs <> [] -> holds (shape_of vs) [vs].
Proof.
  intros N. split; [reflexivity|]. intros i [|j] r v J V; [|destruct j; discriminate]. cbn in J. assert (E : vs = r) by congruence. subst r. exact (row_of_shape vs N i v V).
Qed.
Lemma line_defines e k l t vs p : FileCheck.value_at (Bdry e k) l = Some t -> FileCheck.filled_rowb (width (Bdry e k)) t = true ->
  line_values Q FileExamples.decimal (Some (-(1))) (width (Bdry e k)) t = vs -> vs <> [] -> p = shape_of vs -> k <> KEdges -> k <> KCsv ->
  defines FileExamples.decimal FileExamples.no_files (Value (Bdry e k) l) (as_definition k p).
Proof.
  intros V B E N -> K1 K2. apply FileProofs.defines_values with (e := e) (rows := [vs]); [exact K1|exact K2|apply FileProofs.is_named_iff; reflexivity| |apply shape_holds, N].
  exists t, vs. split; [apply FileCheck.value_at_ok, V|]. split; [apply FileCheck.filled_is; assumption|reflexivity].
Qed.
Example C67_plate_case : exists c0 c1, answers scan /\ file_of FileExamples.decimal (joined newline plate_lines) [plate_section] /\ stands FileExamples.decimal (se_items plate_section) [] /\
  boundaries true (se_items plate_section) = [plate_outer] /\ boundaries false (se_items plate_section) = [plate_inner] /\
  draws FileExamples.decimal FileExamples.no_files cos4 sin4 1 whole_number [] EXTERIOR plate_outer c0 /\
  draws FileExamples.decimal FileExamples.no_files cos4 sin4 1 whole_number [] INTERIOR plate_inner c1 /\
  nested (places c0) (map places [c1]) /\ (forall cs p, In cs [c0; c1] -> In p (places cs) -> in_square front_scale p = true) /\
  Qabs.Qabs (signed_area (places c0)) - total [c1] == 14.
Proof.
  assert (NN : forall (x : Q) l, x :: l <> []) by (intros; discriminate).
  assert (A : answers scan) by exact (proj1 C63_circle_case). assert (NC := proj2 (proj2 C63_circle_case)).
  assert (I1 : int_of 1 1) by (repeat split; try lia; intros; try Lqa.lra; discriminate). assert (I2 : int_of 2 2) by (repeat split; try lia; intros; try Lqa.lra; discriminate). assert (I4 : int_of 4 (Z.of_nat 4)) by (repeat split; cbn; try lia; intros; try Lqa.lra; discriminate).
  assert (D0 := DomInSpec.ds_rect cos4 sin4 1 whole_number (shape_of [1; 0; 0; 4; 4; 1; 1]) 1 1 0 0 4 4 1 1 (row_of_shape _ (NN _ _)) I1).
  assert (D1 := DomInSpec.ds_circ cos4 sin4 1 whole_number (shape_of [2; 0; 0; 1; 4; 1; 1]) 2 2 0 0 1 4 4 1 1 (row_of_shape _ (NN _ _)) I2 I4 ltac:(lia)).
  match type of D0 with describes _ _ _ _ _ ?c => exists c end. match type of D1 with describes _ _ _ _ _ ?c => exists c end.
  split; [exact A|]. split; [apply (FileCheck.fileb_ok FileExamples.decimal _ _ []); vm_compute; reflexivity|].
  split; [exists [], [], [], []; repeat split; constructor|]. split; [reflexivity|]. split; [reflexivity|].
  split; [exists (DRect (shape_of [1; 0; 0; 4; 4; 1; 1])); split; [|constructor; exact D0]|split; [exists (DCirc (shape_of [2; 0; 0; 1; 4; 1; 1])); split; [|constructor; exact D1]|]].
  - eapply (line_defines true KRect); [vm_compute; reflexivity|vm_compute; reflexivity|vm_compute; reflexivity|discriminate|reflexivity|discriminate|discriminate].
  - eapply (line_defines false KCirc); [vm_compute; reflexivity|vm_compute; reflexivity|vm_compute; reflexivity|discriminate|reflexivity|discriminate|discriminate].
  - split; [|split].
    + assert (IP : (forall o, In o EndProps.round_holes -> in_plate cos4 sin4 0 (V2 0 0) 4 4 o) /\ ForallOrdPairs (holes_apart 0) EndProps.round_holes).
      { destruct EndProps.C65_plate_case as (m & c0 & css & _ & _ & _ & _ & _ & R). exact R. }
      destruct IP as [IP AP]. exact (circles_nested cos4 sin4 0 (V2 0 0) 4 4 EndProps.round_holes (Rle_refl 0) eq_refl eq_refl IP AP).
    + intros cs p [<-|[<-|[]]] I; cbn in I; repeat (destruct I as [<-|I]; [vm_compute; reflexivity|]); destruct I.
    + vm_compute. reflexivity.
Qed.

Print Assumptions C67_domain.
Print Assumptions C67_mesh_partial.
