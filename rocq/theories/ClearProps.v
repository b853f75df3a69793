(* C57: the advancing front never touches itself, and what follows for the meshes:
   the assumption on the accepted triangles in C23, C24, C25, C50 and C56 is a
   consequence of the tests of the code. *)
From Coq Require Import Lqa Lia Permutation.
From Verif Require Import Base Chain GeomModel GeomSpec FacetModel UtilModel BdryModel BdrySpec
  AdvanceModel AdvanceSpec AdvanceProofs AdvanceInv AdvanceMore AdvanceGeom AdvanceProps LoopModel LoopProps
  FrontModel FrontSpec FrontProofs FrontProps MeshModel WindSpec WindProofs WindFront WindMesh WindProps
  ClearSpec ClearGeom ClearRun ClearStart ClearEnd.
From Verif Require PolySpec PolyMain PolyProps BdryProps InsideSpec.
Open Scope Q_scope.

Lemma simple_front_ext pos pos' es : (forall v, on_front es v -> pos' v = pos v) -> simple_front pos es -> simple_front pos' es.
Proof.
  intros E S. assert (A : forall e, In e es -> pos' (be_v1 e) = pos (be_v1 e) /\ pos' (be_v2 e) = pos (be_v2 e)).
  { intros e I. split; apply E; exists e; split; try assumption; [left|right]; reflexivity. }
  constructor; try apply S.
  - intros u v U V. rewrite (E u U), (E v V). apply (sf_pos _ _ S); assumption.
  - intros e f I J. unfold seg. cbn [fst snd]. destruct (A e I) as [-> ->], (A f J) as [-> ->]. apply (sf_ends _ _ S e f I J).
  - intros z. assert (W : map (seg pos') es = map (seg pos) es); [|rewrite W; apply S].
    apply map_ext_in. intros e I. unfold seg. destruct (A e I) as [-> ->]. reflexivity.
Qed.
Definition front_in_mesh (st : mstate) : Prop := forall e, In e (ms_front st) -> In (be_v1 e) (ms_verts st) /\ In (be_v2 e) (ms_verts st).
Lemma segs_front st z : front_region st z = winding z (map (seg (ms_pos st)) (ms_front st)).
Proof. reflexivity. Qed.

Section Histories.
Variable rho : vec2 -> Q.
Variable shape_ok : vec2 -> vec2 -> vec2 -> bool.
Variable dom : list (vec2 * vec2).
Variable mesh_scale : Q.
Variable inside : vec2 -> bool.
Variable qual : mstate -> tri -> Q.
Notation tri_ok := (triangle_is_valid rho shape_ok dom).
Notation vtx_ok := (vertex_is_valid rho inside).
Notation frun := (frun mesh_scale tri_ok vtx_ok qual).
Notation accepted := (accepted mesh_scale tri_ok vtx_ok qual).
Variables st st' : mstate.
Variable os : list fop.
Hypothesis W : wf st.
Hypothesis V : vertices_in front_scale st.
Hypothesis O : Forall (op_in front_scale) os.
Hypothesis S : simple_front (ms_pos st) (ms_front st).
Hypothesis I : front_in_mesh st.
Hypothesis H : frun st os = Ok st'.
Hypothesis EX : exact_vertices st'.
Hypothesis FO : found (near rho) (ms_front st) st'.

Lemma history_simple : simple_front (ms_pos st') (ms_front st') /\ accepted sides_expected st os.
Proof.
  destruct (run_wf mesh_scale tri_ok vtx_ok qual os st st' W H) as (_ & _ & PO & _).
  destruct (run_on_way rho shape_ok dom mesh_scale inside qual (ms_pos st') (ms_verts st') (generated st') (ms_front st) EX FO os st st') as [J A].
  - constructor; try assumption.
    + apply (simple_front_ext (ms_pos st)); [|exact S]. intros v (e & K & E). destruct (wf_ev _ W e K) as (L1 & L2 & _). apply PO. destruct E as [<-|<-]; assumption.
    + intros e K. left. unfold ends. apply in_map_iff. exists e. split; [reflexivity|exact K].
  - exact O.
  - exact H.
  - constructor; [reflexivity|intros v K; exact K|]. intros t K. exists t. repeat split; try reflexivity. exact K.
  - split; [exact (ow_simple _ _ _ _ J)|exact A].
Qed.
Hypothesis G : generated st = [].
Lemma history_positive t : In t (generated st') -> 0 < tri_area (ms_pos st' (tr_v1 t)) (ms_pos st' (tr_v2 t)) (ms_pos st' (tr_v3 t)).
Proof. exact (C24_positive rho shape_ok dom mesh_scale inside qual os st st' W G H t). Qed.
Lemma history_tiles : tiles (ms_pos st') (map tri_shape (generated st')) (fun p => front_region st p - front_region st' p).
Proof. refine (C50_front_partial _ _ _ _ os st st' W V O _ H G _); [apply history_simple|exact history_positive]. Qed.
Lemma history_apart i j t u p : nth_error (generated st') i = Some t -> nth_error (generated st') j = Some u ->
  inside_shape (ms_pos st') (tri_shape t) p -> inside_shape (ms_pos st') (tri_shape u) p -> i = j.
Proof.
  intros Hi Hj It Iu. apply (tiles_disjoint _ _ _ history_tiles) with (s := tri_shape t) (t := tri_shape u) (p := p); try assumption; try (apply map_nth_error; assumption).
  intros z. cbn beta. rewrite !segs_front. assert (A := sf_region _ _ S z). assert (B := sf_region _ _ (proj1 history_simple) z). lra.
Qed.
End Histories.

(* Every history of the advancing front with the tests of the code that starts from a
   front of closed curves which do not touch each other: if no three vertices of the
   result are nearly collinear and the midpoints of the segments that meet an element
   are in the search range of the tests, the front is free of self-contacts at the end
   and all accepted triangles close the front edges along them. *)
Theorem C57_history_partial : forall rho shape_ok dom mesh_scale inside qual os st st',
  wf st -> vertices_in front_scale st -> Forall (op_in front_scale) os ->
  simple_front (ms_pos st) (ms_front st) -> front_in_mesh st ->
  frun mesh_scale (triangle_is_valid rho shape_ok dom) (vertex_is_valid rho inside) qual st os = Ok st' ->
  exact_vertices st' -> found (near rho) (ms_front st) st' ->
  simple_front (ms_pos st') (ms_front st') /\
  accepted mesh_scale (triangle_is_valid rho shape_ok dom) (vertex_is_valid rho inside) qual sides_expected st os.
Proof. intros rho shape_ok dom mesh_scale inside qual os st st' W V O S I H EX FO. exact (history_simple rho shape_ok dom mesh_scale inside qual st st' os W V O S I H EX FO). Qed.

(* At any time: the elements do not overlap, lie in the initial region, outside of
   the region that is left, and cover the difference; no directed side is used twice *)
Theorem C57_elements_partial : forall rho shape_ok dom mesh_scale inside qual os st st',
  wf st -> vertices_in front_scale st -> Forall (op_in front_scale) os ->
  simple_front (ms_pos st) (ms_front st) -> front_in_mesh st -> generated st = [] ->
  frun mesh_scale (triangle_is_valid rho shape_ok dom) (vertex_is_valid rho inside) qual st os = Ok st' ->
  exact_vertices st' -> found (near rho) (ms_front st) st' ->
  (forall i j t u p, nth_error (generated st') i = Some t -> nth_error (generated st') j = Some u ->
     inside_shape (ms_pos st') (tri_shape t) p -> inside_shape (ms_pos st') (tri_shape u) p -> i = j) /\
  (forall t p, In t (generated st') -> inside_shape (ms_pos st') (tri_shape t) p -> front_region st p == 1 /\ front_region st' p == 0) /\
  (forall p, front_region st p == 1 -> front_region st' p == 0 -> exists t, In t (generated st') /\ in_closure (ms_pos st') (tri_shape t) p) /\
  (forall p q, uses p q (sides (generated st')) <= 1)%nat.
Proof.
  intros rho shape_ok dom mesh_scale inside qual os st st' W V O S I G H EX FO.
  assert (T := history_tiles rho shape_ok dom mesh_scale inside qual st st' os W V O S I H EX FO G).
  assert (D := history_apart rho shape_ok dom mesh_scale inside qual st st' os W V O S I H EX FO G).
  assert (S' := proj1 (history_simple rho shape_ok dom mesh_scale inside qual st st' os W V O S I H EX FO)).
  split; [exact D|]. split; [|split].
  - intros t p It Ip. assert (L := tiles_only _ _ _ p (tri_shape t) T (in_map tri_shape _ _ It) Ip). cbn beta in L. rewrite !segs_front in *.
    assert (A := sf_region _ _ S p). assert (B := sf_region _ _ S' p). split; lra.
  - intros p P1 P0. destruct (tiles_cover _ _ _ p T) as (s & Hs & C); [cbn beta; lra|]. apply in_map_iff in Hs. destruct Hs as (t & <- & It). exists t. split; assumption.
  - intros p q. apply (side_once (ms_pos st')); [|exact D]. exact (history_positive rho shape_ok dom mesh_scale inside qual st st' os W H G).
Qed.

(* With an empty front: area and conformity.  Every edge of the initial front is a
   side of exactly one element, every other side belongs to exactly two elements, one
   on either side, and is exactly one interior edge of the mesh. *)
Theorem C57_conform_partial : forall rho shape_ok dom mesh_scale inside qual os st st',
  wf st -> vertices_in front_scale st -> Forall (op_in front_scale) os ->
  simple_front (ms_pos st) (ms_front st) -> front_in_mesh st -> generated st = [] ->
  no_ghosts st -> ms_intr st = [] -> ms_area st == 0 -> (forall e, In e (ms_front st) -> interior e = false) ->
  frun mesh_scale (triangle_is_valid rho shape_ok dom) (vertex_is_valid rho inside) qual st os = Ok st' ->
  exact_vertices st' -> found (near rho) (ms_front st) st' -> ms_front st' = [] ->
  tri_areas (ms_pos st') (generated st') == enclosed (ms_pos st) (ms_front st) /\
  ms_area st' == enclosed (ms_pos st) (ms_front st) /\
  forall p q, p <> q ->
    (In (p, q) (ends (ms_front st)) ->
       uses p q (sides (generated st')) = 1%nat /\ uses q p (sides (generated st')) = 0%nat /\ uses_any p q (ms_intr st') = 0%nat) /\
    (~ In (p, q) (ends (ms_front st)) -> ~ In (q, p) (ends (ms_front st)) ->
       uses p q (sides (generated st')) = uses q p (sides (generated st')) /\
       (uses p q (sides (generated st')) <= 1)%nat /\ uses_any p q (ms_intr st') = uses p q (sides (generated st'))).
Proof.
  intros rho shape_ok dom mesh_scale inside qual os st st' W V O S I G NG NI A0 IN H EX FO F.
  destruct (history_simple rho shape_ok dom mesh_scale inside qual st st' os W V O S I H EX FO) as [S' X].
  destruct (C24_covered_partial _ _ _ _ os st st' W V O X H G A0 F) as [AR1 AR2]. split; [exact AR1|]. split; [exact AR2|].
  destruct (C57_elements_partial rho shape_ok dom mesh_scale inside qual os st st' W V O S I G H EX FO) as (_ & _ & _ & ONCE).
  intros p q N.
  assert (C := C25_cancel_partial _ _ _ _ os st st' p q W V O X H G F).
  assert (B := C25_edge_balance_partial _ _ _ _ os st st' p q W V NG O H).
  rewrite NI, G, F in B. rewrite (filter_none interior (ms_front st)), (filter_all (fun e => negb (interior e)) (ms_front st)) in B by (intros e K; rewrite (IN e K); reflexivity).
  change (sides []) with (@nil (nat * nat)) in B. cbn [filter ends map] in B. change (uses_any p q []) with 0%nat in B.
  rewrite !(uses_any_split p q) in B by exact N. rewrite (uses_any_split p q (ms_intr st')) by exact N.
  assert (O1 := ONCE p q). assert (O2 := ONCE q p).
  assert (U : forall a b, (uses a b (ends (ms_front st)) <= 1)%nat /\ (In (a, b) (ends (ms_front st)) -> a <> b -> uses b a (ends (ms_front st)) = 0%nat)).
  { intros a b. assert (PAIR : forall e f, In e (ms_front st) -> In f (ms_front st) -> be_id e <> be_id f ->
      ~ same_ends (ms_pos st (be_v1 e)) (ms_pos st (be_v2 e)) (ms_pos st (be_v1 f)) (ms_pos st (be_v2 f))).
    { intros e f Ie If Nef SE. destruct SE as [(E1 & E2)|(E1 & E2)].
      - destruct (sf_ends _ _ S e f Ie If Nef (1 # 2) (1 # 2)) as [[Q|Q] _]; try lra. cbn [seg fst snd]. apply on_seg_veq; assumption.
      - destruct (sf_ends _ _ S e f Ie If Nef (1 # 2) (1 # 2)) as [[Q|Q] _]; try lra. cbn [seg fst snd]. destruct E1 as [X1 Y1], E2 as [X2 Y2].
        unfold veq, on_seg. cbn [vx vy]. rewrite X1, X2, Y1, Y2. split; ring. }
    assert (ND := sf_ids _ _ S). split.
    - clear - PAIR ND. assert (P2 : forall e f, In e (ms_front st) -> In f (ms_front st) -> be_v1 e = be_v1 f -> be_v2 e = be_v2 f -> be_id e = be_id f).
      { intros e f Ie If E1 E2. destruct (Nat.eq_dec (be_id e) (be_id f)) as [Q|Q]; [exact Q|exfalso]. apply (PAIR e f Ie If Q). left. rewrite E1, E2. split; split; reflexivity. }
      clear PAIR. induction (ms_front st) as [|e l IH]; [cbn; lia|]. cbn [ends map]. fold (ends l). rewrite uses_cons. inversion ND as [|? ? ND1 ND2]; subst.
      assert (IH' : (uses a b (ends l) <= 1)%nat) by (apply IH; [exact ND2|intros; apply P2; try (right; assumption); assumption]).
      destruct (Nat.eqb_spec (be_v1 e) a), (Nat.eqb_spec (be_v2 e) b); cbn [andb]; try lia.
      destruct (Nat.eq_dec (uses a b (ends l)) 0) as [Z|Z]; [lia|exfalso]. apply uses_some in Z. unfold ends in Z. apply in_map_iff in Z. destruct Z as (f & E & If). injection E as E1 E2.
      apply ND1. rewrite (P2 e f (or_introl eq_refl) (or_intror If)) by congruence. apply in_map, If.
    - intros K NAB. unfold ends in K. apply in_map_iff in K. destruct K as (e & E & Ie). injection E as E1 E2. apply uses_zero. intros K.
      unfold ends in K. apply in_map_iff in K. destruct K as (f & E & If). injection E as E3 E4.
      destruct (Nat.eq_dec (be_id e) (be_id f)) as [Q|Q].
      + assert (e = f) by exact (id_inj _ _ _ ND Ie If Q). congruence.
      + apply (PAIR e f Ie If Q). right. rewrite E1, E2, E3, E4. split; split; reflexivity. }
  split.
  - intros K. destruct (U p q) as [U1 U2]. assert (Z := U2 K N). apply uses_in in K.
    assert (E1 : uses p q (ends (ms_front st)) = 1%nat) by lia. rewrite E1, Z in *. lia.
  - intros K1 K2. apply uses_zero in K1. apply uses_zero in K2. rewrite K1, K2 in *. lia.
Qed.

(* ---------- from the domain boundary to the mesh ---------- *)
(* The loops of generate_elements on the initial front of a domain whose boundary
   edges (replaced by the edges of neighbour meshes where there are any) are simple
   curves, with refinement vertices strictly inside of the edges.  Whether the
   generation succeeds or not: the elements do not overlap and lie in the domain. *)
Theorem C57_domain_partial : forall bounds fixed meshes sub loose col rho shape_ok dom mesh_scale inside qual newpos query fuel n st' r c,
  simple_curves (map fst (flat_map (wanted meshes) bounds)) ->
  closed_curves (map de_ends bounds) ->
  (forall e, In e bounds -> neighbours meshes e <> [] -> covered e (neighbours meshes e)) ->
  (forall e, In e bounds -> de_fix e = false) -> (forall e, In e fixed -> de_fix e = true) ->
  (forall e, In e (concat meshes) -> de_fix e = false) ->
  (forall e, In e (bounds ++ fixed ++ concat meshes) -> veqb (de_a e) (de_b e) = false /\
     in_square front_scale (de_a e) = true /\ in_square front_scale (de_b e) = true) ->
  (forall a b, Forall (on_line a b) (sub a b)) -> (forall a b, ~ veq a b -> strictly_inside a b (sub a b)) ->
  (forall a b p, In p (sub a b) -> in_square front_scale a = true -> in_square front_scale b = true ->
     in_square front_scale p = true) ->
  (forall p, In p loose -> in_square front_scale p = true) ->
  (forall s e, in_square front_scale (newpos s e) = true) -> (0 < n < 2 ^ 31)%Z ->
  let st := prepared sub (collect_front_edges bounds fixed meshes) loose col in
  generate mesh_scale (triangle_is_valid rho shape_ok dom) (vertex_is_valid rho inside) qual newpos query fuel n st = Some (Ok (st', r, c)) ->
  exact_vertices st' -> found (near rho) (ms_front st) st' -> ms_front st <> [] ->
  simple_front (ms_pos st') (ms_front st') /\
  (forall i j t u p, nth_error (generated st') i = Some t -> nth_error (generated st') j = Some u ->
     inside_shape (ms_pos st') (tri_shape t) p -> inside_shape (ms_pos st') (tri_shape u) p -> i = j) /\
  (forall t p, In t (generated st') -> inside_shape (ms_pos st') (tri_shape t) p -> domain_region bounds meshes p == 1) /\
  (ms_front st' = [] ->
     (forall p, domain_region bounds meshes p == 1 -> exists t, In t (generated st') /\ in_closure (ms_pos st') (tri_shape t) p) /\
     (forall p q, p <> q ->
        (In (p, q) (ends (ms_front st)) ->
           uses p q (sides (generated st')) = 1%nat /\ uses q p (sides (generated st')) = 0%nat /\ uses_any p q (ms_intr st') = 0%nat) /\
        (~ In (p, q) (ends (ms_front st)) -> ~ In (q, p) (ends (ms_front st)) ->
           uses p q (sides (generated st')) = uses q p (sides (generated st')) /\
           (uses p q (sides (generated st')) <= 1)%nat /\ uses_any p q (ms_intr st') = uses p q (sides (generated st'))))).
Proof.
  intros bounds fixed meshes sub loose col rho shape_ok dom mesh_scale inside qual newpos query fuel n st' r c
    SC CC CV HB HF HM HE HL HI HS HO NP Hn st GE EX FO NE.
  destruct (C21_start_partial bounds fixed meshes sub loose col CC CV HB HF HM HE HS HO) as (W & _ & V & NG & G & NI & A0 & IN & _). fold st in W, V, NG, G, NI, A0, IN.
  destruct (start_simple bounds fixed meshes sub loose col SC HB HF HM HE HL HI) as (S & FM). fold st in S, FM.
  destruct (C27_success_partial mesh_scale _ _ qual newpos query fuel n st _ W NE Hn GE) as (st1 & r1 & c1 & os & E & _ & R & O & _).
  injection E as <- <- <-. specialize (O _ NP).
  assert (REG : forall p, front_region st p == domain_region bounds meshes p).
  { intros p. pose proof (initial_winding p bounds fixed meshes sub loose col HB HF HM HE HL) as IW. cbv zeta in IW. fold st in IW. rewrite front_region_ends, IW. reflexivity. }
  destruct (C57_history_partial rho shape_ok dom mesh_scale inside qual os st st' W V O S FM R EX FO) as [S' _].
  destruct (C57_elements_partial rho shape_ok dom mesh_scale inside qual os st st' W V O S FM G R EX FO) as (D & L & C & _).
  split; [exact S'|]. split; [exact D|]. split; [|intros F; split].
  - intros t p It Ip. rewrite <- REG. apply (L t p It Ip).
  - intros p P. apply C; [rewrite REG; exact P|]. unfold front_region, front_segments. rewrite F. reflexivity.
  - refine (proj2 (proj2 (C57_conform_partial rho shape_ok dom mesh_scale inside qual os st st' W V O S FM G NG NI A0 _ R EX FO F))).
    intros e K. destruct (interior e) eqn:Q; [|reflexivity]. exfalso. assert (X : In e (filter interior (ms_front st))) by (apply filter_In; split; assumption). rewrite IN in X. exact X.
Qed.

(* ---------- the boundaries of a domain ---------- *)
From Verif Require Import InsideSpec BdryProps WindInside WindInsideProps PolySpec PolyMain PolyProps ClearDomain.

(* Simple polygons without common points, the interior ones inside of the exterior
   one and not inside of each other, where one corner of each decides: the winding
   number of all edges is 0 or 1 everywhere, and 1 exactly where the exterior boundary
   goes around the point and no interior one does. *)
Theorem C57_nested : forall bs, proper_domain bs ->
  (forall p, winding p (domain_segments bs) == 0 \/ winding p (domain_segments bs) == 1) /\
  (forall p, winding p (domain_segments bs) == 1 <->
     (forall b, In b bs -> match bd_type b with EXTERIOR => winding p (bd_edges b) == 1 | INTERIOR => winding p (bd_edges b) == 0 end)).
Proof.
  intros bs PD. split; [intros p; exact (proper_winding bs p PD)|]. intros p. destruct (pd_exterior _ PD) as (l1 & e & l2 & E & T & N).
  assert (P : Permutation bs (e :: l1 ++ l2)) by (rewrite E; apply Permutation_sym, Permutation_middle).
  assert (W : winding p (domain_segments bs) == winding p (bd_edges e) + winding p (domain_segments (l1 ++ l2))).
  { rewrite (segments_perm _ _ p P). cbn [domain_segments flat_map]. rewrite winding_app. reflexivity. }
  assert (SE : simple_boundary e) by (apply (pd_simple _ PD); apply (Permutation_in _ (Permutation_sym P)); left; reflexivity).
  assert (WE := simple_boundary_winding e p SE). rewrite T in WE. cbn [turning] in WE.
  assert (SH : forall b, In b (l1 ++ l2) -> bd_type b = INTERIOR /\ simple_boundary b).
  { intros b I. split; [apply N, I|]. apply (pd_simple _ PD). apply (Permutation_in _ (Permutation_sym P)). right. exact I. }
  rewrite W. split.
  - intros A b I. apply (Permutation_in _ P) in I.
    assert (Z : winding p (bd_edges e) == 1 /\ winding p (domain_segments (l1 ++ l2)) == 0) by (destruct (holes_winding (l1 ++ l2) p SH), WE; lra).
    destruct Z as [Z1 Z2]. destruct I as [<-|I]; [rewrite T; exact Z1|]. rewrite (proj1 (SH b I)). clear - Z2 SH I.
    assert (G : forall hs, (forall b, In b hs -> bd_type b = INTERIOR /\ simple_boundary b) -> winding p (domain_segments hs) == 0 -> In b hs -> winding p (bd_edges b) == 0);
      [|exact (G _ SH Z2 I)].
    clear. intros hs. induction hs as [|c hs IH]; intros H Z I; [destruct I|]. cbn [domain_segments flat_map] in Z. rewrite winding_app in Z. fold (domain_segments hs) in Z.
    destruct (H c (or_introl eq_refl)) as [TC SC]. assert (WC := simple_boundary_winding c p SC). rewrite TC in WC. cbn [turning] in WC.
    destruct (holes_winding hs p (fun d J => H d (or_intror J))) as [Y|Y]; (destruct WC as [WC|WC]; [|exfalso; lra]).
    + destruct I as [<-|I]; [exact WC|]. apply IH; [intros d J; apply H; right; exact J|exact Y|exact I].
    + exfalso. lra.
  - intros A. assert (Z : winding p (domain_segments (l1 ++ l2)) == 0).
    { assert (B : forall b, In b (l1 ++ l2) -> winding p (bd_edges b) == 0).
      { intros b I. assert (X := A b (Permutation_in _ (Permutation_sym P) (or_intror I))). rewrite (N b I) in X. exact X. }
      clear - B. induction (l1 ++ l2) as [|c hs IH]; [reflexivity|]. cbn [domain_segments flat_map]. rewrite winding_app. fold (domain_segments hs).
      rewrite (B c (or_introl eq_refl)), IH; [ring|]. intros b I. apply B. right. exact I. }
    assert (X := A e (Permutation_in _ (Permutation_sym P) (or_introl eq_refl))). rewrite T in X. rewrite Z, X. ring.
Qed.

(* Meshes of such domains: C56_mesh_partial without its assumption on the accepted
   triangles, and also for runs that fail or stop early. *)
Theorem C57_mesh_partial : forall bs bounds fixed sub loose col rho shape_ok dom mesh_scale inside qual newpos query fuel n st' r c,
  proper_domain bs -> map de_ends bounds = domain_segments bs ->
  (forall e, In e bounds -> de_fix e = false) -> (forall e, In e fixed -> de_fix e = true) ->
  (forall e, In e (bounds ++ fixed) -> veqb (de_a e) (de_b e) = false /\
     in_square front_scale (de_a e) = true /\ in_square front_scale (de_b e) = true) ->
  (forall a b, Forall (on_line a b) (sub a b)) -> (forall a b, ~ veq a b -> strictly_inside a b (sub a b)) ->
  (forall a b p, In p (sub a b) -> in_square front_scale a = true -> in_square front_scale b = true ->
     in_square front_scale p = true) ->
  (forall p, In p loose -> in_square front_scale p = true) ->
  (forall s e, in_square front_scale (newpos s e) = true) -> (0 < n < 2 ^ 31)%Z ->
  let st := prepared sub (collect_front_edges bounds fixed []) loose col in
  generate mesh_scale (triangle_is_valid rho shape_ok dom) (vertex_is_valid rho inside) qual newpos query fuel n st = Some (Ok (st', r, c)) ->
  exact_vertices st' -> found (near rho) (ms_front st) st' -> ms_front st <> [] ->
  let ss := map tri_shape (generated st') in
  (forall i j s t p, nth_error ss i = Some s -> nth_error ss j = Some t ->
     inside_shape (ms_pos st') s p -> inside_shape (ms_pos st') t p -> i = j) /\
  (forall o, (forall b, In b bs -> clear_of o (bd_edges b)) ->
     (forall s, In s ss -> inside_shape (ms_pos st') s o -> domain_inside bs o = true) /\
     (ms_front st' = [] -> domain_inside bs o = true -> exists s, In s ss /\ in_closure (ms_pos st') s o)).
Proof.
  intros bs bounds fixed sub loose col rho shape_ok dom mesh_scale inside qual newpos query fuel n st' r c
    PD E HB HF HE HL HI HS HO NP Hn st GE EX FO NE ss.
  assert (WN : map fst (flat_map (wanted []) bounds) = domain_segments bs).
  { rewrite <- E. clear. induction bounds as [|e l IH]; [reflexivity|]. cbn [flat_map map]. rewrite <- IH. reflexivity. }
  destruct (C57_domain_partial bounds fixed [] sub loose col rho shape_ok dom mesh_scale inside qual newpos query fuel n st' r c) as (_ & D & L & C); try assumption.
  - rewrite WN. apply domain_curves, PD.
  - rewrite E. apply PolyProps.closed_balanced, domain_balanced, (pd_simple _ PD).
  - intros e _ N. exfalso. apply N. reflexivity.
  - intros e [].
  - intros e. cbn [concat]. rewrite app_nil_r. apply HE.
  - destruct (C56_domain bs (pd_exterior _ PD) (pd_simple _ PD)) as [_ IN]. split.
    + intros i j s t p Hi Hj Is It. unfold ss in Hi, Hj. rewrite nth_error_map in Hi, Hj.
      destruct (nth_error (generated st') i) as [a|] eqn:Ei; [|discriminate]. destruct (nth_error (generated st') j) as [b|] eqn:Ej; [|discriminate].
      injection Hi as <-. injection Hj as <-. exact (D i j a b p Ei Ej Is It).
    + intros o CL. specialize (IN o CL). split.
      * intros s Is Io. apply in_map_iff in Is. destruct Is as (t & <- & It). apply IN. rewrite <- E, <- domain_region_alone. apply (L t o It Io).
      * intros F IO. destruct (C F) as [CV _]. destruct (CV o) as (t & It & Ct); [rewrite domain_region_alone, E; apply IN, IO|].
        exists (tri_shape t). split; [apply in_map, It|exact Ct].
Qed.

(* The second condition holds when the segments are short, compared to the size
   function at the elements they meet: at most 12/7 of it. *)
Theorem C57_short_partial : forall rho shape_ok dom mesh_scale inside qual os st st',
  wf st -> generated st = [] -> (forall x, 0 < rho x) ->
  frun mesh_scale (triangle_is_valid rho shape_ok dom) (vertex_is_valid rho inside) qual st os = Ok st' ->
  (forall t a b, In t (generated st') -> known (ms_front st) (generated st') a b ->
    (exists s, 0 <= s <= 1 /\ touching (on_seg (ms_pos st' a) (ms_pos st' b) s) (ms_pos st' (tr_v1 t)) (ms_pos st' (tr_v2 t)) (ms_pos st' (tr_v3 t))) ->
    vnorm2 (vsub (ms_pos st' b) (ms_pos st' a)) <= ((12 # 7) * rho (tri_loc (ms_pos st') t)) * ((12 # 7) * rho (tri_loc (ms_pos st') t))) ->
  found (near rho) (ms_front st) st'.
Proof.
  intros rho shape_ok dom mesh_scale inside qual os st st' W G R H L. apply short_found; [exact R| |exact L].
  intros t It. exact (C24_positive rho shape_ok dom mesh_scale inside qual os st st' W G H t It).
Qed.

(* ---------- cases ---------- *)
Definition sharpb (x : Q) : bool := Qeq_bool x 0 || Qle_bool tol26 x || Qle_bool x (- tol26).
Lemma sharpb_sound x : sharpb x = true -> sharp x.
Proof.
  unfold sharpb, sharp. rewrite !orb_true_iff. intros [[H|H]|H]; [left; apply Qeq_bool_iff|right; left; apply Qle_bool_iff|right; right; apply Qle_bool_iff]; exact H.
Qed.
Definition exactb (st : mstate) : bool :=
  forallb (fun a => forallb (fun b => forallb (fun c => sharpb (det (ms_pos st a) (ms_pos st b) (ms_pos st c))) (ms_verts st)) (ms_verts st)) (ms_verts st).
Lemma exactb_sound st : exactb st = true -> exact_vertices st.
Proof.
  intros H a b c A B C. unfold exactb in H. rewrite forallb_forall in H. specialize (H a A). rewrite forallb_forall in H. specialize (H b B).
  rewrite forallb_forall in H. apply sharpb_sound, (H c C).
Qed.
(* all segments in the range, whether they meet the element or not *)
Definition foundb (rho : vec2 -> Q) (f0 : list bedge) (st : mstate) : bool :=
  forallb (fun t => forallb (fun e => AdvanceModel.within (tri_loc (ms_pos st) t) (search2 rho (ms_pos st) t)
      (vscale (1 # 2) (vadd (ms_pos st (fst e)) (ms_pos st (snd e)))) &&
    AdvanceModel.within (tri_loc (ms_pos st) t) (search2 rho (ms_pos st) t)
      (vscale (1 # 2) (vadd (ms_pos st (snd e)) (ms_pos st (fst e))))) (ends f0 ++ sides (generated st))) (generated st).
Lemma foundb_sound rho f0 st : foundb rho f0 st = true -> found (near rho) f0 st.
Proof.
  intros H t a b T K _. unfold foundb in H. rewrite forallb_forall in H. specialize (H t T). rewrite forallb_forall in H. unfold near.
  destruct K as [K|[K|K]].
  - assert (X := H (a, b) ltac:(apply in_or_app; left; exact K)). apply andb_true_iff in X. apply X.
  - assert (X := H (a, b) ltac:(apply in_or_app; right; exact K)). apply andb_true_iff in X. apply X.
  - assert (X := H (b, a) ltac:(apply in_or_app; right; exact K)). apply andb_true_iff in X. apply X.
Qed.
Lemma apart_checked e f s t : pair_okb e f = true -> 0 <= s <= 1 -> 0 <= t <= 1 -> ~ veq (on_seg (fst e) (snd e) s) (on_seg (fst f) (snd f) t).
Proof.
  intros H. apply apart_disjoint. unfold pair_okb in H. rewrite !orb_true_iff, !andb_true_iff, !Qltb_true in H. unfold strictly_apart. tauto.
Qed.
Definition separateb (es fs : list (vec2 * vec2)) : bool := forallb (fun e => forallb (pair_okb e) fs) es.
Lemma separateb_sound es fs : separateb es fs = true -> separate es fs.
Proof.
  intros H e f s t I J. unfold separateb in H. rewrite forallb_forall in H. specialize (H e I). rewrite forallb_forall in H.
  apply apart_checked, (H f J).
Qed.
(* one simple polygon *)
Lemma alone_proper l sp : simple_polygon l -> 0 < signed_area l -> proper_domain [Bd EXTERIOR (ring_edges l) sp].
Proof.
  intros S A. constructor.
  - exists [], (Bd EXTERIOR (ring_edges l) sp), []. split; [reflexivity|]. split; [reflexivity|]. intros b [].
  - intros b [<-|[]]. exists l. split; [reflexivity|]. split; assumption.
  - repeat constructor.
  - intros b c [<-|[]] _ T. discriminate.
  - repeat constructor.
Qed.

(* A deep slot from the left, narrow but not degenerate.  The midpoints of its two
   long sides are far from the triangle above the edge (0,0)-(1,0) with its tip in
   the vertex beyond the slot: no test finds them, and the triangle is accepted
   although it crosses the slot. *)
Definition slot_pts : list vec2 := [V2 0 0; V2 1 0; V2 60 (-1); V2 60 2; V2 (1 # 2) 1; V2 (-40) 2; V2 (-40) (3 # 5); V2 50 (1 # 2); V2 (-40) (1 # 2); V2 (-40) (-1)].
Definition slot_domain : list boundary := [Bd EXTERIOR (ring_edges slot_pts) (1 # 2)].
Definition slot_bounds : list dedge := map (fun e => DE (fst e) (snd e) 1%Z false) (ring_edges slot_pts).
Definition slot_start : mstate := prepared no_sub (collect_front_edges slot_bounds [] []) [] 1%Z.
Notation slot_run := (frun 126 (triangle_is_valid (fun _ => 1 # 2) no_shape (ring_edges slot_pts)) (vertex_is_valid (fun _ => 1 # 2) (fun _ => true)) (fun _ _ => 0)
  slot_start [FUpdate 0 (V2 (1 # 2) (9 # 10)) [4%nat]]).
Definition slot_end : mstate := match slot_run with Ok s => s | _ => slot_start end.
Lemma slot_proper : proper_domain slot_domain.
Proof. apply alone_proper; [apply simpleb_sound|]; vm_compute; reflexivity. Qed.


(* The full statement, for all histories with the tests of the code, is FALSE. *)
Theorem C57_refuted : exists bs bounds rho dom mesh_scale inside os st',
  let st := prepared no_sub (collect_front_edges bounds [] []) [] 1%Z in
  proper_domain bs /\ map de_ends bounds = domain_segments bs /\ (forall x, 0 < rho x) /\
  wf st /\ vertices_in front_scale st /\ Forall (op_in front_scale) os /\ simple_front (ms_pos st) (ms_front st) /\ front_in_mesh st /\
  frun mesh_scale (triangle_is_valid rho no_shape dom) (vertex_is_valid rho inside) (fun _ _ => 0) st os = Ok st' /\ exact_vertices st' /\
  ~ simple_front (ms_pos st') (ms_front st') /\
  exists t p, In t (generated st') /\ inside_shape (ms_pos st') (tri_shape t) p /\ winding p (domain_segments bs) == 0.
Proof.
  exists slot_domain, slot_bounds, (fun _ => 1 # 2), (ring_edges slot_pts), 126, (fun _ => true), [FUpdate 0 (V2 (1 # 2) (9 # 10)) [4%nat]], slot_end.
  cbv zeta. fold slot_start. split; [exact slot_proper|]. assert (E : map de_ends slot_bounds = domain_segments slot_domain) by reflexivity. split; [exact E|].
  split; [intros x; reflexivity|].
  assert (HE : forall e, In e (slot_bounds ++ [] ++ concat []) -> veqb (de_a e) (de_b e) = false /\ in_square front_scale (de_a e) = true /\ in_square front_scale (de_b e) = true).
  { intros e H. cbn in H. repeat (destruct H as [<-|H]; [split; [|split]; vm_compute; reflexivity|]). destruct H. }
  assert (HB : forall e, In e slot_bounds -> de_fix e = false) by (intros e I; unfold slot_bounds in I; apply in_map_iff in I; destruct I as (x & <- & _); reflexivity).
  destruct (C21_start_partial slot_bounds [] [] no_sub [] 1%Z) as (W & _ & V & _); try assumption; try (intros ? []; fail); try (intros ? ? ? []; fail).
  { rewrite E. apply PolyProps.closed_balanced, domain_balanced, (pd_simple _ slot_proper). }
  { intros e _ N. exfalso. apply N. reflexivity. }
  fold slot_start in W, V.
  destruct (start_simple slot_bounds [] [] no_sub [] 1%Z) as (S & FM); try assumption; try (intros ? []; fail).
  { exact (domain_curves _ slot_proper). }
  { intros a b. constructor. }
  { intros a b _. exists []. split; [cbn; lra|constructor]. }
  fold slot_start in S, FM. split; [exact W|]. split; [exact V|]. split; [repeat constructor|]. split; [exact S|]. split; [exact FM|].
  split; [vm_compute; reflexivity|]. split; [apply exactb_sound; vm_compute; reflexivity|]. split.
  - intros SF. destruct (sf_ends _ _ SF (BE 10 0 4 (-1) 0) (BE 7 7 8 1 1)) with (s := 1 # 2) (t := 199 # 360) as [[Q|Q] _]; try (cbv in Q; discriminate).
    + vm_compute. tauto.
    + vm_compute. tauto.
    + discriminate.
    + split; discriminate.
    + split; discriminate.
    + split; vm_compute; reflexivity.
  - exists (TR 0 0 1 4 true 1), (V2 (1 # 2) (11 # 20)). split; [vm_compute; tauto|]. split; [|vm_compute; reflexivity].
    repeat split; vm_compute; reflexivity.
Qed.

(* a square frame, from its two boundaries to the finished mesh *)
Definition frame_out : list vec2 := [V2 0 0; V2 3 0; V2 3 3; V2 0 3].
Definition frame_in : list vec2 := [V2 1 1; V2 1 2; V2 2 2; V2 2 1].
Definition frame2 : list boundary := [Bd EXTERIOR (ring_edges frame_out) 1; Bd INTERIOR (ring_edges frame_in) 1].
Definition frame_bounds : list dedge := map (fun e => DE (fst e) (snd e) 1%Z false) (domain_segments frame2).
Definition frame_start : mstate := prepared no_sub (collect_front_edges frame_bounds [] []) [] 1%Z.
Notation frame_run := (generate 7 (triangle_is_valid (fun _ => 2) no_shape (domain_segments frame2)) (vertex_is_valid (fun _ => 2) (fun _ => true)) (fun _ _ => 0)
  (fun _ _ => V2 (1 # 2) (1 # 2)) (fun _ _ _ => [0; 1; 2; 3; 4; 5; 6; 7]%nat) 100 20 frame_start).

Lemma frame_proper : proper_domain frame2.
Proof.
  assert (S1 : simple_polygon frame_out) by (apply simpleb_sound; vm_compute; reflexivity).
  assert (S2 : simple_polygon frame_in) by (apply simpleb_sound; vm_compute; reflexivity).
  constructor.
  - exists [], (Bd EXTERIOR (ring_edges frame_out) 1), [Bd INTERIOR (ring_edges frame_in) 1]. split; [reflexivity|]. split; [reflexivity|]. intros b [<-|[]]. reflexivity.
  - intros b [<-|[<-|[]]]; [exists frame_out|exists frame_in]; (split; [reflexivity|split; [assumption|vm_compute; reflexivity]]).
  - repeat constructor. apply separateb_sound. vm_compute. reflexivity.
  - intros b c [<-|[<-|[]]] [<-|[<-|[]]] Tb Tc; try discriminate. exists (V2 1 1, V2 1 2). split; [vm_compute; tauto|vm_compute; discriminate].
  - repeat constructor; discriminate.
Qed.
Example C57_frame_case : proper_domain frame2 /\ map de_ends frame_bounds = domain_segments frame2 /\
  wf frame_start /\ vertices_in front_scale frame_start /\ simple_front (ms_pos frame_start) (ms_front frame_start) /\
  front_in_mesh frame_start /\ ms_front frame_start <> [] /\
  (exists st', frame_run = Some (Ok (st', true, 8%nat)) /\ ms_front st' = [] /\ length (generated st') = 8%nat /\
    exact_vertices st' /\ found (near (fun _ => 2)) (ms_front frame_start) st' /\
    (forall i j s t p, nth_error (map tri_shape (generated st')) i = Some s -> nth_error (map tri_shape (generated st')) j = Some t ->
       inside_shape (ms_pos st') s p -> inside_shape (ms_pos st') t p -> i = j) /\
    (forall o, (forall b, In b frame2 -> clear_of o (bd_edges b)) -> domain_inside frame2 o = true ->
       exists s, In s (map tri_shape (generated st')) /\ in_closure (ms_pos st') s o)) /\
  domain_inside frame2 (V2 (1 # 2) (5 # 4)) = true /\ domain_inside frame2 (V2 (3 # 2) (5 # 4)) = false.
Proof.
  split; [exact frame_proper|]. assert (E : map de_ends frame_bounds = domain_segments frame2) by reflexivity. split; [exact E|].
  assert (HE : forall e, In e (frame_bounds ++ [] ++ concat []) -> veqb (de_a e) (de_b e) = false /\ in_square front_scale (de_a e) = true /\ in_square front_scale (de_b e) = true).
  { intros e H. cbn in H. repeat (destruct H as [<-|H]; [split; [|split]; vm_compute; reflexivity|]). destruct H. }
  assert (HB : forall e, In e frame_bounds -> de_fix e = false) by (intros e I; unfold frame_bounds in I; apply in_map_iff in I; destruct I as (x & <- & _); reflexivity).
  assert (HI : forall a b, ~ veq a b -> strictly_inside a b (no_sub a b)) by (intros a b _; exists []; split; [cbn; lra|constructor]).
  assert (HL : forall a b, Forall (on_line a b) (no_sub a b)) by (intros a b; constructor).
  destruct (C21_start_partial frame_bounds [] [] no_sub [] 1%Z) as (W & _ & V & _); try assumption; try (intros ? []; fail); try (intros ? ? ? []; fail).
  { rewrite E. apply PolyProps.closed_balanced, domain_balanced, (pd_simple _ frame_proper). }
  { intros e _ N. exfalso. apply N. reflexivity. }
  fold frame_start in W, V.
  destruct (start_simple frame_bounds [] [] no_sub [] 1%Z) as (S & FM); try assumption; try (intros ? []; fail).
  { exact (domain_curves _ frame_proper). }
  fold frame_start in S, FM. split; [exact W|]. split; [exact V|]. split; [exact S|]. split; [exact FM|].
  assert (NE : ms_front frame_start <> []) by (vm_compute; discriminate). split; [exact NE|].
  split; [|split; vm_compute; reflexivity].
  assert (X : match frame_run with
    | Some (Ok (s, r, c)) => exactb s && foundb (fun _ => 2) (ms_front frame_start) s && Nat.eqb (length (generated s)) 8 && r && Nat.eqb c 8 &&
        (match ms_front s with [] => true | _ => false end) = true
    | _ => False end) by (vm_compute; reflexivity).
  destruct frame_run as [[[[s r] c]| |]|] eqn:G; try contradiction. rewrite !andb_true_iff in X. destruct X as (((((X1 & X2) & X3) & X4) & X5) & X6).
  apply Nat.eqb_eq in X3. apply Nat.eqb_eq in X5. subst r c. exists s. split; [reflexivity|].
  assert (F : ms_front s = []) by (destruct (ms_front s); [reflexivity|discriminate]). split; [exact F|]. split; [exact X3|].
  apply exactb_sound in X1. apply foundb_sound in X2. split; [exact X1|]. split; [exact X2|].
  destruct (C57_mesh_partial frame2 frame_bounds [] no_sub [] 1%Z (fun _ => 2) no_shape (domain_segments frame2) 7 (fun _ => true) (fun _ _ => 0)
    (fun _ _ => V2 (1 # 2) (1 # 2)) (fun _ _ _ => [0; 1; 2; 3; 4; 5; 6; 7]%nat) 100%nat 20%Z s true 8%nat frame_proper E HB) as (D & C); try assumption;
    try (intros ? []; fail); try (intros ? ? ? []; fail); try reflexivity; [split; reflexivity|]. split; [exact D|]. intros o CL IO. apply (C o CL); assumption.
Qed.

(* the square of C23_case with a history of steps *)
Example C57_square_case : wf sq /\ vertices_in front_scale sq /\ Forall (op_in front_scale) sq_ops /\ simple_front (ms_pos sq) (ms_front sq) /\
  front_in_mesh sq /\ generated sq = [] /\ no_ghosts sq /\ ms_intr sq = [] /\ ms_area sq == 0 /\ (forall e, In e (ms_front sq) -> interior e = false) /\
  sq_run = Ok sq_end /\ exact_vertices sq_end /\ found (near (fun _ => 2)) (ms_front sq) sq_end /\ ms_front sq_end = [] /\
  uses 0 2 (sides (generated sq_end)) = 1%nat /\ uses 2 0 (sides (generated sq_end)) = 1%nat.
Proof.
  split; [exact sq_wf|]. split; [exact sq_square|]. split; [exact sq_ops_in|]. split.
  { assert (SC := domain_curves _ (alone_proper sq_pts 1 ltac:(apply simpleb_sound; vm_compute; reflexivity) ltac:(vm_compute; reflexivity))). constructor.
    - cbn. repeat constructor; cbn; intuition lia.
    - intros e I. cbn in I. repeat (destruct I as [<-|I]; [cbn; lia|]). destruct I.
    - exact sq_closed.
    - intros u v (e & I & A) (f & J & B). cbn in I, J.
      repeat (destruct I as [<-|I]; [cbn in A|]); [| | | |destruct I]; (repeat (destruct J as [<-|J]; [cbn in B|]); [| | | |destruct J]);
        destruct A as [<-|<-], B as [<-|<-]; intros [X Y]; vm_compute in X, Y; first [reflexivity|discriminate].
    - assert (SE := sc_ends _ SC). intros e f I J N.
      assert (G : forall a b, In a (ms_front sq) -> In (seg (ms_pos sq) a) (domain_segments [Bd EXTERIOR (ring_edges sq_pts) 1]) /\
        (In b (ms_front sq) -> seg (ms_pos sq) a = seg (ms_pos sq) b -> be_id a = be_id b)).
      { intros a b Ia. split; [cbn in Ia |- *; repeat (destruct Ia as [<-|Ia]; [unfold seg; cbn; tauto|]); destruct Ia|]. intros Ib E. cbn in Ia, Ib.
        repeat (destruct Ia as [<-|Ia]; [|]); [| | | |destruct Ia]; (repeat (destruct Ib as [<-|Ib]; [|]); [| | | |destruct Ib]); first [reflexivity|vm_compute in E; discriminate]. }
      destruct (ForallOrdPairs_In SE _ _ (proj1 (G e f I)) (proj1 (G f e J))) as [Q|[Q|Q]].
      + exfalso. apply N. apply (G e f I); assumption.
      + exact Q.
      + apply ends_only_sym. exact Q.
    - intros z. exact (sc_region _ SC z). }
  split; [intros e I; cbn in I |- *; repeat (destruct I as [<-|I]; [cbn; tauto|]); destruct I|]. split; [reflexivity|]. split; [exact sq_no_ghosts|].
  split; [reflexivity|]. split; [reflexivity|]. split; [intros e I; cbn in I; repeat (destruct I as [<-|I]; [reflexivity|]); destruct I|].
  split; [apply sq_ends|]. split; [apply exactb_sound; vm_compute; reflexivity|]. split; [apply foundb_sound; vm_compute; reflexivity|].
  split; [apply sq_ends|]. split; vm_compute; reflexivity.
Qed.
Example C57_short_case : wf sq /\ generated sq = [] /\ sq_run = Ok sq_end /\ length (generated sq_end) = 2%nat /\
  (forall t a b, In t (generated sq_end) -> known (ms_front sq) (generated sq_end) a b ->
    vnorm2 (vsub (ms_pos sq_end b) (ms_pos sq_end a)) <= ((12 # 7) * 2) * ((12 # 7) * 2)).
Proof.
  split; [exact sq_wf|]. split; [reflexivity|]. split; [apply sq_ends|]. split; [apply sq_ends|].
  intros t a b _ K.
  assert (X : forallb (fun e => Qle_bool (vnorm2 (vsub (ms_pos sq_end (snd e)) (ms_pos sq_end (fst e)))) (((12 # 7) * 2) * ((12 # 7) * 2)) &&
    Qle_bool (vnorm2 (vsub (ms_pos sq_end (fst e)) (ms_pos sq_end (snd e)))) (((12 # 7) * 2) * ((12 # 7) * 2))) (ends (ms_front sq) ++ sides (generated sq_end)) = true) by (vm_compute; reflexivity).
  rewrite forallb_forall in X. apply Qle_bool_iff. destruct K as [K|[K|K]].
  - assert (Y := X (a, b) ltac:(apply in_or_app; left; exact K)). apply andb_true_iff in Y. apply Y.
  - assert (Y := X (a, b) ltac:(apply in_or_app; right; exact K)). apply andb_true_iff in Y. apply Y.
  - assert (Y := X (b, a) ltac:(apply in_or_app; right; exact K)). apply andb_true_iff in Y. apply Y.
Qed.

Print Assumptions C57_history_partial.
Print Assumptions C57_elements_partial.
Print Assumptions C57_conform_partial.
Print Assumptions C57_domain_partial.
Print Assumptions C57_nested.
Print Assumptions C57_mesh_partial.
Print Assumptions C57_short_partial.
Print Assumptions C57_refuted.
