(* C61: new meshes are connected with their neighbours edge by edge. *)
From Coq Require Import Lia Permutation Lqa.
From Verif Require Import Base Chain GeomModel GeomSpec GeomProofs FacetModel UtilModel BdryModel BdrySpec AdvanceModel AdvanceSpec AdvanceProofs AdvanceGeom AdvanceProps
  LoopModel FrontModel FrontSpec FrontProofs FrontProps InitProofs MeshModel MeshSpec QRefineSpec CleanModel CleanSpec CleanCheck T2QProps MergerModel MergerSpec MergerProps
  PolySpec PolyMain WindSpec WindInsideProps WindMeshProps ClearSpec ClearDomain ClearProps FinModel TwinModel TwinSpec TwinProofs TwinMain TwinMesh TwinGen.
From Verif Require WindMesh WindProofs ClearNest SmoothProofs.
Open Scope Q_scope.

(* ---------- the pointers ---------- *)
Lemma linked_untwinned L1 L2 ms : Forall2 (fun m m' => untwinned m' = untwinned m) ms (map (link L1) (map (link L2) ms)).
Proof. induction ms as [|m ms IH]; constructor; [|exact IH]. rewrite !link_untwinned. reflexivity. Qed.
(* prepare_mesh changes nothing but pointers in the neighbour meshes *)
Theorem C61_unchanged : forall sub fbase nbase bounds fixed ms loose col st tw ms',
  prepare sub fbase nbase bounds fixed ms loose col = (st, tw, ms') ->
  st = FrontModel.prepared sub (collect_front_edges bounds fixed (segments_of ms)) loose col /\ length tw = length (ms_front st) /\
  Forall2 (fun m m' => untwinned m' = untwinned m) ms ms'.
Proof.
  intros sub fbase nbase bounds fixed ms loose col st tw ms' E. rewrite prepare_eq in E. injection E as <- <- <-. split; [reflexivity|]. split.
  - rewrite prepared_front, renumber_len, map_length. reflexivity.
  - apply linked_untwinned.
Qed.

Section Links.
Variables (sub : vec2 -> vec2 -> list vec2) (fbase nbase : nat) (bounds fixed : list dedge) (ms : list mesh) (loose : list vec2) (col : Z).
Variables (st : mstate) (tw : list (option nat)) (ms' : list mesh).
Hypothesis PREP : prepare sub fbase nbase bounds fixed ms loose col = (st, tw, ms').
Hypothesis R : ready sub bounds fixed ms.

Lemma parts : st = FrontModel.prepared sub (collect_front_edges bounds fixed (map bdry_des ms)) loose col /\
  tw = map (front_twin (twin_refs bounds fixed ms)) (loosened (rs_front (refined_state sub (collect_front_edges bounds fixed (map bdry_des ms))))) /\
  ms' = map (link (last_at nbase tw)) ms.
Proof. assert (E := prepare_meshes sub fbase nbase bounds fixed ms loose col R). rewrite PREP in E. injection E. intros E1 E2 E3. split; [exact E3|]. split; [exact E2|]. rewrite E1, <- E2. reflexivity. Qed.

(* a new boundary edge with a twin: the twin is a living edge of a neighbour mesh, points
   back, joins the same points in the opposite direction and has the same colour *)
Lemma mutual e i : In e (ms_front st) -> twin_of tw (be_id e) = Some i ->
  exists m' t, In m' ms' /\ In t (mh_bdry m') /\ ed_id t = i /\ ed_twin t = Some (nbase + be_id e)%nat /\ coincide (ms_pos st) e m' t /\ be_col e = ed_col t.
Proof.
  destruct parts as (P1 & P2 & P3). intros I T. rewrite P1 in I. rewrite P2 in T.
  destruct (twin_leads sub nbase bounds fixed ms loose col R e i I T) as (m & t & Hm & Ht & E & C & K & LA). rewrite <- P2 in LA. rewrite <- P1 in C.
  exists (link (last_at nbase tw) m), (point_to (last_at nbase tw (ed_id t)) t). split; [rewrite P3; apply in_map; exact Hm|]. split; [apply link_bdry_in; exists t; auto|].
  rewrite E, LA. cbn [point_to ed_id ed_twin ed_col]. auto.
Qed.
(* a pointer of a neighbour mesh afterwards: it leads to the new edge that points back, or
   it is an old one and no new edge points to this edge *)
Lemma pointed m' t x : In m' ms' -> In t (mh_bdry m') -> ed_twin t = Some x ->
  (exists e, In e (ms_front st) /\ x = (nbase + be_id e)%nat /\ twin_of tw (be_id e) = Some (ed_id t)) \/
  (exists m, In m ms /\ In t (mh_bdry m) /\ forall e, In e (ms_front st) -> twin_of tw (be_id e) <> Some (ed_id t)).
Proof.
  destruct parts as (P1 & P2 & P3). rewrite P3. intros Hm Ht T. apply in_map_iff in Hm. destruct Hm as (m & <- & Hm). apply link_bdry_in in Ht. destruct Ht as (t0 & Ht & ->).
  rewrite point_id. destruct (last_at nbase tw (ed_id t0)) as [y|] eqn:LA; cbn [point_to ed_twin] in *.
  - left. injection T as <-. rewrite P2 in LA. destruct (twin_back sub nbase bounds fixed ms loose col (ed_id t0) y LA) as (e & A & B & C). exists e. rewrite P1, P2. auto.
  - right. exists m. split; [exact Hm|]. split; [exact Ht|]. intros e I Q. apply last_at_none in LA. apply LA. unfold twin_of in Q.
    assert (L : (be_id e < length tw)%nat). { destruct (le_lt_dec (length tw) (be_id e)) as [G|G]; [|exact G]. rewrite nth_overflow in Q by exact G. discriminate. }
    rewrite <- Q. apply nth_In. exact L.
Qed.
(* no pair is missed *)
Lemma complete e m t : In e (ms_front st) -> In m ms -> In t (mh_bdry m) -> coincide (ms_pos st) e m t -> twin_of tw (be_id e) = Some (ed_id t).
Proof. destruct parts as (-> & -> & _). apply (twin_complete sub bounds fixed ms loose col R). Qed.
End Links.

Theorem C61_mutual : forall sub fbase nbase bounds fixed ms loose col st tw ms',
  prepare sub fbase nbase bounds fixed ms loose col = (st, tw, ms') -> ready sub bounds fixed ms ->
  forall e i, In e (ms_front st) -> twin_of tw (be_id e) = Some i ->
  exists m' t, In m' ms' /\ In t (mh_bdry m') /\ ed_id t = i /\ ed_twin t = Some (nbase + be_id e)%nat /\ coincide (ms_pos st) e m' t /\ be_col e = ed_col t.
Proof. exact mutual. Qed.
Theorem C61_pointed : forall sub fbase nbase bounds fixed ms loose col st tw ms',
  prepare sub fbase nbase bounds fixed ms loose col = (st, tw, ms') -> ready sub bounds fixed ms ->
  forall m' t x, In m' ms' -> In t (mh_bdry m') -> ed_twin t = Some x ->
  (exists e, In e (ms_front st) /\ x = (nbase + be_id e)%nat /\ twin_of tw (be_id e) = Some (ed_id t)) \/
  (exists m, In m ms /\ In t (mh_bdry m) /\ forall e, In e (ms_front st) -> twin_of tw (be_id e) <> Some (ed_id t)).
Proof. exact pointed. Qed.
Theorem C61_complete : forall sub fbase nbase bounds fixed ms loose col st tw ms',
  prepare sub fbase nbase bounds fixed ms loose col = (st, tw, ms') -> ready sub bounds fixed ms ->
  forall e m t, In e (ms_front st) -> In m ms -> In t (mh_bdry m) -> coincide (ms_pos st) e m t -> twin_of tw (be_id e) = Some (ed_id t).
Proof. exact complete. Qed.
(* no pointer to an edge of the temporary front survives its deletion *)
Theorem C61_no_stale : forall sub fbase nbase bounds fixed ms loose col st tw ms',
  prepare sub fbase nbase bounds fixed ms loose col = (st, tw, ms') -> ready sub bounds fixed ms ->
  (forall m e i, In m ms -> In e (mh_bdry m) -> ed_twin e = Some i -> (i < fbase)%nat) ->
  forall m' t x, In m' ms' -> In t (mh_bdry m') -> ed_twin t = Some x -> (x < fbase)%nat \/ exists e, In e (ms_front st) /\ x = (nbase + be_id e)%nat.
Proof.
  intros sub fbase nbase bounds fixed ms loose col st tw ms' PREP R OLD m' t x Hm Ht T.
  destruct (C61_pointed _ _ _ _ _ _ _ _ _ _ _ PREP R m' t x Hm Ht T) as [(e & A & B & _)|(m & A & B & _)]; [right; exists e; auto|left; exact (OLD m t x A B T)].
Qed.

(* ---------- from the neighbours to the merged mesh ---------- *)
(* The new mesh, as far as the conditions of C57 and C60 hold for its front, is sound,
   covers the region inside the curves made of the domain and its neighbours, and its
   boundary edges have the pointers above. *)
Theorem C61_generated_partial : forall sub fbase nbase bounds fixed ms loose col st tw ms' rho shape_ok dom mesh_scale inside qual newpos query fuel n prop st' r c,
  prepare sub fbase nbase bounds fixed ms loose col = (st, tw, ms') -> ready sub bounds fixed ms ->
  let curve := map fst (flat_map (wanted (segments_of ms)) bounds) in
  ForallOrdPairs (fun w w' : vec2 * vec2 => ~ veq (snd w) (snd w')) curve ->
  (forall a b p, In p (sub a b) -> in_square front_scale a = true -> in_square front_scale b = true -> in_square front_scale p = true) ->
  (forall p, In p loose -> in_square front_scale p = true) ->
  (forall s e, in_square front_scale (newpos s e) = true) -> (0 < n < 2 ^ 31)%Z ->
  vertices_in mesh_scale st -> (forall s e, in_square mesh_scale (newpos s e) = true) -> (0 <= col)%Z ->
  generate mesh_scale (triangle_is_valid rho shape_ok dom) (vertex_is_valid rho inside) qual newpos query fuel n st = Some (Ok (st', r, c)) ->
  exact_vertices st' -> found (near rho) (ms_front st) st' -> ms_front st <> [] -> ms_front st' = [] ->
  exists m, finish mesh_scale (twin_of tw) prop st st' = Ok m /\ sound m /\ mh_col m = col /\
    map bare (mh_bdry m) = map (fin_bdry (twin_of tw)) (ms_front st) /\
    covered m == (1 # 2) * esum vcross curve /\ (forall p, WindMesh.mesh_region m p == winding p curve).
Proof.
  intros sub fbase nbase bounds fixed ms loose col st tw ms' rho shape_ok dom mesh_scale inside qual newpos query fuel n prop st' r c PREP R curve EN SI LO NI NP VI NM CO RUN EX FO ST DO.
  destruct (C61_unchanged _ _ _ _ _ _ _ _ _ _ _ PREP) as (E & _). subst st.
  destruct (beside sub bounds fixed ms loose col R EN SI LO rho shape_ok dom mesh_scale inside qual newpos query fuel n (twin_of tw) prop st' r c NI NP VI NM CO RUN EX FO ST DO)
    as (m & F & S & _ & _ & MC & B & _ & _ & _ & A & G & _). exists m. auto 10.
Qed.

(* The new mesh and a neighbour whose region is disjoint can be merged: the attempt never
   fails, it happens exactly if they share an edge, and the result is a sound mesh of both
   regions. *)
Theorem C61_merged_partial : forall sub fbase nbase bounds fixed rm oth loose col st tw rm' oth' rho shape_ok dom mesh_scale inside qual newpos query fuel n prop st' r c,
  prepare sub fbase nbase bounds fixed (rm :: oth) loose col = (st, tw, rm' :: oth') -> ready sub bounds fixed (rm :: oth) -> around nbase rm oth ->
  let curve := map fst (flat_map (wanted (segments_of (rm :: oth))) bounds) in
  ForallOrdPairs (fun w w' : vec2 * vec2 => ~ veq (snd w) (snd w')) curve ->
  (forall a b p, In p (sub a b) -> in_square front_scale a = true -> in_square front_scale b = true -> in_square front_scale p = true) ->
  (forall p, In p loose -> in_square front_scale p = true) ->
  (forall s e, in_square front_scale (newpos s e) = true) -> (0 < n < 2 ^ 31)%Z ->
  vertices_in mesh_scale st -> (forall s e, in_square mesh_scale (newpos s e) = true) -> (0 <= col)%Z ->
  generate mesh_scale (triangle_is_valid rho shape_ok dom) (vertex_is_valid rho inside) qual newpos query fuel n st = Some (Ok (st', r, c)) ->
  exact_vertices st' -> found (near rho) (ms_front st) st' -> ms_front st <> [] -> ms_front st' = [] ->
  (forall e, In e (ms_front st) -> plain (ms_pos st (be_v1 e)) /\ plain (ms_pos st (be_v2 e))) ->
  (forall v w, In v (ms_verts st') -> In w (ms_verts st') -> veq (ms_pos st' v) (ms_pos st' w) -> v = w) ->
  (forall v, In v (ms_verts st') -> in_square (mh_scale rm) (ms_pos st' v) = true) ->
  (forall t, In t (ms_tris st') -> (3 # 2) * tol26 <= tri_area (ms_pos st' (tr_v1 t)) (ms_pos st' (tr_v2 t)) (ms_pos st' (tr_v3 t))) ->
  (forall p, ~ (0 < WindMesh.mesh_region rm p /\ 0 < winding p curve)) ->
  exists m b w, finish mesh_scale (twin_of tw) prop st st' = Ok m /\ merge_pair (WD rm' (relocate nbase m) oth') = Ok (b, w) /\
    (b = true <-> exists e t, In e (ms_front st) /\ In t (mh_bdry rm) /\ coincide (ms_pos st) e rm t) /\
    (b = true -> sound (w_rec w) /\ covered (w_rec w) == covered rm + (1 # 2) * esum vcross curve /\
       (forall p, WindMesh.mesh_region (w_rec w) p == WindMesh.mesh_region rm p + winding p curve) /\
       tiles (mh_pos (w_rec w)) (WindMesh.shapes (w_rec w)) (fun p => WindMesh.mesh_region rm p + winding p curve)).
Proof.
  intros sub fbase nbase bounds fixed rm oth loose col st tw rm' oth' rho shape_ok dom mesh_scale inside qual newpos query fuel n prop st' r c PREP R AR curve EN SI LO NI NP VI NM CO RUN EX FO ST DO PF DI SQ AREA DIS.
  destruct (C61_unchanged _ _ _ _ _ _ _ _ _ _ _ PREP) as (E & _). subst st. set (st := FrontModel.prepared sub _ loose col) in *.
  destruct (beside sub bounds fixed (rm :: oth) loose col R EN SI LO rho shape_ok dom mesh_scale inside qual newpos query fuel n (twin_of tw) prop st' r c NI NP VI NM CO RUN EX FO ST DO)
    as (m & F & S & NQ & _ & MC & B & MP & MV & OP & A & G & GR). fold st in F, B, OP.
  destruct (parts _ _ _ _ _ _ _ _ _ _ _ PREP R) as (_ & P2 & P3). cbn [map] in P3. injection P3 as -> ->.
  assert (EM := tri_elements m S NQ).
  assert (CM : all_centred m).
  { intros f I. unfold facets in I. rewrite NQ in I. apply tri_centred; [destruct (cf_tris _ (sd_conf _ S) f I) as (x & y & z & Q); unfold T2QSpec.is_tri; rewrite Q; reflexivity|]. assert (X := GR _ AREA f I). lra. }
  assert (WL : forall e, In e (ms_front st) -> (be_v1 e < ms_nv st)%nat /\ (be_v2 e < ms_nv st)%nat).
  { destruct (start_state bounds fixed (segments_of (rm :: oth)) sub loose col (sc_closed _ (rd_simple _ _ _ _ R)) (rd_bounds _ _ _ _ R) (rd_fixed _ _ _ _ R) (rd_loose _ _ _ _ R) (rd_edges _ _ _ _ R) SI LO) as (W & _).
    intros e I. destruct (wf_ev _ W e I) as (X & Y & _). split; assumption. }
  assert (PM : forall e, In e (ms_front st) -> mh_pos m (be_v1 e) = ms_pos st (be_v1 e) /\ mh_pos m (be_v2 e) = ms_pos st (be_v2 e)).
  { intros e I. destruct (WL e I). rewrite !MP, !OP by assumption. split; reflexivity. }
  assert (DM : distinct_points m).
  { intros v w V W Q. rewrite !MP in Q. apply DI; [apply MV; exact V|apply MV; exact W|]. rewrite Q. apply veq_refl. }
  assert (FM : forall v, In v (mh_verts m) -> in_square (mh_scale rm) (mh_pos m v) = true) by (intros v I; rewrite MP; apply SQ, MV; exact I).
  assert (AP : forall p, ~ (0 < WindMesh.mesh_region rm p /\ 0 < WindMesh.mesh_region m p)) by (intros p; rewrite (G p); apply DIS).
  assert (MG := beside_mergeable sub fbase nbase bounds fixed rm oth loose col tw _ PREP R AR PF m S CM EM DM B PM FM AP).
  destruct (C34_merge_reports _ _ _ MG) as (b & w & EW & IB & _). exists m, b, w. split; [exact F|]. split; [exact EW|]. split.
  - rewrite IB. assert (BM : forall t, In t (mh_bdry m) <-> exists e, In e (ms_front st) /\ bare t = fin_bdry (twin_of tw) e /\ In t (mh_bdry m)).
    { intros t. split; [|intros (e & _ & _ & I); exact I]. intros I. assert (J := in_map bare _ _ I). rewrite B in J. apply in_map_iff in J. destruct J as (e & Q & J). exists e. auto. }
    split.
    + intros (e & He & t & Ht & Q1 & Q2). apply link_bdry_in in He. destruct He as (e0 & He & ->). cbn [relocate mh_bdry] in Ht. apply in_map_iff in Ht. destruct Ht as (t0 & <- & Ht).
      apply BM in Ht. destruct Ht as (f & Hf & Q & _). exists f, e0. split; [exact Hf|]. split; [exact He|].
      destruct (point_ends (last_at nbase tw (ed_id e0)) e0) as [X1 X2]. rewrite X1, X2 in *. cbn [relocate mh_pos link set_bdry shift_edge ed_1 ed_2] in Q1, Q2.
      assert (T1 : ed_1 t0 = be_v1 f) by exact (f_equal ed_1 Q). assert (T2 : ed_2 t0 = be_v2 f) by exact (f_equal ed_2 Q). rewrite T1, T2 in *. destruct (PM f Hf) as [Y1 Y2]. rewrite Y1 in Q2. rewrite Y2 in Q1.
      unfold coincide. rewrite <- Q1, <- Q2. split; apply veq_refl.
    + intros (f & e0 & Hf & He & C). assert (J := in_map (fin_bdry (twin_of tw)) _ _ Hf). rewrite <- B in J. apply in_map_iff in J. destruct J as (t0 & Q & Ht).
      exists (point_to (last_at nbase tw (ed_id e0)) e0). split; [apply link_bdry_in; exists e0; auto|]. exists (shift_edge nbase t0). split; [cbn [relocate mh_bdry]; apply in_map; exact Ht|].
      assert (T1 : ed_1 t0 = be_v1 f) by exact (f_equal ed_1 Q). assert (T2 : ed_2 t0 = be_v2 f) by exact (f_equal ed_2 Q).
      unfold opposite. destruct (point_ends (last_at nbase tw (ed_id e0)) e0) as [X1 X2]. rewrite X1, X2. cbn [relocate mh_pos link set_bdry shift_edge ed_1 ed_2].
      apply (same_place sub nbase bounds fixed rm oth loose col AR PF m PM f e0 t0 Hf He T1 T2). exact C.
  - intros ->. destruct (C34_merge_partial _ _ _ _ MG EW) as (SW & AW & _).
    destruct (C50_merged_partial _ _ _ _ MG (ar_simple _ _ _ AR) (relocate_simple nbase m EM) EW) as (_ & RW & TW).
    assert (RE : forall p, WindMesh.mesh_region (link (last_at nbase tw) rm) p + WindMesh.mesh_region (relocate nbase m) p == WindMesh.mesh_region rm p + winding p curve).
    { intros p. rewrite link_region, relocate_region, (G p). reflexivity. }
    split; [exact SW|]. split; [|split].
    + rewrite AW, relocate_covered, A. reflexivity.
    + intros p. rewrite RW. apply RE.
    + apply (WindMesh.tiles_eq _ _ _ _ RE). exact TW.
Qed.

(* ---------- cases ---------- *)
(* a square of two triangles beside a new domain *)
Definition left_pos (v : nat) : vec2 := nth v [V2 0 0; V2 1 0; V2 1 1; V2 0 1] (V2 0 0).
Definition left_square : mesh := MH left_pos (fun _ => 0%N) [0; 1; 2; 3]%nat [] [FA 10 (Tri3 0 1 2) 1 true; FA 11 (Tri3 0 2 3) 1 true]
  [ED 12 0 2 0 0 (Some 11%nat) (Some 10%nat) None]
  [ED 13 0 1 1 1 (Some 10%nat) None None; ED 14 1 2 1 1 (Some 10%nat) None None; ED 15 2 3 1 1 (Some 11%nat) None None; ED 16 3 0 1 1 (Some 11%nat) None None]
  (fun _ _ => None) 17 1 1 7.
Definition right_ring : list vec2 := [V2 1 0; V2 2 0; V2 2 1; V2 1 1].
Definition right_domain : list boundary := [Bd EXTERIOR (ring_edges right_ring) 1].
Definition right_bounds : list dedge := map (fun e => DE (fst e) (snd e) 1%Z false) (domain_segments right_domain).

Lemma right_proper : proper_domain right_domain.
Proof.
  assert (S1 : simple_polygon right_ring) by (apply PolyMain.simpleb_sound; vm_compute; reflexivity).
  constructor.
  - exists [], (Bd EXTERIOR (ring_edges right_ring) 1), []. split; [reflexivity|]. split; [reflexivity|]. intros b [].
  - intros b [<-|[]]; exists right_ring; (split; [reflexivity|split; [assumption|vm_compute; reflexivity]]).
  - repeat constructor.
  - intros b c [<-|[]] [<-|[]] Tb Tc; discriminate.
  - repeat constructor; discriminate.
Qed.
Lemma right_wanted : map fst (flat_map (wanted (segments_of [left_square])) right_bounds) = domain_segments right_domain.
Proof. vm_compute. reflexivity. Qed.
Lemma left_sound : sound left_square.
Proof. apply soundb_sound. vm_compute. reflexivity. Qed.
Lemma right_ready : ready no_sub right_bounds [] [left_square].
Proof.
  constructor.
  - rewrite right_wanted. apply domain_curves. exact right_proper.
  - intros e I. unfold right_bounds in I. apply in_map_iff in I. destruct I as (x & <- & _). reflexivity.
  - intros e [].
  - intros e I. cbn in I. repeat (destruct I as [<-|I]; [reflexivity|]). destruct I.
  - intros e H. cbn in H. repeat (destruct H as [<-|H]; [split; [|split]; vm_compute; reflexivity|]). destruct H.
  - intros a b _. exists []. split; [cbn; lra|constructor].
  - intros a b. constructor.
  - cbn. repeat constructor; cbn; intuition discriminate.
Qed.
Lemma left_around : around 17 left_square [].
Proof.
  constructor.
  - exact left_sound.
  - intros f I. apply tri_centred; cbn in I; destruct I as [<-|[<-|[]]]; first [reflexivity|vm_compute; discriminate].
  - intros v w I J E. cbn in I, J. repeat (destruct I as [<-|I]; [repeat (destruct J as [<-|J]; [first [reflexivity|discriminate E]|]); destruct J|]). destruct I.
  - intros f I. cbn in I. destruct I as [<-|[<-|[]]]; vm_compute; reflexivity.
  - intros m [<-|[]]. split; intros x I; cbn in I; repeat (destruct I as [<-|I]; [cbn; lia|]); destruct I.
  - cbn. repeat constructor; cbn; intuition discriminate.
  - intros e i I T. cbn in I. repeat (destruct I as [<-|I]; [discriminate T|]). destruct I.
  - intros m e i [].
  - intros m [].
  - intros e I. cbn in I. repeat (destruct I as [<-|I]; [split; split; reflexivity|]). destruct I.
Qed.
Lemma apart_case p : ~ (0 < WindMesh.mesh_region left_square p /\ 0 < winding p (domain_segments right_domain)).
Proof.
  intros [A B]. assert (L : vx p < 1).
  { apply Qnot_le_lt. intros G. assert (Z : WindMesh.mesh_region left_square p == 0); [|lra].
    unfold WindMesh.mesh_region, winding. cbn [WindMesh.boundary_segments left_square mh_bdry mh_pos map esum ed_1 ed_2 left_pos nth].
    rewrite !ClearNest.crossing_beyond by (cbn [vx]; lra). reflexivity. }
  assert (Z : winding p (domain_segments right_domain) == 0); [|lra]. clear A B.
  unfold winding. cbn [domain_segments right_domain flat_map bd_edges ring_edges right_ring path_edges app esum]. unfold crossing. cbn [vx vy]. unfold det. cbn [vx vy].
  WindProofs.qcase 0 (vy p); WindProofs.qcase 1 (vy p); cbv iota; try reflexivity.
  all: repeat match goal with |- context [Qle_bool ?x ?y] => WindProofs.qcase x y end; try reflexivity; exfalso; lra.
Qed.

Notation right_prep := (prepare no_sub 17 40 right_bounds [] [left_square] [] 1%Z).
Definition right_start : mstate := FrontModel.prepared no_sub (collect_front_edges right_bounds [] (segments_of [left_square])) [] 1%Z.
Definition right_twins : list (option nat) := [None; None; None; Some 14%nat].
Notation right_run := (generate 7 (triangle_is_valid (fun _ => 2) no_shape (domain_segments right_domain)) (vertex_is_valid (fun _ => 2) (fun _ => true)) (fun _ _ => 0)
  (fun _ _ => V2 (3 # 2) (1 # 2)) (fun _ _ _ => [0; 1; 2; 3]%nat) 100 20 right_start).
Definition left_linked : mesh := link (last_at 40 right_twins) left_square.
Lemma right_prepared : right_prep = (right_start, right_twins, [left_linked]).
Proof. rewrite (prepare_meshes _ _ _ _ _ _ _ _ right_ready). reflexivity. Qed.

(* new mesh beside the left square, then merged with it *)
Example C61_square_case : ready no_sub right_bounds [] [left_square] /\ around 17 left_square [] /\ around 40 left_square [] /\
  right_prep = (right_start, [None; None; None; Some 14%nat], [left_linked]) /\ map ed_twin (mh_bdry left_linked) = [None; Some 43%nat; None; None] /\
  (forall p, ~ (0 < WindMesh.mesh_region left_square p /\ 0 < winding p (domain_segments right_domain))) /\
  exists st', right_run = Some (Ok (st', true, 2%nat)) /\ ms_front st' = [] /\ exact_vertices st' /\ found (near (fun _ => 2)) (ms_front right_start) st' /\
  exists m w, finish 7 (twin_of right_twins) (fun _ => 0%N) right_start st' = Ok m /\ merge_pair (WD left_linked (relocate 40 m) []) = Ok (true, w) /\
    sound (w_rec w) /\ covered (w_rec w) == 2 /\ (forall p, WindMesh.mesh_region (w_rec w) p == WindMesh.mesh_region left_square p + winding p (domain_segments right_domain)).
Proof.
  split; [exact right_ready|]. split; [exact left_around|].
  assert (AR : around 40 left_square []).
  { destruct left_around as [A1 A2 A3 A4 A5 A6 A7 A8 A9 A10]. constructor; try assumption. intros m I. destruct (A5 m I) as [X Y]. split; intros x J; [assert (Z := X x J)|assert (Z := Y x J)]; lia. }
  split; [exact AR|]. split; [exact right_prepared|]. split; [reflexivity|]. split; [exact apart_case|].
  assert (X : match right_run with
    | Some (Ok (s, r, c)) => exactb s && foundb (fun _ => 2) (ms_front right_start) s && r && Nat.eqb c 2 &&
        (match ms_front s with [] => true | _ => false end) &&
        forallb (fun t => Qle_bool ((3 # 2) * tol26) (tri_area (ms_pos s (tr_v1 t)) (ms_pos s (tr_v2 t)) (ms_pos s (tr_v3 t)))) (ms_tris s) &&
        forallb (fun v => in_square 7 (ms_pos s v)) (ms_verts s) &&
        forallb (fun v => forallb (fun w => Nat.eqb v w || negb (Qeq_bool (vx (ms_pos s v)) (vx (ms_pos s w)) && Qeq_bool (vy (ms_pos s v)) (vy (ms_pos s w)))) (ms_verts s)) (ms_verts s) = true
    | _ => False end) by (vm_compute; reflexivity).
  destruct right_run as [[[[s r] c]| |]|] eqn:G; try contradiction. rewrite !andb_true_iff in X. destruct X as (((((((X1 & X2) & X3) & X4) & X5) & X6) & X7) & X8).
  apply Nat.eqb_eq in X4. subst r c. exists s. split; [reflexivity|].
  assert (F : ms_front s = []) by (destruct (ms_front s); [reflexivity|discriminate]). split; [exact F|].
  apply exactb_sound in X1. apply foundb_sound in X2. split; [exact X1|]. split; [exact X2|].
  assert (VM : vertices_in 7 right_start).
  { intros v L. change (ms_nv right_start) with 4%nat in L. do 4 (destruct v as [|v]; [vm_compute; reflexivity|]). lia. }
  assert (NE : ms_front right_start <> []) by (vm_compute; discriminate).
  assert (PF : forall e, In e (ms_front right_start) -> plain (ms_pos right_start (be_v1 e)) /\ plain (ms_pos right_start (be_v2 e))).
  { intros e I. change (ms_front right_start) with [BE 0 0 1 1 1; BE 1 1 2 1 1; BE 2 2 3 1 1; BE 3 3 0 1 1] in I. cbn in I. repeat (destruct I as [<-|I]; [split; split; reflexivity|]). destruct I. }
  assert (DI : forall v w, In v (ms_verts s) -> In w (ms_verts s) -> veq (ms_pos s v) (ms_pos s w) -> v = w).
  { intros v w I J [Q1 Q2]. rewrite forallb_forall in X8. assert (Y := X8 v I). cbv beta in Y. rewrite forallb_forall in Y. assert (Z := Y w J). apply orb_true_iff in Z. destruct Z as [Z|Z]; [apply Nat.eqb_eq; exact Z|].
    apply negb_true_iff, andb_false_iff in Z. apply Qeq_bool_iff in Q1. apply Qeq_bool_iff in Q2. destruct Z as [Z|Z]; [rewrite Q1 in Z|rewrite Q2 in Z]; discriminate. }
  rewrite forallb_forall in X7. rewrite forallb_forall in X6.
  assert (Z : forall t, In t (ms_tris s) -> (3 # 2) * tol26 <= tri_area (ms_pos s (tr_v1 t)) (ms_pos s (tr_v2 t)) (ms_pos s (tr_v3 t))) by (intros t I; apply Qle_bool_iff, (X6 t I)).
  assert (P := C61_merged_partial no_sub 17 40 right_bounds [] left_square [] [] 1%Z right_start right_twins left_linked [] (fun _ => 2) no_shape (domain_segments right_domain) 7 (fun _ => true) (fun _ _ => 0)
    (fun _ _ => V2 (3 # 2) (1 # 2)) (fun _ _ _ => [0; 1; 2; 3]%nat) 100%nat 20%Z (fun _ => 0%N) s true 2%nat right_prepared right_ready AR).
  cbv zeta in P. rewrite right_wanted in P.
  specialize (P (domain_ends _ right_proper) (fun a b p (H : In p []) => match H with end) (fun p (H : In p []) => match H with end) (fun _ _ => eq_refl) (conj eq_refl eq_refl) VM (fun _ _ => eq_refl) ltac:(lia) G X1 X2 NE F PF DI X7 Z apart_case).
  destruct P as (m & b & w & E1 & E2 & B & R). exists m, w. split; [exact E1|].
  assert (BT : b = true).
  { apply B. exists (BE 3 3 0 1 1), (ED 14 1 2 1 1 (Some 10%nat) None None). split; [vm_compute; tauto|]. split; [cbn; tauto|]. split; split; vm_compute; reflexivity. }
  destruct (R BT) as (S & A & MR & _). split; [rewrite <- BT; exact E2|]. split; [exact S|]. split; [rewrite A; vm_compute; reflexivity|exact MR].
Qed.

(* An edge of the neighbour mesh that is longer than the edge of the new domain is not
   recognised: the new edge lies on it and has no twin, so the meshes never merge. *)
Definition split_ring : list vec2 := [V2 1 0; V2 2 0; V2 2 1; V2 1 (1 # 2)].
Definition split_bounds : list dedge := map (fun e => DE (fst e) (snd e) 1%Z false) (ring_edges split_ring).
Theorem C61_contact_refuted : exists bounds m st tw ms', sound m /\ ready no_sub bounds [] [m] /\ prepare no_sub 17 40 bounds [] [m] [] 1%Z = (st, tw, ms') /\
  (exists e t, In e (ms_front st) /\ In t (mh_bdry m) /\ (forall s, 0 <= s <= 1 -> exists r, 0 <= r <= 1 /\
      veq (on_seg (ms_pos st (be_v1 e)) (ms_pos st (be_v2 e)) s) (on_seg (mh_pos m (ed_1 t)) (mh_pos m (ed_2 t)) r)) /\ twin_of tw (be_id e) = None) /\
  (forall e, In e (ms_front st) -> twin_of tw (be_id e) = None).
Proof.
  assert (RD : ready no_sub split_bounds [] [left_square]).
  { constructor.
    - assert (S1 : simple_polygon split_ring) by (apply PolyMain.simpleb_sound; vm_compute; reflexivity).
      assert (PD : proper_domain [Bd EXTERIOR (ring_edges split_ring) 1]).
      { constructor.
        - exists [], (Bd EXTERIOR (ring_edges split_ring) 1), []. split; [reflexivity|]. split; [reflexivity|]. intros b [].
        - intros b [<-|[]]; exists split_ring; (split; [reflexivity|split; [assumption|vm_compute; reflexivity]]).
        - repeat constructor.
        - intros b c [<-|[]] [<-|[]] Tb Tc; discriminate.
        - repeat constructor; discriminate. }
      assert (E : map fst (flat_map (wanted (segments_of [left_square])) split_bounds) = domain_segments [Bd EXTERIOR (ring_edges split_ring) 1]) by (vm_compute; reflexivity).
      rewrite E. apply domain_curves. exact PD.
    - intros e I. unfold split_bounds in I. apply in_map_iff in I. destruct I as (x & <- & _). reflexivity.
    - intros e [].
    - intros e I. cbn in I. repeat (destruct I as [<-|I]; [reflexivity|]). destruct I.
    - intros e H. cbn in H. repeat (destruct H as [<-|H]; [split; [|split]; vm_compute; reflexivity|]). destruct H.
    - intros a b _. exists []. split; [cbn; lra|constructor].
    - intros a b. constructor.
    - cbn. repeat constructor; cbn; intuition discriminate. }
  exists split_bounds, left_square, (FrontModel.prepared no_sub (collect_front_edges split_bounds [] (map bdry_des [left_square])) [] 1%Z), [None; None; None; None], (map (link (last_at 40 [None; None; None; None])) [left_square]).
  split; [exact left_sound|]. split; [exact RD|]. split; [rewrite (prepare_meshes _ _ _ _ _ _ _ _ RD); reflexivity|].
  assert (N : forall j, twin_of [None; None; None; None] j = None) by (intros j; unfold twin_of; do 4 (destruct j as [|j]; [reflexivity|]); destruct j; reflexivity).
  split; [|intros e _; apply N]. exists (BE 3 3 0 1 1), (ED 14 1 2 1 1 (Some 10%nat) None None). split; [vm_compute; tauto|]. split; [cbn; tauto|]. split; [|apply N].
  intros s S. exists ((1 - s) * (1 # 2)). split; [lra|].
  change (veq (on_seg (V2 1 (1 # 2)) (V2 1 0) s) (on_seg (V2 1 0) (V2 1 1) ((1 - s) * (1 # 2)))). unfold veq, on_seg. cbn [vx vy]. split; ring.
Qed.

Print Assumptions C61_unchanged.
Print Assumptions C61_mutual.
Print Assumptions C61_pointed.
Print Assumptions C61_complete.
Print Assumptions C61_no_stale.
Print Assumptions C61_generated_partial.
Print Assumptions C61_merged_partial.
Print Assumptions C61_contact_refuted.
