(* Property theorems: advancing front (C23 - C26). *)
From Coq Require Import Lia Lqa Permutation.
From Verif Require Import Base Chain GeomModel GeomSpec GeomProofs FacetModel FacetProofs UtilModel BdryModel BdrySpec
  AdvanceModel AdvanceSpec AdvanceProofs AdvanceInv AdvanceMore AdvanceGeom.
Open Scope Q_scope.

(* ---------------------------------------------------------------- *)
(* Concrete meshes used as witnesses and examples *)
Definition pts (l : list vec2) (v : nat) : vec2 := nth v l (V2 0 0).
Definition start (l : list vec2) (front : list bedge) : mstate :=
  MS (pts l) (fun v => Nat.ltb v (length l)) (seq 0 (length l)) (length l) front (length front) [] [] 0 [] 0 7%Z.
Definition bnd (k a b : nat) : bedge := BE k a b 1%Z e_on_boundary.
Definition edge_pts (l : list vec2) (front : list bedge) : list (vec2 * vec2) :=
  map (fun e => (pts l (be_v1 e), pts l (be_v2 e))) front.
Definition no_shape (_ _ _ : vec2) : bool := true.

Lemma start_wf l front : NoDup (map be_id front) ->
  (forall e, In e front -> (be_id e < length front)%nat /\ (be_v1 e < length l)%nat /\ (be_v2 e < length l)%nat /\ be_v1 e <> be_v2 e) ->
  wf (start l front).
Proof.
  intros N H. constructor; cbn [start ms_front ms_ne ms_nv ms_tris ms_nt ms_verts].
  - exact N.
  - intros e He. apply H. exact He.
  - intros e He. destruct (H e He) as (_ & A & B & C). auto.
  - constructor.
  - intros t [].
  - intros t [].
  - apply seq_NoDup.
  - intros v Hv. apply in_seq in Hv. lia.
Qed.
Ltac start_wf := apply start_wf; [cbn; repeat constructor; cbn; intuition lia|
  cbn; intros e He; repeat (destruct He as [<-|He]; [cbn; lia|]); destruct He].
Ltac square_ok := let v := fresh in let H := fresh in intros v H; cbn in H;
  do 8 (destruct v as [|v]; [try reflexivity; exfalso; cbn in H; lia|]); exfalso; cbn in H; lia.

(* unit square, two triangles *)
Definition sq_pts := [V2 0 0; V2 2 0; V2 2 2; V2 0 2].
Definition sq_front := [bnd 0 0 1; bnd 1 1 2; bnd 2 2 3; bnd 3 3 0].
Definition sq := start sq_pts sq_front.
Definition sq_ops := [FSort false; FUpdate 0 (V2 1 1) [2%nat]; FUpdate 4 (V2 1 1) [3%nat; 1%nat]].
Definition sq_valid := triangle_is_valid (fun _ => 2) no_shape (edge_pts sq_pts sq_front).
Definition sq_vertex := vertex_is_valid (fun _ => 2) (fun _ => true).
Definition sq_run := frun (21 # 5) sq_valid sq_vertex (fun _ _ => 0) sq sq_ops.
Definition sq_end := match sq_run with Ok s => s | _ => sq end.
Lemma sq_wf : wf sq. Proof. start_wf. Qed.
Lemma sq_square : vertices_in front_scale sq. Proof. unfold sq. square_ok. Qed.
Lemma sq_ops_in : Forall (op_in front_scale) sq_ops.
Proof. repeat constructor. Qed.
Lemma sq_ends : sq_run = Ok sq_end /\ ms_front sq_end = [] /\ length (generated sq_end) = 2%nat.
Proof. split; [|split]; vm_compute; reflexivity. Qed.
Lemma sq_closed : closed sq_front.
Proof. intros v. do 4 (destruct v as [|v]; [reflexivity|]). reflexivity. Qed.
Lemma sq_no_ghosts : no_ghosts sq.
Proof. intros e He. cbn in He. repeat (destruct He as [<-|He]; [reflexivity|]). destruct He. Qed.
Ltac dismiss := let e := fresh in let H := fresh in intros e H; vm_compute in H;
  try discriminate; injection H as <-; split; reflexivity.
Lemma sq_accepted : accepted (21 # 5) sq_valid sq_vertex (fun _ _ => 0)
  (fun s t => sides_expected s t /\ not_overlapping sq_front s t) sq sq_ops.
Proof.
  unfold sq_ops. cbn [accepted].
  match goal with |- match ?x with _ => _ end => let y := eval vm_compute in x in
    replace x with y by (vm_compute; reflexivity) end. cbv beta iota.
  match goal with |- match ?x with _ => _ end => let y := eval vm_compute in x in
    replace x with y by (vm_compute; reflexivity) end. cbv beta iota.
  split; [split; split; [dismiss|dismiss|intros _; split; vm_compute; reflexivity|intros H; vm_compute in H; discriminate]|].
  match goal with |- match ?x with _ => _ end => let y := eval vm_compute in x in
    replace x with y by (vm_compute; reflexivity) end. cbv beta iota.
  split; [|exact I].
  split; split; [dismiss|dismiss|intros H; vm_compute in H; discriminate|intros H; vm_compute in H; discriminate].
Qed.
Lemma accepted_imp (P Q : mstate -> tri -> Prop) sc tok vok ql os : (forall s t, P s t -> Q s t) ->
  forall st, accepted sc tok vok ql P st os -> accepted sc tok vok ql Q st os.
Proof.
  intros HPQ. induction os as [|o os IH]; intros st X; [exact I|]. cbn [accepted] in *.
  destruct (fstep sc tok vok ql st o) as [[s1 [t|]]| |]; try exact I.
  - destruct X. split; auto.
  - auto.
Qed.

(* square with a slit: two opposite edges between the same vertices *)
Definition slit_pts := [V2 0 0; V2 4 0; V2 4 4; V2 0 4; V2 1 2; V2 3 2].
Definition slit_front := [bnd 0 0 1; bnd 1 1 2; bnd 2 2 3; bnd 3 3 0; bnd 4 4 5; bnd 5 5 4].
Definition slit := start slit_pts slit_front.
Definition slit_ops := [FUpdate 0 (V2 2 1) [4%nat]; FUpdate 7 (V2 2 1) [5%nat]].
Definition slit_valid := triangle_is_valid (fun _ => 2) no_shape (edge_pts slit_pts slit_front).
Definition slit_run := frun (42 # 5) slit_valid sq_vertex (fun _ _ => 0) slit slit_ops.
Definition slit_end := match slit_run with Ok s => s | _ => slit end.

(* a triangular domain that is larger than the quadtree of the front *)
Definition big_pts := [V2 0 0; V2 30000 0; V2 0 30000].
Definition big_front := [bnd 0 0 1; bnd 1 1 2; bnd 2 2 0].
Definition big := start big_pts big_front.
Definition big_ops := [FUpdate 0 (V2 10000 10000) [2%nat]].
Definition big_valid := triangle_is_valid (fun _ => 30000) no_shape (edge_pts big_pts big_front).
Definition big_run := frun 63000 big_valid sq_vertex (fun _ _ => 0) big big_ops.
Definition big_end := match big_run with Ok s => s | _ => big end.

(* a flat domain near the edge of the quadtree of the mesh *)
Definition flat_pts := [V2 (-10) (19 # 2); V2 0 (19 # 2); V2 10 (19 # 2); V2 10 10; V2 0 10; V2 (-10) 10].
Definition flat_front := [bnd 0 0 1; bnd 1 1 2; bnd 2 2 3; bnd 3 3 4; bnd 4 4 5; bnd 5 5 0].
Definition flat := start flat_pts flat_front.
Definition flat_inside (x : vec2) : bool := in_rect x (V2 (-10) (19 # 2)) (V2 10 10).
Definition flat_op := FUpdate 0 (V2 (-5) 18) [].
Definition flat_valid := triangle_is_valid (fun _ => 2) no_shape (edge_pts flat_pts flat_front).
Definition flat_step := fstep 21 flat_valid (vertex_is_valid (fun _ => 2) flat_inside) (fun _ _ => 0) flat flat_op.
Definition flat_end := match flat_step with Ok (s, _) => s | _ => flat end.

(* ---------------------------------------------------------------- *)
(* C23: the front stays closed.

   As stated FALSE for domains with a slit, even with all geometric tests in
   place: EdgeList::get_edge_nodir ignores the direction and returns the older
   of the two slit edges. *)
Theorem C23_refuted : exists mesh_scale rho dom inside st os st',
  wf st /\ vertices_in front_scale st /\ Forall (op_in front_scale) os /\ closed (ms_front st) /\
  frun mesh_scale (triangle_is_valid rho no_shape dom) (vertex_is_valid rho inside) (fun _ _ => 0) st os = Ok st' /\
  ~ closed (ms_front st').
Proof.
  exists (42 # 5), (fun _ => 2), (edge_pts slit_pts slit_front), (fun _ => true), slit, slit_ops, slit_end.
  split; [start_wf|]. split; [unfold slit; square_ok|]. split; [repeat constructor|].
  split; [intros v; do 6 (destruct v as [|v]; [reflexivity|]); reflexivity|].
  split; [vm_compute; reflexivity|]. intros H. specialize (H 5%nat). vm_compute in H. discriminate.
Qed.

(* What holds for any acceptance tests and any history: vertices inside of the
   square of the front's quadtree; every accepted triangle closes the edges that
   run along it. *)
Theorem C23_front_closed_partial : forall mesh_scale tri_ok vtx_ok qual os st st',
  wf st -> vertices_in front_scale st -> Forall (op_in front_scale) os ->
  accepted mesh_scale tri_ok vtx_ok qual sides_expected st os ->
  frun mesh_scale tri_ok vtx_ok qual st os = Ok st' ->
  closed (ms_front st) -> closed (ms_front st').
Proof. exact run_closed. Qed.

(* without that assumption: the parity of the number of front edges at a vertex
   never changes *)
Theorem C23_parity_partial : forall mesh_scale tri_ok vtx_ok qual os st st' v,
  wf st -> vertices_in front_scale st -> no_ghosts st -> Forall (op_in front_scale) os ->
  frun mesh_scale tri_ok vtx_ok qual st os = Ok st' ->
  Nat.even (degree v (ms_front st')) = Nat.even (degree v (ms_front st)).
Proof. intros. eapply run_degree; eassumption. Qed.

(* the assumption follows from the geometric tests where entering and leaving
   front edges alternate around a vertex *)
Theorem C23_expected_edges_partial : forall rho shape_ok dom st t base,
  triangle_is_valid rho shape_ok dom st t = true -> In base (ms_front st) ->
  tr_v1 t = be_v1 base -> tr_v2 t = be_v2 base ->
  orientation (ms_pos st (tr_v1 t)) (ms_pos st (tr_v2 t)) (ms_pos st (tr_v3 t)) = CCW ->
  alternating (ms_pos st) (ms_front st) -> in_reach rho st t -> sides_expected st t.
Proof. exact valid_sides_expected. Qed.

Example C23_case : wf sq /\ vertices_in front_scale sq /\ Forall (op_in front_scale) sq_ops /\
  accepted (21 # 5) sq_valid sq_vertex (fun _ _ => 0) sides_expected sq sq_ops /\
  sq_run = Ok sq_end /\ closed (ms_front sq) /\ no_ghosts sq.
Proof.
  split; [exact sq_wf|]. split; [exact sq_square|]. split; [exact sq_ops_in|].
  split; [|split; [apply sq_ends|split; [exact sq_closed|exact sq_no_ghosts]]].
  refine (accepted_imp _ _ _ _ _ _ _ _ _ sq_accepted). tauto.
Qed.
Example C23_expected_case :
  let t := TR 0 0 1 2 false 7 in
  let st := fst (add_triangle sq 0 1 2) in
  sq_valid st t = true /\ alternating (ms_pos st) (ms_front st) /\ in_reach (fun _ => 2) st t.
Proof.
  cbv zeta. split; [vm_compute; reflexivity|]. split.
  - split; intros e f He Hf E O; cbn in He, Hf;
      repeat (destruct He as [<-|He]; [repeat (destruct Hf as [<-|Hf]; [vm_compute in E, O; discriminate|]); destruct Hf|]);
      destruct He.
  - intros g Hg _. cbn in Hg. unfold near.
    repeat (destruct Hg as [<-|Hg]; [repeat split; vm_compute; tauto|]). destruct Hg.
Qed.

(* ---------------------------------------------------------------- *)
(* C24: areas.  FALSE as stated: front edges with a midpoint outside of
   [-5000,5000]^2 are never removed from the front. *)
Theorem C24_refuted : exists mesh_scale rho dom inside st os st',
  wf st /\ vertices_in mesh_scale st /\ closed (ms_front st) /\ generated st = [] /\
  frun mesh_scale (triangle_is_valid rho no_shape dom) (vertex_is_valid rho inside) (fun _ _ => 0) st os = Ok st' /\
  ~ tri_areas (ms_pos st') (generated st') + enclosed (ms_pos st') (ms_front st') ==
    enclosed (ms_pos st) (ms_front st).
Proof.
  exists 63000, (fun _ => 30000), (edge_pts big_pts big_front), (fun _ => true), big, big_ops, big_end.
  split; [start_wf|]. split; [unfold big; square_ok|].
  split; [intros v; do 3 (destruct v as [|v]; [reflexivity|]); reflexivity|]. split; [reflexivity|].
  split; [vm_compute; reflexivity|]. vm_compute. discriminate.
Qed.

Theorem C24_area_conserved_partial : forall mesh_scale tri_ok vtx_ok qual os st st',
  wf st -> vertices_in front_scale st -> Forall (op_in front_scale) os ->
  accepted mesh_scale tri_ok vtx_ok qual sides_expected st os ->
  frun mesh_scale tri_ok vtx_ok qual st os = Ok st' ->
  tri_areas (ms_pos st') (generated st') + enclosed (ms_pos st') (ms_front st') ==
  tri_areas (ms_pos st) (generated st) + enclosed (ms_pos st) (ms_front st).
Proof. exact run_area. Qed.

(* empty front: the elements cover exactly the area of the initial front *)
Theorem C24_covered_partial : forall mesh_scale tri_ok vtx_ok qual os st st',
  wf st -> vertices_in front_scale st -> Forall (op_in front_scale) os ->
  accepted mesh_scale tri_ok vtx_ok qual sides_expected st os ->
  frun mesh_scale tri_ok vtx_ok qual st os = Ok st' ->
  generated st = [] -> ms_area st == 0 -> ms_front st' = [] ->
  tri_areas (ms_pos st') (generated st') == enclosed (ms_pos st) (ms_front st) /\
  ms_area st' == enclosed (ms_pos st) (ms_front st).
Proof.
  intros mesh_scale tri_ok vtx_ok qual os st st' W V O X H G A F.
  pose proof (run_area mesh_scale tri_ok vtx_ok qual os st st' W V O X H) as E.
  destruct (run_wf mesh_scale tri_ok vtx_ok qual os st st' W H) as (_ & _ & _ & B).
  rewrite F, G in E. rewrite G in B.
  unfold enclosed at 1 in E. cbn [ends map esum] in E. unfold tri_areas at 2 in E. cbn [map sumQ] in E.
  unfold tri_areas at 2 in B. cbn [map sumQ] in B. split; lra.
Qed.

(* the reported area follows the elements without any assumption *)
Theorem C24_reported_area : forall mesh_scale tri_ok vtx_ok qual os st st',
  wf st -> frun mesh_scale tri_ok vtx_ok qual st os = Ok st' ->
  ms_area st == tri_areas (ms_pos st) (generated st) ->
  ms_area st' == tri_areas (ms_pos st') (generated st').
Proof.
  intros mesh_scale tri_ok vtx_ok qual os st st' W H E.
  destruct (run_wf mesh_scale tri_ok vtx_ok qual os st st' W H) as (_ & _ & _ & B). lra.
Qed.

(* with the tests of the code every generated element has positive area *)
Theorem C24_positive : forall rho shape_ok dom mesh_scale inside qual os st st',
  wf st -> generated st = [] ->
  frun mesh_scale (triangle_is_valid rho shape_ok dom) (vertex_is_valid rho inside) qual st os = Ok st' ->
  forall t, In t (generated st') ->
    0 < tri_area (ms_pos st' (tr_v1 t)) (ms_pos st' (tr_v2 t)) (ms_pos st' (tr_v3 t)).
Proof.
  intros rho shape_ok dom mesh_scale inside qual os st st' W G H.
  refine (proj1 (run_clean rho shape_ok dom mesh_scale inside qual os st st' W _ _ H)).
  - intros t Ht. rewrite G in Ht. destruct Ht.
  - intros s t Hs. rewrite G in Hs. destruct Hs.
Qed.

Example C24_case : generated sq = [] /\ ms_area sq == 0 /\ ms_front sq_end = [] /\
  enclosed (ms_pos sq) (ms_front sq) == 4 /\ ms_area sq_end == 4 /\ length (generated sq_end) = 2%nat.
Proof. repeat split; vm_compute; reflexivity. Qed.

(* ---------------------------------------------------------------- *)
(* C25: conformity.  Every history, no assumption on the accepted triangles:
   the number of triangle sides between two vertices is twice the number of
   interior mesh edges between them plus the number of consumed boundary edges,
   up to what is still in the front. *)
Theorem C25_edge_balance_partial : forall mesh_scale tri_ok vtx_ok qual os st st' p q,
  wf st -> vertices_in front_scale st -> no_ghosts st -> Forall (op_in front_scale) os ->
  frun mesh_scale tri_ok vtx_ok qual st os = Ok st' ->
  (uses_any p q (sides (generated st')) + 2 * uses_any p q (ms_intr st)
     + uses_any p q (ends (filter interior (ms_front st)))
     + uses_any p q (ends (filter (fun e => negb (interior e)) (ms_front st'))) =
   uses_any p q (sides (generated st)) + 2 * uses_any p q (ms_intr st')
     + uses_any p q (ends (filter interior (ms_front st')))
     + uses_any p q (ends (filter (fun e => negb (interior e)) (ms_front st))))%nat.
Proof. exact run_edges. Qed.

(* Elements on both sides: with an empty front the sides cancel except along
   the initial front. *)
Theorem C25_cancel_partial : forall mesh_scale tri_ok vtx_ok qual os st st' p q,
  wf st -> vertices_in front_scale st -> Forall (op_in front_scale) os ->
  accepted mesh_scale tri_ok vtx_ok qual sides_expected st os ->
  frun mesh_scale tri_ok vtx_ok qual st os = Ok st' ->
  generated st = [] -> ms_front st' = [] ->
  (uses p q (sides (generated st')) + uses q p (ends (ms_front st)) =
   uses q p (sides (generated st')) + uses p q (ends (ms_front st)))%nat.
Proof.
  intros mesh_scale tri_ok vtx_ok qual os st st' p q W V O X H G F.
  pose proof (run_anti mesh_scale tri_ok vtx_ok qual _ os st st' (w_anti_antisym p q) W V O X H) as E.
  unfold wtotal in E. rewrite G, F in E. change (sides []) with (@nil (nat * nat)) in E.
  change (ends []) with (@nil (nat * nat)) in E. cbn [esum] in E. rewrite !esum_anti in E.
  apply nQ_inj. rewrite !nQ_plus. lra.
Qed.

(* Exactly once, and exactly one interior edge object for every inner side, if
   the accepted triangles do not lie on sides that are taken already. *)
Theorem C25_conform_partial : forall mesh_scale tri_ok vtx_ok qual os st st',
  wf st -> vertices_in front_scale st -> no_ghosts st -> Forall (op_in front_scale) os ->
  generated st = [] -> ms_intr st = [] -> (forall e, In e (ms_front st) -> interior e = false) ->
  (forall p q, uses_any p q (ends (ms_front st)) <= 1)%nat ->
  accepted mesh_scale tri_ok vtx_ok qual
    (fun s t => sides_expected s t /\ not_overlapping (ms_front st) s t) st os ->
  frun mesh_scale tri_ok vtx_ok qual st os = Ok st' -> ms_front st' = [] ->
  forall p q, p <> q ->
    (uses p q (ends (ms_front st)) = 1%nat ->
       uses p q (sides (generated st')) = 1%nat /\ uses q p (sides (generated st')) = 0%nat /\
       uses_any p q (ms_intr st') = 0%nat) /\
    (uses_any p q (ends (ms_front st)) = 0%nat ->
       uses p q (sides (generated st')) = uses q p (sides (generated st')) /\
       (uses p q (sides (generated st')) <= 1)%nat /\
       uses_any p q (ms_intr st') = uses p q (sides (generated st'))).
Proof. exact run_conform. Qed.

(* ... and this is what the overlap test of the code is for: a valid triangle
   (not thinner than 4*2^-26) has no element on its side of any of its sides
   among the elements in reach *)
Theorem C25_side_free_partial : forall rho shape_ok dom st t, triangle_is_valid rho shape_ok dom st t = true ->
  (forall s, In s (generated st) -> tr_id s <> tr_id t /\ near rho (ms_pos st) t (tri_loc (ms_pos st) s) /\
     4 * tol26 <= det (ms_pos st (tr_v1 s)) (ms_pos st (tr_v2 s)) (ms_pos st (tr_v3 s))) ->
  4 * tol26 <= det (ms_pos st (tr_v1 t)) (ms_pos st (tr_v2 t)) (ms_pos st (tr_v3 t)) ->
  forall a b, In (a, b) (tri_sides t) -> uses a b (sides (generated st)) = 0%nat.
Proof. exact valid_side_free. Qed.

(* elements in reach of one another never conflict *)
Theorem C25_apart_partial : forall rho shape_ok dom mesh_scale inside qual os st st',
  wf st -> generated st = [] ->
  frun mesh_scale (triangle_is_valid rho shape_ok dom) (vertex_is_valid rho inside) qual st os = Ok st' ->
  forall s t, In s (generated st') -> In t (generated st') -> tr_id s <> tr_id t ->
    (near rho (ms_pos st') t (tri_loc (ms_pos st') s) -> conflict (ms_pos st') s t = false) \/
    (near rho (ms_pos st') s (tri_loc (ms_pos st') t) -> conflict (ms_pos st') t s = false).
Proof.
  intros rho shape_ok dom mesh_scale inside qual os st st' W G H.
  refine (proj2 (run_clean rho shape_ok dom mesh_scale inside qual os st st' W _ _ H)).
  - intros t Ht. rewrite G in Ht. destruct Ht.
  - intros s t Hs. rewrite G in Hs. destruct Hs.
Qed.

Example C25_case : wf sq /\ vertices_in front_scale sq /\ no_ghosts sq /\ Forall (op_in front_scale) sq_ops /\
  generated sq = [] /\ ms_intr sq = [] /\ (forall e, In e (ms_front sq) -> interior e = false) /\
  (forall p q, uses_any p q (ends (ms_front sq)) <= 1)%nat /\
  accepted (21 # 5) sq_valid sq_vertex (fun _ _ => 0)
    (fun s t => sides_expected s t /\ not_overlapping (ms_front sq) s t) sq sq_ops /\
  sq_run = Ok sq_end /\ ms_front sq_end = [] /\ ms_intr sq_end = [(0, 2)]%nat.
Proof.
  split; [exact sq_wf|]. split; [exact sq_square|]. split; [exact sq_no_ghosts|]. split; [exact sq_ops_in|].
  split; [reflexivity|]. split; [reflexivity|]. split.
  { intros e He. cbn in He. repeat (destruct He as [<-|He]; [reflexivity|]). destruct He. }
  split.
  { intros p q. do 5 (destruct p as [|p]; [do 5 (destruct q as [|q]; [vm_compute; lia|]); vm_compute; lia|]).
    do 5 (destruct q as [|q]; [vm_compute; lia|]). vm_compute. lia. }
  split; [exact sq_accepted|]. split; [apply sq_ends|]. split; [apply sq_ends|]. vm_compute. reflexivity.
Qed.

(* ---------------------------------------------------------------- *)
(* C26: a rejected element.  FALSE as stated: a rejected vertex outside of the
   square of the mesh's quadtree cannot be removed and stays in the mesh. *)
Theorem C26_refuted : exists mesh_scale rho dom inside st o st',
  wf st /\ vertices_in mesh_scale st /\
  fstep mesh_scale (triangle_is_valid rho no_shape dom) (vertex_is_valid rho inside) (fun _ _ => 0) st o = Ok (st', None) /\
  length (ms_verts st') = S (length (ms_verts st)).
Proof.
  exists 21, (fun _ => 2), (edge_pts flat_pts flat_front), flat_inside, flat, flat_op, flat_end.
  split; [start_wf|]. split; [unfold flat; square_ok|]. split; vm_compute; reflexivity.
Qed.

Theorem C26_no_trace_partial : forall mesh_scale tri_ok vtx_ok qual st k xy cands st',
  wf st -> vertices_in mesh_scale st -> in_square mesh_scale xy = true ->
  fstep mesh_scale tri_ok vtx_ok qual st (FUpdate k xy cands) = Ok (st', None) -> same_mesh st st'.
Proof.
  intros mesh_scale tri_ok vtx_ok qual st k xy cands st' W V X H. cbn [fstep] in H.
  apply update_front_spec in H; [|exact W|].
  - destruct H as (_ & _ & _ & S). exact (S V X).
  - intros v Hv. apply filter_In in Hv. apply in_list_spec. apply Hv.
Qed.

Theorem C26_exhaustive_no_trace : forall mesh_scale tri_ok vtx_ok qual st k v st',
  wf st -> vertices_in mesh_scale st ->
  fstep mesh_scale tri_ok vtx_ok qual st (FExhaust k v) = Ok (st', None) -> same_mesh st st'.
Proof.
  intros mesh_scale tri_ok vtx_ok qual st k v st' W V H. cbn [fstep] in H.
  destruct (existsb (incident v) (ms_front st)) eqn:E; [|discriminate]. apply (incident_lt _ _ W) in E.
  apply update_exhaustive_spec in H; [|exact W|exact E]. destruct H as (_ & _ & _ & S). exact (S V).
Qed.

Example C26_case : exists st', wf sq /\ vertices_in (21 # 5) sq /\ in_square (21 # 5) (V2 1 (-1)) = true /\
  fstep (21 # 5) sq_valid (vertex_is_valid (fun _ => 2) (fun x => in_rect x (V2 0 0) (V2 2 2))) (fun _ _ => 0)
    sq (FUpdate 0 (V2 1 (-1)) [0%nat; 1%nat]) = Ok (st', None) /\
  fstep (21 # 5) (fun _ _ => false) (fun _ _ => true) (fun _ _ => 0) sq (FExhaust 0 2) = Ok (remove_triangle (21 # 5) (fst (add_triangle sq 0 1 2)) (TR 0 0 1 2 false 7), None).
Proof.
  eexists. split; [exact sq_wf|]. split; [unfold sq; square_ok|]. split; [reflexivity|].
  split; vm_compute; reflexivity.
Qed.

Print Assumptions C23_refuted.
Print Assumptions C23_front_closed_partial.
Print Assumptions C23_parity_partial.
Print Assumptions C23_expected_edges_partial.
Print Assumptions C24_refuted.
Print Assumptions C24_area_conserved_partial.
Print Assumptions C24_covered_partial.
Print Assumptions C24_reported_area.
Print Assumptions C24_positive.
Print Assumptions C25_edge_balance_partial.
Print Assumptions C25_cancel_partial.
Print Assumptions C25_conform_partial.
Print Assumptions C25_side_free_partial.
Print Assumptions C25_apart_partial.
Print Assumptions C26_refuted.
Print Assumptions C26_no_trace_partial.
Print Assumptions C26_exhaustive_no_trace.
