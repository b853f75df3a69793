(* Properties of the initial front: C21 and C22. *)
From Coq Require Import Lia Lqa Permutation.
From Verif Require Import Base Chain GeomModel FacetModel UtilModel BdryModel BdrySpec BdryProofs
  AdvanceModel AdvanceSpec AdvanceProofs FrontModel FrontSpec FrontProofs RefineProofs InitProofs SubProofs.
Open Scope Q_scope.

(* ---------------------------------------------------------------- *)
(* C21: the front edges are, in order, the boundary edges or, where edges of a
   neighbour mesh lie on the boundary edge, these edges reversed; then the fixed
   edges.  Colours are kept, vertices are unique. *)
Theorem C21_edges : forall bounds fixed meshes,
  let d := collect_front_edges bounds fixed meshes in
  distinct (fd_verts d) /\
  Forall2 (matches (fd_verts d)) (fd_edges d)
    (flat_map (wanted meshes) bounds ++ map (fun e => (de_ends e, de_col e)) fixed).
Proof. intros bounds fixed meshes. destruct (collect_spec bounds fixed meshes) as (A & _ & B & _). split; assumption. Qed.

(* the vertices are the end points of these edges, nothing else *)
Theorem C21_vertices : forall bounds fixed meshes x,
  In x (fd_verts (collect_front_edges bounds fixed meshes)) ->
  exists e, In e (bounds ++ fixed ++ concat meshes) /\ (x = de_a e \/ x = de_b e).
Proof.
  intros bounds fixed meshes x Hx. destruct (collect_spec bounds fixed meshes) as (_ & I & _). specialize (I x Hx).
  apply in_app_or in I. destruct I as [I|I]; apply in_flat_map in I; destruct I as (e & He & I).
  - unfold points_of in I. pose proof (neighbours_in meshes e) as N. destruct (neighbours meshes e) as [|n ns].
    + exists e. split; [apply in_or_app; left; exact He|]. destruct I as [<-|[<-|[]]]; auto.
    + apply in_flat_map in I. destruct I as (n' & Hn & I). exists n'.
      split; [apply in_or_app; right; apply in_or_app; right; apply (N n' Hn)|]. destruct I as [<-|[<-|[]]]; auto.
  - exists e. split; [apply in_or_app; right; apply in_or_app; left; exact He|]. destruct I as [<-|[<-|[]]]; auto.
Qed.

(* the neighbour edges of a boundary edge: all edges of the meshes that are close
   and lie on it *)
Theorem C21_neighbours : forall meshes e,
  Permutation (neighbours meshes e) (filter (on_de e) (filter (near_de e) (concat meshes))).
Proof. exact neighbours_perm. Qed.

(* closed boundaries: FALSE as stated when the neighbour edges cover a boundary
   edge only in part *)
Definition e0 (a b c d : Q) (col : Z) : dedge := DE (V2 a b) (V2 c d) col false.
Definition box : list dedge := [e0 0 0 4 0 1; e0 4 0 4 4 2; e0 4 4 0 4 3; e0 0 4 0 0 4].
Definition no_sub : vec2 -> vec2 -> list vec2 := fun _ _ => [].

Theorem C21_closed_refuted : exists bounds meshes,
  closed_curves (map de_ends bounds) /\
  (forall e, In e (bounds ++ concat meshes) -> de_fix e = false /\ veqb (de_a e) (de_b e) = false) /\
  ~ closed (ms_front (prepared no_sub (collect_front_edges bounds [] meshes) [] 0%Z)).
Proof.
  exists box, [[e0 4 3 4 1 7]]. split; [|split].
  - intros x. unfold starting, ending, box. cbn [map de_ends e0 de_a de_b fst snd filter].
    rewrite (veqb_sym (V2 0 0) x), (veqb_sym (V2 4 0) x), (veqb_sym (V2 4 4) x), (veqb_sym (V2 0 4) x).
    destruct (veqb x (V2 0 0)), (veqb x (V2 4 0)), (veqb x (V2 4 4)), (veqb x (V2 0 4)); reflexivity.
  - intros e H. cbn in H. repeat (destruct H as [<-|H]; [split; reflexivity|]). destruct H.
  - intros C. specialize (C 1%nat). vm_compute in C. discriminate C.
Qed.

(* what remains: boundaries without neighbour edges or with neighbour edges that
   cover the boundary edge, in a square of side 10000 around the origin.  The
   state from which the mesh generation starts meets the assumptions of the
   theorems on the advancing front (C23 - C27). *)
Theorem C21_start_partial : forall bounds fixed meshes sub loose col,
  closed_curves (map de_ends bounds) ->
  (forall e, In e bounds -> neighbours meshes e <> [] -> covered e (neighbours meshes e)) ->
  (forall e, In e bounds -> de_fix e = false) -> (forall e, In e fixed -> de_fix e = true) ->
  (forall e, In e (concat meshes) -> de_fix e = false) ->
  (forall e, In e (bounds ++ fixed ++ concat meshes) -> veqb (de_a e) (de_b e) = false /\
     in_square front_scale (de_a e) = true /\ in_square front_scale (de_b e) = true) ->
  (forall a b p, In p (sub a b) -> in_square front_scale a = true -> in_square front_scale b = true ->
     in_square front_scale p = true) ->
  (forall p, In p loose -> in_square front_scale p = true) ->
  let d := collect_front_edges bounds fixed meshes in
  let st := prepared sub d loose col in
  wf st /\ closed (ms_front st) /\ vertices_in front_scale st /\ no_ghosts st /\
  generated st = [] /\ ms_intr st = [] /\ ms_area st == 0 /\ filter interior (ms_front st) = [] /\
  closed (rs_front (init_front sub d)).
Proof.
  intros bounds fixed meshes sub loose col C CV HB HF HM HE HS HL d st.
  assert (OK : indices_ok d) by apply collect_indices.
  assert (SQ : coords_in front_scale d).
  { apply collect_coords; [intros e He; apply (HE e He)|]. intros e n Hn. exact (proj1 (neighbours_in _ _ _ Hn)). }
  assert (PR : proper d) by (apply collect_proper; intros e He; apply (HE e He)).
  assert (CL : forall v, in_deg v (map fe_ends (filter (fun f => negb (fe_fix f)) (fd_edges d))) =
             out_deg v (map fe_ends (filter (fun f => negb (fe_fix f)) (fd_edges d)))).
  { apply (closed_indices (fd_verts d) _ (flat_map (wanted meshes) bounds)).
    - apply (proj1 (C21_edges bounds fixed meshes)).
    - apply collect_loose; assumption.
    - apply wanted_closed; assumption. }
  split; [apply prepared_wf; assumption|]. split; [apply prepared_closed; assumption|].
  split; [apply prepared_square; assumption|].
  split; [intros e He; unfold ghost; rewrite (prepared_props sub d loose col OK SQ e He); reflexivity|].
  split; [reflexivity|]. split; [reflexivity|]. split; [reflexivity|]. split.
  - apply filter_none. intros e He. unfold interior. rewrite (prepared_props sub d loose col OK SQ e He). reflexivity.
  - apply ghost_front_closed; assumption.
Qed.

(* the front encloses the area of the boundary edges (or of the neighbour edges
   that replace them), whatever sub vertices on the edges are added *)
Theorem C21_area_partial : forall bounds fixed meshes sub loose col,
  (forall e, In e bounds -> de_fix e = false) -> (forall e, In e fixed -> de_fix e = true) ->
  (forall e, In e (concat meshes) -> de_fix e = false) ->
  (forall e, In e (bounds ++ fixed ++ concat meshes) -> veqb (de_a e) (de_b e) = false /\
     in_square front_scale (de_a e) = true /\ in_square front_scale (de_b e) = true) ->
  (forall a b, Forall (on_line a b) (sub a b)) ->
  let st := prepared sub (collect_front_edges bounds fixed meshes) loose col in
  enclosed (ms_pos st) (ms_front st) ==
  (1 # 2) * sumQ (map (fun w => vcross (fst (fst w)) (snd (fst w))) (flat_map (wanted meshes) bounds)).
Proof.
  intros bounds fixed meshes sub loose col HB HF HM HE HS st.
  set (d := collect_front_edges bounds fixed meshes) in *.
  assert (OK : indices_ok d) by apply collect_indices.
  assert (SQ : coords_in front_scale d).
  { apply collect_coords; [intros e He; apply (HE e He)|]. intros e n Hn. exact (proj1 (neighbours_in _ _ _ Hn)). }
  assert (PR : proper d) by (apply collect_proper; intros e He; apply (HE e He)).
  unfold st. rewrite prepared_area by assumption. apply Qmult_comp; [reflexivity|].
  unfold posn. apply matched_area. apply collect_loose; assumption.
Qed.

(* a box with a neighbour mesh along the whole right side (two edges), a fixed
   edge in the interior and one sub vertex per edge *)
Definition half (a b : vec2) : list vec2 := [vscale (1 # 2) (vadd a b)].
Definition right_mesh : list dedge := [e0 4 4 4 2 7; e0 4 2 4 0 8; e0 4 0 8 0 9].
Definition inner_edge : dedge := DE (V2 1 1) (V2 2 2) 5 true.
Definition box_data : fdata := collect_front_edges box [inner_edge] [right_mesh].
Definition box_start : mstate := prepared half box_data [V2 3 1] 0.

Lemma box_closed : closed_curves (map de_ends box).
Proof.
  intros x. unfold starting, ending, box. cbn [map de_ends e0 de_a de_b fst snd filter].
  rewrite (veqb_sym (V2 0 0) x), (veqb_sym (V2 4 0) x), (veqb_sym (V2 4 4) x), (veqb_sym (V2 0 4) x).
  destruct (veqb x (V2 0 0)), (veqb x (V2 4 0)), (veqb x (V2 4 4)), (veqb x (V2 0 4)); reflexivity.
Qed.
Example C21_case :
  closed_curves (map de_ends box) /\
  (forall e, In e box -> neighbours [right_mesh] e <> [] -> covered e (neighbours [right_mesh] e)) /\
  (forall e, In e (box ++ [inner_edge] ++ concat [right_mesh]) -> veqb (de_a e) (de_b e) = false /\
     in_square front_scale (de_a e) = true /\ in_square front_scale (de_b e) = true) /\
  (forall a b p, In p (half a b) -> in_square front_scale a = true -> in_square front_scale b = true ->
     in_square front_scale p = true) /\
  length (fd_verts box_data) = 7%nat /\ length (ms_front box_start) = 8%nat /\
  map be_col (ms_front box_start) = [1; 1; 8; 7; 3; 3; 4; 4]%Z /\
  enclosed (ms_pos box_start) (ms_front box_start) == 16.
Proof.
  split; [exact box_closed|]. split; [|split; [|split; [|split; [|split; [|split]]]]].
  - intros e H. cbn in H. destruct H as [<-|[<-|[<-|[<-|[]]]]]; intros N; try (exfalso; apply N; reflexivity).
    unfold covered. exists [(V2 4 0, V2 4 2); (V2 4 2, V2 4 4)]. split; [vm_compute; apply Permutation_refl|].
    cbn. repeat split; reflexivity.
  - intros e H. cbn in H. repeat (destruct H as [<-|H]; [vm_compute; auto|]). destruct H.
  - intros a b p [<-|[]] A B.  pose proof (in_square_mid front_scale (fun v => if Nat.eqb v 0 then a else b) (BE 0 0 1 0%Z 0%N) A B) as X. exact X.
  - reflexivity.
  - reflexivity.
  - reflexivity.
  - vm_compute. reflexivity.
Qed.

(* ---------------------------------------------------------------- *)
(* C22: FALSE as stated (1): an edge with a midpoint outside of [-5000,5000]^2 is
   not removed after its refinement *)
Definition big_box : fdata := FD [V2 0 0; V2 8000 0; V2 8000 8000; V2 0 8000]
  [FE 0 1 1 false false; FE 1 2 1 false false; FE 2 3 1 false false; FE 3 0 1 false false].
Theorem C22_stale_refuted : exists sub d, indices_ok d /\ proper d /\
  (forall v, in_deg v (map fe_ends (fd_edges d)) = out_deg v (map fe_ends (fd_edges d))) /\
  (forall a b, Forall (on_line a b) (sub a b)) /\
  let st := refined_state sub d in
  ~ closed (rs_front st) /\ ~ enclosed (rs_pos st) (rs_front st) == area_of d.
Proof.
  exists half, big_box. split; [|split; [|split; [|split; [|split]]]].
  - intros f H. cbn in H. repeat (destruct H as [<-|H]; [cbn; lia|]). destruct H.
  - intros f H. cbn in H. repeat (destruct H as [<-|H]; [cbn; lia|]). destruct H.
  - intros v. do 4 (destruct v as [|v]; [reflexivity|]). reflexivity.
  - intros a b. constructor; [|constructor]. exists (1 # 2). split; cbn; ring.
  - intros C. specialize (C 1%nat). vm_compute in C. discriminate C.
  - vm_compute. discriminate.
Qed.

(* (2): the new vertices can lie outside of the edge when the size function
   varies strongly *)
Definition wild (x : vec2) : Q := if Qltb (vx x) (3 # 2) then 1 else 100.
Theorem C22_inside_refuted : exists fuel rho len a b pts,
  0 < len /\ len * len == vnorm2 (vsub b a) /\ (forall x, 1 <= rho x) /\
  sub_coords fuel rho len a b = Some pts /\ ~ strictly_inside a b pts.
Proof.
  exists 5%nat, wild, 10, (V2 0 0), (V2 10 0), [V2 (-3240 # 80) (0 # 80)].
  split; [lra|]. split; [reflexivity|]. split; [intros x; unfold wild; destruct (Qltb _ _); lra|].
  split; [vm_compute; reflexivity|]. intros (ss & I & F). inversion F as [|s p l l' V F' X Y]; subst. inversion F'; subst.
  destruct I as [I _]. destruct V as [V _]. cbn in V. lra.
Qed.

(* what remains.  For every list of sub vertices: the front is the concatenation
   of one chain per edge, from the same start to the same end vertex through the
   sub vertices in order, with the colour and the properties of the edge *)
Theorem C22_chains_partial : forall sub d, indices_ok d -> coords_in front_scale d ->
  let st := refined_state sub d in
  (exists css, rs_front st = concat css /\
     Forall2 (fun f cs => chain_of (rs_pos st) f (edge_inner sub d f) cs) (fd_edges d) css) /\
  (forall v, (v < length (fd_verts d))%nat -> rs_pos st v = nth v (fd_verts d) (V2 0 0)) /\
  Permutation (rs_verts st) (seq 0 (rs_nv st)) /\
  NoDup (map be_id (rs_front st)).
Proof.
  intros sub d OK SQ st. destruct (refined_spec sub d OK SQ) as (A & B & C & D & _).
  split; [exact A|]. split; [exact B|]. split; [exact C|exact D].
Qed.

(* the area, for all points on the lines through the edges *)
Theorem C22_area_partial : forall sub d, indices_ok d -> coords_in front_scale d ->
  (forall a b, Forall (on_line a b) (sub a b)) ->
  enclosed (rs_pos (refined_state sub d)) (rs_front (refined_state sub d)) == area_of d.
Proof. exact refined_area. Qed.
Theorem C22_closed_partial : forall sub d, indices_ok d -> coords_in front_scale d ->
  (forall v, in_deg v (map fe_ends (fd_edges d)) = out_deg v (map fe_ends (fd_edges d))) ->
  closed (rs_front (refined_state sub d)).
Proof. exact refined_closed. Qed.

(* the points computed by the code are always on this line *)
Theorem C22_on_line : forall fuel rho len a b pts,
  sub_coords fuel rho len a b = Some pts -> Forall (on_line a b) pts.
Proof. exact sub_coords_on_line. Qed.
(* the loop ends for every size function with a positive lower bound *)
Theorem C22_terminates : forall fuel rho len a b m,
  0 < m -> 0 < len -> (forall x, m <= rho x) -> len < inject_Z (Z.of_nat fuel) * m ->
  exists pts, sub_coords (S fuel) rho len a b = Some pts.
Proof. exact coords_end. Qed.
(* and they are strictly inside of the edge, in order, if the size function
   varies by a factor less than 3/2 *)
Theorem C22_inside_partial : forall fuel rho len a b pts m M,
  0 < m -> 2 * M < 3 * m -> 0 < len -> (forall x, m <= rho x <= M) ->
  sub_coords fuel rho len a b = Some pts -> strictly_inside a b pts.
Proof. exact coords_inside. Qed.

Definition mild (x : vec2) : Q := if Qltb (vx x) 5 then 2 else 5 # 2.
Example C22_case :
  indices_ok box_data /\ coords_in front_scale box_data /\ (forall a b, Forall (on_line a b) (half a b)) /\
  map (fun e => length (edge_inner half box_data e)) (fd_edges box_data) = [1; 0; 0; 1; 1; 1]%nat /\
  (forall x, 2 <= mild x <= 5 # 2) /\ 2 * (5 # 2) < 3 * 2 /\
  option_map (@length vec2) (sub_coords 10 mild 10 (V2 0 0) (V2 10 0)) = Some 4%nat /\
  sub_coords 10 mild 10 (V2 10 0) (V2 0 0) = option_map (@rev vec2) (sub_coords 10 mild 10 (V2 0 0) (V2 10 0)).
Proof.
  split; [apply collect_indices|]. split.
  { apply collect_coords; [|intros e n Hn; exact (proj1 (neighbours_in _ _ _ Hn))].
    intros e H. cbn in H. repeat (destruct H as [<-|H]; [vm_compute; auto|]). destruct H. }
  split; [intros a b; constructor; [|constructor]; exists (1 # 2); split; cbn; ring|].
  split; [reflexivity|]. split; [intros x; unfold mild; destruct (Qltb _ _); lra|]. split; [lra|].
  split; vm_compute; reflexivity.
Qed.

Print Assumptions C21_edges.
Print Assumptions C21_vertices.
Print Assumptions C21_neighbours.
Print Assumptions C21_closed_refuted.
Print Assumptions C21_start_partial.
Print Assumptions C21_area_partial.
Print Assumptions C22_stale_refuted.
Print Assumptions C22_inside_refuted.
Print Assumptions C22_chains_partial.
Print Assumptions C22_area_partial.
Print Assumptions C22_closed_partial.
Print Assumptions C22_on_line.
Print Assumptions C22_terminates.
Print Assumptions C22_inside_partial.
