(* Properties C14-C18, C20, C47, C48: boundaries and domain. *)
From Coq Require Import Lqa Lia Permutation.
From Verif Require Import Base Chain GeomModel GeomSpec UtilModel BdryModel BdrySpec BdryProofs InsideSpec InsideProofs DomainProofs.
Open Scope Q_scope.

(* ---------------- concrete data for the examples ---------------- *)
(* unit square, counter-clockwise *)
Definition sq_vs (v : nat) : vinfo :=
  match v with
  | 0%nat => VI (V2 0 0) 1 2 1%N | 1%nat => VI (V2 1 0) 3 4 1%N
  | 2%nat => VI (V2 1 1) 1 1 1%N | _ => VI (V2 0 1) 1 1 1%N end.
Definition sq_edges : list bedge :=
  [BE 0 0 1 7 1%N; BE 1 1 2 8 1%N; BE 2 2 3 9 1%N; BE 3 3 0 10 1%N].
Definition sq_list : elist := EL OrCCW sq_edges 1.
Definition sq_state : sstate := SS sq_list sq_vs 4 4.
Lemma sq_ok : ss_ok sq_state.
Proof. split; cbn; repeat constructor; cbn; lia. Qed.
Lemma sq_balanced : balanced (ends sq_edges).
Proof. change (ends sq_edges) with (ring_edges [0;1;2;3]%nat). apply ring_balanced. Qed.
(* a search that scans the store *)
Definition scan (store : list vinfo) (xy : vec2) : outcome (option nat) :=
  Ok (find (fun i => match nth_error store i with Some v => veqb (vi_xy v) xy | None => false end) (seq 0 (length store))).
Definition unit_sq : list vec2 := [V2 0 0; V2 1 0; V2 1 1; V2 0 1].

(* ---------------- C14 ---------------- *)
(* one split: e is replaced by two consecutive edges with the colour and the
   properties of e, everything else stays as it is *)
Theorem C14_replaced_by_two vs l k s vn k1 k2 l' vs' :
  NoDup (map be_id (el_edges l)) /\ ~ In k1 (map be_id (el_edges l)) /\ ~ In k2 (map be_id (el_edges l)) /\ k1 <> k2 ->
  split_edge vs l k s vn k1 k2 = Some (l', vs') ->
  exists p e q, el_edges l = p ++ e :: q /\ be_id e = k /\ 0 < s /\ s < 1 /\
    el_edges l' = p ++ BE k1 (be_v1 e) vn (be_col e) (be_prop e) :: BE k2 vn (be_v2 e) (be_col e) (be_prop e) :: q /\
    vs' = set_v vs vn (split_vertex vs e s) /\ el_or l' = el_or l.
Proof. exact (split_shape vs l k s vn k1 k2 l' vs'). Qed.
(* sequences of splits keep area, closedness and order *)
Theorem C14_sequence_of_splits st ops : ss_ok st ->
  let st' := split_run st ops in
  ss_ok st' /\
  enclosed (vpos (ss_vs st')) (el_edges (ss_list st')) == enclosed (vpos (ss_vs st)) (el_edges (ss_list st)) /\
  (balanced (ends (el_edges (ss_list st))) -> balanced (ends (el_edges (ss_list st')))) /\
  (chained (el_edges (ss_list st)) -> chained (el_edges (ss_list st'))) /\
  (length (el_edges (ss_list st)) <= length (el_edges (ss_list st')))%nat.
Proof. exact (split_run_inv ops st). Qed.
Example C14_sequence_nonvacuous :
  map payload (el_edges (ss_list (split_run sq_state [(1%nat, 1#4); (0%nat, 1#2); (5%nat, 3#4); (9%nat, 1#2); (3%nat, 1)]))) =
  [(0,5,7%Z,1%N); (5,1,7%Z,1%N); (1,4,8%Z,1%N); (4,6,8%Z,1%N); (6,7,8%Z,1%N); (7,2,8%Z,1%N); (2,3,9%Z,1%N); (3,0,10%Z,1%N)]%nat.
Proof. reflexivity. Qed.
(* documented position (s near 0 is near v1): the code does the opposite *)
Theorem C14_position_refuted : exists vs l k s vn k1 k2 l' vs' e,
  addr_ok l k1 k2 /\ fresh_vertex l vn /\ In e (el_edges l) /\ be_id e = k /\
  split_edge vs l k s vn k1 k2 = Some (l', vs') /\
  ~ veq (vpos vs' vn) (on_seg (vpos vs (be_v1 e)) (vpos vs (be_v2 e)) s).
Proof.
  exists sq_vs, sq_list, 0%nat, (1#4), 4%nat, 4%nat, 5%nat. do 2 eexists. exists (BE 0 0 1 7 1%N).
  destruct (ss_ok_addr _ sq_ok) as [A B]. split; [exact A|]. split; [exact B|]. split; [left; reflexivity|].
  split; [reflexivity|]. split; [reflexivity|]. intros [H _]. vm_compute in H. discriminate H.
Qed.
Theorem C14_position_partial vs l k s vn k1 k2 l' vs' : addr_ok l k1 k2 ->
  split_edge vs l k s vn k1 k2 = Some (l', vs') ->
  exists e, In e (el_edges l) /\ be_id e = k /\
    veq (vpos vs' vn) (on_seg (vpos vs (be_v1 e)) (vpos vs (be_v2 e)) (1 - s)).
Proof. exact (split_position vs l k s vn k1 k2 l' vs'). Qed.
(* the cached area() is wrong after a split *)
Theorem C14_stored_area_refuted : exists vs l k s vn k1 k2 l' vs',
  addr_ok l k1 k2 /\ fresh_vertex l vn /\ balanced (ends (el_edges l)) /\ chained (el_edges l) /\
  el_area l == enclosed (vpos vs) (el_edges l) /\
  split_edge vs l k s vn k1 k2 = Some (l', vs') /\ ~ el_area l' == el_area l.
Proof.
  exists sq_vs, sq_list, 1%nat, (1#2), 4%nat, 4%nat, 5%nat. do 2 eexists.
  destruct (ss_ok_addr _ sq_ok) as [A B]. split; [exact A|]. split; [exact B|]. split; [exact sq_balanced|].
  split; [cbn; auto|]. split; [reflexivity|]. split; [reflexivity|]. vm_compute. discriminate.
Qed.
(* how far it is off: by the triangle of the list's first vertex and the edge *)
Theorem C14_stored_area_partial vs l k s vn k1 k2 l' vs' : addr_ok l k1 k2 -> fresh_vertex l vn ->
  has_orient (el_or l) = true -> balanced (ends (el_edges l)) ->
  split_edge vs l k s vn k1 k2 = Some (l', vs') ->
  exists e0 e r, el_edges l = e0 :: r /\ In e (e0 :: r) /\ be_id e = k /\
    el_area l' == enclosed (vpos vs) (el_edges l) +
      (1 # 2) * det (vpos vs (be_v1 e0)) (vpos vs (be_v1 e)) (vpos vs (be_v2 e)).
Proof. exact (split_stored_area vs l k s vn k1 k2 l' vs'). Qed.
Example C14_nonvacuous : addr_ok sq_list 4 5 /\ fresh_vertex sq_list 4 /\
  exists l' vs', split_edge sq_vs sq_list 0 (1#4) 4 4 5 = Some (l', vs') /\
    map payload (el_edges l') = [(0,4,7%Z,1%N); (4,1,7%Z,1%N); (1,2,8%Z,1%N); (2,3,9%Z,1%N); (3,0,10%Z,1%N)]%nat.
Proof.
  destruct (ss_ok_addr _ sq_ok) as [A B]. split; [exact A|]. split; [exact B|]. do 2 eexists. split; reflexivity.
Qed.

(* ---------------- C15 ---------------- *)
(* closed chain with one edge per listed point, along or against the listing *)
Theorem C15_closed_chain nearest bt store shape props colors store' l :
  create_boundary_shape nearest bt store shape props colors = Ok (store', l) ->
  let pos := store_pos store' in
  length (el_edges l) = length shape /\ chained (el_edges l) /\ balanced (ends (el_edges l)) /\
  (exists ext, store' = store ++ ext) /\
  (same_points (map (fun e => (pos (be_v1 e), pos (be_v2 e))) (el_edges l)) (ring_edges shape) \/
   same_points (map (fun e => (pos (be_v1 e), pos (be_v2 e))) (el_edges l)) (reverse_edges (ring_edges shape))).
Proof.
  intros E. destruct (create_ok _ _ _ _ _ _ _ _ E) as (H1 & H2 & H3 & H4 & H5 & _). cbv zeta.
  repeat (split; [assumption|]). destruct (is_forward bt (Qltb 0 (polygon_area shape))); auto.
Qed.
Theorem C15_oriented nearest bt store shape props colors store' l :
  create_boundary_shape nearest bt store shape props colors = Ok (store', l) -> ~ polygon_area shape == 0 ->
  match bt with
  | EXTERIOR => 0 < enclosed (store_pos store') (el_edges l)
  | INTERIOR => enclosed (store_pos store') (el_edges l) < 0
  end /\
  ((3 <= length shape)%nat -> el_area l == enclosed (store_pos store') (el_edges l)).
Proof.
  intros E N. destruct (create_ok _ _ _ _ _ _ _ _ E) as (_ & _ & _ & _ & _ & H6 & _ & H8 & _).
  cbv zeta in H6, H8. split; [|exact H8].
  destruct bt; rewrite H6; unfold is_forward; destruct (Qltb 0 (polygon_area shape)) eqn:X; cbn [negb]; qbool; lra.
Qed.
Example C15_nonvacuous : exists store' l,
  create_boundary_shape scan INTERIOR [VI (V2 1 1) 5 5 0%N] unit_sq [(1,1);(1,1);(1,1);(1,1)] [7;8;9;10]%Z = Ok (store', l) /\
  ~ polygon_area unit_sq == 0 /\ map payload (el_edges l) <> [].
Proof. do 2 eexists. split; [vm_compute; reflexivity|]. split; vm_compute; discriminate. Qed.

(* ---------------- C16 ---------------- *)
Theorem C16_colours_refuted : exists nearest bt store shape props colors store' l,
  create_boundary_shape nearest bt store shape props colors = Ok (store', l) /\
  ~ (forall i, (i < length shape)%nat -> exists e, In e (el_edges l) /\
       ((veq (store_pos store' (be_v1 e)) (nth i shape (V2 0 0)) /\
         veq (store_pos store' (be_v2 e)) (nth (mod_succ i (length shape)) shape (V2 0 0))) \/
        (veq (store_pos store' (be_v2 e)) (nth i shape (V2 0 0)) /\
         veq (store_pos store' (be_v1 e)) (nth (mod_succ i (length shape)) shape (V2 0 0)))) /\
       nth_error colors i = Some (be_col e)).
Proof.
  exists scan, INTERIOR, [], unit_sq, [(1,1);(1,1);(1,1);(1,1)], [7;8;9;10]%Z. do 2 eexists.
  split; [vm_compute; reflexivity|]. intros H. destruct (H 0%nat) as (e & He & Hp & Hc); [cbn; lia|].
  cbn in He. destruct He as [<-|[<-|[<-|[<-|[]]]]]; cbn in Hc; try discriminate Hc.
  destruct Hp as [[[H1 H2] [H3 H4]]|[[H1 H2] [H3 H4]]]; vm_compute in H1, H2, H3, H4; discriminate.
Qed.
(* what the code does: listed direction kept -> colour i; turned around -> the
   edge between points i and i+1 gets colour i+1 *)
Theorem C16_colours_partial nearest bt store shape props colors store' l :
  create_boundary_shape nearest bt store shape props colors = Ok (store', l) ->
  let fwd := is_forward bt (Qltb 0 (polygon_area shape)) in
  Forall (fun e => be_prop e = e_on_boundary) (el_edges l) /\
  same_points (map (fun e => (store_pos store' (be_v1 e), store_pos store' (be_v2 e))) (el_edges l))
     (if fwd then ring_edges shape else reverse_edges (ring_edges shape)) /\
  (forall i, (i < length shape)%nat ->
     nth_error colors (if fwd then i else mod_succ i (length shape)) =
     option_map be_col (nth_error (el_edges l) (if fwd then i else length shape - 1 - i)%nat)).
Proof. intros E. destruct (create_ok _ _ _ _ _ _ _ _ E) as (_ & _ & H & _ & _ & _ & H7 & _ & H9). auto. Qed.
Example C16_nonvacuous : exists store' l,
  create_boundary_shape scan EXTERIOR [] unit_sq [(1,1);(1,1);(1,1);(1,1)] [7;8;9;10]%Z = Ok (store', l) /\
  map be_col (el_edges l) = [7;8;9;10]%Z.
Proof. do 2 eexists. split; vm_compute; reflexivity. Qed.

(* ---------------- C17 ---------------- *)
Theorem C17_start_edge_irrelevant es es' o : Permutation es es' -> is_inside es o = is_inside es' o.
Proof. exact (is_inside_perm es es' o). Qed.
Theorem C17_triangle o a b c : off_lines o (sides3 a b c) -> exact_rows o (sides3 a b c) ->
  is_inside (sides3 a b c) o = true <-> inside_tri o a b c.
Proof. exact (inside_triangle o a b c). Qed.
Theorem C17_rectangle_inside o ll ur : vx ll < vx ur -> vy ll < vy ur ->
  (vx ll < vx o /\ vx o < vx ur /\ vy ll < vy o /\ vy o < vy ur) ->
  is_inside (ring_edges (rect_points ll ur)) o = true.
Proof. exact (inside_rectangle o ll ur). Qed.
Theorem C17_rectangle_outside o ll ur : vx ll < vx ur -> vy ll < vy ur -> exact_rows o (ring_edges (rect_points ll ur)) ->
  (vx o < vx ll \/ vx ur < vx o \/ vy o < vy ll \/ vy ur < vy o) ->
  is_inside (ring_edges (rect_points ll ur)) o = false.
Proof. exact (outside_rectangle o ll ur). Qed.
(* any polygon: parity of the number of triangles of a decomposition *)
Theorem C17_polygon o l T bs : cut_up l T -> counts o T bs ->
  off_lines o (tri_sides T) -> exact_rows o (ring_edges l) ->
  is_inside (ring_edges l) o = odd_number bs.
Proof. exact (inside_polygon o l T bs). Qed.
(* outside of the bounding box: false because of the tolerance of EQ() ... *)
Theorem C17_outside_box_refuted : exists o l, (3 <= length l)%nat /\ (forall v, In v l -> vy o < vy v) /\
  is_inside (ring_edges l) o = true.
Proof.
  exists (V2 (1#2) (1 - (1 # 9007199254740992))), [V2 0 1; V2 1 1; V2 1 2; V2 0 2].
  split; [cbn; lia|]. split; [|vm_compute; reflexivity].
  intros v [<-|[<-|[<-|[<-|[]]]]]; reflexivity.
Qed.
(* ... true where the tolerance plays no role *)
Theorem C17_outside_box_partial o l : exact_rows o (ring_edges l) -> (forall e, In e (ring_edges l) -> ~ veq (fst e) (snd e)) ->
  (forall v, In v l -> vx o < vx v) \/ (forall v, In v l -> vx v < vx o) \/
  (forall v, In v l -> vy o < vy v) \/ (forall v, In v l -> vy v < vy o) ->
  is_inside (ring_edges l) o = false.
Proof. exact (outside_box o l). Qed.
(* an L shaped hexagon in four triangles, a point inside the second one *)
Definition ell : list vec2 := [V2 0 0; V2 2 0; V2 2 1; V2 1 1; V2 1 2; V2 0 2].
Definition ellT : list (vec2 * vec2 * vec2) :=
  [(V2 0 0, V2 2 0, V2 2 1); (V2 0 0, V2 2 1, V2 1 1); (V2 0 0, V2 1 1, V2 1 2); (V2 0 0, V2 1 2, V2 0 2)].
Lemma ell_cut : cut_up ell ellT.
Proof.
  apply (cut_turn [V2 2 1; V2 1 1; V2 1 2; V2 0 2] [V2 0 0; V2 2 0]).
  apply (cut_turn [V2 0 0; V2 2 0] [V2 2 1; V2 1 1; V2 1 2; V2 0 2]).
  apply (cut_diag (V2 0 0) [V2 2 0] (V2 2 1) [V2 1 1; V2 1 2; V2 0 2] [(V2 0 0, V2 2 0, V2 2 1)]
          [(V2 0 0, V2 2 1, V2 1 1); (V2 0 0, V2 1 1, V2 1 2); (V2 0 0, V2 1 2, V2 0 2)]); [apply cut_tri|].
  apply (cut_turn [V2 0 0] [V2 2 1; V2 1 1; V2 1 2; V2 0 2]).
  apply (cut_diag (V2 0 0) [V2 2 1] (V2 1 1) [V2 1 2; V2 0 2] [(V2 0 0, V2 2 1, V2 1 1)]
          [(V2 0 0, V2 1 1, V2 1 2); (V2 0 0, V2 1 2, V2 0 2)]); [apply cut_tri|].
  apply (cut_turn [V2 0 0] [V2 1 1; V2 1 2; V2 0 2]).
  apply (cut_diag (V2 0 0) [V2 1 1] (V2 1 2) [V2 0 2] [(V2 0 0, V2 1 1, V2 1 2)] [(V2 0 0, V2 1 2, V2 0 2)]); [apply cut_tri|].
  apply (cut_turn [V2 0 0] [V2 1 2; V2 0 2]). apply cut_tri.
Qed.
Ltac each := repeat match goal with H : In _ (_ :: _) |- _ => destruct H as [<-|H] | H : In _ [] |- _ => destruct H end.
Example C17_nonvacuous : let o := V2 (5#4) (3#4) in
  cut_up ell ellT /\ counts o ellT [false; true; false; false] /\ off_lines o (tri_sides ellT) /\
  exact_rows o (ring_edges ell) /\ (forall e, In e (ring_edges ell) -> ~ veq (fst e) (snd e)).
Proof.
  cbv zeta. split; [exact ell_cut|]. split; [|split; [|split]].
  - assert (X : forall o p q r b, (Qltb 0 (det p q o) && Qltb 0 (det q r o) && Qltb 0 (det r p o)) ||
        (Qltb (det p q o) 0 && Qltb (det q r o) 0 && Qltb (det r p o) 0) = b -> (b = true <-> inside_tri o p q r)).
    { intros o p q r b <-. rewrite orb_true_iff, !andb_true_iff, !Qltb_true. unfold inside_tri. tauto. }
    unfold counts, ellT. repeat (constructor; [apply X; vm_compute; reflexivity|]). constructor.
  - intros e He. cbn [ellT tri_sides flat_map sides3 app] in He. each; vm_compute; discriminate.
  - intros e He. cbn [ell ring_edges path_edges app] in He. each; split; vm_compute; intros; try discriminate; reflexivity.
  - intros e He [H1 H2]. cbn [ell ring_edges path_edges app] in He. each; vm_compute in H1, H2; discriminate.
Qed.

(* ---------------- C18 ---------------- *)
Theorem C18_inside bs o : domain_inside bs o = true <->
  forall b, In b bs -> (bd_type b = EXTERIOR -> is_inside (bd_edges b) o = true) /\
                       (bd_type b = INTERIOR -> is_inside (bd_edges b) o = false).
Proof. exact (domain_inside_iff bs o). Qed.
Theorem C18_area bs As : Forall2 created bs As ->
  domain_area bs ==
    sumQ (map (fun p => match bd_type (fst p) with EXTERIOR => Qabs' (snd p) | INTERIOR => 0 end) (combine bs As)) -
    sumQ (map (fun p => match bd_type (fst p) with EXTERIOR => 0 | INTERIOR => Qabs' (snd p) end) (combine bs As)).
Proof. exact (domain_area_created bs As). Qed.
Example C18_nonvacuous : exists bs, Forall2 created bs [polygon_area unit_sq; polygon_area unit_sq] /\ map bd_type bs = [EXTERIOR; INTERIOR].
Proof.
  exists [Bd EXTERIOR [] (2 # 2); Bd INTERIOR [] (-2 # 2)]. split; [|reflexivity].
  constructor; [|constructor; [|apply Forall2_nil]]; exists scan, [], unit_sq, [(1,1);(1,1);(1,1);(1,1)], [7;8;9;10]%Z;
    do 2 eexists; (split; [vm_compute; reflexivity|]); (split; [cbn; lia|]); split; vm_compute; reflexivity.
Qed.
(* the extent always contains the origin *)
Theorem C18_extent_refuted : exists vs, vs <> [] /\ ~ tight_box vs (domain_extent vs).
Proof.
  exists [V2 5 5; V2 6 7]. split; [discriminate|]. intros (_ & (v & Hv & E) & _).
  destruct Hv as [<-|[<-|[]]]; vm_compute in E; discriminate.
Qed.
Theorem C18_extent_partial vs :
  let r := domain_extent vs in
  (forall v, In v vs -> vx (fst r) <= vx v /\ vx v <= vy (fst r) /\ vx (snd r) <= vy v /\ vy v <= vy (snd r)) /\
  vx (fst r) <= 0 <= vy (fst r) /\ vx (snd r) <= 0 <= vy (snd r) /\
  ((exists v, In v vs /\ vx v <= 0) -> (exists v, In v vs /\ 0 <= vx v) ->
   (exists v, In v vs /\ vy v <= 0) -> (exists v, In v vs /\ 0 <= vy v) -> tight_box vs r).
Proof.
  cbv zeta. destruct (extent_acc vs (V2 0 0, V2 0 0)) as (I1 & I2 & I3 & I4 & I5 & _).
  split; [exact I5|]. split; [split; [exact I1|exact I2]|]. split; [split; [exact I3|exact I4]|].
  exact (extent_around_origin vs).
Qed.
Example C18_extent_nonvacuous : tight_box [V2 (-1) 2; V2 3 (-4)] (V2 (-1) 3, V2 (-4) 2) /\
  domain_extent [V2 (-1) 2; V2 3 (-4)] = (V2 (-1) 3, V2 (-4) 2).
Proof.
  split; [|reflexivity]. split; [intros v [<-|[<-|[]]]; cbn; repeat split; discriminate|].
  split; [exists (V2 (-1) 2)|split; [exists (V2 3 (-4))|split; [exists (V2 3 (-4))|exists (V2 (-1) 2)]]]; split; cbn; try tauto; reflexivity.
Qed.

(* ---------------- C20 ---------------- *)
Theorem C20_every_value_once_in_order {A} Nx Ny (values : list A) : length values = (Nx * Ny)%nat ->
  exists ls last, export_lines Nx Ny values = Ok (ls ++ [last]) /\ concat (ls ++ [last]) = values /\
    Forall (fun l => length l = 10%nat) ls /\ (length last < 10)%nat.
Proof. exact (export_ok Nx Ny values). Qed.
Theorem C20_grid_order ll ur Nx Ny :
  length (sample_points ll ur Nx Ny) = (Nx * Ny)%nat /\
  forall i j, (i < Nx)%nat -> (j < Ny)%nat ->
  nth_error (sample_points ll ur Nx Ny) (j * Nx + i) =
  Some (V2 (vx ll + inject_Z (Z.of_nat i) * ((vx ur - vx ll) / inject_Z (Z.of_nat Nx)))
           (vy ll + inject_Z (Z.of_nat j) * ((vy ur - vy ll) / inject_Z (Z.of_nat Ny)))).
Proof. split; [exact (sample_length ll ur Nx Ny)|intros i j; exact (sample_nth ll ur Nx Ny i j)]. Qed.
Example C20_nonvacuous : export_lines 3 4 (seq 0 12) = Ok [seq 0 10; [10;11]%nat] /\ length (seq 0 12) = (3 * 4)%nat.
Proof. split; reflexivity. Qed.

(* ---------------- C47 ---------------- *)
(* only edges whose middle is in the box are looked at: crossings are missed *)
Theorem C47_edgelist_complete_refuted : exists es fs e f, In e es /\ In f fs /\
  (det (fst e) (snd e) (fst f) * det (fst e) (snd e) (snd f) < 0 /\
   det (fst f) (snd f) (fst e) * det (fst f) (snd f) (snd e) < 0) /\
  line_line_intersection (fst e) (snd e) (fst f) (snd f) = true /\
  intersects_edgelist es fs = false /\ intersects_edgelist fs es = false.
Proof.
  exists (ring_edges [V2 0 0; V2 10 0; V2 10 (-9); V2 0 (-9)]), (ring_edges [V2 1 (-1); V2 1 9; V2 (-9) 9; V2 (-9) (-1)]),
    (V2 0 0, V2 10 0), (V2 1 (-1), V2 1 9).
  split; [cbn; tauto|]. split; [cbn; tauto|]. split; [split; vm_compute; reflexivity|]. split; [|split]; vm_compute; reflexivity.
Qed.
Theorem C47_self_complete_refuted : exists es e f, In e es /\ In f es /\
  (det (fst e) (snd e) (fst f) * det (fst e) (snd e) (snd f) < 0 /\
   det (fst f) (snd f) (fst e) * det (fst f) (snd f) (snd e) < 0) /\ intersects_self es = false.
Proof.
  exists (ring_edges [V2 0 0; V2 10 0; V2 10 9; V2 1 9; V2 1 (-1); V2 0 (-1)]), (V2 0 0, V2 10 0), (V2 1 9, V2 1 (-1)).
  split; [cbn; tauto|]. split; [cbn; tauto|]. split; [split; vm_compute; reflexivity|]. vm_compute. reflexivity.
Qed.
Theorem C47_sound_partial es fs :
  (intersects_edgelist es fs = true ->
   exists e f, In e es /\ In f fs /\ line_line_intersection (fst e) (snd e) (fst f) (snd f) = true) /\
  (forall e f, In e es -> In f fs -> in_box_of e f = true ->
     line_line_intersection (fst e) (snd e) (fst f) (snd f) = true -> intersects_edgelist es fs = true).
Proof. split; [exact (intersects_edgelist_sound es fs)|exact (intersects_edgelist_mid es fs)]. Qed.

(* ---------------- C48 ---------------- *)
(* "If the coordinate is located on the edge segments, it is treated as lying
   inside" (EdgeList.h:229-231): not on the left side of the unit square *)
Theorem C48_on_edge_refuted : exists l a b t, In (a, b) (ring_edges l) /\ 0 < t /\ t < 1 /\
  is_inside (ring_edges l) (on_seg a b t) = false.
Proof.
  exists unit_sq, (V2 0 1), (V2 0 0), (1#2). split; [cbn; tauto|]. repeat split; vm_compute; reflexivity.
Qed.
Theorem C48_on_edge_partial es o e : (3 <= length es)%nat -> In e es ->
  veq o (fst e) \/ veq o (snd e) \/ (exists t, 0 <= t /\ t <= 1 /\ vy (fst e) == vy (snd e) /\ veq o (on_seg (fst e) (snd e) t)) ->
  is_inside es o = true.
Proof. exact (on_edge_inside es o e). Qed.

Print Assumptions C14_replaced_by_two.
Print Assumptions C14_sequence_of_splits.
Print Assumptions C14_position_refuted.
Print Assumptions C14_position_partial.
Print Assumptions C14_stored_area_refuted.
Print Assumptions C14_stored_area_partial.
Print Assumptions C15_closed_chain.
Print Assumptions C15_oriented.
Print Assumptions C16_colours_refuted.
Print Assumptions C16_colours_partial.
Print Assumptions C17_start_edge_irrelevant.
Print Assumptions C17_triangle.
Print Assumptions C17_rectangle_inside.
Print Assumptions C17_rectangle_outside.
Print Assumptions C17_polygon.
Print Assumptions C17_outside_box_refuted.
Print Assumptions C17_outside_box_partial.
Print Assumptions C18_inside.
Print Assumptions C18_area.
Print Assumptions C18_extent_refuted.
Print Assumptions C18_extent_partial.
Print Assumptions C20_every_value_once_in_order.
Print Assumptions C20_grid_order.
Print Assumptions C47_edgelist_complete_refuted.
Print Assumptions C47_self_complete_refuted.
Print Assumptions C47_sound_partial.
Print Assumptions C48_on_edge_refuted.
Print Assumptions C48_on_edge_partial.
