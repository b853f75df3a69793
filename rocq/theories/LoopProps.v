(* Property theorems: the triangulation loops (C27). *)
From Coq Require Import Lia Lqa Permutation.
From Verif Require Import Base Chain GeomModel FacetModel UtilModel BdryModel BdrySpec
  AdvanceModel AdvanceSpec AdvanceProofs AdvanceInv AdvanceMore AdvanceGeom AdvanceProps
  LoopModel LoopSpec LoopProofs.
Open Scope Q_scope.

Lemma idle_unchanged sc np s st : idle sc np s st -> unchanged s st.
Proof.
  intros [G _]. unfold unchanged. split; [apply G|]. split; [apply G|]. split; [apply G|]. split; [apply G|].
  split; [apply G|]. intros v Hv. split; [apply (g_pos _ _ G)|apply (g_onf _ _ G)]; exact Hv.
Qed.

(* ---------------------------------------------------------------- *)
(* C27.  As stated FALSE in three ways.

   (1) The limit is a size_t, the loops work with an int: a limit of 2^32 + 1
   stops after one element and reports success. *)
Theorem C27_limit_refuted : exists mesh_scale tri_ok vtx_ok qual newpos query n st st',
  wf st /\ ms_front st <> [] /\ (0 < n < 2 ^ 64)%Z /\
  generate mesh_scale tri_ok vtx_ok qual newpos query 100 n st = Some (Ok (st', true, 1%nat)) /\
  ms_front st' <> [] /\ Z.of_nat 1 <> n.
Proof.
  exists (21 # 5), sq_valid, sq_vertex, (fun _ _ => 0), (fun _ _ => V2 1 1), (fun _ _ _ => [0; 1; 2; 3]%nat), (2 ^ 32 + 1)%Z, sq.
  eexists. split; [exact sq_wf|]. split; [discriminate|]. split; [lia|]. split; [vm_compute; reflexivity|].
  split; [vm_compute; discriminate|lia].
Qed.

(* (2) After the exhaustive search has added elements the advancing step is not
   tried again: failure is reported although it would succeed. *)
Definition late_tri (st : mstate) (t : tri) : bool :=
  match generated st with [] => true | _ => Nat.leb 4 (tr_v3 t) end.
Definition late_vtx (st : mstate) (v : nat) : bool := match generated st with [] => false | _ => true end.
Theorem C27_failure_refuted : exists mesh_scale tri_ok vtx_ok qual newpos query n st st' c,
  wf st /\ ms_front st <> [] /\ (0 < n < 2 ^ 31)%Z /\
  generate mesh_scale tri_ok vtx_ok qual newpos query 100 n st = Some (Ok (st', false, c)) /\
  exists e st2, In e (ms_front st') /\
    advance_front_triangle mesh_scale tri_ok vtx_ok qual newpos query st' (Some (be_id e)) true = Ok (st2, true).
Proof.
  exists (21 # 5), late_tri, late_vtx, (fun _ _ => 0), (fun _ _ => V2 1 1), (fun _ _ _ => []), 10%Z, sq.
  eexists _, _. split; [exact sq_wf|]. split; [discriminate|]. split; [lia|]. split; [vm_compute; reflexivity|].
  eexists _, _. split; [left; reflexivity|]. vm_compute. reflexivity.
Qed.

(* (3) A front without edges (a mesh that is already complete): the first base
   edge is a null pointer. *)
Theorem C27_complete_mesh_refuted : forall mesh_scale tri_ok vtx_ok qual newpos query fuel n st,
  ms_front st = [] -> generate mesh_scale tri_ok vtx_ok qual newpos query (S fuel) n st = Some UB.
Proof.
  intros mesh_scale tri_ok vtx_ok qual newpos query fuel n st E. unfold generate, sort_edges. cbn [ms_front]. rewrite E.
  reflexivity.
Qed.

(* What holds for limits below 2^31 and a front that is not empty: the loops end
   after at most [bound] iterations ... *)
Theorem C27_terminates_partial : forall mesh_scale tri_ok vtx_ok qual newpos query n st,
  wf st -> ms_front st <> [] -> (0 < n < 2 ^ 31)%Z ->
  exists fuel x, forall more, (fuel <= more)%nat ->
    generate mesh_scale tri_ok vtx_ok qual newpos query more n st = Some (Ok x).
Proof.
  intros mesh_scale tri_ok vtx_ok qual newpos query n st W NE Hn.
  pose proof (generate_ends mesh_scale tri_ok vtx_ok qual newpos query _ n st W NE Hn (Nat.le_refl _)) as E.
  pose proof (generate_spec mesh_scale tri_ok vtx_ok qual newpos query (bound st n) n st W NE Hn) as G.
  destruct (generate _ _ _ _ _ _ (bound st n) n st) as [[x| |]|] eqn:X; try contradiction; try (exfalso; apply E; reflexivity).
  exists (bound st n), x. intros more L.
  rewrite (generate_more mesh_scale tri_ok vtx_ok qual newpos query n st _ _ L); [exact X|congruence].
Qed.

(* ... with at most n new elements; every run is a history of front updates
   (so C23 - C26 apply); success: the front is empty or n elements were made *)
Theorem C27_success_partial : forall mesh_scale tri_ok vtx_ok qual newpos query fuel n st x,
  wf st -> ms_front st <> [] -> (0 < n < 2 ^ 31)%Z ->
  generate mesh_scale tri_ok vtx_ok qual newpos query fuel n st = Some x ->
  exists st' r c os, x = Ok (st', r, c) /\ wf st' /\
    frun mesh_scale tri_ok vtx_ok qual st os = Ok st' /\
    (forall sc, (forall s e, in_square sc (newpos s e) = true) -> Forall (op_in sc) os) /\
    length (generated st') = (length (generated st) + c)%nat /\ (Z.of_nat c <= n)%Z /\
    (r = true -> ms_front st' = [] \/ Z.of_nat c = n) /\ (r = false -> ms_front st' <> []).
Proof.
  intros mesh_scale tri_ok vtx_ok qual newpos query fuel n st x W NE Hn H.
  pose proof (generate_spec mesh_scale tri_ok vtx_ok qual newpos query fuel n st W NE Hn) as G. rewrite H in G.
  destruct x as [[[st' r] c]| |]; try contradiction. destruct G as (W' & L & R). exists st', r, c.
  assert (HH : exists os, history mesh_scale tri_ok vtx_ok qual newpos st os st' c).
  { destruct r; [destruct R as [[os R] _]; exists os; exact R|].
    destruct R as (_ & sx & os1 & c1 & os2 & c2 & H1 & _ & H2 & -> & _).
    exists (os1 ++ FSort true :: os2). exact (history_app _ _ _ _ _ _ _ _ _ _ _ _ H1 H2). }
  destruct HH as [os HH]. exists os. split; [reflexivity|]. split; [exact W'|].
  split; [exact (history_run _ _ _ _ _ _ _ _ _ HH)|].
  split; [intros sc P; exact (history_ops _ _ _ _ _ sc _ _ _ _ P HH)|].
  split; [exact (proj2 (history_count _ _ _ _ _ _ _ _ _ W HH))|].
  split; [exact L|]. split; intros ->; [apply R|apply R].
Qed.

(* failure: the advancing step in the wide mode failed for all edges of the front
   of an earlier state sx, and the exhaustive search failed for all edges of the
   final front.  If the exhaustive search made no element, sx has the final
   front and elements. *)
Theorem C27_failure_partial : forall mesh_scale tri_ok vtx_ok qual newpos query fuel n st st' c,
  wf st -> ms_front st <> [] -> (0 < n < 2 ^ 31)%Z ->
  generate mesh_scale tri_ok vtx_ok qual newpos query fuel n st = Some (Ok (st', false, c)) ->
  all_failed (fun s k => exhaustive_search_triangle mesh_scale tri_ok vtx_ok qual s (Some k)) st' /\
  exists sx,
    all_failed (fun s k => advance_front_triangle mesh_scale tri_ok vtx_ok qual newpos query s (Some k) true) sx /\
    (length (generated st) <= length (generated sx) <= length (generated st'))%nat /\
    (length (generated sx) = length (generated st') ->
       Permutation (ms_front sx) (ms_front st') /\ generated sx = generated st').
Proof.
  intros mesh_scale tri_ok vtx_ok qual newpos query fuel n st st' c W NE Hn H.
  pose proof (generate_spec mesh_scale tri_ok vtx_ok qual newpos query fuel n st W NE Hn) as G. rewrite H in G.
  destruct G as (W' & _ & NE' & sx & os1 & c1 & os2 & c2 & H1 & T & H2 & Ec & S). split.
  - intros e He. destruct (proj1 (Forall_forall _ _) S e He) as (s & s1 & I1 & I2 & _ & X).
    exists s, s1. split; [exact (idle_unchanged _ _ _ _ I1)|]. split; [exact (idle_unchanged _ _ _ _ I2)|exact X].
  - exists sx. split.
    + intros e He. destruct (proj1 (Forall_forall _ _) T e He) as (s & s1 & I1 & I2 & _ & X).
      exists s, s1. split; [exact (idle_unchanged _ _ _ _ I1)|]. split; [exact (idle_unchanged _ _ _ _ I2)|exact X].
    + destruct (history_count _ _ _ _ _ _ _ _ _ W H1) as [Wx L1].
      pose proof (proj2 (history_count _ _ _ _ _ _ _ _ _ Wx H2)) as L2.
      split; [lia|]. intros E. assert (c2 = 0%nat) as -> by lia.
      exact (history_still _ _ _ _ _ _ _ _ Wx H2).
Qed.

(* a square, meshed by two elements, and a limit of one element *)
Example C27_case : exists st1 st2,
  wf sq /\ ms_front sq <> [] /\
  generate (21 # 5) sq_valid sq_vertex (fun _ _ => 0) (fun _ _ => V2 1 1) (fun _ _ _ => [0; 1; 2; 3]%nat) 100 10 sq
    = Some (Ok (st1, true, 2%nat)) /\ ms_front st1 = [] /\
  generate (21 # 5) sq_valid sq_vertex (fun _ _ => 0) (fun _ _ => V2 1 1) (fun _ _ _ => [0; 1; 2; 3]%nat) 100 1 sq
    = Some (Ok (st2, true, 1%nat)) /\ ms_front st2 <> [].
Proof.
  eexists _, _. split; [exact sq_wf|]. split; [discriminate|]. split; [vm_compute; reflexivity|].
  split; [vm_compute; reflexivity|]. split; [vm_compute; reflexivity|vm_compute; discriminate].
Qed.
(* a failing run: nothing is ever accepted *)
Example C27_failure_case : exists st1,
  generate (21 # 5) (fun _ _ => false) sq_vertex (fun _ _ => 0) (fun _ _ => V2 1 1) (fun _ _ _ => [2%nat]) 100 10 sq
    = Some (Ok (st1, false, 0%nat)) /\ length (ms_front st1) = 4%nat.
Proof. eexists. split; vm_compute; reflexivity. Qed.

Print Assumptions C27_limit_refuted.
Print Assumptions C27_failure_refuted.
Print Assumptions C27_complete_mesh_refuted.
Print Assumptions C27_terminates_partial.
Print Assumptions C27_success_partial.
Print Assumptions C27_failure_partial.
