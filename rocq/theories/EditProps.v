(* C72: the editing of a domain. *)
From Coq Require Import Lia Sorting.Sorted.
From Verif Require Import Base BdryModel DomCheckModel EditModel EditSpec EditProofs EditRead EditEffect.
Open Scope nat_scope.

Definition reached (s : dom) : Prop := exists os, history careful empty_domain os /\ steps empty_domain os = Ok s.
Lemma reached_sound s : reached s -> sound s.
Proof. intros [os [H E]]. destruct (steps_sound os empty_domain empty_sound H) as [s' [E' S]]. rewrite E in E'. injection E' as <-. exact S. Qed.

Lemma run_facts os : match steps empty_domain os with Ok _ => true | _ => false end = true -> exists s, steps empty_domain os = Ok s /\
  forall (P : dom -> bool), match steps empty_domain os with Ok s => P s | _ => false end = true -> P s = true.
Proof. intros H. destruct (steps empty_domain os) as [s| |]; try discriminate H. exists s. split; [reflexivity|auto]. Qed.
Definition same (a b : list nat) : bool := if list_eq_dec Nat.eq_dec a b then true else false.
Lemma same_eq a b : same a b = true -> a = b.
Proof. unfold same. destruct (list_eq_dec Nat.eq_dec a b); [auto|discriminate]. Qed.
Definition sames (a b : list (list nat)) : bool := if list_eq_dec (list_eq_dec Nat.eq_dec) a b then true else false.
Lemma sames_eq a b : sames a b = true -> a = b.
Proof. unfold sames. destruct (list_eq_dec (list_eq_dec Nat.eq_dec) a b); [auto|discriminate]. Qed.

(* ---------- histories that are refused nothing ---------- *)
(* a square whose boundary is removed and drawn again through the same vertices *)
Definition redrawn : list edit :=
  [AddVertex true; AddVertex true; AddVertex true; AddVertex true; InsertBoundary 0;
   AddEdge 0 1 2 true; AddEdge 0 2 3 true; AddEdge 0 3 4 true; AddEdge 0 4 1 true;
   RemoveBoundary 0; InsertBoundary 0;
   AddEdge 0 1 2 true; AddEdge 0 2 3 true; AddEdge 0 3 4 true; AddEdge 0 4 1 true].
(* As stated the property fails: after remove_boundary the vertices still point at the
   edges that were freed, and the check of the domain follows these pointers. *)
Theorem C72_refuted : exists os s, history named empty_domain os /\ steps empty_domain os = Ok s /\ ~ intact s /\ check_traversable s = UB.
Proof.
  assert (H : history named empty_domain redrawn) by (apply (historyb_history _ namedb namedb_named); vm_compute; reflexivity).
  destruct (run_facts redrawn) as [s [E F]]; [vm_compute; reflexivity|].
  exists redrawn, s. split; [exact H|]. split; [exact E|]. split.
  - intros J. assert (V : member 1 (d_verts s) = true) by (apply (F (fun s => member 1 (d_verts s))); vm_compute; reflexivity). assert (K : member 6 (d_star s 1) = true) by (apply (F (fun s => member 6 (d_star s 1))); vm_compute; reflexivity).
    assert (N : negb (member 6 (all_items (lists s))) = true) by (apply (F (fun s => negb (member 6 (all_items (lists s))))); vm_compute; reflexivity).
    apply member_in in V. apply member_in in K. apply negb_true_iff, member_out in N. apply N, listed_all, (in_only s J 1 6 V K).
  - assert (C : match check_traversable s with UB => true | _ => false end = true) by (apply (F (fun s => match check_traversable s with UB => true | _ => false end)); vm_compute; reflexivity). destruct (check_traversable s); try discriminate C. reflexivity.
Qed.
(* A vertex is removed while edges end in it: the next edge of the boundary reads it. *)
Definition cut_corner : list edit :=
  [AddVertex true; AddVertex true; AddVertex true; InsertBoundary 0; AddEdge 0 1 2 true; AddEdge 0 2 3 true; RemoveVertex 2; ClearVertices].
Theorem C72_vertex_refuted : exists os s o, history named empty_domain os /\ steps empty_domain os = Ok s /\ named s o /\ step s o = UB.
Proof.
  assert (H : history named empty_domain cut_corner) by (apply (historyb_history _ namedb namedb_named); vm_compute; reflexivity).
  destruct (run_facts cut_corner) as [s [E F]]; [vm_compute; reflexivity|].
  exists cut_corner, s, (AddEdge 0 3 1 true). split; [exact H|]. split; [exact E|]. split.
  - apply namedb_named. apply (F (fun s => namedb s (AddEdge 0 3 1 true))). vm_compute. reflexivity.
  - assert (C : match step s (AddEdge 0 3 1 true) with UB => true | _ => false end = true) by (apply (F (fun s => match step s (AddEdge 0 3 1 true) with UB => true | _ => false end)); vm_compute; reflexivity). destruct (step s (AddEdge 0 3 1 true)); try discriminate C. reflexivity.
Qed.
(* A fixed vertex is removed with remove_vertex: the list of fixed vertices keeps it and the
   preparation of a mesh reads it. *)
Definition lost_fixed : list edit := [AddFixedVertex true; RemoveVertex 1; ClearVertices].
Theorem C72_fixed_refuted : exists os s, history named empty_domain os /\ steps empty_domain os = Ok s /\ lone_fixed s (d_fverts s) = UB.
Proof.
  destruct (run_facts lost_fixed) as [s [E F]]; [vm_compute; reflexivity|]. exists lost_fixed, s. split; [apply (historyb_history _ namedb namedb_named); vm_compute; reflexivity|]. split; [exact E|].
  assert (C : match lone_fixed s (d_fverts s) with UB => true | _ => false end = true) by (apply (F (fun s => match lone_fixed s (d_fverts s) with UB => true | _ => false end)); vm_compute; reflexivity). destruct (lone_fixed s (d_fverts s)); try discriminate C. reflexivity.
Qed.
(* clear_edges leaves the edges from the first one on that no quadtree took, so the boundary
   cannot be removed safely after it *)
Definition far_edge : list edit :=
  [AddVertex true; AddVertex true; AddVertex true; InsertBoundary 0; AddEdge 0 1 2 true; AddEdge 0 2 3 false; AddEdge 0 3 1 true; ClearEdges 0].
Theorem C72_clear_refuted : exists os s, history careful empty_domain os /\ steps empty_domain os = Ok s /\ last os ClearVertices = ClearEdges 0 /\
  w_bdrys (view_of s) = [[6; 7]] /\ exists s', step s (RemoveBoundary 0) = Ok s' /\ ~ intact s'.
Proof.
  assert (H : history careful empty_domain far_edge) by (apply (historyb_history _ carefulb carefulb_careful); vm_compute; reflexivity).
  destruct (run_facts far_edge) as [s [E F]]; [vm_compute; reflexivity|].
  exists far_edge, s. split; [exact H|]. split; [exact E|]. split; [reflexivity|]. split.
  - apply sames_eq. apply (F (fun s => sames (w_bdrys (view_of s)) [[6; 7]])). vm_compute. reflexivity.
  - assert (L : (0 <? length (d_bdrys s)) = true) by (apply (F (fun s => 0 <? length (d_bdrys s))); vm_compute; reflexivity). unfold step, remove_boundary. rewrite L. eexists. split; [reflexivity|]. intros J.
    assert (V : member 2 (d_verts s) = true) by (apply (F (fun s => member 2 (d_verts s))); vm_compute; reflexivity). assert (K : member 6 (d_star s 2) = true) by (apply (F (fun s => member 6 (d_star s 2))); vm_compute; reflexivity).
    assert (N : negb (member 6 (all_items (d_fedges s :: skipn 1 (d_bdrys s)))) = true) by (apply (F (fun s => negb (member 6 (all_items (d_fedges s :: skipn 1 (d_bdrys s)))))); vm_compute; reflexivity).
    apply member_in in V. apply member_in in K. apply negb_true_iff, member_out in N. apply N. exact (proj1 (listed_all _ _) (in_only _ J 2 6 V K)).
Qed.

(* ---------- careful histories ---------- *)
(* Whoever removes only empty boundaries and vertices that nothing points at never meets
   undefined behaviour and keeps the domain consistent; its readers work. *)
Theorem C72_careful_partial : forall os, history careful empty_domain os -> exists s, steps empty_domain os = Ok s /\ intact s /\
  (forall e, listed s e -> exists o, next_edge s e = Ok o) /\
  ((forall l, In l (d_bdrys s) -> l_items l <> []) -> exists t, check_traversable s = Ok t) /\
  lone_fixed s (d_fverts s) = Ok (filter (fun v => match d_star s v with [] => true | _ => false end) (d_fverts s)).
Proof.
  intros os H. destruct (steps_sound os empty_domain empty_sound H) as [s [E S]]. exists s. split; [exact E|]. split; [exact (so_intact s S)|]. split; [|split].
  - intros e [l T]. destruct (next_plain s l e S T) as [o [O _]]. eauto.
  - intros NE. unfold check_traversable. assert (L : forall b, In b (d_bdrys s) -> In b (lists s)) by (intros b B; right; exact B). revert L NE. induction (d_bdrys s) as [|b r IH]; intros L NE; [exists true; reflexivity|]. cbn [check_boundaries].
    destruct (l_items b) as [|e q] eqn:I; [exfalso; exact (NE b (or_introl eq_refl) I)|]. rewrite (walk_plain s b e S) by (split; [exact (L b (or_introl eq_refl))|rewrite I; left; reflexivity]). cbn [obind].
    match goal with |- exists t, (if ?c then _ else _) = _ => destruct c end; [|eauto]. apply IH; [intros c C; apply L; right; exact C|intros c C; apply NE; right; exact C].
  - rewrite fixed_read by (intros v V; apply (in_fixed s (so_intact s S)), V). f_equal. apply filter_ext_in. intros v V. rewrite (proj2 (in_fixed s (so_intact s S) v V)). reflexivity.
Qed.
(* The lists change as they should, and no edge ever changes its ends. *)
Theorem C72_effect : forall s o s', reached s -> careful s o -> step s o = Ok s' ->
  view_of s' = effect (d_vtree s) (d_etree s) (d_next s) (view_of s) o /\
  (forall k, listed s' k -> (listed s k /\ d_ends s' k = d_ends s k) \/
     (k = d_next s /\ exists a b, d_ends s' k = Some (a, b) /\ ((exists p t, o = AddEdge p a b t) \/ exists t, o = AddFixedEdge a b t))).
Proof. intros s o s' R C E. apply reached_sound in R. split; [exact (step_view s o s' R C E)|intros k; exact (step_ends s o s' k R C E)]. Qed.
(* The caution is necessary: a boundary with edges, a vertex in use and a fixed vertex cannot
   be removed without leaving pointers behind. *)
Theorem C72_boundary : forall s p l s', reached s -> nth_error (d_bdrys s) p = Some l -> step s (RemoveBoundary p) = Ok s' -> (intact s' <-> l_items l = []).
Proof.
  intros s p l s' R P E. apply reached_sound in R. split.
  - intros J. destruct (l_items l) as [|e r] eqn:I; [reflexivity|exfalso]. assert (T : stands_in s l e) by (split; [exact (nth_lists s p l P)|rewrite I; left; reflexivity]). assert (T' : listed s e) by (exists l; exact T).
    destruct (in_ends s (so_intact s R) e T') as [a [b [D [IA _]]]]. assert (K : In e (d_star s a)) by (apply (count_occ_In Nat.eq_dec); rewrite (in_star s (so_intact s R) a e a b IA T' D); unfold at_end; rewrite Nat.eqb_refl; lia).
    cbn [step] in E. unfold remove_boundary in E. destruct (p <? length (d_bdrys s)); [|discriminate]. injection E as <-. assert (X := in_only _ J a e IA K). apply listed_all in X. unfold lists in X. cbn [d_fedges d_bdrys] in X.
    assert (N := so_items s R). unfold lists in N. rewrite (split_nth _ _ _ P) in N. unfold all_items in *. cbn [flat_map] in *. rewrite flat_map_app in N, X. cbn [flat_map] in N. rewrite I in N. rewrite app_assoc in N. cbn [app] in N. apply NoDup_remove_2 in N. apply N.
    apply in_app_or in X. apply in_or_app. destruct X as [X|X]; [left; apply in_or_app; auto|]. apply in_app_or in X. destruct X as [X|X]; [left; apply in_or_app; auto|right; apply in_or_app; right; exact X].
  - intros I. destruct (remove_boundary_sound s p l R P I) as [s2 [E2 S2]]. cbn [step] in E. rewrite E in E2. injection E2 as <-. exact (so_intact _ S2).
Qed.
Theorem C72_vertex : forall s v s', reached s -> In v (d_verts s) -> d_vtree s v = true -> step s (RemoveVertex v) = Ok s' -> (intact s' <-> unused s v /\ ~ In v (d_fverts s)).
Proof.
  intros s v s' R V T E. apply reached_sound in R. split.
  - intros J. cbn [step] in E. unfold remove_vertex in E. rewrite (vertices_remove_ok s v V), T in E. injection E as <-. split.
    + intros k a b K D. destruct (in_ends _ J k K) as [a' [b' [D' [IA IB]]]]. cbn in D', IA, IB. rewrite D in D'. injection D' as <- <-. apply drop_in in IA. apply drop_in in IB. tauto.
    + intros F. destruct (in_fixed _ J v F) as [X _]. cbn in X. apply drop_in in X. apply (proj2 X). reflexivity.
  - intros [U F]. destruct (remove_vertex_sound s v R V U F) as [s2 [E2 S2]]. cbn [step] in E. rewrite E in E2. injection E2 as <-. exact (so_intact _ S2).
Qed.
(* A vertex that the quadtree did not take stays whatever is called. *)
Theorem C72_outside : forall s v, reached s -> In v (d_verts s) -> d_vtree s v = false -> step s (RemoveVertex v) = Ok s /\
  exists s', step s (RemoveFixedVertex v) = Ok s' /\ d_verts s' = d_verts s /\ d_fverts s' = without v (d_fverts s) /\ d_vfixed s' v = d_vfixed s v.
Proof.
  intros s v R V T. cbn [step]. unfold remove_vertex, remove_fixed_vertex. rewrite (vertices_remove_ok s v V), T. split; [reflexivity|]. rewrite vertices_remove_ok by exact V. cbn [d_vtree]. rewrite T. eexists. split; [reflexivity|]. cbn. rewrite drop_without. auto.
Qed.
(* The way to remove a boundary: clear its edges first. *)
Theorem C72_clear_first : forall s p l, reached s -> nth_error (d_bdrys s) p = Some l -> (forall k, In k (l_items l) -> d_etree s k = true) ->
  exists s', steps s [ClearEdges p; RemoveBoundary p] = Ok s' /\ intact s' /\ w_bdrys (view_of s') = delete_nth p (w_bdrys (view_of s)) /\ d_verts s' = d_verts s.
Proof.
  intros s p l R P A. apply reached_sound in R. destruct (clear_edges_sound s p l R P) as [s1 [l1 [E1 [S1 [P1 I1]]]]]. specialize (I1 A). destruct (remove_boundary_sound s1 p l1 S1 P1 I1) as [s2 [E2 S2]]. exists s2. cbn [steps step]. rewrite E1. cbn [obind]. rewrite E2. cbn [obind].
  assert (LT : forall q m, nth_error (d_bdrys q) p = Some m -> p < length (d_bdrys q)) by (intros q m Q; apply nth_error_Some; rewrite Q; discriminate).
  assert (V1 := step_view s (ClearEdges p) s1 R (conj (LT s l P) Logic.I) E1). assert (C2 : careful s1 (RemoveBoundary p)) by (split; [exact (LT s1 l1 P1)|]; intros m M; rewrite P1 in M; injection M as <-; exact I1). assert (V2 := step_view s1 (RemoveBoundary p) s2 S1 C2 E2).
  split; [reflexivity|]. split; [exact (so_intact s2 S2)|]. unfold view_of, effect in V1, V2. injection V1 as V11 V12 _ _. injection V2 as V21 V22 _ _. split; [|congruence]. cbn [w_bdrys view_of]. rewrite V22, V12. clear. generalize (map l_items (d_bdrys s)). intros b. revert p. induction b as [|x r IH]; intros [|p]; try reflexivity. cbn. f_equal. apply IH.
Qed.
(* On the pointers the check of the boundaries gives what it gives on plain lists of edges,
   which is what the check of a domain is modelled with elsewhere (DomCheckModel). *)
Theorem C72_check : forall s, reached s -> check_traversable s = all_traversable (map (fun b => VB EXTERIOR (plain_list s b)) (d_bdrys s)).
Proof. intros s R. apply reached_sound in R. apply check_plain; [exact R|]. intros b B. right. exact B. Qed.

(* ---------- non-trivial cases ---------- *)
Definition busy : list edit :=
  [AddVertex true; AddVertex true; AddVertex true; AddFixedVertex true; AddFixedVertex true; InsertBoundary 0;
   AddEdge 0 1 2 true; AddEdge 0 2 3 true; AddEdge 0 3 1 true; AddFixedEdge 4 5 true; InsertBoundary 0; AddEdge 0 1 3 true;
   RemoveEdge 0 12; RemoveBoundary 0; RemoveFixedEdge 10; RemoveFixedVertex 4; ClearVertices].
Example C72_careful_case : history careful empty_domain busy /\ exists s, steps empty_domain busy = Ok s /\
  d_verts s = [1; 2; 3; 5] /\ map l_items (d_bdrys s) = [[7; 8; 9]] /\ d_fverts s = [5] /\ d_star s 1 = [7; 9] /\ check_traversable s = Ok true.
Proof.
  split; [apply (historyb_history _ carefulb carefulb_careful); vm_compute; reflexivity|]. destruct (run_facts busy) as [s [E F]]; [vm_compute; reflexivity|]. exists s. split; [exact E|].
  split; [apply same_eq, (F (fun s => same (d_verts s) [1; 2; 3; 5])); vm_compute; reflexivity|]. split; [apply sames_eq, (F (fun s => sames (map l_items (d_bdrys s)) [[7; 8; 9]])); vm_compute; reflexivity|].
  split; [apply same_eq, (F (fun s => same (d_fverts s) [5])); vm_compute; reflexivity|]. split; [apply same_eq, (F (fun s => same (d_star s 1) [7; 9])); vm_compute; reflexivity|].
  assert (C : match check_traversable s with Ok true => true | _ => false end = true) by (apply (F (fun s => match check_traversable s with Ok true => true | _ => false end)); vm_compute; reflexivity). destruct (check_traversable s) as [[|]| |]; try discriminate C. reflexivity.
Qed.
Example C72_clear_first_case : exists s, reached s /\ exists l, nth_error (d_bdrys s) 0 = Some l /\ length (l_items l) = 3 /\ (forall k, In k (l_items l) -> d_etree s k = true) /\ In 2 (d_verts s) /\ d_vtree s 2 = true /\ ~ unused s 2.
Proof.
  destruct (run_facts busy) as [s [E F]]; [vm_compute; reflexivity|]. exists s. split; [exists busy; split; [apply (historyb_history _ carefulb carefulb_careful); vm_compute; reflexivity|exact E]|].
  assert (B : sames (map l_items (d_bdrys s)) [[7; 8; 9]] = true) by (apply (F (fun s => sames (map l_items (d_bdrys s)) [[7; 8; 9]])); vm_compute; reflexivity). apply sames_eq in B. destruct (d_bdrys s) as [|l [|]] eqn:D; try discriminate B. cbn in B. injection B as B. exists l.
  split; [reflexivity|]. rewrite B. split; [reflexivity|]. split.
  - assert (T : forallb (d_etree s) [7; 8; 9] = true) by (apply (F (fun s => forallb (d_etree s) [7; 8; 9])); vm_compute; reflexivity). rewrite forallb_forall in T. exact T.
  - split; [apply member_in, (F (fun s => member 2 (d_verts s))); vm_compute; reflexivity|]. split; [apply (F (fun s => d_vtree s 2)); vm_compute; reflexivity|]. intros U.
    assert (L : listedb s 7 = true) by (apply (F (fun s => listedb s 7)); vm_compute; reflexivity). apply member_in, listed_all in L.
    assert (N : match d_ends s 7 with Some (1, 2) => true | _ => false end = true) by (apply (F (fun s => match d_ends s 7 with Some (1, 2) => true | _ => false end)); vm_compute; reflexivity). destruct (d_ends s 7) as [[[|[|a]] [|[|[|b]]]]|] eqn:Q; try discriminate N. apply (proj2 (U 7 1 2 L Q)). reflexivity.
Qed.

Print Assumptions C72_refuted.
Print Assumptions C72_vertex_refuted.
Print Assumptions C72_fixed_refuted.
Print Assumptions C72_clear_refuted.
Print Assumptions C72_careful_partial.
Print Assumptions C72_effect.
Print Assumptions C72_boundary.
Print Assumptions C72_vertex.
Print Assumptions C72_outside.
Print Assumptions C72_clear_first.
Print Assumptions C72_check.
