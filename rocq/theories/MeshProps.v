(* Properties C28 (export indices), C29 (edge classification) and C30
   (neighbour relation). *)
From Coq Require Import Lia Permutation.
From Verif Require Import Base GeomModel Chain MeshModel MeshSpec MeshProofs MeshCheck.

(* ------------------------------------------------------------------ *)
(* C28 *)
Definition upto (n : nat) : list Z := map Z.of_nat (seq 0 n).

Theorem C28_vertex_indices m old : NoDup (mh_verts m) ->
  map (vertex_indices m old) (mh_verts m) = upto (length (mh_verts m)).
Proof. intros ND. unfold vertex_indices. rewrite number_from_map by exact ND. reflexivity. Qed.

Lemma nodup_app_l' {A} (l l' : list A) : NoDup (l ++ l') -> NoDup l /\ NoDup l'.
Proof.
  intros ND. split.
  - induction l as [|a l IH]; [constructor|]. inversion ND as [|? ? N ND']. subst. constructor; [|apply IH; exact ND'].
    intros H. apply N. apply in_or_app. left. exact H.
  - induction l as [|a l IH]; [exact ND|]. inversion ND. auto.
Qed.

Theorem C28_element_indices m old : NoDup (map fa_id (facets m)) ->
  map (element_indices m old) (map fa_id (facets m)) = upto (length (mh_quads m) + length (mh_tris m)).
Proof.
  unfold facets, element_indices, upto. rewrite map_app. intros ND.
  destruct (nodup_app_l' _ _ ND) as [NDq NDt].
  set (nq := length (mh_quads m)). rewrite map_app, seq_app, map_app. f_equal.
  - assert (E : length (map fa_id (mh_quads m)) = nq) by apply map_length. rewrite <- E.
    rewrite <- (number_from_map (map fa_id (mh_quads m)) 0 old NDq) at 1.
    apply map_ext_in. intros x Hx. apply number_from_notin. intros Ht.
    exact (NoDup_app_in _ _ x ND Hx Ht).
  - rewrite number_from_map by exact NDt. rewrite map_length. cbn [Nat.add].
    assert (G : forall n s, map (fun i => (Z.of_nat nq + Z.of_nat i)%Z) (seq s n) = map Z.of_nat (seq (nq + s) n)).
    { induction n as [|n IH]; intros s; [reflexivity|]. cbn [seq map]. f_equal; [lia|].
      rewrite (IH (S s)). do 2 f_equal. lia. }
    rewrite (G (length (mh_tris m)) 0%nat). do 2 f_equal. lia.
Qed.

(* reading the VTU arrays back: the cells cut out of the connectivity by the
   offsets *)
Fixpoint cells (k : Z) (conn : list Z) (offs : list Z) : list (list Z) :=
  match offs with
  | [] => []
  | o :: r => firstn (Z.to_nat (o - k)) conn :: cells o (skipn (Z.to_nat (o - k)) conn) r
  end.
Fixpoint triples (l : list Q) : list (Q * Q * Q) :=
  match l with x :: y :: z :: r => (x, y, z) :: triples r | _ => [] end.

Lemma offsets_cells (vidx : nat -> Z) fs : forall k,
  cells k (flat_map (fun f => map vidx (corners (fa_sh f))) fs) (offsets_from k fs) =
  map (fun f => map vidx (corners (fa_sh f))) fs.
Proof.
  induction fs as [|f fs IH]; intros k; [reflexivity|]. cbn [flat_map offsets_from cells map].
  set (n := length (corners (fa_sh f))).
  assert (E : Z.to_nat (k + Z.of_nat n - k) = length (map vidx (corners (fa_sh f)))).
  { rewrite map_length. fold n. lia. }
  rewrite E. rewrite firstn_app, skipn_app, Nat.sub_diag, firstn_all, skipn_all. cbn [firstn skipn app].
  rewrite app_nil_r, IH. reflexivity.
Qed.

(* every vertex appears with its coordinates, every cell with the indices of its
   corners, its type and its colour *)
Theorem C28_vtu_faithful m vidx :
  triples (vt_points (vtu_data m vidx)) =
    map (fun v => (vx (mh_pos m v), vy (mh_pos m v), 0%Q)) (mh_verts m) /\
  length (vt_points (vtu_data m vidx)) = (3 * length (mh_verts m))%nat /\
  cells 0 (vt_conn (vtu_data m vidx)) (vt_off (vtu_data m vidx)) =
    map (fun f => map vidx (corners (fa_sh f))) (facets m) /\
  vt_color (vtu_data m vidx) = map fa_col (facets m).
Proof.
  cbn [vtu_data vt_points vt_conn vt_off vt_color]. split; [|split; [|split; [|reflexivity]]].
  - induction (mh_verts m) as [|v l IH]; [reflexivity|]. cbn [flat_map app triples map]. rewrite IH. reflexivity.
  - induction (mh_verts m) as [|v l IH]; [reflexivity|]. cbn [flat_map app length]. rewrite IH. lia.
  - apply offsets_cells.
Qed.

Theorem C28_vtu_types m vidx : Forall2 (fun t f =>
    (t = 9%Z /\ length (corners (fa_sh f)) = 4%nat) \/ (t = 5%Z /\ length (corners (fa_sh f)) = 3%nat))
  (vt_types (vtu_data m vidx)) (facets m).
Proof.
  cbn. induction (facets m) as [|f l IH]; [constructor|]. cbn [map]. constructor; [|exact IH].
  unfold vtu_type. destruct (fa_sh f); cbn; auto.
Qed.

Theorem C28_vtu_connectivity m old : NoDup (mh_verts m) ->
  (forall f v, In f (facets m) -> In v (corners (fa_sh f)) -> In v (mh_verts m)) ->
  Forall (fun i => (0 <= i < Z.of_nat (length (mh_verts m)))%Z) (vt_conn (vtu_data m (vertex_indices m old))) /\
  (* and index i stands for the i-th point *)
  (forall f v, In f (facets m) -> In v (corners (fa_sh f)) ->
     nth_error (mh_verts m) (Z.to_nat (vertex_indices m old v)) = Some v).
Proof.
  intros ND HC.
  assert (K : forall v, In v (mh_verts m) -> exists i, nth_error (mh_verts m) i = Some v /\ vertex_indices m old v = Z.of_nat i).
  { intros v Hv. apply In_nth_error in Hv. destruct Hv as [i Hi]. exists i. split; [exact Hi|].
    unfold vertex_indices. rewrite (number_from_in _ _ _ _ _ ND Hi). reflexivity. }
  split.
  - apply Forall_forall. intros i Hi. cbn in Hi. apply in_flat_map in Hi. destruct Hi as [f [Hf Hi]].
    apply in_map_iff in Hi. destruct Hi as [v [E Hv]]. destruct (K v (HC f v Hf Hv)) as [j [Hj Ej]].
    assert (L : (j < length (mh_verts m))%nat) by (apply nth_error_Some; congruence). lia.
  - intros f v Hf Hv. destruct (K v (HC f v Hf Hv)) as [j [Hj Ej]]. rewrite Ej, Nat2Z.id. exact Hj.
Qed.

Lemma offsets_bounds fs : forall k, Forall (fun o => (k < o)%Z) (offsets_from k fs).
Proof.
  induction fs as [|f fs IH]; intros k; [constructor|]. cbn [offsets_from].
  assert (L : (0 < Z.of_nat (length (corners (fa_sh f))))%Z)
    by (destruct (fa_sh f); cbn; lia).
  constructor; [lia|]. eapply Forall_impl; [|apply IH]. cbn. intros o H. lia.
Qed.
Lemma offsets_last (vidx : nat -> Z) fs : forall k, fs <> [] ->
  last (offsets_from k fs) k = (k + Z.of_nat (length (flat_map (fun f => map vidx (corners (fa_sh f))) fs)))%Z.
Proof.
  induction fs as [|f fs IH]; intros k NE; [congruence|]. cbn [offsets_from flat_map]. rewrite app_length, map_length.
  set (n := length (corners (fa_sh f))). destruct fs as [|g fs].
  - cbn. lia.
  - set (k' := (k + Z.of_nat n)%Z).
    assert (E : last (k' :: offsets_from k' (g :: fs)) k = last (offsets_from k' (g :: fs)) k').
    { cbn [offsets_from last]. generalize (offsets_from (k' + Z.of_nat (length (corners (fa_sh g)))) fs).
      intros l. generalize (k' + Z.of_nat (length (corners (fa_sh g))))%Z. intros z.
      revert z. induction l as [|a l IHl]; intros z; [reflexivity|]. cbn [last] in *. destruct l; [reflexivity|]. apply (IHl a). }
    rewrite E, IH by discriminate. subst k'. lia.
Qed.

Theorem C28_vtu_offsets m vidx :
  (forall i j oi oj, nth_error (vt_off (vtu_data m vidx)) i = Some oi ->
     nth_error (vt_off (vtu_data m vidx)) j = Some oj -> (i < j)%nat -> (0 < oi < oj)%Z) /\
  (facets m <> [] -> last (vt_off (vtu_data m vidx)) 0%Z = Z.of_nat (length (vt_conn (vtu_data m vidx)))) /\
  length (vt_off (vtu_data m vidx)) = length (facets m).
Proof.
  cbn [vtu_data vt_off vt_conn]. split; [|split].
  - assert (G : forall fs k i j oi oj, nth_error (offsets_from k fs) i = Some oi ->
        nth_error (offsets_from k fs) j = Some oj -> (i < j)%nat -> (k < oi < oj)%Z).
    { induction fs as [|f fs IH]; intros k i j oi oj Hi Hj L; [destruct i; discriminate|].
      assert (B := offsets_bounds (f :: fs) k). cbn [offsets_from] in *.
      set (k' := (k + Z.of_nat (length (corners (fa_sh f))))%Z) in *.
      destruct j as [|j]; [lia|]. cbn [nth_error] in Hj. destruct i as [|i].
      - cbn in Hi. injection Hi as Hi. subst oi. split; [inversion B; assumption|].
        assert (B' := offsets_bounds fs k'). rewrite Forall_forall in B'. apply B'. exact (nth_error_In _ _ Hj).
      - cbn [nth_error] in Hi. assert (R := IH k' i j oi oj Hi Hj). inversion B. subst. lia. }
    intros i j oi oj. apply G.
  - intros NE. rewrite (offsets_last vidx) by exact NE. lia.
  - generalize 0%Z. induction (facets m) as [|f fs IH]; intros k; [reflexivity|]. cbn [offsets_from length]. rewrite IH. reflexivity.
Qed.

(* ------------------------------------------------------------------ *)
(* C29 *)
Theorem C29_partition m :
  Permutation (valid_interior_edges m ++ valid_boundary_edges m ++ front_edges m) (all_edges m).
Proof.
  unfold valid_interior_edges, valid_boundary_edges, front_edges, all_edges.
  assert (E : filter (fun e => negb (is_some (ed_l e)) || negb (is_some (ed_r e))) (mh_intr m) =
              filter (fun e => negb (is_some (ed_l e) && is_some (ed_r e))) (mh_intr m)).
  { apply filter_ext. intros e. rewrite negb_andb. reflexivity. }
  rewrite E.
  assert (P1 := filter_split (fun e => is_some (ed_l e) && is_some (ed_r e)) (mh_intr m)).
  assert (P2 := filter_split (fun e => is_some (ed_l e)) (mh_bdry m)).
  set (a := filter (fun e => is_some (ed_l e) && is_some (ed_r e)) (mh_intr m)) in *.
  set (b := filter (fun e => negb (is_some (ed_l e) && is_some (ed_r e))) (mh_intr m)) in *.
  set (c := filter (fun e => is_some (ed_l e)) (mh_bdry m)) in *.
  set (d := filter (fun e => negb (is_some (ed_l e))) (mh_bdry m)) in *.
  eapply perm_trans; [|apply Permutation_app; [exact P1|exact P2]].
  rewrite <- app_assoc. apply Permutation_app_head. rewrite !app_assoc. apply Permutation_app_tail.
  apply Permutation_app_comm.
Qed.

(* for a mesh whose edges are distinct objects: each edge in exactly one of the
   three lists *)
Theorem C29_exactly_one m e : NoDup (map ed_id (all_edges m)) -> In e (all_edges m) ->
  (In e (valid_interior_edges m) \/ In e (valid_boundary_edges m) \/ In e (front_edges m)) /\
  ~ (In e (valid_interior_edges m) /\ In e (valid_boundary_edges m)) /\
  ~ (In e (valid_interior_edges m) /\ In e (front_edges m)) /\
  ~ (In e (valid_boundary_edges m) /\ In e (front_edges m)).
Proof.
  intros ND He. assert (P := C29_partition m).
  assert (N : NoDup (valid_interior_edges m ++ valid_boundary_edges m ++ front_edges m)).
  { apply (Permutation_NoDup (Permutation_sym P)). exact (NoDup_map_inv _ _ ND). }
  split; [|split; [|split]].
  - apply (Permutation_in _ (Permutation_sym P)) in He. apply in_app_or in He. destruct He as [He|He]; [tauto|].
    apply in_app_or in He. tauto.
  - intros [H1 H2]. apply (NoDup_app_in _ _ e N H1). apply in_or_app. left. exact H2.
  - intros [H1 H2]. apply (NoDup_app_in _ _ e N H1). apply in_or_app. right. exact H2.
  - intros [H1 H2]. apply nodup_app_l' in N. destruct N as [_ N]. exact (NoDup_app_in _ _ e N H1 H2).
Qed.

Theorem C29_interface m e : In e (interface_edges m) <-> In e (mh_bdry m) /\ exists t, ed_twin e = Some t.
Proof.
  unfold interface_edges. rewrite filter_In. split; intros [H H']; (split; [exact H|]).
  - destruct (ed_twin e) as [t|]; [exists t; reflexivity|discriminate].
  - destruct H' as [t E]. rewrite E. reflexivity.
Qed.

(* ------------------------------------------------------------------ *)
(* C30 *)
(* side i of f has neighbour g exactly if g is the element on the other side *)
Theorem C30_neighbour m f i g : conforming m -> boundary_unset m -> In f (facets m) ->
  (exists p, side_at f i = Some p) ->
  (mh_nbr (setup_facet_connectivity m) (fa_id f) i = Some g <->
   exists fg, fa_id fg = g /\ across m f i fg).
Proof. exact (setup_neighbour m f i g). Qed.

Theorem C30_symmetric m f i g a b : conforming m -> boundary_unset m -> In f (facets m) -> In g (facets m) ->
  side_at f i = Some (a, b) ->
  mh_nbr (setup_facet_connectivity m) (fa_id f) i = Some (fa_id g) ->
  exists j, side_at g j = Some (b, a) /\ mh_nbr (setup_facet_connectivity m) (fa_id g) j = Some (fa_id f).
Proof.
  intros C U Hf Hg Si H. apply (setup_neighbour m f i _ C U Hf) in H; [|exists (a, b); exact Si].
  destruct H as [g' [E [a' [b' [S' [Hg' P]]]]]]. rewrite Si in S'. injection S' as E1 E2. subst a' b'.
  apply (id_facet m g' g C Hg' Hg) in E. subst g'.
  destruct (in_side_at _ _ P) as [j Sj]. exists j. split; [exact Sj|].
  apply (setup_neighbour m g j _ C U Hg); [exists (b, a); exact Sj|].
  exists f. split; [reflexivity|]. exists b, a. split; [exact Sj|]. split; [exact Hf|]. exact (side_at_in _ _ _ Si).
Qed.

Theorem C30_boundary m f i a b : conforming m -> boundary_unset m -> In f (facets m) ->
  side_at f i = Some (a, b) ->
  (mh_nbr (setup_facet_connectivity m) (fa_id f) i = None <->
   exists e, In e (mh_bdry m) /\ ed_1 e = a /\ ed_2 e = b).
Proof.
  intros C U Hf Si. assert (L : In (a, b) (all_sides m)) by (apply all_sides_in; exists f; split; [exact Hf|exact (side_at_in _ _ _ Si)]).
  assert (P : exists p, side_at f i = Some p) by (exists (a, b); exact Si). split.
  - intros H. destruct (cf_cover _ C a b L) as [e [He E]]. apply in_app_or in He. destruct He as [He|He].
    + exfalso. destruct (cf_intr _ C e He) as [I1 I2].
      assert (R : In (b, a) (all_sides m)) by (destruct E as [[E1 E2]|[E1 E2]]; subst; assumption).
      apply all_sides_in in R. destruct R as [g [Hg Pg]].
      assert (X : mh_nbr (setup_facet_connectivity m) (fa_id f) i = Some (fa_id g)).
      { apply (setup_neighbour m f i _ C U Hf P). exists g. split; [reflexivity|]. exists a, b. auto. }
      congruence.
    + exists e. split; [exact He|]. destruct E as [E|[E1 E2]]; [exact E|].
      exfalso. destruct (cf_bdry _ C e He) as [_ N]. subst. contradiction.
  - intros [e [He [E1 E2]]]. destruct (cf_bdry _ C e He) as [_ N]. rewrite E1, E2 in N.
    destruct (mh_nbr (setup_facet_connectivity m) (fa_id f) i) as [g|] eqn:X; [|reflexivity].
    apply (setup_neighbour m f i _ C U Hf P) in X. destruct X as [g' [_ [a' [b' [S' [Hg' P']]]]]].
    rewrite Si in S'. injection S' as F1 F2. subst a' b'. exfalso. apply N. apply all_sides_in. exists g'. auto.
Qed.

(* the setup can be repeated: its hypotheses hold again afterwards *)
Theorem C30_again m : conforming m -> boundary_unset m ->
  conforming (setup_facet_connectivity m) /\ boundary_unset (setup_facet_connectivity m).
Proof.
  intros C U.
  assert (FI : forall e, ed_1 (connect_intr m e) = ed_1 e /\ ed_2 (connect_intr m e) = ed_2 e /\ ed_id (connect_intr m e) = ed_id e).
  { intros e. unfold connect_intr. destruct (sharing m (ed_1 e) (ed_2 e)) as [|[f i] [|[g j] l]]; [auto|apply set_side_ends|].
    destruct (set_side_ends m g (set_side m f e)) as [A1 [A2 A3]]. destruct (set_side_ends m f e) as [B1 [B2 B3]].
    rewrite A1, A2, A3. auto. }
  assert (FB : forall e, ed_1 (connect_bdry m e) = ed_1 e /\ ed_2 (connect_bdry m e) = ed_2 e /\ ed_id (connect_bdry m e) = ed_id e).
  { intros e. unfold connect_bdry. destruct (sharing m (ed_1 e) (ed_2 e)) as [|[f i] l]; [auto|].
    destruct (is_left _ _ _); [apply set_side_ends|auto]. }
  assert (IDS : map ed_id (all_edges (setup_facet_connectivity m)) = map ed_id (all_edges m)).
  { unfold all_edges. cbn. rewrite !map_app, !map_map. f_equal; apply map_ext; intros e; [apply FI|apply FB]. }
  assert (OLD : forall e, In e (all_edges (setup_facet_connectivity m)) ->
     exists e0, In e0 (all_edges m) /\ ed_id e = ed_id e0 /\ ed_1 e = ed_1 e0 /\ ed_2 e = ed_2 e0).
  { intros e He. unfold all_edges in He. cbn in He. apply in_app_or in He. destruct He as [He|He];
      apply in_map_iff in He; destruct He as [e0 [E He]]; subst e; exists e0.
    - split; [apply in_or_app; left; exact He|]. destruct (FI e0) as [A1 [A2 A3]]. auto.
    - split; [apply in_or_app; right; exact He|]. destruct (FB e0) as [A1 [A2 A3]]. auto. }
  split.
  - constructor; try (cbn; apply C).
    + intros e He. cbn in He. apply in_map_iff in He. destruct He as [e0 [E He]]. subst e.
      destruct (FI e0) as [A1 [A2 _]]. rewrite A1, A2. exact (cf_intr _ C e0 He).
    + intros e He. cbn in He. apply in_map_iff in He. destruct He as [e0 [E He]]. subst e.
      destruct (FB e0) as [A1 [A2 _]]. rewrite A1, A2. exact (cf_bdry _ C e0 He).
    + intros a b Hab. destruct (cf_cover _ C a b Hab) as [e [He E]]. unfold all_edges in *. cbn.
      apply in_app_or in He. destruct He as [He|He].
      * exists (connect_intr m e). split; [apply in_or_app; left; apply in_map; exact He|].
        destruct (FI e) as [A1 [A2 _]]. rewrite A1, A2. exact E.
      * exists (connect_bdry m e). split; [apply in_or_app; right; apply in_map; exact He|].
        destruct (FB e) as [A1 [A2 _]]. rewrite A1, A2. exact E.
    + rewrite IDS. exact (cf_eids _ C).
    + intros e f He Hf S. destruct (OLD e He) as [e0 [He0 [E1 [E2 E3]]]]. destruct (OLD f Hf) as [f0 [Hf0 [F1 [F2 F3]]]].
      assert (X : e0 = f0). { apply (cf_single _ C e0 f0 He0 Hf0). unfold same_pair in *. rewrite <- E2, <- E3, <- F2, <- F3. exact S. }
      subst f0. assert (Y : ed_id e = ed_id f) by congruence.
      assert (ND := cf_eids _ C). rewrite <- IDS in ND. clear - ND He Hf Y.
      induction (all_edges (setup_facet_connectivity m)) as [|h l IH]; [destruct He|].
      cbn [map] in ND. inversion ND as [|? ? N ND']. subst. destruct He as [He|He], Hf as [Hf|Hf]; subst.
      * reflexivity.
      * exfalso. apply N. rewrite Y. apply in_map. exact Hf.
      * exfalso. apply N. rewrite <- Y. apply in_map. exact He.
      * apply IH; assumption.
  - intros f i a b Hf Si N.
    destruct (mh_nbr (setup_facet_connectivity m) (fa_id f) i) as [g|] eqn:X; [|reflexivity].
    apply (setup_neighbour m f i _ C U Hf) in X; [|exists (a, b); exact Si].
    destruct X as [g' [_ [a' [b' [S' [Hg' P']]]]]]. rewrite Si in S'. injection S' as F1 F2. subst a' b'.
    exfalso. apply N. apply all_sides_in. exists g'. auto.
Qed.

(* with every element on the left of its sides, the facet pointers of the edges
   are the elements on their two sides, and no edge is reported as front edge *)
Theorem C30_edge_facets_partial m : conforming m -> (forall f, In f (facets m) -> centred (mh_pos m) f) ->
  (forall e, In e (mh_intr m) -> exists f g, In f (facets m) /\ In g (facets m) /\
     In (ed_1 e, ed_2 e) (sides f) /\ In (ed_2 e, ed_1 e) (sides g) /\
     ed_l (connect_intr m e) = Some (fa_id f) /\ ed_r (connect_intr m e) = Some (fa_id g)) /\
  (forall e, In e (mh_bdry m) -> exists f, In f (facets m) /\ In (ed_1 e, ed_2 e) (sides f) /\
     ed_l (connect_bdry m e) = Some (fa_id f)) /\
  front_edges (setup_facet_connectivity m) = [].
Proof.
  intros C N. assert (I := connect_intr_sides m). assert (B := connect_bdry_side m).
  split; [intros e He; exact (I e C N He)|]. split; [intros e He; exact (B e C N He)|].
  unfold front_edges. cbn [setup_facet_connectivity mh_intr mh_bdry].
  assert (Z : forall (p : medge -> bool) l, (forall x, In x l -> p x = false) -> filter p l = []).
  { intros p l H. induction l as [|a l IH]; [reflexivity|]. cbn. rewrite (H a (or_introl eq_refl)). apply IH. intros x Hx. apply H. right. exact Hx. }
  rewrite !Z; [reflexivity| |].
  - intros x Hx. apply in_map_iff in Hx. destruct Hx as [e [E He]]. subst x.
    destruct (B e C N He) as [f [_ [_ L]]]. rewrite L. reflexivity.
  - intros x Hx. apply in_map_iff in Hx. destruct Hx as [e [E He]]. subst x.
    destruct (I e C N He) as [f [g [_ [_ [_ [_ [L R]]]]]]]. rewrite L, R. reflexivity.
Qed.

(* ------------------------------------------------------------------ *)
(* concrete meshes *)
Definition fresh_edge (i a b : nat) (c : Z) : medge := ED i a b c 0%N None None None.
Definition ptl (l : list vec2) (i : nat) : vec2 := nth i l (V2 0 0).

(* a quad and a triangle side by side: vertices 0..4 *)
Definition house : mesh :=
  MH (ptl [V2 0 0; V2 2 0; V2 2 2; V2 0 2; V2 1 4]) (fun _ => 0%N) [0;1;2;3;4]%nat
     [FA 5 (Quad4 0 1 2 3) 7 true] [FA 6 (Tri3 3 2 4) 8 true]
     [fresh_edge 7 2 3 (-1)]
     [fresh_edge 8 0 1 1; fresh_edge 9 1 2 2; fresh_edge 10 2 4 3; fresh_edge 11 4 3 3; fresh_edge 12 3 0 4]
     (fun _ _ => None) 13 5 1 100.

Example C30_house_conforming : conforming house /\ boundary_unset house /\
  (forall f, In f (facets house) -> centred (mh_pos house) f).
Proof.
  split; [apply conformingb_sound; vm_compute; reflexivity|]. split; [intros f i a b _ _ _; reflexivity|].
  intros f Hf a b Hs. cbn in Hf. destruct Hf as [Hf|[Hf|[]]]; subst f; cbn in Hs;
    repeat (destruct Hs as [Hs|Hs]; [injection Hs as E1 E2; subst a b; vm_compute; split; reflexivity|]); destruct Hs.
Qed.
(* the hypotheses of the theorems hold and the results are as drawn *)
Example C30_case :
  mh_nbr (setup_facet_connectivity house) 5 1 = Some 6%nat /\
  mh_nbr (setup_facet_connectivity house) 6 2 = Some 5%nat /\
  mh_nbr (setup_facet_connectivity house) 5 0 = None /\
  length (valid_interior_edges (setup_facet_connectivity house)) = 1%nat /\
  length (valid_boundary_edges (setup_facet_connectivity house)) = 5%nat.
Proof. vm_compute. repeat split; reflexivity. Qed.

(* before the setup all edges are front edges *)
Example C29_case : length (front_edges house) = 6%nat /\ NoDup (map ed_id (all_edges house)) /\
  front_edges (setup_facet_connectivity house) = [].
Proof. split; [reflexivity|]. split; [apply (nodupb_sound Nat.eqb Nat.eqb_refl); reflexivity|]. vm_compute. reflexivity. Qed.

Example C28_case :
  NoDup (mh_verts house) /\
  vt_conn (vtu_data house (vertex_indices house (fun _ => (-1)%Z))) = [0;1;2;3;3;2;4]%Z /\
  vt_off (vtu_data house (vertex_indices house (fun _ => (-1)%Z))) = [4;7]%Z /\
  vt_types (vtu_data house (vertex_indices house (fun _ => (-1)%Z))) = [9;5]%Z /\
  vt_color (vtu_data house (vertex_indices house (fun _ => (-1)%Z))) = [7;8]%Z.
Proof. split; [apply (nodupb_sound Nat.eqb Nat.eqb_refl); reflexivity|]. vm_compute. auto. Qed.

(* A concave quad (0,1,2,3) whose centroid lies on the wrong side of two of its
   edges, and the triangle filling its notch: a conforming mesh of elements with
   positive area.  The facet pointers are wrong: both interior edges have two
   elements but are reported as front edges. *)
Definition dart : mesh :=
  MH (ptl [V2 0 10; V2 (-1) 0; V2 0 9; V2 1 0]) (fun _ => 0%N) [0;1;2;3]%nat
     [FA 4 (Quad4 0 1 2 3) 1 true] [FA 5 (Tri3 1 3 2) 1 true]
     [fresh_edge 6 1 2 (-1); fresh_edge 7 2 3 (-1)]
     [fresh_edge 8 0 1 1; fresh_edge 9 1 3 1; fresh_edge 10 3 0 1]
     (fun _ _ => None) 11 10 1 100.
Theorem C30_edge_facets_refuted : exists m, conforming m /\ boundary_unset m /\
  (forall f, In f (facets m) -> 0 < fa_area (mh_pos m) f)%Q /\
  length (front_edges (setup_facet_connectivity m)) = 2%nat.
Proof.
  exists dart. split; [apply conformingb_sound; vm_compute; reflexivity|].
  split; [intros f i a b _ _ _; reflexivity|]. split; [|vm_compute; reflexivity].
  intros f Hf. cbn in Hf. destruct Hf as [Hf|[Hf|[]]]; subst f; vm_compute; reflexivity.
Qed.

Print Assumptions C28_vertex_indices.
Print Assumptions C28_element_indices.
Print Assumptions C28_vtu_faithful.
Print Assumptions C28_vtu_types.
Print Assumptions C28_vtu_connectivity.
Print Assumptions C28_vtu_offsets.
Print Assumptions C29_partition.
Print Assumptions C29_exactly_one.
Print Assumptions C29_interface.
Print Assumptions C30_neighbour.
Print Assumptions C30_symmetric.
Print Assumptions C30_boundary.
Print Assumptions C30_again.
Print Assumptions C30_edge_facets_partial.
Print Assumptions C30_edge_facets_refuted.
