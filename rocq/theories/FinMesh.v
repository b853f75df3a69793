(* The finished mesh of a complete triangulation is conforming and sound: proofs for
   FinProps. *)
From Coq Require Import Lia Lqa Permutation.
From Verif Require Import Base Chain GeomModel GeomSpec GeomProofs FacetModel UtilModel BdryModel BdrySpec
  AdvanceModel AdvanceSpec AdvanceProofs AdvanceInv MeshModel MeshSpec MeshProofs QRefineSpec CleanSpec CleanModel
  WindSpec WindMesh WindProps ClearSpec ClearEnd FanProofs FinModel FinProofs.
Open Scope Q_scope.

(* ---- the check looks for a side at each edge ---- *)
Lemma in_age l f : In f (by_age l) <-> In f l.
Proof.
  assert (P : forall l, Permutation l (by_age l)).
  { clear. assert (I : forall f l, Permutation (f :: l) (ins_facet f l)).
    { intros f l. induction l as [|g r IH]; [apply Permutation_refl|]. cbn [ins_facet]. destruct (Nat.leb _ _); [apply Permutation_refl|].
      eapply Permutation_trans; [apply perm_swap|]. apply perm_skip, IH. }
    intros l. induction l as [|f l IH]; [constructor|]. cbn [by_age fold_right]. fold (by_age l). eapply Permutation_trans; [apply perm_skip, IH|]. apply I. }
  split; intros H; [apply (Permutation_in _ (Permutation_sym (P l)) H)|apply (Permutation_in _ (P l) H)].
Qed.
Lemma facets_at_in m v f : In f (facets_at m v) <-> In f (facets m) /\ In v (corners (fa_sh f)).
Proof.
  unfold facets_at. rewrite in_age, filter_In. split; intros [A B]; (split; [exact A|]).
  - apply existsb_exists in B. destruct B as (x & I & E). apply Nat.eqb_eq in E. subst x. exact I.
  - apply existsb_exists. exists v. split; [exact B|apply Nat.eqb_refl].
Qed.
Lemma side_index_some s a b : is_some (side_index s a b) = true <-> In (a, b) (ring_edges (corners s)) \/ In (b, a) (ring_edges (corners s)).
Proof.
  assert (E : forall x y, ((Nat.eqb a x && Nat.eqb b y) || (Nat.eqb a y && Nat.eqb b x) = true <-> (x, y) = (a, b) \/ (x, y) = (b, a))).
  { intros x y. rewrite orb_true_iff, !andb_true_iff, !Nat.eqb_eq. split.
    - intros [[-> ->]|[-> ->]]; auto.
    - intros [E|E]; injection E as -> ->; auto. }
  destruct s as [x y z|x y z w]; cbn [side_index corners].
  - change (ring_edges [x; y; z]) with [(x, y); (y, z); (z, x)]. cbn [In].
    pose proof (E x y) as E1. pose proof (E y z) as E2. pose proof (E z x) as E3.
    destruct ((Nat.eqb a x && Nat.eqb b y) || (Nat.eqb a y && Nat.eqb b x)); [cbn [is_some]; tauto|].
    destruct ((Nat.eqb a y && Nat.eqb b z) || (Nat.eqb a z && Nat.eqb b y)); [cbn [is_some]; tauto|].
    destruct ((Nat.eqb a z && Nat.eqb b x) || (Nat.eqb a x && Nat.eqb b z)); cbn [is_some]; [tauto|].
    split; [discriminate|]. intros H. exfalso. assert (false <> true) by discriminate. tauto.
  - change (ring_edges [x; y; z; w]) with [(x, y); (y, z); (z, w); (w, x)]. cbn [In].
    pose proof (E x y) as E1. pose proof (E y z) as E2. pose proof (E z w) as E3. pose proof (E w x) as E4.
    destruct ((Nat.eqb a x && Nat.eqb b y) || (Nat.eqb a y && Nat.eqb b x)); [cbn [is_some]; tauto|].
    destruct ((Nat.eqb a y && Nat.eqb b z) || (Nat.eqb a z && Nat.eqb b y)); [cbn [is_some]; tauto|].
    destruct ((Nat.eqb a z && Nat.eqb b w) || (Nat.eqb a w && Nat.eqb b z)); [cbn [is_some]; tauto|].
    destruct ((Nat.eqb a w && Nat.eqb b x) || (Nat.eqb a x && Nat.eqb b w)); cbn [is_some]; [tauto|].
    split; [discriminate|]. intros H. exfalso. assert (false <> true) by discriminate. tauto.
Qed.
Lemma edge_found_iff m e : edge_found m e = true <-> In (ed_1 e, ed_2 e) (all_sides m) \/ In (ed_2 e, ed_1 e) (all_sides m).
Proof.
  unfold edge_found. rewrite andb_true_iff, !existsb_exists. split.
  - intros [(f & I & S) _]. apply facets_at_in in I. apply side_index_some in S. unfold all_sides. rewrite !in_flat_map.
    destruct S as [S|S]; [left|right]; exists f; (split; [apply I|exact S]).
  - intros H. assert (X : exists f, In f (facets m) /\ is_some (side_index (fa_sh f) (ed_1 e) (ed_2 e)) = true /\ In (ed_1 e) (corners (fa_sh f)) /\ In (ed_2 e) (corners (fa_sh f))).
    { unfold all_sides in H. rewrite !in_flat_map in H. destruct H as [(f & I & S)|(f & I & S)]; exists f; (split; [exact I|]); (split; [apply side_index_some; auto|]);
        destruct (side_corners f _ _ S); auto. }
    destruct X as (f & I & S & C1 & C2). split; exists f; (split; [apply facets_at_in; auto|exact S]).
Qed.
Lemma validity_iff m : check_mesh_validity m = true <->
  forall e, In e (all_edges m) -> In (ed_1 e, ed_2 e) (all_sides m) \/ In (ed_2 e, ed_1 e) (all_sides m).
Proof.
  unfold check_mesh_validity, all_edges. rewrite andb_true_iff, !forallb_forall. split.
  - intros [A B] e I. apply edge_found_iff. apply in_app_or in I. destruct I; auto.
  - intros H. split; intros e I; apply edge_found_iff, H, in_or_app; auto.
Qed.

(* ---- lists of interior edges ---- *)
Lemma fin_intr_in k l e : In e (fin_intr k l) -> In (ed_1 e, ed_2 e) l /\ (k <= ed_id e < k + length l)%nat /\ nth_error l (ed_id e - k) = Some (ed_1 e, ed_2 e).
Proof.
  revert k. induction l as [|[a b] l IH]; intros k I; [destruct I|]. cbn [fin_intr] in I. destruct I as [<-|I].
  - cbn. split; [auto|]. split; [lia|]. rewrite Nat.sub_diag. reflexivity.
  - destruct (IH (S k) I) as (A & B & C). cbn [length]. split; [right; exact A|]. split; [lia|].
    replace (ed_id e - k)%nat with (S (ed_id e - S k)) by lia. exact C.
Qed.
Lemma fin_intr_out k l a b : In (a, b) l -> exists e, In e (fin_intr k l) /\ ed_1 e = a /\ ed_2 e = b.
Proof.
  revert k. induction l as [|[x y] l IH]; intros k I; [destruct I|]. cbn [fin_intr]. destruct I as [I|I].
  - injection I as -> ->. eexists. split; [left; reflexivity|]. split; reflexivity.
  - destruct (IH (S k) I) as (e & Ie & E). exists e. split; [right; exact Ie|exact E].
Qed.
Lemma fin_intr_ids k l : map ed_id (fin_intr k l) = seq k (length l).
Proof. revert k. induction l as [|[a b] l IH]; intros k; [reflexivity|]. cbn. rewrite IH. reflexivity. Qed.
Lemma fin_intr_inj k l e f : In e (fin_intr k l) -> In f (fin_intr k l) -> ed_id e = ed_id f -> e = f.
Proof.
  revert k. induction l as [|[a b] l IH]; intros k I J E; [destruct I|]. cbn [fin_intr] in I, J. destruct I as [<-|I], J as [<-|J].
  - reflexivity.
  - exfalso. apply fin_intr_in in J. cbn in E. lia.
  - exfalso. apply fin_intr_in in I. cbn in E. lia.
  - exact (IH (S k) I J E).
Qed.

Lemma uses_any_in p q l : uses_any p q l <> 0%nat <-> In (p, q) l \/ In (q, p) l.
Proof.
  unfold uses_any. split.
  - intros N. destruct (filter _ l) as [|x r] eqn:F; [exfalso; apply N; reflexivity|].
    assert (I : In x (filter (fun e => (Nat.eqb (fst e) p && Nat.eqb (snd e) q) || (Nat.eqb (snd e) p && Nat.eqb (fst e) q)) l)) by (rewrite F; left; reflexivity).
    apply filter_In in I. destruct I as [I E]. rewrite orb_true_iff, !andb_true_iff, !Nat.eqb_eq in E. destruct x as [a b]. cbn in E.
    destruct E as [[-> ->]|[-> ->]]; auto.
  - intros H Z. apply length_zero_iff_nil in Z.
    assert (X : forall a b, In (a, b) l -> (a = p /\ b = q) \/ (a = q /\ b = p) -> False).
    { intros a b I E. assert (J : In (a, b) (filter (fun e => (Nat.eqb (fst e) p && Nat.eqb (snd e) q) || (Nat.eqb (snd e) p && Nat.eqb (fst e) q)) l)).
      { apply filter_In. split; [exact I|]. cbn. rewrite orb_true_iff, !andb_true_iff, !Nat.eqb_eq. destruct E as [[-> ->]|[-> ->]]; auto. }
      rewrite Z in J. destruct J. }
    destruct H as [H|H]; [apply (X p q H)|apply (X q p H)]; auto.
Qed.
(* two places *)
Lemma uses_any_two p q l i j x y : nth_error l i = Some x -> nth_error l j = Some y -> i <> j ->
  (x = (p, q) \/ x = (q, p)) -> (y = (p, q) \/ y = (q, p)) -> (2 <= uses_any p q l)%nat.
Proof.
  assert (T : forall x, (x = (p, q) \/ x = (q, p)) -> ((Nat.eqb (fst x) p && Nat.eqb (snd x) q) || (Nat.eqb (snd x) p && Nat.eqb (fst x) q)) = true).
  { intros z [->| ->]; cbn; rewrite !Nat.eqb_refl; cbn; [reflexivity|apply orb_true_r]. }
  assert (ONE : forall l i x, nth_error l i = Some x -> (x = (p, q) \/ x = (q, p)) -> (1 <= uses_any p q l)%nat).
  { intros l0 k z H E. apply nth_error_In in H. assert (uses_any p q l0 <> 0%nat); [|lia]. apply uses_any_in. destruct E as [->| ->]; auto. }
  revert i j. induction l as [|z l IH]; intros i j Hi Hj N Ex Ey; [destruct i; discriminate|].
  unfold uses_any. cbn [filter]. destruct i as [|i], j as [|j]; cbn [nth_error] in Hi, Hj.
  - congruence.
  - injection Hi as ->. rewrite (T x Ex). cbn [length]. specialize (ONE l j y Hj Ey). unfold uses_any in ONE. lia.
  - injection Hj as ->. rewrite (T y Ey). cbn [length]. specialize (ONE l i x Hi Ex). unfold uses_any in ONE. lia.
  - specialize (IH i j Hi Hj ltac:(lia) Ex Ey). unfold uses_any in IH. destruct (_ || _); cbn [length]; lia.
Qed.
Lemma uses_two {p q : nat} l : (forall p q, (uses p q l <= 1)%nat) -> NoDup l.
Proof.
  intros H. induction l as [|[a b] l IH]; [constructor|]. constructor.
  - intros I. apply uses_in in I. specialize (H a b). unfold uses in *. cbn [filter fst snd] in H. rewrite !Nat.eqb_refl in H. cbn in H. lia.
  - apply IH. intros x y. specialize (H x y). unfold uses in *. cbn [filter] in H. destruct (_ && _); cbn [length] in H; lia.
Qed.

(* ---- the finished mesh ---- *)
Section Finished.
Variable mesh_scale : Q.
Variable twin : nat -> option nat.
Variable prop : nat -> N.
Variable st st' : mstate.
Variable c : Z.
Hypothesis W : wf st.
Hypothesis T : tidy mesh_scale c st'.
Hypothesis V : vertices_in front_scale st'.
Hypothesis S : simple_front (ms_pos st) (ms_front st).
Hypothesis F : ms_front st' = [].
Hypothesis A : forall t, In t (ms_tris st') -> 0 < tri_area (ms_pos st' (tr_v1 t)) (ms_pos st' (tr_v2 t)) (ms_pos st' (tr_v3 t)).
Hypothesis D : forall i j t u p, nth_error (ms_tris st') i = Some t -> nth_error (ms_tris st') j = Some u ->
  inside_shape (ms_pos st') (tri_shape t) p -> inside_shape (ms_pos st') (tri_shape u) p -> i = j.
Hypothesis CF : forall p q, p <> q ->
    (In (p, q) (ends (ms_front st)) ->
       uses p q (AdvanceSpec.sides (ms_tris st')) = 1%nat /\ uses q p (AdvanceSpec.sides (ms_tris st')) = 0%nat /\ uses_any p q (ms_intr st') = 0%nat) /\
    (~ In (p, q) (ends (ms_front st)) -> ~ In (q, p) (ends (ms_front st)) ->
       uses p q (AdvanceSpec.sides (ms_tris st')) = uses q p (AdvanceSpec.sides (ms_tris st')) /\
       (uses p q (AdvanceSpec.sides (ms_tris st')) <= 1)%nat /\ uses_any p q (ms_intr st') = uses p q (AdvanceSpec.sides (ms_tris st'))).

Let m := finished mesh_scale twin prop st st'.
Let ts := ms_tris st'.

Lemma fm_facets : facets m = map fin_tri ts.
Proof. unfold facets, m, finished. cbn [mh_quads mh_tris]. rewrite (td_quads _ _ _ T). reflexivity. Qed.
Lemma fm_intr : mh_intr m = fin_intr (ms_ne st) (ms_intr st').
Proof. unfold m, finished. cbn [mh_intr]. rewrite F. reflexivity. Qed.
Lemma fm_sides : all_sides m = AdvanceSpec.sides ts.
Proof.
  unfold all_sides, AdvanceSpec.sides. rewrite fm_facets. induction ts as [|t l IH]; [reflexivity|]. cbn [map flat_map]. rewrite IH. reflexivity.
Qed.
Lemma fm_in f : In f (facets m) -> exists t, In t ts /\ f = fin_tri t.
Proof. rewrite fm_facets. intros I. apply in_map_iff in I. destruct I as (t & E & I). exists t. auto. Qed.
Lemma fm_distinct t : In t ts -> NoDup [tr_v1 t; tr_v2 t; tr_v3 t].
Proof.
  intros I. assert (P := A t I). apply area_pos in P.
  assert (N1 : tr_v1 t <> tr_v2 t) by (intros E; rewrite E in P; unfold det in P; lra).
  assert (N2 : tr_v2 t <> tr_v3 t) by (intros E; rewrite E in P; unfold det in P; lra).
  assert (N3 : tr_v1 t <> tr_v3 t) by (intros E; rewrite E in P; unfold det in P; lra).
  repeat constructor; cbn; intuition congruence.
Qed.
Lemma fm_side_ne p q : In (p, q) (all_sides m) -> p <> q.
Proof.
  rewrite fm_sides. unfold AdvanceSpec.sides. intros I. apply in_flat_map in I. destruct I as (t & It & I).
  assert (N := fm_distinct t It). inversion N as [|? ? N1 N']; subst. inversion N' as [|? ? N2 _]; subst. cbn in N1, N2.
  cbn [tri_sides In] in I. destruct I as [I|[I|[I|[]]]]; injection I as <- <-; intuition congruence.
Qed.
Lemma fm_front_one e f : In e (ms_front st) -> In f (ms_front st) -> be_v1 e = be_v1 f -> be_v2 e = be_v2 f -> e = f.
Proof.
  intros I J E1 E2. destruct (Nat.eq_dec (be_id e) (be_id f)) as [Q|Q]; [exact (id_inj _ _ _ (wf_eid _ W) I J Q)|exfalso].
  destruct (sf_ends _ _ S e f I J Q (1 # 2) (1 # 2)) as [[X|X] _]; try lra. cbn [seg fst snd]. rewrite E1, E2. split; reflexivity.
Qed.
Lemma fm_front_ends e : In e (ms_front st) -> In (be_v1 e, be_v2 e) (ends (ms_front st)) /\ be_v1 e <> be_v2 e.
Proof.
  intros I. split; [unfold ends; apply in_map_iff; exists e; auto|]. apply (wf_ev _ W e I).
Qed.
Lemma fm_intr_any e : In e (mh_intr m) -> ed_1 e <> ed_2 e /\ uses_any (ed_1 e) (ed_2 e) (ms_intr st') <> 0%nat /\
  ~ In (ed_1 e, ed_2 e) (ends (ms_front st)) /\ ~ In (ed_2 e, ed_1 e) (ends (ms_front st)).
Proof.
  rewrite fm_intr. intros I. apply fin_intr_in in I. destruct I as (I & _). assert (N := td_intr _ _ _ T _ _ I).
  assert (U : uses_any (ed_1 e) (ed_2 e) (ms_intr st') <> 0%nat) by (apply uses_any_in; auto).
  assert (U' : uses_any (ed_2 e) (ed_1 e) (ms_intr st') <> 0%nat) by (apply uses_any_in; auto).
  split; [exact N|]. split; [exact U|]. split; intros J.
  - apply U. apply (CF _ _ N); exact J.
  - apply U'. apply (CF (ed_2 e) (ed_1 e)); [congruence|exact J].
Qed.
Lemma pair_in_dec (p : nat * nat) l : {In p l} + {~ In p l}.
Proof. apply in_dec. decide equality; apply Nat.eq_dec. Qed.

Lemma fm_once p q : (uses p q (AdvanceSpec.sides ts) <= 1)%nat.
Proof. exact (side_once (ms_pos st') ts p q A D). Qed.

Lemma fm_conforming : conforming m.
Proof.
  constructor.
  - rewrite fm_facets, map_map. exact (wf_tid _ (td_wf _ _ _ T)).
  - intros f I. apply fm_in in I. destruct I as (t & I & ->). exact (fm_distinct t I).
  - intros f I. unfold m, finished in I. cbn [mh_quads] in I. rewrite (td_quads _ _ _ T) in I. destruct I.
  - intros f I. unfold m, finished in I. cbn [mh_tris] in I. apply in_map_iff in I. destruct I as (t & <- & _). eexists _, _, _. reflexivity.
  - rewrite fm_sides. apply (@uses_two 0 0). exact fm_once.
  - intros e I. destruct (fm_intr_any e I) as (N & U & N1 & N2). destruct (proj2 (CF _ _ N) N1 N2) as (E1 & _ & E2).
    rewrite fm_sides. fold ts in E1, E2. split; apply uses_some; lia.
  - intros e I. unfold m, finished in I. cbn [mh_bdry] in I. apply in_map_iff in I. destruct I as (x & <- & I). cbn [fin_bdry ed_1 ed_2].
    destruct (fm_front_ends x I) as [J N]. destruct (proj1 (CF _ _ N) J) as (E1 & E2 & _). rewrite fm_sides. fold ts in E1, E2. split.
    + apply uses_some. lia.
    + intros K. apply uses_in in K. lia.
  - intros a b I. assert (N := fm_side_ne a b I).
    assert (BD : forall x y, In (x, y) (ends (ms_front st)) -> exists e, In e (all_edges m) /\ ed_1 e = x /\ ed_2 e = y).
    { intros x y J. unfold ends in J. apply in_map_iff in J. destruct J as (e & E & J). injection E as <- <-. exists (fin_bdry twin e).
      split; [|split; reflexivity]. unfold all_edges, m, finished. cbn [mh_bdry]. apply in_or_app. right. apply in_map, J. }
    destruct (pair_in_dec (a, b) (ends (ms_front st))) as [J|J].
    { destruct (BD _ _ J) as (e & Ie & E). exists e. auto. }
    destruct (pair_in_dec (b, a) (ends (ms_front st))) as [K|K].
    { destruct (BD _ _ K) as (e & Ie & E1 & E2). exists e. auto. }
    destruct (proj2 (CF _ _ N) J K) as (_ & _ & E). rewrite fm_sides in I. apply uses_in in I. fold ts in E.
    assert (U : uses_any a b (ms_intr st') <> 0%nat) by lia. apply uses_any_in in U.
    destruct U as [U|U]; apply (fin_intr_out (ms_ne st)) in U; destruct U as (e & Ie & E1 & E2); exists e; (split; [|auto]);
      unfold all_edges; apply in_or_app; left; rewrite fm_intr; exact Ie.
  - unfold all_edges. rewrite map_app, fm_intr, fin_intr_ids. unfold m, finished. cbn [mh_bdry]. rewrite map_map.
    change (map (fun x => ed_id (fin_bdry twin x)) (ms_front st)) with (map be_id (ms_front st)).
    apply (Permutation_NoDup (l := map be_id (ms_front st) ++ seq (ms_ne st) (length (ms_intr st')))); [apply Permutation_app_comm|].
    rewrite <- (map_id (seq _ _)). rewrite <- map_id with (l := map be_id (ms_front st)). rewrite <- map_app.
    apply (nodup_app_ids (fun x => x) _ _ (ms_ne st)).
    + rewrite map_id. exact (wf_eid _ W).
    + rewrite map_id. apply seq_NoDup.
    + intros x I. apply in_map_iff in I. destruct I as (e & <- & I). exact (wf_elt _ W e I).
    + intros x I. apply in_seq in I. lia.
  - assert (BI : forall e f, In e (mh_intr m) -> In f (ms_front st) -> same_pair e (fin_bdry twin f) -> False).
    { intros e f I J P. destruct (fm_intr_any e I) as (_ & _ & N1 & N2). destruct (fm_front_ends f J) as [K _].
      destruct P as [[E1 E2]|[E1 E2]]; cbn [fin_bdry ed_1 ed_2] in E1, E2; rewrite <- E1, <- E2 in K; contradiction. }
    intros e f I J P. unfold all_edges in I, J. apply in_app_or in I, J. destruct I as [I|I], J as [J|J].
    + destruct (fm_intr_any e I) as (N & _ & N1 & N2). destruct (proj2 (CF _ _ N) N1 N2) as (_ & U1 & U2).
      rewrite fm_intr in I, J. destruct (fin_intr_in _ _ _ I) as (_ & R1 & X1). destruct (fin_intr_in _ _ _ J) as (_ & R2 & X2).
      destruct (Nat.eq_dec (ed_id e) (ed_id f)) as [Q|Q]; [exact (fin_intr_inj _ _ _ _ I J Q)|exfalso].
      assert (2 <= uses_any (ed_1 e) (ed_2 e) (ms_intr st'))%nat; [|lia].
      apply (uses_any_two _ _ _ _ _ _ _ X1 X2); [lia|auto|]. destruct P as [[-> ->]|[-> ->]]; auto.
    + exfalso. unfold m, finished in J. cbn [mh_bdry] in J. apply in_map_iff in J. destruct J as (x & <- & J). exact (BI e x I J P).
    + exfalso. unfold m, finished in I. cbn [mh_bdry] in I. apply in_map_iff in I. destruct I as (x & <- & I). apply (BI f x J I).
      destruct P as [[E1 E2]|[E1 E2]]; [left|right]; auto.
    + unfold m, finished in I, J. cbn [mh_bdry] in I, J. apply in_map_iff in I, J. destruct I as (x & <- & I), J as (y & <- & J).
      destruct P as [[E1 E2]|[E1 E2]]; cbn [fin_bdry ed_1 ed_2] in E1, E2; [f_equal; exact (fm_front_one x y I J E1 E2)|exfalso].
      destruct (fm_front_ends x I) as [Kx Nx]. destruct (fm_front_ends y J) as [Ky Ny]. rewrite <- E1, <- E2 in Ky.
      destruct (proj1 (CF _ _ Nx) Kx) as (_ & Z & _). destruct (proj1 (CF (be_v2 x) (be_v1 x) ltac:(congruence)) Ky) as (Y & _). lia.
Qed.

Lemma fm_addressed : addressed m.
Proof.
  assert (W' := td_wf _ _ _ T). constructor.
  - exact (wf_vid _ W').
  - intros f v I. apply fm_in in I. destruct I as (t & I & ->). destruct (td_tris _ _ _ T t I) as (_ & _ & K1 & K2 & K3).
    intros [<-|[<-|[<-|[]]]]; assumption.
  - intros v I. apply (wf_vlt _ W') in I. unfold m, finished. cbn [mh_next]. lia.
  - intros f I. apply fm_in in I. destruct I as (t & I & ->). apply (wf_tlt _ W') in I. unfold m, finished. cbn [mh_next fin_tri fa_id]. lia.
  - intros e I. unfold all_edges in I. apply in_app_or in I. destruct I as [I|I].
    + rewrite fm_intr in I. apply fin_intr_in in I. destruct I as (_ & R & _). unfold m, finished. cbn [mh_next]. rewrite F. cbn [map add_remaining]. lia.
    + unfold m, finished in I. cbn [mh_bdry] in I. apply in_map_iff in I. destruct I as (x & <- & I). apply (wf_elt _ W) in I.
      unfold m, finished. cbn [mh_next fin_bdry ed_id]. lia.
Qed.
Lemma fm_fits : fits m.
Proof.
  intros v I. apply (wf_vlt _ (td_wf _ _ _ T)) in I. split; [exact (td_sq _ _ _ T v I)|exact (V v I)].
Qed.
Lemma fm_positive : positive m.
Proof. intros f I. apply fm_in in I. destruct I as (t & I & ->). exact (A t I). Qed.
Lemma fm_unset : boundary_unset m.
Proof. intros f i a b _ _ _. reflexivity. Qed.
Lemma fm_colour : one_colour m.
Proof. intros f I. apply fm_in in I. destruct I as (t & I & ->). cbn. destruct (td_tris _ _ _ T t I) as (_ & E & _). rewrite (td_col _ _ _ T). exact E. Qed.
Lemma fm_area pos t : fa_area pos (fin_tri t) = tri_area (pos (tr_v1 t)) (pos (tr_v2 t)) (pos (tr_v3 t)).
Proof. reflexivity. Qed.
Lemma fm_covered : covered m == tri_areas (ms_pos st') ts.
Proof. unfold covered, tri_areas. rewrite fm_facets, map_map. reflexivity. Qed.

Hypothesis PN : forall e f, In e (ms_front st) -> In f (ms_front st) -> be_v2 e = be_v2 f -> e = f.
Lemma fm_fans : fans m.
Proof.
  apply fans_of.
  - exact fm_conforming.
  - intros f I. apply fm_in in I. destruct I as (t & I & ->). unfold strictly_convex. cbn [fin_tri fa_sh].
    change (mh_pos m) with (ms_pos st'). assert (P := A t I). apply area_pos in P. rewrite area2_det. exact P.
  - intros f g z I J If Ig. apply fm_in in I, J. destruct I as (t & I & ->), J as (u & J & ->). f_equal.
    destruct (In_nth_error _ _ I) as (i & Hi). destruct (In_nth_error _ _ J) as (j & Hj).
    assert (E := D i j t u z Hi Hj If Ig). subst j. congruence.
  - intros e f I J E. unfold m, finished in I, J. cbn [mh_bdry] in I, J. apply in_map_iff in I, J. destruct I as (x & <- & I), J as (y & <- & J).
    f_equal. apply PN; assumption.
Qed.
Lemma fm_sound : sound m.
Proof.
  constructor; [exact fm_conforming|exact fm_addressed|exact fm_fits|exact fm_fans|exact fm_positive|exact fm_unset].
Qed.
End Finished.
