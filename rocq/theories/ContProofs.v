(* Taking a mesh up again: proofs for ContProps. *)
From Coq Require Import Lqa Lia Permutation.
From Verif Require Import Base Chain GeomModel GeomSpec GeomProofs FacetModel UtilModel BdryModel BdrySpec
  AdvanceModel AdvanceSpec AdvanceProofs MeshModel MeshSpec QRefineModel FinModel FinMesh QTileSpec MixSpec MixRun ContModel ContSpec OpenConn.
Open Scope Q_scope.

(* ---- lists ---- *)
Lemma front_from_in k l e : In e (front_from k l) -> exists x, In x l /\ be_v1 e = ed_1 x /\ be_v2 e = ed_2 x /\ be_col e = ed_col x /\ be_prop e = ed_prop x.
Proof.
  revert k. induction l as [|y l IH]; intros k I; [destruct I|]. cbn [front_from] in I. destruct I as [<-|I].
  - exists y. cbn. auto 10.
  - destruct (IH _ I) as (x & J & E). exists x. split; [right; exact J|exact E].
Qed.
Lemma front_from_ids k l : map be_id (front_from k l) = seq k (length l).
Proof. revert k. induction l as [|y l IH]; intros k; [reflexivity|]. cbn. rewrite IH. reflexivity. Qed.
Definition msig (e : medge) : nat * nat * Z * N := (ed_1 e, ed_2 e, ed_col e, ed_prop e).
Lemma front_from_sig k l : map sig (front_from k l) = map msig l.
Proof. revert k. induction l as [|y l IH]; intros k; [reflexivity|]. cbn. rewrite IH. reflexivity. Qed.
Lemma front_from_len k l : length (front_from k l) = length l.
Proof. rewrite <- (map_length be_id), front_from_ids, seq_length. reflexivity. Qed.
Lemma outline_from k m : outline k m = front_from k (mh_bdry m).
Proof.
  unfold outline. generalize (mh_bdry m). intros l. revert k. induction l as [|e l IH]; intros k; [reflexivity|].
  cbn [length seq combine map front_from fst snd]. rewrite IH. reflexivity.
Qed.
Lemma tri_of_fin ts : flat_map tri_of (map fin_tri ts) = ts.
Proof. induction ts as [|[i a b c x k] ts IH]; [reflexivity|]. cbn. f_equal. exact IH. Qed.
Lemma quad_of_fin ts : flat_map quad_of (map fin_quad ts) = ts.
Proof. induction ts as [|[i a b c d x k] ts IH]; [reflexivity|]. cbn. f_equal. exact IH. Qed.
Lemma fin_tri_of l : (forall f, In f l -> tri_facet f) -> map fin_tri (flat_map tri_of l) = l.
Proof.
  induction l as [|[i s c x] l IH]; intros H; [reflexivity|]. destruct (H _ (or_introl eq_refl)) as (a & b & d & E). cbn in E. subst s. cbn. f_equal. apply IH. intros f I. apply H. right. exact I.
Qed.
Lemma fin_quad_of l : (forall f, In f l -> quad_facet f) -> map fin_quad (flat_map quad_of l) = l.
Proof.
  induction l as [|[i s c x] l IH]; intros H; [reflexivity|]. destruct (H _ (or_introl eq_refl)) as (a & b & d & e & E). cbn in E. subst s. cbn. f_equal. apply IH. intros f I. apply H. right. exact I.
Qed.
Lemma nodup_right {X} (l l' : list X) : NoDup (l ++ l') -> NoDup l'.
Proof. induction l as [|x l IH]; intros H; [exact H|]. inversion H; auto. Qed.
Lemma list_max_in l v : In v l -> (v <= list_max l)%nat.
Proof. intros I. assert (H := proj1 (list_max_le l (list_max l)) (Nat.le_refl _)). rewrite Forall_forall in H. apply H, I. Qed.

(* ---- records of the interior edges ---- *)
Lemma records_pairs old k l : map ed_pair (edge_records old k l) = l.
Proof.
  revert k. induction l as [|[a b] l IH]; intros k; [reflexivity|]. cbn [edge_records map]. rewrite IH. f_equal.
  destruct (find _ old) as [e|] eqn:E; [|reflexivity]. apply find_some in E. destruct E as [_ E]. apply andb_true_iff in E. destruct E as [E1 E2]. apply Nat.eqb_eq in E1, E2.
  unfold ed_pair. congruence.
Qed.
Lemma records_in old k l e : In e (edge_records old k l) -> In (ed_pair e) l /\
  (In e old \/ (ed_l e = None /\ ed_r e = None /\ ed_col e = interior_edge_color /\ ed_prop e = 0%N /\ (k <= ed_id e < k + length l)%nat)).
Proof.
  intros I. assert (J := in_map ed_pair _ _ I). rewrite records_pairs in J. split; [exact J|]. clear J.
  revert k I. induction l as [|[a b] l IH]; intros k I; [destruct I|]. cbn [edge_records length] in *. destruct I as [<-|I].
  - destruct (find _ old) as [e|] eqn:E; [apply find_some in E; left; apply E|right; cbn; auto 10 with arith]. repeat split; try reflexivity; lia.
  - destruct (IH _ I) as [H|(H1 & H2 & H3 & H4 & H5)]; [auto|right]. repeat split; try assumption; lia.
Qed.
Lemma records_ids old k l : NoDup l -> NoDup (map ed_id old) -> (forall e, In e old -> (ed_id e < k)%nat) -> NoDup (map ed_id (edge_records old k l)).
Proof.
  intros ND NO LT. cut (forall j, (k <= j)%nat -> NoDup (map ed_id (edge_records old j l)) /\ forall e, In e (edge_records old j l) -> In e old \/ (j <= ed_id e)%nat).
  { intros H. apply (H k). lia. }
  induction l as [|[a b] l IH]; intros j L; [split; [constructor|intros e []]|]. inversion ND as [|? ? N ND']; subst.
  destruct (IH ND' (S j)) as [I1 I2]; [lia|]. cbn [edge_records]. destruct (find _ old) as [e|] eqn:E.
  - apply find_some in E. destruct E as [Eo E]. apply andb_true_iff in E. destruct E as [E1 E2]. apply Nat.eqb_eq in E1, E2. split.
    + cbn [map]. constructor; [|exact I1]. intros J. apply in_map_iff in J. destruct J as (f & F1 & F2).
      destruct (I2 f F2) as [F3|F3]; [|specialize (LT e Eo); lia].
      assert (f = e).
      { revert F3 Eo F1 NO. clear. induction old as [|x o IH]; [intros []|]. intros [->|A] [->|B] E ND; cbn [map] in ND; inversion ND as [|? ? N ND']; subst; try reflexivity; auto.
        - exfalso. apply N. rewrite E. apply in_map, B.
        - exfalso. apply N. rewrite <- E. apply in_map, A. }
      subst f. apply records_in in F2. destruct F2 as [F2 _]. apply N. unfold ed_pair in F2. rewrite E1, E2 in F2. exact F2.
    + intros f [<-|F]; [left; exact Eo|]. destruct (I2 f F); [auto|right; lia].
  - split.
    + cbn [map ed_id]. constructor; [|exact I1]. intros J. apply in_map_iff in J. destruct J as (f & F1 & F2). destruct (I2 f F2) as [F3|F3]; [specialize (LT f F3); lia|lia].
    + intros f [<-|F]; [right; cbn; lia|]. destruct (I2 f F); [auto|right; lia].
Qed.

(* ---- edges that are put back ---- *)
Lemma has_edge_any l a b : has_edge l a b = false <-> uses_any a b l = 0%nat.
Proof.
  unfold uses_any. split; intros H.
  - unfold has_edge in H. revert H. induction l as [|x l IH]; [reflexivity|]. cbn [existsb filter]. intros H. apply orb_false_iff in H. destruct H as [H1 H2].
    rewrite H1. apply IH, H2.
  - unfold has_edge. induction l as [|x l IH]; [reflexivity|]. cbn [existsb filter] in *.
    destruct ((fst x =? a)%nat && (snd x =? b)%nat || (snd x =? a)%nat && (fst x =? b)%nat); [discriminate|]. apply IH, H.
Qed.
Lemma has_edge_true l a b : has_edge l a b = true <-> In (a, b) l \/ In (b, a) l.
Proof.
  rewrite <- uses_any_in. destruct (has_edge l a b) eqn:E.
  - split; [|reflexivity]. intros _ Z. apply has_edge_any in Z. congruence.
  - apply has_edge_any in E. split; [discriminate|]. intros N. destruct (N E).
Qed.
Lemma remaining_spec bd l : forall intr, ForallOrdPairs (fun x y => x <> y /\ x <> (snd y, fst y)) l ->
  add_remaining bd intr l = intr ++ filter (fun x => negb (has_edge intr (fst x) (snd x)) && negb (has_edge bd (fst x) (snd x))) l.
Proof.
  induction l as [|[a b] l IH]; intros intr P; [cbn; rewrite app_nil_r; reflexivity|]. inversion P as [|? ? P1 P2]; subst.
  cbn [add_remaining filter fst snd]. destruct (has_edge intr a b) eqn:E; cbn [negb andb]; [exact (IH _ P2)|].
  destruct (has_edge bd a b) eqn:E'; cbn [negb]; [exact (IH _ P2)|]. rewrite (IH _ P2), <- app_assoc. cbn [app]. f_equal. f_equal.
  apply filter_ext_in. intros [x y] I. rewrite Forall_forall in P1. specialize (P1 _ I). cbn [fst snd] in *. f_equal. f_equal.
  unfold has_edge. rewrite existsb_app. cbn [existsb fst snd]. rewrite orb_false_r.
  destruct (Nat.eqb_spec a x), (Nat.eqb_spec b y), (Nat.eqb_spec b x), (Nat.eqb_spec a y); subst; cbn [andb orb]; rewrite ?orb_false_r; try reflexivity; exfalso; destruct P1; congruence.
Qed.
Lemma remaining_in bd l : forall intr p, In p (add_remaining bd intr l) -> In p intr \/ In p l.
Proof.
  induction l as [|[a b] l IH]; intros intr p I; [auto|]. cbn [add_remaining] in I. cbn [In].
  destruct (has_edge intr a b); [destruct (IH _ _ I); auto|]. destruct (has_edge bd a b); [destruct (IH _ _ I); auto|].
  destruct (IH _ _ I) as [J|J]; [|auto]. apply in_app_or in J. destruct J as [J|[J|[]]]; auto.
Qed.
Lemma remaining_old bd l : forall intr p, In p intr -> In p (add_remaining bd intr l).
Proof.
  induction l as [|[a b] l IH]; intros intr p I; [exact I|]. cbn [add_remaining]. destruct (has_edge intr a b); [auto|]. destruct (has_edge bd a b); [auto|].
  apply IH, in_or_app. left. exact I.
Qed.

(* ---- the state built from a mesh ---- *)
Section Opened.
Variable m : mesh.
Notation m1 := (setup_facet_connectivity m).
Hypothesis L : laid m.
Lemma setup_edge e : In e (all_edges m1) -> exists x, In x (all_edges m) /\ msig x = msig e /\ ed_id x = ed_id e.
Proof.
  unfold all_edges. cbn [setup_facet_connectivity mh_intr mh_bdry]. intros I. apply in_app_or in I. destruct I as [I|I]; apply in_map_iff in I; destruct I as (x & <- & I); exists x.
  - destruct (OpenConn.connect_ends m x) as (E1 & E2 & E3 & E4 & E5 & _). unfold msig. rewrite E1, E2, E3, E4, E5. split; [apply in_or_app; left; exact I|auto].
  - destruct (OpenConn.connect_bdry_ends m x) as (E1 & E2 & E3 & E4 & E5 & _). unfold msig. rewrite E1, E2, E3, E4, E5. split; [apply in_or_app; right; exact I|auto].
Qed.
Lemma setup_laid : laid m1.
Proof.
  constructor.
  - exact (ld_verts _ L).
  - exact (ld_sq _ L).
  - intros e I. destruct (setup_edge e I) as (x & J & E & _). unfold msig in E. injection E as E1 E2 _ _. rewrite <- E1, <- E2. exact (ld_edges _ L x J).
  - exact (ld_vnext _ L).
  - intros e I. destruct (setup_edge e I) as (x & J & _ & E). rewrite <- E. exact (ld_enext _ L x J).
  - exact (ld_tris _ L).
  - exact (ld_quads _ L).
  - exact (ld_facets _ L).
  - exact (ld_ids _ L).
Qed.
End Opened.

Lemma half_in m e : In e (front_edges m) -> In e (all_edges m).
Proof.
  unfold front_edges, all_edges. intros I. apply in_or_app. apply in_app_or in I. destruct I as [I|I]; apply filter_In in I; [left|right]; apply I.
Qed.
Lemma kept_intr_in m e : In e (kept_intr m) -> In e (mh_intr m).
Proof. intros I. apply filter_In in I. apply I. Qed.
Lemma opened_tris m t : In t (ms_tris (opened m)) -> laid m -> In (fin_tri t) (mh_tris m).
Proof.
  intros I L. cbn [opened ms_tris] in I. rewrite <- (fin_tri_of (mh_tris m) (ld_tris _ L)). apply in_map, I.
Qed.
Lemma opened_quads m t : In t (ms_quads (opened m)) -> laid m -> In (fin_quad t) (mh_quads m).
Proof.
  intros I L. cbn [opened ms_quads] in I. rewrite <- (fin_quad_of (mh_quads m) (ld_quads _ L)). apply in_map, I.
Qed.
Lemma opened_neat m : laid m -> neat (mh_scale m) (mh_col m) (opened m).
Proof.
  intros L.
  assert (FE : forall e, In e (ms_front (opened m)) -> be_v1 e <> be_v2 e /\ In (be_v1 e) (mh_verts m) /\ In (be_v2 e) (mh_verts m)).
  { intros e I. cbn [opened ms_front] in I. apply front_from_in in I. destruct I as (x & J & E1 & E2 & _). rewrite E1, E2. apply (ld_edges _ L), half_in, J. }
  assert (LT : forall v, In v (mh_verts m) -> (v < S (list_max (mh_verts m)))%nat) by (intros v I; apply list_max_in in I; lia).
  assert (TR : forall t, In t (ms_tris (opened m)) -> tr_act t = true /\ tr_col t = mh_col m /\ (tr_id t < mh_next m)%nat /\ In (tr_v1 t) (mh_verts m) /\ In (tr_v2 t) (mh_verts m) /\ In (tr_v3 t) (mh_verts m)).
  { intros t I. destruct (ld_facets _ L (fin_tri t)) as (A & B & C & D); [apply in_or_app; right; exact (opened_tris m t I L)|].
    cbn in A, B, C. repeat split; try assumption; apply D; cbn; auto. }
  assert (QR : forall t, In t (ms_quads (opened m)) -> qu_act t = true /\ qu_col t = mh_col m /\ (qu_id t < mh_next m)%nat /\
    In (qu_v1 t) (mh_verts m) /\ In (qu_v2 t) (mh_verts m) /\ In (qu_v3 t) (mh_verts m) /\ In (qu_v4 t) (mh_verts m)).
  { intros t I. destruct (ld_facets _ L (fin_quad t)) as (A & B & C & D); [apply in_or_app; left; exact (opened_quads m t I L)|].
    cbn in A, B, C. repeat split; try assumption; apply D; cbn; auto. }
  assert (IDS : NoDup (map qu_id (ms_quads (opened m)) ++ map tr_id (ms_tris (opened m)))).
  { assert (N := ld_ids _ L). unfold facets in N. rewrite map_app in N. rewrite <- (fin_tri_of (mh_tris m) (ld_tris _ L)), <- (fin_quad_of (mh_quads m) (ld_quads _ L)), !map_map in N. exact N. }
  assert (SQ : forall v, (v < ms_nv (opened m))%nat -> in_square (mh_scale m) (ms_pos (opened m) v) = true /\ in_square front_scale (ms_pos (opened m) v) = true).
  { intros v I. cbn [opened ms_nv ms_pos] in *. apply (ld_sq _ L). lia. }
  constructor.
  - constructor.
    + cbn [opened ms_front]. rewrite front_from_ids. apply seq_NoDup.
    + intros e I. cbn [opened ms_ne ms_front] in *. apply (in_map be_id) in I. rewrite front_from_ids in I. apply in_seq in I. rewrite front_from_len. lia.
    + intros e I. destruct (FE e I) as (A & B & C). cbn [opened ms_nv]. repeat split; auto.
    + exact (nodup_right _ _ IDS).
    + intros t I. cbn [opened ms_nt]. apply (TR t I).
    + intros t I. destruct (TR t I) as (_ & _ & _ & A & B & C). cbn [opened ms_nv]. auto.
    + exact (ld_verts _ L).
    + exact LT.
  - intros v I. apply (SQ v I).
  - intros v I. apply (SQ v I).
  - intros e I. apply (FE e I).
  - reflexivity.
  - intros t I. destruct (TR t I) as (A & B & _ & C). auto.
  - intros t I. destruct (QR t I) as (A & B & C & D). auto.
  - exact IDS.
  - intros a b I. cbn [opened ms_intr] in I. apply in_map_iff in I. destruct I as (e & E & I). unfold ed_pair in E. injection E as <- <-.
    apply (ld_edges _ L). apply in_or_app. left. apply kept_intr_in, I.
Qed.

(* ---- the mesh with what remains of the front ---- *)
Section Back.
Variable m : mesh.
Variable st' : mstate.
Hypothesis L : laid m.
Hypothesis N : neat (mh_scale m) (mh_col m) st'.
Notation M := (put_back m st').
Lemma back_edge e : In e (mh_intr M) -> ed_1 e <> ed_2 e /\ In (ed_1 e) (ms_verts st') /\ In (ed_2 e) (ms_verts st').
Proof.
  intros I. cbn [put_back mh_intr] in I. apply records_in in I. destruct I as [I _]. apply remaining_in in I. destruct I as [I|I].
  - exact (nt_intr _ _ _ N _ _ I).
  - apply in_map_iff in I. destruct I as (x & E & I). unfold pair_of, ed_pair in E. injection E as <- <-.
    split; [apply (wf_ev _ (nt_wf _ _ _ N) x I)|exact (nt_front _ _ _ N x I)].
Qed.
Lemma back_max : (list_max (ms_verts st') < ms_nv st' \/ ms_verts st' = [])%nat.
Proof.
  destruct (ms_verts st') as [|v l] eqn:E; [auto|left]. rewrite <- E. apply list_max_lt; [rewrite E; discriminate|].
  rewrite Forall_forall. intros x I. apply (wf_vlt _ (nt_wf _ _ _ N)). exact I.
Qed.
Lemma back_laid_any : (forall v, In v (mh_verts m) -> In v (ms_verts st')) -> (ms_ne (opened m) <= ms_ne st')%nat -> mh_verts m <> [] -> laid M.
Proof.
  intros AV AE NV.
  assert (NE : ms_verts st' <> []).
  { destruct (mh_verts m) as [|v l] eqn:E; [congruence|]. intros Z. assert (X : In v (ms_verts st')) by (apply AV; left; reflexivity).
    rewrite Z in X. destruct X. }
  assert (IDO : forall e, In e (all_edges m) -> (ed_id e < ms_ne st')%nat).
  { intros e I. assert (X := ld_enext _ L e I). assert (Y := AE). cbn [opened ms_ne] in Y. lia. }
  constructor.
  - exact (wf_vid _ (nt_wf _ _ _ N)).
  - intros v I. cbn [put_back mh_pos mh_verts mh_scale] in *. destruct back_max as [X|X]; [|congruence]. split; [apply (nt_sq _ _ _ N)|apply (nt_fsq _ _ _ N)]; lia.
  - intros e I. unfold all_edges in I. apply in_app_or in I. destruct I as [I|I]; [exact (back_edge e I)|].
    destruct (ld_edges _ L e) as (X & Y & Z); [apply in_or_app; right; exact I|]. split; [exact X|]. split; apply AV; assumption.
  - intros v I. apply (wf_vlt _ (nt_wf _ _ _ N)) in I. cbn [put_back mh_next]. lia.
  - intros e I. unfold all_edges in I. apply in_app_or in I. cbn [put_back mh_next]. destruct I as [I|I].
    + cbn [put_back mh_intr] in I. apply records_in in I. destruct I as [_ [I|(_ & _ & _ & _ & I)]]; [|lia].
      apply kept_intr_in in I. specialize (IDO e (in_or_app _ _ _ (or_introl I))). lia.
    + specialize (IDO e (in_or_app _ _ _ (or_intror I))). lia.
  - intros f I. cbn [put_back mh_tris] in I. apply in_map_iff in I. destruct I as (t & <- & _). repeat eexists.
  - intros f I. cbn [put_back mh_quads] in I. apply in_map_iff in I. destruct I as (t & <- & _). repeat eexists.
  - intros f I. unfold facets in I. cbn [put_back mh_tris mh_quads] in I. cbn [put_back mh_next mh_verts mh_col]. rewrite (nt_col _ _ _ N).
    apply in_app_or in I. destruct I as [I|I]; apply in_map_iff in I; destruct I as (t & <- & I).
    + destruct (nt_quads _ _ _ N t I) as (E1 & E2 & E3 & E4 & E5 & E6 & E7). cbn. repeat split; try assumption; [lia|]. intros v [<-|[<-|[<-|[<-|[]]]]]; assumption.
    + destruct (nt_tris _ _ _ N t I) as (E1 & E2 & E3 & E4 & E5). assert (E6 := wf_tlt _ (nt_wf _ _ _ N) t I). cbn. repeat split; try assumption; [lia|].
      intros v [<-|[<-|[<-|[]]]]; assumption.
  - unfold facets. cbn [put_back mh_tris mh_quads]. rewrite map_app, !map_map. exact (nt_ids _ _ _ N).
Qed.
Lemma back_facets_any f : (forall t, In t (ms_tris (opened m)) -> In t (ms_tris st')) -> (forall q, In q (ms_quads (opened m)) -> In q (ms_quads st')) ->
  In f (facets m) -> In f (facets M).
Proof.
  intros AT AQ. unfold facets. cbn [put_back mh_tris mh_quads]. intros I. apply in_or_app. apply in_app_or in I. destruct I as [I|I]; [left|right].
  - rewrite <- (fin_quad_of _ (ld_quads _ L)) in I. apply in_map_iff in I. destruct I as (t & <- & I). apply in_map, AQ, I.
  - rewrite <- (fin_tri_of _ (ld_tris _ L)) in I. apply in_map_iff in I. destruct I as (t & <- & I). apply in_map, AT, I.
Qed.
Hypothesis A : after (opened m) st'.
Lemma back_laid : mh_verts m <> [] -> laid M.
Proof. exact (back_laid_any (af_verts _ _ A) (af_ne _ _ A)). Qed.
Lemma back_facets f : In f (facets m) -> In f (facets M).
Proof. exact (back_facets_any f (af_tris _ _ A) (af_quads _ _ A)). Qed.
Lemma back_sides p : In p (all_sides m) -> In p (all_sides M).
Proof. unfold all_sides. rewrite !in_flat_map. intros (f & I & J). exists f. split; [apply back_facets, I|exact J]. Qed.
End Back.

(* ---- stages without geometry ---- *)
(* what was in a mesh stays *)
Record grows (m m' : mesh) : Prop := {
  gr_pos : forall v, In v (mh_verts m) -> mh_pos m' v = mh_pos m v;
  gr_verts : incl (mh_verts m) (mh_verts m');
  gr_facets : incl (facets m) (facets m');
  gr_bdry : map msig (mh_bdry m') = map msig (mh_bdry m);
  gr_col : mh_col m' = mh_col m;
  gr_scale : mh_scale m' = mh_scale m
}.
Lemma grows_refl m : grows m m.
Proof. constructor; auto; apply incl_refl. Qed.
Lemma grows_trans a b c : grows a b -> grows b c -> grows a c.
Proof.
  intros X Y. constructor; intros.
  - rewrite (gr_pos _ _ Y) by (apply (gr_verts _ _ X); assumption). apply (gr_pos _ _ X); assumption.
  - exact (incl_tran (gr_verts _ _ X) (gr_verts _ _ Y)).
  - exact (incl_tran (gr_facets _ _ X) (gr_facets _ _ Y)).
  - rewrite (gr_bdry _ _ Y). apply (gr_bdry _ _ X).
  - rewrite (gr_col _ _ Y). apply (gr_col _ _ X).
  - rewrite (gr_scale _ _ Y). apply (gr_scale _ _ X).
Qed.
Lemma setup_bdry_sig m : map msig (mh_bdry (setup_facet_connectivity m)) = map msig (mh_bdry m).
Proof.
  cbn [setup_facet_connectivity mh_bdry]. rewrite map_map. apply map_ext. intros e. destruct (OpenConn.connect_bdry_ends m e) as (E1 & E2 & _ & E4 & E5 & _).
  unfold msig. congruence.
Qed.
Lemma lasts_grows pos verts ss m m' : grows m m' -> lasts pos verts ss m' -> lasts pos verts ss m.
Proof.
  intros G B. constructor.
  - intros v I. rewrite (ls_pos _ _ _ _ B) by (apply (gr_verts _ _ G), I). apply (gr_pos _ _ G), I.
  - exact (incl_tran (gr_verts _ _ G) (ls_verts _ _ _ _ B)).
  - apply incl_tran with (map fa_sh (facets m')); [|exact (ls_shapes _ _ _ _ B)]. intros s I. apply in_map_iff in I. destruct I as (f & <- & I). apply in_map, (gr_facets _ _ G), I.
Qed.
Lemma stage_weak tri_ok vtx_ok qual m os m' : laid m -> mh_verts m <> [] -> ops_in (mh_scale m) os ->
  stage tri_ok vtx_ok qual m os = Ok m' -> laid m' /\ mh_verts m' <> [] /\ grows m m'.
Proof.
  intros L NV [O OF] H. unfold stage in H. destruct (frun _ _ _ _ _ os) as [st'| |] eqn:R; try discriminate. cbn [obind] in H. injection H as <-.
  assert (L1 := setup_laid m L). assert (N1 := opened_neat _ L1).
  destruct (run_neat (mh_scale m) _ _ qual (mh_col m) os _ st' N1 O OF R) as [N A].
  split; [exact (back_laid _ _ L1 N A NV)|]. split.
  - cbn [put_back mh_verts]. destruct (mh_verts m) as [|v l] eqn:E; [congruence|]. intros Z.
    assert (X : In v (ms_verts st')) by (apply (af_verts _ _ A); cbn [opened ms_verts setup_facet_connectivity mh_verts]; rewrite E; left; reflexivity). rewrite Z in X. destruct X.
  - constructor.
    + intros v I. exact (af_pos _ _ A v I).
    + intros v I. exact (af_verts _ _ A v I).
    + intros f I. exact (back_facets _ _ L1 A f I).
    + exact (setup_bdry_sig m).
    + exact (nt_col _ _ _ N).
    + reflexivity.
Qed.
