(* Proofs about the triangle-to-quad modification. *)
From Coq Require Import Lia Permutation Lqa Setoid Relations.
From Verif Require Import Base GeomModel FacetModel UtilModel AdvanceModel Chain AdvanceProofs MeshModel MeshSpec MeshProofs
  QRefineModel QRefineSpec QRefineShape QRefineConf MeshProps CleanSpec CleanModel MergeProofs CleanProofs CleanPass CleanScan DegenProofs T2QModel T2QSpec.

(* ---------- updating the pointers of the edges around the new quad ---------- *)
Lemma repoint_bare fl fr q e : bare (repoint_edge fl fr q e) = bare e.
Proof. reflexivity. Qed.
Lemma repoint_twice fl fr q o : q <> fl -> q <> fr -> repoint fl fr q (repoint fl fr q o) = repoint fl fr q o.
Proof.
  intros N1 N2. destruct o as [i|]; [|reflexivity]. cbn. destruct (Nat.eqb i fl || Nat.eqb i fr) eqn:E; cbn; [|rewrite E; reflexivity].
  destruct (Nat.eqb_spec q fl); [contradiction|]. destruct (Nat.eqb_spec q fr); [contradiction|]. reflexivity.
Qed.
Definition touch (ps : list (nat * nat)) (e : medge) : bool := existsb (fun p => ed_joins (fst p) (snd p) e) ps.
Definition redo (fl fr q : nat) (ps : list (nat * nat)) (e : medge) : medge := if touch ps e then repoint_edge fl fr q e else e.
Definition unique (es : list medge) : Prop :=
  NoDup (map ed_id es) /\ (forall e f, In e es -> In f es -> same_pair e f -> ed_id e = ed_id f).

Lemma redo_bare fl fr q ps e : bare (redo fl fr q ps e) = bare e.
Proof. unfold redo. destruct (touch ps e); reflexivity. Qed.
Lemma joins_bare a b e f : bare e = bare f -> ed_joins a b e = ed_joins a b f.
Proof. intros H. apply bare_fields in H. destruct H as [_ [E1 [E2 _]]]. unfold ed_joins. rewrite E1, E2. reflexivity. Qed.
Lemma unique_map (g : medge -> medge) es : (forall e, bare (g e) = bare e) -> unique es -> unique (map g es).
Proof.
  intros B [U1 U2]. split.
  - rewrite map_map. erewrite map_ext; [exact U1|]. intros e. apply (f_equal ed_id (B e)).
  - intros e f He Hf P. apply in_map_iff in He, Hf. destruct He as [e0 [<- He]], Hf as [f0 [<- Hf]].
    assert (Be := bare_fields _ _ (B e0)). assert (Bf := bare_fields _ _ (B f0)). destruct Be as [-> [E1 [E2 _]]], Bf as [-> [F1 [F2 _]]].
    apply U2; [exact He|exact Hf|]. unfold same_pair in *. rewrite E1, E2, F1, F2 in P. exact P.
Qed.
Lemma relink_one fl fr q es p : unique es -> relink fl fr q es p = map (redo fl fr q [p]) es.
Proof.
  intros [U1 U2]. unfold relink, redo, touch. cbn [existsb]. destruct (find_edge es (fst p) (snd p)) as [x|] eqn:F.
  - unfold find_edge in F. apply ed_oldest_in in F. apply filter_In in F. destruct F as [Hx Jx].
    apply map_ext_in. intros e He. rewrite orb_false_r. destruct (ed_joins (fst p) (snd p) e) eqn:J.
    + destruct (Nat.eqb_spec (ed_id e) (ed_id x)) as [_|N]; [reflexivity|]. exfalso. apply N. apply (U2 e x He Hx).
      apply ed_joins_iff in J, Jx. unfold same_pair. destruct J as [[-> ->]|[-> ->]], Jx as [[-> ->]|[-> ->]]; auto.
    + destruct (Nat.eqb_spec (ed_id e) (ed_id x)) as [E|_]; [|reflexivity]. rewrite (nodup_map_inj' ed_id es e x U1 He Hx E) in J. congruence.
  - rewrite <- (map_id es) at 1. apply map_ext_in. intros e He. rewrite orb_false_r. destruct (ed_joins (fst p) (snd p) e) eqn:J; [|reflexivity].
    exfalso. apply ed_joins_iff in J. destruct (find_edge_some es (fst p) (snd p) e He) as [f [E _]]; [exact J|]. congruence.
Qed.
Lemma relink_all fl fr q ps : q <> fl -> q <> fr -> forall es, unique es -> fold_left (relink fl fr q) ps es = map (redo fl fr q ps) es.
Proof.
  intros N1 N2. induction ps as [|p ps IH]; intros es U.
  - cbn [fold_left]. rewrite <- (map_id es) at 1. apply map_ext. intros e. reflexivity.
  - cbn [fold_left]. rewrite (relink_one fl fr q es p U), IH by (apply unique_map; [intros e; apply redo_bare|exact U]).
    rewrite map_map. apply map_ext. intros e. unfold redo, touch. cbn [existsb]. rewrite orb_false_r.
    destruct (ed_joins (fst p) (snd p) e) eqn:J; [|reflexivity]. cbn [orb].
    destruct (existsb _ ps); [|reflexivity]. unfold repoint_edge. cbn [ed_id ed_1 ed_2 ed_col ed_prop ed_l ed_r ed_twin].
    rewrite !repoint_twice by assumption. reflexivity.
Qed.
Lemma unique_intr m : conforming m -> unique (mh_intr m).
Proof.
  intros C. split; [apply (nodup_ids_app ed_id _ _ (cf_eids _ C))|]. intros e f He Hf P. f_equal.
  apply (cf_single _ C e f); [apply in_or_app; auto|apply in_or_app; auto|exact P].
Qed.
Lemma unique_sub es es' : unique es -> incl es' es -> NoDup (map ed_id es') -> unique es'.
Proof. intros [U1 U2] I N. split; [exact N|]. intros e f He Hf. apply U2; apply I; assumption. Qed.
Lemma remove_edges_in m ids l e : In e (remove_edges m ids l) -> In e l.
Proof. unfold remove_edges. intros H. apply filter_In in H. apply H. Qed.
Lemma remove_edges_nil m l : remove_edges m [] l = l.
Proof. unfold remove_edges. apply filter_all. reflexivity. Qed.
Lemma nodup_map_filter {A} (g : A -> nat) p l : NoDup (map g l) -> NoDup (map g (filter p l)).
Proof.
  induction l as [|a l IH]; intros N; [constructor|]. cbn [filter map] in *. inversion N; subst. destruct (p a); [|auto].
  cbn [map]. constructor; [|auto]. intros X. apply H1. apply in_map_iff in X. destruct X as [y [E Hy]]. apply filter_In in Hy.
  apply in_map_iff. exists y. intuition.
Qed.

(* ---------- one merged edge ---------- *)
Section Step.
Variable own : bool.
Variable m : mesh.
Variable e : medge.
Variables fl fr : facet.
Variables ql qr : nat.
Hypothesis S : sound m.
Hypothesis He : In e (mh_intr m).
Hypothesis Hl : In fl (mh_tris m).
Hypothesis Hr : In fr (mh_tris m).
Hypothesis Rl : rot3 (fa_sh fl) (ed_1 e) (ed_2 e) ql.
Hypothesis Rr : rot3 (fa_sh fr) (ed_2 e) (ed_1 e) qr.
Let C := sd_conf _ S.
Let A := sd_addr _ S.
Let v1 := ed_1 e.
Let v2 := ed_2 e.

Definition new_col : Z := if own then (if Z.ltb (fa_col fl) 0 then mh_col m else fa_col fl) else mh_col m.
Definition union : facet := FA (mh_next m) (Quad4 ql v1 qr v2) new_col true.
Definition ring4 : list (nat * nat) := [(ql, v1); (v1, qr); (qr, v2); (v2, ql)].
Definition unioned : mesh :=
  let m2 := add_quad (drop m [] [] [ed_id e] []) ql v1 qr v2 new_col true in
  drop (set_intr m2 (fold_left (relink (fa_id fl) (fa_id fr) (mh_next m)) ring4 (mh_intr m2))) [] [fa_id fl; fa_id fr] [] [].

Lemma un_in : In fl (facets m) /\ In fr (facets m).
Proof. split; apply in_or_app; auto. Qed.
Lemma un_ids : mh_next m <> fa_id fl /\ mh_next m <> fa_id fr.
Proof. destruct un_in as [I1 I2]. assert (X := ad_fnext _ A fl I1). assert (Y := ad_fnext _ A fr I2). lia. Qed.
Lemma un_distinct : v1 <> v2 /\ v2 <> ql /\ ql <> v1 /\ v1 <> qr /\ qr <> v2.
Proof.
  destruct un_in as [I1 I2]. destruct (rot3_nodup _ _ _ _ Rl (cf_corners _ C fl I1)) as [N1 [N2 N3]].
  destruct (rot3_nodup _ _ _ _ Rr (cf_corners _ C fr I2)) as [K1 [K2 K3]]. unfold v1, v2. auto 10.
Qed.
Lemma un_neq : fl <> fr.
Proof.
  intros E. destruct un_in as [I1 _]. destruct (rot3_in_sides _ _ _ _ Rl) as [X _]. destruct (rot3_in_sides _ _ _ _ Rr) as [Y _].
  rewrite <- E in Y. exact (side_no_rev fl _ _ (cf_corners _ C fl I1) X Y).
Qed.
Lemma un_sides : Permutation (sides fl ++ sides fr) (sides union ++ edge_pair e).
Proof.
  rewrite (rot3_sides fl _ _ _ Rl), (rot3_sides fr _ _ _ Rr). unfold union, sides, edge_pair, v1, v2.
  cbn [fa_sh corners ring_edges path_edges app]. perm.
Qed.
Lemma un_area : fa_area (mh_pos m) union == fa_area (mh_pos m) fl + fa_area (mh_pos m) fr.
Proof.
  rewrite !fa_area_sides, <- esum_app, (esum_perm _ _ _ un_sides), esum_app.
  assert (Z := pairs_zero (mh_pos m) [e]). cbn [flat_map] in Z. rewrite app_nil_r in Z. rewrite Z. ring.
Qed.
Lemma un_opposite : ql <> qr.
Proof.
  intros E. destruct un_in as [I1 I2]. assert (P1 := sd_pos _ S fl I1). assert (P2 := sd_pos _ S fr I2). assert (X := un_area).
  rewrite fa_area_sides in X. assert (Z : esum (half_cross (mh_pos m)) (sides union) == 0).
  { unfold union, sides. cbn [fa_sh corners ring_edges path_edges app]. rewrite E. unfold esum. cbn [map fst snd sumQ fold_right].
    assert (H1 := half_cross_antisym (mh_pos m) qr v1). assert (H2 := half_cross_antisym (mh_pos m) qr v2).
    unfold sumQ. cbn [fold_right]. rewrite H1, H2. ring. }
  rewrite Z in X. lra.
Qed.

Lemma un_tris : mh_quads unioned = mh_quads m ++ [union] /\ mh_tris unioned = remove_facets m [fa_id fl; fa_id fr] (mh_tris m).
Proof.
  split.
  - transitivity (remove_facets m [] (remove_facets m [] (mh_quads m) ++ [union])); [reflexivity|]. rewrite !remove_facets_nil. reflexivity.
  - transitivity (remove_facets m [fa_id fl; fa_id fr] (remove_facets m [] (mh_tris m))); [reflexivity|]. rewrite remove_facets_nil. reflexivity.
Qed.
Lemma un_intr : mh_intr unioned = map (redo (fa_id fl) (fa_id fr) (mh_next m) ring4) (remove_edges m [ed_id e] (mh_intr m)).
Proof.
  unfold unioned, drop, set_intr, add_quad. cbn [mh_intr mh_pos]. rewrite remove_edges_nil.
  destruct un_ids as [N1 N2]. apply relink_all; [exact N1|exact N2|].
  apply (unique_sub (mh_intr m)); [exact (unique_intr m C)|intros x Hx; exact (remove_edges_in _ _ _ _ Hx)|].
  apply nodup_map_filter. apply (nodup_ids_app ed_id _ _ (cf_eids _ C)).
Qed.
Lemma un_other : mh_bdry unioned = mh_bdry m /\ mh_pos unioned = mh_pos m /\ mh_prop unioned = mh_prop m /\ mh_scale unioned = mh_scale m /\
  mh_col unioned = mh_col m /\ mh_next unioned = Datatypes.S (mh_next m) /\ mh_verts unioned = mh_verts m.
Proof.
  repeat (split; [reflexivity|]). unfold unioned, drop, set_intr, add_quad. cbn [mh_verts mh_pos mh_scale existsb].
  rewrite !filter_all by reflexivity. reflexivity.
Qed.
Lemma un_tris_perm : Permutation (mh_tris m) ([fl; fr] ++ mh_tris unioned).
Proof.
  destruct un_tris as [_ ET]. rewrite ET. destruct un_in as [I1 I2]. apply (remove_facets_perm m [fl; fr] (mh_tris m)).
  - apply (nodup_ids_app fa_id _ _ (cf_ids _ C)).
  - constructor; [|constructor; [intros []|constructor]]. intros [E|[]]. exact (un_neq (eq_sym E)).
  - intros x [<-|[<-|[]]]; assumption.
  - intros x [<-|[<-|[]]]; apply (facet_in_square m _ A (sd_fits _ S)); assumption.
Qed.
Lemma un_intr_perm : Permutation (mh_intr m) (e :: remove_edges m [ed_id e] (mh_intr m)).
Proof.
  apply (remove_edges_perm m [e] (mh_intr m)).
  - apply (nodup_ids_app ed_id _ _ (cf_eids _ C)).
  - repeat constructor. intros [].
  - intros x [<-|[]]. exact He.
  - intros x [<-|[]]. apply (edge_in_square m _ C A (sd_fits _ S)). apply in_or_app. auto.
Qed.
Lemma un_merge : merge m unioned [fl; fr] union (mh_quads m ++ mh_tris unioned) [e].
Proof.
  destruct un_tris as [EQ ET]. destruct un_other as [EB [EP [EPR [ES [EC [EN EV]]]]]]. constructor.
  - exact EP.
  - exact ES.
  - unfold facets. rewrite un_tris_perm at 1. rewrite !app_assoc. apply Permutation_app_tail. apply Permutation_app_comm.
  - unfold facets. rewrite EQ. rewrite <- app_assoc. cbn [app]. symmetry. apply Permutation_middle.
  - cbn [flat_map]. rewrite !app_nil_r. exact un_sides.
  - rewrite un_intr, map_map. rewrite (map_ext (fun x => bare (redo _ _ _ _ x)) bare (redo_bare _ _ _ _)).
    exact (Permutation_map bare un_intr_perm).
  - rewrite EB. reflexivity.
  - cbn. lia.
  - destruct un_distinct as [D1 [D2 [D3 [D4 D5]]]]. assert (O := un_opposite). cbn [fa_sh corners].
    repeat constructor; cbn [In]; intuition congruence.
  - intros f Hf. rewrite EQ in Hf. apply in_app_or in Hf. destruct Hf as [Hf|[<-|[]]]; [exact (cf_quads _ C f Hf)|cbn; eauto 10].
  - intros f Hf. rewrite ET in Hf. exact (cf_tris _ C f (remove_facets_in _ _ _ _ Hf)).
Qed.
Lemma un_keeps : keeps m unioned.
Proof.
  assert (G := un_merge). destruct un_tris as [EQ ET]. destruct un_other as [EB [EP [EPR [ES [EC [EN EV]]]]]].
  assert (LE : (length (facets unioned) <= length (facets m))%nat).
  { rewrite (Permutation_length (mg_facets' _ _ _ _ _ _ G)), (Permutation_length (mg_facets _ _ _ _ _ _ G)). rewrite app_length. cbn [length]. lia. }
  assert (INC : forall f v, In f (facets unioned) -> In v (corners (fa_sh f)) -> In v (mh_verts m)).
  { intros f v Hf Hv. destruct (side_corner_next f v Hv) as [b Sb].
    assert (X : In (v, b) (all_sides unioned)) by (apply all_sides_in; eauto). apply (mg_side_old _ _ _ _ _ _ G) in X.
    apply all_sides_in in X. destruct X as [g [Hg Sg]]. exact (ad_corner _ A g v Hg (proj1 (side_corners g _ _ Sg))). }
  constructor; try assumption.
  - constructor.
    + exact (merge_conforming _ _ _ _ _ _ G C A).
    + apply (merge_addressed _ _ _ _ _ _ G A); rewrite ?EV, ?EN; auto; try exact (ad_verts _ A); try (cbn; lia).
    + intros v Hv. rewrite EV in Hv. rewrite ES, EP. exact (sd_fits _ S v Hv).
    + exact (merge_fans _ _ _ _ _ _ G C (sd_fans _ S)).
    + exact (merge_positive _ _ _ _ _ _ G (sd_pos _ S) ltac:(discriminate)).
    + apply (merge_unset _ _ _ _ _ _ G C (sd_unset _ S)).
      * intros f i Hf. assert (L := ad_fnext _ A f (mg_rest_in _ _ _ _ _ _ G f Hf)).
        transitivity (if Nat.eqb (fa_id f) (mh_next m) then None else mh_nbr m (fa_id f) i); [reflexivity|].
        destruct (Nat.eqb_spec (fa_id f) (mh_next m)); [lia|reflexivity].
      * intros i. transitivity (if Nat.eqb (mh_next m) (mh_next m) then None else mh_nbr m (mh_next m) i); [reflexivity|].
        rewrite Nat.eqb_refl. reflexivity.
  - exact (merge_covered _ _ _ _ _ _ G).
  - rewrite EB. reflexivity.
  - rewrite EV. apply incl_refl.
  - intros x Hx. apply (Permutation_in _ (Permutation_sym (mg_intr _ _ _ _ _ _ G))). apply in_or_app. auto.
Qed.
Lemma un_joined : joined fl fr union.
Proof.
  unfold joined, is_tri, is_quad. destruct (cf_tris _ C fl Hl) as [? [? [? E1]]]. destruct (cf_tris _ C fr Hr) as [? [? [? E2]]]. rewrite E1, E2.
  split; [reflexivity|]. split; [reflexivity|]. split; [reflexivity|]. exists v1, v2. rewrite un_sides. unfold edge_pair. fold v1 v2.
  rewrite Permutation_app_comm. reflexivity.
Qed.

(* the pointers are still correct *)
Lemma un_intr_in x' : In x' (mh_intr unioned) -> exists x, In x (mh_intr m) /\ ed_id x <> ed_id e /\ x' = redo (fa_id fl) (fa_id fr) (mh_next m) ring4 x.
Proof.
  rewrite un_intr. intros H. apply in_map_iff in H. destruct H as [x [E Hx]]. exists x.
  split; [exact (remove_edges_in _ _ _ _ Hx)|]. split; [|auto]. intros EI. unfold remove_edges in Hx. apply filter_In in Hx. destruct Hx as [Hx N].
  cbn [existsb] in N. rewrite EI, Nat.eqb_refl in N. cbn [orb andb] in N.
  rewrite (edge_in_square m x C A (sd_fits _ S) (in_or_app _ _ _ (or_introl Hx))) in N. discriminate.
Qed.
Lemma un_side_new a b : In (a, b) (sides fl) \/ In (a, b) (sides fr) -> In (a, b) (sides union) \/ (a = v1 /\ b = v2) \/ (a = v2 /\ b = v1).
Proof.
  intros H. assert (X : In (a, b) (sides fl ++ sides fr)) by (apply in_or_app; exact H).
  apply (Permutation_in _ un_sides) in X. apply in_app_or in X. destruct X as [X|X]; [auto|right].
  unfold edge_pair in X. destruct X as [X|[X|[]]]; apply pair_eq in X; destruct X; subst; auto.
Qed.
Lemma un_shows x a b o : In x (mh_intr m) -> ed_id x <> ed_id e -> (ed_1 x = a /\ ed_2 x = b) \/ (ed_1 x = b /\ ed_2 x = a) ->
  shows m a b o -> shows unioned a b (if touch ring4 x then repoint (fa_id fl) (fa_id fr) (mh_next m) o else o).
Proof.
  intros Hx NX J SH i Ei. destruct un_tris as [EQ ET]. destruct un_in as [I1 I2].
  assert (NE : ~ (a = v1 /\ b = v2) /\ ~ (a = v2 /\ b = v1)).
  { assert (U : same_pair x e -> x = e) by (apply (cf_single _ C); apply in_or_app; auto). unfold same_pair in U.
    split; intros [-> ->]; apply NX; f_equal; apply U; unfold v1, v2 in J; tauto. }
  assert (OWN : forall f, In f (facets m) -> f = fl \/ f = fr -> (In (a, b) (sides f) \/ is_quad f /\ In (b, a) (sides f)) -> In (a, b) (sides union)).
  { intros f Hf E D. assert (T : In (a, b) (sides fl) \/ In (a, b) (sides fr)).
    { destruct D as [D|[D _]]; [destruct E; subst; auto|]. exfalso. unfold is_quad in D.
      destruct E; subst f; [destruct (cf_tris _ C fl Hl) as [? [? [? E]]]|destruct (cf_tris _ C fr Hr) as [? [? [? E]]]]; rewrite E in D; discriminate. }
    destruct (un_side_new a b T) as [X|X]; [exact X|]. exfalso. destruct NE as [N1 N2]. tauto. }
  assert (TI : In (a, b) (sides union) -> touch ring4 x = true).
  { intros X. unfold touch. apply existsb_exists. exists (a, b). split; [exact X|]. apply ed_joins_iff. cbn [fst snd]. tauto. }
  assert (KEEP : forall f, In f (facets m) -> fa_id f <> fa_id fl -> fa_id f <> fa_id fr -> In f (facets unioned)).
  { intros f Hf N1 N2. unfold facets in *. rewrite EQ, ET. apply in_app_or in Hf. destruct Hf as [Hf|Hf].
    - apply in_or_app. left. apply in_or_app. auto.
    - apply in_or_app. right. apply remove_facets_keep; [exact Hf|]. cbn [In]. intuition. }
  assert (UN : In union (facets unioned)).
  { unfold facets. rewrite EQ. apply in_or_app. left. apply in_or_app. right. left. reflexivity. }
  destruct o as [j|]; [|destruct (touch ring4 x); discriminate Ei].
  destruct (SH j eq_refl) as [f [Hf [Ef D]]].
  assert (CASE : fa_id f = fa_id fl \/ fa_id f = fa_id fr \/ (fa_id f <> fa_id fl /\ fa_id f <> fa_id fr)).
  { destruct (Nat.eq_dec (fa_id f) (fa_id fl)); auto. destruct (Nat.eq_dec (fa_id f) (fa_id fr)); auto. }
  destruct CASE as [E|[E|[E1 E2]]].
  - assert (f = fl) by exact (id_facet m f fl C Hf I1 E). assert (X := OWN f Hf (or_introl H) D). rewrite (TI X) in Ei. cbn [repoint] in Ei.
    rewrite <- Ef, E, Nat.eqb_refl in Ei. cbn [orb] in Ei. injection Ei as <-. exists union. auto.
  - assert (f = fr) by exact (id_facet m f fr C Hf I2 E). assert (X := OWN f Hf (or_intror H) D). rewrite (TI X) in Ei. cbn [repoint] in Ei.
    rewrite <- Ef, E, Nat.eqb_refl, orb_true_r in Ei. injection Ei as <-. exists union. auto.
  - assert (Ei' : i = fa_id f).
    { destruct (touch ring4 x); [|injection Ei; congruence]. cbn [repoint] in Ei. rewrite <- Ef in Ei.
      destruct (Nat.eqb_spec (fa_id f) (fa_id fl)); [contradiction|]. destruct (Nat.eqb_spec (fa_id f) (fa_id fr)); [contradiction|].
      cbn [orb] in Ei. injection Ei; congruence. }
    exists f. split; [exact (KEEP f Hf E1 E2)|]. auto.
Qed.
Lemma un_well_sided : well_sided m -> well_sided unioned.
Proof.
  intros W x' Hx'. destruct (un_intr_in x' Hx') as [x [Hx [NX ->]]]. destruct (W x Hx) as [W1 W2]. unfold redo.
  assert (U1 := un_shows x (ed_1 x) (ed_2 x) (ed_l x) Hx NX ltac:(auto) W1).
  assert (U2 := un_shows x (ed_2 x) (ed_1 x) (ed_r x) Hx NX ltac:(auto) W2).
  destruct (touch ring4 x); split; assumption.
Qed.
End Step.

(* ---------- one edge in the code ---------- *)
Lemma tri_side_index f a b c : NoDup (corners (fa_sh f)) -> rot3 (fa_sh f) a b c ->
  exists i, (side_index (fa_sh f) a b = Some i /\ side_index (fa_sh f) b a = Some i) /\ nth_error (corners (fa_sh f)) i = Some c.
Proof.
  intros N H. destruct H as [H|[H|H]].
  - exists 2%nat. split; [|rewrite H; reflexivity]. split; apply side_index_spec; try exact N; unfold side_at; rewrite H; auto.
  - exists 0%nat. split; [|rewrite H; reflexivity]. split; apply side_index_spec; try exact N; unfold side_at; rewrite H; auto.
  - exists 1%nat. split; [|rewrite H; reflexivity]. split; apply side_index_spec; try exact N; unfold side_at; rewrite H; auto.
Qed.
Lemma tri_side_rot f a b : is_tri f -> In (a, b) (sides f) -> exists c, rot3 (fa_sh f) a b c.
Proof.
  unfold is_tri, sides. destruct (fa_sh f) as [x y z|x y z w]; cbn [corners ring_edges path_edges app In length]; intros E H; [|discriminate].
  or_destruct H; try contradiction; apply pair_eq in H; destruct H; subst; unfold rot3; eauto.
Qed.
Lemma corners_34 f : length (corners (fa_sh f)) = 3%nat \/ length (corners (fa_sh f)) = 4%nat.
Proof. destruct (fa_sh f); cbn; auto. Qed.
Lemma tri_or_quad f : is_tri f \/ is_quad f.
Proof. exact (corners_34 f). Qed.
Lemma tri_not_quad f : is_tri f -> is_quad f -> False.
Proof. unfold is_tri, is_quad. intros H1 H2. rewrite H1 in H2. discriminate. Qed.
Lemma quad_in m f : conforming m -> In f (facets m) -> is_quad f -> In f (mh_quads m).
Proof.
  intros C H Q. apply in_app_or in H. destruct H as [H|H]; [exact H|]. exfalso. destruct (cf_tris _ C f H) as [? [? [? E]]].
  unfold is_quad in Q. rewrite E in Q. discriminate.
Qed.
Lemma tri_facet m f : conforming m -> In f (mh_tris m) -> is_tri f.
Proof. intros C H. destruct (cf_tris _ C f H) as [? [? [? E]]]. unfold is_tri. rewrite E. reflexivity. Qed.
Lemma quad_facet m f : conforming m -> In f (mh_quads m) -> is_quad f.
Proof. intros C H. destruct (cf_quads _ C f H) as [? [? [? [? E]]]]. unfold is_quad. rewrite E. reflexivity. Qed.
Lemma n_corners_len f : n_corners f = length (corners (fa_sh f)).
Proof. reflexivity. Qed.
Lemma find_id es i e : NoDup (map ed_id es) -> In e es -> ed_id e = i -> find (fun x => Nat.eqb (ed_id x) i) es = Some e.
Proof.
  intros N He Ei. destruct (find _ es) as [x|] eqn:F.
  - apply find_some in F. destruct F as [Hx Ex]. apply Nat.eqb_eq in Ex. f_equal. apply (nodup_map_inj' ed_id es x e N Hx He). congruence.
  - assert (X := find_none _ _ F e He). cbn in X. rewrite Ei, Nat.eqb_refl in X. discriminate.
Qed.

Definition pointing (m : mesh) (i : nat) (e : medge) : Prop := In e (mh_intr m) /\ ed_id e = i /\ ed_l e <> None /\ ed_r e <> None.
Definition at_quad (m : mesh) (e : medge) : Prop :=
  exists f, In f (mh_quads m) /\ (In (ed_1 e, ed_2 e) (sides f) \/ In (ed_2 e, ed_1 e) (sides f)).
Definition colour_of (own : bool) (m : mesh) (l : facet) : Z := if own then (if Z.ltb (fa_col l) 0 then mh_col m else fa_col l) else mh_col m.

Inductive stepped (own : bool) (m : mesh) (i : nat) : mesh -> list (facet * facet * facet) -> Prop :=
  | st_none : (forall e, In e (mh_intr m) -> ed_id e = i -> at_quad m e) -> stepped own m i m []
  | st_some e fl fr ql qr : In e (mh_intr m) -> ed_id e = i -> In fl (mh_tris m) -> In fr (mh_tris m) ->
      rot3 (fa_sh fl) (ed_1 e) (ed_2 e) ql -> rot3 (fa_sh fr) (ed_2 e) (ed_1 e) qr ->
      stepped own m i (unioned own m e fl fr ql qr) [(fl, fr, union own m e fl ql qr)].

Lemma merge_edge_ok own m i e : sound m -> well_sided m -> pointing m i e ->
  exists m' d, merge_edge own m i = Ok m' /\ stepped own m i m' d.
Proof.
  intros S W [He [Ei [NL NR]]]. assert (C := sd_conf _ S). destruct (W e He) as [WL WR].
  destruct (ed_l e) as [l|] eqn:EL; [|congruence]. destruct (ed_r e) as [r|] eqn:ER; [|congruence].
  destruct (WL l eq_refl) as [fl [Hl [Il Dl]]]. destruct (WR r eq_refl) as [fr [Hr [Ir Dr]]].
  assert (NI := proj1 (nodup_ids_app ed_id _ _ (cf_eids _ C))).
  assert (QUAD : forall f, In f (facets m) -> is_quad f -> In (ed_1 e, ed_2 e) (sides f) \/ In (ed_2 e, ed_1 e) (sides f) ->
    forall x, In x (mh_intr m) -> ed_id x = i -> at_quad m x).
  { intros f Hf Qf D x Hx Ex. assert (x = e) by (apply (nodup_map_inj' ed_id _ x e NI Hx He); congruence). subst x.
    exists f. split; [exact (quad_in m f C Hf Qf)|exact D]. }
  unfold merge_edge. rewrite (find_id _ i e NI He Ei), EL, ER, <- Il, <- Ir, (find_facet_in m fl C Hl), (find_facet_in m fr C Hr).
  rewrite !n_corners_len.
  destruct (tri_or_quad fl) as [Tl|Ql].
  2:{ exists m, []. unfold is_quad in Ql. rewrite Ql. split; [reflexivity|]. apply st_none. apply (QUAD fl Hl Ql). tauto. }
  destruct (tri_or_quad fr) as [Tr|Qr].
  2:{ exists m, []. unfold is_quad in Qr. rewrite Qr. split; [cbn; rewrite orb_true_r; reflexivity|]. apply st_none. apply (QUAD fr Hr Qr). tauto. }
  assert (Sl : In (ed_1 e, ed_2 e) (sides fl)) by (destruct Dl as [D|[D _]]; [exact D|destruct (tri_not_quad _ Tl D)]).
  assert (Sr : In (ed_2 e, ed_1 e) (sides fr)) by (destruct Dr as [D|[D _]]; [exact D|destruct (tri_not_quad _ Tr D)]).
  destruct (tri_side_rot fl _ _ Tl Sl) as [ql Rl]. destruct (tri_side_rot fr _ _ Tr Sr) as [qr Rr].
  destruct (tri_side_index fl _ _ _ (cf_corners _ C fl Hl) Rl) as [il [[L1 _] L2]].
  destruct (tri_side_index fr _ _ _ (cf_corners _ C fr Hr) Rr) as [ir [[_ R1] R2]].
  unfold is_tri in Tl, Tr. rewrite Tl, Tr, L1, R1, L2, R2. cbn [Nat.ltb Nat.leb orb].
  exists (unioned own m e fl fr ql qr), [(fl, fr, union own m e fl ql qr)]. split; [reflexivity|].
  apply st_some; auto; apply tri_in with (m := m); auto.
Qed.

(* ---------- the loop ---------- *)
Definition pair_of (d : facet * facet * facet) : list facet := [fst (fst d); snd (fst d)].
Record swapped (own : bool) (m m' : mesh) (ds : list (facet * facet * facet)) : Prop := {
  sw_keeps : keeps m m';
  sw_sided : well_sided m';
  sw_verts : mh_verts m' = mh_verts m;
  sw_tris : Permutation (mh_tris m) (flat_map pair_of ds ++ mh_tris m');
  sw_quads : mh_quads m' = mh_quads m ++ map snd ds;
  sw_joined : forall l r h, In (l, r, h) ds -> joined l r h;
  sw_cols : forall l r h, In (l, r, h) ds -> fa_col h = colour_of own m l;
  sw_intr : (length (mh_intr m') + length ds = length (mh_intr m))%nat
}.
Lemma swapped_refl own m : sound m -> well_sided m -> swapped own m m [].
Proof.
  intros S W. constructor; try reflexivity; try assumption; cbn; try contradiction; [exact (keeps_refl m S)|rewrite app_nil_r; reflexivity|lia].
Qed.
Lemma swapped_trans own a b c ds es : swapped own a b ds -> swapped own b c es -> swapped own a c (ds ++ es).
Proof.
  intros X Y. constructor.
  - exact (keeps_trans _ _ _ (sw_keeps _ _ _ _ X) (sw_keeps _ _ _ _ Y)).
  - exact (sw_sided _ _ _ _ Y).
  - rewrite (sw_verts _ _ _ _ Y). exact (sw_verts _ _ _ _ X).
  - rewrite flat_map_app, <- app_assoc, <- (sw_tris _ _ _ _ Y). exact (sw_tris _ _ _ _ X).
  - rewrite (sw_quads _ _ _ _ Y), (sw_quads _ _ _ _ X), map_app, app_assoc. reflexivity.
  - intros l r h H. apply in_app_or in H. destruct H as [H|H]; [exact (sw_joined _ _ _ _ X l r h H)|exact (sw_joined _ _ _ _ Y l r h H)].
  - intros l r h H. apply in_app_or in H. destruct H as [H|H]; [exact (sw_cols _ _ _ _ X l r h H)|].
    rewrite (sw_cols _ _ _ _ Y l r h H). unfold colour_of. rewrite (kp_col _ _ (sw_keeps _ _ _ _ X)). reflexivity.
  - rewrite app_length. assert (L1 := sw_intr _ _ _ _ X). assert (L2 := sw_intr _ _ _ _ Y). lia.
Qed.
Lemma stepped_swapped own m i m' d : sound m -> well_sided m -> stepped own m i m' d -> swapped own m m' d.
Proof.
  intros S W H. destruct H as [Q|e fl fr ql qr He Ei Hl Hr Rl Rr]; [exact (swapped_refl own m S W)|].
  destruct (un_tris own m e fl fr ql qr) as [EQ _]. constructor.
  - exact (un_keeps own m e fl fr ql qr S He Hl Hr Rl Rr).
  - exact (un_well_sided own m e fl fr ql qr S He Hl Hr Rl Rr W).
  - exact (proj2 (proj2 (proj2 (proj2 (proj2 (proj2 (un_other own m e fl fr ql qr))))))).
  - exact (un_tris_perm own m e fl fr ql qr S Hl Hr Rl Rr).
  - exact EQ.
  - intros l r h [E|[]]. injection E as <- <- <-. exact (un_joined own m e fl fr ql qr S Hl Hr Rl Rr).
  - intros l r h [E|[]]. injection E as <- <- <-. reflexivity.
  - rewrite (un_intr own m e fl fr ql qr S Hl Hr), map_length, (Permutation_length (un_intr_perm m e S He)). cbn [length]. lia.
Qed.
Lemma repoint_some fl fr q o : o <> None -> repoint fl fr q o <> None.
Proof. destruct o as [i|]; [|congruence]. intros _. cbn. destruct (Nat.eqb i fl || Nat.eqb i fr); discriminate. Qed.
Lemma stepped_pointing own m i m' d j x : sound m -> stepped own m i m' d -> j <> i -> pointing m j x -> exists x', pointing m' j x'.
Proof.
  intros S H N P. destruct H as [Q|e fl fr ql qr He Ei Hl Hr Rl Rr]; [eauto|]. destruct P as [Hx [Ex [NL NR]]].
  exists (redo (fa_id fl) (fa_id fr) (mh_next m) (ring4 e ql qr) x). split; [|split; [|]].
  - rewrite (un_intr own m e fl fr ql qr S Hl Hr). apply in_map. apply remove_edges_keep; [exact Hx|]. intros [E|[]]. congruence.
  - rewrite <- Ex. exact (f_equal ed_id (redo_bare _ _ _ _ x)).
  - unfold redo. destruct (touch _ x); [|auto]. cbn [repoint_edge ed_l ed_r]. split; apply repoint_some; assumption.
Qed.
(* edges of the later mesh at a quad of the earlier one *)
Lemma at_quad_later own m m' ds e e' : swapped own m m' ds -> In e (mh_intr m) -> bare e' = bare e -> at_quad m e -> at_quad m' e'.
Proof.
  intros W He B [f [Hf D]]. apply bare_fields in B. unfold at_quad. destruct B as [_ [-> [-> _]]]. exists f. split; [|exact D].
  rewrite (sw_quads _ _ _ _ W). apply in_or_app. auto.
Qed.
Lemma stepped_done own m i m' d : sound m -> stepped own m i m' d -> forall e, In e (mh_intr m') -> ed_id e = i -> at_quad m' e.
Proof.
  intros S H. destruct H as [Q|e fl fr ql qr He Ei Hl Hr Rl Rr]; [exact Q|]. intros x' Hx' Ex.
  destruct (un_intr_in own m e fl fr ql qr S Hl Hr x' Hx') as [x [Hx [NX ->]]]. exfalso. apply NX.
  rewrite Ei, <- Ex. symmetry. exact (f_equal ed_id (redo_bare _ _ _ _ x)).
Qed.
Lemma loop_ok own ids : forall m, sound m -> well_sided m -> NoDup ids -> (forall i, In i ids -> exists e, pointing m i e) ->
  exists m' ds, ofold (merge_edge own) ids m = Ok m' /\ swapped own m m' ds /\
    (forall e, In e (mh_intr m') -> In (ed_id e) ids -> at_quad m' e).
Proof.
  induction ids as [|i ids IH]; intros m S W N P.
  - exists m, []. split; [reflexivity|]. split; [exact (swapped_refl own m S W)|intros e _ []].
  - inversion N as [|? ? NI ND]; subst. destruct (P i (or_introl eq_refl)) as [e Pe].
    destruct (merge_edge_ok own m i e S W Pe) as [m1 [d [E ST]]].
    assert (W1 := stepped_swapped own m i m1 d S W ST). assert (S1 := kp_sound _ _ (sw_keeps _ _ _ _ W1)).
    destruct (IH m1 S1 (sw_sided _ _ _ _ W1) ND) as [m' [ds [E' [W' Q]]]].
    { intros j Hj. destruct (P j (or_intror Hj)) as [x Px]. apply (stepped_pointing own m i m1 d j x S ST); [|exact Px]. congruence. }
    exists m', (d ++ ds). cbn [ofold]. rewrite E. cbn [obind]. split; [exact E'|]. split; [exact (swapped_trans _ _ _ _ _ _ W1 W')|].
    intros x Hx [Ei|Hi]; [|exact (Q x Hx Hi)].
    assert (B : In (bare x) (map bare (mh_intr m1))) by (apply (kp_intr _ _ (sw_keeps _ _ _ _ W')); apply in_map; exact Hx).
    apply in_map_iff in B. destruct B as [y [By Hy]]. apply (at_quad_later own m1 m' ds y x W' Hy (eq_sym By)).
    apply (stepped_done own m i m1 d S ST y Hy). rewrite Ei. exact (f_equal ed_id By).
Qed.

(* ---------- the list of edges ---------- *)
Definition both_tris (m : mesh) (e : medge) : Prop :=
  exists f g, In f (mh_tris m) /\ In g (mh_tris m) /\ In (ed_1 e, ed_2 e) (sides f) /\ In (ed_2 e, ed_1 e) (sides g).
Lemma pointed_ok m a b o : conforming m -> shows m a b o ->
  (o = None /\ pointed m o = Ok None) \/ (exists f, o = Some (fa_id f) /\ pointed m o = Ok (Some f) /\ In f (facets m) /\ (In (a, b) (sides f) \/ is_quad f)).
Proof.
  intros C SH. destruct o as [i|]; [|left; auto]. right. destruct (SH i eq_refl) as [f [Hf [Ef D]]]. exists f. subst i. cbn [pointed].
  rewrite (find_facet_in m f C Hf). split; [reflexivity|]. split; [reflexivity|]. split; [exact Hf|]. tauto.
Qed.
Definition exact_sides (m : mesh) : Prop := forall e f g, In e (mh_intr m) -> In f (mh_tris m) -> In g (mh_tris m) ->
  In (ed_1 e, ed_2 e) (sides f) -> In (ed_2 e, ed_1 e) (sides g) -> ed_l e = Some (fa_id f) /\ ed_r e = Some (fa_id g).
Lemma tri_edge_ok m e : sound m -> well_sided m -> exact_sides m -> In e (mh_intr m) ->
  exists o, tri_edge m e = Ok o /\ (both_tris m e -> o <> None) /\
    (forall k, o = Some k -> snd k = ed_id e /\ both_tris m e /\ ed_l e <> None /\ ed_r e <> None).
Proof.
  intros S W X He. assert (C := sd_conf _ S). destruct (W e He) as [WL WR].
  assert (NO : forall P : Prop, (both_tris m e -> False) -> both_tris m e -> P) by (intros P H B; destruct (H B)).
  assert (PT : both_tris m e -> exists f g, In f (mh_tris m) /\ In g (mh_tris m) /\ ed_l e = Some (fa_id f) /\ ed_r e = Some (fa_id g)).
  { intros [f [g [Hf [Hg [Sf Sg]]]]]. destruct (X e f g He Hf Hg Sf Sg). exists f, g. auto. }
  unfold tri_edge. destruct (pointed_ok m _ _ _ C WL) as [[EL PL]|[fl [EL [PL [Hl Dl]]]]]; rewrite PL; cbn [obind].
  { exists None. split; [reflexivity|]. split; [|discriminate]. apply NO. intros B. destruct (PT B) as [f [g [_ [_ [E _]]]]]. congruence. }
  rewrite n_corners_len. destruct (tri_or_quad fl) as [Tl|Ql].
  2:{ exists None. unfold is_quad in Ql. rewrite Ql. split; [reflexivity|]. split; [|discriminate]. apply NO. intros B.
      destruct (PT B) as [f [g [Hf [_ [E _]]]]]. assert (fl = f) by (apply (id_facet m fl f C Hl); [apply in_or_app; auto|congruence]). subst f.
      exact (tri_not_quad _ (tri_facet m fl C Hf) Ql). }
  unfold is_tri in Tl. rewrite Tl, Nat.eqb_refl. 
  destruct (pointed_ok m _ _ _ C WR) as [[ER PR]|[fr [ER [PR [Hr Dr]]]]]; rewrite PR; cbn [obind].
  { exists None. split; [reflexivity|]. split; [|discriminate]. apply NO. intros B. destruct (PT B) as [f [g [_ [_ [_ E]]]]]. congruence. }
  rewrite n_corners_len. destruct (tri_or_quad fr) as [Tr|Qr].
  2:{ exists None. unfold is_quad in Qr. rewrite Qr. split; [reflexivity|]. split; [|discriminate]. apply NO. intros B.
      destruct (PT B) as [f [g [_ [Hg [_ E]]]]]. assert (fr = g) by (apply (id_facet m fr g C Hr); [apply in_or_app; auto|congruence]). subst g.
      exact (tri_not_quad _ (tri_facet m fr C Hg) Qr). }
  unfold is_tri in Tr. rewrite Tr, Nat.eqb_refl. eexists. split; [reflexivity|]. split; [discriminate|].
  intros k Ek. injection Ek as <-. split; [reflexivity|]. split; [|rewrite EL, ER; split; discriminate].
  exists fl, fr. split; [apply tri_in; assumption|]. split; [apply tri_in; assumption|].
  split; [destruct Dl as [D|D]; [exact D|destruct (tri_not_quad fl Tl D)]|destruct Dr as [D|D]; [exact D|destruct (tri_not_quad fr Tr D)]].
Qed.
Lemma collect_ok m es : sound m -> well_sided m -> exact_sides m -> incl es (mh_intr m) -> NoDup (map ed_id es) ->
  exists ks, collect m es = Ok ks /\ NoDup (map snd ks) /\ incl (map snd ks) (map ed_id es) /\
    (forall i, In i (map snd ks) -> exists e, pointing m i e) /\
    (forall e, In e es -> both_tris m e -> In (ed_id e) (map snd ks)).
Proof.
  intros S W X. induction es as [|e es IH]; intros I N.
  - exists []. split; [reflexivity|]. split; [constructor|]. split; [apply incl_refl|]. split; [intros i []|intros e []].
  - cbn [map] in N. inversion N as [|? ? NI ND]; subst.
    destruct (IH (fun x Hx => I x (or_intror Hx)) ND) as [ks [E [K1 [K2 [K3 K4]]]]].
    destruct (tri_edge_ok m e S W X (I e (or_introl eq_refl))) as [o [Eo [O1 O2]]].
    exists (match o with Some k => k :: ks | None => ks end). cbn [collect]. rewrite Eo, E. cbn [obind]. split; [reflexivity|].
    destruct o as [k|].
    + destruct (O2 k eq_refl) as [Ek [B [NL NR]]]. cbn [map]. rewrite Ek. split; [constructor; [intros H; apply NI, K2, H|exact K1]|].
      split; [intros i [<-|H]; [left; reflexivity|right; apply K2; exact H]|]. split.
      * intros i [<-|H]; [|exact (K3 i H)]. exists e. split; [apply I; left; reflexivity|auto].
      * intros x [<-|Hx] Bx; [left; reflexivity|right; apply K4; assumption].
    + split; [exact K1|]. split; [intros i H; right; apply K2; exact H|]. split; [exact K3|].
      intros x [<-|Hx] Bx; [exfalso; apply (O1 Bx); reflexivity|apply K4; assumption].
Qed.
Lemma ins_key_perm k l : Permutation (ins_key k l) (k :: l).
Proof. induction l as [|x l IH]; [reflexivity|]. cbn [ins_key]. destruct (Qltb _ _); [|reflexivity]. rewrite IH. apply perm_swap. Qed.
Lemma sort_keys_perm l : Permutation (sort_keys l) l.
Proof. induction l as [|x l IH]; [reflexivity|]. cbn [sort_keys fold_right]. rewrite ins_key_perm. constructor. exact IH. Qed.
Lemma merge_triangles_ok own m : sound m -> well_sided m -> exact_sides m ->
  exists m' ds, merge_triangles own m = Ok m' /\ swapped own m m' ds /\ tris_apart m'.
Proof.
  intros S W X. assert (C := sd_conf _ S).
  destruct (collect_ok m (mh_intr m) S W X (incl_refl _) (proj1 (nodup_ids_app ed_id _ _ (cf_eids _ C)))) as [ks [E [K1 [_ [K3 K4]]]]].
  assert (PM := Permutation_map snd (sort_keys_perm ks)).
  destruct (loop_ok own (map snd (sort_keys ks)) m S W) as [m' [ds [E' [W' Q]]]].
  - exact (Permutation_NoDup (Permutation_sym PM) K1).
  - intros i Hi. apply K3. exact (Permutation_in _ PM Hi).
  - exists m', ds. unfold merge_triangles. rewrite E. cbn [obind]. split; [exact E'|]. split; [exact W'|].
    assert (K := sw_keeps _ _ _ _ W'). assert (C' := sd_conf _ (kp_sound _ _ K)).
    assert (OLD : forall f, In f (mh_tris m') -> In f (mh_tris m)).
    { intros f Hf. apply (Permutation_in _ (Permutation_sym (sw_tris _ _ _ _ W'))). apply in_or_app. auto. }
    assert (MAIN : forall f g e, In f (mh_tris m') -> In g (mh_tris m') -> In e (mh_intr m') ->
      In (ed_1 e, ed_2 e) (sides f) -> In (ed_2 e, ed_1 e) (sides g) -> False).
    { intros f g e Hf Hg He Sf Sg.
      assert (B : In (bare e) (map bare (mh_intr m))) by (apply (kp_intr _ _ K); apply in_map; exact He).
      apply in_map_iff in B. destruct B as [y [By Hy]]. apply bare_fields in By. destruct By as [B1 [B2 [B3 _]]].
      assert (BT : both_tris m y) by (exists f, g; rewrite B2, B3; auto).
      assert (Hid : In (ed_id e) (map snd (sort_keys ks))) by (rewrite <- B1; apply (Permutation_in _ (Permutation_sym PM)); apply K4; assumption).
      destruct (Q e He Hid) as [h [Hh D]]. assert (Ih : In h (facets m')) by (apply in_or_app; auto).
      destruct D as [D|D].
      - assert (f = h) by (apply (side_owner m' f h (ed_1 e, ed_2 e) C'); [apply in_or_app; auto|exact Ih|exact Sf|exact D]). subst h.
        exact (tri_not_quad f (tri_facet m' f C' Hf) (quad_facet m' f C' Hh)).
      - assert (g = h) by (apply (side_owner m' g h (ed_2 e, ed_1 e) C'); [apply in_or_app; auto|exact Ih|exact Sg|exact D]). subst h.
        exact (tri_not_quad g (tri_facet m' g C' Hg) (quad_facet m' g C' Hh)). }
    intros f g a b Hf Hg Sf Sg.
    assert (A1 : In (a, b) (all_sides m')) by (apply all_sides_in; exists f; split; [apply in_or_app; auto|exact Sf]).
    assert (A2 : In (b, a) (all_sides m')) by (apply all_sides_in; exists g; split; [apply in_or_app; auto|exact Sg]).
    destruct (cf_cover _ C' a b A1) as [e [He D]]. apply in_app_or in He. destruct He as [He|He].
    + destruct D as [[<- <-]|[<- <-]]; [exact (MAIN f g e Hf Hg He Sf Sg)|exact (MAIN g f e Hg Hf He Sg Sf)].
    + destruct (cf_bdry _ C' e He) as [_ NB]. apply NB. destruct D as [[-> ->]|[-> ->]]; assumption.
Qed.

(* ---------- setup_facet_connectivity gives correct pointers ---------- *)
Lemma set_side_ends' m f e : ed_1 (set_side m f e) = ed_1 e /\ ed_2 (set_side m f e) = ed_2 e.
Proof. destruct (set_side_ends m f e) as [H1 [H2 _]]. auto. Qed.
Lemma setup_sides m : sound m -> well_sided m -> tris_centred m ->
  well_sided (setup_facet_connectivity m) /\ exact_sides (setup_facet_connectivity m).
Proof.
  intros S W T. assert (C := sd_conf _ S).
  assert (CASES : forall x, In x (mh_intr m) -> exists f g, In f (facets m) /\ In g (facets m) /\ In (ed_1 x, ed_2 x) (sides f) /\ In (ed_2 x, ed_1 x) (sides g) /\
    (connect_intr m x = set_side m g (set_side m f x) \/ connect_intr m x = set_side m f (set_side m g x))).
  { intros x Hx. destruct (cf_intr _ C x Hx) as [H1 H2]. apply all_sides_in in H1, H2. destruct H1 as [f [Hf Pf]], H2 as [g [Hg Pg]].
    destruct (in_side_at _ _ Pf) as [i Si]. destruct (in_side_at _ _ Pg) as [j Sj]. exists f, g. split; [exact Hf|]. split; [exact Hg|].
    split; [exact Pf|]. split; [exact Pg|]. unfold connect_intr.
    destruct (sharing_interior m _ _ f g i j C Hf Hg Si Sj) as [E|E]; rewrite E; auto. }
  assert (KIND : forall f x, In f (facets m) -> (In (ed_1 x, ed_2 x) (sides f) \/ In (ed_2 x, ed_1 x) (sides f)) ->
    is_quad f \/ (In f (mh_tris m) /\ In (ed_1 x, ed_2 x) (sides f) /\ is_left (mh_pos m (ed_1 x)) (mh_pos m (ed_2 x)) (fa_xy (mh_pos m) f) = true) \/
    (In f (mh_tris m) /\ In (ed_2 x, ed_1 x) (sides f) /\ is_left (mh_pos m (ed_1 x)) (mh_pos m (ed_2 x)) (fa_xy (mh_pos m) f) = false)).
  { intros f x Hf D. destruct (tri_or_quad f) as [Tf|Qf]; [|auto]. right. assert (Hf' : In f (mh_tris m)) by (apply tri_in; assumption).
    destruct D as [D|D]; [left|right]; (split; [exact Hf'|]; split; [exact D|]); destruct (T f Hf' _ _ D); assumption. }
  (* one call of set_side *)
  assert (ONE : forall f x y, In f (facets m) -> (In (ed_1 x, ed_2 x) (sides f) \/ In (ed_2 x, ed_1 x) (sides f)) -> ed_1 y = ed_1 x -> ed_2 y = ed_2 x ->
    shows m (ed_1 x) (ed_2 x) (ed_l y) -> shows m (ed_2 x) (ed_1 x) (ed_r y) ->
    shows m (ed_1 x) (ed_2 x) (ed_l (set_side m f y)) /\ shows m (ed_2 x) (ed_1 x) (ed_r (set_side m f y))).
  { intros f x y Hf D E1 E2 SL SR. assert (K := KIND f x Hf D). unfold set_side. rewrite E1, E2. destruct (is_left _ _ _) eqn:L; cbn [ed_l ed_r].
    - split; [|exact SR]. intros i Ei. injection Ei as <-. exists f. split; [exact Hf|]. split; [reflexivity|]. destruct K as [Q|[[_ [K _]]|[_ [_ K]]]]; [|auto|discriminate]. tauto.
    - split; [exact SL|]. intros i Ei. injection Ei as <-. exists f. split; [exact Hf|]. split; [reflexivity|]. destruct K as [Q|[[_ [_ K]]|[_ [K _]]]]; [|discriminate|auto]. tauto. }
  split.
  - intros e He. cbn [setup_facet_connectivity mh_intr] in He. apply in_map_iff in He. destruct He as [x [<- Hx]].
    assert (B := bare_fields _ _ (connect_intr_bare m x)). destruct B as [_ [E1 [E2 _]]]. rewrite E1, E2.
    destruct (W x Hx) as [WL WR]. destruct (CASES x Hx) as [f [g [Hf [Hg [Sf [Sg CC]]]]]].
    change (shows m (ed_1 x) (ed_2 x) (ed_l (connect_intr m x)) /\ shows m (ed_2 x) (ed_1 x) (ed_r (connect_intr m x))).
    destruct CC as [-> | ->].
    + destruct (ONE f x x Hf (or_introl Sf) eq_refl eq_refl WL WR) as [L R]. destruct (set_side_ends' m f x) as [X1 X2].
      exact (ONE g x (set_side m f x) Hg (or_intror Sg) X1 X2 L R).
    + destruct (ONE g x x Hg (or_intror Sg) eq_refl eq_refl WL WR) as [L R]. destruct (set_side_ends' m g x) as [X1 X2].
      exact (ONE f x (set_side m g x) Hf (or_introl Sf) X1 X2 L R).
  - intros e f g He Hf Hg Sf Sg. cbn [setup_facet_connectivity mh_intr mh_tris] in He, Hf, Hg. apply in_map_iff in He. destruct He as [x [<- Hx]].
    assert (B := bare_fields _ _ (connect_intr_bare m x)). destruct B as [_ [E1 [E2 _]]]. rewrite E1, E2 in Sf, Sg.
    destruct (CASES x Hx) as [f0 [g0 [Hf0 [Hg0 [Sf0 [Sg0 CC]]]]]].
    assert (f = f0) by (apply (side_owner m f f0 (ed_1 x, ed_2 x) C); [apply in_or_app; auto|exact Hf0|exact Sf|exact Sf0]). subst f0.
    assert (g = g0) by (apply (side_owner m g g0 (ed_2 x, ed_1 x) C); [apply in_or_app; auto|exact Hg0|exact Sg|exact Sg0]). subst g0.
    destruct (T f Hf _ _ Sf) as [Lf _]. destruct (T g Hg _ _ Sg) as [_ Lg].
    destruct CC as [-> | ->]; unfold set_side; rewrite ?Lf, ?Lg; cbn; rewrite ?Lf, ?Lg; cbn; auto.
Qed.
