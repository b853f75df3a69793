(* A whole pass of clear_double_quad_edges / clear_double_triangle_edges. *)
From Coq Require Import Lia Permutation Lqa Setoid Relations.
From Verif Require Import Base GeomModel FacetModel UtilModel AdvanceModel Chain AdvanceProofs MeshModel MeshSpec MeshProofs
  QRefineModel QRefineSpec QRefineShape QRefineConf MeshProps CleanSpec CleanModel MergeProofs CleanProofs.

(* ---------- the batch of a pass equals its steps one after the other ---------- *)
Lemma filter_filter {A} (p r : A -> bool) l : filter p (filter r l) = filter (fun x => r x && p x) l.
Proof.
  induction l as [|a l IH]; [reflexivity|]. cbn [filter]. destruct (r a); cbn [filter andb]; [destruct (p a); congruence|exact IH].
Qed.
Lemma drop_drop m q1 t1 e1 v1 q2 t2 e2 v2 :
  drop (drop m q1 t1 e1 v1) q2 t2 e2 v2 = drop m (q1 ++ q2) (t1 ++ t2) (e1 ++ e2) (v1 ++ v2).
Proof.
  unfold drop, remove_facets, remove_edges. cbn [mh_pos mh_prop mh_verts mh_quads mh_tris mh_intr mh_bdry mh_nbr mh_next mh_area mh_col mh_scale].
  rewrite !filter_filter. f_equal; apply filter_ext; intros x; rewrite existsb_app;
    match goal with |- context [existsb ?f ?a && ?s] => destruct (existsb f a) end;
    match goal with |- context [in_square ?s ?p] => destruct (in_square s p) end;
    match goal with |- context [existsb ?f ?a] => destruct (existsb f a) end; reflexivity.
Qed.
Lemma mesh_eq a b : mh_pos a = mh_pos b -> mh_prop a = mh_prop b -> mh_verts a = mh_verts b -> mh_quads a = mh_quads b -> mh_tris a = mh_tris b ->
  mh_intr a = mh_intr b -> mh_bdry a = mh_bdry b -> mh_nbr a = mh_nbr b -> mh_next a = mh_next b -> mh_area a = mh_area b ->
  mh_col a = mh_col b -> mh_scale a = mh_scale b -> a = b.
Proof. destruct a, b. cbn. intros; subst; reflexivity. Qed.

Lemma new_drop quad4 m d qs ts es vs : ~ In (mh_next m) qs -> ~ In (mh_next m) ts ->
  new_facet quad4 (drop m qs ts es vs) d = obind (new_facet quad4 m d) (fun m1 => Ok (drop m1 qs ts es vs)).
Proof.
  intros H1 H2. unfold new_facet. destruct quad4.
  - unfold new_quad. destruct (db_o2 d); [|reflexivity]. cbn [obind]. f_equal. apply mesh_eq; try reflexivity.
    symmetry. apply (remove_facets_new m qs (mh_quads m) (FA (mh_next m) _ _ _)). exact H1.
  - unfold new_tri. destruct (vertex_index _ _) as [k|]; [|reflexivity].
    destruct (nth_error _ _); [|reflexivity]. destruct (nth_error _ _); [|reflexivity]. destruct (nth_error _ _); [|reflexivity].
    cbn [obind]. f_equal. apply mesh_eq; try reflexivity.
    symmetry. apply (remove_facets_new m ts (mh_tris m) (FA (mh_next m) _ _ _)). exact H2.
Qed.
Lemma new_next quad4 m d m1 : new_facet quad4 m d = Ok m1 -> mh_next m1 = S (mh_next m).
Proof.
  unfold new_facet. destruct quad4.
  - unfold new_quad. destruct (db_o2 d); [|discriminate]. intros H. injection H as <-. reflexivity.
  - unfold new_tri. destruct (vertex_index _ _) as [k|]; [|discriminate].
    destruct (nth_error _ _); [|discriminate]. destruct (nth_error _ _); [|discriminate]. destruct (nth_error _ _); [|discriminate].
    intros H. injection H as <-. reflexivity.
Qed.
Lemma ofold_drop quad4 ds : forall m qs ts es vs,
  (forall i, In i qs -> (i < mh_next m)%nat) -> (forall i, In i ts -> (i < mh_next m)%nat) ->
  ofold (new_facet quad4) ds (drop m qs ts es vs) = obind (ofold (new_facet quad4) ds m) (fun m1 => Ok (drop m1 qs ts es vs)).
Proof.
  induction ds as [|d ds IH]; intros m qs ts es vs H1 H2; [reflexivity|]. cbn [ofold].
  rewrite new_drop by (intros X; first [apply H1 in X|apply H2 in X]; lia).
  destruct (new_facet quad4 m d) as [m1| |] eqn:E; cbn [obind]; try reflexivity.
  apply IH; intros i Hi; rewrite (new_next _ _ _ _ E); [apply H1 in Hi|apply H2 in Hi]; lia.
Qed.
Definition batch (quad4 : bool) (m : mesh) (ds : list double) : outcome mesh :=
  obind (ofold (new_facet quad4) ds m) (fun m1 =>
    Ok (drop m1 (flat_map (q_ids quad4) ds) (flat_map (t_ids quad4) ds) (flat_map e_ids ds) (map db_v ds))).
Lemma drop_nothing m : drop m [] [] [] [] = m.
Proof.
  apply mesh_eq; try reflexivity; cbn [drop mh_verts mh_quads mh_tris mh_intr]; unfold remove_facets, remove_edges; apply filter_all; reflexivity.
Qed.
Lemma batch_steps quad4 ds : forall m,
  (forall d, In d ds -> (forall i, In i (q_ids quad4 d ++ t_ids quad4 d) -> (i < mh_next m)%nat)) ->
  batch quad4 m ds = ofold (step quad4) ds m.
Proof.
  induction ds as [|d ds IH]; intros m H; unfold batch in *; [cbn; f_equal; apply drop_nothing|]. cbn [ofold flat_map map]. unfold step at 1.
  destruct (new_facet quad4 m d) as [m1| |] eqn:E; cbn [obind]; try reflexivity.
  rewrite <- IH.
  - unfold drop_one. rewrite ofold_drop.
    + destruct (ofold (new_facet quad4) ds m1) as [m2| |]; cbn [obind]; try reflexivity. f_equal. symmetry. apply (drop_drop m2 _ _ _ [db_v d]).
    + intros i Hi. rewrite (new_next _ _ _ _ E). specialize (H d (or_introl eq_refl) i). rewrite in_app_iff in H. specialize (H (or_introl Hi)). lia.
    + intros i Hi. rewrite (new_next _ _ _ _ E). specialize (H d (or_introl eq_refl) i). rewrite in_app_iff in H. specialize (H (or_intror Hi)). lia.
  - intros d' Hd' i Hi. specialize (H d' (or_intror Hd') i Hi). cbn [drop_one drop mh_next]. rewrite (new_next _ _ _ _ E). lia.
Qed.

(* ---------- what a pass keeps ---------- *)
Record keeps (m m' : mesh) : Prop := {
  kp_sound : sound m';
  kp_area : covered m' == covered m;
  kp_bdry : map bare (mh_bdry m') = map bare (mh_bdry m);
  kp_pos : mh_pos m' = mh_pos m;
  kp_prop : mh_prop m' = mh_prop m;
  kp_scale : mh_scale m' = mh_scale m;
  kp_col : mh_col m' = mh_col m;
  kp_verts : incl (mh_verts m') (mh_verts m);
  kp_intr : incl (map bare (mh_intr m')) (map bare (mh_intr m));
  kp_le : (length (facets m') <= length (facets m))%nat
}.
Lemma keeps_refl m : sound m -> keeps m m.
Proof. intros S. constructor; try reflexivity; [exact S|apply incl_refl|apply incl_refl]. Qed.
Lemma keeps_trans a b c : keeps a b -> keeps b c -> keeps a c.
Proof.
  intros [] []. constructor; try congruence.
  - rewrite kp_area1. assumption.
  - eapply incl_tran; eassumption.
  - eapply incl_tran; eassumption.
  - lia.
Qed.

Definition disjoint_doubles (ds : list double) : Prop :=
  NoDup (flat_map (fun d => [fa_id (db_q d); fa_id (db_n d)]) ds).

Lemma pairing_next quad4 m d d' v1 v3 o v1' v3' o' : sound m -> pairing quad4 m d v1 v3 o -> pairing quad4 m d' v1' v3' o' ->
  fa_id (db_q d) <> fa_id (db_q d') -> fa_id (db_q d) <> fa_id (db_n d') -> fa_id (db_n d) <> fa_id (db_q d') -> fa_id (db_n d) <> fa_id (db_n d') ->
  pairing quad4 (after quad4 m d v1 v3 o) d' v1' v3' o'.
Proof.
  intros S P P' N1 N2 N3 N4. assert (C := sd_conf _ S). assert (P2 := P').
  destruct P' as [Q' QN' RQ' RN' O' E1' E2' J1' J2'].
  destruct (after_facets quad4 m d v1 v3 o S P) as [AQ AT].
  (* a removed edge belongs to q and n only *)
  assert (ED : forall e a b, In e (mh_intr m) -> ends e a b -> In (a, b) (sides (db_q d')) -> In (b, a) (sides (db_n d')) -> ~ In (ed_id e) (e_ids d)).
  { intros e a b He J S1 S2 H. 
    assert (X : e = db_e1 d \/ e = db_e2 d).
    { assert (N := nodup_ids_app ed_id _ _ (cf_eids _ C)). destruct N as [N _].
      destruct H as [H|[H|[]]]; [left|right]; apply (nodup_map_inj' ed_id (mh_intr m)); auto; [exact (pg_e1 _ _ _ _ _ _ P)|exact (pg_e2 _ _ _ _ _ _ P)]. }
    assert (T : In (a, b) (sides (db_q d)) \/ In (a, b) (sides (db_n d))).
    { destruct X as [X|X]; subst e.
      - assert (K := pg_1 _ _ _ _ _ _ P). unfold ends in *.
        assert (KK : (a = v1 /\ b = db_v d) \/ (a = db_v d /\ b = v1)) by (destruct J as [[<- <-]|[<- <-]], K as [[<- <-]|[<- <-]]; auto).
        destruct KK as [[-> ->]|[-> ->]]; [left; apply (Permutation_in _ (Permutation_sym (pg_sides_q quad4 m d v1 v3 o P)))|right; apply (Permutation_in _ (Permutation_sym (pg_sides_n quad4 m d v1 v3 o P)))]; cbn; auto.
      - assert (K := pg_2 _ _ _ _ _ _ P). unfold ends in *.
        assert (KK : (a = db_v d /\ b = v3) \/ (a = v3 /\ b = db_v d)) by (destruct J as [[<- <-]|[<- <-]], K as [[<- <-]|[<- <-]]; auto).
        destruct KK as [[-> ->]|[-> ->]]; [left; apply (Permutation_in _ (Permutation_sym (pg_sides_q quad4 m d v1 v3 o P)))|right; apply (Permutation_in _ (Permutation_sym (pg_sides_n quad4 m d v1 v3 o P)))]; cbn; auto. }
    assert (IQ' := pg_in_q _ _ _ _ _ _ P2).
    destruct T as [T|T].
    - apply N1. rewrite (side_owner m (db_q d) (db_q d') (a, b) C (pg_in_q _ _ _ _ _ _ P) IQ' T S1). reflexivity.
    - apply N3. rewrite (side_owner m (db_n d) (db_q d') (a, b) C (pg_in_n _ _ _ _ _ _ P) IQ' T S1). reflexivity. }
  constructor; try assumption.
  - rewrite AQ. apply in_or_app. left. apply remove_facets_keep; [exact Q'|]. unfold q_ids. destruct quad4; cbn [In]; intuition.
  - destruct quad4.
    + rewrite AQ. apply in_or_app. left. apply remove_facets_keep; [exact QN'|]. cbn [q_ids In]. intuition.
    + rewrite AT. apply in_or_app. left. apply remove_facets_keep; [exact QN'|]. cbn [t_ids In]. intuition.
  - rewrite (after_intr quad4 m d v1 v3 o P). apply remove_edges_keep; [exact E1'|]. apply (ED _ v1' (db_v d') E1' J1').
    + apply (Permutation_in _ (Permutation_sym (pg_sides_q quad4 m d' v1' v3' o' P2))). cbn. auto.
    + apply (Permutation_in _ (Permutation_sym (pg_sides_n quad4 m d' v1' v3' o' P2))). cbn. auto.
  - rewrite (after_intr quad4 m d v1 v3 o P). apply remove_edges_keep; [exact E2'|]. apply (ED _ (db_v d') v3' E2' J2').
    + apply (Permutation_in _ (Permutation_sym (pg_sides_q quad4 m d' v1' v3' o' P2))). cbn. auto.
    + apply (Permutation_in _ (Permutation_sym (pg_sides_n quad4 m d' v1' v3' o' P2))). cbn. auto.
Qed.

Lemma step_keeps quad4 m d v1 v3 o : sound m -> pairing quad4 m d v1 v3 o ->
  keeps m (after quad4 m d v1 v3 o) /\ S (length (facets (after quad4 m d v1 v3 o))) = length (facets m).
Proof.
  intros S P. assert (G := step_merge quad4 m d v1 v3 o S P). destruct (after_pos quad4 m d v1 v3 o P) as [A1 [A2 [A3 [A4 [A5 A6]]]]].
  assert (L : Datatypes.S (length (facets (after quad4 m d v1 v3 o))) = length (facets m)).
  { rewrite (Permutation_length (mg_facets' _ _ _ _ _ _ G)), (Permutation_length (mg_facets _ _ _ _ _ _ G)). rewrite app_length. reflexivity. }
  split; [|exact L]. constructor.
  - exact (step_sound quad4 m d v1 v3 o S P).
  - exact (merge_covered _ _ _ _ _ _ G).
  - exact (mg_bdry _ _ _ _ _ _ G).
  - exact A1.
  - exact A5.
  - exact A2.
  - exact A4.
  - rewrite (after_verts quad4 m d v1 v3 o P). intros v Hv. apply filter_In in Hv. apply Hv.
  - intros x Hx. apply (Permutation_in _ (Permutation_sym (mg_intr _ _ _ _ _ _ G))). apply in_or_app. auto.
  - lia.
Qed.

Lemma steps_keep quad4 ds : forall m, sound m -> (forall d, In d ds -> exists v1 v3 o, pairing quad4 m d v1 v3 o) -> disjoint_doubles ds ->
  exists m', ofold (step quad4) ds m = Ok m' /\ keeps m m' /\ (length (facets m') + length ds = length (facets m))%nat /\
    (forall v, In v (mh_verts m') <-> In v (mh_verts m) /\ ~ In v (map db_v ds)) /\
    (forall d e, In d ds -> In e (mh_bdry m) -> ed_1 e <> db_v d /\ ed_2 e <> db_v d).
Proof.
  induction ds as [|d ds IH]; intros m S H D.
  - exists m. split; [reflexivity|]. split; [apply keeps_refl; exact S|]. split; [cbn; lia|]. split; [intros v; cbn; tauto|intros d e []].
  - destruct (H d (or_introl eq_refl)) as [v1 [v3 [o P]]]. cbn [ofold]. rewrite (step_after quad4 m d v1 v3 o S P). cbn [obind].
    destruct (step_keeps quad4 m d v1 v3 o S P) as [K L].
    unfold disjoint_doubles in D. cbn [flat_map app] in D.
    assert (D' : disjoint_doubles ds) by (inversion D as [|? ? ? D1]; inversion D1; assumption).
    assert (AB := after_bdry quad4 m d v1 v3 o P).
    destruct (IH (after quad4 m d v1 v3 o) (kp_sound _ _ K)) as [m' [E [K' [L' [V' B']]]]]; [|exact D'|].
    { intros d' Hd'. destruct (H d' (or_intror Hd')) as [v1' [v3' [o' P']]]. exists v1', v3', o'.
      assert (I1 : In (fa_id (db_q d')) (flat_map (fun d => [fa_id (db_q d); fa_id (db_n d)]) ds)) by (apply in_flat_map; exists d'; cbn; auto).
      assert (I2 : In (fa_id (db_n d')) (flat_map (fun d => [fa_id (db_q d); fa_id (db_n d)]) ds)) by (apply in_flat_map; exists d'; cbn; auto).
      inversion D as [|? ? N1 D1]. inversion D1 as [|? ? N2 D2]. subst.
      apply (pairing_next quad4 m d d' v1 v3 o v1' v3' o' S P P'); intros X; first [apply N2; rewrite X; assumption|apply N1; right; rewrite X; assumption]. }
    exists m'. split; [exact E|]. split; [exact (keeps_trans _ _ _ K K')|]. split; [cbn [length]; lia|]. split.
    + intros v. rewrite V', (after_verts quad4 m d v1 v3 o P), filter_In. cbn [existsb map In]. rewrite orb_false_r. split.
      * intros [[X1 X2] X3]. split; [exact X1|]. intros [Y|Y]; [|contradiction]. subst v. rewrite Nat.eqb_refl in X2.
        rewrite (proj1 (sd_fits _ S _ X1)) in X2. discriminate.
      * intros [X1 X2]. split; [split; [exact X1|]|intros Y; apply X2; auto].
        destruct (Nat.eqb_spec v (db_v d)); [exfalso; apply X2; auto|reflexivity].
    + intros d' e [<-|Hd'] He; [exact (pg_inner quad4 m d v1 v3 o S P e He)|]. apply (B' d' e Hd'). rewrite AB. exact He.
Qed.

(* ---------- setup_facet_connectivity keeps everything and links the elements ---------- *)
Definition linked (m : mesh) : Prop :=
  forall f i g, In f (facets m) -> (exists p, side_at f i = Some p) ->
    (mh_nbr m (fa_id f) i = Some g <-> exists fg, fa_id fg = g /\ across m f i fg).

Lemma set_side_bare m f e : bare (set_side m f e) = bare e.
Proof. unfold set_side. destruct (is_left _ _ _); reflexivity. Qed.
Lemma connect_intr_bare m e : bare (connect_intr m e) = bare e.
Proof.
  unfold connect_intr. destruct (sharing m (ed_1 e) (ed_2 e)) as [|[f i] [|[g j] l]]; [reflexivity|apply set_side_bare|].
  rewrite !set_side_bare. reflexivity.
Qed.
Lemma connect_bdry_bare m e : bare (connect_bdry m e) = bare e.
Proof.
  unfold connect_bdry. destruct (sharing m (ed_1 e) (ed_2 e)) as [|[f i] l]; [reflexivity|]. destruct (is_left _ _ _); [apply set_side_bare|reflexivity].
Qed.
Lemma map_bare m : map bare (map (connect_intr m) (mh_intr m)) = map bare (mh_intr m) /\ map bare (map (connect_bdry m) (mh_bdry m)) = map bare (mh_bdry m).
Proof. rewrite !map_map. split; apply map_ext; intros; [apply connect_intr_bare|apply connect_bdry_bare]. Qed.
Lemma setup_sound m : sound m -> sound (setup_facet_connectivity m).
Proof.
  intros S. destruct (C30_again m (sd_conf _ S) (sd_unset _ S)) as [C U]. constructor; [exact C| | | | |exact U].
  - destruct (sd_addr _ S) as [A1 A2 A3 A4 A5]. constructor; try assumption.
    intros e He. unfold all_edges in He. cbn [setup_facet_connectivity mh_intr mh_bdry] in He. rewrite in_app_iff, !in_map_iff in He.
    destruct He as [[x [E Hx]]|[x [E Hx]]]; subst e.
    + assert (B := connect_intr_bare m x). apply bare_fields in B. rewrite (proj1 B). apply A5. apply in_or_app. auto.
    + assert (B := connect_bdry_bare m x). apply bare_fields in B. rewrite (proj1 B). apply A5. apply in_or_app. auto.
  - exact (sd_fits _ S).
  - exact (sd_fans _ S).
  - exact (sd_pos _ S).
Qed.
Lemma setup_keeps m : sound m -> keeps m (setup_facet_connectivity m).
Proof.
  intros S. destruct (map_bare m) as [B1 B2]. constructor; try reflexivity.
  - exact (setup_sound m S).
  - exact B2.
  - apply incl_refl.
  - cbn [setup_facet_connectivity mh_intr]. rewrite B1. apply incl_refl.
Qed.
Lemma setup_linked m : sound m -> linked (setup_facet_connectivity m).
Proof. intros S f i g Hf Hp. exact (setup_neighbour m f i g (sd_conf _ S) (sd_unset _ S) Hf Hp). Qed.

(* ---------- the scan ---------- *)
Lemma find_facet_in m f : conforming m -> In f (facets m) -> find_facet m (fa_id f) = Some f.
Proof.
  intros C Hf. unfold find_facet. destruct (find _ (facets m)) as [g|] eqn:E.
  - apply find_some in E. destruct E as [Hg E]. apply Nat.eqb_eq in E. f_equal. exact (id_facet m g f C Hg Hf E).
  - exfalso. assert (X := find_none _ _ E f Hf). cbn in X. rewrite Nat.eqb_refl in X. discriminate.
Qed.
Lemma ed_oldest_in l e : ed_oldest l = Some e -> In e l.
Proof.
  revert e. induction l as [|a l IH]; intros e H; [discriminate|]. cbn [ed_oldest] in H. destruct (ed_oldest l) as [f|].
  - destruct (Nat.ltb _ _); injection H as <-; [right; apply IH; reflexivity|left; reflexivity].
  - injection H as <-. left. reflexivity.
Qed.
Lemma ed_oldest_some l e : In e l -> exists f, ed_oldest l = Some f.
Proof.
  destruct l as [|a l]; [intros []|]. intros _. cbn [ed_oldest]. destruct (ed_oldest l); [destruct (Nat.ltb _ _)|]; eauto.
Qed.
Lemma find_edge_some l a b e : In e l -> ends e a b -> exists f, find_edge l a b = Some f /\ In f l /\ ends f a b.
Proof.
  intros H J. assert (X : In e (filter (ed_joins a b) l)) by (apply filter_In; split; [exact H|apply ed_joins_iff; exact J]).
  destruct (ed_oldest_some _ _ X) as [f E]. exists f. unfold find_edge. split; [exact E|]. apply ed_oldest_in in E. apply filter_In in E.
  destruct E as [E1 E2]. split; [exact E1|]. apply ed_joins_iff. exact E2.
Qed.

Lemma turns_rot4 s v1 v2 v3 v4 : In (v1, v2, v3, v4) (turns s) -> rot4 s v1 v2 v3 v4.
Proof.
  unfold turns, rot4. destruct s as [a b c|a b c d]; [intros []|]. cbn [In]. intros H.
  or_destruct H; try contradiction; injection H as <- <- <- <-; auto.
Qed.
Lemma rot4_turns s v1 v2 v3 v4 : rot4 s v1 v2 v3 v4 -> In (v1, v2, v3, v4) (turns s).
Proof. unfold rot4. intros [H|[H|[H|H]]]; subst; cbn; auto. Qed.

Lemma rot4_side_at f a b c d : rot4 (fa_sh f) a b c d -> exists i j, side_at f i = Some (a, b) /\ side_at f j = Some (b, c) /\ i <> j.
Proof.
  unfold side_at. intros [H|[H|[H|H]]]; rewrite H;
    [exists 3%nat, 0%nat|exists 0%nat, 1%nat|exists 1%nat, 2%nat|exists 2%nat, 3%nat]; auto.
Qed.
(* an element with the sides (c,b), (b,a) *)
Lemma two_sides f a b c : NoDup (corners (fa_sh f)) -> In (c, b) (sides f) -> In (b, a) (sides f) ->
  (exists d, rot4 (fa_sh f) c b a d) \/ rot3 (fa_sh f) c b a.
Proof.
  unfold sides, rot4, rot3. destruct (fa_sh f) as [x y z|x y z w]; cbn [corners ring_edges path_edges app In]; intros N H1 H2.
  - apply nodup3 in N. destruct N as [D1 [D2 D3]]. right. or_destruct H1; try contradiction; or_destruct H2; try contradiction;
      apply pair_eq in H1; apply pair_eq in H2; destruct H1, H2; subst; try congruence; auto.
  - apply nodup4 in N. destruct N as [D1 [D2 [D3 [D4 [D5 D6]]]]]. left. or_destruct H1; try contradiction; or_destruct H2; try contradiction;
      apply pair_eq in H1; apply pair_eq in H2; destruct H1, H2; subst; try congruence; eauto 10.
Qed.

Definition kind (quad4 : bool) (n : facet) : Prop := n_corners n = (if quad4 then 4 else 3)%nat.

Lemma rot_kind m n v3 v2 v1 : conforming m -> In n (facets m) ->
  (exists d, rot4 (fa_sh n) v3 v2 v1 d) \/ rot3 (fa_sh n) v3 v2 v1 ->
  (n_corners n = 4%nat /\ In n (mh_quads m) /\ exists d, rot4 (fa_sh n) v3 v2 v1 d) \/
  (n_corners n = 3%nat /\ In n (mh_tris m) /\ rot3 (fa_sh n) v3 v2 v1).
Proof.
  intros C Hn [[d R]|R].
  - left. assert (X : n_corners n = 4%nat) by (unfold n_corners; destruct R as [R|[R|[R|R]]]; rewrite R; reflexivity).
    split; [exact X|]. split; [|eauto]. apply in_app_or in Hn. destruct Hn as [Hn|Hn]; [exact Hn|].
    destruct (cf_tris _ C n Hn) as [a [b [c E]]]. unfold n_corners in X. rewrite E in X. discriminate.
  - right. assert (X : n_corners n = 3%nat) by (unfold n_corners; destruct R as [R|[R|R]]; rewrite R; reflexivity).
    split; [exact X|]. split; [|exact R]. apply in_app_or in Hn. destruct Hn as [Hn|Hn]; [|exact Hn].
    destruct (cf_quads _ C n Hn) as [a [b [c [e E]]]]. unfold n_corners in X. rewrite E in X. discriminate.
Qed.

Lemma rot4_opposite s v3 v2 v1 o : rot4 s v3 v2 v1 o -> NoDup (corners s) ->
  exists k, side_index s v2 v3 = Some k /\ nth_error (corners s) k = Some o.
Proof.
  intros R N. destruct (rot4_nodup s _ _ _ _ R N) as [D1 [D2 [D3 [D4 [D5 D6]]]]].
  assert (X : forall x y : nat, x <> y -> Nat.eqb x y = false) by (intros x y H; apply Nat.eqb_neq; exact H).
  unfold rot4 in R. destruct R as [R|[R|[R|R]]]; subst s; cbn [side_index corners];
    repeat (rewrite ?Nat.eqb_refl; rewrite ?X by congruence; cbn [andb orb]).
  - exists 3%nat. auto.
  - exists 0%nat. auto.
  - exists 1%nat. auto.
  - exists 2%nat. auto.
Qed.

Section Scan.
Variable quad4 : bool.
Variable m : mesh.
Variable idx : nat -> Z.
Hypothesis S : sound m.
Hypothesis L : linked m.
Let C := sd_conf _ S.

Lemma check_turn_ok mk q v1 v2 v3 v4 : In q (mh_quads m) -> rot4 (fa_sh q) v1 v2 v3 v4 ->
  (exists d o, check_turn quad4 m idx mk q (v1, v2, v3, v4) = Ok (Some d) /\ pairing quad4 m d v1 v3 o /\ db_q d = q /\ db_v d = v2 /\
     marked mk (idx (fa_id (db_n d))) = false) \/
  (check_turn quad4 m idx mk q (v1, v2, v3, v4) = Ok None /\
     forall n, In n (facets m) -> doubled_at q n v1 v2 v3 -> kind quad4 n -> marked mk (idx (fa_id n)) = true).
Proof.
  intros Hq R. assert (Hqf : In q (facets m)) by (apply in_or_app; auto).
  assert (NQ := cf_corners _ C q Hqf).
  destruct (rot4_side_at q _ _ _ _ R) as [i [j [Si [Sj NE]]]].
  unfold check_turn. rewrite (proj2 (side_index_spec q v1 v2 i NQ) (or_introl Si)), (proj2 (side_index_spec q v2 v3 j NQ) (or_introl Sj)).
  assert (Li := fun g => L q i g Hqf (ex_intro _ _ Si)). assert (Lj := fun g => L q j g Hqf (ex_intro _ _ Sj)).
  (* a doubled neighbour is what both pointers show *)
  assert (PT : forall n, In n (facets m) -> doubled_at q n v1 v2 v3 -> mh_nbr m (fa_id q) i = Some (fa_id n) /\ mh_nbr m (fa_id q) j = Some (fa_id n)).
  { intros n Hn [D1 [D2 [D3 D4]]]. split.
    - apply Li. exists n. split; [reflexivity|]. exists v1, v2. auto.
    - apply Lj. exists n. split; [reflexivity|]. exists v2, v3. auto. }
  destruct (mh_nbr m (fa_id q) i) as [n1|] eqn:En1; [|right; split; [reflexivity|]; intros n Hn D K; destruct (PT n Hn D); discriminate].
  destruct (mh_nbr m (fa_id q) j) as [n2|] eqn:En2; [|right; split; [reflexivity|]; intros n Hn D K; destruct (PT n Hn D); discriminate].
  destruct (Nat.eqb_spec n1 n2) as [E|E]; cbn [negb].
  2:{ right. split; [reflexivity|]. intros n Hn D K. destruct (PT n Hn D). congruence. }
  subst n2. clear En1 En2. assert (En1 := proj1 (Li n1) eq_refl). assert (En2 := proj1 (Lj n1) eq_refl). destruct En1 as [n [En [a [b [Sab [Hn Sn]]]]]]. rewrite Si in Sab. apply (f_equal (fun o => match o with Some p => p | None => (0, 0)%nat end)) in Sab.
  apply pair_eq in Sab. destruct Sab as [<- <-].
  destruct En2 as [n' [En' [a' [b' [Sab' [Hn' Sn']]]]]]. rewrite Sj in Sab'. apply (f_equal (fun o => match o with Some p => p | None => (0, 0)%nat end)) in Sab'.
  apply pair_eq in Sab'. destruct Sab' as [<- <-].
  assert (n' = n) by (apply (id_facet m n' n C Hn' Hn); congruence). subst n'. clear En' Hn'.
  subst n1. rewrite (find_facet_in m n C Hn).
  assert (ONLY : forall k, In k (facets m) -> doubled_at q k v1 v2 v3 -> k = n).
  { intros k Hk [_ [_ [D3 _]]]. exact (side_owner m k n _ C Hk Hn D3 Sn). }
  destruct (marked mk (idx (fa_id n))) eqn:Mk.
  { right. split; [reflexivity|]. intros k Hk D K. rewrite (ONLY k Hk D). exact Mk. }
  assert (SK := rot_kind m n v3 v2 v1 C Hn (two_sides n v1 v2 v3 (cf_corners _ C n Hn) Sn' Sn)).
  (* the two edges *)
  assert (QS := rot4_sides q v1 v2 v3 v4 R).
  assert (A1 : In (v1, v2) (all_sides m)) by (apply all_sides_in; exists q; split; [exact Hqf|exact (side_at_in q i _ Si)]).
  assert (A2 : In (v2, v3) (all_sides m)) by (apply all_sides_in; exists q; split; [exact Hqf|exact (side_at_in q j _ Sj)]).
  assert (B1 : In (v2, v1) (all_sides m)) by (apply all_sides_in; exists n; auto).
  assert (B2 : In (v3, v2) (all_sides m)) by (apply all_sides_in; exists n; auto).
  destruct (interior_edge m v1 v2 C A1 B1) as [e1 [He1 J1]]. destruct (interior_edge m v2 v3 C A2 B2) as [e2 [He2 J2]].
  assert (J1' : ends e1 v1 v2) by (unfold ends; tauto). assert (J2' : ends e2 v2 v3) by (unfold ends; tauto).
  destruct (find_edge_some _ _ _ _ He1 J1') as [f1 [F1 [I1 K1]]]. destruct (find_edge_some _ _ _ _ He2 J2') as [f2 [F2 [I2 K2]]].
  rewrite F1, F2.
  destruct SK as [[NK [IN [o RO]]]|[NK [IN RO]]]; rewrite NK; destruct quad4 eqn:Q4; cbn [Nat.ltb Nat.leb].
  - destruct (rot4_opposite _ _ _ _ _ RO (cf_corners _ C n Hn)) as [k [Ek Eo]]. rewrite Ek, Eo. left.
    exists (DB q n f1 f2 v2 v4 (Some o)), o. split; [reflexivity|]. split; [|auto]. constructor; cbn; auto.
  - right. split; [reflexivity|]. intros k Hk D K. rewrite (ONLY k Hk D) in K. unfold kind in K. rewrite NK in K. discriminate.
  - right. split; [reflexivity|]. intros k Hk D K. rewrite (ONLY k Hk D) in K. unfold kind in K. rewrite NK in K. discriminate.
  - left. exists (DB q n f1 f2 v2 v4 None), 0%nat. split; [reflexivity|]. split; [|auto]. constructor; cbn; auto.
Qed.

Lemma first_double_ok mk q : In q (mh_quads m) -> forall ts, (forall t, In t ts -> In t (turns (fa_sh q))) ->
  (exists d v1 v3 o, first_double quad4 m idx mk q ts = Ok (Some d) /\ pairing quad4 m d v1 v3 o /\ db_q d = q /\ marked mk (idx (fa_id (db_n d))) = false) \/
  (first_double quad4 m idx mk q ts = Ok None /\
     forall v1 v2 v3 v4 n, In (v1, v2, v3, v4) ts -> In n (facets m) -> doubled_at q n v1 v2 v3 -> kind quad4 n -> marked mk (idx (fa_id n)) = true).
Proof.
  intros Hq ts. induction ts as [|[[[a b] c] d] ts IH]; intros H.
  - right. split; [reflexivity|]. intros v1 v2 v3 v4 n [].
  - cbn [first_double]. destruct (check_turn_ok mk q a b c d Hq (turns_rot4 _ _ _ _ _ (H _ (or_introl eq_refl)))) as [[x [o [E [P [Q1 [Q2 M]]]]]]|[E N]].
    + rewrite E. cbn [obind]. left. exists x, a, c, o. auto.
    + rewrite E. cbn [obind]. destruct (IH (fun t Ht => H t (or_intror Ht))) as [X|[X Y]]; [left; exact X|right].
      split; [exact X|]. intros v1 v2 v3 v4 n [T|T] Hn D K; [injection T as <- <- <- <-; exact (N n Hn D K)|exact (Y _ _ _ _ n T Hn D K)].
Qed.
End Scan.
