(* C33: the cleanup passes keep area, boundary and conformity; what they lose. *)
From Coq Require Import Lia Permutation Lqa Setoid.
From Verif Require Import Base GeomModel FacetModel UtilModel AdvanceModel Chain AdvanceProofs MeshModel MeshSpec MeshProofs
  QRefineModel QRefineSpec QRefineShape QRefineConf QRefineProps MeshProps MeshCheck CleanSpec CleanModel MergeProofs CleanProofs CleanPass CleanScan
  DegenProofs DegenPass CleanCheck.

(* ---------- properties kept by each step are kept by a pass ---------- *)
Lemma steps_inv quad4 (I : mesh -> Prop) :
  (forall m d v1 v3 o, sound m -> pairing quad4 m d v1 v3 o -> I m -> I (after quad4 m d v1 v3 o)) ->
  forall ds m m', sound m -> (forall d, In d ds -> exists v1 v3 o, pairing quad4 m d v1 v3 o) -> disjoint_doubles ds ->
  ofold (step quad4) ds m = Ok m' -> I m -> I m'.
Proof.
  intros HI. induction ds as [|d ds IH]; intros m m' S H D E J.
  - cbn in E. injection E as <-. exact J.
  - destruct (H d (or_introl eq_refl)) as [v1 [v3 [o P]]]. cbn [ofold] in E. rewrite (step_after quad4 m d v1 v3 o S P) in E. cbn [obind] in E.
    destruct (step_keeps quad4 m d v1 v3 o S P) as [K L].
    unfold disjoint_doubles in D. cbn [flat_map app] in D.
    assert (D' : disjoint_doubles ds) by (inversion D as [|? ? ? D1]; inversion D1; assumption).
    apply (IH (after quad4 m d v1 v3 o) m' (kp_sound _ _ K)); [|exact D'|exact E|exact (HI m d v1 v3 o S P J)].
    intros d' Hd'. destruct (H d' (or_intror Hd')) as [v1' [v3' [o' P']]]. exists v1', v3', o'.
    assert (I1 : In (fa_id (db_q d')) (flat_map (fun d => [fa_id (db_q d); fa_id (db_n d)]) ds)) by (apply in_flat_map; exists d'; cbn; auto).
    assert (I2 : In (fa_id (db_n d')) (flat_map (fun d => [fa_id (db_q d); fa_id (db_n d)]) ds)) by (apply in_flat_map; exists d'; cbn; auto).
    inversion D as [|? ? N1 D1]. inversion D1 as [|? ? N2 D2]. subst.
    apply (pairing_next quad4 m d d' v1 v3 o v1' v3' o' S P P'); intros X; first [apply N2; rewrite X; assumption|apply N1; right; rewrite X; assumption].
Qed.
Lemma pass_inv quad4 (I : mesh -> Prop) :
  (forall m d v1 v3 o, sound m -> pairing quad4 m d v1 v3 o -> I m -> I (after quad4 m d v1 v3 o)) ->
  (forall m, I m -> I (setup_facet_connectivity m)) ->
  forall m m', sound m -> linked m -> pass quad4 m = Ok m' -> I m -> I m'.
Proof.
  intros HI HS m m' S L E J. destruct (scan_ok quad4 m S L (mh_quads m) [] [] eq_refl) as [ds [Sc [PA [DJ _]]]]. cbn [length Z.of_nat] in Sc.
  unfold pass in E. rewrite Sc in E. cbn [obind] in E. rewrite batch_steps in E.
  - destruct (ofold (step quad4) ds m) as [m1| |] eqn:E1; cbn [obind] in E; try discriminate. injection E as <-. apply HS.
    exact (steps_inv quad4 I HI ds m m1 S PA DJ E1 J).
  - intros d Hd i Hi. destruct (PA d Hd) as [v1 [v3 [o P]]].
    assert (X := ad_fnext _ (sd_addr _ S) (db_q d) (pg_in_q _ _ _ _ _ _ P)). assert (Y := ad_fnext _ (sd_addr _ S) (db_n d) (pg_in_n _ _ _ _ _ _ P)).
    unfold q_ids, t_ids in Hi. destruct quad4; cbn [app In] in Hi; intuition lia.
Qed.

Lemma after_in quad4 m d v1 v3 o f : sound m -> pairing quad4 m d v1 v3 o -> In f (facets (after quad4 m d v1 v3 o)) ->
  In f (facets m) \/ f = created quad4 m d v1 v3 o.
Proof.
  intros S P H. destruct (after_facets quad4 m d v1 v3 o S P) as [AQ AT]. unfold facets in *. rewrite AQ, AT in H.
  apply in_app_or in H. destruct H as [H|H]; apply in_app_or in H; destruct H as [H|H].
  - left. apply in_or_app. left. exact (remove_facets_in _ _ _ _ H).
  - right. destruct quad4; [|destruct H]. destruct H as [<-|[]]. reflexivity.
  - left. apply in_or_app. right. exact (remove_facets_in _ _ _ _ H).
  - right. destruct quad4; [destruct H|]. destruct H as [<-|[]]. reflexivity.
Qed.
Lemma after_colour quad4 m d v1 v3 o : sound m -> pairing quad4 m d v1 v3 o -> one_colour m -> one_colour (after quad4 m d v1 v3 o).
Proof.
  intros S P O f Hf. destruct (after_pos quad4 m d v1 v3 o P) as [_ [_ [_ [AC _]]]]. rewrite AC.
  destruct (after_in quad4 m d v1 v3 o f S P Hf) as [H| ->]; [exact (O f H)|]. unfold created. destruct quad4; reflexivity.
Qed.
(* large triangles with valid colours *)
Definition fine (m : mesh) : Prop := sized m /\ (forall f, In f (mh_tris m) -> (0 <= fa_col f)%Z) /\ (0 <= mh_col m)%Z.
Lemma after_fine quad4 m d v1 v3 o : sound m -> pairing quad4 m d v1 v3 o -> fine m -> fine (after quad4 m d v1 v3 o).
Proof.
  intros S P [Z [NC NM]]. destruct (after_pos quad4 m d v1 v3 o P) as [AP [_ [_ [AC _]]]]. destruct (after_facets quad4 m d v1 v3 o S P) as [_ AT].
  unfold fine, sized. rewrite AP, AC, AT. split; [|split; [|exact NM]].
  - intros f Hf. apply in_app_or in Hf. destruct Hf as [Hf|Hf]; [exact (Z f (remove_facets_in _ _ _ _ Hf))|].
    destruct quad4 eqn:B; [destruct Hf|]. destruct Hf as [<-|[]]. assert (HA := pg_h_area false m d v1 v3 o P).
    assert (PQ := sd_pos _ S (db_q d) (pg_in_q _ _ _ _ _ _ P)). assert (PN := sd_pos _ S (db_n d) (pg_in_n _ _ _ _ _ _ P)).
    assert (ZN := Z (db_n d) (pg_n _ _ _ _ _ _ P)). revert HA PQ PN ZN.
    generalize (fa_area (mh_pos m) (created false m d v1 v3 o)) (fa_area (mh_pos m) (db_q d)) (fa_area (mh_pos m) (db_n d)). clear.
    intros h a b HA PA PB Z. rewrite HA. nra.
  - intros f Hf. apply in_app_or in Hf. destruct Hf as [Hf|Hf]; [exact (NC f (remove_facets_in _ _ _ _ Hf))|].
    destruct quad4; [destruct Hf|]. destruct Hf as [<-|[]]. exact NM.
Qed.

(* ---------- what each pass keeps ---------- *)
(* the mesh m' is sound again, covers the same area inside of the same boundary;
   vertices may be gone, but neither moved nor taken from the boundary *)
Definition kept (m m' : mesh) : Prop :=
  sound m' /\ covered m' == covered m /\ same_boundary m m' /\
  (forall v, mh_pos m' v = mh_pos m v) /\ incl (mh_verts m') (mh_verts m) /\
  (forall e, In e (mh_bdry m) -> In (ed_1 e) (mh_verts m') /\ In (ed_2 e) (mh_verts m')).

Lemma keeps_kept m m' : keeps m m' -> kept m m'.
Proof.
  intros K. split; [exact (kp_sound _ _ K)|]. split; [exact (kp_area _ _ K)|]. split; [|split; [|split; [exact (kp_verts _ _ K)|]]].
  - split; [exact (kp_bdry _ _ K)|]. intros e _. rewrite (kp_pos _ _ K). auto.
  - intros v. rewrite (kp_pos _ _ K). reflexivity.
  - intros e He. assert (B := kp_bdry _ _ K). apply (in_map bare) in He. rewrite <- B in He. apply in_map_iff in He. destruct He as [e' [E He']].
    assert (X := f_equal ed_1 E). assert (Y := f_equal ed_2 E). cbn in X, Y. rewrite <- X, <- Y.
    assert (S' := kp_sound _ _ K). destruct (cf_bdry _ (sd_conf _ S') e' He') as [H _]. apply all_sides_in in H. destruct H as [f [Hf H]].
    destruct (side_corners f _ _ H) as [C1 C2]. split; [exact (ad_corner _ (sd_addr _ S') f _ Hf C1)|exact (ad_corner _ (sd_addr _ S') f _ Hf C2)].
Qed.

Lemma prepared init m : sound m -> init = true \/ linked m ->
  sound (if init then setup_facet_connectivity m else m) /\ linked (if init then setup_facet_connectivity m else m) /\
  keeps m (if init then setup_facet_connectivity m else m).
Proof.
  intros S I. destruct init.
  - split; [exact (setup_sound m S)|]. split; [exact (setup_linked m S)|exact (setup_keeps m S)].
  - destruct I as [I|I]; [discriminate|]. split; [exact S|]. split; [exact I|exact (keeps_refl m S)].
Qed.

Lemma pairing_doubled quad4 m d v1 v3 o : sound m -> pairing quad4 m d v1 v3 o -> doubled_at (db_q d) (db_n d) v1 (db_v d) v3.
Proof.
  intros S P. assert (Q := pg_sides_q quad4 m d v1 v3 o P). assert (N := pg_sides_n quad4 m d v1 v3 o P).
  repeat split; first [apply (Permutation_in _ (Permutation_sym Q)); cbn; now auto|apply (Permutation_in _ (Permutation_sym N)); cbn; now auto].
Qed.
Lemma bare_same (m m' : mesh) : mh_quads m' = mh_quads m -> mh_tris m' = mh_tris m -> mh_verts m' = mh_verts m -> mh_col m' = mh_col m ->
  (one_colour m -> one_colour m').
Proof. intros EQ ET EV EC O f Hf. unfold facets in Hf. rewrite EQ, ET in Hf. rewrite EC. exact (O f Hf). Qed.

Lemma pass_kept quad4 init m : sound m -> init = true \/ linked m ->
  exists m', pass quad4 (if init then setup_facet_connectivity m else m) = Ok m' /\ keeps m m' /\ linked m' /\ (one_colour m -> one_colour m') /\ (fine m -> fine m') /\
    (forall v, In v (mh_verts m) -> ~ In v (mh_verts m') ->
      exists q n v1 v3, In q (mh_quads m) /\ In n (if quad4 then mh_quads m else mh_tris m) /\ doubled_at q n v1 v v3) /\
    (length (facets m') = length (facets m) -> no_double (if quad4 then 4 else 3) m').
Proof.
  intros S I. destruct (prepared init m S I) as [S0 [L0 K0]].
  assert (EQ : mh_quads (if init then setup_facet_connectivity m else m) = mh_quads m) by (destruct init; reflexivity).
  assert (ET : mh_tris (if init then setup_facet_connectivity m else m) = mh_tris m) by (destruct init; reflexivity).
  assert (EV : mh_verts (if init then setup_facet_connectivity m else m) = mh_verts m) by (destruct init; reflexivity).
  assert (EC : mh_col (if init then setup_facet_connectivity m else m) = mh_col m) by (destruct init; reflexivity).
  assert (EP : mh_pos (if init then setup_facet_connectivity m else m) = mh_pos m) by (destruct init; reflexivity).
  assert (EF : facets (if init then setup_facet_connectivity m else m) = facets m) by (unfold facets; rewrite EQ, ET; reflexivity).
  set (m0 := if init then setup_facet_connectivity m else m) in *. clearbody m0.
  destruct (pass_keeps quad4 m0 S0 L0) as [m' [ds [E [K [L' [LE [CL [PA [DJ [V B]]]]]]]]]].
  exists m'. split; [exact E|]. split; [exact (keeps_trans _ _ _ K0 K)|]. split; [exact L'|]. split; [|split; [|split]].
  - intros O. apply (pass_inv quad4 one_colour (after_colour quad4) (fun m O => O) m0 m' S0 L0 E). exact (bare_same m m0 EQ ET EV EC O).
  - intros F. apply (pass_inv quad4 fine (after_fine quad4) (fun m O => O) m0 m' S0 L0 E). unfold fine, sized. rewrite ET, EP, EC. exact F.
  - intros v Hv Nv. rewrite <- EV in Hv.
    assert (X : In v (map db_v ds)). { destruct (in_dec Nat.eq_dec v (map db_v ds)) as [X|X]; [exact X|]. exfalso. apply Nv. apply V. auto. }
    apply in_map_iff in X. destruct X as [d [E1 Hd]]. destruct (PA d Hd) as [v1 [v3 [o P]]]. exists (db_q d), (db_n d), v1, v3.
    split; [rewrite <- EQ; exact (pg_q _ _ _ _ _ _ P)|]. split; [assert (X := pg_n _ _ _ _ _ _ P); destruct quad4; [rewrite <- EQ|rewrite <- ET]; exact X|].
    rewrite <- E1. exact (pairing_doubled quad4 m0 d v1 v3 o S0 P).
  - intros LQ. rewrite EF in LE. assert (ds = []) by (destruct ds; [reflexivity|cbn [length] in LE; lia]). specialize (CL H).
    intros q n v1 v2 v3 Hq Hn KN D. apply (CL q n v1 v2 v3 Hq Hn D). unfold kind, n_corners. destruct quad4; exact KN.
Qed.

(* clear_double_quad_edges succeeds, the removed vertices are the ones between two
   quads with two common sides, and when nothing was removed, no such pair is left *)
Theorem C33_double_quads_partial init m : sound m -> init = true \/ linked m ->
  exists m', clear_double_quads init m = Ok m' /\ kept m m' /\ (one_colour m -> one_colour m') /\
    (forall v, In v (mh_verts m) -> ~ In v (mh_verts m') ->
      exists q n v1 v3, In q (mh_quads m) /\ In n (mh_quads m) /\ doubled_at q n v1 v v3) /\
    (length (facets m') = length (facets m) -> no_double 4 m').
Proof.
  intros S I. destruct (pass_kept true init m S I) as [m' [E [K [L [O [_ [V N]]]]]]]. exists m'.
  split; [rewrite pass_quads; exact E|]. split; [exact (keeps_kept _ _ K)|]. auto.
Qed.
Theorem C33_double_tris_partial init m : sound m -> init = true \/ linked m ->
  exists m', clear_double_tris init m = Ok m' /\ kept m m' /\ (one_colour m -> one_colour m') /\
    (forall v, In v (mh_verts m) -> ~ In v (mh_verts m') ->
      exists q n v1 v3, In q (mh_quads m) /\ In n (mh_tris m) /\ doubled_at q n v1 v v3) /\
    (length (facets m') = length (facets m) -> no_double 3 m').
Proof.
  intros S I. destruct (pass_kept false init m S I) as [m' [E [K [L [O [_ [V N]]]]]]]. exists m'.
  split; [rewrite pass_tris; exact E|]. split; [exact (keeps_kept _ _ K)|]. auto.
Qed.

(* a pass repeated until nothing changes leaves no doubled pair; it takes no more
   repetitions than there are elements *)
Fixpoint repeated (k : nat) (p : mesh -> outcome mesh) (m : mesh) : outcome mesh :=
  match k with O => Ok m | S k => obind (p m) (repeated k p) end.
Lemma repeat_pass quad4 (p : mesh -> outcome mesh) : (forall m, p m = pass quad4 (setup_facet_connectivity m)) ->
  forall n m, (length (facets m) <= n)%nat -> sound m -> exists k m', (k <= S n)%nat /\ repeated k p m = Ok m' /\ keeps m m' /\ no_double (if quad4 then 4 else 3) m'.
Proof.
  intros HP. induction n as [|n IH]; intros m LN S; destruct (pass_kept quad4 true m S (or_introl eq_refl)) as [m1 [E [K [_ [_ [_ [_ N]]]]]]];
    assert (LE := kp_le _ _ K).
  - exists 1%nat, m1. split; [lia|]. cbn [repeated]. rewrite HP, E. split; [reflexivity|]. split; [exact K|]. apply N. lia.
  - destruct (Nat.eq_dec (length (facets m1)) (length (facets m))) as [EL|NL].
    + exists 1%nat, m1. split; [lia|]. cbn [repeated]. rewrite HP, E. split; [reflexivity|]. split; [exact K|exact (N EL)].
    + destruct (IH m1 ltac:(lia) (kp_sound _ _ K)) as [k [m' [LK [E' [K' N']]]]]. exists (Datatypes.S k), m'. split; [lia|].
      cbn [repeated]. rewrite HP, E. split; [exact E'|]. split; [exact (keeps_trans _ _ _ K K')|exact N'].
Qed.
Theorem C33_quads_repeated m : sound m ->
  exists k m', (k <= S (length (facets m)))%nat /\ repeated k (clear_double_quads true) m = Ok m' /\ kept m m' /\ no_double 4 m'.
Proof.
  intros S. destruct (repeat_pass true (clear_double_quads true) (fun m => pass_quads true m) _ m (le_n _) S) as [k [m' [LK [E [K N]]]]].
  exists k, m'. split; [exact LK|]. split; [exact E|]. split; [exact (keeps_kept _ _ K)|exact N].
Qed.
Theorem C33_tris_repeated m : sound m ->
  exists k m', (k <= S (length (facets m)))%nat /\ repeated k (clear_double_tris true) m = Ok m' /\ kept m m' /\ no_double 3 m'.
Proof.
  intros S. destruct (repeat_pass false (clear_double_tris true) (fun m => pass_tris true m) _ m (le_n _) S) as [k [m' [LK [E [K N]]]]].
  exists k, m'. split; [exact LK|]. split; [exact E|]. split; [exact (keeps_kept _ _ K)|exact N].
Qed.

(* merge_degenerate_triangles also keeps colours and fixed vertices, and removes
   exactly the unfixed vertices in the middle of three triangles of one colour *)
Theorem C33_degenerate_partial m : sound m -> sized m -> (forall f, In f (mh_tris m) -> (0 <= fa_col f)%Z) ->
  exists m', merge_degenerates m = Ok m' /\ kept m m' /\ (forall c, covered_by c m' == covered_by c m) /\
    (forall v, In v (mh_verts m') <->
      In v (mh_verts m) /\ ~ (three_ring m v /\ has_property (mh_prop m v) v_is_fixed = false)) /\
    mh_quads m' = mh_quads m.
Proof.
  intros S Z NC. destruct (merge_degenerates_ok m S Z NC) as [m' [E [K [L [Z' [V [CB [MQ _]]]]]]]]. exists m'.
  split; [exact E|]. split; [exact (keeps_kept _ _ K)|]. split; [exact CB|]. split; [|exact MQ].
  intros v. rewrite V. split; intros [H1 H2]; (split; [exact H1|]).
  - intros [R F]. rewrite (ring_degenerate m v S R F) in H2. discriminate.
  - destruct (degenerate m v) eqn:D; [|reflexivity]. exfalso. apply H2. exact (degenerate_ring m v S D).
Qed.

(* the three passes as the triangulation runs them *)
Lemma covered_by_one c m : one_colour m -> covered_by c m == (if Z.eqb (mh_col m) c then covered m else 0).
Proof.
  unfold covered_by, covered, one_colour. intros H. induction (facets m) as [|f l IH].
  - destruct (Z.eqb (mh_col m) c); reflexivity.
  - cbn [filter map sumQ fold_right]. rewrite (H f (or_introl eq_refl)). specialize (IH (fun g Hg => H g (or_intror Hg))).
    destruct (Z.eqb (mh_col m) c); cbn [map sumQ fold_right]; rewrite IH; reflexivity.
Qed.
Theorem C33_cleanup_partial m : sound m -> fine m ->
  exists m', cleanup m = Ok m' /\ kept m m' /\ (one_colour m -> forall c, covered_by c m' == covered_by c m).
Proof.
  intros S F. destruct (pass_kept true true m S (or_introl eq_refl)) as [m1 [E1 [K1 [L1 [O1 [F1 _]]]]]].
  destruct (pass_kept false true m1 (kp_sound _ _ K1) (or_introl eq_refl)) as [m2 [E2 [K2 [L2 [O2 [F2 _]]]]]].
  destruct (F2 (F1 F)) as [Z [NC _]].
  destruct (merge_degenerates_ok m2 (kp_sound _ _ K2) Z NC) as [m3 [E3 [K3 [_ [_ [_ [CB _]]]]]]].
  exists m3. unfold cleanup. rewrite pass_quads, E1. cbn [obind]. rewrite pass_tris, E2. cbn [obind]. split; [exact E3|].
  assert (K12 := keeps_trans _ _ _ K1 K2). split; [exact (keeps_kept _ _ (keeps_trans _ _ _ K12 K3))|].
  intros O c. rewrite CB, (covered_by_one c m2 (O2 (O1 O))), (covered_by_one c m O), (kp_col _ _ K12). destruct (Z.eqb (mh_col m) c); [exact (kp_area _ _ K12)|reflexivity].
Qed.

(* ---------- cases ---------- *)
(* two pairs of quads with two common sides each, side by side *)
Definition pairs (col : Z) (fix4 : N) : mesh :=
  MH (ptl [V2 0 0; V2 2 0; V2 2 2; V2 0 2; V2 1 1; V2 4 0; V2 4 2; V2 3 1]) (fun v => if Nat.eqb v 4 then fix4 else 0%N) [0;1;2;3;4;5;6;7]%nat
     [FA 8 (Quad4 0 1 2 4) col true; FA 9 (Quad4 0 4 2 3) col true; FA 10 (Quad4 1 5 6 7) col true; FA 11 (Quad4 1 7 6 2) col true] []
     [fresh_edge 12 0 4 (-1); fresh_edge 13 4 2 (-1); fresh_edge 14 1 2 (-1); fresh_edge 15 1 7 (-1); fresh_edge 16 7 6 (-1)]
     [fresh_edge 17 0 1 1; fresh_edge 18 1 5 1; fresh_edge 19 5 6 1; fresh_edge 20 6 2 1; fresh_edge 21 2 3 1; fresh_edge 22 3 0 1]
     (fun _ _ => None) 23 8 1 100.
Lemma pairs_sound col x : sound (pairs col x).
Proof. apply soundb_sound. vm_compute. reflexivity. Qed.
Example C33_pairs_case : sound (pairs 1 0) /\ one_colour (pairs 1 0) /\ fine (pairs 1 0) /\
  doubled_at (FA 8 (Quad4 0 1 2 4) 1 true) (FA 9 (Quad4 0 4 2 3) 1 true) 2 4 0 /\
  exists m', clear_double_quads true (pairs 1 0) = Ok m' /\ length (mh_quads m') = 3%nat /\ length (mh_intr m') = 3%nat.
Proof.
  split; [apply pairs_sound|]. split; [|split; [|split]].
  - intros f Hf. cbn in Hf. or_destruct Hf; try contradiction; subst f; reflexivity.
  - split; [intros f []|]. split; [intros f []|]. cbn. lia.
  - unfold doubled_at. cbn. auto 10.
  - destruct (clear_double_quads true (pairs 1 0)) as [m'| |] eqn:E; vm_compute in E; try discriminate. exists m'. split; [reflexivity|].
    injection E as <-. vm_compute. auto.
Qed.

(* a quad and a triangle with two common sides *)
Definition kite : mesh :=
  MH (ptl [V2 0 0; V2 2 0; V2 1 2; V2 1 (1#2)]) (fun _ => 0%N) [0;1;2;3]%nat
     [FA 4 (Quad4 0 3 1 2) 1 true] [FA 5 (Tri3 0 1 3) 1 true]
     [fresh_edge 6 0 3 (-1); fresh_edge 7 3 1 (-1)]
     [fresh_edge 8 0 1 1; fresh_edge 9 1 2 2; fresh_edge 10 2 0 3]
     (fun _ _ => None) 11 2 1 100.
Example C33_kite_case : sound kite /\ fine kite /\
  exists m', clear_double_tris true kite = Ok m' /\ length (mh_quads m') = 0%nat /\ length (mh_tris m') = 1%nat /\ mh_verts m' = [0; 1; 2]%nat.
Proof.
  split; [apply soundb_sound; vm_compute; reflexivity|]. split.
  - split; [|split; [|cbn; lia]]; intros f [<-|[]]; [vm_compute; discriminate|cbn; lia].
  - destruct (clear_double_tris true kite) as [m'| |] eqn:E; vm_compute in E; try discriminate. exists m'. split; [reflexivity|].
    injection E as <-. vm_compute. auto.
Qed.

(* a triangle (0,1,2) cut at 3, and its part (0,1,3) cut at 4; s is the size *)
Definition nested (s : Q) : mesh :=
  MH (ptl [V2 0 0; V2 (6 * s) 0; V2 0 (6 * s); V2 (2 * s) (2 * s); V2 (2 * s) s]) (fun _ => 0%N) [0;1;2;3;4]%nat
     [] [FA 5 (Tri3 1 2 3) 1 true; FA 6 (Tri3 2 0 3) 1 true; FA 7 (Tri3 0 1 4) 1 true; FA 8 (Tri3 1 3 4) 1 true; FA 9 (Tri3 3 0 4) 1 true]
     [fresh_edge 10 0 3 (-1); fresh_edge 11 3 1 (-1); fresh_edge 12 3 2 (-1); fresh_edge 13 0 4 (-1); fresh_edge 14 1 4 (-1); fresh_edge 15 3 4 (-1)]
     [fresh_edge 16 0 1 1; fresh_edge 17 1 2 2; fresh_edge 18 2 0 3]
     (fun _ _ => None) 19 18 1 100.
Example C33_nested_case : sound (nested 1) /\ fine (nested 1) /\ three_ring (nested 1) 4 /\
  exists m', merge_degenerates (nested 1) = Ok m' /\ length (mh_tris m') = 3%nat /\ mh_verts m' = [0; 1; 2; 3]%nat.
Proof.
  split; [apply soundb_sound; vm_compute; reflexivity|]. split; [|split].
  - split; [|split; [|cbn; lia]]; intros f Hf; cbn in Hf; or_destruct Hf; try contradiction; subst f; try (vm_compute; discriminate); cbn; lia.
  - exists (FA 7 (Tri3 0 1 4) 1 true), (FA 8 (Tri3 1 3 4) 1 true), (FA 9 (Tri3 3 0 4) 1 true), 0%nat, 1%nat, 3%nat. cbn. auto 20.
  - destruct (merge_degenerates (nested 1)) as [m'| |] eqn:E; vm_compute in E; try discriminate. exists m'. split; [reflexivity|].
    injection E as <-. vm_compute. auto.
Qed.

(* As stated C33 is FALSE in five ways. *)
(* (a) the new element gets the colour of the mesh, not of the elements *)
Theorem C33_colour_refuted : exists m m', sound m /\ clear_double_quads true m = Ok m' /\
  (forall f, In f (facets m) -> fa_col f = 7%Z) /\ ~ covered_by 7 m' == covered_by 7 m.
Proof.
  exists (pairs 7 0). destruct (clear_double_quads true (pairs 7 0)) as [m'| |] eqn:E; vm_compute in E; try discriminate. exists m'.
  split; [apply pairs_sound|]. split; [reflexivity|]. split.
  - intros f Hf. cbn in Hf. or_destruct Hf; try contradiction; subst f; reflexivity.
  - injection E as <-. vm_compute. discriminate.
Qed.
(* (b) user-fixed vertices are removed *)
Theorem C33_fixed_refuted : exists m m' v, sound m /\ clear_double_quads true m = Ok m' /\
  In v (mh_verts m) /\ has_property (mh_prop m v) v_is_fixed = true /\ ~ In v (mh_verts m').
Proof.
  exists (pairs 1 v_is_fixed). destruct (clear_double_quads true (pairs 1 v_is_fixed)) as [m'| |] eqn:E; vm_compute in E; try discriminate. exists m', 4%nat.
  split; [apply pairs_sound|]. split; [reflexivity|]. split; [cbn; auto 10|]. split; [reflexivity|].
  injection E as <-. cbn. intuition discriminate.
Qed.
(* (c) the second pair is left: the counter is not advanced past a marked quad *)
Theorem C33_left_refuted : exists m m', sound m /\ clear_double_quads true m = Ok m' /\ ~ no_double 4 m'.
Proof.
  exists (pairs 1 0). destruct (clear_double_quads true (pairs 1 0)) as [m'| |] eqn:E; vm_compute in E; try discriminate. exists m'.
  split; [apply pairs_sound|]. split; [reflexivity|]. intros N.
  apply (N (FA 10 (Quad4 1 5 6 7) 1 true) (FA 11 (Quad4 1 7 6 2) 1 true) 6%nat 7%nat 1%nat); injection E as <-; cbn; auto 10; unfold doubled_at; cbn; auto 10.
Qed.
(* (d) merging three triangles may leave three others around a vertex *)
Theorem C33_ring_left_refuted : exists m m' v, sound m /\ fine m /\ merge_degenerates m = Ok m' /\
  three_ring m' v /\ has_property (mh_prop m' v) v_is_fixed = false.
Proof.
  exists (nested 1). destruct (merge_degenerates (nested 1)) as [m'| |] eqn:E; vm_compute in E; try discriminate. exists m', 3%nat.
  split; [apply C33_nested_case|]. split; [apply C33_nested_case|]. split; [reflexivity|]. injection E as <-. split; [|reflexivity].
  exists (FA 5 (Tri3 1 2 3) 1 true), (FA 6 (Tri3 2 0 3) 1 true), (FA 19 (Tri3 0 1 3) 1 false), 1%nat, 2%nat, 0%nat. cbn. auto 20.
Qed.
(* (e) three triangles below the tolerance of orientation() become a clockwise one *)
Theorem C33_tiny_refuted : exists m m', sound m /\ merge_degenerates m = Ok m' /\ ~ positive m' /\ ~ covered m' == covered m.
Proof.
  exists (nested (1 # 100000)). destruct (merge_degenerates (nested (1 # 100000))) as [m'| |] eqn:E; vm_compute in E; try discriminate. exists m'.
  split; [apply soundb_sound; vm_compute; reflexivity|]. split; [reflexivity|]. injection E as <-. split.
  - intros P. specialize (P (FA 19 (Tri3 0 3 1) 1 false) ltac:(cbn; auto)). vm_compute in P. discriminate.
  - vm_compute. discriminate.
Qed.

Print Assumptions C33_double_quads_partial.
Print Assumptions C33_double_tris_partial.
Print Assumptions C33_quads_repeated.
Print Assumptions C33_tris_repeated.
Print Assumptions C33_degenerate_partial.
Print Assumptions C33_cleanup_partial.
Print Assumptions C33_colour_refuted.
Print Assumptions C33_fixed_refuted.
Print Assumptions C33_left_refuted.
Print Assumptions C33_ring_left_refuted.
Print Assumptions C33_tiny_refuted.
