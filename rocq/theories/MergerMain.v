(* The merger glues the two meshes along their common boundary edges. *)
From Coq Require Import Lia Permutation Lqa.
From Verif Require Import Base GeomModel FacetModel UtilModel UtilProofs AdvanceModel Chain AdvanceProofs BdryProofs MeshModel MeshSpec MeshProofs MeshProps
  QRefineModel QRefineSpec QRefineShape QRefineConf QRefineProps CleanModel CleanSpec MergeProofs CleanProofs CleanPass T2QProofs MergerModel MergerSpec GlueProofs MergerCopy MergerProofs.

Lemma setup_bdry_in m e : In e (mh_bdry (setup_facet_connectivity m)) <-> exists x, In x (mh_bdry m) /\ e = connect_bdry m x.
Proof. cbn [setup_facet_connectivity mh_bdry]. rewrite in_map_iff. split; intros [x [H1 H2]]; exists x; auto. Qed.
Lemma connect_bdry_fields m e : ed_id (connect_bdry m e) = ed_id e /\ ed_1 (connect_bdry m e) = ed_1 e /\ ed_2 (connect_bdry m e) = ed_2 e /\
  ed_col (connect_bdry m e) = ed_col e /\ ed_prop (connect_bdry m e) = ed_prop e /\ ed_twin (connect_bdry m e) = ed_twin e.
Proof. assert (B := connect_bdry_bare m e). unfold bare in B. injection B. auto 10. Qed.
Lemma setup_ids m : map ed_id (mh_bdry (setup_facet_connectivity m)) = map ed_id (mh_bdry m).
Proof. cbn [setup_facet_connectivity mh_bdry]. rewrite map_map. apply map_ext. intros e. apply connect_bdry_fields. Qed.
Lemma side_by_side_setup r d oth : side_by_side r d oth -> side_by_side (setup_facet_connectivity r) (setup_facet_connectivity d) oth.
Proof.
  intros S. set (R := setup_facet_connectivity r). set (D := setup_facet_connectivity d).
  assert (FWD : forall e, In e (flat_map mh_bdry (R :: D :: oth)) -> exists x, In x (flat_map mh_bdry (r :: d :: oth)) /\ ed_id e = ed_id x /\ ed_twin e = ed_twin x).
  { intros e He. cbn [flat_map] in *. apply in_app_or in He. destruct He as [He|He]; [|apply in_app_or in He; destruct He as [He|He]].
    - apply setup_bdry_in in He. destruct He as [x [Hx ->]]. exists x. split; [apply in_or_app; auto|]. split; apply connect_bdry_fields.
    - apply setup_bdry_in in He. destruct He as [x [Hx ->]]. exists x. split; [apply in_or_app; right; apply in_or_app; auto|]. split; apply connect_bdry_fields.
    - exists e. split; [apply in_or_app; right; apply in_or_app; auto|auto]. }
  assert (BWD : forall x, In x (flat_map mh_bdry (r :: d :: oth)) -> exists e, In e (flat_map mh_bdry (R :: D :: oth)) /\ ed_id e = ed_id x).
  { intros e He. cbn [flat_map] in *. apply in_app_or in He. destruct He as [He|He]; [|apply in_app_or in He; destruct He as [He|He]].
    - exists (connect_bdry r e). split; [apply in_or_app; left; apply setup_bdry_in; eauto|apply connect_bdry_fields].
    - exists (connect_bdry d e). split; [apply in_or_app; right; apply in_or_app; left; apply setup_bdry_in; eauto|apply connect_bdry_fields].
    - exists e. split; [apply in_or_app; right; apply in_or_app; auto|auto]. }
  assert (OPP : forall e t, opposite R D (connect_bdry r e) (connect_bdry d t) <-> opposite r d e t).
  { intros e t. unfold opposite. destruct (connect_bdry_fields r e) as [_ [-> [-> _]]]. destruct (connect_bdry_fields d t) as [_ [-> [-> _]]]. reflexivity. }
  constructor.
  - assert (N := sb_ids _ _ _ S). cbn [flat_map] in *. rewrite !map_app in *. unfold R, D. rewrite !setup_ids. exact N.
  - exact (sb_facets _ _ _ S).
  - intros e i He Ei. destruct (FWD e He) as [x [Hx [E1 E2]]]. rewrite E2 in Ei. destruct (sb_twin _ _ _ S x i Hx Ei) as [t [Ht Et]].
    destruct (BWD t Ht) as [y [Hy Ey]]. exists y. split; [exact Hy|congruence].
  - exact (sb_left _ _ _ S).
  - exact (sb_below _ _ _ S).
  - intros e t He Ht. apply setup_bdry_in in He, Ht. destruct He as [x [Hx ->]], Ht as [y [Hy ->]]. rewrite OPP, <- (sb_rd _ _ _ S x y Hx Hy).
    destruct (connect_bdry_fields r x) as [_ [_ [_ [_ [_ ->]]]]]. destruct (connect_bdry_fields d y) as [-> _]. reflexivity.
  - intros e t He Ht. apply setup_bdry_in in He, Ht. destruct He as [x [Hx ->]], Ht as [y [Hy ->]]. rewrite OPP, <- (sb_dr _ _ _ S x y Hx Hy).
    destruct (connect_bdry_fields d y) as [_ [_ [_ [_ [_ ->]]]]]. destruct (connect_bdry_fields r x) as [-> _]. reflexivity.
  - intros e t He Ht. apply setup_bdry_in in He, Ht. destruct He as [x [Hx ->]], Ht as [y [Hy ->]].
    destruct (connect_bdry_fields d x) as [_ [_ [_ [_ [_ ->]]]]]. destruct (connect_bdry_fields d y) as [-> _]. exact (sb_dd _ _ _ S x y Hx Hy).
Qed.
Lemma fresh_above ms m : In m ms -> (mh_next m <= fresh_next ms)%nat.
Proof. induction ms as [|a ms IH]; [intros []|]. cbn [fresh_next fold_right]. fold (fresh_next ms). intros [<-|H]; [lia|]. specialize (IH H). lia. Qed.

(* what the merger adds to the statement that M is glued from R and D *)
Record merged (R D M : mesh) (g : nat -> nat) (Rin Rout Din Dout : list medge) (FD : list facet) (ID IE BD : list medge) : Prop := {
  mg_glued : glued R D M g Rin Rout Din Dout FD ID IE BD;
  mg_copies : Forall2 (fcopy g (mh_col R)) (facets D) FD;
  mg_intr : Forall2 (icopy g) (mh_intr D) ID;
  mg_bdry : Forall2 (bcopy g) Dout BD;
  mg_marks : marked_exactly R -> marked_exactly D -> marked_exactly M;
  mg_marked : boundary_marked M;
  mg_fixed : forall e, interface R D e -> has_property (mh_prop M (ed_1 e)) v_is_fixed = true /\ has_property (mh_prop M (ed_2 e)) v_is_fixed = true;
  mg_news : exists news shared, mh_verts M = mh_verts R ++ news /\ NoDup shared /\ (length news + length shared = length (mh_verts D))%nat /\
    (forall v, In v shared <-> In v (mh_verts D) /\ exists e t, In e (mh_bdry R) /\ In t (mh_bdry D) /\ opposite R D e t /\ (v = ed_1 t \/ v = ed_2 t));
  mg_quads : exists qs, mh_quads M = mh_quads R ++ qs /\ length qs = length (mh_quads D);
  mg_tris : exists ts, mh_tris M = mh_tris R ++ ts /\ length ts = length (mh_tris D);
  mg_area : mh_area M = mh_area R;
  mg_col : mh_col M = mh_col R;
  mg_fresh : forall b, In b BD -> forall m, In m [R; D] -> (mh_next m <= ed_id b)%nat
}.

Section Pair.
Variables mr md : mesh.
Variable oth : list mesh.
Hypothesis SR0 : sound mr.
Hypothesis SD0 : sound md.
Hypothesis CR0 : all_centred mr.
Hypothesis CD0 : all_centred md.
Hypothesis DR0 : distinct_points mr.
Hypothesis DD0 : distinct_points md.
Hypothesis SB0 : side_by_side mr md oth.
Hypothesis FI0 : fits_into mr md.
Let R := setup_facet_connectivity mr.
Let D := setup_facet_connectivity md.
Let n0 := fresh_next (mr :: md :: oth).
Lemma pSR : sound R. Proof. exact (setup_sound mr SR0). Qed.
Lemma pSD : sound D. Proof. exact (setup_sound md SD0). Qed.
Lemma pSB : side_by_side R D oth. Proof. exact (side_by_side_setup mr md oth SB0). Qed.
Lemma pLR e : In e (mh_bdry R) -> exists f, In f (facets R) /\ ed_l e = Some (fa_id f).
Proof. intros He. apply setup_bdry_in in He. destruct He as [x [Hx ->]]. destruct (connect_bdry_side mr x (sd_conf _ SR0) CR0 Hx) as [f [Hf [_ E]]]. exists f. auto. Qed.
Lemma pLD e : In e (mh_bdry D) -> exists f, In f (facets D) /\ ed_l e = Some (fa_id f).
Proof. intros He. apply setup_bdry_in in He. destruct He as [x [Hx ->]]. destruct (connect_bdry_side md x (sd_conf _ SD0) CD0 Hx) as [f [Hf [_ E]]]. exists f. auto. Qed.
Lemma nextR : (mh_next R <= n0)%nat. Proof. apply (fresh_above (mr :: md :: oth) mr). left. reflexivity. Qed.
Lemma nextD : (mh_next D <= n0)%nat. Proof. apply (fresh_above (mr :: md :: oth) md). right. left. reflexivity. Qed.
Lemma pHB e : In e (flat_map mh_bdry (R :: D :: oth)) -> (ed_id e < n0)%nat.
Proof.
  intros H. apply cases in H. destruct H as [H|[H|[m [Hm H]]]].
  - assert (X := ad_enext _ (sd_addr _ pSR) e (in_or_app _ _ _ (or_intror H))). assert (Y := nextR). lia.
  - assert (X := ad_enext _ (sd_addr _ pSD) e (in_or_app _ _ _ (or_intror H))). assert (Y := nextD). lia.
  - destruct (sb_below _ _ _ SB0 m Hm) as [B _]. specialize (B e H). assert (Y := fresh_above (mr :: md :: oth) m (or_intror (or_intror Hm))). fold n0 in Y. lia.
Qed.
Lemma pHF f : In f (flat_map facets (R :: D :: oth)) -> (fa_id f < n0)%nat.
Proof.
  intros H. cbn [flat_map] in H. apply in_app_or in H. destruct H as [H|H]; [|apply in_app_or in H; destruct H as [H|H]; [|apply in_flat_map in H; destruct H as [m [Hm H]]]].
  - assert (X := ad_fnext _ (sd_addr _ pSR) f H). assert (Y := nextR). lia.
  - assert (X := ad_fnext _ (sd_addr _ pSD) f H). assert (Y := nextD). lia.
  - destruct (sb_below _ _ _ SB0 m Hm) as [_ B]. specialize (B f H). assert (Y := fresh_above (mr :: md :: oth) m (or_intror (or_intror Hm))). fold n0 in Y. lia.
Qed.
Lemma vertsD t : In t (mh_bdry D) -> In (ed_1 t) (mh_verts D) /\ In (ed_2 t) (mh_verts D).
Proof. intros H. exact (bdry_verts D t pSD (in_or_app _ _ _ (or_intror H))). Qed.
Lemma vertsR t : In t (mh_bdry R) -> In (ed_1 t) (mh_verts R) /\ In (ed_2 t) (mh_verts R).
Proof. intros H. exact (bdry_verts R t pSR (in_or_app _ _ _ (or_intror H))). Qed.
Lemma to_D_opposite e t : In e (mh_bdry R) -> (to_D D e = Some t <-> In t (mh_bdry D) /\ opposite R D e t).
Proof.
  intros He. split.
  - intros H. apply to_D_some in H. destruct H as [Ht E]. split; [exact Ht|]. exact (proj1 (sb_rd _ _ _ pSB e t He Ht) E).
  - intros [Ht O]. apply (sb_rd _ _ _ pSB e t He Ht) in O. destruct (to_D D e) as [t'|] eqn:E; [|destruct (to_D_none D e t E Ht O)].
    apply to_D_some in E. destruct E as [Ht' E']. f_equal. assert (N := sb_ids _ _ _ pSB). apply (nodup_map_inj' ed_id _ t' t N (inD R D oth t' Ht') (inD R D oth t Ht)). congruence.
Qed.
Lemma to_R_opposite t : In t (mh_bdry D) -> (to_R R t = true <-> exists e, In e (mh_bdry R) /\ opposite R D e t).
Proof.
  intros Ht. split.
  - intros H. apply to_R_true in H. destruct H as [e [He E]]. exists e. split; [exact He|]. exact (proj1 (sb_dr _ _ _ pSB e t He Ht) E).
  - intros [e [He O]]. apply (sb_dr _ _ _ pSB e t He Ht) in O. destruct (to_R R t) eqn:E; [reflexivity|]. destruct (to_R_false R t e E He O).
Qed.
Lemma is_interface_spec e : In e (mh_bdry R) -> (is_interface D e = true <-> interface R D e).
Proof.
  intros He. unfold is_interface, interface. destruct (to_D D e) as [t|] eqn:E.
  - apply (to_D_opposite e t He) in E. split; [|reflexivity]. intros _. split; [exact He|]. exists t. exact E.
  - split; [discriminate|]. intros [_ [t [Ht O]]]. assert (X := proj2 (to_D_opposite e t He) (conj Ht O)). congruence.
Qed.

Theorem merge_pair_result :
  ((forall e, In e (mh_bdry R) -> ~ interface R D e) /\ merge_pair (WD mr md oth) = Ok (false, WD R D oth)) \/
  ((exists e, interface R D e) /\ exists M g Rin Rout Din Dout FD ID IE BD,
     merge_pair (WD mr md oth) = Ok (true, WD M D (map (rtm (links (combine Dout BD))) oth)) /\
     merged R D M g Rin Rout Din Dout FD ID IE BD /\ (forall b, In b BD -> (n0 <= ed_id b)%nat)).
Proof.
  assert (SR := pSR). assert (SD := pSD). assert (SB := pSB). assert (CR := sd_conf _ SR). assert (CD := sd_conf _ SD).
  assert (DR : distinct_points R) by exact DR0. assert (DD : distinct_points D) by exact DD0.
  set (r1 := set_next R n0).
  assert (GW1 : grown R n0 r1 []).
  { constructor; [cbn; rewrite app_nil_r; reflexivity|constructor|intros y []|auto|auto|apply Nat.le_refl|intros y []]. }
  destruct (interface_fold R D oth n0 SB pLR pLD pHB pHF r1 [] [] GW1 vertsD (mh_bdry R) (fun _ => None) (mh_prop R) 0%nat (incl_refl _))
    as [nv1 [prop1 [E1 [K1 [_ [K3 [K4 K5]]]]]]].
  rewrite rtm_nil in E1. unfold merge_pair. cbn [w_rec w_don w_oth w_all]. change (w_all (WD mr md oth)) with (mr :: md :: oth). fold R D n0. fold r1.
  match type of E1 with ?l = _ => match goal with |- context [ofold (interface_step ?w) ?a ?b] => change (ofold (interface_step w) a b) with l end end. rewrite E1. cbn [obind Nat.add].
  assert (SHI : forall v x, nv1 v = Some x -> joined D (mh_bdry R) v x).
  { intros v x H. destruct (K1 v x H) as [X|X]; [discriminate|exact X]. }
  assert (VAL : forall v x, nv1 v = Some x -> In v (mh_verts D) /\ In x (mh_verts R) /\ mh_pos R x = mh_pos D v).
  { intros v x H. destruct (SHI v x H) as [e [t [He [Et C]]]]. apply (to_D_opposite e t He) in Et. destruct Et as [Ht [O1 O2]].
    destruct (vertsR e He). destruct (vertsD t Ht). destruct C as [[-> ->]|[-> ->]]; auto. }
  destruct (filter (is_interface D) (mh_bdry R)) as [|e0 l0] eqn:EF.
  { left. cbn [length Nat.eqb]. split; [|reflexivity]. intros e He H. apply (is_interface_spec e He) in H.
    assert (X : In e (filter (is_interface D) (mh_bdry R))) by (apply filter_In; auto). rewrite EF in X. destruct X. }
  right. cbn [length Nat.eqb]. assert (X0 : In e0 (filter (is_interface D) (mh_bdry R))) by (rewrite EF; left; reflexivity).
  rewrite <- EF in *. clear EF l0.
  split; [exists e0; apply filter_In in X0; destruct X0 as [X1 X2]; apply (is_interface_spec e0 X1); exact X2|]. clear X0 e0.
  set (r2 := set_prop r1 prop1).
  destruct (copy_vertices D (mh_verts D) r2 nv1 (ad_verts _ (sd_addr _ SD))) as [r3 [nv [news [E2 [A2 [L2 [P1 [P2 [P3 P4]]]]]]]]].
  rewrite E2. set (g := fun v => match nv v with Some x => x | None => 0%nat end).
  assert (NV : forall v, In v (mh_verts D) -> nv v = Some (g v)).
  { intros v Hv. unfold g. destruct (nv1 v) as [x|] eqn:Ev; [rewrite (P1 v x Ev); reflexivity|]. destruct (P3 v Hv Ev) as [x [-> _]]. reflexivity. }
  destruct (copy_quads nv g (mh_quads D) r3 (cf_quads _ CD)) as [r4 [QD [E4 [A4 [F4 Q4]]]]].
  { intros f v Hf Hv. apply NV. apply (ad_corner _ (sd_addr _ SD) f v); [apply in_or_app; auto|exact Hv]. }
  rewrite E4. cbn [obind].
  destruct (copy_tris nv g (mh_tris D) r4 (cf_tris _ CD)) as [r5 [TD [E5 [A5 [F5 T5]]]]].
  { intros f v Hf Hv. apply NV. apply (ad_corner _ (sd_addr _ SD) f v); [apply in_or_app; auto|exact Hv]. }
  rewrite E5. cbn [obind].
  destruct (copy_intrs nv g (mh_intr D) r5) as [r6 [ID [E6 [A6 F6]]]].
  { intros e He. destruct (bdry_verts D e SD (in_or_app _ _ _ (or_introl He))). split; apply NV; assumption. }
  rewrite E6. cbn [obind].
  assert (A26 : adds r2 r6 news QD TD ID []).
  { assert (X := adds_trans _ _ _ _ _ _ _ _ _ _ _ _ _ A2 A4). assert (Y := adds_trans _ _ _ _ _ _ _ _ _ _ _ _ _ X A5).
    assert (Z := adds_trans _ _ _ _ _ _ _ _ _ _ _ _ _ Y A6). cbn [app] in Z. rewrite !app_nil_r in Z. exact Z. }
  assert (GW6 : grown R n0 r6 []).
  { constructor.
    - rewrite (aq_bdry _ _ _ _ _ _ _ A26). reflexivity.
    - constructor.
    - intros y [].
    - intros f Hf. unfold facets in Hf. rewrite (aq_quads _ _ _ _ _ _ _ A26), (aq_tris _ _ _ _ _ _ _ A26) in Hf. apply in_shuffle in Hf.
      destruct Hf as [Hf|Hf]; [left; exact Hf|right]. apply (aq_fr _ _ _ _ _ _ _ A26) in Hf. exact (proj1 Hf).
    - intros f Hf. unfold facets in *. rewrite (aq_quads _ _ _ _ _ _ _ A26), (aq_tris _ _ _ _ _ _ _ A26). rewrite !in_app_iff in *. cbn [r2 set_prop r1 set_next mh_quads mh_tris]. tauto.
    - exact (aq_next _ _ _ _ _ _ _ A26).
    - intros y []. }
  assert (G0 : exists r7 BD, ofold (copy_bdry nv) (mh_bdry D) (WD r6 D oth) = Ok (WD r7 D (map (rtm (links (combine (filter (fun t => negb (to_R R t)) (mh_bdry D)) BD))) oth)) /\
    adds r6 r7 [] [] [] [] BD /\ grown R n0 r7 BD /\ Forall2 (bcopy g) (filter (fun t => negb (to_R R t)) (mh_bdry D)) BD).
  { destruct (copy_bdrys R D oth n0 SB pLR pHB pHF nv g NV (mh_bdry D) r6 [] [] GW6 (incl_refl _) vertsD) as [r7 [BD X]]. rewrite rtm_nil in X. exists r7, BD. exact X. }
  destruct G0 as [r7 [BD [E7 [A7 [GW7 F7]]]]]. rewrite E7. cbn [obind w_rec w_don w_oth].
  set (Dout := filter (fun t => negb (to_R R t)) (mh_bdry D)) in *. set (Din := filter (to_R R) (mh_bdry D)).
  set (Rin := filter (is_interface D) (mh_bdry R)) in *. set (Rout := filter (fun e => negb (is_interface D e)) (mh_bdry R)).
  set (cps := links (combine Dout BD)) in *.
  assert (GMAP : forall e t, In e (mh_bdry R) -> In t (mh_bdry D) -> opposite R D e t -> g (ed_1 t) = ed_2 e /\ g (ed_2 t) = ed_1 e).
  { intros e t He Ht O. assert (ET := proj2 (to_D_opposite e t He) (conj Ht O)). destruct O as [O1 O2]. destruct (vertsR e He) as [V1 V2].
    assert (J1 : joined D (mh_bdry R) (ed_1 t) (ed_2 e)) by (exists e, t; auto). assert (J2 : joined D (mh_bdry R) (ed_2 t) (ed_1 e)) by (exists e, t; auto).
    apply K3 in J1, J2. unfold g. destruct (nv1 (ed_1 t)) as [x|] eqn:X1; [|contradiction]. destruct (nv1 (ed_2 t)) as [y|] eqn:X2; [|contradiction].
    rewrite (P1 _ _ X1), (P1 _ _ X2). destruct (VAL _ _ X1) as [_ [W1 Z1]]. destruct (VAL _ _ X2) as [_ [W2 Z2]].
    split; apply DR; try assumption; congruence. }
  assert (YT : forall y, In y BD -> exists t, In t (mh_bdry D) /\ to_R R t = false /\ ed_twin y = ed_twin t).
  { intros y Hy. destruct (forall2_in_r _ _ _ y F7 Hy) as [t [Ht [_ [_ [_ [_ Et]]]]]]. apply filter_In in Ht. destruct Ht as [Ht N]. exists t.
    split; [exact Ht|]. split; [|exact Et]. apply negb_true_iff in N. exact N. }
  assert (YN : forall y, In y BD -> ~ In y (mh_bdry R)).
  { intros y Hy Hy'. apply (gw_ge _ _ _ _ GW7) in Hy. assert (X := pHB y (inR R D oth y Hy')). lia. }
  destruct (convert_fold R D oth n0 SB pLR pLD pHB pHF nv g r7 BD cps GW7 NV vertsD) with (es := mh_bdry r7) (a := @nil nat) (b := @nil (nat * nat)) as [ins [E8 FI]].
  { intros e t He Et. apply (to_D_opposite e t He) in Et. destruct Et as [Ht O]. exact (GMAP e t He Ht O). }
  { exact YT. }
  { intros e He. rewrite (gw_bdry _ _ _ _ GW7) in He. apply in_app_or in He. exact He. }
  { intros e _ He. exact (YN e He). }
  rewrite E8. cbn [obind app].
  assert (EI : ins = Rin).
  { rewrite FI, (gw_bdry _ _ _ _ GW7), filter_app. rewrite (filter_none _ BD).
    - rewrite app_nil_r. apply filter_ext_in. intros e He. assert (X : existsb (fun x => Nat.eqb (ed_id x) (ed_id e)) (mh_bdry R) = true) by (apply existsb_exists; exists e; split; [exact He|apply Nat.eqb_refl]).
      rewrite X. apply andb_true_r.
    - intros e He. destruct (existsb _ (mh_bdry R)) eqn:X; [|apply andb_false_r]. apply existsb_exists in X. destruct X as [x [Hx Ex]]. apply Nat.eqb_eq in Ex.
      apply (gw_ge _ _ _ _ GW7) in He. assert (Y := pHB x (inR R D oth x Hx)). lia. }
  clear FI. rewrite EI in *. clear EI E8 ins.
  unfold convert. cbn [fst snd]. set (r8 := set_bdry r7 (remove_edges r7 (map ed_id Rin) (mh_bdry r7))).
  destruct (add_pairs (map (fun e => (ed_1 e, ed_2 e)) Rin) r8) as [IE [A8 F8]].
  set (r9 := fold_left add_intr_pair (map (fun e => (ed_1 e, ed_2 e)) Rin) r8) in *.
  set (M := remark r9).
  assert (A27 : adds r2 r7 news QD TD ID BD).
  { assert (X := adds_trans _ _ _ _ _ _ _ _ _ _ _ _ _ A26 A7). cbn [app] in X. rewrite !app_nil_r in X. exact X. }
  assert (N27 := aq_next _ _ _ _ _ _ _ A27). assert (N89 := aq_next _ _ _ _ _ _ _ A8). change (mh_next r8) with (mh_next r7) in N89. change (mh_next r2) with n0 in N27.
  assert (posR : forall v, In v (mh_verts R) -> (v < n0)%nat) by (intros v Hv; assert (X := ad_vnext _ (sd_addr _ SR) v Hv); assert (Y := nextR); lia).
  assert (PR : forall v, (v < n0)%nat -> mh_pos r7 v = mh_pos R v) by (intros v Hv; apply (aq_pos _ _ _ _ _ _ _ A27 v Hv)).
  assert (PM : forall v, (v < mh_next r7)%nat -> mh_pos M v = mh_pos r7 v) by (intros v Hv; apply (aq_pos _ _ _ _ _ _ _ A8 v Hv)).
  assert (PPM : forall v, (v < mh_next r7)%nat -> mh_prop r9 v = mh_prop r7 v) by (intros v Hv; apply (aq_prop _ _ _ _ _ _ _ A8 v Hv)).
  assert (A37 : adds r3 r7 [] QD TD ID BD).
  { assert (X := adds_trans _ _ _ _ _ _ _ _ _ _ _ _ _ A4 A5). assert (Y := adds_trans _ _ _ _ _ _ _ _ _ _ _ _ _ X A6). assert (Z := adds_trans _ _ _ _ _ _ _ _ _ _ _ _ _ Y A7).
    cbn [app] in Z. rewrite !app_nil_r in Z. exact Z. }
  assert (NEWS : forall x, In x news -> (n0 <= x < mh_next r3)%nat /\ (x < mh_next r7)%nat).
  { intros x Hx. assert (X := aq_vr _ _ _ _ _ _ _ A2 x Hx). assert (Y := aq_next _ _ _ _ _ _ _ A37). change (mh_next r2) with n0 in X. lia. }
  assert (GV : forall v, In v (mh_verts D) -> (exists x, nv1 v = Some x /\ g v = x) \/ (nv1 v = None /\ In (g v) news /\ mh_pos r7 (g v) = mh_pos D v /\ mh_prop r7 (g v) = mh_prop D v)).
  { intros v Hv. destruct (nv1 v) as [x|] eqn:Ev; [left; exists x; split; [reflexivity|unfold g; rewrite (P1 v x Ev); reflexivity]|right].
    split; [reflexivity|]. destruct (P3 v Hv Ev) as [x [X1 [X2 [X3 X4]]]]. assert (EG : g v = x) by (unfold g; rewrite X1; reflexivity). rewrite EG.
    split; [exact X2|]. destruct (NEWS x X2) as [[_ N3] _]. rewrite (aq_pos _ _ _ _ _ _ _ A37 x N3), (aq_prop _ _ _ _ _ _ _ A37 x N3). auto. }
  assert (VM : mh_verts M = mh_verts R ++ news).
  { transitivity (mh_verts r9); [reflexivity|]. rewrite (aq_verts _ _ _ _ _ _ _ A8), app_nil_r. exact (aq_verts _ _ _ _ _ _ _ A27). }
  assert (QM : mh_quads M = mh_quads R ++ QD).
  { transitivity (mh_quads r9); [reflexivity|]. rewrite (aq_quads _ _ _ _ _ _ _ A8), app_nil_r. exact (aq_quads _ _ _ _ _ _ _ A27). }
  assert (TM : mh_tris M = mh_tris R ++ TD).
  { transitivity (mh_tris r9); [reflexivity|]. rewrite (aq_tris _ _ _ _ _ _ _ A8), app_nil_r. exact (aq_tris _ _ _ _ _ _ _ A27). }
  assert (IM : mh_intr M = mh_intr R ++ ID ++ IE).
  { transitivity (mh_intr r9); [reflexivity|]. rewrite (aq_intr _ _ _ _ _ _ _ A8). change (mh_intr r8) with (mh_intr r7). rewrite (aq_intr _ _ _ _ _ _ _ A27), <- app_assoc. reflexivity. }
  assert (BM : mh_bdry M = remove_edges r7 (map ed_id Rin) (mh_bdry R ++ BD)).
  { transitivity (mh_bdry r9); [reflexivity|]. rewrite (aq_bdry _ _ _ _ _ _ _ A8), app_nil_r. unfold r8. cbn [set_bdry mh_bdry]. rewrite (gw_bdry _ _ _ _ GW7). reflexivity. }
  assert (SPR : Permutation (mh_bdry R) (Rin ++ Rout)) by (symmetry; apply filter_split).
  assert (SPD : Permutation (mh_bdry D) (Din ++ Dout)) by (symmetry; apply filter_split).
  assert (BNR : NoDup (map ed_id (mh_bdry R ++ BD))).
  { apply (nodup_ranges ed_id _ _ n0).
    - apply (nodup_ids_app ed_id _ _ (cf_eids _ CR)).
    - exact (gw_ids _ _ _ _ GW7).
    - intros x Hx. exact (pHB x (inR R D oth x Hx)).
    - exact (gw_ge _ _ _ _ GW7). }
  assert (BP : Permutation (mh_bdry M) (Rout ++ BD)).
  { rewrite BM. apply (Permutation_app_inv_l Rin). rewrite <- (remove_edges_perm r7 Rin (mh_bdry R ++ BD) BNR).
    - rewrite app_assoc, <- SPR. reflexivity.
    - unfold Rin. apply NoDup_filter. exact (bdry_nodup R CR).
    - intros x Hx. apply filter_In in Hx. apply in_or_app. left. exact (proj1 Hx).
    - intros x Hx. apply filter_In in Hx. destruct Hx as [Hx _]. destruct (vertsR x Hx) as [V1 V2].
      assert (Y := edge_in_square R x CR (sd_addr _ SR) (sd_fits _ SR) (in_or_app _ _ _ (or_intror Hx))). unfold ed_xy in *. rewrite !PR by (apply posR; assumption). exact Y. }
  assert (AE : Permutation (all_edges M) ((mh_intr R ++ Rout) ++ (ID ++ BD) ++ IE)).
  { unfold all_edges. rewrite IM, BP. rewrite <- !app_assoc. apply Permutation_app_head. rewrite (app_assoc ID IE), (Permutation_app_comm (ID ++ IE)). rewrite <- !app_assoc.
    apply Permutation_app_head. rewrite app_assoc, (Permutation_app_comm BD ID), <- app_assoc. reflexivity. }
  assert (EB : (forall e, In e (ID ++ BD) -> (n0 <= ed_id e < mh_next r7)%nat) /\ (forall e, In e IE -> (mh_next r7 <= ed_id e < mh_next M)%nat)).
  { split; [exact (aq_er _ _ _ _ _ _ _ A27)|]. intros e He. assert (X := aq_er _ _ _ _ _ _ _ A8 e). rewrite app_nil_r in X. exact (X He). }
  destruct EB as [EB1 EB2]. change (mh_next r9) with (mh_next M) in N89.
  assert (RIN : forall e, In e Rin -> In e (mh_bdry R) /\ exists t, In t (mh_bdry D) /\ opposite R D e t).
  { intros e He. apply filter_In in He. destruct He as [He H]. apply (is_interface_spec e He) in H. destruct H as [_ H]. auto. }
  assert (ROUT : forall e t, In e Rout -> In t (mh_bdry D) -> ~ opposite R D e t).
  { intros e t He Ht O. apply filter_In in He. destruct He as [He H]. apply negb_true_iff in H.
    assert (X : is_interface D e = true) by (apply (is_interface_spec e He); split; [exact He|exists t; auto]). congruence. }
  assert (DOUT : forall e t, In t Dout -> In e (mh_bdry R) -> ~ opposite R D e t).
  { intros e t Ht He O. apply filter_In in Ht. destruct Ht as [Ht H]. apply negb_true_iff in H.
    assert (X : to_R R t = true) by (apply (to_R_opposite t Ht); exists e; auto). congruence. }
  assert (SHARED : forall v, In v (mh_verts D) -> nv1 v <> None -> exists e t, In e (mh_bdry R) /\ In t (mh_bdry D) /\ opposite R D e t /\ (v = ed_1 t \/ v = ed_2 t)).
  { intros v Hv H. destruct (nv1 v) as [x|] eqn:Ev; [|contradiction]. destruct (SHI v x Ev) as [e [t [He [Et C]]]]. apply (to_D_opposite e t He) in Et.
    exists e, t. split; [exact He|]. split; [apply Et|]. split; [apply Et|]. destruct C as [[C _]|[C _]]; auto. }
  assert (SHARED' : forall v e t, In e (mh_bdry R) -> In t (mh_bdry D) -> opposite R D e t -> (v = ed_1 t \/ v = ed_2 t) -> nv1 v <> None).
  { intros v e t He Ht O C. assert (ET := proj2 (to_D_opposite e t He) (conj Ht O)). destruct C as [-> | ->].
    - apply (K3 _ (ed_2 e)). exists e, t. auto.
    - apply (K3 _ (ed_1 e)). exists e, t. auto. }
  assert (FM : Permutation (facets M) (facets R ++ (QD ++ TD))) by (unfold facets; rewrite QM, TM; apply shuffle).
  assert (FCOPY : Forall2 (fcopy g (mh_col R)) (facets D) (QD ++ TD)).
  { apply Forall2_app.
    - assert (C3 : mh_col r3 = mh_col R) by (exact (aq_col _ _ _ _ _ _ _ A2)). rewrite C3 in F4. exact F4.
    - assert (C4 : mh_col r4 = mh_col R) by (rewrite (aq_col _ _ _ _ _ _ _ A4); exact (aq_col _ _ _ _ _ _ _ A2)). rewrite C4 in F5. exact F5. }
  assert (GL : glued R D M g Rin Rout Din Dout (QD ++ TD) ID IE BD).
  { constructor.
    - intros v Hv. assert (X := posR v Hv). rewrite PM by lia. apply PR. exact X.
    - intros v Hv. destruct (GV v Hv) as [[x [X1 X2]]|[_ [X2 [X3 _]]]].
      + destruct (VAL v x X1) as [_ [Y2 Y3]]. rewrite X2. assert (Z := posR x Y2). rewrite PM by lia. rewrite PR by exact Z. exact Y3.
      + destruct (NEWS _ X2) as [_ Z]. rewrite PM by exact Z. exact X3.
    - intros x. rewrite VM, in_app_iff. split; intros [H|H]; [auto| |auto|].
      + right. destruct (P4 x H) as [v [Hv [_ E]]]. exists v. split; [exact Hv|]. unfold g. rewrite E. reflexivity.
      + destruct H as [v [Hv E]]. subst x. destruct (GV v Hv) as [[x [X1 X2]]|[_ [X2 _]]]; [left; rewrite X2; apply (VAL v x X1)|right; exact X2].
    - rewrite VM. rewrite <- (map_id (mh_verts R ++ news)). apply (nodup_ranges (fun x => x) _ _ n0); [rewrite map_id; exact (ad_verts _ (sd_addr _ SR))|rewrite map_id; exact (aq_vn _ _ _ _ _ _ _ A2)|exact posR|].
      intros x Hx. destruct (NEWS x Hx) as [[N1 _] _]. exact N1.
    - exact GMAP.
    - intros v Hv H. apply (SHARED v Hv). intros E. destruct (GV v Hv) as [[x [X1 _]]|[_ [X2 _]]]; [congruence|].
      destruct (NEWS _ X2) as [[N1 _] _]. apply posR in H. lia.
    - exact SPR.
    - intros e He. apply (RIN e He).
    - exact ROUT.
    - exact SPD.
    - intros t Ht. apply filter_In in Ht. destruct Ht as [Ht H]. exact (proj1 (to_R_opposite t Ht) H).
    - exact DOUT.
    - exact FM.
    - eapply Forall2_impl'; [|exact FCOPY]. intros f f' [H _]. exact H.
    - intros f Hf. rewrite QM in Hf. apply in_app_or in Hf. destruct Hf as [Hf|Hf]; [exact (cf_quads _ CR f Hf)|exact (Q4 f Hf)].
    - intros f Hf. rewrite TM in Hf. apply in_app_or in Hf. destruct Hf as [Hf|Hf]; [exact (cf_tris _ CR f Hf)|exact (T5 f Hf)].
    - apply (Permutation_NoDup (Permutation_map fa_id (Permutation_sym FM))). apply (nodup_ranges fa_id _ _ n0); [exact (cf_ids _ CR)|exact (aq_fn _ _ _ _ _ _ _ A27)| |].
      + intros f Hf. assert (X := ad_fnext _ (sd_addr _ SR) f Hf). assert (Y := nextR). lia.
      + intros f Hf. exact (proj1 (aq_fr _ _ _ _ _ _ _ A27 f Hf)).
    - rewrite IM. reflexivity.
    - eapply Forall2_impl'; [|exact F6]. intros x y [H1 [H2 _]]. split; assumption.
    - assert (FF := F8). clear - FF. revert FF. generalize IE. induction Rin as [|e l IH]; intros k FF; inversion FF as [|? ? ? ? H1 H2]; subst; constructor; [exact H1|exact (IH _ H2)].
    - exact BP.
    - eapply Forall2_impl'; [|exact F7]. intros x y [H1 [H2 _]]. split; assumption.
    - apply (Permutation_NoDup (Permutation_map ed_id (Permutation_sym AE))).
      assert (RB : forall e, In e (mh_intr R ++ Rout) -> In e (all_edges R)).
      { intros e He. apply in_app_or in He. apply in_or_app. destruct He as [He|He]; [auto|right]. apply filter_In in He. apply He. }
      apply (nodup_ranges ed_id _ _ n0).
      + assert (N := cf_eids _ CR). unfold all_edges in N.
        assert (P : Permutation (mh_intr R ++ mh_bdry R) (Rin ++ mh_intr R ++ Rout)) by (rewrite SPR at 1; apply Permutation_app_swap_app).
        apply (Permutation_NoDup (Permutation_map ed_id P)) in N. rewrite map_app in N. exact (nodup_app_r _ _ N).
      + apply (nodup_ranges ed_id _ _ (mh_next r7)).
        * exact (aq_en _ _ _ _ _ _ _ A27).
        * assert (X := aq_en _ _ _ _ _ _ _ A8). rewrite app_nil_r in X. exact X.
        * intros e He. exact (proj2 (EB1 e He)).
        * intros e He. exact (proj1 (EB2 e He)).
      + intros e He. assert (X := ad_enext _ (sd_addr _ SR) e (RB e He)). assert (Y := nextR). lia.
      + intros e He. apply in_app_or in He. destruct He as [He|He]; [exact (proj1 (EB1 e He))|]. apply EB2 in He. lia.
    - intros v Hv. rewrite VM in Hv. apply in_app_or in Hv. destruct Hv as [Hv|Hv]; [apply posR in Hv; lia|]. destruct (NEWS v Hv). lia.
    - intros f Hf. apply (Permutation_in _ FM) in Hf. apply in_app_or in Hf. destruct Hf as [Hf|Hf].
      + assert (X := ad_fnext _ (sd_addr _ SR) f Hf). assert (Y := nextR). lia.
      + apply (aq_fr _ _ _ _ _ _ _ A27) in Hf. lia.
    - intros e He. apply (Permutation_in _ AE) in He. apply in_app_or in He. destruct He as [He|He].
      + assert (RB : In e (all_edges R)). { apply in_app_or in He. apply in_or_app. destruct He as [He|He]; [auto|right]. apply filter_In in He. apply He. }
        assert (X := ad_enext _ (sd_addr _ SR) e RB). assert (Y := nextR). lia.
      + apply in_app_or in He. destruct He as [He|He]; [apply EB1 in He|apply EB2 in He]; lia.
    - intros v Hv. assert (SC : mh_scale M = mh_scale R) by (transitivity (mh_scale r9); [reflexivity|]; rewrite (aq_scale _ _ _ _ _ _ _ A8); exact (aq_scale _ _ _ _ _ _ _ A27)).
      rewrite SC. rewrite VM in Hv. apply in_app_or in Hv. destruct Hv as [Hv|Hv].
      + assert (X := posR v Hv). rewrite PM by lia. rewrite PR by exact X. exact (sd_fits _ SR v Hv).
      + destruct (P4 v Hv) as [u [Hu [Nu Eu]]]. destruct (NEWS v Hv) as [_ N2]. rewrite PM by exact N2. destruct (GV u Hu) as [[x [X1 _]]|[_ [_ [X3 _]]]]; [congruence|].
        assert (EG : g u = v) by (unfold g; rewrite Eu; reflexivity). rewrite EG in X3. rewrite X3. split; [exact (FI0 u Hu)|exact (proj2 (sd_fits _ SD u Hu))].
    - intros f i Hf. assert (X := ad_fnext _ (sd_addr _ SR) f Hf). assert (Y := nextR).
      transitivity (mh_nbr r9 (fa_id f) i); [reflexivity|]. rewrite (aq_nbr _ _ _ _ _ _ _ A8) by (change (mh_next r8) with (mh_next r7); lia).
      change (mh_nbr r8) with (mh_nbr r7). apply (aq_nbr _ _ _ _ _ _ _ A27). change (mh_next r2) with n0. lia.
    - intros f i Hf. assert (X := aq_fr _ _ _ _ _ _ _ A27 f Hf).
      transitivity (mh_nbr r9 (fa_id f) i); [reflexivity|]. rewrite (aq_nbr _ _ _ _ _ _ _ A8) by (change (mh_next r8) with (mh_next r7); lia).
      exact (aq_none _ _ _ _ _ _ _ A27 f i Hf). }
  assert (MK : forall x, (has_property (mh_prop M x) v_on_boundary = true <-> has_property (mh_prop r9 x) v_on_boundary = true \/ at_boundary M x) /\
                         has_property (mh_prop M x) v_is_fixed = has_property (mh_prop r9 x) v_is_fixed).
  { intros x. exact (remark_prop (mh_bdry r9) (mh_prop r9) x). }
  exists M, g, Rin, Rout, Din, Dout, (QD ++ TD), ID, IE, BD. split; [reflexivity|]. split; [|exact (gw_ge _ _ _ _ GW7)]. constructor.
  - exact GL.
  - exact FCOPY.
  - exact F6.
  - exact F7.
  - intros MR MD x Hx. rewrite (proj1 (MK x)). split; [|auto]. intros [H|H]; [|exact H]. rewrite VM in Hx. apply in_app_or in Hx. destruct Hx as [Hx|Hx].
    + assert (X := posR x Hx). rewrite PPM, (aq_prop _ _ _ _ _ _ _ A27) in H by (change (mh_next r2) with n0 || idtac; lia).
      change (mh_prop r2 x) with (prop1 x) in H.
      assert (NR : ~ rim D (mh_bdry R) x) by (intros RM; destruct (K4 x (or_introl RM)) as [K _]; congruence).
      rewrite (K5 x NR) in H. apply (MR x Hx) in H. destruct H as [e [He C]]. exists e. split; [|exact C]. apply (Permutation_in _ (Permutation_sym BP)). apply in_or_app. left.
      apply filter_In. split; [exact He|]. unfold is_interface. destruct (to_D D e) as [t|] eqn:ET; [|reflexivity]. exfalso. apply NR. exists e, t. auto.
    + destruct (NEWS x Hx) as [_ N2]. destruct (P4 x Hx) as [u [Hu [Nu Eu]]]. assert (EG : g u = x) by (unfold g; rewrite Eu; reflexivity).
      destruct (GV u Hu) as [[y [Y1 _]]|[_ [_ [_ X4]]]]; [congruence|]. rewrite PPM in H by exact N2. rewrite EG in X4. rewrite X4 in H.
      apply (MD u Hu) in H. destruct H as [t [Ht C]]. assert (TD' : In t Dout).
      { apply filter_In. split; [exact Ht|]. apply negb_true_iff. destruct (to_R R t) eqn:ER; [|reflexivity]. exfalso. apply (to_R_opposite t Ht) in ER. destruct ER as [e [He O]].
        apply (SHARED' u e t He Ht O); [destruct C as [C|C]; auto|exact Nu]. }
      destruct (forall2_in_l _ _ _ t F7 TD') as [b [Hb [B1 [B2 _]]]]. exists b. split; [apply (Permutation_in _ (Permutation_sym BP)); apply in_or_app; auto|].
      rewrite B1, B2, <- EG. destruct C as [-> | ->]; auto.
  - intros e He. rewrite !(proj1 (MK _)). split; right; exists e; auto.
  - intros e [He H]. destruct H as [t [Ht O]]. assert (ET := proj2 (to_D_opposite e t He) (conj Ht O)). destruct (vertsR e He) as [V1 V2].
    assert (Z : forall x, In x (mh_verts R) -> rim D (mh_bdry R) x -> has_property (mh_prop M x) v_is_fixed = true).
    { intros x Hx RM. rewrite (proj2 (MK x)). assert (X := posR x Hx). rewrite PPM by lia. rewrite (aq_prop _ _ _ _ _ _ _ A27) by exact X. exact (proj2 (K4 x (or_introl RM))). }
    split; apply Z; try assumption; exists e, t; auto.
  - exists news, (filter (fun v => match nv1 v with None => false | _ => true end) (mh_verts D)). split; [exact VM|]. split; [apply NoDup_filter; exact (ad_verts _ (sd_addr _ SD))|]. split.
    + rewrite L2. clear. induction (mh_verts D) as [|v l IH]; [reflexivity|]. cbn [filter]. destruct (nv1 v); cbn [length]; lia.
    + intros v. rewrite filter_In. split; intros [Hv H]; (split; [exact Hv|]).
      * apply (SHARED v Hv). destruct (nv1 v); [discriminate|discriminate].
      * destruct H as [e [t [He [Ht [O C]]]]]. assert (X := SHARED' v e t He Ht O C). destruct (nv1 v); [reflexivity|contradiction].
  - exists QD. split; [exact QM|symmetry; exact (Forall2_len _ _ _ F4)].
  - exists TD. split; [exact TM|symmetry; exact (Forall2_len _ _ _ F5)].
  - transitivity (mh_area r9); [reflexivity|]. rewrite (aq_area _ _ _ _ _ _ _ A8). exact (aq_area _ _ _ _ _ _ _ A27).
  - transitivity (mh_col r9); [reflexivity|]. rewrite (aq_col _ _ _ _ _ _ _ A8). exact (aq_col _ _ _ _ _ _ _ A27).
  - intros b Hb m Hm. apply (gw_ge _ _ _ _ GW7) in Hb. assert (X := nextR). assert (Y := nextD). destruct Hm as [<-|[<-|[]]]; lia.
Qed.
End Pair.
