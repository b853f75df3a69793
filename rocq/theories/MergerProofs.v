(* Following twin pointers, and the loops of the merger over the edges. *)
From Coq Require Import Lia Permutation Lqa.
From Verif Require Import Base GeomModel FacetModel UtilModel UtilProofs AdvanceModel Chain AdvanceProofs BdryProofs MeshModel MeshSpec MeshProofs
  QRefineModel QRefineSpec QRefineShape QRefineConf CleanModel CleanSpec MergeProofs CleanProofs T2QProofs MergerModel MergerSpec GlueProofs MergerCopy.

(* twin pointers changed one after the other *)
Definition rp (cps : list (nat * nat)) (e : medge) : medge := fold_left (fun e p => retwin (fst p) (snd p) e) cps e.
Definition rtm (cps : list (nat * nat)) (m : mesh) : mesh := set_bdry m (map (rp cps) (mh_bdry m)).
Lemma retwin_fields i j e : ed_id (retwin i j e) = ed_id e /\ ed_1 (retwin i j e) = ed_1 e /\ ed_2 (retwin i j e) = ed_2 e /\ ed_l (retwin i j e) = ed_l e /\
  ed_col (retwin i j e) = ed_col e /\ ed_prop (retwin i j e) = ed_prop e.
Proof. unfold retwin. destruct (Nat.eqb _ _); repeat split; reflexivity. Qed.
Lemma rp_fields cps : forall e, ed_id (rp cps e) = ed_id e /\ ed_1 (rp cps e) = ed_1 e /\ ed_2 (rp cps e) = ed_2 e /\ ed_l (rp cps e) = ed_l e /\
  ed_col (rp cps e) = ed_col e /\ ed_prop (rp cps e) = ed_prop e.
Proof.
  induction cps as [|p cps IH]; intros e; [repeat split; reflexivity|]. cbn [rp fold_left]. fold (rp cps (retwin (fst p) (snd p) e)).
  destruct (IH (retwin (fst p) (snd p) e)) as [H1 [H2 [H3 [H4 [H5 H6]]]]]. destruct (retwin_fields (fst p) (snd p) e) as [G1 [G2 [G3 [G4 [G5 G6]]]]].
  rewrite H1, H2, H3, H4, H5, H6. auto 10.
Qed.
Lemma retwin_other i j e : ed_id e <> i -> retwin i j e = e.
Proof. intros N. unfold retwin. destruct (Nat.eqb_spec (ed_id e) i); [contradiction|reflexivity]. Qed.
Lemma set_bdry_same m : set_bdry m (mh_bdry m) = m.
Proof. destruct m. reflexivity. Qed.
Lemma retwin_mesh_none i j m : (forall e, In e (mh_bdry m) -> ed_id e <> i) -> retwin_mesh i j m = m.
Proof.
  intros H. unfold retwin_mesh. rewrite <- (set_bdry_same m) at 3. f_equal. rewrite <- (map_id (mh_bdry m)) at 2. apply map_ext_in. intros e He. apply retwin_other. exact (H e He).
Qed.
Lemma retwin_rtm i j cps ms : map (retwin_mesh i j) (map (rtm cps) ms) = map (rtm (cps ++ [(i, j)])) ms.
Proof.
  rewrite map_map. apply map_ext. intros m. unfold retwin_mesh, rtm, set_bdry. cbn [mh_pos mh_prop mh_verts mh_quads mh_tris mh_intr mh_bdry mh_nbr mh_next mh_area mh_col mh_scale].
  f_equal. rewrite map_map. apply map_ext. intros e. unfold rp. rewrite fold_left_app. reflexivity.
Qed.
Lemma rtm_nil ms : map (rtm []) ms = ms.
Proof. rewrite <- (map_id ms) at 2. apply map_ext. intros m. unfold rtm. rewrite <- (set_bdry_same m) at 3. f_equal. rewrite <- (map_id (mh_bdry m)) at 2. reflexivity. Qed.
Lemma flat_rtm cps ms : flat_map mh_bdry (map (rtm cps) ms) = map (rp cps) (flat_map mh_bdry ms).
Proof. induction ms as [|m ms IH]; [reflexivity|]. cbn [map flat_map]. rewrite map_app, IH. reflexivity. Qed.
Lemma owns_in m i : owns m i = true <-> exists f, In f (facets m) /\ fa_id f = i.
Proof. unfold owns. rewrite existsb_exists. split; intros [f [Hf E]]; exists f; (split; [exact Hf|]); apply Nat.eqb_eq; exact E. Qed.

Section World.
Variables R D : mesh.
Variable oth : list mesh.
Variable n0 : nat.
Hypothesis SB : side_by_side R D oth.
Hypothesis LR : forall e, In e (mh_bdry R) -> exists f, In f (facets R) /\ ed_l e = Some (fa_id f).
Hypothesis LD : forall e, In e (mh_bdry D) -> exists f, In f (facets D) /\ ed_l e = Some (fa_id f).
Hypothesis HB : forall e, In e (flat_map mh_bdry (R :: D :: oth)) -> (ed_id e < n0)%nat.
Hypothesis HF : forall f, In f (flat_map facets (R :: D :: oth)) -> (fa_id f < n0)%nat.

Record grown (r : mesh) (ys : list medge) : Prop := {
  gw_bdry : mh_bdry r = mh_bdry R ++ ys;
  gw_ids : NoDup (map ed_id ys);
  gw_ge : forall y, In y ys -> (n0 <= ed_id y)%nat;
  gw_facets : forall f, In f (facets r) -> In f (facets R) \/ (n0 <= fa_id f)%nat;
  gw_keep : forall f, In f (facets R) -> In f (facets r);
  gw_next : (n0 <= mh_next r)%nat;
  gw_lt : forall y, In y ys -> (ed_id y < mh_next r)%nat
}.
Lemma inR e : In e (mh_bdry R) -> In e (flat_map mh_bdry (R :: D :: oth)).
Proof. intros H. cbn [flat_map]. apply in_or_app. auto. Qed.
Lemma inD e : In e (mh_bdry D) -> In e (flat_map mh_bdry (R :: D :: oth)).
Proof. intros H. cbn [flat_map]. apply in_or_app. right. apply in_or_app. auto. Qed.
Lemma inO m e : In m oth -> In e (mh_bdry m) -> In e (flat_map mh_bdry (R :: D :: oth)).
Proof. intros Hm H. cbn [flat_map]. apply in_or_app. right. apply in_or_app. right. apply in_flat_map. eauto. Qed.
Lemma cases e : In e (flat_map mh_bdry (R :: D :: oth)) -> In e (mh_bdry R) \/ In e (mh_bdry D) \/ exists m, In m oth /\ In e (mh_bdry m).
Proof. cbn [flat_map]. intros H. apply in_app_or in H. destruct H as [H|H]; [auto|]. apply in_app_or in H. destruct H as [H|H]; [auto|]. apply in_flat_map in H. auto. Qed.
Lemma fR f : In f (facets R) -> In f (flat_map facets (R :: D :: oth)).
Proof. intros H. cbn [flat_map]. apply in_or_app. auto. Qed.
Lemma fD f : In f (facets D) -> In f (flat_map facets (R :: D :: oth)).
Proof. intros H. cbn [flat_map]. apply in_or_app. right. apply in_or_app. auto. Qed.
Lemma fO m f : In m oth -> In f (facets m) -> In f (flat_map facets (R :: D :: oth)).
Proof. intros Hm H. cbn [flat_map]. apply in_or_app. right. apply in_or_app. right. apply in_flat_map. eauto. Qed.
Lemma apart : (forall x y, In x (facets R) -> In y (facets D) -> fa_id x <> fa_id y) /\
  (forall m x y, In m oth -> In x (facets R) -> In y (facets m) -> fa_id x <> fa_id y) /\
  (forall m x y, In m oth -> In x (facets D) -> In y (facets m) -> fa_id x <> fa_id y).
Proof.
  assert (N := sb_facets _ _ _ SB). cbn [flat_map] in N. destruct (nodup_ids_app fa_id _ _ N) as [_ [N2 A1]]. destruct (nodup_ids_app fa_id _ _ N2) as [_ [_ A2]].
  split; [|split].
  - intros x y Hx Hy. apply A1; [exact Hx|apply in_or_app; auto].
  - intros m x y Hm Hx Hy. apply A1; [exact Hx|apply in_or_app; right; apply in_flat_map; eauto].
  - intros m x y Hm Hx Hy. apply A2; [exact Hx|apply in_flat_map; eauto].
Qed.
Lemma rd_ids e t : In e (mh_bdry R) -> In t (mh_bdry D) -> ed_id e <> ed_id t.
Proof.
  intros He Ht. assert (N := sb_ids _ _ _ SB). cbn [flat_map] in N. destruct (nodup_ids_app ed_id _ _ N) as [_ [_ A1]]. apply A1; [exact He|apply in_or_app; auto].
Qed.
Lemma ro_ids m e t : In e (mh_bdry R) -> In m oth -> In t (mh_bdry m) -> ed_id e <> ed_id t.
Proof.
  intros He Hm Ht. assert (N := sb_ids _ _ _ SB). cbn [flat_map] in N. destruct (nodup_ids_app ed_id _ _ N) as [_ [_ A1]]. apply A1; [exact He|apply in_or_app; right; apply in_flat_map; eauto].
Qed.
Lemma do_ids m e t : In e (mh_bdry D) -> In m oth -> In t (mh_bdry m) -> ed_id e <> ed_id t.
Proof.
  intros He Hm Ht. assert (N := sb_ids _ _ _ SB). cbn [flat_map] in N. destruct (nodup_ids_app ed_id _ _ N) as [_ [N2 _]]. destruct (nodup_ids_app ed_id _ _ N2) as [_ [_ A2]].
  apply A2; [exact He|apply in_flat_map; eauto].
Qed.

Section Grown.
Variable r : mesh.
Variable ys : list medge.
Variable cps : list (nat * nat).
Hypothesis GW : grown r ys.
Let w := WD r D (map (rtm cps) oth).
Lemma all_bdry : flat_map mh_bdry (w_all w) = (mh_bdry R ++ ys) ++ mh_bdry D ++ map (rp cps) (flat_map mh_bdry oth).
Proof. unfold w, w_all. cbn [w_rec w_don w_oth flat_map]. rewrite flat_rtm, (gw_bdry _ _ GW). reflexivity. Qed.
Lemma all_nodup : NoDup (map ed_id (flat_map mh_bdry (w_all w))).
Proof.
  rewrite all_bdry. assert (E : map ed_id ((mh_bdry R ++ ys) ++ mh_bdry D ++ map (rp cps) (flat_map mh_bdry oth)) =
    map ed_id ((mh_bdry R ++ ys) ++ mh_bdry D ++ flat_map mh_bdry oth)).
  { rewrite !map_app. do 2 f_equal. rewrite map_map. apply map_ext. intros e. apply rp_fields. }
  rewrite E. apply (Permutation_NoDup (l := map ed_id ((mh_bdry R ++ mh_bdry D ++ flat_map mh_bdry oth) ++ ys))).
  - apply Permutation_map. rewrite <- !app_assoc. apply Permutation_app_head. rewrite app_assoc. apply Permutation_app_comm.
  - apply (nodup_ranges ed_id _ _ n0); [exact (sb_ids _ _ _ SB)|exact (gw_ids _ _ GW)|exact HB|exact (gw_ge _ _ GW)].
Qed.
Lemma found t : In t (flat_map mh_bdry (w_all w)) -> find_bdry (w_all w) (ed_id t) = Some t.
Proof. intros H. unfold find_bdry. apply find_id; [exact all_nodup|exact H|reflexivity]. Qed.
Lemma left_case m' t l : ed_l t = Some l -> (exists m, In m (w_all w) /\ owns m l = true) -> left_in (w_all w) m' t = Ok (owns m' l).
Proof. intros E [m [Hm O]]. unfold left_in. rewrite E. assert (X : existsb (fun x => owns x l) (w_all w) = true) by (apply existsb_exists; eauto). rewrite X. reflexivity. Qed.
Lemma owns_false m i : (forall f, In f (facets m) -> fa_id f <> i) -> owns m i = false.
Proof. intros H. destruct (owns m i) eqn:E; [|reflexivity]. apply owns_in in E. destruct E as [f [Hf Ef]]. destruct (H f Hf Ef). Qed.
Lemma tw_R e t : In t (mh_bdry R) -> ed_twin e = Some (ed_id t) -> twin_in w r e = Ok (Some t) /\ twin_in w D e = Ok None.
Proof.
  intros Ht E. destruct (LR t Ht) as [f [Hf El]]. unfold twin_in. rewrite E, found by (rewrite all_bdry; apply in_or_app; left; apply in_or_app; auto).
  assert (O : owns r (fa_id f) = true) by (apply owns_in; exists f; split; [exact (gw_keep _ _ GW f Hf)|reflexivity]).
  assert (P : exists m, In m (w_all w) /\ owns m (fa_id f) = true) by (exists r; split; [left; reflexivity|exact O]).
  rewrite !(left_case _ t (fa_id f) El P). cbn [obind]. rewrite O. split; [reflexivity|].
  rewrite owns_false; [reflexivity|]. intros x Hx Ex. exact (proj1 apart f x Hf Hx (eq_sym Ex)).
Qed.
Lemma tw_D e t : In t (mh_bdry D) -> ed_twin e = Some (ed_id t) -> twin_in w r e = Ok None /\ twin_in w D e = Ok (Some t).
Proof.
  intros Ht E. destruct (LD t Ht) as [f [Hf El]]. unfold twin_in. rewrite E, found by (rewrite all_bdry; apply in_or_app; right; apply in_or_app; auto).
  assert (O : owns D (fa_id f) = true) by (apply owns_in; exists f; auto).
  assert (P : exists m, In m (w_all w) /\ owns m (fa_id f) = true) by (exists D; split; [right; left; reflexivity|exact O]).
  rewrite !(left_case _ t (fa_id f) El P). cbn [obind]. rewrite O. split; [|reflexivity].
  rewrite owns_false; [reflexivity|]. intros x Hx Ex. destruct (gw_facets _ _ GW x Hx) as [Hx'|Hx']; [exact (proj1 apart x f Hx' Hf Ex)|].
  assert (Y := HF f (fD f Hf)). lia.
Qed.
Lemma tw_O e m t : In m oth -> In t (mh_bdry m) -> ed_twin e = Some (ed_id t) -> twin_in w r e = Ok None /\ twin_in w D e = Ok None.
Proof.
  intros Hm Ht E. unfold twin_in. rewrite E. destruct (rp_fields cps t) as [F1 [_ [_ [F4 _]]]].
  assert (X : find_bdry (w_all w) (ed_id t) = Some (rp cps t)).
  { rewrite <- F1. apply found. rewrite all_bdry. apply in_or_app. right. apply in_or_app. right. apply in_map. apply in_flat_map. eauto. }
  rewrite X. destruct (ed_l t) as [l|] eqn:El; [|unfold left_in; rewrite F4; split; reflexivity].
  destruct (sb_left _ _ _ SB m t l Hm Ht El) as [f [Hf Ef]]. subst l.
  assert (P : exists m, In m (w_all w) /\ owns m (fa_id f) = true).
  { exists (rtm cps m). split; [right; right; cbn; apply in_map; exact Hm|]. apply owns_in. exists f. split; [exact Hf|reflexivity]. }
  rewrite !(left_case _ (rp cps t) (fa_id f) F4 P). cbn [obind].
  rewrite !owns_false; [split; reflexivity| |].
  - intros x Hx Ex. exact (proj2 (proj2 apart) m x f Hm Hx Hf Ex).
  - intros x Hx Ex. destruct (gw_facets _ _ GW x Hx) as [Hx'|Hx']; [exact (proj1 (proj2 apart) m x f Hm Hx' Hf Ex)|].
    assert (Y := HF f (fO m f Hm Hf)). lia.
Qed.
Lemma tw_none e : ed_twin e = None -> twin_in w r e = Ok None /\ twin_in w D e = Ok None.
Proof. intros E. unfold twin_in. rewrite E. auto. Qed.
End Grown.

(* twins in the other of the two meshes *)
Definition to_D (e : medge) : option medge := match ed_twin e with None => None | Some i => find (fun t => Nat.eqb (ed_id t) i) (mh_bdry D) end.
Definition to_R (t : medge) : bool := match ed_twin t with None => false | Some i => existsb (fun e => Nat.eqb (ed_id e) i) (mh_bdry R) end.
Lemma to_D_some e t : to_D e = Some t -> In t (mh_bdry D) /\ ed_twin e = Some (ed_id t).
Proof. unfold to_D. destruct (ed_twin e) as [i|]; [|discriminate]. intros H. apply find_some in H. destruct H as [H E]. apply Nat.eqb_eq in E. subst i. auto. Qed.
Lemma to_D_none e t : to_D e = None -> In t (mh_bdry D) -> ed_twin e <> Some (ed_id t).
Proof. unfold to_D. intros H Ht E. rewrite E in H. apply (find_none _ _ H) in Ht. rewrite Nat.eqb_refl in Ht. discriminate. Qed.
Lemma to_R_true t : to_R t = true -> exists e, In e (mh_bdry R) /\ ed_twin t = Some (ed_id e).
Proof. unfold to_R. destruct (ed_twin t) as [i|]; [|discriminate]. intros H. apply existsb_exists in H. destruct H as [e [He E]]. apply Nat.eqb_eq in E. subst i. exists e. auto. Qed.
Lemma to_R_false t e : to_R t = false -> In e (mh_bdry R) -> ed_twin t <> Some (ed_id e).
Proof. unfold to_R. intros H He E. rewrite E in H. assert (X : existsb (fun x => Nat.eqb (ed_id x) (ed_id e)) (mh_bdry R) = true) by (apply existsb_exists; exists e; split; [exact He|apply Nat.eqb_refl]). congruence. Qed.

Lemma twin_of_R r ys cps e : grown r ys -> In e (mh_bdry R) -> twin_in (WD r D (map (rtm cps) oth)) D e = Ok (to_D e).
Proof.
  intros GW He. destruct (ed_twin e) as [i|] eqn:E; [|unfold to_D; rewrite E; apply (tw_none r cps e E)].
  destruct (sb_twin _ _ _ SB e i (inR e He) E) as [t [Ht Ei]]. subst i. apply cases in Ht. destruct Ht as [Ht|[Ht|[m [Hm Ht]]]].
  - rewrite (proj2 (tw_R r ys cps GW e t Ht E)). destruct (to_D e) as [t'|] eqn:ED; [|reflexivity]. apply to_D_some in ED. destruct ED as [H1 H2].
    exfalso. apply (rd_ids t t' Ht H1). congruence.
  - rewrite (proj2 (tw_D r ys cps GW e t Ht E)). destruct (to_D e) as [t'|] eqn:ED; [|destruct (to_D_none e t ED Ht E)].
    apply to_D_some in ED. destruct ED as [H1 H2]. do 2 f_equal. assert (N := sb_ids _ _ _ SB). apply (nodup_map_inj' ed_id _ t t' N (inD t Ht) (inD t' H1)). congruence.
  - rewrite (proj2 (tw_O r ys cps GW e m t Hm Ht E)). destruct (to_D e) as [t'|] eqn:ED; [|reflexivity]. apply to_D_some in ED. destruct ED as [H1 H2].
    exfalso. apply (do_ids m t' t H1 Hm Ht). congruence.
Qed.
(* a donor edge *)
Lemma twin_of_D r ys cps t : grown r ys -> In t (mh_bdry D) ->
  (to_R t = true /\ exists e, twin_in (WD r D (map (rtm cps) oth)) r t = Ok (Some e)) \/
  (to_R t = false /\ (ed_twin t = None \/ exists m o, In m oth /\ In o (mh_bdry m) /\ ed_twin t = Some (ed_id o)) /\
   twin_in (WD r D (map (rtm cps) oth)) r t = Ok None).
Proof.
  intros GW Ht. destruct (to_R t) eqn:ET.
  - left. split; [reflexivity|]. destruct (to_R_true t ET) as [e [He E]]. exists e. exact (proj1 (tw_R r ys cps GW t e He E)).
  - right. split; [reflexivity|]. destruct (ed_twin t) as [i|] eqn:E; [|split; [auto|apply (tw_none r cps t E)]].
    destruct (sb_twin _ _ _ SB t i (inD t Ht) E) as [o [Ho Ei]]. subst i. apply cases in Ho. destruct Ho as [Ho|[Ho|[m [Hm Ho]]]].
    + destruct (to_R_false t o ET Ho E).
    + destruct (sb_dd _ _ _ SB t o Ht Ho E).
    + split; [right; exists m, o; auto|]. exact (proj1 (tw_O r ys cps GW t m o Hm Ho E)).
Qed.

(* copy_donor_boundary_edges *)
Definition links (tbs : list (medge * medge)) : list (nat * nat) :=
  flat_map (fun tb => match ed_twin (fst tb) with Some i => [(i, ed_id (snd tb))] | None => [] end) tbs.
Lemma grown_bdry r ys a b col pr tw : grown r ys ->
  grown (add_bdry r a b col pr tw) (ys ++ [ED (mh_next r) a b col pr None None tw]).
Proof.
  intros GW. constructor; cbn [add_bdry mh_bdry mh_next].
  - rewrite (gw_bdry _ _ GW), app_assoc. reflexivity.
  - rewrite map_app. cbn [map]. apply NoDup_app_snoc; [exact (gw_ids _ _ GW)|]. cbn [ed_id]. intros H. apply in_map_iff in H. destruct H as [y [E Hy]]. apply (gw_lt _ _ GW) in Hy. lia.
  - intros y Hy. apply in_app_or in Hy. destruct Hy as [Hy|[<-|[]]]; [exact (gw_ge _ _ GW y Hy)|exact (gw_next _ _ GW)].
  - exact (gw_facets _ _ GW).
  - exact (gw_keep _ _ GW).
  - assert (X := gw_next _ _ GW). lia.
  - intros y Hy. apply in_app_or in Hy. destruct Hy as [Hy|[<-|[]]]; [apply (gw_lt _ _ GW) in Hy; lia|cbn; lia].
Qed.
Lemma copy_bdrys nv g : (forall v, In v (mh_verts D) -> nv v = Some (g v)) ->
  forall ts r ys cps, grown r ys -> incl ts (mh_bdry D) -> (forall t, In t ts -> In (ed_1 t) (mh_verts D) /\ In (ed_2 t) (mh_verts D)) ->
  exists r' bs, ofold (copy_bdry nv) ts (WD r D (map (rtm cps) oth)) =
      Ok (WD r' D (map (rtm (cps ++ links (combine (filter (fun t => negb (to_R t)) ts) bs))) oth)) /\
    adds r r' [] [] [] [] bs /\ grown r' (ys ++ bs) /\ Forall2 (bcopy g) (filter (fun t => negb (to_R t)) ts) bs.
Proof.
  intros NV. induction ts as [|t ts IH]; intros r ys cps GW I V.
  - exists r, []. cbn. rewrite !app_nil_r. split; [reflexivity|]. split; [apply adds_refl|]. split; [exact GW|constructor].
  - assert (I' : incl ts (mh_bdry D)) by (intros x Hx; apply I; right; exact Hx).
    assert (V' : forall x, In x ts -> In (ed_1 x) (mh_verts D) /\ In (ed_2 x) (mh_verts D)) by (intros x Hx; apply V; right; exact Hx).
    cbn [ofold filter]. unfold copy_bdry at 1. cbn [w_rec w_don w_oth].
    destruct (twin_of_D r ys cps t GW (I t (or_introl eq_refl))) as [[ET [e Ee]]|[ET [C Ee]]]; rewrite Ee, ET; cbn [obind negb].
    + destruct (IH r ys cps GW I' V') as [r' [bs H]]. exists r', bs. exact H.
    + destruct (V t (or_introl eq_refl)) as [V1 V2]. unfold vget. rewrite (NV _ V1), (NV _ V2). cbn [obind].
      set (y := ED (mh_next r) (g (ed_1 t)) (g (ed_2 t)) (ed_col t) (ed_prop t) None None (ed_twin t)).
      set (r1 := add_bdry r (g (ed_1 t)) (g (ed_2 t)) (ed_col t) (ed_prop t) (ed_twin t)).
      assert (GW1 : grown r1 (ys ++ [y])) by (apply grown_bdry; exact GW).
      assert (A1 : adds r r1 [] [] [] [] [y]) by (apply adds_bdry).
      assert (LNK : forall L, links ((t, y) :: L) = match ed_twin t with Some i => [(i, mh_next r)] | None => [] end ++ links L) by (intros; unfold links; cbn [flat_map fst snd]; destruct (ed_twin t); reflexivity).
      destruct (ed_twin t) as [i|] eqn:Et.
      * destruct C as [C|[m [o [Hm [Ho Eo]]]]]; [discriminate|]. injection Eo as ->.
        rewrite (retwin_mesh_none _ _ r1), (retwin_mesh_none _ _ D), retwin_rtm.
        { destruct (IH r1 (ys ++ [y]) (cps ++ [(ed_id o, mh_next r)]) GW1 I' V') as [r' [bs [E [A [GW' F]]]]].
          exists r', (y :: bs). split; [|split; [|split]].
          - cbn [obind]. rewrite E. cbn [combine]. rewrite LNK, <- app_assoc. reflexivity.
          - exact (adds_trans _ _ _ _ _ _ _ _ _ _ _ _ _ A1 A).
          - rewrite <- app_assoc in GW'. exact GW'.
          - constructor; [repeat split; try reflexivity; cbn; congruence|exact F]. }
        { intros x Hx Ex. exact (do_ids m x o Hx Hm Ho Ex). }
        { intros x Hx Ex. rewrite (gw_bdry _ _ GW1) in Hx. apply in_app_or in Hx. destruct Hx as [Hx|Hx]; [exact (ro_ids m x o Hx Hm Ho Ex)|].
          apply (gw_ge _ _ GW1) in Hx. assert (B := HB o (inO m o Hm Ho)). lia. }
      * destruct (IH r1 (ys ++ [y]) cps GW1 I' V') as [r' [bs [E [A [GW' F]]]]]. exists r', (y :: bs). split; [|split; [|split]].
        { cbn [obind]. rewrite E. cbn [combine]. rewrite LNK. reflexivity. }
        { exact (adds_trans _ _ _ _ _ _ _ _ _ _ _ _ _ A1 A). }
        { rewrite <- app_assoc in GW'. exact GW'. }
        { constructor; [repeat split; try reflexivity; cbn; congruence|exact F]. }
Qed.

(* collect_interface_boundary_vertices *)
Definition rim (es : list medge) (x : nat) : Prop := exists e t, In e es /\ to_D e = Some t /\ (ed_1 e = x \/ ed_2 e = x).
Definition joined (es : list medge) (v x : nat) : Prop :=
  exists e t, In e es /\ to_D e = Some t /\ ((v = ed_2 t /\ x = ed_1 e) \/ (v = ed_1 t /\ x = ed_2 e)).
Definition is_interface (e : medge) : bool := match to_D e with Some _ => true | None => false end.
Lemma mark_spec prop v x : (x = v -> has_property (mark prop v x) v_on_boundary = false /\ has_property (mark prop v x) v_is_fixed = true) /\
  (x <> v -> mark prop v x = prop x).
Proof.
  unfold mark. split; intros H.
  - subst v. rewrite Nat.eqb_refl. apply interface_mark_spec.
  - destruct (Nat.eqb_spec x v); [contradiction|reflexivity].
Qed.
Definition bare_prop (p : N) : Prop := has_property p v_on_boundary = false /\ has_property p v_is_fixed = true.
Lemma mark_bare prop v x : bare_prop (prop x) \/ x = v -> bare_prop (mark prop v x).
Proof. destruct (mark_spec prop v x) as [M1 M2]. intros H. destruct (Nat.eq_dec x v) as [E|E]; [exact (M1 E)|]. rewrite (M2 E). destruct H as [H|H]; [exact H|contradiction]. Qed.
Lemma interface_fold r ys cps : grown r ys -> (forall t, In t (mh_bdry D) -> In (ed_1 t) (mh_verts D) /\ In (ed_2 t) (mh_verts D)) ->
  forall es nv prop n, incl es (mh_bdry R) -> exists nv' prop',
  ofold (interface_step (WD r D (map (rtm cps) oth))) es (nv, prop, n) = Ok (nv', prop', (n + length (filter is_interface es))%nat) /\
  (forall v x, nv' v = Some x -> nv v = Some x \/ joined es v x) /\
  (forall v, nv v <> None -> nv' v <> None) /\
  (forall v x, joined es v x -> nv' v <> None) /\
  (forall x, rim es x \/ bare_prop (prop x) -> bare_prop (prop' x)) /\
  (forall x, ~ rim es x -> prop' x = prop x).
Proof.
  intros GW V es. induction es as [|e es IH]; intros nv prop n I.
  - exists nv, prop. cbn. rewrite Nat.add_0_r. split; [reflexivity|]. split; [auto|]. split; [auto|]. split; [intros v x [e [t [[] _]]]|]. split; [intros x [[e [t [[] _]]]|H]; exact H|auto].
  - assert (I' : incl es (mh_bdry R)) by (intros x Hx; apply I; right; exact Hx). cbn [ofold]. unfold interface_step at 1.
    cbn [w_don]. rewrite (twin_of_R r ys cps e GW (I e (or_introl eq_refl))). cbn [obind filter]. unfold is_interface at 1. destruct (to_D e) as [t|] eqn:ET.
    + destruct (to_D_some e t ET) as [Ht _]. destruct (V t Ht) as [V1 V2].
      assert (X : in_verts D (ed_1 t) && in_verts D (ed_2 t) = true).
      { unfold in_verts. rewrite andb_true_iff, !existsb_exists. split; [exists (ed_1 t)|exists (ed_2 t)]; (split; [assumption|apply Nat.eqb_refl]). }
      rewrite X. cbn [obind]. destruct (IH (vset (vset nv (ed_2 t) (ed_1 e)) (ed_1 t) (ed_2 e)) (mark (mark prop (ed_2 e)) (ed_1 e)) (S n) I') as [nv' [prop' [E [K1 [K2 [K3 [K4 K5]]]]]]].
      exists nv', prop'. split; [rewrite E; cbn [length]; do 2 f_equal; lia|]. split; [|split; [|split; [|split]]].
      * intros v x H. destruct (K1 v x H) as [K|[e' [t' [H1 H2]]]]; [|right; exists e', t'; split; [right; exact H1|exact H2]].
        unfold vset in K. destruct (Nat.eqb_spec v (ed_1 t)) as [->|N1].
        { right. exists e, t. split; [left; reflexivity|]. split; [exact ET|]. right. split; congruence. }
        destruct (Nat.eqb_spec v (ed_2 t)) as [->|N2]; [|left; exact K]. right. exists e, t. split; [left; reflexivity|]. split; [exact ET|]. left. split; congruence.
      * intros v H. apply K2. unfold vset. destruct (Nat.eqb v (ed_1 t)); [discriminate|]. destruct (Nat.eqb v (ed_2 t)); [discriminate|exact H].
      * intros v x [e' [t' [[<-|H1] [H2 H3]]]]; [|apply (K3 v x); exists e', t'; auto].
        rewrite ET in H2. injection H2 as <-. apply K2. unfold vset. destruct (Nat.eqb_spec v (ed_1 t)); [discriminate|]. destruct (Nat.eqb_spec v (ed_2 t)); [discriminate|].
        destruct H3 as [[H3 _]|[H3 _]]; contradiction.
      * intros x H. apply K4. destruct (Nat.eq_dec x (ed_1 e)) as [E1|E1]; [right; apply mark_bare; right; exact E1|].
        destruct (Nat.eq_dec x (ed_2 e)) as [E2|E2]; [right; apply mark_bare; left; apply mark_bare; right; exact E2|].
        destruct H as [[e' [t' [[<-|H1] [H2 H3]]]]|H].
        { destruct H3 as [H3|H3]; congruence. }
        { left. exists e', t'. auto. }
        { right. apply mark_bare. left. apply mark_bare. left. exact H. }
      * intros x H. rewrite K5 by (intros [e' [t' [H1 H2]]]; apply H; exists e', t'; split; [right; exact H1|exact H2]).
        assert (N1 : x <> ed_1 e) by (intros ->; apply H; exists e, t; cbn; auto). assert (N2 : x <> ed_2 e) by (intros ->; apply H; exists e, t; cbn; auto).
        rewrite (proj2 (mark_spec _ _ _) N1). apply (proj2 (mark_spec _ _ _) N2).
    + destruct (IH nv prop n I') as [nv' [prop' [E [K1 [K2 [K3 [K4 K5]]]]]]]. exists nv', prop'. split; [exact E|].
      assert (SK : forall e' t', In e' (e :: es) -> to_D e' = Some t' -> In e' es) by (intros e' t' [<-|H] H2; [congruence|exact H]).
      split; [|split; [exact K2|split; [|split]]].
      * intros v x H. destruct (K1 v x H) as [K|[e' [t' [H1 H2]]]]; [auto|right; exists e', t'; split; [right; exact H1|exact H2]].
      * intros v x [e' [t' [H1 [H2 H3]]]]. apply (K3 v x). exists e', t'. split; [exact (SK e' t' H1 H2)|auto].
      * intros x H. apply K4. destruct H as [[e' [t' [H1 [H2 H3]]]]|H]; [left|right; exact H]. exists e', t'. split; [exact (SK e' t' H1 H2)|auto].
      * intros x H. apply K5. intros [e' [t' [H1 H2]]]. apply H. exists e', t'. split; [right; exact H1|exact H2].
Qed.

(* convert_boundary_interface_edges *)
Lemma convert_fold nv g r ys cps : grown r ys -> (forall v, In v (mh_verts D) -> nv v = Some (g v)) ->
  (forall t, In t (mh_bdry D) -> In (ed_1 t) (mh_verts D) /\ In (ed_2 t) (mh_verts D)) ->
  (forall e t, In e (mh_bdry R) -> to_D e = Some t -> g (ed_1 t) = ed_2 e /\ g (ed_2 t) = ed_1 e) ->
  (forall y, In y ys -> exists t, In t (mh_bdry D) /\ to_R t = false /\ ed_twin y = ed_twin t) ->
  forall es a b, (forall e, In e es -> In e (mh_bdry R) \/ In e ys) -> 
  (forall e, In e es -> In e ys -> ~ In e (mh_bdry R)) ->
  exists ins, ofold (convert_step nv (WD r D (map (rtm cps) oth))) es (a, b) = Ok (a ++ map ed_id ins, b ++ map (fun e => (ed_1 e, ed_2 e)) ins) /\
    ins = filter (fun e => is_interface e && existsb (fun x => Nat.eqb (ed_id x) (ed_id e)) (mh_bdry R)) es.
Proof.
  intros GW NV V GM YT es. induction es as [|e es IH]; intros a b I X.
  - exists []. cbn. rewrite !app_nil_r. auto.
  - assert (I' : forall x, In x es -> In x (mh_bdry R) \/ In x ys) by (intros x Hx; apply I; right; exact Hx).
    assert (X' : forall x, In x es -> In x ys -> ~ In x (mh_bdry R)) by (intros x Hx; apply X; right; exact Hx).
    cbn [ofold filter]. unfold convert_step at 1. cbn [w_don fst snd]. destruct (I e (or_introl eq_refl)) as [He|He].
    + rewrite (twin_of_R r ys cps e GW He). cbn [obind].
      assert (EX : existsb (fun x => Nat.eqb (ed_id x) (ed_id e)) (mh_bdry R) = true) by (apply existsb_exists; exists e; split; [exact He|apply Nat.eqb_refl]).
      unfold is_interface at 1. rewrite EX. destruct (to_D e) as [t|] eqn:ET; cbn [andb].
      * destruct (to_D_some e t ET) as [Ht _]. destruct (V t Ht) as [V1 V2]. unfold vget. rewrite (NV _ V1), (NV _ V2). cbn [obind].
        destruct (GM e t He ET) as [G1 G2]. rewrite G1, G2. destruct (IH (a ++ [ed_id e]) (b ++ [(ed_1 e, ed_2 e)]) I' X') as [ins [E F]].
        exists (e :: ins). split; [rewrite E, <- !app_assoc; reflexivity|rewrite F; reflexivity].
      * apply IH; assumption.
    + destruct (YT e He) as [t [Ht [ER Et]]].
      assert (TN : twin_in (WD r D (map (rtm cps) oth)) D e = Ok None).
      { destruct (twin_of_D r ys cps t GW Ht) as [[Y _]|[_ [C _]]]; [congruence|]. rewrite <- Et in C. destruct C as [C|[m [o [Hm [Ho Eo]]]]].
        - apply (tw_none r cps e C).
        - apply (tw_O r ys cps GW e m o Hm Ho Eo). }
      rewrite TN. cbn [obind].
      assert (EX : existsb (fun x => Nat.eqb (ed_id x) (ed_id e)) (mh_bdry R) = false).
      { destruct (existsb _ (mh_bdry R)) eqn:EE; [|reflexivity]. apply existsb_exists in EE. destruct EE as [x [Hx Ex]]. apply Nat.eqb_eq in Ex.
        apply (gw_ge _ _ GW) in He. assert (Y := HB x (inR x Hx)). lia. }
      rewrite EX, andb_false_r. apply IH; assumption.
Qed.
End World.
