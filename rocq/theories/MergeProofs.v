(* Replacing a group of elements by one element whose sides are the outer sides
   of the group: the common core of the cleanup passes and of the
   triangle-to-quad modification. *)
From Coq Require Import Lia Permutation Lqa Setoid Relations.
From Verif Require Import Base GeomModel FacetModel UtilModel AdvanceModel Chain AdvanceProofs MeshModel MeshSpec MeshProofs
  QRefineModel QRefineSpec QRefineConf CleanSpec.

Definition edge_pair (e : medge) : list (nat * nat) := [(ed_1 e, ed_2 e); (ed_2 e, ed_1 e)].

Record merge (m m' : mesh) (olds : list facet) (h : facet) (rest : list facet) (es : list medge) : Prop := {
  mg_pos : mh_pos m' = mh_pos m;
  mg_scale : mh_scale m' = mh_scale m;
  mg_facets : Permutation (facets m) (olds ++ rest);
  mg_facets' : Permutation (facets m') (h :: rest);
  mg_sides : Permutation (flat_map sides olds) (sides h ++ flat_map edge_pair es);
  mg_intr : Permutation (map bare (mh_intr m)) (map bare es ++ map bare (mh_intr m'));
  mg_bdry : map bare (mh_bdry m') = map bare (mh_bdry m);
  mg_fresh : (mh_next m <= fa_id h)%nat;
  mg_corners : NoDup (corners (fa_sh h));
  mg_quads : forall f, In f (mh_quads m') -> exists a b c d, fa_sh f = Quad4 a b c d;
  mg_tris : forall f, In f (mh_tris m') -> exists a b c, fa_sh f = Tri3 a b c
}.

Lemma bare_fields e f : bare e = bare f -> ed_id e = ed_id f /\ ed_1 e = ed_1 f /\ ed_2 e = ed_2 f /\ ed_col e = ed_col f.
Proof. unfold bare. intros H. injection H. auto. Qed.
Lemma bare_in e l l' : map bare l = map bare l' -> In e l -> exists f, In f l' /\ bare f = bare e.
Proof.
  intros E H. apply (in_map bare) in H. rewrite E in H. apply in_map_iff in H. destruct H as [f [Ef Hf]]. exists f. auto.
Qed.
Lemma map_id_bare l : map ed_id l = map ed_id (map bare l).
Proof. rewrite map_map. apply map_ext. reflexivity. Qed.

Section Merge.
Variables m m' : mesh.
Variable olds : list facet.
Variable h : facet.
Variable rest : list facet.
Variable es : list medge.
Hypothesis G : merge m m' olds h rest es.
Hypothesis C : conforming m.
Hypothesis A : addressed m.

Lemma mg_all_sides : Permutation (all_sides m) (flat_map edge_pair es ++ all_sides m').
Proof.
  unfold all_sides. rewrite (Permutation_flat_map sides (mg_facets _ _ _ _ _ _ G)), flat_map_app.
  rewrite (mg_sides _ _ _ _ _ _ G).
  rewrite (Permutation_flat_map sides (mg_facets' _ _ _ _ _ _ G)). cbn [flat_map].
  rewrite <- app_assoc. rewrite Permutation_app_comm, <- app_assoc. apply Permutation_app_head. apply Permutation_app_comm.
Qed.
Lemma mg_side_old p : In p (all_sides m') -> In p (all_sides m).
Proof. intros H. apply (Permutation_in _ (Permutation_sym mg_all_sides)). apply in_or_app. auto. Qed.
Lemma mg_pair_gone p : In p (flat_map edge_pair es) -> ~ In p (all_sides m').
Proof.
  intros H H'. assert (N := Permutation_NoDup mg_all_sides (cf_sides _ C)). exact (NoDup_app_in _ _ p N H H').
Qed.
(* an edge of the result is an edge of m, up to its facet pointers *)
Lemma mg_intr_old e : In e (mh_intr m') -> exists x, In x (mh_intr m) /\ bare x = bare e.
Proof.
  intros H. assert (X : In (bare e) (map bare (mh_intr m))).
  { apply (Permutation_in _ (Permutation_sym (mg_intr _ _ _ _ _ _ G))). apply in_or_app. right. apply in_map. exact H. }
  apply in_map_iff in X. destruct X as [x [E Hx]]. exists x. auto.
Qed.
Lemma mg_bdry_old e : In e (mh_bdry m') -> exists x, In x (mh_bdry m) /\ bare x = bare e.
Proof. intros H. exact (bare_in e _ _ (mg_bdry _ _ _ _ _ _ G) H). Qed.
Lemma mg_old_edge e : In e (all_edges m') -> exists x, In x (all_edges m) /\ bare x = bare e.
Proof.
  unfold all_edges. intros H. apply in_app_or in H. destruct H as [H|H].
  - destruct (mg_intr_old e H) as [x [Hx E]]. exists x. split; [apply in_or_app; auto|exact E].
  - destruct (mg_bdry_old e H) as [x [Hx E]]. exists x. split; [apply in_or_app; auto|exact E].
Qed.
Lemma mg_es e : In e es -> exists x, In x (mh_intr m) /\ bare x = bare e.
Proof.
  intros H. assert (X : In (bare e) (map bare (mh_intr m))).
  { apply (Permutation_in _ (Permutation_sym (mg_intr _ _ _ _ _ _ G))). apply in_or_app. left. apply in_map. exact H. }
  apply in_map_iff in X. destruct X as [x [E Hx]]. exists x. auto.
Qed.
Lemma mg_edge_cases e : In e (all_edges m) -> (exists x, In x es /\ bare x = bare e) \/ (exists x, In x (all_edges m') /\ bare x = bare e).
Proof.
  unfold all_edges. intros H. apply in_app_or in H. destruct H as [H|H].
  - apply (in_map bare) in H. apply (Permutation_in _ (mg_intr _ _ _ _ _ _ G)) in H. apply in_app_or in H.
    destruct H as [H|H]; apply in_map_iff in H; destruct H as [x [E Hx]]; [left|right]; exists x; split; auto. apply in_or_app. auto.
  - right. destruct (bare_in e _ _ (eq_sym (mg_bdry _ _ _ _ _ _ G)) H) as [x [Hx E]]. exists x. split; [apply in_or_app; auto|exact E].
Qed.
Lemma mg_eids : NoDup (map ed_id es ++ map ed_id (all_edges m')).
Proof.
  assert (N := cf_eids _ C). unfold all_edges in *. rewrite !map_app in *.
  rewrite (map_id_bare (mh_intr m)), (map_id_bare (mh_bdry m)) in N.
  rewrite <- (mg_bdry _ _ _ _ _ _ G) in N. rewrite <- map_app in N.
  assert (P : Permutation (map bare (mh_intr m) ++ map bare (mh_bdry m')) ((map bare es ++ map bare (mh_intr m')) ++ map bare (mh_bdry m'))).
  { apply Permutation_app_tail. exact (mg_intr _ _ _ _ _ _ G). }
  assert (N' := Permutation_NoDup (Permutation_map ed_id P) N).
  rewrite !map_app, <- !map_id_bare, <- app_assoc in N'. exact N'.
Qed.
Lemma mg_es_gone e x : In e (all_edges m') -> In x es -> ~ same_pair e x.
Proof.
  intros He Hx P. destruct (mg_old_edge e He) as [e0 [He0 B0]]. destruct (mg_es x Hx) as [x0 [Hx0 B1]].
  assert (E : e0 = x0).
  { apply (cf_single _ C); [exact He0|apply in_or_app; auto|].
    apply bare_fields in B0. apply bare_fields in B1. unfold same_pair in *.
    destruct B0 as [_ [-> [-> _]]], B1 as [_ [-> [-> _]]]. exact P. }
  subst x0. apply bare_fields in B0. apply bare_fields in B1.
  assert (N := mg_eids). apply (NoDup_app_in _ _ (ed_id e) N).
  - replace (ed_id e) with (ed_id x) by (destruct B0, B1; congruence). apply in_map. exact Hx.
  - apply in_map. exact He.
Qed.

Lemma mg_pair e a b : In e (all_edges m') -> ((ed_1 e = a /\ ed_2 e = b) \/ (ed_1 e = b /\ ed_2 e = a)) ->
  ~ In (a, b) (flat_map edge_pair es).
Proof.
  intros He J H. apply in_flat_map in H. destruct H as [x [Hx P]]. apply (mg_es_gone e x He Hx).
  unfold same_pair. cbn [edge_pair In] in P. or_destruct P; try contradiction; apply pair_eq in P; destruct P, J as [[]|[]]; subst; auto.
Qed.

Theorem merge_conforming : conforming m'.
Proof.
  assert (PF := mg_facets _ _ _ _ _ _ G). assert (PF' := mg_facets' _ _ _ _ _ _ G).
  constructor.
  - apply (Permutation_NoDup (Permutation_map fa_id (Permutation_sym PF'))). cbn [map].
    assert (N := Permutation_NoDup (Permutation_map fa_id PF) (cf_ids _ C)). rewrite map_app in N.
    constructor; [|exact (nodup_app_r _ _ N)].
    intros H. apply in_map_iff in H. destruct H as [f [E Hf]].
    assert (L := ad_fnext _ A f). assert (F := mg_fresh _ _ _ _ _ _ G).
    specialize (L (Permutation_in _ (Permutation_sym PF) (in_or_app _ _ _ (or_intror Hf)))). lia.
  - intros f Hf. apply (Permutation_in _ PF') in Hf. destruct Hf as [<-|Hf]; [exact (mg_corners _ _ _ _ _ _ G)|].
    apply (cf_corners _ C). apply (Permutation_in _ (Permutation_sym PF)). apply in_or_app. auto.
  - exact (mg_quads _ _ _ _ _ _ G).
  - exact (mg_tris _ _ _ _ _ _ G).
  - assert (N := Permutation_NoDup mg_all_sides (cf_sides _ C)). exact (nodup_app_r _ _ N).
  - intros e He. destruct (mg_intr_old e He) as [x [Hx B]]. apply bare_fields in B. destruct B as [_ [B1 [B2 _]]].
    destruct (cf_intr _ C x Hx) as [S1 S2]. rewrite B1, B2 in S1, S2.
    assert (He' : In e (all_edges m')) by (apply in_or_app; auto).
    split; [apply (Permutation_in _ mg_all_sides) in S1|apply (Permutation_in _ mg_all_sides) in S2];
      [apply in_app_or in S1; destruct S1 as [S1|S1]|apply in_app_or in S2; destruct S2 as [S2|S2]]; try assumption; exfalso.
    + exact (mg_pair e _ _ He' (or_introl (conj eq_refl eq_refl)) S1).
    + exact (mg_pair e _ _ He' (or_intror (conj eq_refl eq_refl)) S2).
  - intros e He. destruct (mg_bdry_old e He) as [x [Hx B]]. apply bare_fields in B. destruct B as [_ [B1 [B2 _]]].
    destruct (cf_bdry _ C x Hx) as [S1 S2]. rewrite B1, B2 in S1, S2.
    assert (He' : In e (all_edges m')) by (apply in_or_app; auto).
    split; [|intros H; apply S2; exact (mg_side_old _ H)].
    apply (Permutation_in _ mg_all_sides) in S1. apply in_app_or in S1. destruct S1 as [S1|S1]; [|exact S1]. exfalso.
    exact (mg_pair e _ _ He' (or_introl (conj eq_refl eq_refl)) S1).
  - intros a b H. destruct (cf_cover _ C a b (mg_side_old _ H)) as [e [He J]].
    destruct (mg_edge_cases e He) as [[x [Hx B]]|[x [Hx B]]]; apply bare_fields in B; destruct B as [_ [B1 [B2 _]]].
    + exfalso. apply (mg_pair_gone (a, b)); [|exact H]. apply in_flat_map. exists x. split; [exact Hx|].
      unfold edge_pair. rewrite B1, B2. destruct J as [[-> ->]|[-> ->]]; cbn; auto.
    + exists x. split; [exact Hx|]. rewrite B1, B2. exact J.
  - exact (nodup_app_r _ _ mg_eids).
  - intros e f He Hf P. destruct (mg_old_edge e He) as [x [Hx Bx]]. destruct (mg_old_edge f Hf) as [y [Hy By]].
    assert (E : x = y).
    { apply (cf_single _ C); [exact Hx|exact Hy|]. apply bare_fields in Bx. apply bare_fields in By. unfold same_pair in *.
      destruct Bx as [_ [-> [-> _]]], By as [_ [-> [-> _]]]. exact P. }
    subst y. apply (nodup_map_inj' ed_id (all_edges m')); [exact (nodup_app_r _ _ mg_eids)|exact He|exact Hf|].
    apply bare_fields in Bx. apply bare_fields in By. destruct Bx, By. congruence.
Qed.

(* ---------- areas ---------- *)
Definition half_cross (pos : nat -> vec2) (a b : nat) : Q := (1#2) * (vx (pos a) * vy (pos b) - vx (pos b) * vy (pos a)).
Lemma half_cross_antisym pos : antisym (half_cross pos).
Proof. intros a b. unfold half_cross. ring. Qed.
Lemma fa_area_sides pos f : fa_area pos f == esum (half_cross pos) (sides f).
Proof.
  unfold fa_area, sides. destruct (fa_sh f) as [a b c|a b c d]; cbn [corners ring_edges path_edges app esum fold_right map sumQ fst snd];
    unfold tri_area, quad_area, vcross, vsub, half_cross, esum; cbn [vx vy map fold_right sumQ fst snd]; ring.
Qed.
Lemma covered_sides x : covered x == esum (half_cross (mh_pos x)) (all_sides x).
Proof.
  unfold covered, all_sides. induction (facets x) as [|f l IH]; [reflexivity|]. cbn [map flat_map].
  rewrite esum_app, <- IH, <- fa_area_sides. reflexivity.
Qed.
Lemma pairs_zero pos l : esum (half_cross pos) (flat_map edge_pair l) == 0.
Proof.
  induction l as [|e l IH]; [reflexivity|]. cbn [flat_map edge_pair]. rewrite esum_app, IH.
  unfold edge_pair. cbv [esum sumQ map fold_right fst snd half_cross]. ring.
Qed.
Theorem merge_covered : covered m' == covered m.
Proof.
  rewrite !covered_sides, (esum_perm _ _ _ mg_all_sides), esum_app, pairs_zero, (mg_pos _ _ _ _ _ _ G). ring.
Qed.
Lemma merge_area : fa_area (mh_pos m') h == sumQ (map (fa_area (mh_pos m)) olds).
Proof.
  rewrite (mg_pos _ _ _ _ _ _ G), fa_area_sides.
  assert (E : sumQ (map (fa_area (mh_pos m)) olds) == esum (half_cross (mh_pos m)) (flat_map sides olds)).
  { clear. induction olds as [|f l IH]; [reflexivity|]. cbn [map flat_map]. rewrite esum_app, <- IH, <- fa_area_sides. reflexivity. }
  rewrite E, (esum_perm _ _ _ (mg_sides _ _ _ _ _ _ G)), esum_app, pairs_zero. ring.
Qed.
Theorem merge_positive : positive m -> olds <> [] -> positive m'.
Proof.
  intros P NE f Hf. apply (Permutation_in _ (mg_facets' _ _ _ _ _ _ G)) in Hf.
  assert (PO : forall f, In f (olds ++ rest) -> 0 < fa_area (mh_pos m) f).
  { intros x Hx. apply P. apply (Permutation_in _ (Permutation_sym (mg_facets _ _ _ _ _ _ G))). exact Hx. }
  destruct Hf as [<-|Hf].
  - rewrite merge_area. assert (PO' : forall f, In f olds -> 0 < fa_area (mh_pos m) f) by (intros x Hx; apply PO; apply in_or_app; auto).
    clear - PO' NE. destruct olds as [|a l]; [contradiction|]. clear NE.
    assert (X : 0 <= sumQ (map (fa_area (mh_pos m)) l)).
    { assert (Y : forall f, In f l -> 0 < fa_area (mh_pos m) f) by (intros x Hx; apply PO'; right; exact Hx). clear PO'.
      induction l as [|x l IH]; [apply Qle_refl|]. cbn [map]. change (sumQ (?u :: ?v)) with (u + sumQ v).
      assert (0 < fa_area (mh_pos m) x) by (apply Y; left; reflexivity). specialize (IH (fun f Hf => Y f (or_intror Hf))). lra. }
    cbn [map]. change (sumQ (?u :: ?v)) with (u + sumQ v).
    assert (0 < fa_area (mh_pos m) a) by (apply PO'; left; reflexivity). lra.
  - rewrite (mg_pos _ _ _ _ _ _ G). apply PO. apply in_or_app. auto.
Qed.

(* ---------- fans ---------- *)
Lemma facet_dec_in (f : facet) l : In f l \/ ~ In f l.
Proof.
  assert (D : forall a b : facet, {a = b} + {a <> b}).
  { intros [i s c a] [i' s' c' a']. destruct (Nat.eq_dec i i'); [|right; congruence]. destruct (Z.eq_dec c c'); [|right; congruence].
    destruct (Bool.bool_dec a a'); [|right; congruence].
    assert (DS : {s = s'} + {s <> s'}).
    { destruct s as [p q r|p q r t], s' as [p' q' r'|p' q' r' t']; try (right; congruence);
        destruct (Nat.eq_dec p p'); try (right; congruence); destruct (Nat.eq_dec q q'); try (right; congruence);
        destruct (Nat.eq_dec r r'); try (right; congruence); try (left; congruence);
        destruct (Nat.eq_dec t t'); [left; congruence|right; congruence]. }
    destruct DS; [left; congruence|right; congruence]. }
  destruct (in_dec D f l); auto.
Qed.
Lemma mg_old_side p : In p (flat_map edge_pair es) -> In p (flat_map sides olds).
Proof. intros H. apply (Permutation_in _ (Permutation_sym (mg_sides _ _ _ _ _ _ G))). apply in_or_app. auto. Qed.
Lemma mg_h_side p : In p (sides h) -> In p (flat_map sides olds).
Proof. intros H. apply (Permutation_in _ (Permutation_sym (mg_sides _ _ _ _ _ _ G))). apply in_or_app. auto. Qed.
Lemma mg_old_in f : In f olds -> In f (facets m).
Proof. intros H. apply (Permutation_in _ (Permutation_sym (mg_facets _ _ _ _ _ _ G))). apply in_or_app. auto. Qed.
Lemma mg_rest_in f : In f rest -> In f (facets m).
Proof. intros H. apply (Permutation_in _ (Permutation_sym (mg_facets _ _ _ _ _ _ G))). apply in_or_app. auto. Qed.
Lemma side_corner_next f v : In v (corners (fa_sh f)) -> exists b, In (v, b) (sides f).
Proof.
  unfold sides. destruct (fa_sh f) as [a b c|a b c d]; cbn [corners ring_edges path_edges app In]; intros H; or_destruct H; subst; try contradiction; eauto 10.
Qed.
Lemma pairs_sym a b : In (a, b) (flat_map edge_pair es) -> In (b, a) (flat_map edge_pair es).
Proof.
  intros H. apply in_flat_map in H. destruct H as [x [Hx P]]. apply in_flat_map. exists x. split; [exact Hx|].
  cbn [edge_pair In] in *. or_destruct P; try contradiction; apply pair_eq in P; destruct P; subst; auto.
Qed.
Lemma pairs_sides a b : In (a, b) (flat_map sides olds) -> In (a, b) (sides h) \/ In (a, b) (flat_map edge_pair es).
Proof. intros H. apply (Permutation_in _ (mg_sides _ _ _ _ _ _ G)) in H. apply in_app_or in H. exact H. Qed.

(* [moved f x]: f became x *)
Definition moved (f x : facet) : Prop := (In f olds /\ x = h) \/ (In f rest /\ x = f).
Lemma moved_total f : In f (facets m) -> exists x, moved f x.
Proof.
  intros H. apply (Permutation_in _ (mg_facets _ _ _ _ _ _ G)) in H. apply in_app_or in H.
  destruct H; [exists h; left; auto|exists f; right; auto].
Qed.
Lemma olds_rest f : In f olds -> In f rest -> False.
Proof.
  intros H1 H2. assert (N := Permutation_NoDup (Permutation_map fa_id (mg_facets _ _ _ _ _ _ G)) (cf_ids _ C)).
  rewrite map_app in N. apply (NoDup_app_in _ _ (fa_id f) N); apply in_map; assumption.
Qed.
Lemma moved_fun f x y : moved f x -> moved f y -> x = y.
Proof. intros [[H1 ->]|[H1 ->]] [[H2 ->]|[H2 ->]]; try reflexivity; exfalso; eauto using olds_rest. Qed.
Lemma moved_in f x : moved f x -> In x (facets m').
Proof.
  intros H. apply (Permutation_in _ (Permutation_sym (mg_facets' _ _ _ _ _ _ G))).
  destruct H as [[_ ->]|[H ->]]; [left; reflexivity|right; exact H].
Qed.
Lemma moved_step v f g x y : meet_at m v f g -> moved f x -> moved g y -> clos_refl_trans facet (meet_at m' v) x y.
Proof.
  intros [Hf [Hg [a [b [S1 [S2 E]]]]]] Mf Mg.
  destruct (in_dec pair_dec (a, b) (flat_map edge_pair es)) as [IP|NP].
  - (* the shared edge was removed: both belong to the group *)
    assert (O1 : In f olds).
    { assert (X := mg_old_side _ IP). apply in_flat_map in X. destruct X as [o [Ho So]].
      rewrite (side_owner m f o (a, b) C Hf (mg_old_in o Ho) S1 So). exact Ho. }
    assert (O2 : In g olds).
    { assert (X := mg_old_side _ (pairs_sym _ _ IP)). apply in_flat_map in X. destruct X as [o [Ho So]].
      rewrite (side_owner m g o (b, a) C Hg (mg_old_in o Ho) S2 So). exact Ho. }
    assert (x = h) by exact (moved_fun f x h Mf (or_introl (conj O1 eq_refl))).
    assert (y = h) by exact (moved_fun g y h Mg (or_introl (conj O2 eq_refl))). subst. apply rt_refl.
  - apply rt_step. split; [exact (moved_in f x Mf)|]. split; [exact (moved_in g y Mg)|]. exists a, b.
    assert (NP' : ~ In (b, a) (flat_map edge_pair es)) by (intros X; apply NP; apply pairs_sym; exact X).
    split; [|split; [|exact E]].
    + destruct Mf as [[O ->]|[O ->]]; [|exact S1].
      destruct (pairs_sides a b) as [X|X]; [apply in_flat_map; exists f; auto|exact X|contradiction].
    + destruct Mg as [[O ->]|[O ->]]; [|exact S2].
      destruct (pairs_sides b a) as [X|X]; [apply in_flat_map; exists g; auto|exact X|contradiction].
Qed.
Theorem merge_fans : fans m -> fans m'.
Proof.
  intros F v x y Hx Hy Cx Cy.
  assert (B : forall x, In x (facets m') -> In v (corners (fa_sh x)) -> exists f, In f (facets m) /\ In v (corners (fa_sh f)) /\ moved f x).
  { clear x y Hx Hy Cx Cy. intros x Hx Cx. apply (Permutation_in _ (mg_facets' _ _ _ _ _ _ G)) in Hx. destruct Hx as [<-|Hx].
    - destruct (side_corner_next h v Cx) as [b Sb]. apply mg_h_side in Sb. apply in_flat_map in Sb. destruct Sb as [f [Hf Sf]].
      exists f. split; [exact (mg_old_in f Hf)|]. split; [apply (side_corners f v b Sf)|left; auto].
    - exists x. split; [exact (mg_rest_in x Hx)|]. split; [exact Cx|right; auto]. }
  destruct (B x Hx Cx) as [f [Hf [Cf Mf]]]. destruct (B y Hy Cy) as [g [Hg [Cg Mg]]].
  assert (P := F v f g Hf Hg Cf Cg). clear Cf Cg Hx Hy Cx Cy. revert x y Mf Mg Hf Hg.
  induction P as [f g S|f|f g k P1 IH1 P2 IH2]; intros x y Mf Mg Hf Hg.
  - exact (moved_step v f g x y S Mf Mg).
  - rewrite (moved_fun f x y Mf Mg). apply rt_refl.
  - assert (Hk : In g (facets m)).
    { apply clos_rt_rtn1 in P1. destruct P1 as [|g' k' S P1]; [exact Hf|]. destruct S as [_ [S _]]. exact S. }
    destruct (moved_total g Hk) as [z Mz]. eapply rt_trans; [apply (IH1 x z)|apply (IH2 z y)]; assumption.
Qed.

(* ---------- addresses ---------- *)
Lemma merge_addressed : NoDup (mh_verts m') -> (forall v, In v (mh_verts m') -> In v (mh_verts m)) ->
  (forall f v, In f (facets m') -> In v (corners (fa_sh f)) -> In v (mh_verts m')) ->
  (mh_next m <= mh_next m')%nat -> (fa_id h < mh_next m')%nat -> addressed m'.
Proof.
  intros ND SU CO NX IX. constructor.
  - exact ND.
  - exact CO.
  - intros v Hv. assert (X := ad_vnext _ A v (SU v Hv)). lia.
  - intros f Hf. apply (Permutation_in _ (mg_facets' _ _ _ _ _ _ G)) in Hf. destruct Hf as [<-|Hf]; [exact IX|].
    assert (X := ad_fnext _ A f (mg_rest_in f Hf)). lia.
  - intros e He. destruct (mg_old_edge e He) as [x [Hx B]]. apply bare_fields in B. destruct B as [B _].
    assert (X := ad_enext _ A x Hx). lia.
Qed.
Lemma merge_unset : boundary_unset m -> 
  (forall f i, In f rest -> mh_nbr m' (fa_id f) i = mh_nbr m (fa_id f) i) -> (forall i, mh_nbr m' (fa_id h) i = None) ->
  boundary_unset m'.
Proof.
  intros U NR NH f i a b Hf S N. apply (Permutation_in _ (mg_facets' _ _ _ _ _ _ G)) in Hf. destruct Hf as [<-|Hf]; [apply NH|].
  rewrite NR by exact Hf. apply (U f i a b (mg_rest_in f Hf) S). intros H. apply N.
  apply (Permutation_in _ mg_all_sides) in H. apply in_app_or in H. destruct H as [H|H]; [|exact H]. exfalso.
  apply pairs_sym in H. apply (mg_pair_gone _ H). apply all_sides_in. exists f.
  split; [apply (Permutation_in _ (Permutation_sym (mg_facets' _ _ _ _ _ _ G))); right; exact Hf|]. exact (side_at_in f i (a, b) S).
Qed.
End Merge.

(* with fans, two elements meeting along two successive edges surround the vertex
   between them *)
Lemma fan_two m q n v1 v2 v3 : conforming m -> fans m -> In q (facets m) -> In n (facets m) ->
  In (v1, v2) (sides q) -> In (v2, v3) (sides q) -> In (v2, v1) (sides n) -> In (v3, v2) (sides n) ->
  forall f, In f (facets m) -> In v2 (corners (fa_sh f)) -> f = q \/ f = n.
Proof.
  intros C F Hq Hn Q1 Q2 N1 N2 f Hf Cf.
  assert (P := F v2 q f Hq Hf (proj2 (side_corners q _ _ Q1)) Cf).
  assert (ENT : forall x a b, In x (facets m) -> In (a, b) (sides x) -> In (a, v2) (sides x) -> a = v2 \/ b = v2).
  { intros x a b Hx S1 S2. right. assert (ND := cf_corners _ C x Hx). unfold sides in *.
    destruct (fa_sh x) as [p r s|p r s t]; cbn [corners ring_edges path_edges app In] in *.
    - apply nodup3 in ND. destruct ND as [D1 [D2 D3]]. or_destruct S1; try contradiction; or_destruct S2; try contradiction;
        apply pair_eq in S1; apply pair_eq in S2; destruct S1, S2; congruence.
    - apply nodup4 in ND. destruct ND as [D1 [D2 [D3 [D4 [D5 D6]]]]]. or_destruct S1; try contradiction; or_destruct S2; try contradiction;
        apply pair_eq in S1; apply pair_eq in S2; destruct S1, S2; congruence. }
  assert (UI : forall x a b, In x (facets m) -> In (a, v2) (sides x) -> In (b, v2) (sides x) -> a = b).
  { intros x a b Hx S1 S2. assert (ND := cf_corners _ C x Hx). unfold sides in *.
    destruct (fa_sh x) as [p r s|p r s t]; cbn [corners ring_edges path_edges app In] in *.
    - apply nodup3 in ND. destruct ND as [D1 [D2 D3]]. or_destruct S1; try contradiction; or_destruct S2; try contradiction;
        apply pair_eq in S1; apply pair_eq in S2; destruct S1, S2; congruence.
    - apply nodup4 in ND. destruct ND as [D1 [D2 [D3 [D4 [D5 D6]]]]]. or_destruct S1; try contradiction; or_destruct S2; try contradiction;
        apply pair_eq in S1; apply pair_eq in S2; destruct S1, S2; congruence. }
  assert (UO : forall x a b, In x (facets m) -> In (v2, a) (sides x) -> In (v2, b) (sides x) -> a = b).
  { intros x a b Hx S1 S2. assert (ND := cf_corners _ C x Hx). unfold sides in *.
    destruct (fa_sh x) as [p r s|p r s t]; cbn [corners ring_edges path_edges app In] in *.
    - apply nodup3 in ND. destruct ND as [D1 [D2 D3]]. or_destruct S1; try contradiction; or_destruct S2; try contradiction;
        apply pair_eq in S1; apply pair_eq in S2; destruct S1, S2; congruence.
    - apply nodup4 in ND. destruct ND as [D1 [D2 [D3 [D4 [D5 D6]]]]]. or_destruct S1; try contradiction; or_destruct S2; try contradiction;
        apply pair_eq in S1; apply pair_eq in S2; destruct S1, S2; congruence. }
  clear ENT Cf. apply clos_rt_rtn1 in P.
  induction P as [|g k S P IH]; [left; reflexivity|].
  destruct S as [Hg [Hk [a [b [S1 [S2 E]]]]]].
  destruct (IH Hg) as [ -> | -> ].
  - right. destruct E as [E|E]; subst.
    + rewrite (UO q b v3 Hq S1 Q2) in S2. exact (side_owner m k n _ C Hk Hn S2 N2).
    + rewrite (UI q a v1 Hq S1 Q1) in S2. exact (side_owner m k n _ C Hk Hn S2 N1).
  - left. destruct E as [E|E]; subst.
    + rewrite (UO n b v1 Hn S1 N1) in S2. exact (side_owner m k q _ C Hk Hq S2 Q1).
    + rewrite (UI n a v3 Hn S1 N2) in S2. exact (side_owner m k q _ C Hk Hq S2 Q2).
Qed.
