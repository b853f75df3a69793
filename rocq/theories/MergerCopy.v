(* Copying the objects of one mesh into another. *)
From Coq Require Import Lia Permutation Lqa.
From Verif Require Import Base GeomModel FacetModel UtilModel UtilProofs AdvanceModel Chain AdvanceProofs BdryProofs MeshModel MeshSpec MeshProofs
  QRefineModel QRefineSpec QRefineShape QRefineConf CleanModel CleanSpec MergeProofs CleanProofs T2QProofs MergerModel MergerSpec GlueProofs.

(* m' is m with further objects at fresh addresses *)
Record adds (m m' : mesh) (vs : list nat) (qs ts : list facet) (is bs : list medge) : Prop := {
  aq_pos : forall x, (x < mh_next m)%nat -> mh_pos m' x = mh_pos m x;
  aq_prop : forall x, (x < mh_next m)%nat -> mh_prop m' x = mh_prop m x;
  aq_verts : mh_verts m' = mh_verts m ++ vs;
  aq_quads : mh_quads m' = mh_quads m ++ qs;
  aq_tris : mh_tris m' = mh_tris m ++ ts;
  aq_intr : mh_intr m' = mh_intr m ++ is;
  aq_bdry : mh_bdry m' = mh_bdry m ++ bs;
  aq_nbr : forall f i, (f < mh_next m)%nat -> mh_nbr m' f i = mh_nbr m f i;
  aq_none : forall f i, In f (qs ++ ts) -> mh_nbr m' (fa_id f) i = None;
  aq_next : (mh_next m <= mh_next m')%nat;
  aq_area : mh_area m' = mh_area m;
  aq_col : mh_col m' = mh_col m;
  aq_scale : mh_scale m' = mh_scale m;
  aq_vr : forall v, In v vs -> (mh_next m <= v < mh_next m')%nat;
  aq_fr : forall f, In f (qs ++ ts) -> (mh_next m <= fa_id f < mh_next m')%nat;
  aq_er : forall e, In e (is ++ bs) -> (mh_next m <= ed_id e < mh_next m')%nat;
  aq_vn : NoDup vs;
  aq_fn : NoDup (map fa_id (qs ++ ts));
  aq_en : NoDup (map ed_id (is ++ bs))
}.
Lemma adds_refl m : adds m m [] [] [] [] [].
Proof. constructor; cbn [app map]; try reflexivity; try (rewrite app_nil_r; reflexivity); try (intros ? []; fail); try (intros ? ? []; fail); try constructor; auto. Qed.
Lemma shuffle {A} (a b c d : list A) : Permutation ((a ++ b) ++ (c ++ d)) ((a ++ c) ++ (b ++ d)).
Proof. rewrite <- !app_assoc. apply Permutation_app_head. apply Permutation_app_swap_app. Qed.
Lemma nodup_ranges {A} (h : A -> nat) (l l' : list A) k : NoDup (map h l) -> NoDup (map h l') ->
  (forall x, In x l -> (h x < k)%nat) -> (forall x, In x l' -> (k <= h x)%nat) -> NoDup (map h (l ++ l')).
Proof.
  intros N N' L U. rewrite map_app. apply nodup_app; [exact N|exact N'|]. intros i Hi Hi'. apply in_map_iff in Hi, Hi'.
  destruct Hi as [x [E Hx]], Hi' as [y [E' Hy]]. specialize (L x Hx). specialize (U y Hy). lia.
Qed.
Lemma in_shuffle {A} (x : A) a b c d : In x ((a ++ b) ++ (c ++ d)) -> In x (a ++ c) \/ In x (b ++ d).
Proof. intros H. apply (Permutation_in _ (shuffle a b c d)) in H. apply in_app_or in H. exact H. Qed.
Lemma adds_trans m m1 m2 vs qs ts is bs vs' qs' ts' is' bs' : adds m m1 vs qs ts is bs -> adds m1 m2 vs' qs' ts' is' bs' ->
  adds m m2 (vs ++ vs') (qs ++ qs') (ts ++ ts') (is ++ is') (bs ++ bs').
Proof.
  intros A B. assert (N1 := aq_next _ _ _ _ _ _ _ A). assert (N2 := aq_next _ _ _ _ _ _ _ B). constructor.
  - intros x Hx. rewrite (aq_pos _ _ _ _ _ _ _ B) by lia. apply (aq_pos _ _ _ _ _ _ _ A). exact Hx.
  - intros x Hx. rewrite (aq_prop _ _ _ _ _ _ _ B) by lia. apply (aq_prop _ _ _ _ _ _ _ A). exact Hx.
  - rewrite (aq_verts _ _ _ _ _ _ _ B), (aq_verts _ _ _ _ _ _ _ A), app_assoc. reflexivity.
  - rewrite (aq_quads _ _ _ _ _ _ _ B), (aq_quads _ _ _ _ _ _ _ A), app_assoc. reflexivity.
  - rewrite (aq_tris _ _ _ _ _ _ _ B), (aq_tris _ _ _ _ _ _ _ A), app_assoc. reflexivity.
  - rewrite (aq_intr _ _ _ _ _ _ _ B), (aq_intr _ _ _ _ _ _ _ A), app_assoc. reflexivity.
  - rewrite (aq_bdry _ _ _ _ _ _ _ B), (aq_bdry _ _ _ _ _ _ _ A), app_assoc. reflexivity.
  - intros f i Hf. rewrite (aq_nbr _ _ _ _ _ _ _ B) by lia. apply (aq_nbr _ _ _ _ _ _ _ A). exact Hf.
  - intros f i Hf. apply in_shuffle in Hf. destruct Hf as [Hf|Hf]; [|exact (aq_none _ _ _ _ _ _ _ B f i Hf)].
    assert (X := aq_fr _ _ _ _ _ _ _ A f Hf). rewrite (aq_nbr _ _ _ _ _ _ _ B) by lia. exact (aq_none _ _ _ _ _ _ _ A f i Hf).
  - lia.
  - rewrite (aq_area _ _ _ _ _ _ _ B). apply (aq_area _ _ _ _ _ _ _ A).
  - rewrite (aq_col _ _ _ _ _ _ _ B). apply (aq_col _ _ _ _ _ _ _ A).
  - rewrite (aq_scale _ _ _ _ _ _ _ B). apply (aq_scale _ _ _ _ _ _ _ A).
  - intros v Hv. apply in_app_or in Hv. destruct Hv as [Hv|Hv]; [apply (aq_vr _ _ _ _ _ _ _ A) in Hv|apply (aq_vr _ _ _ _ _ _ _ B) in Hv]; lia.
  - intros v Hv. apply in_shuffle in Hv. destruct Hv as [Hv|Hv]; [apply (aq_fr _ _ _ _ _ _ _ A) in Hv|apply (aq_fr _ _ _ _ _ _ _ B) in Hv]; lia.
  - intros v Hv. apply in_shuffle in Hv. destruct Hv as [Hv|Hv]; [apply (aq_er _ _ _ _ _ _ _ A) in Hv|apply (aq_er _ _ _ _ _ _ _ B) in Hv]; lia.
  - rewrite <- (map_id (vs ++ vs')). apply (nodup_ranges (fun x => x) vs vs' (mh_next m1)).
    + rewrite map_id. exact (aq_vn _ _ _ _ _ _ _ A).
    + rewrite map_id. exact (aq_vn _ _ _ _ _ _ _ B).
    + intros v Hv. apply (aq_vr _ _ _ _ _ _ _ A) in Hv. lia.
    + intros v Hv. apply (aq_vr _ _ _ _ _ _ _ B) in Hv. lia.
  - apply (Permutation_NoDup (Permutation_map fa_id (Permutation_sym (shuffle qs qs' ts ts')))).
    apply (nodup_ranges fa_id _ _ (mh_next m1)); [exact (aq_fn _ _ _ _ _ _ _ A)|exact (aq_fn _ _ _ _ _ _ _ B)| |].
    + intros v Hv. apply (aq_fr _ _ _ _ _ _ _ A) in Hv. lia.
    + intros v Hv. apply (aq_fr _ _ _ _ _ _ _ B) in Hv. lia.
  - apply (Permutation_NoDup (Permutation_map ed_id (Permutation_sym (shuffle is is' bs bs')))).
    apply (nodup_ranges ed_id _ _ (mh_next m1)); [exact (aq_en _ _ _ _ _ _ _ A)|exact (aq_en _ _ _ _ _ _ _ B)| |].
    + intros v Hv. apply (aq_er _ _ _ _ _ _ _ A) in Hv. lia.
    + intros v Hv. apply (aq_er _ _ _ _ _ _ _ B) in Hv. lia.
Qed.
Ltac eqb_case := match goal with |- context [Nat.eqb ?x ?y] => destruct (Nat.eqb_spec x y); [lia|reflexivity] end.
Ltac adds1 :=
  constructor; cbn [add_vertex add_quad add_tri add_intr add_bdry mh_pos mh_prop mh_verts mh_quads mh_tris mh_intr mh_bdry mh_nbr mh_next mh_area mh_col mh_scale app map];
  try reflexivity; try (rewrite app_nil_r; reflexivity); try (intros ? []; fail); try (intros ? ? []; fail); try lia;
  try (intros x Hx; eqb_case); try (intros x i Hx; eqb_case);
  try (intros v [<-|[]]; cbn [fa_id ed_id]; lia);
  try (intros v i [<-|[]]; cbn [fa_id]; rewrite Nat.eqb_refl; reflexivity);
  try (constructor; [intros []|constructor]); try constructor.
Lemma adds_vertex m p pr : adds m (add_vertex m p pr) [mh_next m] [] [] [] [].
Proof. adds1. Qed.
Lemma adds_quad m a b c d col act : adds m (add_quad m a b c d col act) [] [FA (mh_next m) (Quad4 a b c d) col act] [] [] [].
Proof. adds1. Qed.
Lemma adds_tri m a b c col act : adds m (add_tri m a b c col act) [] [] [FA (mh_next m) (Tri3 a b c) col act] [] [].
Proof. adds1. Qed.
Lemma adds_intr m a b pr : adds m (add_intr m a b pr) [] [] [] [ED (mh_next m) a b (-1) pr None None None] [].
Proof. adds1. Qed.
Lemma adds_bdry m a b col pr tw : adds m (add_bdry m a b col pr tw) [] [] [] [] [ED (mh_next m) a b col pr None None tw].
Proof. adds1. Qed.

(* ---------- vertices ---------- *)
Lemma copy_vertices d vs : forall m nv, NoDup vs -> exists m' nv' news,
  fold_left (copy_vertex d) vs (m, nv) = (m', nv') /\ adds m m' news [] [] [] [] /\
  length news = length (filter (fun v => match nv v with None => true | _ => false end) vs) /\
  (forall v x, nv v = Some x -> nv' v = Some x) /\
  (forall v, ~ In v vs -> nv' v = nv v) /\
  (forall v, In v vs -> nv v = None -> exists x, nv' v = Some x /\ In x news /\ mh_pos m' x = mh_pos d v /\ mh_prop m' x = mh_prop d v) /\
  (forall x, In x news -> exists v, In v vs /\ nv v = None /\ nv' v = Some x).
Proof.
  induction vs as [|v vs IH]; intros m nv N.
  - exists m, nv, []. split; [reflexivity|]. split; [apply adds_refl|]. split; [reflexivity|]. split; [auto|]. split; [auto|]. split; [intros ? []|intros ? []].
  - inversion N as [|? ? Nv N']. subst. cbn [fold_left filter]. unfold copy_vertex at 2. cbn [fst snd]. destruct (nv v) as [y|] eqn:Ev.
    + destruct (IH m nv N') as [m' [nv' [news [E [A [L [K1 [K2 [K3 K4]]]]]]]]]. exists m', nv', news.
      split; [exact E|]. split; [exact A|]. split; [exact L|]. split; [exact K1|]. split; [intros w Hw; apply K2; intros H; apply Hw; right; exact H|]. split.
      * intros w [<-|Hw] Nw; [congruence|]. exact (K3 w Hw Nw).
      * intros x Hx. destruct (K4 x Hx) as [w [Hw H]]. exists w. split; [right; exact Hw|exact H].
    + set (m1 := add_vertex m (mh_pos d v) (mh_prop d v)). set (nv1 := vset nv v (mh_next m)).
      assert (A1 : adds m m1 [mh_next m] [] [] [] []) by apply adds_vertex.
      destruct (IH m1 nv1 N') as [m' [nv' [news [E [A [L [K1 [K2 [K3 K4]]]]]]]]]. exists m', nv', (mh_next m :: news).
      assert (NV : nv1 v = Some (mh_next m)) by (unfold nv1, vset; rewrite Nat.eqb_refl; reflexivity).
      assert (NW : forall w, w <> v -> nv1 w = nv w) by (intros w Hw; unfold nv1, vset; destruct (Nat.eqb_spec w v); congruence).
      assert (P1 : (mh_next m < mh_next m1)%nat) by (cbn; lia).
      split; [exact E|]. split; [exact (adds_trans _ _ _ _ _ _ _ _ _ _ _ _ _ A1 A)|]. split.
      { cbn [length]. f_equal. rewrite L. f_equal. apply filter_ext_in. intros w Hw. rewrite NW by (intros ->; contradiction). reflexivity. }
      split; [intros w x Hw; apply K1; rewrite NW; [exact Hw|congruence]|].
      split; [intros w Hw; rewrite K2 by (intros H; apply Hw; right; exact H); apply NW; intros ->; apply Hw; left; reflexivity|]. split.
      * intros w [<-|Hw] Nw.
        { exists (mh_next m). split; [exact (K1 v _ NV)|]. split; [left; reflexivity|].
          rewrite (aq_pos _ _ _ _ _ _ _ A), (aq_prop _ _ _ _ _ _ _ A) by exact P1. unfold m1. cbn. rewrite Nat.eqb_refl. auto. }
        { assert (w <> v) by (intros ->; contradiction). rewrite <- (NW w H) in Nw. destruct (K3 w Hw Nw) as [x [X1 [X2 X3]]]. exists x. split; [exact X1|]. split; [right; exact X2|exact X3]. }
      * intros x [<-|Hx].
        { exists v. split; [left; reflexivity|]. split; [exact Ev|exact (K1 v _ NV)]. }
        { destruct (K4 x Hx) as [w [Hw [Nw Sw]]]. assert (w <> v) by (intros ->; contradiction). exists w. split; [right; exact Hw|]. split; [rewrite <- (NW w H); exact Nw|exact Sw]. }
Qed.

(* ---------- elements and edges ---------- *)
Section Copies.
Variable nv : vmap.
Variable g : nat -> nat.
Lemma copy_quads fs : forall m, (forall f, In f fs -> exists a b c d, fa_sh f = Quad4 a b c d) ->
  (forall f v, In f fs -> In v (corners (fa_sh f)) -> nv v = Some (g v)) ->
  exists m' news, ofold (copy_facet nv) fs m = Ok m' /\ adds m m' [] news [] [] [] /\ Forall2 (fcopy g (mh_col m)) fs news /\
    (forall f, In f news -> exists a b c d, fa_sh f = Quad4 a b c d).
Proof.
  induction fs as [|f fs IH]; intros m Q V.
  - exists m, []. split; [reflexivity|]. split; [apply adds_refl|]. split; [constructor|intros ? []].
  - destruct (Q f (or_introl eq_refl)) as [a [b [c [d Ef]]]]. assert (W := V f). rewrite Ef in W. cbn [corners] in W.
    cbn [ofold]. unfold copy_facet at 1. rewrite Ef. unfold vget. rewrite !(W _ (or_introl eq_refl)) by (cbn; auto 10). cbn [obind].
    set (m1 := add_quad m (g a) (g b) (g c) (g d) (own_colour m (fa_col f)) false).
    destruct (IH m1) as [m' [news [E [A [F K]]]]]; [intros x Hx; apply Q; right; exact Hx|intros x v Hx; apply V; right; exact Hx|].
    assert (A1 := adds_quad m (g a) (g b) (g c) (g d) (own_colour m (fa_col f)) false). fold m1 in A1.
    eexists m', (_ :: news). split; [exact E|]. split; [exact (adds_trans _ _ _ _ _ _ _ _ _ _ _ _ _ A1 A)|]. split.
    + constructor; [split; cbn [fa_sh fa_col]; [rewrite Ef; reflexivity|reflexivity]|exact F].
    + intros x [<-|Hx]; [cbn [fa_sh]; eauto 10|exact (K x Hx)].
Qed.
Lemma copy_tris fs : forall m, (forall f, In f fs -> exists a b c, fa_sh f = Tri3 a b c) ->
  (forall f v, In f fs -> In v (corners (fa_sh f)) -> nv v = Some (g v)) ->
  exists m' news, ofold (copy_facet nv) fs m = Ok m' /\ adds m m' [] [] news [] [] /\ Forall2 (fcopy g (mh_col m)) fs news /\
    (forall f, In f news -> exists a b c, fa_sh f = Tri3 a b c).
Proof.
  induction fs as [|f fs IH]; intros m Q V.
  - exists m, []. split; [reflexivity|]. split; [apply adds_refl|]. split; [constructor|intros ? []].
  - destruct (Q f (or_introl eq_refl)) as [a [b [c Ef]]]. assert (W := V f). rewrite Ef in W. cbn [corners] in W.
    cbn [ofold]. unfold copy_facet at 1. rewrite Ef. unfold vget. rewrite !(W _ (or_introl eq_refl)) by (cbn; auto 10). cbn [obind].
    set (m1 := add_tri m (g a) (g b) (g c) (own_colour m (fa_col f)) false).
    destruct (IH m1) as [m' [news [E [A [F K]]]]]; [intros x Hx; apply Q; right; exact Hx|intros x v Hx; apply V; right; exact Hx|].
    assert (A1 := adds_tri m (g a) (g b) (g c) (own_colour m (fa_col f)) false). fold m1 in A1.
    eexists m', (_ :: news). split; [exact E|]. split; [exact (adds_trans _ _ _ _ _ _ _ _ _ _ _ _ _ A1 A)|]. split.
    + constructor; [split; cbn [fa_sh fa_col]; [rewrite Ef; reflexivity|reflexivity]|exact F].
    + intros x [<-|Hx]; [cbn [fa_sh]; eauto 10|exact (K x Hx)].
Qed.
Lemma copy_intrs es : forall m, (forall e, In e es -> nv (ed_1 e) = Some (g (ed_1 e)) /\ nv (ed_2 e) = Some (g (ed_2 e))) ->
  exists m' news, ofold (copy_intr nv) es m = Ok m' /\ adds m m' [] [] [] news [] /\ Forall2 (icopy g) es news.
Proof.
  induction es as [|e es IH]; intros m V.
  - exists m, []. split; [reflexivity|]. split; [apply adds_refl|constructor].
  - destruct (V e (or_introl eq_refl)) as [V1 V2]. cbn [ofold]. unfold copy_intr at 1. unfold vget. rewrite V1, V2. cbn [obind].
    destruct (IH (add_intr m (g (ed_1 e)) (g (ed_2 e)) (ed_prop e))) as [m' [news [E [A F]]]]; [intros x Hx; apply V; right; exact Hx|].
    assert (A1 := adds_intr m (g (ed_1 e)) (g (ed_2 e)) (ed_prop e)).
    eexists m', (_ :: news). split; [exact E|]. split; [exact (adds_trans _ _ _ _ _ _ _ _ _ _ _ _ _ A1 A)|].
    constructor; [split; [reflexivity|split; reflexivity]|exact F].
Qed.
End Copies.
Lemma add_pairs ps : forall m, exists news, adds m (fold_left add_intr_pair ps m) [] [] [] news [] /\
  Forall2 (fun p e => ed_1 e = fst p /\ ed_2 e = snd p) ps news.
Proof.
  induction ps as [|p ps IH]; intros m; [exists []; split; [apply adds_refl|constructor]|]. cbn [fold_left].
  destruct (IH (add_intr_pair m p)) as [news [A F]]. assert (A1 := adds_intr m (fst p) (snd p) 0%N). eexists (_ :: news).
  split; [exact (adds_trans _ _ _ _ _ _ _ _ _ _ _ _ _ A1 A)|]. constructor; [split; reflexivity|exact F].
Qed.

(* ---------- vertex marks ---------- *)
Lemma interface_mark_spec p : has_property (interface_mark p) v_on_boundary = false /\ has_property (interface_mark p) v_is_fixed = true.
Proof.
  unfold interface_mark. split.
  - rewrite other_has; [apply remove_has; reflexivity|reflexivity|reflexivity|discriminate].
  - apply add_has. discriminate.
Qed.
Lemma remark_prop es : forall prop x, let p := fold_left (fun p e => on_bdry (on_bdry p (ed_1 e)) (ed_2 e)) es prop in
  (has_property (p x) v_on_boundary = true <-> has_property (prop x) v_on_boundary = true \/ exists e, In e es /\ (ed_1 e = x \/ ed_2 e = x)) /\
  has_property (p x) v_is_fixed = has_property (prop x) v_is_fixed.
Proof.
  assert (O : forall prop v x, (has_property (on_bdry prop v x) v_on_boundary = true <-> has_property (prop x) v_on_boundary = true \/ v = x) /\
    has_property (on_bdry prop v x) v_is_fixed = has_property (prop x) v_is_fixed).
  { intros prop v x. unfold on_bdry. destruct (Nat.eqb_spec x v) as [->|N].
    - rewrite add_has by discriminate. split; [tauto|]. apply other_has; [reflexivity|reflexivity|discriminate].
    - split; [|reflexivity]. split; [auto|]. intros [H|H]; [exact H|congruence]. }
  induction es as [|e es IH]; intros prop x p; unfold p; clear p; cbn [fold_left].
  - split; [|reflexivity]. split; [auto|]. intros [H|[e [[] _]]]. exact H.
  - destruct (IH (on_bdry (on_bdry prop (ed_1 e)) (ed_2 e)) x) as [I1 I2]. cbv zeta in I1, I2.
    destruct (O (on_bdry prop (ed_1 e)) (ed_2 e) x) as [O1 O2]. destruct (O prop (ed_1 e) x) as [O3 O4]. split; [|rewrite I2, O2, O4; reflexivity].
    rewrite I1, O1, O3. split.
    + intros [[[H|H]|H]|[y [Hy H]]]; [auto|right; exists e; cbn; auto|right; exists e; cbn; auto|right; exists y; cbn; auto].
    + intros [H|[y [[<-|Hy] H]]]; [auto|destruct H; auto|right; exists y; auto].
Qed.
