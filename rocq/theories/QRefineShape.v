(* Proofs about the quad refinement, part 2: the refined mesh in closed form. *)
From Coq Require Import Lia Permutation Lqa.
From Verif Require Import Base GeomModel FacetModel UtilModel AdvanceModel Chain AdvanceProofs MeshModel MeshSpec MeshProofs
  QRefineModel QRefineSpec QRefineProofs.

(* what is known about the coarse mesh's edges *)
Lemma edge_corner m e : conforming m -> In e (all_edges m) -> exists f, In f (facets m) /\ In (ed_1 e, ed_2 e) (sides f).
Proof.
  intros C H. unfold all_edges in H. apply in_app_or in H. apply all_sides_in.
  destruct H as [H|H]; [apply (cf_intr _ C e H)|apply (cf_bdry _ C e H)].
Qed.
Lemma edge_old m e : conforming m -> addressed m -> In e (all_edges m) ->
  In (ed_1 e) (mh_verts m) /\ In (ed_2 e) (mh_verts m) /\ (ed_1 e < mh_next m)%nat /\ (ed_2 e < mh_next m)%nat /\ ed_1 e <> ed_2 e.
Proof.
  intros C A H. destruct (edge_corner m e C H) as [f [Hf Hs]].
  destruct (side_corners f _ _ Hs) as [H1 H2].
  assert (V1 := ad_corner _ A f _ Hf H1). assert (V2 := ad_corner _ A f _ Hf H2).
  split; [exact V1|]. split; [exact V2|]. split; [exact (ad_vnext _ A _ V1)|]. split; [exact (ad_vnext _ A _ V2)|].
  exact (side_neq f _ _ (cf_corners _ C f Hf) Hs).
Qed.

Lemma new_mids_app es es' : forall n, new_mids n (es ++ es') = new_mids n es ++ new_mids (3 * length es + n) es'.
Proof.
  induction es as [|e es IH]; intros n; [reflexivity|]. cbn [app new_mids length]. rewrite IH. f_equal. f_equal. f_equal. lia.
Qed.

Lemma ed_oldest_single e : ed_oldest [e] = Some e.
Proof. reflexivity. Qed.
Lemma filter_single {A} (p : A -> bool) l x : NoDup l -> In x l -> p x = true ->
  (forall y, In y l -> p y = true -> y = x) -> filter p l = [x].
Proof.
  induction l as [|y l IH]; intros ND HI HP U; [destruct HI|]. inversion ND as [|? ? NI ND']. subst. cbn.
  destruct HI as [HI|HI].
  - subst y. rewrite HP. f_equal. clear - NI U. 
    assert (X : forall l', (forall y, In y l' -> In y l) -> filter p l' = []).
    { induction l' as [|z l' IH]; intros S; [reflexivity|]. cbn. destruct (p z) eqn:E.
      - exfalso. apply NI. rewrite <- (U z (or_intror (S z (or_introl eq_refl))) E). apply S. left. reflexivity.
      - apply IH. intros y Hy. apply S. right. exact Hy. }
    apply X. auto.
  - destruct (p y) eqn:E.
    + exfalso. apply NI. rewrite (U y (or_introl eq_refl) E). exact HI.
    + apply IH; auto. intros z Hz. apply U. right. exact Hz.
Qed.
Lemma filter_empty {A} (p : A -> bool) l : (forall x, In x l -> p x = false) -> filter p l = [].
Proof. induction l as [|a l IH]; intros H; [reflexivity|]. cbn. rewrite (H a (or_introl eq_refl)). apply IH. intros x Hx. apply H. right. exact Hx. Qed.

Lemma ed_joins_iff a b e : ed_joins a b e = true <-> (ed_1 e = a /\ ed_2 e = b) \/ (ed_2 e = a /\ ed_1 e = b).
Proof. unfold ed_joins. rewrite orb_true_iff, !andb_true_iff, !Nat.eqb_eq. reflexivity. Qed.

(* the lookup finds the coarse edge *)
Lemma get_edge_found m m' e a b ni nb : conforming m -> mh_intr m' = mh_intr m ++ ni -> mh_bdry m' = mh_bdry m ++ nb ->
  In e (all_edges m) -> ed_joins a b e = true ->
  (forall x, In x (ni ++ nb) -> ed_joins a b x = false) -> get_edge m' a b = Some e.
Proof.
  intros C HI HB He HJ HN. unfold get_edge, find_edge. rewrite HI, HB.
  rewrite !filter_none_app by (intros x Hx; apply HN; apply in_or_app; auto).
  assert (U : forall y, In y (all_edges m) -> ed_joins a b y = true -> y = e).
  { intros y Hy Jy. apply (cf_single _ C y e Hy He). apply ed_joins_iff in Jy. apply ed_joins_iff in HJ. unfold same_pair.
    destruct Jy as [[]|[]], HJ as [[]|[]]; subst; auto. }
  assert (ND := NoDup_map_inv' _ _ (cf_eids _ C)). unfold all_edges in *.
  apply in_app_or in He. destruct He as [He|He].
  - rewrite (filter_single _ (mh_intr m) e); [reflexivity| |exact He|exact HJ|].
    + clear - ND. induction (mh_intr m) as [|x l IH]; [constructor|]. inversion ND as [|? ? N1 N2]; subst.
      constructor; [intros H; apply N1; apply in_or_app; auto|apply IH; exact N2].
    + intros y Hy. apply U. apply in_or_app. auto.
  - rewrite (filter_empty _ (mh_intr m)).
    + cbn [ed_oldest]. rewrite (filter_single _ (mh_bdry m) e); [reflexivity|exact (nodup_app_r _ _ ND)|exact He|exact HJ|].
      intros y Hy. apply U. apply in_or_app. auto.
    + intros x Hx. destruct (ed_joins a b x) eqn:E; [|reflexivity]. exfalso.
      assert (x = e) by (apply U; [apply in_or_app; auto|exact E]). subst x. exact (NoDup_app_in _ _ _ ND Hx He).
Qed.

(* the mid vertex of the edge joining a and b in closed form *)
Definition mid_of (m : mesh) (a b : nat) : nat :=
  match find (fun ev => ed_joins a b (fst ev)) (combine (all_edges m) (new_mids (mh_next m) (all_edges m))) with
  | Some ev => snd ev
  | None => 0%nat
  end.

Lemma combine_in_nth {A B} (l : list A) (l' : list B) x y : In (x, y) (combine l l') -> exists i, nth_error l i = Some x /\ nth_error l' i = Some y.
Proof.
  revert l'. induction l as [|a l IH]; intros [|b l'] H; try destruct H.
  - injection H as -> ->. exists 0%nat. auto.
  - destruct (IH l' H) as [i [A1 A2]]. exists (S i). auto.
Qed.
Lemma combine_fun {A B} (l : list A) (l' : list B) x y y' : NoDup l -> In (x, y) (combine l l') -> In (x, y') (combine l l') -> y = y'.
Proof.
  intros ND H H'. apply combine_in_nth in H. apply combine_in_nth in H'. destruct H as [i [A1 A2]], H' as [j [B1 B2]].
  assert (i = j).
  { apply (proj1 (NoDup_nth_error l) ND). apply nth_error_Some. congruence. congruence. }
  subst. congruence.
Qed.
Lemma combine_inj {A B} (l : list A) (l' : list B) x x' y : NoDup l' -> In (x, y) (combine l l') -> In (x', y) (combine l l') -> x = x'.
Proof.
  intros ND H H'. apply combine_in_nth in H. apply combine_in_nth in H'. destruct H as [i [A1 A2]], H' as [j [B1 B2]].
  assert (i = j).
  { apply (proj1 (NoDup_nth_error l') ND). apply nth_error_Some. congruence. congruence. }
  subst. congruence.
Qed.
Lemma combine_total {A B} (l : list A) : forall (l' : list B) x, length l = length l' -> In x l -> exists y, In (x, y) (combine l l').
Proof.
  induction l as [|a l IH]; intros [|b l'] x L H; try destruct H; try discriminate.
  - subst. exists b. left. reflexivity.
  - injection L as L. destruct (IH l' x L H) as [y Hy]. exists y. right. exact Hy.
Qed.

Definition mids (m : mesh) : list nat := new_mids (mh_next m) (all_edges m).
Definition edge_mids (m : mesh) : list (medge * nat) := combine (all_edges m) (mids m).
(* first address after the edge loops *)
Definition cstart (m : mesh) : nat := (3 * length (all_edges m) + mh_next m)%nat.
Definition order (m : mesh) : list facet := mh_tris m ++ mh_quads m.
Definition centres (m : mesh) : list nat := new_centres (cstart m) (order m).
Definition facet_centres (m : mesh) : list (facet * nat) := combine (order m) (centres m).

Lemma all_edges_nodup m : conforming m -> NoDup (all_edges m).
Proof. intros C. exact (NoDup_map_inv' _ _ (cf_eids _ C)). Qed.
Lemma mids_nodup m : NoDup (mids m).
Proof. apply new_mids_nodup. Qed.
Lemma edge_mids_total m e : In e (all_edges m) -> exists v, In (e, v) (edge_mids m).
Proof. intros H. apply combine_total; [unfold mids; rewrite new_mids_length; reflexivity|exact H]. Qed.
Lemma edge_mids_in m e v : In (e, v) (edge_mids m) -> In e (all_edges m) /\ In v (mids m) /\ (mh_next m <= v < cstart m)%nat.
Proof.
  intros H. split; [exact (in_combine_l _ _ _ _ H)|]. assert (V := in_combine_r _ _ _ _ H). split; [exact V|].
  apply new_mids_range in V. exact V.
Qed.

Lemma mid_of_spec m e v a b : conforming m -> In (e, v) (edge_mids m) -> ed_joins a b e = true -> mid_of m a b = v.
Proof.
  intros C H J. unfold mid_of. fold (mids m). fold (edge_mids m).
  destruct (find (fun ev => ed_joins a b (fst ev)) (edge_mids m)) as [[e' v']|] eqn:F.
  - apply find_some in F. destruct F as [F1 F2]. cbn [fst snd] in *.
    assert (e' = e).
    { apply (cf_single _ C); [apply (edge_mids_in m _ _ F1)|apply (edge_mids_in m _ _ H)|].
      apply ed_joins_iff in F2. apply ed_joins_iff in J. unfold same_pair. destruct F2 as [[]|[]], J as [[]|[]]; subst; auto. }
    subst e'. exact (combine_fun _ _ _ _ _ (all_edges_nodup m C) F1 H).
  - exfalso. assert (X := find_none _ _ F (e, v) H). cbn [fst] in X. congruence.
Qed.

(* every side of an element has its edge and mid vertex *)
Lemma side_edge m a b : conforming m -> In (a, b) (all_sides m) ->
  exists e, In (e, mid_of m a b) (edge_mids m) /\ ed_joins a b e = true.
Proof.
  intros C H. destruct (cf_cover _ C a b H) as [e [He J]].
  destruct (edge_mids_total m e He) as [v Hv].
  assert (JJ : ed_joins a b e = true) by (apply ed_joins_iff; destruct J as [[]|[]]; auto).
  exists e. rewrite (mid_of_spec m e v a b C Hv JJ). auto.
Qed.
Lemma ed_joins_sym a b e : ed_joins a b e = ed_joins b a e.
Proof. unfold ed_joins. rewrite orb_comm. f_equal; apply andb_comm. Qed.
Lemma mid_of_sym m a b : mid_of m a b = mid_of m b a.
Proof.
  unfold mid_of. induction (combine (all_edges m) (new_mids (mh_next m) (all_edges m))) as [|ev l IH]; [reflexivity|].
  cbn [find]. rewrite (ed_joins_sym a b). destruct (ed_joins b a (fst ev)); [reflexivity|exact IH].
Qed.
Lemma mid_of_range m a b : conforming m -> In (a, b) (all_sides m) ->
  In (mid_of m a b) (mids m) /\ (mh_next m <= mid_of m a b < cstart m)%nat.
Proof. intros C H. destruct (side_edge m a b C H) as [e [E _]]. apply edge_mids_in in E. tauto. Qed.
Lemma mid_of_inj m a b c d : conforming m -> In (a, b) (all_sides m) -> In (c, d) (all_sides m) ->
  mid_of m a b = mid_of m c d -> (a = c /\ b = d) \/ (a = d /\ b = c).
Proof.
  intros C H1 H2 E. destruct (side_edge m a b C H1) as [e [E1 J1]], (side_edge m c d C H2) as [f [E2 J2]].
  rewrite E in E1. assert (e = f) by exact (combine_inj _ _ _ _ _ (mids_nodup m) E1 E2). subst f.
  apply ed_joins_iff in J1. apply ed_joins_iff in J2. destruct J1 as [[]|[]], J2 as [[]|[]]; subst; auto.
Qed.

(* ---------- the whole refinement ---------- *)
Record refined (c m : mesh) : Prop := {
  rf_verts : mh_verts m = mh_verts c ++ mids c ++ centres c;
  rf_quads : mh_quads m = new_quads (mid_of c) (cstart c) (order c);
  rf_tris : mh_tris m = [];
  rf_intr : mh_intr m = halves (fun _ => interior_edge_color) 0%N (mh_next c) (mh_intr c) ++
                        new_spokes (mid_of c) (cstart c) (order c);
  rf_bdry : mh_bdry m = halves ed_col e_on_boundary (3 * length (mh_intr c) + mh_next c) (mh_bdry c);
  rf_next : (cstart c <= mh_next m)%nat;
  rf_old : forall v, (v < mh_next c)%nat -> mh_pos m v = mh_pos c v;
  rf_mid : forall e v, In (e, v) (edge_mids c) -> mh_pos m v = ed_xy (mh_pos c) e;
  rf_cen : forall f g, In (f, g) (facet_centres c) -> mh_pos m g = fa_xy (mh_pos c) f;
  rf_prop : forall v, (v < mh_next c)%nat -> mh_prop m v = mh_prop c v;
  rf_crange : forall g, In g (centres c) -> (cstart c <= g < mh_next m)%nat;
  rf_cprop : forall g, In g (centres c) -> has_property (mh_prop m g) v_on_boundary = false;
  rf_iprop : forall e v, In e (mh_intr c) -> In (e, v) (edge_mids c) ->
    mh_prop m v = flag_step (N.lor (mh_prop c (ed_1 e)) (mh_prop c (ed_2 e))) (FRemove v_on_boundary);
  rf_bprop : forall e v, In e (mh_bdry c) -> In (e, v) (edge_mids c) ->
    mh_prop m v = N.lor (mh_prop c (ed_1 e)) (mh_prop c (ed_2 e));
  rf_qrange : forall f, In f (mh_quads m) -> (cstart c <= fa_id f < mh_next m)%nat;
  rf_srange : forall e, In e (new_spokes (mid_of c) (cstart c) (order c)) -> (cstart c <= ed_id e < mh_next m)%nat;
  rf_nbr : forall f i, In f (mh_quads m) -> mh_nbr m (fa_id f) i = None;
  rf_area : mh_area m = mh_area c;
  rf_col : mh_col m = mh_col c;
  rf_scale : mh_scale m = mh_scale c
}.

Lemma ofold_app {A B} (f : A -> B -> outcome A) l l' a : ofold f (l ++ l') a = obind (ofold f l a) (ofold f l').
Proof.
  revert a. induction l as [|b l IH]; intros a; [reflexivity|]. cbn [app ofold].
  destruct (f a b); cbn [obind]; [apply IH|reflexivity|reflexivity].
Qed.
Lemma ofold_ext {A B} (f g : A -> B -> outcome A) l : (forall a b, In b l -> f a b = g a b) -> forall a, ofold f l a = ofold g l a.
Proof.
  induction l as [|b l IH]; intros H a; [reflexivity|]. cbn [ofold]. rewrite (H a b (or_introl eq_refl)).
  destruct (g a b); cbn [obind]; [|reflexivity|reflexivity]. apply IH. intros a' b' Hb. apply H. right. exact Hb.
Qed.

Lemma halves_joins col pr es : forall n a b x, (forall e, In e es -> (ed_1 e < n /\ ed_2 e < n)%nat) ->
  (a < n)%nat -> (b < n)%nat -> In x (halves col pr n es) -> ed_joins a b x = false.
Proof.
  intros n0. assert (G : forall es n a b x, (a < n)%nat -> (b < n)%nat -> In x (halves col pr n es) -> ed_joins a b x = false).
  { clear. induction es as [|e es IH]; intros n a b x La Lb H; [destruct H|]. cbn [halves] in H.
    destruct H as [H|[H|H]].
    - subst x. unfold ed_joins. cbn [ed_1 ed_2]. destruct (Nat.eqb_spec n b); [lia|]. destruct (Nat.eqb_spec n a); [lia|].
      rewrite !andb_false_r. reflexivity.
    - subst x. unfold ed_joins. cbn [ed_1 ed_2]. destruct (Nat.eqb_spec n b); [lia|]. destruct (Nat.eqb_spec n a); [lia|].
      rewrite !andb_false_r. reflexivity.
    - apply (IH (3 + n)%nat a b x); [lia|lia|exact H]. }
  intros a b x _ La Lb H. exact (G es n0 a b x La Lb H).
Qed.

Lemma in_square_fa_xy s pos f : (forall v, In v (corners (fa_sh f)) -> in_square s (pos v) = true) ->
  in_square s (fa_xy pos f) = true.
Proof.
  intros H. unfold fa_xy. destruct (fa_sh f) as [a b c|a b c d]; cbn [corners] in H.
  - apply in_square_centroid; apply H; cbn; auto.
  - assert (Ha := H a). assert (Hb := H b). assert (Hc := H c). assert (Hd := H d). cbn in Ha, Hb, Hc, Hd.
    specialize (Ha (or_introl eq_refl)). specialize (Hb (or_intror (or_introl eq_refl))).
    specialize (Hc (or_intror (or_intror (or_introl eq_refl)))).
    specialize (Hd (or_intror (or_intror (or_intror (or_introl eq_refl))))).
    rewrite in_square_iff in *. unfold quad_centroid. cbn [vx vy]. repeat split; lra.
Qed.
Lemma in_square_ed_xy s pos e : in_square s (pos (ed_1 e)) = true -> in_square s (pos (ed_2 e)) = true ->
  in_square s (ed_xy pos e) = true.
Proof. rewrite !in_square_iff. unfold ed_xy. cbn [vx vy vscale vadd]. intros. repeat split; lra. Qed.

Lemma remove_split {A} (p : A -> bool) l l' : (forall x, In x l -> p x = true) -> (forall x, In x l' -> p x = false) ->
  filter (fun x => negb (p x)) (l ++ l') = l'.
Proof.
  intros H1 H2. rewrite filter_app. rewrite filter_empty by (intros x Hx; rewrite H1 by exact Hx; reflexivity).
  cbn [app]. apply filter_all. intros x Hx. rewrite H2 by exact Hx. reflexivity.
Qed.
Lemma existsb_notin n l : ~ In n l -> existsb (Nat.eqb n) l = false.
Proof.
  intros H. destruct (existsb (Nat.eqb n) l) eqn:E; [|reflexivity]. exfalso. apply H.
  apply existsb_exists in E. destruct E as [x [Hx E]]. apply Nat.eqb_eq in E. subst. exact Hx.
Qed.
Lemma existsb_in n l : In n l -> existsb (Nat.eqb n) l = true.
Proof. intros H. apply existsb_exists. exists n. split; [exact H|apply Nat.eqb_refl]. Qed.

Theorem refine_closed c : conforming c -> addressed c -> fits c -> no_twins c ->
  exists m, refine c = Ok (m, true) /\ refined c m.
Proof.
  intros C A FI NT. unfold refine.
  assert (T : existsb (fun e => is_some (ed_twin e)) (mh_bdry c) = false).
  { destruct (existsb _ (mh_bdry c)) eqn:E; [|reflexivity]. apply existsb_exists in E. destruct E as [e [He E]].
    rewrite (NT e He) in E. discriminate. }
  rewrite T. clear T.
  destruct (fold_left refine_intr (mh_intr c) (c, fun _ => None)) as [m1 sub1] eqn:E1.
  destruct (fold_left refine_bdry (mh_bdry c) (m1, sub1)) as [m2 sub] eqn:E2.
  assert (OLD : forall e, In e (all_edges c) -> (ed_1 e < mh_next c)%nat /\ (ed_2 e < mh_next c)%nat).
  { intros e He. destruct (edge_old c e C A He) as [_ [_ [L1 [L2 _]]]]. auto. }
  assert (NDI : NoDup (map ed_id (mh_intr c)) /\ NoDup (map ed_id (mh_bdry c)) /\
                forall k, In k (map ed_id (mh_intr c)) -> ~ In k (map ed_id (mh_bdry c))).
  { assert (N := cf_eids _ C). unfold all_edges in N. rewrite map_app in N. split; [|split].
    - clear - N. induction (map ed_id (mh_intr c)) as [|x l IH]; [constructor|]. inversion N as [|? ? N1 N2]; subst.
      constructor; [intros H; apply N1; apply in_or_app; auto|apply IH; exact N2].
    - exact (nodup_app_r _ _ N).
    - intros k H1 H2. exact (NoDup_app_in _ _ _ N H1 H2). }
  destruct NDI as [ND1 [ND2 ND12]].
  destruct (edge_phase _ _ _ _ _ _ (mh_intr c) refine_intr_step c (fun _ => None) m1 sub1 ND1) as [U1 [V1 [I1 [B1 [N1 [P1 [PP1 [F1 K1]]]]]]]].
  { intros e He. apply OLD. apply in_or_app. auto. }
  { exact E1. }
  destruct (edge_phase _ _ _ _ _ _ (mh_bdry c) refine_bdry_step m1 sub1 m2 sub ND2) as [U2 [V2 [B2 [I2 [N2 [P2 [PP2 [F2 K2]]]]]]]].
  { intros e He. destruct (OLD e (in_or_app _ _ _ (or_intror He))). rewrite N1. lia. }
  { exact E2. }
  destruct U1 as [UQ1 [UT1 [UN1 [UA1 [UC1 US1]]]]], U2 as [UQ2 [UT2 [UN2 [UA2 [UC2 US2]]]]].
  assert (NE : mh_next m2 = cstart c).
  { unfold cstart, all_edges. rewrite app_length, N2, N1. lia. }
  assert (VE : mh_verts m2 = mh_verts c ++ mids c).
  { rewrite V2, V1, N1. unfold mids, all_edges. rewrite new_mids_app, app_assoc. reflexivity. }
  assert (IE : mh_intr m2 = mh_intr c ++ halves (fun _ => interior_edge_color) 0%N (mh_next c) (mh_intr c)) by (rewrite I2, I1; reflexivity).
  assert (BE : mh_bdry m2 = mh_bdry c ++ halves ed_col e_on_boundary (3 * length (mh_intr c) + mh_next c) (mh_bdry c)).
  { rewrite B2, B1, N1. reflexivity. }
  assert (PE : forall v, (v < mh_next c)%nat -> mh_pos m2 v = mh_pos c v).
  { intros v Hv. rewrite P2 by lia. apply P1. exact Hv. }
  assert (PPE : forall v, (v < mh_next c)%nat -> mh_prop m2 v = mh_prop c v).
  { intros v Hv. rewrite PP2 by lia. apply PP1. exact Hv. }
  assert (SE : forall e v, In (e, v) (edge_mids c) -> sub (ed_id e) = Some v /\ mh_pos m2 v = ed_xy (mh_pos c) e /\
    (In e (mh_intr c) -> mh_prop m2 v = flag_step (N.lor (mh_prop c (ed_1 e)) (mh_prop c (ed_2 e))) (FRemove v_on_boundary)) /\
    (In e (mh_bdry c) -> mh_prop m2 v = N.lor (mh_prop c (ed_1 e)) (mh_prop c (ed_2 e)))).
  { intros e v H. unfold edge_mids, mids, all_edges in H. rewrite new_mids_app in H.
    assert (CA : forall (l l' : list medge) (k k' : list nat), length l = length k -> combine (l ++ l') (k ++ k') = combine l k ++ combine l' k').
    { clear. induction l as [|x l IH]; intros l' [|y k] k' L; try discriminate; [reflexivity|]. cbn. f_equal. apply IH. injection L as L. exact L. }
    rewrite CA in H by (rewrite new_mids_length; reflexivity).
    assert (F2I : forall (R : medge -> nat -> Prop) l k, Forall2 R l k -> forall x y, In (x, y) (combine l k) -> R x y).
    { clear. intros R l k F. induction F as [|x y l k HR F IH]; intros a b H; [destruct H|].
      destruct H as [H|H]; [injection H as -> ->; exact HR|exact (IH a b H)]. }
    apply in_app_or in H. destruct H as [H|H].
    - destruct (F2I _ _ _ F1 e v H) as [S1 [S2 S2']].
      assert (Hin := in_combine_l _ _ _ _ H). assert (Hv := new_mids_range _ _ _ (in_combine_r _ _ _ _ H)).
      split; [|split; [|split]].
      + rewrite K2; [exact S1|]. apply ND12. apply in_map. exact Hin.
      + rewrite P2 by lia. exact S2.
      + intros _. rewrite PP2 by lia. exact S2'.
      + intros Hb. exfalso. apply (ND12 (ed_id e)); apply in_map; assumption.
    - rewrite N1 in F2. destruct (F2I _ _ _ F2 e v H) as [S1 [S2 S2']].
      assert (Hin := in_combine_l _ _ _ _ H). split; [exact S1|].
      destruct (OLD e (in_or_app _ _ _ (or_intror Hin))) as [L1 L2]. split; [|split].
      + rewrite S2. unfold ed_xy. rewrite !P1 by lia. reflexivity.
      + intros Hi. exfalso. apply (ND12 (ed_id e)); apply in_map; assumption.
      + intros _. rewrite S2', !PP1 by lia. reflexivity. }
  assert (FO : forall f, In f (order c) -> In f (facets c)).
  { intros f H. unfold order in H. unfold facets. apply in_app_or in H. apply in_or_app. tauto. }
  assert (SU : forall f a b, In f (order c) -> In (a, b) (sides f) ->
     sub_of m2 sub a b = Some (mid_of c a b) /\ (a < mh_next c)%nat /\ (b < mh_next c)%nat).
  { intros f a b Hf Hs. destruct (side_corners f a b Hs) as [Ca Cb].
    assert (La := ad_vnext _ A _ (ad_corner _ A f a (FO f Hf) Ca)).
    assert (Lb := ad_vnext _ A _ (ad_corner _ A f b (FO f Hf) Cb)).
    split; [|split; assumption].
    destruct (side_edge c a b C) as [e [He J]]; [apply all_sides_in; exists f; auto|].
    unfold sub_of. rewrite (get_edge_found c m2 e a b _ _ C IE BE); [apply (SE _ _ He)|apply (edge_mids_in _ _ _ He)|exact J|].
    intros x Hx. apply in_app_or in Hx. destruct Hx as [Hx|Hx].
    - apply (halves_joins _ _ _ _ a b x) in Hx; auto. intros e' He'. apply OLD. apply in_or_app. auto.
    - apply (halves_joins _ _ _ _ a b x) in Hx; [exact Hx| |lia|lia].
      intros e' He'. destruct (OLD e' (in_or_app _ _ _ (or_intror He'))). lia. }
  destruct (facet_phase sub (mid_of c) (order c) m2) as [m3 [E3 [K3 [V3 [Q3 [I3 [N3 [P3 [PP3 [F3 [G3 [R3 [S3 NB3]]]]]]]]]]]]].
  { intros f a b Hf Hs. destruct (SU f a b Hf Hs) as [X [La Lb]]. split; [exact X|].
    rewrite NE. unfold cstart. lia. }
  { intros f v Hf Hv. assert (X := ad_vnext _ A _ (ad_corner _ A f v (FO f Hf) Hv)). rewrite NE. unfold cstart. lia. }
  assert (E3' : obind (ofold (refine_tri sub) (mh_tris c) m2) (ofold (refine_quad sub) (mh_quads c)) = Ok m3).
  { rewrite <- E3. unfold order. rewrite ofold_app.
    rewrite (ofold_ext (refine_tri sub) (refine_facet sub) (mh_tris c)).
    - destruct (ofold (refine_facet sub) (mh_tris c) m2); cbn [obind]; try reflexivity.
      apply ofold_ext. intros m' q Hq. unfold refine_facet. destruct (cf_quads _ C q Hq) as [x [y [z [w E]]]]. rewrite E. reflexivity.
    - intros m' t Ht. unfold refine_facet. destruct (cf_tris _ C t Ht) as [x [y [z E]]]. rewrite E. reflexivity. }
  destruct (ofold (refine_tri sub) (mh_tris c) m2) as [m25| |] eqn:E25; cbn [obind] in E3' |- *; try discriminate.
  rewrite E3'. cbn [obind]. exists (remove_old c m3). split; [reflexivity|].
  destruct K3 as [KT [KB [KA [KC KS]]]].
  assert (LN : (mh_next c <= cstart c)%nat) by (unfold cstart; lia).
  rewrite NE in *.
  assert (PF : forall v, (v < mh_next c)%nat -> mh_pos m3 v = mh_pos c v) by (intros v Hv; rewrite P3 by lia; apply PE; exact Hv).
  assert (XF : forall f, In f (facets c) -> in_square (mh_scale m3) (fa_xy (mh_pos m3) f) = true).
  { intros f Hf. apply in_square_fa_xy. intros v Hv. assert (Vv := ad_corner _ A f v Hf Hv).
    rewrite PF by exact (ad_vnext _ A _ Vv). rewrite KS, US2, US1. apply (FI v Vv). }
  assert (XE : forall e, In e (all_edges c) -> in_square front_scale (ed_xy (mh_pos m3) e) = true).
  { intros e He. destruct (edge_old c e C A He) as [X1 [X2 [L1 [L2 _]]]].
    apply in_square_ed_xy; rewrite PF by assumption; [apply (FI _ X1)|apply (FI _ X2)]. }
  assert (PC : forall f, In f (facets c) -> fa_xy (mh_pos m2) f = fa_xy (mh_pos c) f).
  { intros f Hf. assert (Z := fun v Hv => ad_vnext _ A _ (ad_corner _ A f v Hf Hv)). unfold fa_xy.
    destruct (fa_sh f) as [x y z|x y z w]; rewrite !PE; try reflexivity; apply Z; cbn; auto. }
  constructor; cbn [remove_old mh_verts mh_quads mh_tris mh_intr mh_bdry mh_next mh_pos mh_prop mh_nbr mh_area mh_col mh_scale].
  - rewrite V3, VE, <- app_assoc. reflexivity.
  - unfold remove_facets. rewrite Q3, UQ2, UQ1. apply remove_split.
    + intros f Hf. rewrite existsb_in by (apply in_map; exact Hf). rewrite XF by (apply in_or_app; auto). reflexivity.
    + intros f Hf. rewrite existsb_notin; [reflexivity|]. intros H. apply in_map_iff in H. destruct H as [g [Eg Hg]].
      assert (Lg := ad_fnext _ A g (in_or_app _ _ _ (or_introl Hg))). apply R3 in Hf. lia.
  - unfold remove_facets. rewrite KT, UT2, UT1. apply filter_empty. intros f Hf.
    rewrite existsb_in by (apply in_map; exact Hf). rewrite XF by (apply in_or_app; auto). reflexivity.
  - unfold remove_edges. rewrite I3, IE, <- app_assoc. apply remove_split.
    + intros e He. rewrite existsb_in by (apply in_map; exact He). rewrite XE by (apply in_or_app; auto). reflexivity.
    + intros e He. rewrite existsb_notin; [reflexivity|]. intros H. apply in_map_iff in H. destruct H as [x [Ex Hx]].
      assert (Lx := ad_enext _ A x (in_or_app _ _ _ (or_introl Hx))). apply in_app_or in He. destruct He as [He|He].
      * apply halves_range in He. lia.
      * apply S3 in He. lia.
  - unfold remove_edges. rewrite KB, BE. apply remove_split.
    + intros e He. rewrite existsb_in by (apply in_map; exact He). rewrite XE by (apply in_or_app; auto). reflexivity.
    + intros e He. rewrite existsb_notin; [reflexivity|]. intros H. apply in_map_iff in H. destruct H as [x [Ex Hx]].
      assert (Lx := ad_enext _ A x (in_or_app _ _ _ (or_intror Hx))). apply halves_range in He. lia.
  - exact N3.
  - exact PF.
  - intros e v H. destruct (edge_mids_in _ _ _ H) as [_ [_ [_ L]]]. rewrite P3 by exact L. apply (SE _ _ H).
  - intros f g H. unfold facet_centres, centres in H.
    assert (F2I : forall (R : facet -> nat -> Prop) l k, Forall2 R l k -> forall x y, In (x, y) (combine l k) -> R x y).
    { clear. intros R l k F. induction F as [|x y l k HR F IH]; intros a b H; [destruct H|].
      destruct H as [H|H]; [injection H as -> ->; exact HR|exact (IH a b H)]. }
    rewrite (F2I _ _ _ F3 f g H). apply PC. apply FO. exact (in_combine_l _ _ _ _ H).
  - intros v Hv. rewrite PP3 by lia. apply PPE. exact Hv.
  - intros g Hg. apply (G3 g Hg).
  - intros g Hg. apply (G3 g Hg).
  - intros e v He H. destruct (edge_mids_in _ _ _ H) as [_ [_ [_ L]]]. rewrite PP3 by exact L. apply (SE _ _ H). exact He.
  - intros e v He H. destruct (edge_mids_in _ _ _ H) as [_ [_ [_ L]]]. rewrite PP3 by exact L. apply (SE _ _ H). exact He.
  - intros f Hf. unfold remove_facets in Hf. apply filter_In in Hf. destruct Hf as [Hf HN].
    rewrite Q3, UQ2, UQ1 in Hf. apply in_app_or in Hf. destruct Hf as [Hf|Hf]; [|exact (R3 f Hf)]. exfalso.
    rewrite existsb_in in HN by (apply in_map; exact Hf). rewrite XF in HN by (apply in_or_app; auto). discriminate.
  - exact S3.
  - intros f i Hf. unfold remove_facets in Hf. apply filter_In in Hf. destruct Hf as [Hf HN].
    rewrite Q3, UQ2, UQ1 in Hf. apply in_app_or in Hf. destruct Hf as [Hf|Hf]; [|exact (NB3 f i Hf)]. exfalso.
    rewrite existsb_in in HN by (apply in_map; exact Hf). rewrite XF in HN by (apply in_or_app; auto). discriminate.
  - rewrite KA, UA2, UA1. reflexivity.
  - rewrite KC, UC2, UC1. reflexivity.
  - rewrite KS, US2, US1. reflexivity.
Qed.
