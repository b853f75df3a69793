(* Proofs about indices, edge classification and facet connectivity. *)
From Coq Require Import Lia Permutation.
From Verif Require Import Base GeomModel Chain MeshModel MeshSpec.

(* ---------- numbering ---------- *)
Lemma number_from_notin l : forall k idx x, ~ In x l -> number_from k l idx x = idx x.
Proof.
  induction l as [|y l IH]; intros k idx x H; [reflexivity|]. cbn [number_from].
  rewrite IH by (intro; apply H; right; assumption).
  destruct (Nat.eqb x y) eqn:E; [|reflexivity].
  apply Nat.eqb_eq in E. exfalso. apply H. left. congruence.
Qed.

Lemma number_from_in l : forall k idx i x, NoDup l -> nth_error l i = Some x ->
  number_from k l idx x = (k + Z.of_nat i)%Z.
Proof.
  induction l as [|y l IH]; intros k idx i x ND H; [destruct i; discriminate|].
  inversion ND as [|? ? NI ND']. subst. cbn [number_from]. destruct i as [|i].
  - cbn in H. injection H as H. subst. rewrite number_from_notin by assumption.
    rewrite Nat.eqb_refl. cbn. lia.
  - cbn [nth_error] in H. rewrite (IH _ _ _ _ ND' H). lia.
Qed.

Lemma map_nth_error_ext {A B} (g : A -> B) (h : nat -> B) l : forall s,
  (forall i x, nth_error l i = Some x -> g x = h (s + i)%nat) -> map g l = map h (seq s (length l)).
Proof.
  induction l as [|a l IH]; intros s H; [reflexivity|]. cbn [map length seq]. f_equal.
  - rewrite (H 0%nat a eq_refl). f_equal. lia.
  - apply IH. intros i x E. rewrite (H (S i) x E). f_equal. lia.
Qed.

Lemma number_from_map l k idx : NoDup l ->
  map (number_from k l idx) l = map (fun i => (k + Z.of_nat i)%Z) (seq 0 (length l)).
Proof.
  intros ND. apply map_nth_error_ext. intros i x E. exact (number_from_in l k idx i x ND E).
Qed.

(* ---------- classification ---------- *)
Lemma filter_split {A} (p : A -> bool) l : Permutation (filter p l ++ filter (fun x => negb (p x)) l) l.
Proof.
  induction l as [|a l IH]; [constructor|]. cbn [filter]. destruct (p a); cbn [negb app].
  - constructor. exact IH.
  - eapply perm_trans; [apply Permutation_sym, Permutation_middle|]. constructor. exact IH.
Qed.

(* ---------- ages ---------- *)
Lemma ins_facet_perm f l : Permutation (ins_facet f l) (f :: l).
Proof.
  induction l as [|g l IH]; [constructor; constructor|]. cbn [ins_facet].
  destruct (Nat.leb (fa_id f) (fa_id g)); [apply Permutation_refl|].
  eapply perm_trans; [constructor; exact IH|]. apply perm_swap.
Qed.
Lemma by_age_perm l : Permutation (by_age l) l.
Proof.
  induction l as [|f l IH]; [constructor|]. cbn [by_age fold_right].
  eapply perm_trans; [apply ins_facet_perm|]. constructor. exact IH.
Qed.

Lemma NoDup_map_inv' {A B} (f : A -> B) l : NoDup (map f l) -> NoDup l.
Proof. apply NoDup_map_inv. Qed.

Lemma facets_at_in m v f : In f (facets_at m v) <-> In f (facets m) /\ In v (corners (fa_sh f)).
Proof.
  unfold facets_at. split.
  - intros H. apply (Permutation_in _ (by_age_perm _)) in H. apply filter_In in H. destruct H as [H H'].
    split; [exact H|]. apply existsb_exists in H'. destruct H' as [x [Hx E]]. apply Nat.eqb_eq in E. subst. exact Hx.
  - intros [H H']. apply (Permutation_in _ (Permutation_sym (by_age_perm _))). apply filter_In. split; [exact H|].
    apply existsb_exists. exists v. split; [exact H'|apply Nat.eqb_refl].
Qed.

(* ---------- sides ---------- *)
Lemma side_index_spec f a b i : NoDup (corners (fa_sh f)) ->
  side_index (fa_sh f) a b = Some i <-> (side_at f i = Some (a, b) \/ side_at f i = Some (b, a)).
Proof.
  unfold side_at. destruct (fa_sh f) as [x y z|x y z w]; cbn [corners side_index]; intros ND.
  - assert (N : x <> y /\ y <> z /\ z <> x).
    { inversion ND as [|? ? N1 ND1]; inversion ND1 as [|? ? N2 ND2]; subst. cbn in N1, N2. repeat split; intro; subst; tauto. }
    destruct N as [N1 [N2 N3]].
    destruct (Nat.eqb_spec a x), (Nat.eqb_spec a y), (Nat.eqb_spec a z),
      (Nat.eqb_spec b x), (Nat.eqb_spec b y), (Nat.eqb_spec b z); cbn [andb orb];
      (split; [intros H; try discriminate H; injection H as H; subst i; cbn; subst; tauto
              |intros [H|H]; (destruct i as [|[|[|i]]]; try discriminate H; injection H as H1 H2; subst; congruence)]).
  - assert (N : x <> y /\ y <> z /\ z <> w /\ w <> x /\ x <> z /\ y <> w).
    { inversion ND as [|? ? N1 ND1]; inversion ND1 as [|? ? N2 ND2]; inversion ND2 as [|? ? N3 ND3]; subst.
      cbn in N1, N2, N3. repeat split; intro; subst; tauto. }
    destruct N as [N1 [N2 [N3 [N4 [N5 N6]]]]].
    destruct (Nat.eqb_spec a x), (Nat.eqb_spec a y), (Nat.eqb_spec a z), (Nat.eqb_spec a w),
      (Nat.eqb_spec b x), (Nat.eqb_spec b y), (Nat.eqb_spec b z), (Nat.eqb_spec b w); cbn [andb orb];
      (split; [intros H; try discriminate H; injection H as H; subst i; cbn; subst; tauto
              |intros [H|H]; (destruct i as [|[|[|[|i]]]]; try discriminate H; injection H as H1 H2; subst; congruence)]).
Qed.

Lemma side_at_in f i p : side_at f i = Some p -> In p (sides f).
Proof.
  unfold side_at, sides. destruct (fa_sh f) as [x y z|x y z w]; cbn;
    (destruct i as [|[|[|[|i]]]]; intros H; try discriminate H; injection H as H; subst; tauto).
Qed.
Lemma in_side_at f p : In p (sides f) -> exists i, side_at f i = Some p.
Proof.
  unfold side_at, sides. destruct (fa_sh f) as [x y z|x y z w]; cbn; intros H.
  - destruct H as [H|[H|[H|[]]]]; subst; [exists 2%nat|exists 0%nat|exists 1%nat]; reflexivity.
  - destruct H as [H|[H|[H|[H|[]]]]]; subst; [exists 3%nat|exists 0%nat|exists 1%nat|exists 2%nat]; reflexivity.
Qed.
Lemma side_at_inj f i j p : NoDup (corners (fa_sh f)) -> side_at f i = Some p -> side_at f j = Some p -> i = j.
Proof.
  intros ND H1 H2. destruct p as [a b].
  assert (E1 := proj2 (side_index_spec f a b i ND) (or_introl H1)).
  assert (E2 := proj2 (side_index_spec f a b j ND) (or_introl H2)). congruence.
Qed.
Ltac or_destruct H := repeat (destruct H as [H|H]).
Lemma side_corners f a b : In (a, b) (sides f) -> In a (corners (fa_sh f)) /\ In b (corners (fa_sh f)).
Proof.
  unfold sides. destruct (fa_sh f) as [x y z|x y z w]; cbn; intros H;
    or_destruct H; try contradiction; injection H as H1 H2; subst; tauto.
Qed.
Lemma nodup3 (x y z : nat) : NoDup [x; y; z] -> x <> y /\ y <> z /\ z <> x.
Proof.
  intros ND. inversion ND as [|? ? N1 ND1]; inversion ND1 as [|? ? N2 ND2]; subst. cbn in N1, N2.
  repeat split; intro; subst; tauto.
Qed.
Lemma nodup4 (x y z w : nat) : NoDup [x; y; z; w] -> x <> y /\ y <> z /\ z <> w /\ w <> x /\ x <> z /\ y <> w.
Proof.
  intros ND. inversion ND as [|? ? N1 ND1]; inversion ND1 as [|? ? N2 ND2]; inversion ND2 as [|? ? N3 ND3]; subst.
  cbn in N1, N2, N3. repeat split; intro; subst; tauto.
Qed.

Lemma side_neq f a b : NoDup (corners (fa_sh f)) -> In (a, b) (sides f) -> a <> b.
Proof.
  unfold sides. destruct (fa_sh f) as [x y z|x y z w]; cbn; intros ND H.
  - destruct (nodup3 _ _ _ ND) as [N1 [N2 N3]]. or_destruct H; congruence.
  - destruct (nodup4 _ _ _ _ ND) as [N1 [N2 [N3 [N4 [N5 N6]]]]]. or_destruct H; congruence.
Qed.
Lemma side_no_rev f a b : NoDup (corners (fa_sh f)) -> In (a, b) (sides f) -> ~ In (b, a) (sides f).
Proof.
  unfold sides. destruct (fa_sh f) as [x y z|x y z w]; cbn; intros ND H H'.
  - destruct (nodup3 _ _ _ ND) as [N1 [N2 N3]]. or_destruct H; try contradiction; or_destruct H'; congruence.
  - destruct (nodup4 _ _ _ _ ND) as [N1 [N2 [N3 [N4 [N5 N6]]]]]. or_destruct H; try contradiction; or_destruct H'; congruence.
Qed.

Lemma all_sides_in m p : In p (all_sides m) <-> exists f, In f (facets m) /\ In p (sides f).
Proof. unfold all_sides. rewrite in_flat_map. tauto. Qed.

Lemma NoDup_app_in {A} (l l' : list A) x : NoDup (l ++ l') -> In x l -> In x l' -> False.
Proof.
  induction l as [|a l IH]; [intros _ []|]. cbn [app]. intros ND [H|H] H'; inversion ND as [|? ? N ND']; subst.
  - apply N. apply in_or_app. right. exact H'.
  - apply (IH ND' H H').
Qed.

Lemma flat_map_owner {A B} (g : A -> list B) l x y p : NoDup (flat_map g l) -> In x l -> In y l ->
  In p (g x) -> In p (g y) -> x = y.
Proof.
  induction l as [|a l IH]; [intros _ []|]. cbn [flat_map]. intros ND Hx Hy Px Py.
  assert (T : forall z, In z l -> In p (g z) -> In p (flat_map g l)).
  { intros z Hz Pz. apply in_flat_map. exists z. tauto. }
  destruct Hx as [Hx|Hx], Hy as [Hy|Hy]; subst; try reflexivity.
  - exfalso. exact (NoDup_app_in _ _ p ND Px (T _ Hy Py)).
  - exfalso. exact (NoDup_app_in _ _ p ND Py (T _ Hx Px)).
  - apply IH; try assumption. clear - ND. induction (g a) as [|b r IH]; [exact ND|]. inversion ND. auto.
Qed.

Lemma side_owner m f g p : conforming m -> In f (facets m) -> In g (facets m) ->
  In p (sides f) -> In p (sides g) -> f = g.
Proof. intros C. exact (flat_map_owner sides (facets m) f g p (cf_sides _ C)). Qed.

(* ---------- elements sharing an edge ---------- *)
Lemma sharing_in m a b f i : (forall f, In f (facets m) -> NoDup (corners (fa_sh f))) ->
  In (f, i) (sharing m a b) <->
  In f (facets m) /\ (side_at f i = Some (a, b) \/ side_at f i = Some (b, a)).
Proof.
  intros ND. unfold sharing. rewrite in_flat_map. split.
  - intros [g [Hg H]]. apply facets_at_in in Hg. destruct Hg as [Hg Hc].
    destruct (side_index (fa_sh g) a b) as [j|] eqn:E; [|destruct H].
    destruct H as [H|[]]. injection H as H1 H2. subst. split; [exact Hg|].
    apply (side_index_spec f a b i); [apply ND; exact Hg|exact E].
  - intros [Hf H]. exists f. split.
    + apply facets_at_in. split; [exact Hf|].
      destruct H as [H|H]; apply side_at_in in H; apply side_corners in H; tauto.
    + rewrite (proj2 (side_index_spec f a b i (ND f Hf)) H). left. reflexivity.
Qed.

Lemma nodup_filter_map {A B} (k : A -> option B) l : NoDup l ->
  NoDup (flat_map (fun f => match k f with Some i => [(f, i)] | None => [] end) l).
Proof.
  induction l as [|a l IH]; intros ND; [constructor|]. inversion ND as [|? ? N ND']. subst.
  cbn [flat_map]. destruct (k a) as [i|]; [|apply IH; exact ND']. cbn [app]. constructor; [|apply IH; exact ND'].
  intros H. apply in_flat_map in H. destruct H as [x [Hx H]]. destruct (k x); [|destruct H].
  destruct H as [H|[]]. injection H as H1 H2. subst. contradiction.
Qed.

Lemma nodup_facets m : NoDup (map fa_id (facets m)) -> NoDup (facets m).
Proof. apply NoDup_map_inv. Qed.

Lemma sharing_nodup m a b : NoDup (map fa_id (facets m)) -> NoDup (sharing m a b).
Proof.
  intros ND. apply (nodup_filter_map (fun f => side_index (fa_sh f) a b)). unfold facets_at.
  apply (Permutation_NoDup (Permutation_sym (by_age_perm _))). apply NoDup_filter. apply nodup_facets. exact ND.
Qed.

Lemma two_elements {A} (l : list A) x y : NoDup l -> x <> y -> (forall z, In z l <-> z = x \/ z = y) ->
  l = [x; y] \/ l = [y; x].
Proof.
  intros ND NE H. destruct l as [|p [|q [|r l]]].
  - exfalso. apply (proj2 (H x)). left. reflexivity.
  - exfalso. assert (Hx := proj2 (H x) (or_introl eq_refl)). assert (Hy := proj2 (H y) (or_intror eq_refl)).
    destruct Hx as [Hx|[]], Hy as [Hy|[]]. congruence.
  - assert (Hp := proj1 (H p) (or_introl eq_refl)). assert (Hq := proj1 (H q) (or_intror (or_introl eq_refl))).
    inversion ND as [|? ? N _]. subst. cbn in N.
    destruct Hp, Hq; subst; [exfalso; tauto|left; reflexivity|right; reflexivity|exfalso; tauto].
  - exfalso. assert (Hp := proj1 (H p) (or_introl eq_refl)). assert (Hq := proj1 (H q) (or_intror (or_introl eq_refl))).
    assert (Hr := proj1 (H r) (or_intror (or_intror (or_introl eq_refl)))).
    inversion ND as [|? ? N ND1]. inversion ND1 as [|? ? N' _]. subst. cbn in N, N'.
    destruct Hp, Hq, Hr; subst; tauto.
Qed.

Lemma sharing_interior m a b f g i j : conforming m -> In f (facets m) -> In g (facets m) ->
  side_at f i = Some (a, b) -> side_at g j = Some (b, a) ->
  sharing m a b = [(f, i); (g, j)] \/ sharing m a b = [(g, j); (f, i)].
Proof.
  intros C Hf Hg Sf Sg.
  assert (NEfg : f <> g).
  { intros E. subst g. apply (side_no_rev f a b (cf_corners _ C f Hf)); eapply side_at_in; eassumption. }
  apply two_elements; [apply sharing_nodup; exact (cf_ids _ C)|congruence|].
  intros [h k]. rewrite (sharing_in m a b h k (cf_corners _ C)). split.
  - intros [Hh [S|S]].
    + left. assert (h = f) by (apply (side_owner m h f (a, b) C Hh Hf); eapply side_at_in; eassumption). subst h.
      f_equal. exact (side_at_inj f k i _ (cf_corners _ C f Hf) S Sf).
    + right. assert (h = g) by (apply (side_owner m h g (b, a) C Hh Hg); eapply side_at_in; eassumption). subst h.
      f_equal. exact (side_at_inj g k j _ (cf_corners _ C g Hg) S Sg).
  - intros [E|E]; injection E as E1 E2; subst; tauto.
Qed.

Lemma sharing_boundary m a b f i : conforming m -> In f (facets m) ->
  side_at f i = Some (a, b) -> ~ In (b, a) (all_sides m) -> sharing m a b = [(f, i)].
Proof.
  intros C Hf Sf NR.
  assert (A : forall h k, In (h, k) (sharing m a b) <-> (h, k) = (f, i)).
  { intros h k. rewrite (sharing_in m a b h k (cf_corners _ C)). split.
    - intros [Hh [S|S]].
      + assert (h = f) by (apply (side_owner m h f (a, b) C Hh Hf); eapply side_at_in; eassumption). subst h.
        f_equal. exact (side_at_inj f k i _ (cf_corners _ C f Hf) S Sf).
      + exfalso. apply NR. apply all_sides_in. exists h. split; [exact Hh|]. exact (side_at_in _ _ _ S).
    - intros E. injection E as E1 E2. subst. tauto. }
  assert (ND := sharing_nodup m a b (cf_ids _ C)).
  destruct (sharing m a b) as [|p [|q l]].
  - exfalso. apply (proj2 (A f i)). reflexivity.
  - f_equal. destruct p as [h k]. apply A. left. reflexivity.
  - exfalso. destruct p as [h k], q as [h' k'].
    assert (E1 := proj1 (A h k) (or_introl eq_refl)).
    assert (E2 := proj1 (A h' k') (or_intror (or_introl eq_refl))).
    inversion ND as [|? ? N _]. apply N. left. congruence.
Qed.

(* ---------- a sequence of writes ---------- *)
Lemma write_nbr_miss ws : forall nb f i, (forall w, In w ws -> fst w <> (f, i)) ->
  fold_left write_nbr ws nb f i = nb f i.
Proof.
  induction ws as [|w ws IH]; intros nb f i H; [reflexivity|]. cbn [fold_left].
  rewrite IH by (intros w' H'; apply H; right; exact H'). unfold write_nbr.
  destruct (Nat.eqb_spec f (fst (fst w))), (Nat.eqb_spec i (snd (fst w))); cbn [andb]; try reflexivity.
  exfalso. apply (H w (or_introl eq_refl)). destruct w as [[x y] z]. cbn in *. congruence.
Qed.
Lemma write_nbr_hit ws v : forall nb f i, (exists w, In w ws /\ fst w = (f, i)) ->
  (forall w, In w ws -> fst w = (f, i) -> snd w = v) ->
  fold_left write_nbr ws nb f i = v.
Proof.
  induction ws as [|w ws IH]; intros nb f i [w0 [H0 E0]] H; [destruct H0|]. cbn [fold_left].
  destruct (existsb (fun w' => Nat.eqb (fst (fst w')) f && Nat.eqb (snd (fst w')) i) ws) eqn:X.
  - apply existsb_exists in X. destruct X as [w1 [H1 E1]]. apply andb_true_iff in E1. destruct E1 as [E1 E2].
    apply Nat.eqb_eq in E1, E2. apply IH.
    + exists w1. split; [exact H1|]. destruct w1 as [[x y] z]. cbn in *. congruence.
    + intros w' H' E'. apply H; [right; exact H'|exact E'].
  - assert (N : forall w', In w' ws -> fst w' <> (f, i)).
    { intros w' H' E'. assert (T : existsb (fun w' => Nat.eqb (fst (fst w')) f && Nat.eqb (snd (fst w')) i) ws = true).
      { apply existsb_exists. exists w'. split; [exact H'|]. rewrite E'. cbn. rewrite !Nat.eqb_refl. reflexivity. }
      congruence. }
    rewrite write_nbr_miss by exact N.
    destruct H0 as [H0|H0]; [|exfalso; exact (N w0 H0 E0)]. subst w0. unfold write_nbr.
    rewrite E0. cbn [fst snd]. rewrite !Nat.eqb_refl. cbn [andb]. apply H; [left; reflexivity|exact E0].
Qed.

Lemma id_facet m f g : conforming m -> In f (facets m) -> In g (facets m) -> fa_id f = fa_id g -> f = g.
Proof.
  intros C Hf Hg E. assert (ND := cf_ids _ C). revert Hf Hg ND. generalize (facets m). intros l.
  induction l as [|h l IH]; [intros []|]. intros [Hf|Hf] [Hg|Hg] ND; cbn [map] in ND; inversion ND as [|? ? N ND']; subst.
  - reflexivity.
  - exfalso. apply N. rewrite E. apply in_map. exact Hg.
  - exfalso. apply N. rewrite <- E. apply in_map. exact Hf.
  - apply IH; assumption.
Qed.

(* the edge joining the ends of a side which has elements on both sides is
   interior *)
Lemma interior_edge m a b : conforming m -> In (a, b) (all_sides m) -> In (b, a) (all_sides m) ->
  exists e, In e (mh_intr m) /\ ((ed_1 e = a /\ ed_2 e = b) \/ (ed_1 e = b /\ ed_2 e = a)).
Proof.
  intros C H1 H2. destruct (cf_cover _ C a b H1) as [e [He E]]. unfold all_edges in He.
  apply in_app_or in He. destruct He as [He|He]; [exists e; tauto|]. exfalso.
  destruct (cf_bdry _ C e He) as [_ N]. destruct E as [[E1 E2]|[E1 E2]]; subst; contradiction.
Qed.

(* every write goes to a side with elements on both sides and names the element
   on the other side *)
Lemma nbr_writes_sound m e w : conforming m -> In e (mh_intr m) -> In w (nbr_writes m e) ->
  exists f i g a b, In f (facets m) /\ In g (facets m) /\ side_at f i = Some (a, b) /\ In (b, a) (sides g) /\
    w = ((fa_id f, i), Some (fa_id g)) /\ ((ed_1 e = a /\ ed_2 e = b) \/ (ed_1 e = b /\ ed_2 e = a)).
Proof.
  intros C He Hw. destruct (cf_intr _ C e He) as [H1 H2].
  apply all_sides_in in H1, H2. destruct H1 as [f [Hf Pf]], H2 as [g [Hg Pg]].
  destruct (in_side_at _ _ Pf) as [i Si]. destruct (in_side_at _ _ Pg) as [j Sj].
  unfold nbr_writes in Hw.
  assert (T : w = ((fa_id f, i), Some (fa_id g)) \/ w = ((fa_id g, j), Some (fa_id f))).
  { destruct (sharing_interior m _ _ f g i j C Hf Hg Si Sj) as [E|E]; rewrite E in Hw; cbn in Hw;
      destruct Hw as [Hw|[Hw|[]]]; auto. }
  destruct T as [T|T].
  - exists f, i, g, (ed_1 e), (ed_2 e). auto 8.
  - exists g, j, f, (ed_2 e), (ed_1 e). auto 8.
Qed.

Lemma nbr_writes_complete m e f i g a b : conforming m -> In e (mh_intr m) ->
  In f (facets m) -> In g (facets m) -> side_at f i = Some (a, b) -> In (b, a) (sides g) ->
  ((ed_1 e = a /\ ed_2 e = b) \/ (ed_1 e = b /\ ed_2 e = a)) ->
  In ((fa_id f, i), Some (fa_id g)) (nbr_writes m e).
Proof.
  intros C He Hf Hg Si Pg E. destruct (in_side_at _ _ Pg) as [j Sj]. unfold nbr_writes.
  destruct E as [[E1 E2]|[E1 E2]]; rewrite E1, E2.
  - destruct (sharing_interior m a b f g i j C Hf Hg Si Sj) as [X|X]; rewrite X; cbn; auto.
  - destruct (sharing_interior m b a g f j i C Hg Hf Sj Si) as [X|X]; rewrite X; cbn; auto.
Qed.

Lemma pair_dec (p q : nat * nat) : {p = q} + {p <> q}.
Proof. decide equality; apply Nat.eq_dec. Qed.

Theorem setup_neighbour m f i g : conforming m -> boundary_unset m -> In f (facets m) ->
  (exists p, side_at f i = Some p) ->
  (mh_nbr (setup_facet_connectivity m) (fa_id f) i = Some g <->
   exists fg, fa_id fg = g /\ across m f i fg).
Proof.
  intros C U Hf [[a b] Si]. cbn [setup_facet_connectivity mh_nbr].
  set (ws := flat_map (nbr_writes m) (mh_intr m)).
  assert (SD : forall w, In w ws -> fst w = (fa_id f, i) ->
            exists fg, In fg (facets m) /\ In (b, a) (sides fg) /\ snd w = Some (fa_id fg)).
  { intros w Hw E. apply in_flat_map in Hw. destruct Hw as [e [He Hw]].
    destruct (nbr_writes_sound m e w C He Hw) as [f' [i' [g' [a' [b' [H1 [H2 [H3 [H4 [H5 H6]]]]]]]]]].
    subst w. cbn in E. injection E as E1 E2. subst i'. apply (id_facet m f' f C H1 Hf) in E1. subst f'.
    rewrite Si in H3. injection H3 as E1 E2. subst a' b'. exists g'. auto. }
  destruct (in_dec pair_dec (b, a) (all_sides m)) as [R|R].
  - assert (R' := R). apply all_sides_in in R'. destruct R' as [fg [Hg Pg]].
    assert (L : In (a, b) (all_sides m)) by (apply all_sides_in; exists f; split; [exact Hf|exact (side_at_in _ _ _ Si)]).
    destruct (interior_edge m a b C L R) as [e [He Ee]].
    assert (V : fold_left write_nbr ws (mh_nbr m) (fa_id f) i = Some (fa_id fg)).
    { apply write_nbr_hit.
      - exists ((fa_id f, i), Some (fa_id fg)). split; [|reflexivity]. apply in_flat_map. exists e. split; [exact He|].
        exact (nbr_writes_complete m e f i fg a b C He Hf Hg Si Pg Ee).
      - intros w Hw E. destruct (SD w Hw E) as [fg' [Hg' [Pg' Sw]]]. rewrite Sw. do 2 f_equal.
        exact (side_owner m fg' fg (b, a) C Hg' Hg Pg' Pg). }
    rewrite V. split.
    + intros E. injection E as E. exists fg. split; [exact E|]. exists a, b. auto.
    + intros [fg' [E [a' [b' [S' [Hg' Pg']]]]]]. rewrite Si in S'. injection S' as E1 E2. subst a' b' g.
      do 2 f_equal. exact (side_owner m fg fg' (b, a) C Hg Hg' Pg Pg').
  - assert (V : fold_left write_nbr ws (mh_nbr m) (fa_id f) i = None).
    { rewrite write_nbr_miss; [exact (U f i a b Hf Si R)|].
      intros w Hw E. destruct (SD w Hw E) as [fg [Hg [Pg _]]]. apply R. apply all_sides_in. exists fg. auto. }
    rewrite V. split; [discriminate|].
    intros [fg [_ [a' [b' [S' [Hg' Pg']]]]]]. rewrite Si in S'. injection S' as E1 E2. subst a' b'.
    exfalso. apply R. apply all_sides_in. exists fg. auto.
Qed.

(* ---------- left and right facet of an edge ---------- *)
Lemma set_side_ends m f e : ed_1 (set_side m f e) = ed_1 e /\ ed_2 (set_side m f e) = ed_2 e /\ ed_id (set_side m f e) = ed_id e.
Proof. unfold set_side. destruct (is_left _ _ _); auto. Qed.

Lemma connect_intr_sides m e : conforming m -> (forall f, In f (facets m) -> centred (mh_pos m) f) ->
  In e (mh_intr m) ->
  exists f g, In f (facets m) /\ In g (facets m) /\ In (ed_1 e, ed_2 e) (sides f) /\ In (ed_2 e, ed_1 e) (sides g) /\
    ed_l (connect_intr m e) = Some (fa_id f) /\ ed_r (connect_intr m e) = Some (fa_id g).
Proof.
  intros C N He. destruct (cf_intr _ C e He) as [H1 H2].
  apply all_sides_in in H1, H2. destruct H1 as [f [Hf Pf]], H2 as [g [Hg Pg]].
  destruct (in_side_at _ _ Pf) as [i Si]. destruct (in_side_at _ _ Pg) as [j Sj].
  exists f, g. split; [exact Hf|]. split; [exact Hg|]. split; [exact Pf|]. split; [exact Pg|].
  destruct (N f Hf _ _ Pf) as [Lf _]. destruct (N g Hg _ _ Pg) as [_ Lg].
  unfold connect_intr.
  destruct (sharing_interior m _ _ f g i j C Hf Hg Si Sj) as [E|E]; rewrite E; unfold set_side;
    rewrite ?Lf, ?Lg; cbn; rewrite ?Lf, ?Lg; cbn; auto.
Qed.

Lemma connect_bdry_side m e : conforming m -> (forall f, In f (facets m) -> centred (mh_pos m) f) ->
  In e (mh_bdry m) ->
  exists f, In f (facets m) /\ In (ed_1 e, ed_2 e) (sides f) /\ ed_l (connect_bdry m e) = Some (fa_id f).
Proof.
  intros C N He. destruct (cf_bdry _ C e He) as [H1 H2].
  apply all_sides_in in H1. destruct H1 as [f [Hf Pf]].
  destruct (in_side_at _ _ Pf) as [i Si].
  exists f. split; [exact Hf|]. split; [exact Pf|].
  destruct (N f Hf _ _ Pf) as [Lf _].
  unfold connect_bdry. rewrite (sharing_boundary m _ _ f i C Hf Si H2). unfold set_side. rewrite !Lf. reflexivity.
Qed.
