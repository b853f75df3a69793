(* Proofs about the quad refinement, part 3: the refined mesh is conforming,
   well addressed, covers the same area and keeps colours. *)
From Coq Require Import Lia Permutation Lqa.
From Verif Require Import Base GeomModel FacetModel UtilModel AdvanceModel Chain AdvanceProofs MeshModel MeshSpec MeshProofs
  QRefineModel QRefineSpec QRefineProofs QRefineShape.

Lemma nodup_flat_map {A B} (k : A -> list B) l : NoDup l -> (forall x, In x l -> NoDup (k x)) ->
  (forall x y p, In x l -> In y l -> In p (k x) -> In p (k y) -> x = y) -> NoDup (flat_map k l).
Proof.
  induction l as [|a l IH]; intros ND H1 H2; [constructor|]. inversion ND as [|? ? NI ND']. subst. cbn [flat_map].
  assert (X : forall p, In p (k a) -> ~ In p (flat_map k l)).
  { intros p Hp H. apply in_flat_map in H. destruct H as [y [Hy Hp']]. apply NI.
    rewrite (H2 a y p (or_introl eq_refl) (or_intror Hy) Hp Hp'). exact Hy. }
  assert (IH' : NoDup (flat_map k l)).
  { apply IH; [exact ND'|intros x Hx; apply H1; right; exact Hx|]. intros x y p Hx Hy. apply H2; right; assumption. }
  assert (Na := H1 a (or_introl eq_refl)). revert Na X IH'. generalize (flat_map k l). intros r. clear.
  induction (k a) as [|b t IH]; intros N X R; [exact R|]. inversion N as [|? ? N1 N2]. subst. cbn [app]. constructor.
  - intros H. apply in_app_or in H. destruct H as [H|H]; [exact (N1 H)|exact (X b (or_introl eq_refl) H)].
  - apply IH; [exact N2| |exact R]. intros p Hp. apply X. right. exact Hp.
Qed.
Lemma nodup_map_inj' {A B} (f : A -> B) l x y : NoDup (map f l) -> In x l -> In y l -> f x = f y -> x = y.
Proof.
  induction l as [|a l IH]; intros ND Hx Hy E; [destruct Hx|]. cbn [map] in ND. inversion ND as [|? ? NI ND']. subst.
  destruct Hx as [Hx|Hx], Hy as [Hy|Hy]; subst; auto.
  - exfalso. apply NI. rewrite E. apply in_map. exact Hy.
  - exfalso. apply NI. rewrite <- E. apply in_map. exact Hx.
Qed.

(* ---------- the new elements ---------- *)
Lemma number_quads_sh n c l : map fa_sh (number_quads n c l) = l.
Proof. revert n. induction l as [|s l IH]; intros n; [reflexivity|]. cbn [number_quads map fa_sh]. rewrite IH. reflexivity. Qed.
Lemma new_quads_sh sg fs : forall n, map fa_sh (new_quads sg n fs) =
  flat_map (fun fg => sub_shapes sg (snd fg) (fst fg)) (combine fs (new_centres n fs)).
Proof.
  induction fs as [|f fs IH]; intros n; [reflexivity|]. cbn [new_quads new_centres combine flat_map fst snd].
  rewrite map_app, number_quads_sh, IH. reflexivity.
Qed.
Lemma number_quads_range n c l x : In x (number_quads n c l) -> (n <= fa_id x < n + length l)%nat /\ fa_col x = c.
Proof.
  revert n. induction l as [|s l IH]; intros n H; [destruct H|]. cbn [number_quads length] in *.
  destruct H as [H|H]; [subst; cbn; split; [lia|reflexivity]|]. apply IH in H. destruct H. split; [lia|assumption].
Qed.
Lemma number_quads_nodup c l : forall n, NoDup (map fa_id (number_quads n c l)).
Proof.
  induction l as [|s l IH]; intros n; [constructor|]. cbn [number_quads map fa_id]. constructor; [|apply IH].
  intros H. apply in_map_iff in H. destruct H as [x [E H]]. apply number_quads_range in H. lia.
Qed.
Lemma sub_shapes_length sg g f : length (sub_shapes sg g f) = ncorner f.
Proof. unfold sub_shapes, ncorner. destruct (fa_sh f); reflexivity. Qed.
Lemma new_quads_low sg fs : forall n x, In x (new_quads sg n fs) -> (n < fa_id x)%nat.
Proof.
  induction fs as [|f fs IH]; intros n x H; [destruct H|]. cbn [new_quads] in H. apply in_app_or in H. destruct H as [H|H].
  - apply number_quads_range in H. lia.
  - apply IH in H. lia.
Qed.
Lemma nodup_app {A} (l l' : list A) : NoDup l -> NoDup l' -> (forall x, In x l -> ~ In x l') -> NoDup (l ++ l').
Proof.
  induction l as [|a l IH]; intros N N' D; [exact N'|]. inversion N as [|? ? N1 N2]. subst. cbn [app]. constructor.
  - intros H. apply in_app_or in H. destruct H as [H|H]; [exact (N1 H)|exact (D a (or_introl eq_refl) H)].
  - apply IH; [exact N2|exact N'|]. intros x Hx. apply D. right. exact Hx.
Qed.
Lemma new_quads_nodup sg fs : forall n, NoDup (map fa_id (new_quads sg n fs)).
Proof.
  induction fs as [|f fs IH]; intros n; [constructor|]. cbn [new_quads]. rewrite map_app. apply nodup_app.
  - apply number_quads_nodup.
  - apply IH.
  - intros k H H'. apply in_map_iff in H. destruct H as [x [E H]]. apply in_map_iff in H'. destruct H' as [y [E' H']].
    apply number_quads_range in H. rewrite sub_shapes_length in H. apply new_quads_low in H'. lia.
Qed.
Lemma new_centres_low fs : forall n g, In g (new_centres n fs) -> (n <= g)%nat.
Proof.
  induction fs as [|f fs IH]; intros n g H; [destruct H|]. cbn [new_centres] in H. destruct H as [H|H]; [lia|]. apply IH in H. lia.
Qed.
Lemma new_centres_nodup fs : forall n, NoDup (new_centres n fs).
Proof.
  induction fs as [|f fs IH]; intros n; [constructor|]. cbn [new_centres]. constructor; [|apply IH].
  intros H. apply new_centres_low in H. lia.
Qed.
Lemma new_centres_length fs : forall n, length (new_centres n fs) = length fs.
Proof. induction fs as [|f fs IH]; intros n; [reflexivity|]. cbn [new_centres length]. rewrite IH. reflexivity. Qed.

Lemma number_edges_ends n l : map ends_of (number_edges n l) = l.
Proof. revert n. induction l as [|[a b] l IH]; intros n; [reflexivity|]. cbn [number_edges map]. rewrite IH. reflexivity. Qed.
Lemma number_edges_nodup l : forall n, NoDup (map ed_id (number_edges n l)).
Proof.
  induction l as [|p l IH]; intros n; [constructor|]. cbn [number_edges map ed_id]. constructor; [|apply IH].
  intros H. apply in_map_iff in H. destruct H as [x [E H]]. apply number_edges_in in H. lia.
Qed.
Lemma spokes_length sg g f : length (spokes sg g f) = ncorner f.
Proof. unfold spokes, sides, ncorner. destruct (fa_sh f); reflexivity. Qed.
Lemma new_spokes_low sg fs : forall n x, In x (new_spokes sg n fs) -> (n < ed_id x)%nat.
Proof.
  induction fs as [|f fs IH]; intros n x H; [destruct H|]. cbn [new_spokes] in H. apply in_app_or in H. destruct H as [H|H].
  - apply number_edges_in in H. lia.
  - apply IH in H. lia.
Qed.
Lemma new_spokes_nodup sg fs : forall n, NoDup (map ed_id (new_spokes sg n fs)).
Proof.
  induction fs as [|f fs IH]; intros n; [constructor|]. cbn [new_spokes]. rewrite map_app. apply nodup_app.
  - apply number_edges_nodup.
  - apply IH.
  - intros k H H'. apply in_map_iff in H. destruct H as [x [E H]]. apply in_map_iff in H'. destruct H' as [y [E' H']].
    apply number_edges_in in H. rewrite spokes_length in H. apply new_spokes_low in H'. lia.
Qed.
Lemma new_spokes_ends sg fs : forall n, map ends_of (new_spokes sg n fs) =
  flat_map (fun fg => spokes sg (snd fg) (fst fg)) (combine fs (new_centres n fs)).
Proof.
  induction fs as [|f fs IH]; intros n; [reflexivity|]. cbn [new_spokes new_centres combine flat_map fst snd].
  rewrite map_app, number_edges_ends, IH. reflexivity.
Qed.

(* the sides of the sub elements, side by side of the coarse element *)
Definition quarter (sg : nat -> nat -> nat) (sgp : (nat * nat) * nat) : list (nat * nat) :=
  let '((a, b), g) := sgp in [(a, sg a b); (sg a b, b); (sg a b, g); (g, sg a b)].
Definition shape_sides (s : shape) : list (nat * nat) := ring_edges (corners s).
Definition sided (fg : facet * nat) : list ((nat * nat) * nat) := map (fun s => (s, snd fg)) (sides (fst fg)).

(* permutations of explicit lists *)
Ltac perm_step :=
  match goal with
  | |- Permutation (?x :: ?l) ?r =>
      let rec go pre suf :=
        match suf with
        | x :: ?t => change r with (pre ++ x :: t); apply Permutation_cons_app; cbn [app]
        | ?y :: ?t => let pre' := eval cbn [app] in (pre ++ [y]) in go pre' t
        end in
      let T := type of x in go (@nil T) r
  end.
Ltac perm := repeat perm_step; apply Permutation_refl.

Lemma sub_shapes_sides sg g f :
  Permutation (flat_map shape_sides (sub_shapes sg g f)) (flat_map (quarter sg) (sided (f, g))).
Proof.
  unfold sub_shapes, sided, sides. cbn [fst snd].
  destruct (fa_sh f) as [a b c|a b c d]; cbn [corners ring_edges path_edges flat_map shape_sides map app quarter fst snd].
  - generalize (sg a b) (sg b c) (sg c a). intros x y z. perm.
  - generalize (sg a b) (sg b c) (sg c d) (sg d a). intros x y z w. perm.
Qed.

Section Conf.
Variables c m : mesh.
Hypothesis C : conforming c.
Hypothesis A : addressed c.
Hypothesis R : refined c m.
Let sg := mid_of c.

Lemma order_facets f : In f (order c) <-> In f (facets c).
Proof. unfold order, facets. rewrite !in_app_iff. tauto. Qed.
Lemma order_nodup : NoDup (order c).
Proof.
  apply (Permutation_NoDup (l := facets c)); [apply Permutation_app_comm|]. apply nodup_facets. exact (cf_ids _ C).
Qed.
Lemma fc_total f : In f (facets c) -> exists g, In (f, g) (facet_centres c).
Proof. intros H. apply combine_total; [unfold centres; rewrite new_centres_length; reflexivity|apply order_facets; exact H]. Qed.
Lemma fc_in f g : In (f, g) (facet_centres c) -> In f (facets c) /\ In g (centres c) /\ (cstart c <= g < mh_next m)%nat.
Proof.
  intros H. split; [apply order_facets; exact (in_combine_l _ _ _ _ H)|]. assert (X := in_combine_r _ _ _ _ H).
  split; [exact X|exact (rf_crange _ _ R g X)].
Qed.
Lemma fc_inj f f' g : In (f, g) (facet_centres c) -> In (f', g) (facet_centres c) -> f = f'.
Proof. apply combine_inj. apply new_centres_nodup. Qed.
Lemma side_old f a b : In f (facets c) -> In (a, b) (sides f) ->
  In a (mh_verts c) /\ In b (mh_verts c) /\ (a < mh_next c)%nat /\ (b < mh_next c)%nat /\ a <> b.
Proof.
  intros Hf Hs. destruct (side_corners f a b Hs) as [H1 H2].
  assert (V1 := ad_corner _ A f _ Hf H1). assert (V2 := ad_corner _ A f _ Hf H2).
  split; [exact V1|]. split; [exact V2|]. split; [exact (ad_vnext _ A _ V1)|]. split; [exact (ad_vnext _ A _ V2)|].
  exact (side_neq f _ _ (cf_corners _ C f Hf) Hs).
Qed.
Lemma cstart_ge : (mh_next c <= cstart c)%nat.
Proof. unfold cstart. lia. Qed.

Definition sgs : list ((nat * nat) * nat) := flat_map sided (facet_centres c).
Lemma sgs_in a b g : In ((a, b), g) sgs <-> exists f, In (f, g) (facet_centres c) /\ In (a, b) (sides f).
Proof.
  unfold sgs. rewrite in_flat_map. split.
  - intros [[f g'] [H1 H2]]. unfold sided in H2. apply in_map_iff in H2. destruct H2 as [s [E H2]]. cbn [fst snd] in *.
    injection E as E1 E2. subst. exists f. auto.
  - intros [f [H1 H2]]. exists (f, g). split; [exact H1|]. unfold sided. apply in_map_iff. exists (a, b). auto.
Qed.
Lemma sgs_nodup : NoDup (map fst sgs).
Proof.
  assert (E : map fst sgs = flat_map sides (order c)).
  { unfold sgs, facet_centres. assert (L : length (order c) = length (centres c)) by (unfold centres; rewrite new_centres_length; reflexivity).
    revert L. generalize (centres c). induction (order c) as [|f l IH]; intros [|g k] L; try discriminate; [reflexivity|].
    cbn [combine flat_map]. rewrite map_app. injection L as L. rewrite IH by exact L. f_equal.
    unfold sided. rewrite map_map. cbn [fst snd]. apply map_id. }
  rewrite E. apply (Permutation_NoDup (l := all_sides c)); [|exact (cf_sides _ C)].
  unfold all_sides. apply Permutation_flat_map. apply Permutation_app_comm.
Qed.

Lemma all_sides_perm : Permutation (all_sides m) (flat_map (quarter sg) sgs).
Proof.
  unfold all_sides, facets. rewrite (rf_tris _ _ R), app_nil_r, (rf_quads _ _ R).
  assert (E : forall l, flat_map sides l = flat_map shape_sides (map fa_sh l)).
  { induction l as [|x l IH]; [reflexivity|]. cbn [flat_map map]. rewrite IH. reflexivity. }
  rewrite E, new_quads_sh. fold (centres c). fold (facet_centres c). unfold sgs.
  induction (facet_centres c) as [|[f g] l IH]; [constructor|].
  cbn [flat_map fst snd]. rewrite !flat_map_app. apply Permutation_app; [apply sub_shapes_sides|exact IH].
Qed.
Lemma new_side p : In p (all_sides m) <-> exists f g a b, In (f, g) (facet_centres c) /\ In (a, b) (sides f) /\
  (p = (a, sg a b) \/ p = (sg a b, b) \/ p = (sg a b, g) \/ p = (g, sg a b)).
Proof.
  split.
  - intros H. apply (Permutation_in _ all_sides_perm) in H. apply in_flat_map in H. destruct H as [[[a b] g] [H1 H2]].
    apply sgs_in in H1. destruct H1 as [f [F1 F2]]. exists f, g, a, b. split; [exact F1|]. split; [exact F2|].
    cbn [quarter In] in H2. intuition congruence.
  - intros [f [g [a [b [H1 [H2 H3]]]]]]. apply (Permutation_in _ (Permutation_sym all_sides_perm)).
    apply in_flat_map. exists ((a, b), g). split; [apply sgs_in; exists f; auto|]. cbn [quarter In].
    destruct H3 as [H3|[H3|[H3|H3]]]; subst; auto.
Qed.
Lemma sg_range f a b : In f (facets c) -> In (a, b) (sides f) ->
  In (sg a b) (mids c) /\ (mh_next c <= sg a b < cstart c)%nat.
Proof. intros Hf Hs. apply mid_of_range; [exact C|]. apply all_sides_in. exists f. auto. Qed.
Lemma sg_inj f f' a b a' b' : In f (facets c) -> In (a, b) (sides f) -> In f' (facets c) -> In (a', b') (sides f') ->
  sg a b = sg a' b' -> (a = a' /\ b = b') \/ (a = b' /\ b = a').
Proof. intros Hf Hs Hf' Hs'. apply mid_of_inj; [exact C| |]; apply all_sides_in; [exists f|exists f']; auto. Qed.

Ltac facts H H2 := 
  let F1 := fresh "F" in let F2 := fresh "F" in let F3 := fresh "F" in let F4 := fresh "F" in let F5 := fresh "F" in
  destruct (fc_in _ _ H) as [F1 [F2 F3]]; assert (F4 := side_old _ _ _ F1 H2); assert (F5 := sg_range _ _ _ F1 H2);
  destruct F4 as [_ [_ F4]].

Lemma pair_eq {X Y} (a a' : X) (b b' : Y) : (a, b) = (a', b') -> a = a' /\ b = b'.
Proof. intros E. injection E. auto. Qed.

Lemma new_sides_nodup : NoDup (all_sides m).
Proof.
  apply (Permutation_NoDup (Permutation_sym all_sides_perm)).
  apply nodup_flat_map.
  - exact (NoDup_map_inv' _ _ sgs_nodup).
  - intros [[a b] g] H. apply sgs_in in H. destruct H as [f [H H2]]. facts H H2. assert (G := cstart_ge).
    cbn [quarter]. fold sg.
    constructor; [|constructor; [|constructor; [|constructor; [|constructor]]]]; cbn [In];
      intros X; or_destruct X; try contradiction; apply pair_eq in X; lia.
  - intros [[a b] g] [[a' b'] g'] p H H' P P'.
    assert (K : (a, b) = (a', b') -> (a, b, g) = (a', b', g')).
    { intros E. apply (nodup_map_inj' fst sgs); [exact sgs_nodup|exact H|exact H'|exact E]. }
    apply sgs_in in H. destruct H as [f [H H2]]. apply sgs_in in H'. destruct H' as [f' [H' H2']].
    facts H H2. facts H' H2'. assert (G := cstart_ge). apply K.
    assert (I := sg_inj f f' a b a' b' F H2 F4 H2').
    cbn [quarter In] in P, P'. fold sg in P, P'.
    or_destruct P; try contradiction; or_destruct P'; try contradiction; rewrite <- P in P'; apply pair_eq in P';
      destruct P' as [P1 P2]; try lia; try (symmetry in P1; specialize (I P1)); try (symmetry in P2; specialize (I P2));
      destruct I as [[I1 I2]|[I1 I2]]; try (subst; reflexivity); try lia.
    + exfalso. subst g' a' b'. assert (f = f') by exact (fc_inj _ _ _ H H'). subst f'.
      exact (side_no_rev f a b (cf_corners _ C f F) H2 H2').
    + exfalso. subst g' a' b'. assert (f = f') by exact (fc_inj _ _ _ H H'). subst f'.
      exact (side_no_rev f a b (cf_corners _ C f F) H2 H2').
Qed.

(* ---------- the new edges ---------- *)
Definition half_ends (ev : medge * nat) : list (nat * nat) := [(ed_1 (fst ev), snd ev); (snd ev, ed_2 (fst ev))].
Definition spoke_ends (x : (nat * nat) * nat) : nat * nat := (sg (fst (fst x)) (snd (fst x)), snd x).

Lemma combine_app' {X Y} (l l' : list X) : forall (k k' : list Y), length l = length k ->
  combine (l ++ l') (k ++ k') = combine l k ++ combine l' k'.
Proof.
  induction l as [|x l IH]; intros [|y k] k' L; try discriminate; [reflexivity|]. cbn. f_equal. apply IH. injection L as L. exact L.
Qed.
Lemma halves_both : map ends_of (halves (fun _ => interior_edge_color) 0%N (mh_next c) (mh_intr c) ++ mh_bdry m) =
  flat_map half_ends (edge_mids c).
Proof.
  rewrite (rf_bdry _ _ R), map_app, !halves_ends. unfold edge_mids, mids, all_edges.
  rewrite new_mids_app, combine_app' by (rewrite new_mids_length; reflexivity).
  rewrite flat_map_app. reflexivity.
Qed.
Lemma spokes_all : map ends_of (new_spokes sg (cstart c) (order c)) = map spoke_ends sgs.
Proof.
  rewrite new_spokes_ends. fold (centres c). fold (facet_centres c). unfold sgs.
  induction (facet_centres c) as [|[f g] l IH]; [reflexivity|]. cbn [flat_map fst snd]. rewrite map_app, IH. f_equal.
  unfold spokes, sided. cbn [fst snd]. rewrite map_map. reflexivity.
Qed.
Lemma all_edges_perm : Permutation (all_edges m)
  ((halves (fun _ => interior_edge_color) 0%N (mh_next c) (mh_intr c) ++ mh_bdry m) ++ new_spokes sg (cstart c) (order c)).
Proof.
  unfold all_edges. rewrite (rf_intr _ _ R). fold sg. rewrite <- !app_assoc. apply Permutation_app_head. apply Permutation_app_comm.
Qed.
Lemma new_ends_perm : Permutation (map ends_of (all_edges m)) (flat_map half_ends (edge_mids c) ++ map spoke_ends sgs).
Proof.
  rewrite (Permutation_map ends_of all_edges_perm), map_app, halves_both, spokes_all. reflexivity.
Qed.
Lemma edge_mid_side e v : In (e, v) (edge_mids c) -> exists f, In f (facets c) /\ In (ed_1 e, ed_2 e) (sides f) /\ v = sg (ed_1 e) (ed_2 e).
Proof.
  intros H. destruct (edge_mids_in _ _ _ H) as [He _]. destruct (edge_corner c e C He) as [f [Hf Hs]].
  exists f. split; [exact Hf|]. split; [exact Hs|]. symmetry. apply (mid_of_spec c e v _ _ C H). apply ed_joins_iff. auto.
Qed.
Lemma edge_mids_fst : map fst (edge_mids c) = all_edges c.
Proof.
  unfold edge_mids, mids. assert (L : length (all_edges c) = length (new_mids (mh_next c) (all_edges c))) by (rewrite new_mids_length; reflexivity).
  revert L. generalize (new_mids (mh_next c) (all_edges c)). induction (all_edges c) as [|x l IH]; intros [|y k] L; try discriminate; [reflexivity|].
  cbn. f_equal. apply IH. injection L as L. exact L.
Qed.
Lemma edge_mids_nodup : NoDup (edge_mids c).
Proof. apply (NoDup_map_inv' fst). rewrite edge_mids_fst. exact (all_edges_nodup c C). Qed.

Lemma new_ends_nodup : NoDup (map ends_of (all_edges m)).
Proof.
  apply (Permutation_NoDup (Permutation_sym new_ends_perm)). assert (G := cstart_ge). apply nodup_app.
  - apply nodup_flat_map; [exact edge_mids_nodup| |].
    + intros [e v] H. destruct (edge_mids_in _ _ _ H) as [He [_ L]]. destruct (edge_old c e C A He) as [_ [_ [L1 [L2 L3]]]].
      unfold half_ends. cbn [fst snd]. constructor; [|constructor; [|constructor]]; cbn [In];
      intros X; or_destruct X; try contradiction; apply pair_eq in X; lia.
    + intros [e v] [e' v'] p H H' P P'.
      destruct (edge_mids_in _ _ _ H) as [He [_ L]]. destruct (edge_old c e C A He) as [_ [_ [L1 [L2 L3]]]].
      destruct (edge_mids_in _ _ _ H') as [He' [_ L']]. destruct (edge_old c e' C A He') as [_ [_ [L1' [L2' L3']]]].
      unfold half_ends in P, P'. cbn [fst snd In] in P, P'.
      assert (K : v = v' -> (e, v) = (e', v')).
      { intros E. subst v'. f_equal. exact (combine_inj _ _ _ _ _ (mids_nodup c) H H'). }
      or_destruct P; try contradiction; or_destruct P'; try contradiction; rewrite <- P in P'; apply pair_eq in P';
      destruct P' as [P1 P2]; try lia; apply K; congruence.
  - apply (NoDup_map_inv' (fun p => p)). rewrite map_id.
    assert (N := NoDup_map_inv' _ _ sgs_nodup). 
    assert (X : map spoke_ends sgs = flat_map (fun x => [spoke_ends x]) sgs).
    { clear. induction sgs as [|x l IH]; [reflexivity|]. cbn. rewrite IH. reflexivity. }
    rewrite X. apply nodup_flat_map; [exact N|intros x _; constructor; [intros []|constructor]|].
    intros [[a b] g] [[a' b'] g'] p H H' P P'. cbn [In] in P, P'. destruct P as [P|[]], P' as [P'|[]].
    rewrite <- P in P'. unfold spoke_ends in P'. cbn [fst snd] in P'. apply pair_eq in P'. destruct P' as [P1 P2]. subst g'.
    apply sgs_in in H. destruct H as [f [H H2]]. apply sgs_in in H'. destruct H' as [f' [H' H2']].
    assert (f = f') by exact (fc_inj _ _ _ H H'). subst f'. destruct (fc_in _ _ H) as [Hf _].
    symmetry in P1. destruct (sg_inj f f a b a' b' Hf H2 Hf H2' P1) as [[-> ->]|[-> ->]]; [reflexivity|].
    exfalso. exact (side_no_rev f _ _ (cf_corners _ C f Hf) H2 H2').
  - intros p H H'. apply in_flat_map in H. destruct H as [[e v] [H P]]. apply in_map_iff in H'. destruct H' as [[[a b] g] [E H']].
    apply sgs_in in H'. destruct H' as [f [H' H2]]. facts H' H2.
    destruct (edge_mids_in _ _ _ H) as [He [_ L]]. destruct (edge_old c e C A He) as [_ [_ [L1 [L2 L3]]]].
    unfold half_ends in P. cbn [fst snd In] in P. unfold spoke_ends in E. cbn [fst snd] in E.
    or_destruct P; try contradiction; rewrite <- E in P; apply pair_eq in P; lia.
Qed.
Lemma new_end p : In p (map ends_of (all_edges m)) <->
  (exists e v, In (e, v) (edge_mids c) /\ (p = (ed_1 e, v) \/ p = (v, ed_2 e))) \/
  (exists f g a b, In (f, g) (facet_centres c) /\ In (a, b) (sides f) /\ p = (sg a b, g)).
Proof.
  split.
  - intros H. apply (Permutation_in _ new_ends_perm) in H. apply in_app_or in H. destruct H as [H|H].
    + left. apply in_flat_map in H. destruct H as [[e v] [H P]]. exists e, v. split; [exact H|]. cbn in P. intuition congruence.
    + right. apply in_map_iff in H. destruct H as [[[a b] g] [E H]]. apply sgs_in in H. destruct H as [f [H1 H2]].
      exists f, g, a, b. split; [exact H1|]. split; [exact H2|]. symmetry. exact E.
  - intros H. apply (Permutation_in _ (Permutation_sym new_ends_perm)). apply in_or_app. destruct H as [H|H].
    + left. destruct H as [e [v [H P]]]. apply in_flat_map. exists (e, v). split; [exact H|]. cbn. intuition congruence.
    + right. destruct H as [f [g [a [b [H1 [H2 H3]]]]]]. apply in_map_iff. exists ((a, b), g). split; [symmetry; exact H3|].
      apply sgs_in. exists f. auto.
Qed.
Lemma new_end_norev a b : In (a, b) (map ends_of (all_edges m)) -> ~ In (b, a) (map ends_of (all_edges m)).
Proof.
  intros H H'. apply new_end in H. apply new_end in H'. assert (G := cstart_ge).
  destruct H as [[e [v [H P]]]|[f [g [x [y [H [H2 P]]]]]]], H' as [[e' [v' [H' P']]]|[f' [g' [x' [y' [H' [H2' P']]]]]]].
  - destruct (edge_mids_in _ _ _ H) as [He [_ L]]. destruct (edge_old c e C A He) as [_ [_ [L1 [L2 L3]]]].
    destruct (edge_mids_in _ _ _ H') as [He' [_ L']]. destruct (edge_old c e' C A He') as [_ [_ [L1' [L2' L3']]]].
    assert (K : v = v' -> e = e').
    { intros E. subst v'. exact (combine_inj _ _ _ _ _ (mids_nodup c) H H'). }
    destruct P as [P|P], P' as [P'|P']; apply pair_eq in P; apply pair_eq in P'; destruct P as [P1 P2], P' as [P1' P2']; subst; try lia.
    + rewrite (K eq_refl) in *. lia.
    + rewrite (K eq_refl) in *. lia.
  - destruct (edge_mids_in _ _ _ H) as [He [_ L]]. destruct (edge_old c e C A He) as [_ [_ [L1 [L2 L3]]]]. facts H' H2'.
    destruct P as [P|P]; apply pair_eq in P; apply pair_eq in P'; lia.
  - destruct (edge_mids_in _ _ _ H') as [He [_ L]]. destruct (edge_old c e' C A He) as [_ [_ [L1 [L2 L3]]]]. facts H H2.
    destruct P' as [P'|P']; apply pair_eq in P; apply pair_eq in P'; lia.
  - facts H H2. facts H' H2'. apply pair_eq in P; apply pair_eq in P'; lia.
Qed.

Lemma intr_end e : In e (mh_intr m) ->
  (exists x, In x (mh_intr c) /\ In (x, sg (ed_1 x) (ed_2 x)) (edge_mids c) /\
     (ends_of e = (ed_1 x, sg (ed_1 x) (ed_2 x)) \/ ends_of e = (sg (ed_1 x) (ed_2 x), ed_2 x))) \/
  (exists f g a b, In (f, g) (facet_centres c) /\ In (a, b) (sides f) /\ ends_of e = (sg a b, g)).
Proof.
  intros H. rewrite (rf_intr _ _ R) in H. apply in_app_or in H. destruct H as [H|H].
  - left. apply (in_map ends_of) in H. rewrite halves_ends in H. apply in_flat_map in H. destruct H as [[x v] [H P]].
    assert (Hx := in_combine_l _ _ _ _ H). cbn [fst snd In] in P.
    assert (HE : In (x, v) (edge_mids c)).
    { unfold edge_mids, mids, all_edges. rewrite new_mids_app, combine_app' by (rewrite new_mids_length; reflexivity).
      apply in_or_app. left. exact H. }
    assert (V : v = sg (ed_1 x) (ed_2 x)) by (destruct (edge_mid_side x v HE) as [_ [_ [_ V]]]; exact V). subst v.
    exists x. split; [exact Hx|]. split; [exact HE|]. intuition congruence.
  - right. apply (in_map ends_of) in H. fold sg in H. rewrite spokes_all in H. apply in_map_iff in H. destruct H as [[[a b] g] [E H]].
    apply sgs_in in H. destruct H as [f [H1 H2]]. exists f, g, a, b. split; [exact H1|]. split; [exact H2|]. symmetry. exact E.
Qed.
Lemma bdry_end e : In e (mh_bdry m) ->
  exists x, In x (mh_bdry c) /\ In (x, sg (ed_1 x) (ed_2 x)) (edge_mids c) /\
     (ends_of e = (ed_1 x, sg (ed_1 x) (ed_2 x)) \/ ends_of e = (sg (ed_1 x) (ed_2 x), ed_2 x)).
Proof.
  intros H. rewrite (rf_bdry _ _ R) in H.
  apply (in_map ends_of) in H. rewrite halves_ends in H. apply in_flat_map in H. destruct H as [[x v] [H P]].
  assert (Hx := in_combine_l _ _ _ _ H). cbn [fst snd In] in P.
  assert (HE : In (x, v) (edge_mids c)).
  { unfold edge_mids, mids, all_edges. rewrite new_mids_app, combine_app' by (rewrite new_mids_length; reflexivity).
    apply in_or_app. right. exact H. }
  assert (V : v = sg (ed_1 x) (ed_2 x)) by (destruct (edge_mid_side x v HE) as [_ [_ [_ V]]]; exact V). subst v.
  exists x. split; [exact Hx|]. split; [exact HE|]. intuition congruence.
Qed.
Lemma coarse_side_split a b : In (a, b) (all_sides c) -> In (a, sg a b) (all_sides m) /\ In (sg a b, b) (all_sides m).
Proof.
  intros H. apply all_sides_in in H. destruct H as [f [Hf Hs]]. destruct (fc_total f Hf) as [g Hg].
  split; apply new_side; exists f, g, a, b; auto 10.
Qed.
Lemma sg_sym a b : sg a b = sg b a.
Proof. apply mid_of_sym. Qed.

Theorem refined_conforming : conforming m.
Proof.
  assert (G := cstart_ge).
  constructor.
  - unfold facets. rewrite (rf_tris _ _ R), app_nil_r, (rf_quads _ _ R). apply new_quads_nodup.
  - intros q Hq. unfold facets in Hq. rewrite (rf_tris _ _ R), app_nil_r, (rf_quads _ _ R) in Hq.
    apply (in_map fa_sh) in Hq. rewrite new_quads_sh in Hq. apply in_flat_map in Hq. destruct Hq as [[f g] [H Hs]].
    fold (centres c) in H. fold (facet_centres c) in H. cbn [fst snd] in Hs. destruct (fc_in _ _ H) as [Hf [_ Lg]].
    assert (ND := cf_corners _ C f Hf). fold sg in Hs.
    assert (Q : forall a b z, In (a, b) (sides f) -> In (z, a) (sides f) -> b <> z -> NoDup [a; sg a b; g; sg z a]).
    { intros a b z H1 H2 NE. destruct (side_old _ _ _ Hf H1) as [_ [_ [O1 [O2 O3]]]].
      destruct (side_old _ _ _ Hf H2) as [_ [_ [O4 [O5 O6]]]].
      destruct (sg_range _ _ _ Hf H1) as [_ S1]. destruct (sg_range _ _ _ Hf H2) as [_ S2].
      assert (S3 : sg a b <> sg z a).
      { intros E. destruct (sg_inj f f a b z a Hf H1 Hf H2 E) as [[? ?]|[? ?]]; congruence. }
      repeat constructor; cbn [In]; intuition lia. }
    unfold sub_shapes in Hs. unfold sides in Q. destruct (fa_sh f) as [a b x|a b x d];
      cbn [corners ring_edges path_edges app] in Q, ND; cbn [In] in Hs.
    + apply nodup3 in ND. destruct ND as [D1 [D2 D3]].
      or_destruct Hs; try contradiction; rewrite <- Hs; cbn [corners]; apply Q; cbn; auto.
    + apply nodup4 in ND. destruct ND as [D1 [D2 [D3 [D4 [D5 D6]]]]].
      or_destruct Hs; try contradiction; rewrite <- Hs; cbn [corners]; apply Q; cbn; auto 6.
  - intros q Hq. rewrite (rf_quads _ _ R) in Hq. apply (in_map fa_sh) in Hq. rewrite new_quads_sh in Hq.
    apply in_flat_map in Hq. destruct Hq as [[f g] [_ Hs]]. cbn [fst snd] in Hs. unfold sub_shapes in Hs.
    destruct (fa_sh f); cbn [In] in Hs; or_destruct Hs; try contradiction; rewrite <- Hs; eauto.
  - intros t Ht. rewrite (rf_tris _ _ R) in Ht. destruct Ht.
  - exact new_sides_nodup.
  - intros e He. assert (X : forall a b, ends_of e = (a, b) -> ed_1 e = a /\ ed_2 e = b).
    { intros a b E. apply pair_eq in E. exact E. }
    destruct (intr_end e He) as [[x [Hx [_ P]]]|[f [g [a [b [H1 [H2 P]]]]]]].
    + destruct (cf_intr _ C x Hx) as [I1 I2]. apply coarse_side_split in I1. apply coarse_side_split in I2.
      rewrite (sg_sym (ed_2 x) (ed_1 x)) in I2.
      destruct P as [P|P]; apply X in P; destruct P as [-> ->]; tauto.
    + apply X in P. destruct P as [-> ->]. split; apply new_side; exists f, g, a, b; auto 10.
  - intros e He. assert (X : forall a b, ends_of e = (a, b) -> ed_1 e = a /\ ed_2 e = b).
    { intros a b E. apply pair_eq in E. exact E. }
    destruct (bdry_end e He) as [x [Hx [HE P]]]. destruct (cf_bdry _ C x Hx) as [I1 I2].
    assert (S1 := coarse_side_split _ _ I1).
    apply all_sides_in in I1. destruct I1 as [f [Hf Hs]]. destruct (side_old _ _ _ Hf Hs) as [_ [_ [O1 [O2 O3]]]].
    destruct (sg_range _ _ _ Hf Hs) as [_ L].
    destruct P as [P|P]; apply X in P; destruct P as [-> ->]; (split; [tauto|]); intros N; apply new_side in N;
      destruct N as [f' [g' [a [b [H1 [H2 N]]]]]]; facts H1 H2; assert (J := sg_inj f f' _ _ a b Hf Hs F H2);
      (destruct N as [N|[N|[N|N]]]; apply pair_eq in N; destruct N as [N1 N2]; try lia; specialize (J N1) || specialize (J N2);
       destruct J as [[J1 J2]|[J1 J2]]; try congruence; try lia; apply I2; apply all_sides_in; exists f'; split; [exact F|congruence]).
  - intros a b H. apply new_side in H. destruct H as [f [g [x [y [H1 [H2 P]]]]]].
    assert (X : forall p q, In (p, q) (map ends_of (all_edges m)) ->
       exists e, In e (all_edges m) /\ ((ed_1 e = p /\ ed_2 e = q) \/ (ed_1 e = q /\ ed_2 e = p))).
    { intros p q Hp. apply in_map_iff in Hp. destruct Hp as [e [E He]]. apply pair_eq in E. exists e. auto. }
    assert (Y : forall p q, In (q, p) (map ends_of (all_edges m)) ->
       exists e, In e (all_edges m) /\ ((ed_1 e = p /\ ed_2 e = q) \/ (ed_1 e = q /\ ed_2 e = p))).
    { intros p q Hp. apply in_map_iff in Hp. destruct Hp as [e [E He]]. apply pair_eq in E. exists e. auto. }
    destruct (fc_in _ _ H1) as [Hf _].
    destruct (side_edge c x y C) as [e [He J]]; [apply all_sides_in; exists f; auto|]. fold sg in He.
    apply ed_joins_iff in J.
    destruct P as [P|[P|[P|P]]]; apply pair_eq in P; destruct P as [-> ->].
    + destruct J as [[<- <-]|[<- <-]]; [apply X|apply Y]; apply new_end; left; exists e; eauto.
    + destruct J as [[<- <-]|[<- <-]]; [apply X|apply Y]; apply new_end; left; exists e; eauto.
    + apply X. apply new_end. right. exists f, g, x, y. auto 10.
    + apply Y. apply new_end. right. exists f, g, x, y. auto 10.
  - apply (Permutation_NoDup (Permutation_map ed_id (Permutation_sym all_edges_perm))).
    rewrite !map_app. assert (RB := rf_bdry _ _ R). rewrite RB.
    assert (L1 : forall k, In k (map ed_id (halves (fun _ => interior_edge_color) 0%N (mh_next c) (mh_intr c))) -> (k < 3 * length (mh_intr c) + mh_next c)%nat).
    { intros k H. apply in_map_iff in H. destruct H as [x [<- H]]. apply halves_range in H. lia. }
    assert (L2 : forall k, In k (map ed_id (halves ed_col e_on_boundary (3 * length (mh_intr c) + mh_next c) (mh_bdry c))) ->
        (3 * length (mh_intr c) + mh_next c <= k < cstart c)%nat).
    { intros k H. apply in_map_iff in H. destruct H as [x [<- H]]. apply halves_range in H. unfold cstart, all_edges. rewrite app_length. lia. }
    assert (L3 : forall k, In k (map ed_id (new_spokes sg (cstart c) (order c))) -> (cstart c <= k)%nat).
    { intros k H. apply in_map_iff in H. destruct H as [x [<- H]]. apply (rf_srange _ _ R) in H. lia. }
    apply nodup_app; [apply nodup_app; [apply halves_nodup|apply halves_nodup|]|apply new_spokes_nodup|].
    + intros k H1 H2. apply L1 in H1. apply L2 in H2. lia.
    + intros k H1 H2. apply L3 in H2. apply in_app_or in H1. destruct H1 as [H1|H1].
      * apply L1 in H1. unfold cstart, all_edges in H2. rewrite app_length in H2. lia.
      * apply L2 in H1. lia.
  - intros e f He Hf P. destruct P as [[P1 P2]|[P1 P2]].
    + apply (nodup_map_inj' ends_of (all_edges m)); [exact new_ends_nodup|exact He|exact Hf|]. unfold ends_of. congruence.
    + exfalso. apply (in_map ends_of) in He. apply (in_map ends_of) in Hf. unfold ends_of in *.
      apply (new_end_norev (ed_1 e) (ed_2 e)); [exact He|]. rewrite P1, P2. exact Hf.
Qed.

Theorem refined_addressed : addressed m.
Proof.
  assert (G := cstart_ge). assert (NX := rf_next _ _ R).
  constructor.
  - rewrite (rf_verts _ _ R). apply nodup_app; [exact (ad_verts _ A)|apply nodup_app; [apply mids_nodup|apply new_centres_nodup|]|].
    + intros v H1 H2. apply new_mids_range in H1. apply new_centres_low in H2. unfold cstart in H2. lia.
    + intros v H1 H2. apply (ad_vnext _ A) in H1. apply in_app_or in H2. destruct H2 as [H2|H2].
      * apply new_mids_range in H2. lia.
      * apply new_centres_low in H2. lia.
  - intros q v Hq Hv. unfold facets in Hq. rewrite (rf_tris _ _ R), app_nil_r, (rf_quads _ _ R) in Hq.
    apply (in_map fa_sh) in Hq. rewrite new_quads_sh in Hq. apply in_flat_map in Hq. destruct Hq as [[f g] [H Hs]].
    fold (centres c) in H. fold (facet_centres c) in H. cbn [fst snd] in Hs. destruct (fc_in _ _ H) as [Hf [Hg Lg]].
    rewrite (rf_verts _ _ R). fold sg in Hs.
    assert (Q : forall a b z, In (a, b) (sides f) -> In (z, a) (sides f) -> In v [a; sg a b; g; sg z a] ->
              In v (mh_verts c ++ mids c ++ centres c)).
    { intros a b z H1 H2 X. destruct (side_old _ _ _ Hf H1) as [O _]. destruct (sg_range _ _ _ Hf H1) as [S1 _].
      destruct (sg_range _ _ _ Hf H2) as [S2 _]. rewrite !in_app_iff.
      cbn [In] in X. or_destruct X; try contradiction; subst; auto. }
    unfold sub_shapes in Hs. unfold sides in Q. destruct (fa_sh f) as [a b x|a b x d];
      cbn [corners ring_edges path_edges app] in Q; cbn [In] in Hs.
    + or_destruct Hs; try contradiction; rewrite <- Hs in Hv; cbn [corners] in Hv.
      * apply (Q a b x); cbn; auto.
      * apply (Q b x a); cbn; auto.
      * apply (Q x a b); cbn; auto.
    + or_destruct Hs; try contradiction; rewrite <- Hs in Hv; cbn [corners] in Hv.
      * apply (Q a b d); cbn; auto 6.
      * apply (Q b x a); cbn; auto 6.
      * apply (Q x d b); cbn; auto 6.
      * apply (Q d a x); cbn; auto 6.
  - intros v Hv. rewrite (rf_verts _ _ R) in Hv. apply in_app_or in Hv. destruct Hv as [Hv|Hv].
    + apply (ad_vnext _ A) in Hv. lia.
    + apply in_app_or in Hv. destruct Hv as [Hv|Hv].
      * apply new_mids_range in Hv. unfold cstart in *. lia.
      * apply (rf_crange _ _ R) in Hv. lia.
  - intros f Hf. unfold facets in Hf. rewrite (rf_tris _ _ R), app_nil_r in Hf. apply (rf_qrange _ _ R) in Hf. lia.
  - intros e He. apply (Permutation_in _ all_edges_perm) in He. apply in_app_or in He. destruct He as [He|He].
    + apply in_app_or in He. destruct He as [He|He].
      * apply halves_range in He. unfold cstart, all_edges in *. rewrite app_length in *. lia.
      * rewrite (rf_bdry _ _ R) in He. apply halves_range in He. unfold cstart, all_edges in *. rewrite app_length in *. lia.
    + apply (rf_srange _ _ R) in He. lia.
Qed.
End Conf.
