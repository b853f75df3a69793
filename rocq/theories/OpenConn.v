(* setup_facet_connectivity on meshes with open edges: proofs for ContProps. *)
From Coq Require Import Lia Permutation.
From Verif Require Import Base Chain GeomModel FacetModel UtilModel MeshModel MeshSpec MeshProofs.

Section Open.
Variable m : mesh.
Hypothesis IDS : NoDup (map fa_id (facets m)).
Hypothesis COR : forall f, In f (facets m) -> NoDup (corners (fa_sh f)).
Hypothesis ONCE : NoDup (all_sides m).
Hypothesis CEN : forall f, In f (facets m) -> centred (mh_pos m) f.

Lemma owner f g p : In f (facets m) -> In g (facets m) -> In p (sides f) -> In p (sides g) -> f = g.
Proof. exact (flat_map_owner sides (facets m) f g p ONCE). Qed.
Lemma one_element {A} (l : list A) x : NoDup l -> (forall z, In z l <-> z = x) -> l = [x].
Proof.
  intros ND H. destruct l as [|a [|b l]].
  - destruct (proj2 (H x) eq_refl).
  - f_equal. apply H. left. reflexivity.
  - exfalso. assert (A1 : a = x) by (apply H; left; reflexivity). assert (A2 : b = x) by (apply H; right; left; reflexivity).
    subst. inversion ND as [|? ? N _]; subst. apply N. left. reflexivity.
Qed.
(* the elements at an edge *)
Lemma open_none a b : ~ In (a, b) (all_sides m) -> ~ In (b, a) (all_sides m) -> sharing m a b = [].
Proof.
  intros N1 N2. destruct (sharing m a b) as [|[f i] l] eqn:E; [reflexivity|exfalso].
  assert (I : In (f, i) (sharing m a b)) by (rewrite E; left; reflexivity). apply (sharing_in m a b f i COR) in I. destruct I as [I [S|S]]; apply side_at_in in S.
  - apply N1, all_sides_in. exists f. auto.
  - apply N2, all_sides_in. exists f. auto.
Qed.
Lemma open_one a b f i : In f (facets m) -> side_at f i = Some (a, b) -> ~ In (b, a) (all_sides m) -> sharing m a b = [(f, i)].
Proof.
  intros Hf Sf NR. apply one_element; [apply sharing_nodup, IDS|]. intros [h k]. rewrite (sharing_in m a b h k COR). split.
  - intros [Hh [S|S]].
    + assert (h = f) by (apply (owner h f (a, b)); try assumption; [exact (side_at_in _ _ _ S)|exact (side_at_in _ _ _ Sf)]). subst h.
      f_equal. exact (side_at_inj f k i (a, b) (COR f Hf) S Sf).
    + exfalso. apply NR, all_sides_in. exists h. split; [exact Hh|exact (side_at_in _ _ _ S)].
  - intros E. injection E as -> ->. split; [exact Hf|left; exact Sf].
Qed.
Lemma open_one' a b f i : In f (facets m) -> side_at f i = Some (b, a) -> ~ In (a, b) (all_sides m) -> sharing m a b = [(f, i)].
Proof.
  intros Hf Sf NR. apply one_element; [apply sharing_nodup, IDS|]. intros [h k]. rewrite (sharing_in m a b h k COR). split.
  - intros [Hh [S|S]].
    + exfalso. apply NR, all_sides_in. exists h. split; [exact Hh|exact (side_at_in _ _ _ S)].
    + assert (h = f) by (apply (owner h f (b, a)); try assumption; [exact (side_at_in _ _ _ S)|exact (side_at_in _ _ _ Sf)]). subst h.
      f_equal. exact (side_at_inj f k i (b, a) (COR f Hf) S Sf).
  - intros E. injection E as -> ->. split; [exact Hf|right; exact Sf].
Qed.
Lemma open_two a b f g i j : In f (facets m) -> In g (facets m) -> side_at f i = Some (a, b) -> side_at g j = Some (b, a) ->
  sharing m a b = [(f, i); (g, j)] \/ sharing m a b = [(g, j); (f, i)].
Proof.
  intros Hf Hg Sf Sg.
  assert (NEfg : f <> g) by (intros ->; apply (side_no_rev g a b (COR g Hg) (side_at_in _ _ _ Sf)); exact (side_at_in _ _ _ Sg)).
  apply two_elements; [apply sharing_nodup, IDS|congruence|]. intros [h k]. rewrite (sharing_in m a b h k COR). split.
  - intros [Hh [S|S]].
    + left. assert (h = f) by (apply (owner h f (a, b)); try assumption; [exact (side_at_in _ _ _ S)|exact (side_at_in _ _ _ Sf)]). subst h.
      f_equal. exact (side_at_inj f k i (a, b) (COR f Hf) S Sf).
    + right. assert (h = g) by (apply (owner h g (b, a)); try assumption; [exact (side_at_in _ _ _ S)|exact (side_at_in _ _ _ Sg)]). subst h.
      f_equal. exact (side_at_inj g k j (b, a) (COR g Hg) S Sg).
  - intros [E|E]; injection E as -> ->; [split; [exact Hf|left; exact Sf]|split; [exact Hg|right; exact Sg]].
Qed.

Lemma pair_in p : {In p (all_sides m)} + {~ In p (all_sides m)}.
Proof. apply in_dec, pair_dec. Qed.
Lemma side_left f a b : In f (facets m) -> In (a, b) (sides f) -> is_left (mh_pos m a) (mh_pos m b) (fa_xy (mh_pos m) f) = true.
Proof. intros I S. apply (CEN f I a b S). Qed.
Lemma side_right f a b : In f (facets m) -> In (b, a) (sides f) -> is_left (mh_pos m a) (mh_pos m b) (fa_xy (mh_pos m) f) = false.
Proof. intros I S. apply (CEN f I b a S). Qed.

(* the pointers of an edge afterwards *)
Lemma connect_ends e : ed_1 (connect_intr m e) = ed_1 e /\ ed_2 (connect_intr m e) = ed_2 e /\ ed_id (connect_intr m e) = ed_id e /\
  ed_col (connect_intr m e) = ed_col e /\ ed_prop (connect_intr m e) = ed_prop e /\ ed_twin (connect_intr m e) = ed_twin e.
Proof.
  assert (S : forall f e, ed_1 (set_side m f e) = ed_1 e /\ ed_2 (set_side m f e) = ed_2 e /\ ed_id (set_side m f e) = ed_id e /\
    ed_col (set_side m f e) = ed_col e /\ ed_prop (set_side m f e) = ed_prop e /\ ed_twin (set_side m f e) = ed_twin e).
  { intros f e0. unfold set_side. destruct (is_left _ _ _); cbn; auto 10. }
  unfold connect_intr. destruct (sharing m (ed_1 e) (ed_2 e)) as [|[f i] [|[g j] l]]; [auto 10|apply S|].
  destruct (S g (set_side m f e)) as (-> & -> & -> & -> & -> & ->). apply S.
Qed.
Lemma connect_bdry_ends e : ed_1 (connect_bdry m e) = ed_1 e /\ ed_2 (connect_bdry m e) = ed_2 e /\ ed_id (connect_bdry m e) = ed_id e /\
  ed_col (connect_bdry m e) = ed_col e /\ ed_prop (connect_bdry m e) = ed_prop e /\ ed_twin (connect_bdry m e) = ed_twin e.
Proof.
  unfold connect_bdry. destruct (sharing m (ed_1 e) (ed_2 e)) as [|[f i] l]; [auto 10|]. unfold set_side. destruct (is_left _ _ _); cbn; auto 10.
Qed.
Lemma set_left f e : In f (facets m) -> In (ed_1 e, ed_2 e) (sides f) -> ed_l (set_side m f e) = Some (fa_id f) /\ ed_r (set_side m f e) = ed_r e.
Proof. intros I S. unfold set_side. rewrite (side_left f _ _ I S). auto. Qed.
Lemma set_right f e : In f (facets m) -> In (ed_2 e, ed_1 e) (sides f) -> ed_r (set_side m f e) = Some (fa_id f) /\ ed_l (set_side m f e) = ed_l e.
Proof. intros I S. unfold set_side. rewrite (side_right f _ _ I S). auto. Qed.

Lemma connect_cases e :
  ed_l (connect_intr m e) <> None <-> (In (ed_1 e, ed_2 e) (all_sides m) \/ ed_l e <> None).
Proof.
  destruct (pair_in (ed_1 e, ed_2 e)) as [P|P], (pair_in (ed_2 e, ed_1 e)) as [Q|Q].
  - apply all_sides_in in P, Q. destruct P as (f & If & Sf), Q as (g & Ig & Sg).
    destruct (in_side_at _ _ Sf) as [i Ei], (in_side_at _ _ Sg) as [j Ej].
    assert (X : ed_l (connect_intr m e) = Some (fa_id f)).
    { unfold connect_intr. destruct (open_two _ _ f g i j If Ig Ei Ej) as [-> | ->].
      - destruct (set_side_ends m f e) as (E1 & E2 & _). destruct (set_right g (set_side m f e) Ig) as [_ ->]; [rewrite E1, E2; exact Sg|]. apply (set_left f e If Sf).
      - destruct (set_side_ends m g e) as (E1 & E2 & _). apply (set_left f (set_side m g e) If). rewrite E1, E2. exact Sf. }
    rewrite X. split; [intros _; left; apply all_sides_in; exists f; auto|discriminate].
  - apply all_sides_in in P. destruct P as (f & If & Sf). destruct (in_side_at _ _ Sf) as [i Ei].
    unfold connect_intr. rewrite (open_one _ _ f i If Ei Q). destruct (set_left f e If Sf) as [-> _].
    split; [intros _; left; apply all_sides_in; exists f; auto|discriminate].
  - apply all_sides_in in Q. destruct Q as (g & Ig & Sg). destruct (in_side_at _ _ Sg) as [j Ej].
    unfold connect_intr. rewrite (open_one' _ _ g j Ig Ej P). destruct (set_right g e Ig Sg) as [_ ->]. tauto.
  - unfold connect_intr. rewrite (open_none _ _ P Q). tauto.
Qed.
Lemma connect_cases' e :
  ed_r (connect_intr m e) <> None <-> (In (ed_2 e, ed_1 e) (all_sides m) \/ ed_r e <> None).
Proof.
  destruct (pair_in (ed_1 e, ed_2 e)) as [P|P], (pair_in (ed_2 e, ed_1 e)) as [Q|Q].
  - apply all_sides_in in P, Q. destruct P as (f & If & Sf), Q as (g & Ig & Sg).
    destruct (in_side_at _ _ Sf) as [i Ei], (in_side_at _ _ Sg) as [j Ej].
    assert (X : ed_r (connect_intr m e) = Some (fa_id g)).
    { unfold connect_intr. destruct (open_two _ _ f g i j If Ig Ei Ej) as [-> | ->].
      - destruct (set_side_ends m f e) as (E1 & E2 & _). apply (set_right g (set_side m f e) Ig). rewrite E1, E2. exact Sg.
      - destruct (set_side_ends m g e) as (E1 & E2 & _). destruct (set_left f (set_side m g e) If) as [_ ->]; [rewrite E1, E2; exact Sf|]. apply (set_right g e Ig Sg). }
    rewrite X. split; [intros _; left; apply all_sides_in; exists g; auto|discriminate].
  - apply all_sides_in in P. destruct P as (f & If & Sf). destruct (in_side_at _ _ Sf) as [i Ei].
    unfold connect_intr. rewrite (open_one _ _ f i If Ei Q). destruct (set_left f e If Sf) as [_ ->]. tauto.
  - apply all_sides_in in Q. destruct Q as (g & Ig & Sg). destruct (in_side_at _ _ Sg) as [j Ej].
    unfold connect_intr. rewrite (open_one' _ _ g j Ig Ej P). destruct (set_right g e Ig Sg) as [-> _].
    split; [intros _; left; apply all_sides_in; exists g; auto|discriminate].
  - unfold connect_intr. rewrite (open_none _ _ P Q). tauto.
Qed.
Lemma connect_bdry_cases e : ~ In (ed_2 e, ed_1 e) (all_sides m) ->
  (ed_l (connect_bdry m e) <> None <-> (In (ed_1 e, ed_2 e) (all_sides m) \/ ed_l e <> None)).
Proof.
  intros Q. destruct (pair_in (ed_1 e, ed_2 e)) as [P|P].
  - apply all_sides_in in P. destruct P as (f & If & Sf). destruct (in_side_at _ _ Sf) as [i Ei].
    unfold connect_bdry. rewrite (open_one _ _ f i If Ei Q), (side_left f _ _ If Sf). destruct (set_left f e If Sf) as [-> _].
    split; [intros _; left; apply all_sides_in; exists f; auto|discriminate].
  - unfold connect_bdry. rewrite (open_none _ _ P Q). tauto.
Qed.

(* the neighbour pointers written, for the sides of elements only *)
Lemma open_writes e w : In w (nbr_writes m e) -> snd w <> None ->
  exists f i a b, In f (facets m) /\ side_at f i = Some (a, b) /\ In (b, a) (all_sides m) /\ fst w = (fa_id f, i).
Proof.
  intros I NN. destruct (pair_in (ed_1 e, ed_2 e)) as [P|P], (pair_in (ed_2 e, ed_1 e)) as [Q|Q].
  - pose proof P as P0. pose proof Q as Q0. apply all_sides_in in P, Q. destruct P as (f & If & Sf), Q as (g & Ig & Sg).
    destruct (in_side_at _ _ Sf) as [i Ei], (in_side_at _ _ Sg) as [j Ej].
    unfold nbr_writes in I. destruct (open_two _ _ f g i j If Ig Ei Ej) as [X|X]; rewrite X in I; destruct I as [<-|[<-|[]]]; cbn [fst].
    + exists f, i, (ed_1 e), (ed_2 e). auto.
    + exists g, j, (ed_2 e), (ed_1 e). auto.
    + exists g, j, (ed_2 e), (ed_1 e). auto.
    + exists f, i, (ed_1 e), (ed_2 e). auto.
  - apply all_sides_in in P. destruct P as (f & If & Sf). destruct (in_side_at _ _ Sf) as [i Ei].
    unfold nbr_writes in I. rewrite (open_one _ _ f i If Ei Q) in I. destruct I as [<-|[]]. destruct (NN eq_refl).
  - apply all_sides_in in Q. destruct Q as (g & Ig & Sg). destruct (in_side_at _ _ Sg) as [j Ej].
    unfold nbr_writes in I. rewrite (open_one' _ _ g j Ig Ej P) in I. destruct I as [<-|[]]. destruct (NN eq_refl).
  - unfold nbr_writes in I. rewrite (open_none _ _ P Q) in I. destruct I.
Qed.
(* neighbour pointers across sides without an element on the other side stay as they are *)
Lemma write_some ws : forall nb f i x, fold_left write_nbr ws nb f i = Some x -> nb f i = Some x \/ exists w, In w ws /\ fst w = (f, i) /\ snd w = Some x.
Proof.
  induction ws as [|w ws IH]; intros nb f i x H; [left; exact H|]. cbn [fold_left] in H. apply IH in H. destruct H as [H|(v & I & E)].
  - unfold write_nbr in H. destruct (Nat.eqb_spec f (fst (fst w))), (Nat.eqb_spec i (snd (fst w))); cbn [andb] in H; try (left; exact H).
    right. exists w. split; [left; reflexivity|]. split; [destruct w as [[? ?] ?]; cbn in *; congruence|exact H].
  - right. exists v. split; [right; exact I|exact E].
Qed.
Lemma open_unset : boundary_unset m -> boundary_unset (setup_facet_connectivity m).
Proof.
  intros U f i a b I S N. change (facets (setup_facet_connectivity m)) with (facets m) in I. change (all_sides (setup_facet_connectivity m)) with (all_sides m) in N.
  cbn [setup_facet_connectivity mh_nbr]. destruct (fold_left write_nbr _ (mh_nbr m) (fa_id f) i) as [x|] eqn:E; [exfalso|reflexivity].
  apply write_some in E. destruct E as [E|(w & Iw & Ew & Sw)]; [rewrite (U f i a b I S N) in E; discriminate|].
  apply in_flat_map in Iw. destruct Iw as (e & _ & Iw).
  destruct (open_writes e w Iw) as (g & j & p & q & Ig & Sg & Nq & Fw); [congruence|]. rewrite Fw in Ew. injection Ew as E1 E2.
  assert (g = f).
  { revert Ig I E1 IDS. generalize (facets m). clear. intros l. induction l as [|h l IH]; [intros []|]. intros [Hf|Hf] [Hg|Hg] E ND; cbn [map] in ND; inversion ND as [|? ? N ND']; subst; try reflexivity; auto.
    - exfalso. apply N. rewrite E. apply in_map. exact Hg.
    - exfalso. apply N. rewrite <- E. apply in_map. exact Hf. }
  subst g j. rewrite S in Sg. injection Sg as <- <-. exact (N Nq).
Qed.
End Open.
