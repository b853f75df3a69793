(* The arrays of a conforming mesh with its element pointers set are a plane mesh. *)
From Coq Require Import Lia Permutation.
From Verif Require Import Base GeomModel Chain MeshModel MeshSpec MeshProofs MeshProps OutModel OutProofs FoamModel FoamSpec FoamRead.
Open Scope Z_scope.

(* every edge knows the elements beside it *)
Definition linked (m : mesh) : Prop :=
  (forall e, In e (mh_intr m) -> exists f g, In f (facets m) /\ In g (facets m) /\ In (ed_1 e, ed_2 e) (sides f) /\ In (ed_2 e, ed_1 e) (sides g) /\
     ed_l e = Some (fa_id f) /\ ed_r e = Some (fa_id g)) /\
  (forall e, In e (mh_bdry m) -> exists f, In f (facets m) /\ In (ed_1 e, ed_2 e) (sides f) /\ ed_l e = Some (fa_id f)).

Lemma connect_ends m e : ed_1 (connect_intr m e) = ed_1 e /\ ed_2 (connect_intr m e) = ed_2 e /\ ed_id (connect_intr m e) = ed_id e.
Proof.
  unfold connect_intr. destruct (sharing m (ed_1 e) (ed_2 e)) as [|[f i] [|[g j] l]]; [tauto|apply set_side_ends|].
  destruct (set_side_ends m f e) as (A & B & C). destruct (set_side_ends m g (set_side m f e)) as (D & E & F). rewrite D, E, F. tauto.
Qed.
Lemma connect_ends_bdry m e : ed_1 (connect_bdry m e) = ed_1 e /\ ed_2 (connect_bdry m e) = ed_2 e /\ ed_id (connect_bdry m e) = ed_id e.
Proof.
  unfold connect_bdry. destruct (sharing m (ed_1 e) (ed_2 e)) as [|[f i] l]; [tauto|]. destruct (is_left _ _ _); [apply set_side_ends|tauto].
Qed.
Definition same_ends (e f : medge) : Prop := ed_1 e = ed_1 f /\ ed_2 e = ed_2 f /\ ed_id e = ed_id f.
Lemma setup_edges m : map ed_id (all_edges (setup_facet_connectivity m)) = map ed_id (all_edges m) /\
  (forall e, In e (all_edges (setup_facet_connectivity m)) -> exists e', In e' (all_edges m) /\ same_ends e e') /\
  (forall e', In e' (all_edges m) -> exists e, In e (all_edges (setup_facet_connectivity m)) /\ same_ends e e').
Proof.
  unfold all_edges. cbn [setup_facet_connectivity mh_intr mh_bdry]. split; [|split].
  - rewrite !map_app, !map_map. f_equal; apply map_ext; intros e; [apply connect_ends|apply connect_ends_bdry].
  - intros e H. apply in_app_or in H. destruct H as [H|H]; apply in_map_iff in H; destruct H as (x & <- & X); exists x; (split; [apply in_or_app; tauto|]); [apply connect_ends|apply connect_ends_bdry].
  - intros e H. apply in_app_or in H. destruct H as [H|H].
    + exists (connect_intr m e). split; [apply in_or_app; left; apply in_map, H|apply connect_ends].
    + exists (connect_bdry m e). split; [apply in_or_app; right; apply in_map, H|apply connect_ends_bdry].
Qed.
Lemma setup_conforming m : conforming m -> conforming (setup_facet_connectivity m).
Proof.
  intros C. destruct (setup_edges m) as (I & D & U). constructor; try apply C.
  - intros e H. cbn in H. apply in_map_iff in H. destruct H as (x & <- & X). destruct (connect_ends m x) as (A & B & _). rewrite A, B. apply (cf_intr _ C x X).
  - intros e H. cbn in H. apply in_map_iff in H. destruct H as (x & <- & X). destruct (connect_ends_bdry m x) as (A & B & _). rewrite A, B. apply (cf_bdry _ C x X).
  - intros a b H. destruct (cf_cover _ C a b H) as (e & E & P). destruct (U e E) as (e' & E' & (A & B & _)). exists e'. split; [exact E'|]. rewrite A, B. exact P.
  - rewrite I. apply C.
  - intros e f E F S. destruct (D e E) as (e' & E' & (A & B & K)). destruct (D f F) as (f' & F' & (A' & B' & K')).
    assert (X : e' = f') by (apply (cf_single _ C e' f' E' F'); unfold same_pair in *; rewrite A, B, A', B' in S; exact S). subst f'.
    assert (N : NoDup (map ed_id (all_edges (setup_facet_connectivity m)))) by (rewrite I; apply C).
    clear - N E F K K'. assert (K2 : ed_id e = ed_id f) by congruence. clear K K'. induction (all_edges (setup_facet_connectivity m)) as [|x l IH]; [destruct E|].
    cbn in N. inversion N as [|? ? N1 N2]. subst. destruct E as [->|E], F as [->|F]; try reflexivity.
    + exfalso. apply N1. rewrite K2. apply in_map, F.
    + exfalso. apply N1. rewrite <- K2. apply in_map, E.
    + apply IH; assumption.
Qed.
Lemma setup_linked m : conforming m -> (forall f, In f (facets m) -> centred (mh_pos m) f) -> linked (setup_facet_connectivity m).
Proof.
  intros C N. split; cbn [setup_facet_connectivity mh_intr mh_bdry]; intros e H; apply in_map_iff in H; destruct H as (x & <- & X).
  - destruct (connect_ends m x) as (A & B & _). rewrite A, B. apply (connect_intr_sides m x C N X).
  - destruct (connect_ends_bdry m x) as (A & B & _). rewrite A, B. apply (connect_bdry_side m x C N X).
Qed.

Lemma filter_whole {A} (p : A -> bool) l : (forall x, In x l -> p x = true) -> filter p l = l.
Proof. intros H. induction l as [|a l IH]; [reflexivity|]. cbn. rewrite (H a (or_introl eq_refl)). f_equal. apply IH. intros x X. apply H. right. exact X. Qed.
Lemma linked_valid m : linked m -> valid_interior_edges m = mh_intr m /\ valid_boundary_edges m = mh_bdry m.
Proof.
  intros [LI LB]. split; apply filter_whole; intros e E.
  - destruct (LI e E) as (f & g & _ & _ & _ & _ & A & B). rewrite A, B. reflexivity.
  - destruct (LB e E) as (f & _ & _ & A). rewrite A. reflexivity.
Qed.
Lemma NoDup_app_intro {A} (l m : list A) : NoDup l -> NoDup m -> (forall x, In x l -> In x m -> False) -> NoDup (l ++ m).
Proof.
  induction 1 as [|a l N D IH]; intros M X; [exact M|]. cbn. constructor.
  - rewrite in_app_iff. intros [H|H]; [exact (N H)|apply (X a); [left; reflexivity|exact H]].
  - apply IH; [exact M|]. intros x H. apply X. right. exact H.
Qed.
Lemma NoDup_flat_map {A B} (f : A -> list B) l : NoDup l -> (forall x, In x l -> NoDup (f x)) ->
  (forall x y b, In x l -> In y l -> In b (f x) -> In b (f y) -> x = y) -> NoDup (flat_map f l).
Proof.
  induction 1 as [|a l N D IH]; intros F X; [constructor|]. cbn. apply NoDup_app_intro.
  - apply F. left. reflexivity.
  - apply IH; [intros x I; apply F; right; exact I|]. intros x y b I J. apply X; right; assumption.
  - intros b H1 H2. apply in_flat_map in H2. destruct H2 as (y & Y & H2). apply N. rewrite (X a y b); [exact Y|left; reflexivity|right; exact Y|exact H1|exact H2].
Qed.

Section Plane.
Variable m : mesh.
Hypothesis C : conforming m.
Hypothesis L : linked m.
Definition at_f (o : option nat) (f : facet) : bool := match o with Some i => Nat.eqb i (fa_id f) | None => false end.
Definition own_intr (f : facet) (e : medge) : list (nat * nat) :=
  (if at_f (ed_l e) f then [(ed_1 e, ed_2 e)] else []) ++ (if at_f (ed_r e) f then [(ed_2 e, ed_1 e)] else []).
Definition own_bdry (f : facet) (e : medge) : list (nat * nat) := if at_f (ed_l e) f then [(ed_1 e, ed_2 e)] else [].
Definition own (f : facet) : list (nat * nat) := flat_map (own_intr f) (mh_intr m) ++ flat_map (own_bdry f) (mh_bdry m).

Lemma at_f_same f g : In f (facets m) -> In g (facets m) -> at_f (Some (fa_id g)) f = true -> g = f.
Proof. intros F G H. cbn in H. apply Nat.eqb_eq in H. apply (id_facet m g f C G F H). Qed.
Lemma own_intr_in f e p : In f (facets m) -> In e (mh_intr m) -> In p (own_intr f e) ->
  In p (sides f) /\ (p = (ed_1 e, ed_2 e) \/ p = (ed_2 e, ed_1 e)).
Proof.
  intros F E H. destruct (proj1 L e E) as (g & h & G & HH & S1 & S2 & A & B). unfold own_intr in H. rewrite A, B in H. apply in_app_or in H. destruct H as [H|H].
  - destruct (at_f (Some (fa_id g)) f) eqn:T; [|destruct H]. destruct H as [<-|[]]. apply (at_f_same f g F G) in T. subst g. tauto.
  - destruct (at_f (Some (fa_id h)) f) eqn:T; [|destruct H]. destruct H as [<-|[]]. apply (at_f_same f h F HH) in T. subst h. tauto.
Qed.
Lemma own_bdry_in f e p : In f (facets m) -> In e (mh_bdry m) -> In p (own_bdry f e) -> In p (sides f) /\ p = (ed_1 e, ed_2 e).
Proof.
  intros F E H. destruct (proj2 L e E) as (g & G & S1 & A). unfold own_bdry in H. rewrite A in H.
  destruct (at_f (Some (fa_id g)) f) eqn:T; [|destruct H]. destruct H as [<-|[]]. apply (at_f_same f g F G) in T. subst g. tauto.
Qed.
Lemma pair_same (e f : medge) p : (p = (ed_1 e, ed_2 e) \/ p = (ed_2 e, ed_1 e)) -> (p = (ed_1 f, ed_2 f) \/ p = (ed_2 f, ed_1 f)) -> same_pair e f.
Proof. unfold same_pair. intros [-> | ->] [H|H]; injection H as A B; auto. Qed.
Lemma edges_nodup : NoDup (mh_intr m) /\ NoDup (mh_bdry m).
Proof. assert (N := cf_eids _ C). apply NoDup_map_inv' in N. unfold all_edges in N. apply nodup_app_l' in N. exact N. Qed.
Lemma own_nodup f : In f (facets m) -> NoDup (own f).
Proof.
  intros F. unfold own. destruct edges_nodup as [NI NB]. apply NoDup_app_intro.
  - apply NoDup_flat_map; [exact NI| |].
    + intros e E. unfold own_intr. destruct (proj1 L e E) as (g & h & G & H & S1 & S2 & A & B).
      assert (D : ed_1 e <> ed_2 e) by (apply (side_neq g); [apply (cf_corners _ C g G)|exact S1]).
      destruct (at_f (ed_l e) f), (at_f (ed_r e) f); cbn; repeat constructor; cbn; try tauto. intros [X|[]]. injection X. intros. congruence.
    + intros x y p X Y P Q. apply (own_intr_in f x p F X) in P. apply (own_intr_in f y p F Y) in Q.
      apply (cf_single _ C); [apply in_or_app; left; exact X|apply in_or_app; left; exact Y|apply (pair_same x y p); tauto].
  - apply NoDup_flat_map; [exact NB| |].
    + intros e E. unfold own_bdry. destruct (at_f (ed_l e) f); repeat constructor; cbn; tauto.
    + intros x y p X Y P Q. apply (own_bdry_in f x p F X) in P. apply (own_bdry_in f y p F Y) in Q.
      apply (cf_single _ C); [apply in_or_app; right; exact X|apply in_or_app; right; exact Y|apply (pair_same x y p); tauto].
  - intros p P Q. apply in_flat_map in P. destruct P as (x & X & P). apply in_flat_map in Q. destruct Q as (y & Y & Q).
    apply (own_intr_in f x p F X) in P. apply (own_bdry_in f y p F Y) in Q. destruct P as [_ P], Q as [_ Q].
    assert (E : x = y) by (apply (cf_single _ C); [apply in_or_app; left; exact X|apply in_or_app; right; exact Y|apply (pair_same x y p); tauto]). subst y.
    destruct (cf_intr _ C x X) as [_ A]. destruct (cf_bdry _ C x Y) as [_ B]. exact (B A).
Qed.
Lemma sides_nodup f : In f (facets m) -> NoDup (sides f).
Proof.
  intros F. assert (N := cf_sides _ C). unfold all_sides in N. clear C L. induction (facets m) as [|g l IH]; [destruct F|]. cbn in N. apply nodup_app_l' in N. destruct F as [->|F]; [apply N|apply IH; [exact F|apply N]].
Qed.
Lemma own_sides f : In f (facets m) -> Permutation (sides f) (own f).
Proof.
  intros F. apply NoDup_Permutation; [apply sides_nodup, F|apply own_nodup, F|]. intros [a b]. split.
  - intros S. assert (S' : In (a, b) (all_sides m)) by (apply all_sides_in; exists f; tauto). destruct (cf_cover _ C a b S') as (e & E & P).
    unfold own. apply in_or_app. apply in_app_or in E. destruct E as [E|E]; [left|right]; apply in_flat_map; exists e; (split; [exact E|]).
    + destruct (proj1 L e E) as (g & h & G & H & S1 & S2 & A & B). unfold own_intr. rewrite A, B. apply in_or_app. destruct P as [[P1 P2]|[P1 P2]]; [left|right]; subst a b.
      * rewrite (side_owner m g f (ed_1 e, ed_2 e) C G F S1 S). cbn. rewrite Nat.eqb_refl. left. reflexivity.
      * rewrite (side_owner m h f (ed_2 e, ed_1 e) C H F S2 S). cbn. rewrite Nat.eqb_refl. left. reflexivity.
    + destruct (proj2 L e E) as (g & G & S1 & A). unfold own_bdry. rewrite A. destruct P as [[P1 P2]|[P1 P2]]; subst a b.
      * rewrite (side_owner m g f (ed_1 e, ed_2 e) C G F S1 S). cbn. rewrite Nat.eqb_refl. left. reflexivity.
      * exfalso. apply (proj2 (cf_bdry _ C e E)). exact S'.
  - intros H. unfold own in H. apply in_app_or in H. destruct H as [H|H]; apply in_flat_map in H; destruct H as (e & E & H); [apply (own_intr_in f e _ F E H)|apply (own_bdry_in f e _ F E H)].
Qed.

Variable old oldf : nat -> Z.
Hypothesis V : NoDup (mh_verts m).
Hypothesis VC : forall f v, In f (facets m) -> In v (corners (fa_sh f)) -> In v (mh_verts m).
Notation vi := (vertex_indices m old).
Notation fi := (element_indices m oldf).
Lemma fi_nth i f : nth_error (facets m) i = Some f -> fi (fa_id f) = Z.of_nat i.
Proof.
  intros H. assert (E := C28_element_indices m oldf (cf_ids _ C)). assert (X : nth_error (map fi (map fa_id (facets m))) i = Some (fi (fa_id f))).
  { rewrite map_map, nth_error_map, H. reflexivity. }
  rewrite E in X. unfold upto in X. rewrite nth_error_map in X. assert (B : (i < length (facets m))%nat) by (apply nth_error_Some; congruence).
  unfold facets in B. rewrite app_length in B. rewrite (nth_error_nth' _ 0%nat) in X by (rewrite seq_length; exact B). rewrite seq_nth in X by exact B. cbn in X. congruence.
Qed.
Lemma fi_same i f g : nth_error (facets m) i = Some f -> In g (facets m) -> Z.eqb (fi (fa_id g)) (Z.of_nat i) = Nat.eqb (fa_id g) (fa_id f).
Proof.
  intros H G. destruct (In_nth_error _ _ G) as [j J]. rewrite (fi_nth j g J). destruct (Z.eqb_spec (Z.of_nat j) (Z.of_nat i)) as [E|E].
  - apply Nat2Z.inj in E. subst j. assert (g = f) by congruence. subst g. symmetry. apply Nat.eqb_refl.
  - symmetry. apply Nat.eqb_neq. intros K. apply E. f_equal.
    assert (X : g = f) by (apply (id_facet m g f C G (nth_error_In _ _ H) K)). subst g.
    assert (N := nodup_facets m (cf_ids _ C)). rewrite NoDup_nth_error in N. apply N; [apply nth_error_Some; congruence|congruence].
Qed.
Lemma fi_range f : In f (facets m) -> 0 <= fi (fa_id f) < Z.of_nat (length (facets m)).
Proof. intros F. destruct (In_nth_error _ _ F) as [j J]. rewrite (fi_nth j f J). assert (B : (j < length (facets m))%nat) by (apply nth_error_Some; congruence). lia. Qed.
Definition vpair (p : nat * nat) : Z * Z := (vi (fst p), vi (snd p)).
Lemma vi_range v : In v (mh_verts m) -> 0 <= vi v < Z.of_nat (length (mh_verts m)).
Proof.
  intros I. assert (E := C28_vertex_indices m old V). assert (X : In (vi v) (upto (length (mh_verts m)))) by (rewrite <- E; apply in_map, I).
  unfold upto in X. apply in_map_iff in X. destruct X as (k & <- & K). apply in_seq in K. lia.
Qed.
Lemma flat_map_ext_in {A B} (f g : A -> list B) l : (forall x, In x l -> f x = g x) -> flat_map f l = flat_map g l.
Proof. induction l as [|a l IH]; intros H; [reflexivity|]. cbn. rewrite (H a (or_introl eq_refl)), IH; [reflexivity|]. intros x X. apply H. right. exact X. Qed.
Lemma combine_same {A B D} (f : A -> B) (g : A -> D) l : combine (map f l) (map g l) = map (fun x => (f x, g x)) l.
Proof. induction l as [|a l IH]; [reflexivity|]. cbn. rewrite IH. reflexivity. Qed.
Lemma flat_map_of_map {A B D} (f : B -> list D) (g : A -> B) l : flat_map f (map g l) = flat_map (fun x => f (g x)) l.
Proof. induction l as [|a l IH]; [reflexivity|]. cbn. rewrite IH. reflexivity. Qed.
Lemma map_flat_map {A B D} (h : B -> D) (f : A -> list B) l : map h (flat_map f l) = flat_map (fun x => map h (f x)) l.
Proof. induction l as [|a l IH]; [reflexivity|]. cbn. rewrite map_app, IH. reflexivity. Qed.
Lemma sides_arrays i f : nth_error (facets m) i = Some f -> sides_of (Z.of_nat i) (arrays_of vi fi m) = map vpair (own f).
Proof.
  intros H. destruct (linked_valid m L) as [VI VB]. unfold sides_of, arrays_of. cbn [tq_intr tq_intr_el tq_bdry tq_bdry_el]. rewrite VI, VB.
  rewrite !combine_same, !flat_map_of_map. unfold own. rewrite map_app, !map_flat_map. f_equal; apply flat_map_ext_in; intros e E; cbn [fst snd].
  - destruct (proj1 L e E) as (g & h & G & HH & _ & _ & A & B). unfold own_intr. rewrite A, B. cbn [facet_no at_f]. rewrite (fi_same i f g H G), (fi_same i f h H HH), map_app.
    destruct (Nat.eqb (fa_id g) (fa_id f)), (Nat.eqb (fa_id h) (fa_id f)); reflexivity.
  - destruct (proj2 L e E) as (g & G & _ & A). unfold own_bdry. rewrite A. cbn [facet_no at_f]. rewrite (fi_same i f g H G). destruct (Nat.eqb (fa_id g) (fa_id f)); reflexivity.
Qed.
Lemma ring_map_pair {A B} (f : A -> B) l : ring_edges (map f l) = map (fun e => (f (fst e), f (snd e))) (ring_edges l).
Proof.
  assert (P : forall l a, path_edges (f a) (map f l) = map (fun e => (f (fst e), f (snd e))) (path_edges a l)).
  { induction l0 as [|b l0 IH]; intros a; [reflexivity|]. cbn. rewrite IH. reflexivity. }
  destruct l as [|a l]; [reflexivity|]. cbn [map ring_edges]. rewrite <- P, map_app. reflexivity.
Qed.
Hypothesis NE : mh_bdry m <> [].
Lemma mesh_plane : plane_mesh (arrays_of vi fi m).
Proof.
  destruct (linked_valid m L) as [VI VB]. assert (CELLS : tq_quads (arrays_of vi fi m) ++ tq_tris (arrays_of vi fi m) = map (fun f => map vi (corners (fa_sh f))) (facets m)).
  { unfold arrays_of, facets. cbn. rewrite map_app. reflexivity. }
  constructor; try rewrite CELLS; unfold arrays_of; cbn [tq_verts tq_intr tq_intr_el tq_bdry tq_bdry_el tq_mark tq_quads tq_tris]; rewrite ?VI, ?VB, ?map_length; try reflexivity.
  - intros X. apply map_eq_nil in X. destruct (mh_bdry m) as [|e r] eqn:B; [exact (NE eq_refl)|]. destruct (proj2 L e) as (f & F & S & _); [rewrite B; left; reflexivity|].
    apply side_corners in S. assert (I := VC f _ F (proj1 S)). rewrite X in I. destruct I.
  - intros X. apply map_eq_nil in X. exact (NE X).
  - intros q Q. apply in_map_iff in Q. destruct Q as (f & <- & F). destruct (cf_quads _ C f F) as (a & b & c & d & E). rewrite map_length, E. reflexivity.
  - intros q Q. apply in_map_iff in Q. destruct Q as (f & <- & F). destruct (cf_tris _ C f F) as (a & b & c & E). rewrite map_length, E. reflexivity.
  - intros l r I E. apply in_map_iff in I. destruct I as (e & X & I). destruct (proj1 L e I) as (g & h & G & H & S1 & S2 & A & B). rewrite A, B in X. cbn [facet_no] in X. injection X as X1 X2.
    destruct (In_nth_error _ _ H) as [j J]. assert (K := fi_same j h g J G). rewrite (fi_nth j h J) in X2. rewrite X1, E, <- X2, Z.eqb_refl in K. symmetry in K. apply Nat.eqb_eq in K.
    assert (Y : g = h) by (apply (id_facet m g h C G H K)). subst h. apply (side_no_rev g _ _ (cf_corners _ C g G) S1 S2).
  - intros l r I. apply in_map_iff in I. destruct I as (e & X & I). destruct (proj1 L e I) as (g & h & G & H & S1 & S2 & A & B). rewrite A, B in X. cbn [facet_no] in X. injection X as <- <-.
    split; apply fi_range; assumption.
  - intros l I. apply in_map_iff in I. destruct I as (e & X & I). destruct (proj2 L e I) as (g & G & S1 & A). rewrite A in X. cbn [facet_no] in X. subst l. apply fi_range, G.
  - intros l c I J. apply in_map_iff in I. destruct I as (f & <- & F). apply in_map_iff in J. destruct J as (v & <- & J). apply vi_range, (VC f v F J).
  - intros i l N. rewrite nth_error_map in N. destruct (nth_error (facets m) i) as [f|] eqn:F; [|discriminate]. injection N as <-.
    assert (S := sides_arrays i f F). unfold arrays_of in S. rewrite VI, VB in S. rewrite S, ring_map_pair.
    apply Permutation_map. apply (own_sides f (nth_error_In _ _ F)).
Qed.
Lemma mesh_shaped : well_shaped m.
Proof.
  split; intros f F; [destruct (cf_quads _ C f F) as (a & b & c & d & E)|destruct (cf_tris _ C f F) as (a & b & c & E)]; rewrite E; reflexivity.
Qed.
End Plane.
