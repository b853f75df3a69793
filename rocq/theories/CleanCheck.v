(* A decision procedure for [sound], used to show that concrete meshes meet the
   hypotheses of the theorems. *)
From Coq Require Import Lia Relations.
From Verif Require Import Base GeomModel FacetModel AdvanceModel Chain MeshModel MeshSpec MeshProofs MeshCheck QRefineSpec CleanSpec.

Definition addressedb (m : mesh) : bool :=
  nodupb Nat.eqb (mh_verts m) &&
  forallb (fun f => forallb (fun v => existsb (Nat.eqb v) (mh_verts m)) (corners (fa_sh f))) (facets m) &&
  forallb (fun v => Nat.ltb v (mh_next m)) (mh_verts m) &&
  forallb (fun f => Nat.ltb (fa_id f) (mh_next m)) (facets m) &&
  forallb (fun e => Nat.ltb (ed_id e) (mh_next m)) (all_edges m).
Lemma addressedb_sound m : addressedb m = true -> addressed m.
Proof.
  unfold addressedb. intros H. repeat (apply andb_true_iff in H; let H' := fresh "K" in destruct H as [H H']).
  rewrite forallb_forall in *. constructor.
  - apply (nodupb_sound Nat.eqb Nat.eqb_refl). exact H.
  - intros f v Hf Hv. specialize (K2 f Hf). rewrite forallb_forall in K2. specialize (K2 v Hv). apply existsb_exists in K2.
    destruct K2 as [x [Hx E]]. apply Nat.eqb_eq in E. subst. exact Hx.
  - intros v Hv. apply Nat.ltb_lt. exact (K1 v Hv).
  - intros v Hv. apply Nat.ltb_lt. exact (K0 v Hv).
  - intros v Hv. apply Nat.ltb_lt. exact (K v Hv).
Qed.
Definition fitsb (m : mesh) : bool :=
  forallb (fun v => in_square (mh_scale m) (mh_pos m v) && in_square front_scale (mh_pos m v)) (mh_verts m).
Lemma fitsb_sound m : fitsb m = true -> fits m.
Proof. unfold fitsb. rewrite forallb_forall. intros H v Hv. specialize (H v Hv). apply andb_true_iff. exact H. Qed.
Definition positiveb (m : mesh) : bool := forallb (fun f => Qltb 0 (fa_area (mh_pos m) f)) (facets m).
Lemma positiveb_sound m : positiveb m = true -> positive m.
Proof. unfold positiveb. rewrite forallb_forall. intros H f Hf. apply Qltb_true. exact (H f Hf). Qed.

Definition unsetb (m : mesh) : bool :=
  forallb (fun f => forallb (fun i =>
    match side_at f i with
    | Some (a, b) => memb (b, a) (all_sides m) || negb (is_some (mh_nbr m (fa_id f) i))
    | None => true
    end) [0; 1; 2; 3]%nat) (facets m).
Lemma unsetb_sound m : unsetb m = true -> boundary_unset m.
Proof.
  unfold unsetb. rewrite forallb_forall. intros H f i a b Hf E N. specialize (H f Hf). rewrite forallb_forall in H.
  assert (I : In i [0; 1; 2; 3]%nat).
  { unfold side_at in E. destruct (fa_sh f); destruct i as [|[|[|[|i]]]]; try discriminate; cbn; auto. }
  specialize (H i I). rewrite E in H. apply orb_true_iff in H. destruct H as [H|H]; [apply memb_in in H; contradiction|].
  destruct (mh_nbr m (fa_id f) i); [discriminate|reflexivity].
Qed.

(* fans: all elements reached from f by crossing edges that end at v *)
Definition meetb (v : nat) (f g : facet) : bool :=
  existsb (fun p => (Nat.eqb (fst p) v || Nat.eqb (snd p) v) && memb (snd p, fst p) (sides g)) (sides f).
Fixpoint reach (m : mesh) (v : nat) (k : nat) (l : list facet) : list facet :=
  match k with
  | O => l
  | S k => reach m v k (l ++ filter (fun g => existsb (fun f => meetb v f g) l) (facets m))
  end.
Lemma reach_sound m v k : forall l f, In f (facets m) -> (forall g, In g l -> In g (facets m) /\ clos_refl_trans facet (meet_at m v) f g) ->
  forall g, In g (reach m v k l) -> clos_refl_trans facet (meet_at m v) f g.
Proof.
  induction k as [|k IH]; intros l f Hf H g Hg; [apply (H g Hg)|]. cbn [reach] in Hg. revert g Hg. apply IH; [exact Hf|].
  intros g Hg. apply in_app_or in Hg. destruct Hg as [Hg|Hg]; [exact (H g Hg)|].
  apply filter_In in Hg. destruct Hg as [Hg X]. split; [exact Hg|]. apply existsb_exists in X. destruct X as [x [Hx M]].
  destruct (H x Hx) as [Ix Rx]. eapply rt_trans; [exact Rx|]. apply rt_step. split; [exact Ix|]. split; [exact Hg|].
  unfold meetb in M. apply existsb_exists in M. destruct M as [[a b] [Hab M]]. cbn [fst snd] in M. apply andb_true_iff in M. destruct M as [M1 M2].
  apply orb_true_iff in M1. rewrite !Nat.eqb_eq in M1. apply memb_in in M2. exists a, b. auto.
Qed.
Definition fansb (m : mesh) : bool :=
  forallb (fun f => forallb (fun v =>
    let r := map fa_id (reach m v (length (facets m)) [f]) in
    forallb (fun g => negb (existsb (Nat.eqb v) (corners (fa_sh g))) || existsb (Nat.eqb (fa_id g)) r) (facets m))
    (corners (fa_sh f))) (facets m).
Lemma reach_in m v k : forall l, (forall g, In g l -> In g (facets m)) -> forall g, In g (reach m v k l) -> In g (facets m).
Proof.
  induction k as [|k IH]; intros l H g Hg; [exact (H g Hg)|]. cbn [reach] in Hg. revert g Hg. apply IH.
  intros g Hg. apply in_app_or in Hg. destruct Hg as [Hg|Hg]; [exact (H g Hg)|]. apply filter_In in Hg. apply Hg.
Qed.
Lemma fansb_sound m : conforming m -> fansb m = true -> fans m.
Proof.
  unfold fansb. rewrite forallb_forall. intros C H v f g Hf Hg Cf Cg. specialize (H f Hf). rewrite forallb_forall in H. specialize (H v Cf). cbn zeta in H.
  rewrite forallb_forall in H. specialize (H g Hg). apply orb_true_iff in H. destruct H as [H|H].
  - apply negb_true_iff in H. exfalso. assert (T : existsb (Nat.eqb v) (corners (fa_sh g)) = true) by (apply existsb_exists; exists v; split; [exact Cg|apply Nat.eqb_refl]). congruence.
  - apply existsb_exists in H. destruct H as [i [Hi E]]. apply Nat.eqb_eq in E. subst i. apply in_map_iff in Hi. destruct Hi as [x [E Hx]].
    assert (Ix : In x (facets m)) by (apply (reach_in m v (length (facets m)) [f]); [intros y [<-|[]]; exact Hf|exact Hx]).
    rewrite <- (id_facet m x g C Ix Hg E). apply (reach_sound m v (length (facets m)) [f] f Hf); [|exact Hx].
    intros y [<-|[]]. split; [exact Hf|apply rt_refl].
Qed.
Definition soundb (m : mesh) : bool := conformingb m && addressedb m && fitsb m && fansb m && positiveb m && unsetb m.
Lemma soundb_sound m : soundb m = true -> sound m.
Proof.
  unfold soundb. rewrite !andb_true_iff. intros [[[[[H1 H2] H3] H4] H5] H6].
  assert (C := conformingb_sound m H1). constructor;
    [exact C|exact (addressedb_sound m H2)|exact (fitsb_sound m H3)|exact (fansb_sound m C H4)|exact (positiveb_sound m H5)|exact (unsetb_sound m H6)].
Qed.
