(* A decision procedure for [conforming], used to show that concrete meshes
   meet the hypotheses of the theorems. *)
From Coq Require Import Lia.
From Verif Require Import Base GeomModel Chain MeshModel MeshSpec MeshProofs.

Fixpoint nodupb {A} (eqb : A -> A -> bool) (l : list A) : bool :=
  match l with [] => true | a :: r => negb (existsb (eqb a) r) && nodupb eqb r end.
Lemma nodupb_sound {A} (eqb : A -> A -> bool) (R : forall a, eqb a a = true) l : nodupb eqb l = true -> NoDup l.
Proof.
  induction l as [|a l IH]; intros H; [constructor|]. cbn in H. apply andb_true_iff in H. destruct H as [H1 H2].
  constructor; [|apply IH; exact H2]. intros HI. apply negb_true_iff in H1.
  assert (T : existsb (eqb a) l = true) by (apply existsb_exists; exists a; auto). congruence.
Qed.

Definition peqb (p q : nat * nat) : bool := Nat.eqb (fst p) (fst q) && Nat.eqb (snd p) (snd q).
Lemma peqb_eq p q : peqb p q = true <-> p = q.
Proof.
  destruct p as [a b], q as [c d]. unfold peqb. cbn. rewrite andb_true_iff, !Nat.eqb_eq.
  split; [intros [H1 H2]; subst; reflexivity|intros H; injection H; auto].
Qed.
Definition memb (p : nat * nat) (l : list (nat * nat)) : bool := existsb (peqb p) l.
Lemma memb_in p l : memb p l = true <-> In p l.
Proof.
  unfold memb. rewrite existsb_exists. split.
  - intros [x [H E]]. apply peqb_eq in E. subst. exact H.
  - intros H. exists p. split; [exact H|apply peqb_eq; reflexivity].
Qed.

Definition is_quad (f : facet) : bool := match fa_sh f with Quad4 _ _ _ _ => true | Tri3 _ _ _ => false end.
Definition pairb (e f : medge) : bool :=
  peqb (ed_1 e, ed_2 e) (ed_1 f, ed_2 f) || peqb (ed_1 e, ed_2 e) (ed_2 f, ed_1 f).

Definition conformingb (m : mesh) : bool :=
  nodupb Nat.eqb (map fa_id (facets m)) &&
  forallb (fun f => nodupb Nat.eqb (corners (fa_sh f))) (facets m) &&
  forallb is_quad (mh_quads m) &&
  forallb (fun f => negb (is_quad f)) (mh_tris m) &&
  nodupb peqb (all_sides m) &&
  forallb (fun e => memb (ed_1 e, ed_2 e) (all_sides m) && memb (ed_2 e, ed_1 e) (all_sides m)) (mh_intr m) &&
  forallb (fun e => memb (ed_1 e, ed_2 e) (all_sides m) && negb (memb (ed_2 e, ed_1 e) (all_sides m))) (mh_bdry m) &&
  forallb (fun p => existsb (fun e => peqb (ed_1 e, ed_2 e) p || peqb (ed_2 e, ed_1 e) p) (all_edges m)) (all_sides m) &&
  nodupb Nat.eqb (map ed_id (all_edges m)) &&
  nodupb pairb (all_edges m).

Lemma nodupb_pair l e f : nodupb pairb l = true -> In e l -> In f l -> same_pair e f -> e = f.
Proof.
  intros N He Hf S.
  assert (P : pairb e f = true /\ pairb f e = true).
  { unfold pairb. rewrite !orb_true_iff, !peqb_eq. destruct S as [[S1 S2]|[S1 S2]]; rewrite S1, S2; auto. }
  induction l as [|a l IH]; [destruct He|]. cbn in N. apply andb_true_iff in N. destruct N as [N1 N2].
  apply negb_true_iff in N1. destruct He as [He|He], Hf as [Hf|Hf]; subst.
  - reflexivity.
  - assert (T : existsb (pairb e) l = true) by (apply existsb_exists; exists f; tauto). congruence.
  - assert (T : existsb (pairb f) l = true) by (apply existsb_exists; exists e; tauto). congruence.
  - apply IH; assumption.
Qed.

Lemma conformingb_sound m : conformingb m = true -> conforming m.
Proof.
  unfold conformingb. intros H.
  repeat (apply andb_true_iff in H; let H' := fresh "K" in destruct H as [H H']).
  rewrite forallb_forall in *.
  constructor.
  - apply (nodupb_sound Nat.eqb Nat.eqb_refl). exact H.
  - intros f Hf. apply (nodupb_sound Nat.eqb Nat.eqb_refl).
    match goal with K : forall x, In x (facets m) -> _ |- _ => exact (K f Hf) end.
  - intros f Hf. match goal with K : forall x, In x (mh_quads m) -> _ |- _ => specialize (K f Hf); unfold is_quad in K end.
    destruct (fa_sh f) as [? ? ?|a b c d]; [discriminate|]. exists a, b, c, d. reflexivity.
  - intros f Hf. match goal with K : forall x, In x (mh_tris m) -> _ |- _ => specialize (K f Hf); unfold is_quad in K end.
    destruct (fa_sh f) as [a b c|? ? ? ?]; [|discriminate]. exists a, b, c. reflexivity.
  - apply (nodupb_sound peqb). { intros a. apply peqb_eq. reflexivity. } assumption.
  - intros e He. match goal with K : forall x, In x (mh_intr m) -> _ |- _ => specialize (K e He) end.
    rewrite andb_true_iff, !memb_in in *. assumption.
  - intros e He. match goal with K : forall x, In x (mh_bdry m) -> _ |- _ => specialize (K e He) end.
    rewrite andb_true_iff, negb_true_iff in *. rewrite memb_in in *. split; [tauto|].
    intros HI. apply memb_in in HI. destruct K2. congruence.
  - intros a b Hab. match goal with K : forall x, In x (all_sides m) -> _ |- _ => specialize (K (a, b) Hab) end.
    match goal with K : existsb _ _ = true |- _ => apply existsb_exists in K; destruct K as [e [He E]] end.
    exists e. split; [exact He|]. apply orb_true_iff in E. rewrite !peqb_eq in E.
    destruct E as [E|E]; injection E; auto.
  - apply (nodupb_sound Nat.eqb Nat.eqb_refl). assumption.
  - intros e f. apply nodupb_pair. assumption.
Qed.
