(* Proofs about the editing of domains. *)
From Coq Require Import Lia Sorting.Sorted Sorting.Permutation.
From Verif Require Import Base EditModel EditSpec.
Open Scope nat_scope.

Lemma member_in k l : member k l = true <-> In k l.
Proof. unfold member. rewrite existsb_exists. split; [intros [x [I E]]; apply Nat.eqb_eq in E; subst; exact I|intros I; exists k; split; [exact I|apply Nat.eqb_refl]]. Qed.
Lemma member_out k l : member k l = false <-> ~ In k l.
Proof. rewrite <- member_in. destruct (member k l); split; congruence. Qed.
Lemma drop_in k j l : In j (drop k l) <-> In j l /\ j <> k.
Proof. unfold drop. rewrite filter_In, negb_true_iff, Nat.eqb_neq. tauto. Qed.
Lemma drop_out k l : ~ In k l -> drop k l = l.
Proof. intros H. unfold drop. induction l as [|x r IH]; [reflexivity|]. cbn. destruct (Nat.eqb_spec x k) as [->|N]; [exfalso; apply H; left; reflexivity|cbn; f_equal; apply IH; intros I; apply H; right; exact I]. Qed.
Lemma drop_count k j l : count_occ Nat.eq_dec (drop k l) j = if Nat.eqb j k then 0 else count_occ Nat.eq_dec l j.
Proof.
  unfold drop. induction l as [|x r IH]; [destruct (Nat.eqb j k); reflexivity|]. cbn [filter count_occ].
  destruct (Nat.eqb_spec x k) as [->|N]; cbn [negb].
  - rewrite IH. destruct (Nat.eqb_spec j k) as [->|M]; [reflexivity|]. destruct (Nat.eq_dec k j); [congruence|reflexivity].
  - cbn [count_occ]. rewrite IH. destruct (Nat.eq_dec x j) as [->|M]; destruct (Nat.eqb_spec j k); congruence.
Qed.
Lemma drop_split k A B : ~ In k A -> ~ In k B -> drop k (A ++ k :: B) = A ++ B.
Proof. intros HA HB. unfold drop. rewrite filter_app. cbn. rewrite Nat.eqb_refl. cbn. f_equal; apply drop_out; assumption. Qed.
Lemma upd_same {A} (f : nat -> A) k x : upd f k x k = x.
Proof. unfold upd. rewrite Nat.eqb_refl. reflexivity. Qed.
Lemma upd_other {A} (f : nat -> A) k x j : j <> k -> upd f k x j = f j.
Proof. unfold upd. intros H. apply Nat.eqb_neq in H. rewrite H. reflexivity. Qed.

(* ---------- the whole invariant ---------- *)
Definition all_items (ls : list elst) : list nat := flat_map l_items ls.
Record sound (s : dom) : Prop := {
  so_intact : intact s;
  so_items : NoDup (all_items (lists s));
  so_ids : NoDup (map l_id (lists s));
  so_lt_e : forall k, In k (all_items (lists s)) -> k < d_next s;
  so_lt_l : forall l, In l (lists s) -> l_id l < d_next s;
  so_lt_v : forall v, In v (d_verts s) -> v < d_next s;
  so_verts : NoDup (d_verts s);
  so_fverts : NoDup (d_fverts s);
  so_sorted : forall v, In v (d_verts s) -> StronglySorted le (d_star s v) }.

Lemma listed_all s k : listed s k <-> In k (all_items (lists s)).
Proof. unfold listed, stands_in, all_items. rewrite in_flat_map. reflexivity. Qed.
Lemma listed_alloc s k : listed s k -> e_alloc s k = true.
Proof. intros [l [L I]]. unfold e_alloc. apply existsb_exists. exists l. split; [exact L|]. unfold l_alloc. apply member_in in I. rewrite I. reflexivity. Qed.
Lemma verts_alloc s v : In v (d_verts s) -> v_alloc s v = true.
Proof. intros I. unfold v_alloc. apply member_in in I. rewrite I. reflexivity. Qed.

Lemma map_other (l : elst) ls : ~ In (l_id l) (map l_id ls) -> map (fun b => if Nat.eqb (l_id b) (l_id l) then l else b) ls = ls.
Proof. intros H. induction ls as [|b r IH]; [reflexivity|]. cbn in *. destruct (Nat.eqb_spec (l_id b) (l_id l)) as [E|N]; [exfalso; apply H; left; exact E|f_equal; apply IH; intros I; apply H; right; exact I]. Qed.
Lemma lists_set s l' A l B : NoDup (map l_id (lists s)) -> lists s = A ++ l :: B -> l_id l' = l_id l -> lists (set_list s l') = A ++ l' :: B.
Proof.
  unfold lists. intros N E I. assert (N2 := N). rewrite E, map_app in N2. cbn [map] in N2. apply NoDup_remove_2 in N2.
  assert (NA : ~ In (l_id l') (map l_id A)) by (rewrite I; intros J; apply N2, in_or_app; left; exact J).
  assert (NB : ~ In (l_id l') (map l_id B)) by (rewrite I; intros J; apply N2, in_or_app; right; exact J).
  unfold set_list. destruct A as [|a A]; cbn [app] in E; injection E as E1 E2.
  - rewrite E1, I, Nat.eqb_refl. cbn. rewrite E2. reflexivity.
  - destruct (Nat.eqb_spec (l_id l') (l_id (d_fedges s))) as [F|F]; [exfalso; apply NA; left; congruence|]. cbn. rewrite E2, map_app. cbn [map]. rewrite I, Nat.eqb_refl, <- I.
    rewrite (map_other l' B NB), (map_other l' A) by (intros J; apply NA; right; exact J). rewrite E1. reflexivity.
Qed.
Lemma bdrys_set s l' l : NoDup (map l_id (lists s)) -> In l (lists s) -> l_id l' = l_id l ->
  d_bdrys (set_list s l') = map (fun b => if Nat.eqb (l_id b) (l_id l') then l' else b) (d_bdrys s).
Proof.
  intros N L I. unfold set_list. destruct (Nat.eqb_spec (l_id l') (l_id (d_fedges s))) as [F|F]; [|reflexivity]. cbn. symmetry. apply map_other. rewrite F.
  unfold lists in N. cbn [map] in N. apply NoDup_cons_iff in N. exact (proj1 N).
Qed.
Lemma set_same s l' : d_verts (set_list s l') = d_verts s /\ d_vwaste (set_list s l') = d_vwaste s /\ d_fverts (set_list s l') = d_fverts s /\ d_star (set_list s l') = d_star s /\
  d_vtree (set_list s l') = d_vtree s /\ d_vfixed (set_list s l') = d_vfixed s /\ d_ends (set_list s l') = d_ends s /\ d_home (set_list s l') = d_home s /\ d_etree (set_list s l') = d_etree s /\ d_next (set_list s l') = d_next s.
Proof. unfold set_list. destruct (Nat.eqb (l_id l') (l_id (d_fedges s))); repeat split. Qed.
Lemma nth_lists s p l : nth_error (d_bdrys s) p = Some l -> In l (lists s).
Proof. intros H. right. eapply nth_error_In; eauto. Qed.
Lemma stands_unique s l l' k : NoDup (all_items (lists s)) -> stands_in s l k -> stands_in s l' k -> l = l'.
Proof.
  unfold stands_in, all_items. intros N [L I] [L' I']. revert N L L'. induction (lists s) as [|x r IH]; [intros _ []|]. cbn [flat_map]. intros N [->|L] [->|L'].
  - reflexivity.
  - exfalso. assert (X : In k (flat_map l_items r)) by (apply in_flat_map; exists l'; auto). apply in_split in I. destruct I as [a [b E]]. rewrite E in N. rewrite <- app_assoc in N. cbn in N. apply NoDup_remove_2 in N. apply N. rewrite app_assoc. apply in_or_app. right. exact X.
  - exfalso. assert (X : In k (flat_map l_items r)) by (apply in_flat_map; exists l; auto). apply in_split in I'. destruct I' as [a [b E]]. rewrite E in N. rewrite <- app_assoc in N. cbn in N. apply NoDup_remove_2 in N. apply N. rewrite app_assoc. apply in_or_app. right. exact X.
  - apply IH; try assumption. clear -N. induction (l_items x) as [|y q IHq]; [exact N|]. cbn in N. apply NoDup_cons_iff in N. apply IHq, N.
Qed.
Lemma ss_last l e : StronglySorted le l -> (forall k, In k l -> k <= e) -> StronglySorted le (l ++ [e]).
Proof.
  induction l as [|x r IH]; intros S H; [constructor; constructor|]. cbn. apply StronglySorted_inv in S. destruct S as [S F]. constructor; [apply IH; [exact S|intros k K; apply H; right; exact K]|].
  apply Forall_app. split; [exact F|]. constructor; [apply H; left; reflexivity|constructor].
Qed.
Lemma ss_filter f l : StronglySorted le l -> StronglySorted le (filter f l).
Proof.
  induction l as [|x r IH]; intros S; [constructor|]. cbn. apply StronglySorted_inv in S. destruct S as [S F]. destruct (f x); [constructor|]; try (apply IH, S).
  apply Forall_forall. intros y Y. apply filter_In in Y. rewrite Forall_forall in F. apply F, Y.
Qed.

(* ---------- a new edge ---------- *)
Section Push.
Variables (s : dom) (l : elst) (A B : list elst) (v1 v2 : nat) (t : bool).
Hypothesis S : sound s.
Hypothesis EL : lists s = A ++ l :: B.
Hypothesis I1 : In v1 (d_verts s).
Hypothesis I2 : In v2 (d_verts s).
Let e := d_next s.
Let star1 := upd (d_star s) v1 (d_star s v1 ++ [e]).
Let star2 := upd star1 v2 (star1 v2 ++ [e]).
Let s1 := Dom (d_verts s) (d_vwaste s) (d_bdrys s) (d_fverts s) (d_fedges s) star2 (d_vtree s) (d_vfixed s)
                (upd (d_ends s) e (Some (v1, v2))) (upd (d_home s) e (l_id l)) (upd (d_etree s) e t) (Datatypes.S e).
Let l' := ELst (l_id l) (l_items l ++ [e]) (l_waste l).
Let s2 := set_list s1 l'.

Lemma push_lists : lists s2 = A ++ l' :: B.
Proof. apply (lists_set s1 l' A l B); [exact (so_ids s S)|exact EL|reflexivity]. Qed.
Lemma push_items : Permutation (e :: all_items (lists s)) (all_items (lists s2)).
Proof.
  rewrite push_lists, EL. unfold all_items. rewrite !flat_map_app. cbn [flat_map l_items l']. rewrite <- app_assoc. cbn [app].
  rewrite app_assoc. eapply Permutation_trans; [apply Permutation_middle|]. rewrite <- !app_assoc. apply Permutation_app_head. apply Permutation_refl || (cbn; apply Permutation_refl).
Qed.
Lemma push_fresh : ~ In e (all_items (lists s)).
Proof. intros I. apply (so_lt_e s S) in I. unfold e in I. lia. Qed.
Lemma push_listed k : listed s2 k <-> k = e \/ listed s k.
Proof.
  rewrite !listed_all. split; intros H.
  - apply (Permutation_in _ (Permutation_sym push_items)) in H. destruct H as [H|H]; auto.
  - apply (Permutation_in _ push_items). destruct H as [->|H]; [left; reflexivity|right; exact H].
Qed.
Lemma push_star v k : count_occ Nat.eq_dec (star2 v) k = count_occ Nat.eq_dec (d_star s v) k + (if Nat.eqb k e then at_end v v1 v2 else 0).
Proof.
  assert (C : forall x, count_occ Nat.eq_dec (x ++ [e]) k = count_occ Nat.eq_dec x k + (if Nat.eqb k e then 1 else 0)).
  { intros x. rewrite count_occ_app. cbn. destruct (Nat.eq_dec e k) as [<-|N]; [rewrite Nat.eqb_refl; reflexivity|]. destruct (Nat.eqb_spec k e); [congruence|reflexivity]. }
  unfold star2, star1, at_end. unfold upd at 1. destruct (Nat.eqb_spec v v2) as [->|N2].
  - rewrite C. unfold upd. rewrite Nat.eqb_refl. destruct (Nat.eqb_spec v2 v1) as [<-|N1]; [rewrite C, Nat.eqb_refl; destruct (Nat.eqb k e); lia|].
    destruct (Nat.eqb_spec v1 v2); [congruence|]. destruct (Nat.eqb k e); lia.
  - unfold upd. destruct (Nat.eqb_spec v2 v); [congruence|]. destruct (Nat.eqb_spec v v1) as [->|N1]; [rewrite C, Nat.eqb_refl; destruct (Nat.eqb k e); lia|].
    destruct (Nat.eqb_spec v1 v); [congruence|]. destruct (Nat.eqb k e); lia.
Qed.
Lemma push_star_in v k : In k (star2 v) -> k = e \/ In k (d_star s v).
Proof.
  intros I. apply (count_occ_In Nat.eq_dec) in I. rewrite push_star in I. destruct (Nat.eqb_spec k e) as [E|N]; [left; exact E|right]. apply (count_occ_In Nat.eq_dec). lia.
Qed.
Lemma push_sound : sound s2.
Proof.
  destruct (set_same s1 l') as [Ev [_ [Ef [Es [_ [Ex [Ee [Eh [_ En]]]]]]]]]. fold s2 in Ev, Ef, Es, Ex, Ee, Eh, En. cbn in Ev, Ef, Es, Ex, Ee, Eh, En. destruct (so_intact s S) as [P1 P2 P3 P4 P5].
  assert (NE : forall k, listed s k -> k <> e) by (intros k K ->; apply listed_all in K; exact (push_fresh K)).
  constructor.
  - constructor.
    + intros k K. rewrite Ee, Ev. apply push_listed in K. destruct K as [->|K]; [exists v1, v2; rewrite upd_same; auto|]. rewrite upd_other by (apply NE, K). apply P1, K.
    + intros v k a b V K. rewrite Ee, Es, push_star. rewrite Ev in V. apply push_listed in K. destruct K as [->|K].
      * rewrite upd_same. intros E. injection E as <- <-. rewrite Nat.eqb_refl. rewrite (proj1 (count_occ_not_In Nat.eq_dec (d_star s v) e)); [reflexivity|].
        intros J. apply (P3 v e V), listed_all in J. exact (push_fresh J).
      * assert (N := NE k K). rewrite upd_other by exact N. intros E. apply Nat.eqb_neq in N. rewrite N, Nat.add_0_r. exact (P2 v k a b V K E).
    + intros v k V. rewrite Ev in V. rewrite Es. intros J. apply push_listed. apply push_star_in in J. destruct J as [J|J]; [left; exact J|right; exact (P3 v k V J)].
    + intros m k [M K]. rewrite Eh. rewrite push_lists in M.
      assert (X : m = l' \/ (In m (lists s))) by (rewrite EL; apply in_app_or in M; destruct M as [M|[M|M]]; [right; apply in_or_app; auto|left; auto|right; apply in_or_app; right; right; exact M]).
      destruct X as [->|X].
      * cbn [l' l_items l_id] in *. apply in_app_or in K. destruct K as [K|[<-|[]]]; [|apply upd_same]. assert (T : stands_in s l k) by (split; [rewrite EL; apply in_or_app; right; left; reflexivity|exact K]).
        rewrite upd_other by (apply NE; exists l; exact T). apply P4, T.
      * rewrite upd_other by (apply NE; exists m; split; assumption). apply P4. split; assumption.
    + intros v V. rewrite Ef in V. rewrite Ev, Ex. apply P5, V.
  - apply (Permutation_NoDup push_items). constructor; [exact push_fresh|exact (so_items s S)].
  - rewrite push_lists, map_app. cbn [map l' l_id]. assert (N := so_ids s S). rewrite EL, map_app in N. exact N.
  - intros k K. rewrite En. apply listed_all, push_listed in K. destruct K as [->|K]; [lia|]. apply listed_all, (so_lt_e s S) in K. fold e in K. lia.
  - intros m M. rewrite En, push_lists in *.
    assert (X : exists m', In m' (lists s) /\ l_id m' = l_id m) by (rewrite EL; apply in_app_or in M; destruct M as [M|[<-|M]]; [exists m; split; [apply in_or_app; auto|reflexivity]|exists l; split; [apply in_or_app; right; left; reflexivity|reflexivity]|exists m; split; [apply in_or_app; right; right; exact M|reflexivity]]).
    destruct X as [m' [X <-]]. apply (so_lt_l s S) in X. fold e in X. lia.
  - intros v V. rewrite Ev in V. rewrite En. apply (so_lt_v s S) in V. fold e in V. lia.
  - rewrite Ev. exact (so_verts s S).
  - rewrite Ef. exact (so_fverts s S).
  - intros v V. rewrite Ev in V. rewrite Es. assert (L : forall k w, In w (d_verts s) -> In k (d_star s w) -> k <= e) by (intros k w W K; apply (P3 w k W), listed_all, (so_lt_e s S) in K; fold e in K; lia).
    assert (T1 : forall w, In w (d_verts s) -> StronglySorted le (star1 w) /\ forall k, In k (star1 w) -> k <= e).
    { intros w W. unfold star1, upd. destruct (Nat.eqb w v1); [|split; [exact (so_sorted s S w W)|intros k; apply L, W]]. split; [apply ss_last; [exact (so_sorted s S v1 I1)|intros k; apply L, I1]|].
      intros k K. apply in_app_or in K. destruct K as [K|[<-|[]]]; [exact (L k v1 I1 K)|lia]. }
    unfold star2. unfold upd at 1. destruct (Nat.eqb v v2); [|apply T1, V]. apply ss_last; apply (T1 v2 I2).
Qed.
Lemma push_reads oriented : oriented && negb (forallb (can_read s2) (area_reads s2 (l_items l ++ [e]))) = false.
Proof.
  assert (R : forall k, In k (l_items l ++ [e]) -> can_read s2 (option_map fst (d_ends s2 k)) = true /\ can_read s2 (option_map snd (d_ends s2 k)) = true).
  { intros k K. assert (T : listed s2 k) by (exists l'; split; [rewrite push_lists; apply in_or_app; right; left; reflexivity|exact K]). destruct (in_ends s2 (so_intact s2 push_sound) k T) as [a [b [E [IA IB]]]].
    rewrite E. cbn. split; apply verts_alloc; assumption. }
  destruct oriented; [|reflexivity]. cbn. apply negb_false_iff, forallb_forall. intros o O. unfold area_reads in O.
  destruct (l_items l ++ [e]) as [|x [|y [|z r]]]; try contradiction. destruct O as [<-|O]; [apply R; left; reflexivity|]. apply in_flat_map in O. destruct O as [k [K O]].
  destruct O as [<-|[<-|[]]]; apply R; right; exact K.
Qed.
Lemma push_ok oriented : push_edge s l oriented v1 v2 t = Ok s2.
Proof.
  unfold push_edge. rewrite (verts_alloc s v1 I1), (verts_alloc s v2 I2). cbn [andb negb]. fold e star1 star2 s1 l'. change (set_list s1 (ELst (l_id l) (l_items l ++ [e]) (l_waste l))) with s2. rewrite push_reads. reflexivity.
Qed.
End Push.

Lemma nodup_right {X} (a b : list X) : NoDup (a ++ b) -> NoDup b.
Proof. induction a as [|x r IH]; [auto|]. cbn. intros N. apply NoDup_cons_iff in N. apply IH, N. Qed.
(* ---------- an edge is removed ---------- *)
Section Remove.
Variables (s : dom) (l : elst) (A B : list elst) (e v1 v2 : nat).
Hypothesis S : sound s.
Hypothesis EL : lists s = A ++ l :: B.
Hypothesis IE : In e (l_items l).
Hypothesis EE : d_ends s e = Some (v1, v2).
Let star1 := upd (d_star s) v1 (drop e (d_star s v1)).
Let star2 := upd star1 v2 (drop e (star1 v2)).
Let s1 := Dom (d_verts s) (d_vwaste s) (d_bdrys s) (d_fverts s) (d_fedges s) star2 (d_vtree s) (d_vfixed s)
                      (upd (d_ends s) e None) (d_home s) (upd (d_etree s) e false) (d_next s).
Let l' := ELst (l_id l) (drop e (l_items l)) (l_waste l ++ [e]).
Let s2 := set_list s1 l'.

Lemma rem_lists : lists s2 = A ++ l' :: B.
Proof. apply (lists_set s1 l' A l B); [exact (so_ids s S)|exact EL|reflexivity]. Qed.
Lemma rem_here : stands_in s l e.
Proof. split; [rewrite EL; apply in_or_app; right; left; reflexivity|exact IE]. Qed.
Lemma rem_items : Permutation (all_items (lists s)) (e :: all_items (lists s2)).
Proof.
  assert (N := so_items s S). rewrite rem_lists. rewrite EL in *. unfold all_items in *. rewrite flat_map_app in *. rewrite flat_map_app. cbn [flat_map l_items l'] in *.
  destruct (in_split _ _ IE) as [X [Y E]]. rewrite E in *. apply nodup_right in N. rewrite <- app_assoc in N. cbn in N. apply NoDup_remove_2 in N. rewrite drop_split.
  - rewrite <- !app_assoc. rewrite (app_assoc _ X), (app_assoc _ X). cbn [app]. apply Permutation_sym, Permutation_middle.
  - intros J. apply N, in_or_app. left. exact J.
  - intros J. apply N, in_or_app. right. apply in_or_app. left. exact J.
Qed.
Lemma rem_nodup : NoDup (e :: all_items (lists s2)).
Proof. exact (Permutation_NoDup rem_items (so_items s S)). Qed.
Lemma rem_listed k : listed s2 k <-> listed s k /\ k <> e.
Proof.
  rewrite !listed_all. assert (N := rem_nodup). apply NoDup_cons_iff in N. destruct N as [N _]. split.
  - intros H. split; [apply (Permutation_in _ (Permutation_sym rem_items)); right; exact H|intros Z; subst k; exact (N H)].
  - intros [H Z]. apply (Permutation_in _ rem_items) in H. destruct H as [H|H]; [exfalso; apply Z; symmetry; exact H|exact H].
Qed.
Lemma rem_ends_in : In v1 (d_verts s) /\ In v2 (d_verts s).
Proof. destruct (in_ends s (so_intact s S) e) as [a [b [E [IA IB]]]]; [exists l; exact rem_here|]. rewrite EE in E. injection E as <- <-. auto. Qed.
Lemma rem_star v k : In v (d_verts s) -> count_occ Nat.eq_dec (star2 v) k = if Nat.eqb k e then 0 else count_occ Nat.eq_dec (d_star s v) k.
Proof.
  intros V. assert (Z : count_occ Nat.eq_dec (d_star s v) e = at_end v v1 v2) by (apply (in_star s (so_intact s S)); [exact V|exists l; exact rem_here|exact EE]).
  unfold star2, star1, upd, at_end in *. rewrite (Nat.eqb_sym v1 v), (Nat.eqb_sym v2 v) in Z. destruct (Nat.eqb_spec v v2) as [E2|N2].
  - rewrite <- E2. rewrite drop_count. destruct (Nat.eqb v v1) eqn:E1; [apply Nat.eqb_eq in E1; rewrite <- E1, drop_count|]; destruct (Nat.eqb k e); reflexivity.
  - destruct (Nat.eqb_spec v v1) as [E1|N1]; [rewrite <- E1; apply drop_count|]. cbn in Z. destruct (Nat.eqb_spec k e) as [E|N]; [rewrite E; exact Z|reflexivity].
Qed.
Lemma rem_sound : sound s2.
Proof.
  destruct (set_same s1 l') as [Ev [_ [Ef [Es [_ [Ex [Ee [Eh [_ En]]]]]]]]]. fold s2 in Ev, Ef, Es, Ex, Ee, Eh, En. cbn in Ev, Ef, Es, Ex, Ee, Eh, En. destruct (so_intact s S) as [P1 P2 P3 P4 P5].
  assert (NI := rem_nodup). apply NoDup_cons_iff in NI.
  constructor.
  - constructor.
    + intros k K. rewrite Ee, Ev. apply rem_listed in K. destruct K as [K N]. rewrite upd_other by exact N. apply P1, K.
    + intros v k a b V K. rewrite Ee, Es. rewrite Ev in V. apply rem_listed in K. destruct K as [K N]. rewrite (rem_star v k V), upd_other by exact N. intros E. apply Nat.eqb_neq in N. rewrite N. exact (P2 v k a b V K E).
    + intros v k V. rewrite Ev in V. rewrite Es. intros J. apply rem_listed. apply (count_occ_In Nat.eq_dec) in J. rewrite (rem_star v k V) in J. destruct (Nat.eqb_spec k e) as [E|N]; [lia|]. split; [|exact N].
      apply (P3 v k V), (count_occ_In Nat.eq_dec), J.
    + intros m k [M K]. rewrite Eh. rewrite rem_lists in M.
      assert (X : m = l' \/ (In m (lists s))) by (rewrite EL; apply in_app_or in M; destruct M as [M|[M|M]]; [right; apply in_or_app; auto|left; auto|right; apply in_or_app; right; right; exact M]).
      destruct X as [X|X]; [|apply P4; split; assumption]. rewrite X in *. cbn [l' l_items l_id] in *. apply drop_in in K. apply (P4 l k). split; [apply rem_here|apply K].
    + intros v V. rewrite Ef in V. rewrite Ev, Ex. apply P5, V.
  - apply NI.
  - rewrite rem_lists, map_app. cbn [map l' l_id]. assert (N := so_ids s S). rewrite EL, map_app in N. exact N.
  - intros k K. rewrite En. apply listed_all, rem_listed in K. apply (so_lt_e s S), listed_all, K.
  - intros m M. rewrite En, rem_lists in *.
    assert (X : exists m', In m' (lists s) /\ l_id m' = l_id m) by (rewrite EL; apply in_app_or in M; destruct M as [M|[<-|M]]; [exists m; split; [apply in_or_app; auto|reflexivity]|exists l; split; [apply in_or_app; right; left; reflexivity|reflexivity]|exists m; split; [apply in_or_app; right; right; exact M|reflexivity]]).
    destruct X as [m' [X <-]]. apply (so_lt_l s S) in X. exact X.
  - intros v V. rewrite Ev in V. rewrite En. apply (so_lt_v s S) in V. exact V.
  - rewrite Ev. exact (so_verts s S).
  - rewrite Ef. exact (so_fverts s S).
  - intros v V. rewrite Ev in V. rewrite Es. destruct rem_ends_in as [I1 I2].
    assert (T1 : forall w, In w (d_verts s) -> StronglySorted le (star1 w)) by (intros w W; unfold star1, upd; destruct (Nat.eqb w v1); [apply ss_filter, (so_sorted s S v1 I1)|exact (so_sorted s S w W)]).
    unfold star2. unfold upd at 1. destruct (Nat.eqb v v2); [apply ss_filter, (T1 v2 I2)|apply (T1 v V)].
Qed.
Lemma rem_ok : d_etree s e = true -> list_remove s l e = Ok s2.
Proof.
  intros T. unfold list_remove. rewrite (listed_alloc s e) by (exists l; exact rem_here). rewrite (proj2 (member_in _ _) IE), T, EE. destruct rem_ends_in as [I1 I2].
  rewrite (verts_alloc s v1 I1), (verts_alloc s v2 I2). reflexivity.
Qed.
End Remove.

Lemma remove_sound s l e : sound s -> In l (lists s) -> listed s e -> exists s', list_remove s l e = Ok s' /\ sound s' /\
  (forall p m, nth_error (d_bdrys s) p = Some m -> exists m', nth_error (d_bdrys s') p = Some m' /\ l_id m' = l_id m /\
     l_items m' = (if Nat.eqb (l_id m) (l_id l) && d_etree s e then drop e (l_items m) else l_items m)) /\
  (forall k, k <> e -> d_etree s' k = d_etree s k) /\ length (d_bdrys s') = length (d_bdrys s).
Proof.
  intros S L K. destruct (in_split _ _ L) as [A [B EL]]. assert (IDS : forall m, In m (lists s) -> l_id m = l_id l -> m = l).
  { intros m M E. assert (N := so_ids s S). destruct (in_split _ _ M) as [C [D EM]]. clear -M L E N. revert M L N. induction (lists s) as [|x r IH]; [intros []|]. cbn. intros [->|M] [->|L] N; apply NoDup_cons_iff in N; destruct N as [N1 N2]; auto.
    - exfalso. apply N1. rewrite E. apply in_map, L.
    - exfalso. apply N1. rewrite <- E. apply in_map, M. }
  assert (OUT : forall m, In m (lists s) -> Nat.eqb (l_id m) (l_id l) && d_etree s e = true -> ~ In e (l_items l) -> drop e (l_items m) = l_items m).
  { intros m M E NI. apply andb_true_iff in E. destruct E as [E _]. apply Nat.eqb_eq in E. rewrite (IDS m M E). apply drop_out, NI. }
  destruct (member e (l_items l)) eqn:ME; [|].
  - apply member_in in ME. destruct (d_etree s e) eqn:T.
    + destruct (in_ends s (so_intact s S) e K) as [a [b [E _]]]. eexists. split; [exact (rem_ok s l A B e a b S EL ME E T)|]. split; [exact (rem_sound s l A B e a b S EL ME E)|]. split; [|split].
      * intros p m P. rewrite (bdrys_set _ _ l); [|exact (so_ids s S)|exact L|reflexivity]. rewrite nth_error_map. cbn [d_bdrys]. rewrite P. cbn [option_map l_id]. eexists. split; [reflexivity|].
        rewrite andb_true_r. destruct (Nat.eqb_spec (l_id m) (l_id l)) as [I|I]; [|auto]. cbn. rewrite (IDS m (nth_lists s p m P) I). auto.
      * intros k N. destruct (set_same (Dom (d_verts s) (d_vwaste s) (d_bdrys s) (d_fverts s) (d_fedges s) (upd (upd (d_star s) a (drop e (d_star s a))) b (drop e (upd (d_star s) a (drop e (d_star s a)) b))) (d_vtree s) (d_vfixed s)
                      (upd (d_ends s) e None) (d_home s) (upd (d_etree s) e false) (d_next s)) (ELst (l_id l) (drop e (l_items l)) (l_waste l ++ [e]))) as (_&_&_&_&_&_&_&_&Et&_). rewrite Et. cbn. apply upd_other, N.
      * rewrite (bdrys_set _ _ l); [|exact (so_ids s S)|exact L|reflexivity]. apply map_length.
    + exists s. unfold list_remove. rewrite (listed_alloc s e K), T, andb_false_r. cbn [negb]. split; [reflexivity|]. split; [exact S|]. split; [|auto].
      intros p m P. exists m. rewrite andb_false_r. auto.
  - exists s. unfold list_remove. rewrite (listed_alloc s e K), ME. cbn [negb andb]. split; [reflexivity|]. split; [exact S|]. split; [|auto]. intros p m P. exists m. split; [exact P|split; [reflexivity|]].
    destruct (Nat.eqb (l_id m) (l_id l) && d_etree s e) eqn:C; [|reflexivity]. symmetry. apply (OUT m (nth_lists s p m P) C). apply member_out, ME.
Qed.

(* ---------- the other steps ---------- *)
Lemma empty_sound : sound empty_domain.
Proof.
  constructor; try (constructor; fail); try (intros ? []; fail); cbn.
  - constructor; cbn; try (intros v k a b []; fail); try (intros v k []; fail); try (intros v []; fail).
    + intros k [l [[<-|[]] []]].
    + intros l k [[<-|[]] []].
  - constructor; [intros []|constructor].
  - intros l [<-|[]]. cbn. lia.
Qed.
Lemma add_vertex_sound s f t : sound s -> sound (add_vertex s f t).
Proof.
  intros S. destruct (so_intact s S) as [P1 P2 P3 P4 P5]. assert (NV : forall v, In v (d_verts s) -> v <> d_next s) by (intros v V; apply (so_lt_v s S) in V; lia).
  assert (NF : forall v, In v (d_fverts s) -> v <> d_next s) by (intros v V; apply NV, P5, V).
  constructor; cbn.
  - constructor; cbn.
    + intros k K. destruct (P1 k K) as [a [b [E [IA IB]]]]. exists a, b. split; [exact E|]. split; apply in_or_app; auto.
    + intros v k a b V K E. apply in_app_or in V. destruct V as [V|[<-|[]]]; [rewrite upd_other by (apply NV, V); apply (P2 v k a b V K E)|].
      rewrite upd_same. cbn. destruct (P1 k K) as [a' [b' [E' [IA IB]]]]. rewrite E in E'. injection E' as <- <-. unfold at_end. apply NV, Nat.eqb_neq in IA. apply NV, Nat.eqb_neq in IB. rewrite IA, IB. reflexivity.
    + intros v k V J. apply in_app_or in V. destruct V as [V|[<-|[]]]; [rewrite upd_other in J by (apply NV, V); exact (P3 v k V J)|]. rewrite upd_same in J. destruct J.
    + intros l k K. apply P4, K.
    + intros v V. assert (X : In v (d_fverts s) \/ (v = d_next s /\ f = true)) by (destruct f; [apply in_app_or in V; destruct V as [V|[<-|[]]]; auto|auto]). destruct X as [X|[X F]].
      * destruct (P5 v X) as [Y Z]. split; [apply in_or_app; auto|]. rewrite upd_other by (apply NV, Y). exact Z.
      * rewrite X, F. split; [apply in_or_app; right; left; reflexivity|apply upd_same].
  - exact (so_items s S).
  - exact (so_ids s S).
  - intros k K. apply (so_lt_e s S) in K. lia.
  - intros l K. apply (so_lt_l s S) in K. lia.
  - intros v V. apply in_app_or in V. destruct V as [V|[<-|[]]]; [apply (so_lt_v s S) in V|]; lia.
  - apply (Permutation_NoDup (Permutation_cons_append _ _)). constructor; [intros J; apply (NV _ J); reflexivity|exact (so_verts s S)].
  - destruct f; [|exact (so_fverts s S)]. apply (Permutation_NoDup (Permutation_cons_append _ _)). constructor; [intros J; apply (NF _ J); reflexivity|exact (so_fverts s S)].
  - intros v V. apply in_app_or in V. destruct V as [V|[<-|[]]]; [rewrite upd_other by (apply NV, V); exact (so_sorted s S v V)|]. rewrite upd_same. constructor.
Qed.
(* A change of the vertex lists only. *)
Lemma fewer_sound s vs ws fs tr : sound s -> (forall v, In v vs -> In v (d_verts s)) -> (forall v, In v fs -> In v (d_fverts s)) -> NoDup vs -> NoDup fs ->
  (forall v, In v (d_verts s) -> unused s v \/ In v vs) -> (forall v, In v fs -> In v vs) ->
  sound (Dom vs ws (d_bdrys s) fs (d_fedges s) (d_star s) tr (d_vfixed s) (d_ends s) (d_home s) (d_etree s) (d_next s)).
Proof.
  intros S V F NV NF U FV. destruct (so_intact s S) as [P1 P2 P3 P4 P5]. constructor; cbn.
  - constructor; cbn.
    + intros k K. destruct (P1 k K) as [a [b [E [IA IB]]]]. exists a, b. split; [exact E|]. split.
      * destruct (U a IA) as [X|X]; [exfalso; apply (proj1 (X k a b K E)); reflexivity|exact X].
      * destruct (U b IB) as [X|X]; [exfalso; apply (proj2 (X k a b K E)); reflexivity|exact X].
    + intros v k a b I K E. exact (P2 v k a b (V v I) K E).
    + intros v k I J. exact (P3 v k (V v I) J).
    + intros l k K. apply P4, K.
    + intros v I. split; [apply FV, I|apply P5, F, I].
  - exact (so_items s S).
  - exact (so_ids s S).
  - exact (so_lt_e s S).
  - exact (so_lt_l s S).
  - intros v I. apply (so_lt_v s S), V, I.
  - exact NV.
  - exact NF.
  - intros v I. apply (so_sorted s S), V, I.
Qed.
Lemma drop_nodup k l : NoDup l -> NoDup (drop k l).
Proof. apply NoDup_filter. Qed.
Lemma vertices_remove_ok s v : In v (d_verts s) -> vertices_remove s v = Ok (if d_vtree s v then Dom (drop v (d_verts s)) (d_vwaste s ++ [v]) (d_bdrys s) (d_fverts s) (d_fedges s)
               (d_star s) (upd (d_vtree s) v false) (d_vfixed s) (d_ends s) (d_home s) (d_etree s) (d_next s) else s).
Proof. intros V. unfold vertices_remove. rewrite (verts_alloc s v V), (proj2 (member_in _ _) V). cbn. destruct (d_vtree s v); reflexivity. Qed.
Lemma remove_vertex_sound s v : sound s -> In v (d_verts s) -> unused s v -> ~ In v (d_fverts s) -> exists s', remove_vertex s v = Ok s' /\ sound s'.
Proof.
  intros S V U F. unfold remove_vertex. rewrite (vertices_remove_ok s v V). eexists. split; [reflexivity|]. destruct (d_vtree s v); [|exact S].
  apply fewer_sound; try assumption; try exact (so_fverts s S); auto.
  - intros w W. apply drop_in in W. apply W.
  - apply drop_nodup, (so_verts s S).
  - intros w W. destruct (Nat.eq_dec w v) as [->|N]; [left; exact U|right; apply drop_in; auto].
  - intros w W. apply drop_in. split; [apply (in_fixed s (so_intact s S)), W|intros ->; exact (F W)].
Qed.
Lemma remove_fixed_sound s v : sound s -> In v (d_fverts s) -> unused s v -> exists s', remove_fixed_vertex s v = Ok s' /\ sound s'.
Proof.
  intros S F U. assert (V : In v (d_verts s)) by apply (in_fixed s (so_intact s S)), F. unfold remove_fixed_vertex. rewrite vertices_remove_ok by exact V. cbn [d_vtree]. eexists. split; [reflexivity|].
  destruct (d_vtree s v); cbn [d_verts d_vwaste d_bdrys d_fverts d_fedges d_star d_vtree d_vfixed d_ends d_home d_etree d_next]; apply fewer_sound; try assumption; auto.
  - intros w W. apply drop_in in W. apply W.
  - intros w W. apply drop_in in W. apply W.
  - apply drop_nodup, (so_verts s S).
  - apply drop_nodup, (so_fverts s S).
  - intros w W. destruct (Nat.eq_dec w v) as [->|N]; [left; exact U|right; apply drop_in; auto].
  - intros w W. apply drop_in in W. destruct W as [W N]. apply drop_in. split; [apply (in_fixed s (so_intact s S)), W|exact N].
  - intros w W. apply drop_in in W. apply W.
  - exact (so_verts s S).
  - apply drop_nodup, (so_fverts s S).
  - intros w W. apply drop_in in W. apply (in_fixed s (so_intact s S)), W.
Qed.
(* A change of the lists that keeps the edges. *)
Lemma lists_sound s s' : sound s -> d_verts s' = d_verts s -> d_fverts s' = d_fverts s -> d_star s' = d_star s -> d_vfixed s' = d_vfixed s -> d_ends s' = d_ends s -> d_home s' = d_home s -> d_next s <= d_next s' ->
  all_items (lists s') = all_items (lists s) -> NoDup (map l_id (lists s')) -> (forall l, In l (lists s') -> l_id l < d_next s') ->
  (forall l k, stands_in s' l k -> exists m, stands_in s m k /\ l_id m = l_id l) -> sound s'.
Proof.
  intros S Ev Ef Es Ex Ee Eh En I ND LT ST. destruct (so_intact s S) as [P1 P2 P3 P4 P5]. assert (LI : forall k, listed s' k <-> listed s k) by (intros k; rewrite !listed_all, I; reflexivity).
  constructor.
  - constructor.
    + intros k K. rewrite Ee, Ev. apply P1, LI, K.
    + intros v k a b V K. rewrite Ee, Es. rewrite Ev in V. apply P2; [exact V|apply LI, K].
    + intros v k V. rewrite Ev in V. rewrite Es. intros J. apply LI, (P3 v k V J).
    + intros l k K. destruct (ST l k K) as [m [M <-]]. rewrite Eh. apply P4, M.
    + intros v. rewrite Ef, Ev, Ex. apply P5.
  - rewrite I. exact (so_items s S).
  - exact ND.
  - rewrite I. intros k K. apply (so_lt_e s S) in K. lia.
  - exact LT.
  - rewrite Ev. intros v V. apply (so_lt_v s S) in V. lia.
  - rewrite Ev. exact (so_verts s S).
  - rewrite Ef. exact (so_fverts s S).
  - rewrite Ev, Es. exact (so_sorted s S).
Qed.
Lemma insert_boundary_sound s p : sound s -> p <= length (d_bdrys s) -> exists s', insert_boundary s p = Ok s' /\ sound s'.
Proof.
  intros S P. unfold insert_boundary. assert (X : (length (d_bdrys s) <? p) = false) by (apply Nat.ltb_ge; exact P). rewrite X. eexists. split; [reflexivity|].
  apply (lists_sound s); try reflexivity; try exact S; cbn [d_next]; unfold lists; cbn [d_fedges d_bdrys]; auto.
  - unfold all_items. cbn [flat_map]. f_equal. rewrite flat_map_app. cbn [flat_map l_items app]. rewrite <- flat_map_app, firstn_skipn. reflexivity.
  - assert (N := so_ids s S). unfold lists in N. cbn [map] in *. rewrite map_app. cbn [map l_id]. rewrite <- (firstn_skipn p (d_bdrys s)), map_app in N.
    apply (Permutation_NoDup (l := d_next s :: l_id (d_fedges s) :: map l_id (firstn p (d_bdrys s)) ++ map l_id (skipn p (d_bdrys s)))).
    + eapply Permutation_trans; [apply perm_swap|]. constructor. apply Permutation_middle.
    + constructor; [|exact N]. intros J. change (l_id (d_fedges s) :: map l_id (firstn p (d_bdrys s)) ++ map l_id (skipn p (d_bdrys s))) with (map l_id [d_fedges s] ++ (map l_id (firstn p (d_bdrys s)) ++ map l_id (skipn p (d_bdrys s)))) in J.
      rewrite <- map_app, firstn_skipn, <- map_app in J. apply in_map_iff in J. destruct J as [l [E L]]. apply (so_lt_l s S) in L. lia.
  - intros l [<-|L]; [assert (X2 := so_lt_l s S (d_fedges s) (or_introl eq_refl)); lia|]. apply in_app_or in L. destruct L as [L|[<-|L]].
    + assert (X2 := so_lt_l s S l). assert (In l (lists s)) by (right; rewrite <- (firstn_skipn p); apply in_or_app; auto). specialize (X2 H). lia.
    + cbn. lia.
    + assert (X2 := so_lt_l s S l). assert (In l (lists s)) by (right; rewrite <- (firstn_skipn p); apply in_or_app; auto). specialize (X2 H). lia.
  - intros l k [L K]. exists l. split; [|reflexivity]. split; [|exact K]. destruct L as [<-|L]; [left; reflexivity|right]. cbn [d_bdrys] in L. rewrite <- (firstn_skipn p). apply in_or_app. apply in_app_or in L. destruct L as [L|[<-|L]]; auto. destruct K.
Qed.
Lemma split_nth {X} (l : list X) p x : nth_error l p = Some x -> l = firstn p l ++ x :: skipn (Datatypes.S p) l.
Proof. revert p. induction l as [|y r IH]; intros [|p] H; try discriminate; cbn in *; [injection H as ->; reflexivity|f_equal; apply IH, H]. Qed.
Lemma remove_boundary_sound s p l : sound s -> nth_error (d_bdrys s) p = Some l -> l_items l = [] -> exists s', remove_boundary s p = Ok s' /\ sound s'.
Proof.
  intros S P Z. unfold remove_boundary. assert (LT : p < length (d_bdrys s)) by (apply nth_error_Some; rewrite P; discriminate). apply Nat.ltb_lt in LT. rewrite LT. eexists. split; [reflexivity|].
  assert (E := split_nth _ _ _ P). apply (lists_sound s); try reflexivity; try exact S; cbn [d_next]; unfold lists; cbn [d_fedges d_bdrys]; auto.
  - unfold all_items. cbn [flat_map]. f_equal. rewrite E at 3. rewrite !flat_map_app. cbn [flat_map]. rewrite Z. reflexivity.
  - assert (N := so_ids s S). unfold lists in N. cbn [map] in *. rewrite E, map_app in N. cbn [map] in N. rewrite map_app. change (NoDup ((l_id (d_fedges s) :: map l_id (firstn p (d_bdrys s))) ++ l_id l :: map l_id (skipn (Datatypes.S p) (d_bdrys s)))) in N. apply NoDup_remove_1 in N. exact N.
  - intros m M. apply (so_lt_l s S). destruct M as [<-|M]; [left; reflexivity|right]. rewrite E. apply in_or_app. apply in_app_or in M. destruct M as [M|M]; [auto|right; right; exact M].
  - intros m k [M K]. exists m. split; [|reflexivity]. split; [|exact K]. destruct M as [<-|M]; [left; reflexivity|right]. cbn [d_bdrys] in M. rewrite E. apply in_or_app. apply in_app_or in M. destruct M as [M|M]; [auto|right; right; exact M].
Qed.
Lemma clear_list_sound s l : sound s -> In l (lists s) -> sound (clear_list s l).
Proof.
  intros S L. destruct (in_split _ _ L) as [A [B EL]]. unfold clear_list. set (l' := ELst (l_id l) (l_items l) []). assert (E := lists_set s l' A l B (so_ids s S) EL eq_refl). destruct (set_same s l') as (Ev&_&Ef&Es&_&Ex&Ee&Eh&_&En).
  apply (lists_sound s); try assumption.
  - rewrite En. lia.
  - rewrite E, EL. unfold all_items. rewrite !flat_map_app. reflexivity.
  - assert (N := so_ids s S). rewrite E. rewrite EL, map_app in N. rewrite map_app. exact N.
  - rewrite E, En. intros m M. assert (X : exists m', In m' (lists s) /\ l_id m' = l_id m) by (rewrite EL; apply in_app_or in M; destruct M as [M|[<-|M]]; [exists m; split; [apply in_or_app; auto|reflexivity]|exists l; split; [apply in_or_app; right; left; reflexivity|reflexivity]|exists m; split; [apply in_or_app; right; right; exact M|reflexivity]]).
    destruct X as [m' [X <-]]. apply (so_lt_l s S), X.
  - intros m k [M K]. rewrite E in M. unfold stands_in. rewrite EL. apply in_app_or in M. destruct M as [M|[<-|M]]; [exists m; split; [split; [apply in_or_app; auto|exact K]|reflexivity]|exists l; split; [split; [apply in_or_app; right; left; reflexivity|exact K]|reflexivity]|exists m; split; [split; [apply in_or_app; right; right; exact M|exact K]|reflexivity]].
Qed.
Lemma remove_first_sound n s p l : sound s -> nth_error (d_bdrys s) p = Some l -> n <= length (l_items l) -> exists s' l', remove_first n s p = Ok s' /\ sound s' /\ nth_error (d_bdrys s') p = Some l' /\
  length (d_bdrys s') = length (d_bdrys s) /\ ((forall k, In k (l_items l) -> d_etree s k = true) -> l_items l' = skipn n (l_items l)).
Proof.
  revert s l. induction n as [|n IH]; intros s l S P N; [exists s, l; split; [reflexivity|split; [exact S|split; [exact P|split; [reflexivity|intros _; reflexivity]]]]|]. cbn [remove_first]. rewrite P. destruct (l_items l) as [|e r] eqn:I; [cbn in N; lia|].
  assert (L := nth_lists s p l P). assert (T : stands_in s l e) by (split; [exact L|rewrite I; left; reflexivity]). destruct (remove_sound s l e S L (ex_intro _ l T)) as [s' [E [S' [B [TR LEN]]]]]. rewrite E. cbn [obind].
  destruct (B p l P) as [l' [P' [_ I']]]. rewrite Nat.eqb_refl in I'. cbn [andb] in I'.
  assert (NDl : ~ In e r). { intros J. assert (ND := so_items s S). destruct (in_split _ _ L) as [X [Y EL]]. rewrite EL in ND. unfold all_items in ND. rewrite flat_map_app in ND. apply nodup_right in ND. cbn in ND. rewrite I in ND. cbn in ND. apply NoDup_cons_iff in ND. apply (proj1 ND), in_or_app. auto. }
  assert (DR : drop e (e :: r) = r) by (unfold drop; cbn; rewrite Nat.eqb_refl; cbn; apply drop_out, NDl). rewrite I, DR in I'.
  destruct (IH s' l' S' P') as [s2 [l2 [E2 [S2 [P2 [LEN2 A2]]]]]]; [rewrite I'; cbn in N; destruct (d_etree s e); cbn; lia|].
  exists s2, l2. split; [exact E2|split; [exact S2|split; [exact P2|split; [congruence|]]]]. intros ALL. rewrite (ALL e (or_introl eq_refl)) in I'. rewrite I' in A2. cbn [skipn]. apply A2.
  intros k K. rewrite TR; [apply ALL; right; exact K|intros ->; exact (NDl K)].
Qed.
Lemma clear_edges_sound s p l : sound s -> nth_error (d_bdrys s) p = Some l -> exists s' l', clear_edges s p = Ok s' /\ sound s' /\ nth_error (d_bdrys s') p = Some l' /\
  ((forall k, In k (l_items l) -> d_etree s k = true) -> l_items l' = []).
Proof.
  intros S P. unfold clear_edges. rewrite P. destruct (remove_first_sound (length (l_items l)) s p l S P (le_n _)) as [s1 [l1 [E1 [S1 [P1 [_ A1]]]]]]. rewrite E1. cbn [obind]. rewrite P1.
  exists (clear_list s1 l1), (ELst (l_id l1) (l_items l1) []). split; [reflexivity|]. split; [apply clear_list_sound; [exact S1|exact (nth_lists _ _ _ P1)]|]. split.
  - unfold clear_list. rewrite (bdrys_set s1 (ELst (l_id l1) (l_items l1) []) l1 (so_ids s1 S1) (nth_lists _ _ _ P1) eq_refl), nth_error_map, P1. cbn. rewrite Nat.eqb_refl. reflexivity.
  - cbn. intros A. rewrite (A1 A). apply skipn_all.
Qed.

Lemma step_sound s o : sound s -> careful s o -> exists s', step s o = Ok s' /\ sound s'.
Proof.
  intros S [N G]. destruct o as [t|t|v|v|p|p|p a b t|p e|p|a b t|e|]; cbn [step named gentle] in *.
  - eexists. split; [reflexivity|apply add_vertex_sound, S].
  - eexists. split; [reflexivity|apply add_vertex_sound, S].
  - apply remove_vertex_sound; tauto.
  - apply remove_fixed_sound; assumption.
  - apply insert_boundary_sound; assumption.
  - destruct (nth_error (d_bdrys s) p) as [l|] eqn:P; [|apply nth_error_None in P; lia]. exact (remove_boundary_sound s p l S P (G l eq_refl)).
  - destruct N as [P [IA IB]]. unfold add_edge. destruct (nth_error (d_bdrys s) p) as [l|] eqn:E; [|apply nth_error_None in E; lia]. destruct (in_split _ _ (nth_lists s p l E)) as [A [B EL]].
    eexists. split; [exact (push_ok s l A B a b t S EL IA IB true)|exact (push_sound s l A B a b t S EL IA IB)].
  - destruct N as [P L]. unfold remove_edge. destruct (nth_error (d_bdrys s) p) as [l|] eqn:E; [|apply nth_error_None in E; lia]. destruct (remove_sound s l e S (nth_lists s p l E) L) as [s' [H1 [H2 _]]]. eauto.
  - destruct (nth_error (d_bdrys s) p) as [l|] eqn:E; [|apply nth_error_None in E; lia]. destruct (clear_edges_sound s p l S E) as [s' [l' [H1 [H2 _]]]]. eauto.
  - destruct N as [IA IB]. unfold add_fixed_edge. eexists. split; [exact (push_ok s (d_fedges s) [] (d_bdrys s) a b t S eq_refl IA IB false)|exact (push_sound s (d_fedges s) [] (d_bdrys s) a b t S eq_refl IA IB)].
  - unfold remove_fixed_edge. destruct (remove_sound s (d_fedges s) e S (or_introl eq_refl) N) as [s' [H1 [H2 _]]]. eauto.
  - eexists. split; [reflexivity|]. unfold clear_vertices. apply fewer_sound; auto; try exact (so_verts s S); try exact (so_fverts s S). intros v V. apply (in_fixed s (so_intact s S)), V.
Qed.
Lemma steps_sound os : forall s, sound s -> history careful s os -> exists s', steps s os = Ok s' /\ sound s'.
Proof.
  induction os as [|o r IH]; intros s S H; [exists s; auto|]. destruct H as [H1 H2]. destruct (step_sound s o S H1) as [s1 [E S1]]. cbn [steps]. rewrite E. cbn [obind]. apply IH; [exact S1|apply H2, E].
Qed.
