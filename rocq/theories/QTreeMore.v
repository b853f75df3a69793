(* Facts about all histories (also those with tied items), the witnesses of
   the refuted statements, and consequences of the invariant. *)
From Coq Require Import Lqa Lia Permutation.
From Verif Require Import Base QTreeModel QTreeSpec QTreeProofs QTreeCont.
Open Scope Q_scope.

(* --------------------------------------------------------------------- *)
(* What add / remove / queries can do without any invariant *)
Section Raw.
Variable mi : Z.
Variable pos : id -> vec2.

Definition add_sub (addf : geo -> qtree -> id -> addres) : Prop :=
  forall g t i t', addf g t i = Added t' -> forall j, In j (q_ids t') -> j = i \/ In j (q_ids t).

Lemma try_children_sub addf g c0 c1 c2 c3 i d0 d1 d2 d3 : add_sub addf ->
  try_children addf g c0 c1 c2 c3 i = inl (Some (d0, d1, d2, d3)) ->
  forall j, In j (ids4 d0 d1 d2 d3) -> j = i \/ In j (ids4 c0 c1 c2 c3).
Proof.
  intros Ha H j. unfold try_children in H. unfold ids4. rewrite !in_app_iff.
  destruct (addf (child g 0) c0 i) as [t| |] eqn:E0; [|..|discriminate].
  { injection H as <- <- <- <-. intros [Hj|Hj]; [|tauto]. destruct (Ha _ _ _ _ E0 j Hj); tauto. }
  destruct (addf (child g 1) c1 i) as [t| |] eqn:E1; [|..|discriminate].
  { injection H as <- <- <- <-. intros [Hj|[Hj|Hj]]; try tauto. destruct (Ha _ _ _ _ E1 j Hj); tauto. }
  destruct (addf (child g 2) c2 i) as [t| |] eqn:E2; [|..|discriminate].
  { injection H as <- <- <- <-. intros [Hj|[Hj|[Hj|Hj]]]; try tauto. destruct (Ha _ _ _ _ E2 j Hj); tauto. }
  destruct (addf (child g 3) c3 i) as [t| |] eqn:E3; try discriminate.
  injection H as <- <- <- <-. intros [Hj|[Hj|[Hj|Hj]]]; try tauto. destruct (Ha _ _ _ _ E3 j Hj); tauto.
Qed.

Lemma distribute_sub addf g : add_sub addf -> forall rl c0 c1 c2 c3 d0 d1 d2 d3,
  distribute addf g rl c0 c1 c2 c3 = Some (d0, d1, d2, d3) ->
  forall j, In j (ids4 d0 d1 d2 d3) -> In j rl \/ In j (ids4 c0 c1 c2 c3).
Proof.
  intros Ha. induction rl as [|i rl IH]; intros c0 c1 c2 c3 d0 d1 d2 d3 H j Hj.
  - cbn [distribute] in H. injection H as <- <- <- <-. auto.
  - cbn [distribute] in H.
    destruct (try_children addf g c0 c1 c2 c3 i) as [[[[[e0 e1] e2] e3]|]|] eqn:E; try discriminate.
    destruct (IH _ _ _ _ _ _ _ _ H j Hj) as [Hr|Hr]; [left; right; exact Hr|].
    destruct (try_children_sub addf g c0 c1 c2 c3 i e0 e1 e2 e3 Ha E j Hr) as [->|Hc]; [left; left; reflexivity|right; exact Hc].
Qed.

Lemma qadd_sub k : add_sub (qadd mi pos k).
Proof.
  induction k as [|k IH]; intros g t i t' H j Hj.
  - cbn [qadd] in H. destruct (negb _); [discriminate|]. destruct t as [n l|]; [|discriminate].
    injection H as <-. cbn [q_ids] in *. rewrite in_app_iff in Hj. cbn in Hj.
    destruct Hj as [Hj|[<-|[]]]; auto.
  - cbn [qadd] in H. destruct (negb _); [discriminate|]. destruct t as [n l|n c0 c1 c2 c3].
    + destruct (Z.ltb mi (Z.of_nat (length (l ++ [i])))).
      * destruct (distribute _ _ _ _ _ _ _) as [[[[d0 d1] d2] d3]|] eqn:E; [|discriminate].
        injection H as <-. cbn [q_ids] in *.
        destruct (distribute_sub (qadd mi pos k) g IH _ _ _ _ _ _ _ _ _ E j Hj) as [Hr|[]].
        apply in_rev in Hr. rewrite in_app_iff in Hr. cbn in Hr. destruct Hr as [Hr|[<-|[]]]; auto.
      * injection H as <-. cbn [q_ids] in *. rewrite in_app_iff in Hj. cbn in Hj.
        destruct Hj as [Hj|[<-|[]]]; auto.
    + destruct (try_children _ _ _ _ _ _ _) as [[[[[d0 d1] d2] d3]|]|] eqn:E; try discriminate.
      injection H as <-.
      exact (try_children_sub (qadd mi pos k) g c0 c1 c2 c3 i d0 d1 d2 d3 IH E j Hj).
Qed.

Lemma qmerge_sub t j : In j (q_ids (qmerge t)) -> In j (q_ids t).
Proof.
  destruct t as [n l|n c0 c1 c2 c3]; [auto|]. cbn [qmerge].
  destruct (q_split c0 || q_split c1 || q_split c2 || q_split c3); [auto|].
  cbn [q_ids]. rewrite !in_app_iff.
  assert (H : forall c, In j (q_leaf_items c) -> In j (q_ids c)) by (intros []; cbn; tauto).
  intros [Hj|[Hj|[Hj|Hj]]]; auto.
Qed.

Lemma qremove_sub t : forall g i t' b, qremove mi pos g t i = Some (t', b) ->
  forall j, In j (q_ids t') -> In j (q_ids t).
Proof.
  induction t as [n l|n c0 IH0 c1 IH1 c2 IH2 c3 IH3]; intros g i t' b H j Hj;
    cbn [qremove] in H; destruct (negb _); try discriminate.
  - injection H as <- <-. cbn [q_ids] in *. apply list_remove_in in Hj. tauto.
  - cbn [q_ids]. rewrite !in_app_iff.
    assert (Hfin : forall (m : Z) d0 d1 d2 d3 b0,
      (if Z.leb m mi then Some (qmerge (QNode m d0 d1 d2 d3), b0)
       else Some (QNode m d0 d1 d2 d3, b0)) = Some (t', b) ->
      In j (q_ids d0) \/ In j (q_ids d1) \/ In j (q_ids d2) \/ In j (q_ids d3)).
    { intros m d0 d1 d2 d3 b0 Hf. destruct (Z.leb m mi); injection Hf as <- <-.
      - apply (qmerge_sub (QNode m d0 d1 d2 d3)) in Hj. cbn [q_ids] in Hj. rewrite !in_app_iff in Hj. exact Hj.
      - cbn [q_ids] in Hj. rewrite !in_app_iff in Hj. exact Hj. }
    destruct (qremove mi pos (child g 0) c0 i) as [[d b0]|] eqn:E0.
    { cbn zeta in H. apply Hfin in H. destruct H as [H|H]; [|tauto]. left. eapply IH0; eassumption. }
    destruct (qremove mi pos (child g 1) c1 i) as [[d b0]|] eqn:E1.
    { cbn zeta in H. apply Hfin in H. destruct H as [H|[H|H]]; try tauto. right; left. eapply IH1; eassumption. }
    destruct (qremove mi pos (child g 2) c2 i) as [[d b0]|] eqn:E2.
    { cbn zeta in H. apply Hfin in H. destruct H as [H|[H|[H|H]]]; try tauto. right; right; left. eapply IH2; eassumption. }
    destruct (qremove mi pos (child g 3) c3 i) as [[d b0]|] eqn:E3.
    { cbn zeta in H. apply Hfin in H. destruct H as [H|[H|[H|H]]]; try tauto. right; right; right. eapply IH3; eassumption. }
    cbn zeta in H. apply Hfin in H. tauto.
Qed.

Lemma q_rect_sub ll ur t : forall qf g j, In j (q_rect_with pos qf g t ll ur) -> In j (q_ids t).
Proof.
  induction t as [n l|n c0 IH0 c1 IH1 c2 IH2 c3 IH3]; intros qf g j Hj;
    cbn [q_rect_with] in Hj; destruct (negb _); try (destruct Hj; fail).
  - apply filter_In in Hj. cbn [q_ids]. tauto.
  - cbn [q_ids]. rewrite !in_app_iff in *.
    destruct Hj as [Hj|[Hj|[Hj|Hj]]]; eauto.
Qed.

Lemma q_circ_sub c r t : forall g j, In j (q_circ pos g t c r) -> In j (q_ids t).
Proof.
  induction t as [n l|n c0 IH0 c1 IH1 c2 IH2 c3 IH3]; intros g j Hj;
    cbn [q_circ] in Hj; destruct (negb _); try (destruct Hj; fail).
  - apply filter_In in Hj. cbn [q_ids]. tauto.
  - cbn [q_ids]. rewrite !in_app_iff in *.
    destruct Hj as [Hj|[Hj|[Hj|Hj]]]; eauto.
Qed.

Lemma near_fold_in q l : forall st i, snd (fold_left (near_step pos q) l st) = Some i ->
  In i l \/ snd st = Some i.
Proof.
  induction l as [|a l IH]; intros st i H; [auto|].
  cbn [fold_left] in H. apply IH in H. destruct H as [H|H]; [left; right; exact H|].
  unfold near_step in H. destruct (Qltb _ _); [|auto].
  cbn [snd] in H. left. left. congruence.
Qed.

Lemma q_nearest_sub sq g t q i : q_nearest pos sq g t q = Ok (Some i) -> In i (q_ids t).
Proof.
  unfold q_nearest. destruct (qleaf g t q) as [[gl tl]|] eqn:E; [|discriminate].
  intros H. injection H as H. apply near_fold_in in H. destruct H as [H|H].
  - eapply q_circ_sub; eassumption.
  - apply near_fold_in in H. destruct H as [H|H]; [|discriminate].
    destruct tl as [n l|]; [|destruct H]. eapply qleaf_items_in; eassumption.
Qed.
End Raw.

(* --------------------------------------------------------------------- *)
(* All histories that do not run into undefined behaviour *)
Section All.
Variable p : cparams.

Definition fresh_ok (s : cstate) : Prop :=
  NoDup (cs_items s) /\ forall i, In i (cs_items s) -> (i < cs_next s)%nat.

Lemma fresh_init : fresh_ok c_init.
Proof. split; [constructor|intros i []]. Qed.

Lemma fresh_insert s k xy s' r : fresh_ok s -> c_insert p s k xy = Ok (s', r) -> fresh_ok s'.
Proof.
  intros [N L] H. unfold c_insert in H.
  assert (Hn : ~ In (cs_next s) (cs_items s)) by (intros Hi; specialize (L _ Hi); lia).
  assert (NI : NoDup (insert_at k (cs_next s) (cs_items s))).
  { eapply Permutation_NoDup; [symmetry; apply insert_at_perm|]. constructor; assumption. }
  assert (LI : forall i, In i (insert_at k (cs_next s) (cs_items s)) -> (i < S (cs_next s))%nat).
  { intros i Hi. apply (Permutation_in _ (insert_at_perm _ _ _)) in Hi.
    destruct Hi as [<-|Hi]; [lia|]. specialize (L _ Hi). lia. }
  destruct (qadd _ _ _ _ _ _); try discriminate; injection H as <- <-; split; assumption.
Qed.

Lemma fresh_step s o s' r : fresh_ok s -> c_step p s o = Ok (s', r) -> fresh_ok s'.
Proof.
  intros F H. destruct o as [xy|k xy|i|i xy|]; cbn [c_step] in H.
  - eapply fresh_insert; eassumption.
  - eapply fresh_insert; eassumption.
  - unfold c_remove in H. destruct (negb _); [discriminate|].
    destruct (qremove _ _ _ _ _) as [[t b]|]; injection H as <- <-; [|exact F].
    destruct F as [N L]. split; cbn [cs_items cs_next].
    + unfold list_remove. apply NoDup_filter. exact N.
    + intros j Hj. apply list_remove_in in Hj. apply L. tauto.
  - unfold c_move in H. destruct (negb _); [discriminate|].
    destruct (qleaf _ _ _) as [[gl tl]|]; [|discriminate].
    destruct (in_on_rect _ _ _); [injection H as <- <-; exact F|].
    destruct (qremove _ _ _ _ _) as [[t b]|]; [|injection H as <- <-; exact F].
    destruct (qadd _ _ _ _ _ _); try discriminate; injection H as <- <-; exact F.
  - injection H as <- <-. exact F.
Qed.

Lemma run_ind_ok (P : cstate -> Prop) :
  (forall s o s' r, fresh_ok s -> P s -> c_step p s o = Ok (s', r) -> P s') ->
  forall ops s s' rs, fresh_ok s -> P s -> c_run p s ops = Ok (s', rs) -> fresh_ok s' /\ P s'.
Proof.
  intros Hstep. induction ops as [|o ops IH]; intros s s' rs F HP H; cbn [c_run] in H.
  - injection H as <- <-. auto.
  - destruct (c_step p s o) as [[s1 r]| |] eqn:E; try discriminate.
    destruct (c_run p s1 ops) as [[s2 rs2]| |] eqn:E2; try discriminate.
    injection H as <- <-. eapply IH; [| |exact E2].
    + eapply fresh_step; eassumption.
    + eapply Hstep; eassumption.
Qed.

(* size: pushes minus successful removes *)
Definition is_insert (o : cop) : bool :=
  match o with CPush _ | CInsert _ _ => true | _ => false end.
Definition is_removed (o : cop) (r : cret) : bool :=
  match o, r with CRemove _, RBool true => true | _, _ => false end.
Fixpoint balance (ops : list cop) (rs : list cret) : Z :=
  match ops, rs with
  | o :: os, r :: rs' =>
    ((if is_insert o then 1 else 0) - (if is_removed o r then 1 else 0) + balance os rs')%Z
  | _, _ => 0%Z
  end.

Lemma insert_at_length {A} k (x : A) l : length (insert_at k x l) = S (length l).
Proof. exact (Permutation_length (insert_at_perm k x l)). Qed.

Lemma step_size s o s' r : fresh_ok s -> c_step p s o = Ok (s', r) ->
  Z.of_nat (c_size s') = (Z.of_nat (c_size s) +
    ((if is_insert o then 1 else 0) - (if is_removed o r then 1 else 0)))%Z.
Proof.
  intros F H. unfold c_size.
  destruct o as [xy|k xy|i|i xy|]; cbn [c_step] in H; cbn [is_insert is_removed].
  - unfold c_insert in H. destruct (qadd _ _ _ _ _ _); try discriminate; injection H as <- <-;
      cbn [cs_items]; rewrite insert_at_length; lia.
  - unfold c_insert in H. destruct (qadd _ _ _ _ _ _); try discriminate; injection H as <- <-;
      cbn [cs_items]; rewrite insert_at_length; lia.
  - unfold c_remove in H. destruct (negb _) eqn:E; [discriminate|].
    apply negb_false_iff in E. apply existsb_in in E.
    destruct (qremove _ _ _ _ _) as [[t b]|]; injection H as <- <-; cbn [cs_items]; [|lia].
    pose proof (Permutation_length (list_remove_perm i _ (proj1 F) E)) as HL.
    cbn [length] in HL. lia.
  - unfold c_move in H. destruct (negb _); [discriminate|].
    destruct (qleaf _ _ _) as [[gl tl]|]; [|discriminate].
    destruct (in_on_rect _ _ _); [injection H as <- <-; cbn; lia|].
    destruct (qremove _ _ _ _ _) as [[t b]|]; [|injection H as <- <-; cbn; lia].
    destruct (qadd _ _ _ _ _ _); try discriminate; injection H as <- <-; cbn; lia.
  - injection H as <- <-. cbn. lia.
Qed.

Lemma run_size ops : forall s s' rs, fresh_ok s -> c_run p s ops = Ok (s', rs) ->
  Z.of_nat (c_size s') = (Z.of_nat (c_size s) + balance ops rs)%Z.
Proof.
  induction ops as [|o ops IH]; intros s s' rs F H; cbn [c_run] in H.
  - injection H as <- <-. cbn. lia.
  - destruct (c_step p s o) as [[s1 r]| |] eqn:E; try discriminate.
    destruct (c_run p s1 ops) as [[s2 rs2]| |] eqn:E2; try discriminate.
    injection H as <- <-. rewrite (IH _ _ _ (fresh_step _ _ _ _ F E) E2).
    rewrite (step_size _ _ _ _ F E). cbn [balance]. lia.
Qed.

(* items pushed outside of the square *)
Definition out_item (i : id) (xy : vec2) (s : cstate) : Prop :=
  In i (cs_items s) /\ cs_pos s i = xy /\ ~ In i (q_ids (cs_tree s)).

Lemma out_step i xy s o s' r : inroot p xy = false ->
  fresh_ok s -> out_item i xy s -> c_step p s o = Ok (s', r) -> out_item i xy s'.
Proof.
  intros Hxy F (Hi & Hp & Ht) H.
  assert (Hins : forall k v, c_insert p s k v = Ok (s', r) -> out_item i xy s').
  { intros k v Hk. unfold c_insert in Hk.
    assert (Hne : i <> cs_next s) by (intros ->; specialize (proj2 F _ Hi); lia).
    assert (Hin : In i (insert_at k (cs_next s) (cs_items s))).
    { apply (Permutation_in _ (Permutation_sym (insert_at_perm k (cs_next s) (cs_items s)))). right. exact Hi. }
    destruct (qadd _ _ _ _ _ _) as [t| |] eqn:E; try discriminate; injection Hk as <- <-;
      unfold out_item; cbn [cs_items cs_pos cs_tree];
      (split; [exact Hin|]; split; [rewrite upd_other by exact Hne; exact Hp|]).
    - intros Hj. apply (qadd_sub _ _ _ _ _ _ _ E) in Hj. destruct Hj; auto.
    - exact Ht. }
  destruct o as [v|k v|j|j v|]; cbn [c_step] in H.
  - eapply Hins; eassumption.
  - eapply Hins; eassumption.
  - unfold c_remove in H. destruct (negb _) eqn:E; [discriminate|].
    destruct (qremove _ _ _ _ _) as [[t b]|] eqn:Er; injection H as <- <-.
    + unfold out_item. cbn [cs_items cs_pos cs_tree].
      split; [|split; [exact Hp|]].
      * apply list_remove_in. split; [exact Hi|]. intros ->.
        rewrite qremove_none in Er; [discriminate|].
        rewrite inside_covers, Hp. exact Hxy.
      * intros Hj. apply Ht. eapply qremove_sub; eassumption.
    + repeat split; assumption.
  - unfold c_move in H. destruct (negb _) eqn:E; [discriminate|].
    destruct (Nat.eq_dec j i) as [->|Hji].
    + rewrite qleaf_none in H; [discriminate|]. rewrite Hp. exact Hxy.
    + destruct (qleaf _ _ _) as [[gl tl]|]; [|discriminate].
      destruct (in_on_rect _ _ _).
      { injection H as <- <-. unfold out_item. cbn [cs_items cs_pos cs_tree].
        rewrite upd_other by auto. auto. }
      destruct (qremove _ _ _ _ _) as [[t b]|] eqn:Er; [|injection H as <- <-; repeat split; assumption].
      assert (Ht' : ~ In i (q_ids t)) by (intros Hj; apply Ht; eapply qremove_sub; eassumption).
      destruct (qadd _ _ _ _ _ _) as [t2| |] eqn:Ea; try discriminate; injection H as <- <-;
        unfold out_item; cbn [cs_items cs_pos cs_tree]; rewrite upd_other by auto;
        (split; [exact Hi|]; split; [exact Hp|]).
      * intros Hj. apply (qadd_sub _ _ _ _ _ _ _ Ea) in Hj. destruct Hj; auto.
      * exact Ht'.
  - injection H as <- <-. repeat split; assumption.
Qed.

Definition ids_fresh (s : cstate) : Prop := forall i, In i (q_ids (cs_tree s)) -> (i < cs_next s)%nat.

Lemma ids_fresh_step s o s' r : fresh_ok s -> ids_fresh s -> c_step p s o = Ok (s', r) -> ids_fresh s'.
Proof.
  intros F I H.
  assert (Hins : forall k v, c_insert p s k v = Ok (s', r) -> ids_fresh s').
  { intros k v Hk. unfold c_insert in Hk.
    destruct (qadd _ _ _ _ _ _) as [t| |] eqn:E; try discriminate; injection Hk as <- <-;
      intros j Hj; cbn [cs_tree cs_next] in *.
    - apply (qadd_sub _ _ _ _ _ _ _ E) in Hj. destruct Hj as [->|Hj]; [lia|].
      specialize (I _ Hj). lia.
    - specialize (I _ Hj). lia. }
  destruct o as [v|k v|j|j v|]; cbn [c_step] in H.
  - eapply Hins; eassumption.
  - eapply Hins; eassumption.
  - unfold c_remove in H. destruct (negb _) eqn:E; [discriminate|].
    destruct (qremove _ _ _ _ _) as [[t b]|] eqn:Er; injection H as <- <-; [|exact I].
    intros i Hi. apply I. eapply qremove_sub; eassumption.
  - unfold c_move in H. destruct (negb _) eqn:E; [discriminate|].
    apply negb_false_iff in E. apply existsb_in in E.
    destruct (qleaf _ _ _) as [[gl tl]|]; [|discriminate].
    destruct (in_on_rect _ _ _); [injection H as <- <-; exact I|].
    destruct (qremove _ _ _ _ _) as [[t b]|] eqn:Er; [|injection H as <- <-; exact I].
    assert (Ht' : forall i, In i (q_ids t) -> (i < cs_next s)%nat)
      by (intros i Hi; apply I; eapply qremove_sub; eassumption).
    destruct (qadd _ _ _ _ _ _) as [t2| |] eqn:Ea; try discriminate; injection H as <- <-;
      intros i Hi; cbn [cs_tree cs_next] in *.
    + apply (qadd_sub _ _ _ _ _ _ _ Ea) in Hi. destruct Hi as [->|Hi]; [|auto].
      apply (proj2 F). exact E.
    + auto.
  - injection H as <- <-. exact I.
Qed.

Lemma outside_forever ops s rs k xy s1 r1 ops2 s2 rs2 :
  c_run p c_init ops = Ok (s, rs) -> ~ in_square (cp_scale p) xy ->
  c_step p s (CInsert k xy) = Ok (s1, r1) -> c_run p s1 ops2 = Ok (s2, rs2) ->
  let i := cs_next s in
  r1 = RItem i /\ cs_tree s1 = cs_tree s /\
  In i (cs_items s2) /\ cs_pos s2 i = xy /\
  (forall ll ur, ~ In i (c_get_rect p s2 ll ur)) /\
  (forall c r, ~ In i (c_get_circ p s2 c r)) /\
  (forall sq q, c_get_nearest p sq s2 q <> Ok (Some i)) /\
  c_step p s2 (CRemove i) = Ok (s2, RBool false).
Proof.
  intros H1 Hxy H2 H3 i.
  assert (Hr : inroot p xy = false).
  { destruct (inroot p xy) eqn:E; [|reflexivity]. apply inroot_spec in E. tauto. }
  destruct (run_ind_ok ids_fresh ids_fresh_step _ _ _ _ fresh_init (fun j (H : In j []) => match H with end) H1)
    as [F I].
  cbn [c_step] in H2. assert (F1 := fresh_insert _ _ _ _ _ F H2).
  assert (Hs1 : s1 = CS (insert_at k i (cs_items s)) (cs_waste s) (upd (cs_pos s) i xy) (cs_tree s) (S i)
                /\ r1 = RItem i).
  { unfold c_insert in H2. fold i in H2.
    assert (Ha : qadd (cp_items p) (upd (cs_pos s) i xy) (cp_depth p) (cp_root p) (cs_tree s) i = Rejected).
    { assert (Hin : inside (upd (cs_pos s) i xy) (cp_root p) i = false)
        by (rewrite inside_covers, upd_same; exact Hr).
      destruct (cp_depth p); cbn [qadd]; rewrite Hin; reflexivity. }
    rewrite Ha in H2. injection H2 as <- <-. auto. }
  destruct Hs1 as [-> ->].
  assert (O1 : out_item i xy (CS (insert_at k i (cs_items s)) (cs_waste s) (upd (cs_pos s) i xy) (cs_tree s) (S i))).
  { unfold out_item. cbn [cs_items cs_pos cs_tree]. split; [|split; [apply upd_same|]].
    - apply (Permutation_in _ (Permutation_sym (insert_at_perm _ _ _))). left. reflexivity.
    - intros Hi. specialize (I _ Hi). unfold i in I. lia. }
  destruct (run_ind_ok (out_item i xy) (fun s o s' r => out_step i xy s o s' r Hr) _ _ _ _ F1 O1 H3)
    as [F2 (O2 & P2 & T2)].
  split; [reflexivity|]. split; [reflexivity|]. split; [exact O2|]. split; [exact P2|].
  split. { intros ll ur Hi. apply T2. eapply q_rect_sub. exact Hi. }
  split. { intros c r Hi. apply T2. eapply q_circ_sub. exact Hi. }
  split. { intros sq q Hi. apply T2. eapply q_nearest_sub. exact Hi. }
  cbn [c_step]. unfold c_remove. rewrite (proj2 (existsb_in i (cs_items s2)) O2). cbn [negb].
  rewrite qremove_none; [reflexivity|]. rewrite inside_covers, P2. exact Hr.
Qed.
End All.

(* --------------------------------------------------------------------- *)
(* Tree balance, stated without the invariant: every node of the tree *)
Fixpoint leaves (d : nat) (t : qtree) : list (nat * list id) :=
  match t with
  | QLeaf _ l => [(d, l)]
  | QNode _ c0 c1 c2 c3 =>
    leaves (S d) c0 ++ leaves (S d) c1 ++ leaves (S d) c2 ++ leaves (S d) c3
  end.
Fixpoint nodes (t : qtree) : list qtree :=
  match t with
  | QLeaf _ _ => []
  | QNode _ c0 c1 c2 c3 => t :: nodes c0 ++ nodes c1 ++ nodes c2 ++ nodes c3
  end.

Lemma wf_leaves mi pos t : forall k g d dm, wf mi pos k g t -> (d + k = dm)%nat ->
  forall e l, In (e, l) (leaves d t) -> (e <= dm)%nat /\ ((e < dm)%nat -> (Z.of_nat (length l) <= mi)%Z).
Proof.
  induction t as [n l|n c0 IH0 c1 IH1 c2 IH2 c3 IH3]; intros k g d dm W Hd e l' H.
  - cbn in H. destruct H as [H|[]]. injection H as <- <-. destruct W as (_ & _ & W).
    split; [lia|]. intros Hl. apply W. lia.
  - destruct k as [|k]; [destruct W|]. cbn [wf] in W. destruct W as (W0 & W1 & W2 & W3 & _ & _).
    cbn [leaves] in H. rewrite !in_app_iff in H.
    destruct H as [H|[H|[H|H]]];
      [eapply IH0|eapply IH1|eapply IH2|eapply IH3]; try eassumption; lia.
Qed.

Lemma wf_nodes mi pos t : forall k g, wf mi pos k g t -> forall u, In u (nodes t) ->
  (mi < Z.of_nat (length (q_ids u)))%Z /\ q_n u = Z.of_nat (length (q_ids u)).
Proof.
  induction t as [n l|n c0 IH0 c1 IH1 c2 IH2 c3 IH3]; intros k g W u Hu; [destruct Hu|].
  assert (W' := W). destruct k as [|k]; [destruct W|]. cbn [wf] in W.
  destruct W as (W0 & W1 & W2 & W3 & Wn & Wm).
  cbn [nodes] in Hu. destruct Hu as [<-|Hu].
  - pose proof (wf_count _ _ _ _ _ W') as Hc. split; [|exact Hc]. rewrite <- Hc. exact Wm.
  - rewrite !in_app_iff in Hu. destruct Hu as [H|[H|[H|H]]]; eauto.
Qed.

(* --------------------------------------------------------------------- *)
(* Derived statements used by the property theorems *)
Section Derived.
Variable p : cparams.
Hypothesis Hmi : (0 <= cp_items p)%Z.

Lemma hist_ok ops : safe_hist p c_init [] ops ->
  exists s rs, c_run p c_init ops = Ok (s, rs) /\ inv p s (ties_run p c_init [] ops) /\
    aruns (cp_scale p) a_init ops (abs s) rs.
Proof.
  intros H. apply (run_inv p Hmi ops c_init []); [apply inv_init; exact Hmi|intros i []|exact H].
Qed.

(* generic histories: no update puts an item exactly on the border of its bucket *)
Definition border_free (s : cstate) (o : cop) : Prop :=
  match o with
  | CMove i xy => forall gl tl, qleaf (cp_root p) (cs_tree s) (cs_pos s i) = Some (gl, tl) ->
      strictly_in gl xy \/ covers gl xy = false
  | _ => True
  end.
Definition legal (s : cstate) (o : cop) : Prop :=
  match o with
  | CRemove i => In i (cs_items s)
  | CMove i _ => In i (cs_items s) /\ in_square (cp_scale p) (cs_pos s i)
  | _ => True
  end.
Fixpoint generic_hist (s : cstate) (ops : list cop) : Prop :=
  match ops with
  | [] => True
  | o :: os => legal s o /\ border_free s o /\
    match c_step p s o with Ok (s', _) => generic_hist s' os | _ => True end
  end.

Lemma generic_safe ops : 0 <= cp_scale p -> forall s, generic_hist s ops -> safe_hist p s [] ops.
Proof.
  intros Hsc. induction ops as [|o ops IH]; intros s H; [exact I|].
  cbn [generic_hist safe_hist] in *. destruct H as (H1 & H2 & H3).
  assert (Ht : ties_step p s [] o = []).
  { destruct o as [xy|k xy|i|i xy|]; try reflexivity. cbn [ties_step].
    unfold makes_tie. destruct (qleaf _ _ _) as [[gl tl]|] eqn:E; [|reflexivity].
    cbn [border_free] in H2. destruct (H2 gl tl E) as [Hs|Hs].
    - rewrite (qpath_strict (root p) (cs_tree s) (cs_pos s i) xy gl tl Hsc E Hs).
      assert (Hp : forall l, path_eqb l l = true).
      { induction l as [|x l IHl]; cbn; [reflexivity|]. rewrite Nat.eqb_refl. exact IHl. }
      rewrite Hp. cbn. rewrite andb_false_r. reflexivity.
    - rewrite Hs. reflexivity. }
  split.
  - destruct o as [xy|k xy|i|i xy|]; cbn [legal safe_step] in *; auto.
    + destruct H1 as [H1 H4]. split; [exact H1|]. split; [|auto]. apply inroot_spec. exact H4.
  - rewrite Ht. destruct (c_step p s o) as [[s' r]| |]; auto.
Qed.

(* update: one more call after a safe history *)
Lemma update_effect s ties i xy : inv p s ties ->
  (forall j, In j ties -> (j < cs_next s)%nat) ->
  In i (cs_items s) -> in_square (cp_scale p) (cs_pos s i) -> ~ In i ties ->
  in_square (cp_scale p) xy ->
  exists s', c_step p s (CMove i xy) = Ok (s', RBool true) /\
    (forall ll ur, In i (c_get_rect p s' ll ur) <-> in_rectangle ll ur xy) /\
    (forall ll ur j, j <> i -> (In j (c_get_rect p s' ll ur) <-> In j (c_get_rect p s ll ur))) /\
    (forall c r, 0 <= r -> In i (c_get_circ p s' c r) <-> in_disc c r xy) /\
    (forall c r j, 0 <= r -> j <> i -> (In j (c_get_circ p s' c r) <-> In j (c_get_circ p s c r))) /\
    (makes_tie p s i xy = false ->
     exists s'', c_step p s' (CRemove i) = Ok (s'', RBool true) /\
       ~ In i (cs_items s'') /\
       (forall ll ur, ~ In i (c_get_rect p s'' ll ur)) /\
       (forall c r, ~ In i (c_get_circ p s'' c r)) /\
       (forall sq q, c_get_nearest p sq s'' q <> Ok (Some i))).
Proof.
  intros I Htf Hi Hsq Ht Hxy.
  assert (Hin : inroot p (cs_pos s i) = true) by (apply inroot_spec; exact Hsq).
  destruct (move_inv p Hmi s ties i xy I Hi Hin Ht) as (s' & r & Hm & I' & Hn & Ha).
  assert (Hr : r = RBool true).
  { inversion Ha; subst; try reflexivity; tauto. }
  subst r. exists s'. split; [exact Hm|].
  assert (Hpos : cs_items s' = cs_items s /\ cs_pos s' = upd (cs_pos s) i xy).
  { unfold c_move in Hm. destruct (negb _); [discriminate|].
    destruct (qleaf _ _ _) as [[gl tl]|]; [|discriminate].
    destruct (in_on_rect xy _ _); [injection Hm as <-; auto|].
    destruct (qremove _ _ _ _ _) as [[t b]|]; [|discriminate].
    destruct (qadd _ _ _ _ _ _); try discriminate; injection Hm as <-; auto. }
  destruct Hpos as [Hit Hps].
  split.
  { intros ll ur. rewrite (proj2 (rect_obs p _ _ ll ur I') i). split.
    - intros (v & Hv & _ & Hrv). rewrite in_abs, Hps, upd_same in Hv. destruct Hv as [_ <-]. exact Hrv.
    - intros Hrv. exists xy. rewrite in_abs, Hit, Hps, upd_same. auto. }
  split.
  { intros ll ur j Hj. rewrite (proj2 (rect_obs p _ _ ll ur I') j), (proj2 (rect_obs p _ _ ll ur I) j).
    split; intros (v & Hv & H1 & H2); exists v; rewrite in_abs, ?Hit, ?Hps, ?upd_other in * by exact Hj; auto. }
  split.
  { intros c r Hr. rewrite (proj2 (circ_obs p _ _ c r Hr I') i). split.
    - intros (v & Hv & _ & Hrv). rewrite in_abs, Hps, upd_same in Hv. destruct Hv as [_ <-]. exact Hrv.
    - intros Hrv. exists xy. rewrite in_abs, Hit, Hps, upd_same. auto. }
  split.
  { intros c r j Hr Hj. rewrite (proj2 (circ_obs p _ _ c r Hr I') j), (proj2 (circ_obs p _ _ c r Hr I) j).
    split; intros (v & Hv & H1 & H2); exists v; rewrite in_abs, ?Hit, ?Hps, ?upd_other in * by exact Hj; auto. }
  intros Hnt. rewrite Hnt in I'.
  assert (Hi' : In i (cs_items s')) by (rewrite Hit; exact Hi).
  destruct (remove_inv p s' ties i I' Hi' Ht) as (s2 & r2 & Hr2 & I2 & Hn2 & Ha2).
  assert (Hin' : inroot p (cs_pos s' i) = true).
  { rewrite Hps, upd_same. apply inroot_spec. exact Hxy. }
  assert (Hfacts : r2 = RBool true /\ ~ In i (cs_items s2)).
  { unfold c_remove in Hr2. rewrite (proj2 (existsb_in i (cs_items s')) Hi') in Hr2. cbn [negb] in Hr2.
    assert (Hid : In i (q_ids (cs_tree s'))) by (apply (inv_ids p _ _ _ I'); auto).
    assert (Rr : resp (cs_pos s') (root p) (cs_tree s') i) by (apply I'; assumption).
    destruct (qremove_ok (cp_items p) (cs_pos s') (cs_tree s') (cp_depth p) (root p) i
                (proj1 I') (inv_nodup p _ _ I') Hin' Rr) as (t' & Hq & _).
    unfold root in Hq. rewrite Hq in Hr2. injection Hr2 as <- <-.
    split; [reflexivity|]. cbn [cs_items]. rewrite list_remove_in. tauto. }
  destruct Hfacts as [-> Hni]. exists s2. split; [exact Hr2|]. split; [exact Hni|].
  assert (Hnt2 : ~ In i (q_ids (cs_tree s2))).
  { intros Hj. apply (inv_ids p _ _ _ I2) in Hj. tauto. }
  split. { intros ll ur Hj. apply Hnt2. eapply q_rect_sub. exact Hj. }
  split. { intros c r0 Hj. apply Hnt2. eapply q_circ_sub. exact Hj. }
  intros sq q Hj. apply Hnt2. eapply q_nearest_sub. exact Hj.
Qed.
End Derived.

(* --------------------------------------------------------------------- *)
(* Witnesses *)

(* two items in two buckets; item 1 is moved onto the border x = 0 *)
Definition wp : cparams := CP 4 1 5.
Definition w_push : list cop := [CPush (V2 1 1); CPush (V2 (-1) 1)].
Definition w_lost : list cop := w_push ++ [CMove 1%nat (V2 0 1); CMove 1%nat (V2 (1#2) 1)].
Definition w_ghost : list cop := w_push ++ [CMove 1%nat (V2 0 1); CRemove 1%nat].

Definition state_of (o : outcome (cstate * list cret)) : cstate :=
  match o with Ok (s, _) => s | _ => c_init end.

Lemma w_lost_legal : generic_hist wp c_init w_push /\
  c_run wp c_init w_lost = Ok (state_of (c_run wp c_init w_lost), [RItem 0%nat; RItem 1%nat; RBool true; RBool true]).
Proof. split; vm_compute; tauto. Qed.

Lemma w_lost_query :
  In (AI 1%nat (V2 (1#2) 1)) (as_items (abs (state_of (c_run wp c_init w_lost)))) /\
  in_square 4 (V2 (1#2) 1) /\ in_rectangle (V2 (1#4) (1#2)) (V2 (3#4) (3#2)) (V2 (1#2) 1) /\
  c_get_rect wp (state_of (c_run wp c_init w_lost)) (V2 (1#4) (1#2)) (V2 (3#4) (3#2)) = [] /\
  c_get_circ wp (state_of (c_run wp c_init w_lost)) (V2 (1#2) 1) (1#4) = [].
Proof.
  split; [vm_compute; auto|].
  split; [unfold in_square; cbn; repeat split; qlra|].
  split; [unfold in_rectangle; cbn; repeat split; qlra|].
  split; vm_compute; reflexivity.
Qed.

Lemma w_ghost_run :
  c_run wp c_init w_ghost = Ok (state_of (c_run wp c_init w_ghost), [RItem 0%nat; RItem 1%nat; RBool true; RBool true]) /\
  cs_items (state_of (c_run wp c_init w_ghost)) = [0%nat] /\
  c_get_rect wp (state_of (c_run wp c_init w_ghost)) (V2 (-2) (-2)) (V2 2 2) = [0%nat; 1%nat].
Proof. repeat split; vm_compute; reflexivity. Qed.

(* nearest *)
Definition wn_ops : list cop := [CPush (V2 (-4) (-4)); CPush (V2 (-3) (-4))].
Definition wnp : cparams := CP 8 1 5.

Lemma wn_none sq : sqrt_ok sq ->
  c_get_nearest wnp sq (state_of (c_run wnp c_init wn_ops)) (V2 4 4) = Ok None.
Proof.
  intros Hsq.
  assert (Hs : safe_hist wnp c_init [] wn_ops) by (vm_compute; tauto).
  assert (Hmi : (0 <= cp_items wnp)%Z) by (vm_compute; congruence).
  destruct (hist_ok wnp Hmi wn_ops Hs) as (s & rs & Hr & I & _).
  assert (Hst : state_of (c_run wnp c_init wn_ops) = s) by (rewrite Hr; reflexivity).
  assert (Hq : in_square (cp_scale wnp) (V2 4 4)) by (unfold in_square; cbn; repeat split; qlra).
  rewrite Hst.
  destruct (near_obs wnp sq s _ (V2 4 4) Hsq I Hq) as (gl & tl & r & Hl & Hn & H).
  rewrite Hn. destruct r as [i|]; [|reflexivity]. exfalso.
  destruct H as (xy & Hin & _ & Hlt). rewrite <- Hst in Hl.
  assert (Hg : gl = Geo 4 (V2 2 2) \/ g_scale gl == 4).
  { right. vm_compute in Hl. injection Hl as <- <-. reflexivity. }
  assert (Hg' : g_scale gl == 4) by (destruct Hg as [->|Hg]; [reflexivity|exact Hg]).
  rewrite Hg' in Hlt.
  rewrite <- Hst in Hin. vm_compute in Hin.
  destruct Hin as [Hin|[Hin|[]]]; injection Hin as <- <-; unfold dist2 in Hlt; cbn [vx vy] in Hlt; lra.
Qed.

(* a square root of the required quality *)
Definition sq_up (x : Q) : Q := x + 1.
Lemma sq_up_ok : sqrt_ok sq_up.
Proof. intros x Hx. unfold sq_up. split; [lra|nra]. Qed.

(* custom query function ignored on split trees (QuadTree.h:251) *)
Lemma w_custom :
  let s := state_of (c_run wp c_init w_push) in
  q_rect_with (cs_pos s) (fun _ => false) (cp_root wp) (cs_tree s) (V2 (-2) (-2)) (V2 2 2)
  = [0%nat; 1%nat].
Proof. vm_compute. reflexivity. Qed.

(* Every call of the history is legal for a user of the interface: remove and
   update only with items of the container that are inside of the square. *)
Fixpoint legal_hist (p : cparams) (s : cstate) (ops : list cop) : Prop :=
  match ops with
  | [] => True
  | o :: os => legal p s o /\
    match c_step p s o with Ok (s', _) => legal_hist p s' os | _ => False end
  end.

Lemma w_lost_refuted :
  exists p ops s rs a i xy ll ur c r,
    (0 < cp_items p)%Z /\ 0 < cp_scale p /\ legal_hist p c_init ops /\
    c_run p c_init ops = Ok (s, rs) /\ aruns (cp_scale p) a_init ops a rs /\
    In (AI i xy) (as_items a) /\ in_square (cp_scale p) xy /\
    in_rectangle ll ur xy /\ ~ In i (c_get_rect p s ll ur) /\
    0 <= r /\ in_disc c r xy /\ ~ In i (c_get_circ p s c r).
Proof.
  exists wp, w_lost, (state_of (c_run wp c_init w_lost)),
    [RItem 0%nat; RItem 1%nat; RBool true; RBool true],
    (AS [AI 0%nat (V2 1 1); AI 1%nat (V2 (1#2) 1)] 2%nat), 1%nat, (V2 (1#2) 1),
    (V2 (1#4) (1#2)), (V2 (3#4) (3#2)), (V2 (1#2) 1), (1#4).
  split; [reflexivity|]. split; [reflexivity|].
  split. { vm_compute. repeat split; try tauto; discriminate. }
  split; [apply w_lost_legal|].
  split.
  { unfold w_lost, w_push. cbn [app].
    eapply ar_cons; [apply as_push|]. cbn [a_init as_items as_next app].
    eapply ar_cons; [apply as_push|]. cbn [as_items as_next app].
    eapply ar_cons.
    { apply (as_move _ _ [AI 0%nat (V2 1 1)] (AI 1%nat (V2 (-1) 1)) [] (V2 0 1)); [reflexivity|].
      unfold in_square; cbn; repeat split; qlra. }
    cbn [as_items as_next app].
    eapply ar_cons.
    { apply (as_move _ _ [AI 0%nat (V2 1 1)] (AI 1%nat (V2 0 1)) [] (V2 (1#2) 1)); [reflexivity|].
      unfold in_square; cbn; repeat split; qlra. }
    apply ar_nil. }
  destruct w_lost_query as (_ & H2 & H3 & H4 & H5).
  split; [right; left; reflexivity|]. split; [exact H2|]. split; [exact H3|].
  split; [rewrite H4; intros []|]. split; [discriminate|].
  split; [unfold in_disc, dist2; cbn; lra|]. rewrite H5. intros [].
Qed.

Lemma w_ghost_refuted :
  exists p ops i xy s0 rs0 s rs ll ur,
    (0 < cp_items p)%Z /\ 0 < cp_scale p /\ legal_hist p c_init (ops ++ [CMove i xy; CRemove i]) /\
    in_square (cp_scale p) xy /\
    c_run p c_init (ops ++ [CMove i xy]) = Ok (s0, rs0 ++ [RBool true]) /\
    c_step p s0 (CRemove i) = Ok (s, RBool true) /\
    c_run p c_init (ops ++ [CMove i xy; CRemove i]) = Ok (s, rs) /\
    ~ In i (cs_items s) /\ In i (c_get_rect p s ll ur) /\
    q_n (cs_tree s) <> Z.of_nat (length (q_ids (cs_tree s))).
Proof.
  exists wp, w_push, 1%nat, (V2 0 1), (state_of (c_run wp c_init (w_push ++ [CMove 1%nat (V2 0 1)]))),
    [RItem 0%nat; RItem 1%nat], (state_of (c_run wp c_init w_ghost)),
    [RItem 0%nat; RItem 1%nat; RBool true; RBool true], (V2 (-2) (-2)), (V2 2 2).
  split; [reflexivity|]. split; [reflexivity|].
  split. { vm_compute. repeat split; try tauto; discriminate. }
  split. { unfold in_square; cbn; repeat split; qlra. }
  split; [vm_compute; reflexivity|]. split; [vm_compute; reflexivity|].
  split; [apply w_ghost_run|].
  destruct w_ghost_run as (_ & H2 & H3). rewrite H2, H3.
  split; [cbn; lia|]. split; [cbn; tauto|]. vm_compute. discriminate.
Qed.

Lemma wn_refuted : exists p ops s rs q,
    (0 < cp_items p)%Z /\ 0 < cp_scale p /\ legal_hist p c_init ops /\
    c_run p c_init ops = Ok (s, rs) /\ c_size s <> 0%nat /\ in_square (cp_scale p) q /\
    forall sq, sqrt_ok sq -> c_get_nearest p sq s q = Ok None.
Proof.
  exists wnp, wn_ops, (state_of (c_run wnp c_init wn_ops)), [RItem 0%nat; RItem 1%nat], (V2 4 4).
  split; [reflexivity|]. split; [reflexivity|]. split; [vm_compute; tauto|].
  split; [vm_compute; reflexivity|]. split; [vm_compute; discriminate|].
  split; [unfold in_square; cbn; repeat split; qlra|]. apply wn_none.
Qed.

(* nearest: the answer is never None if the bucket of the query point or any
   item closer than twice the width of that bucket exists *)
Lemma near_hist p ops sq q : (0 <= cp_items p)%Z -> sqrt_ok sq -> safe_hist p c_init [] ops ->
  in_square (cp_scale p) q ->
  exists s rs a gl tl r, c_run p c_init ops = Ok (s, rs) /\
    aruns (cp_scale p) a_init ops a rs /\
    qleaf (cp_root p) (cs_tree s) q = Some (gl, tl) /\
    c_get_nearest p sq s q = Ok r /\
    match r with
    | Some i => exists xy, In (AI i xy) (as_items a) /\
        (forall j xyj, In (AI j xyj) (as_items a) -> in_square (cp_scale p) xyj ->
           dist2 xy q <= dist2 xyj q) /\
        dist2 xy q < 4 * g_scale gl * g_scale gl
    | None => forall j xyj, In (AI j xyj) (as_items a) -> in_square (cp_scale p) xyj ->
        4 * g_scale gl * g_scale gl <= dist2 xyj q
    end.
Proof.
  intros Hmi Hsq Hs Hq. destruct (hist_ok p Hmi ops Hs) as (s & rs & Hr & I & A).
  destruct (near_obs p sq s _ q Hsq I Hq) as (gl & tl & r & Hl & Hn & H).
  exists s, rs, (abs s), gl, tl, r. auto.
Qed.

Lemma rect_hist p ops : (0 <= cp_items p)%Z -> safe_hist p c_init [] ops ->
  exists s rs a, c_run p c_init ops = Ok (s, rs) /\ aruns (cp_scale p) a_init ops a rs /\
    forall ll ur, NoDup (c_get_rect p s ll ur) /\
      forall i, In i (c_get_rect p s ll ur) <->
        exists xy, In (AI i xy) (as_items a) /\ in_square (cp_scale p) xy /\ in_rectangle ll ur xy.
Proof.
  intros Hmi Hs. destruct (hist_ok p Hmi ops Hs) as (s & rs & Hr & I & A).
  exists s, rs, (abs s). split; [exact Hr|]. split; [exact A|].
  intros ll ur. eapply rect_obs; eassumption.
Qed.

Lemma circ_hist p ops : (0 <= cp_items p)%Z -> safe_hist p c_init [] ops ->
  exists s rs a, c_run p c_init ops = Ok (s, rs) /\ aruns (cp_scale p) a_init ops a rs /\
    forall c r, 0 <= r -> NoDup (c_get_circ p s c r) /\
      forall i, In i (c_get_circ p s c r) <->
        exists xy, In (AI i xy) (as_items a) /\ in_square (cp_scale p) xy /\ in_disc c r xy.
Proof.
  intros Hmi Hs. destruct (hist_ok p Hmi ops Hs) as (s & rs & Hr & I & A).
  exists s, rs, (abs s). split; [exact Hr|]. split; [exact A|].
  intros c r Hc. eapply circ_obs; eassumption.
Qed.

Lemma balance_hist p ops : (0 <= cp_items p)%Z -> safe_hist p c_init [] ops ->
  exists s rs a, c_run p c_init ops = Ok (s, rs) /\ aruns (cp_scale p) a_init ops a rs /\
    c_size s = length (as_items a) /\
    q_n (cs_tree s) = Z.of_nat (length (q_ids (cs_tree s))) /\
    (forall i, In i (q_ids (cs_tree s)) <->
       exists xy, In (AI i xy) (as_items a) /\ in_square (cp_scale p) xy) /\
    (forall d l, In (d, l) (leaves 0 (cs_tree s)) ->
       (d <= cp_depth p)%nat /\ ((d < cp_depth p)%nat -> (Z.of_nat (length l) <= cp_items p)%Z)) /\
    (forall u, In u (nodes (cs_tree s)) ->
       (cp_items p < Z.of_nat (length (q_ids u)))%Z /\ q_n u = Z.of_nat (length (q_ids u))).
Proof.
  intros Hmi Hs. destruct (hist_ok p Hmi ops Hs) as (s & rs & Hr & I & A).
  exists s, rs, (abs s). split; [exact Hr|]. split; [exact A|].
  split. { unfold c_size, abs. cbn. symmetry. apply map_length. }
  split. { eapply wf_count. apply I. }
  split. { intros i. rewrite (inv_ids p _ _ _ I). split.
    - intros [H1 H2]. exists (cs_pos s i). rewrite in_abs. split; [auto|]. apply inroot_spec. exact H2.
    - intros (xy & H1 & H2). rewrite in_abs in H1. destruct H1 as [H1 <-]. split; [exact H1|].
      apply inroot_spec. exact H2. }
  split.
  - intros d l Hl. apply (wf_leaves (cp_items p) (cs_pos s) (cs_tree s) (cp_depth p) (root p) 0%nat); [apply I|reflexivity|exact Hl].
  - intros u Hu. eapply wf_nodes; [apply I|exact Hu].
Qed.

Lemma update_hist p ops i xy : (0 <= cp_items p)%Z -> safe_hist p c_init [] (ops ++ [CMove i xy]) ->
  in_square (cp_scale p) xy ->
  exists s rs s', c_run p c_init ops = Ok (s, rs) /\
    c_step p s (CMove i xy) = Ok (s', RBool true) /\
    (forall ll ur, In i (c_get_rect p s' ll ur) <-> in_rectangle ll ur xy) /\
    (forall ll ur j, j <> i -> (In j (c_get_rect p s' ll ur) <-> In j (c_get_rect p s ll ur))) /\
    (forall c r, 0 <= r -> In i (c_get_circ p s' c r) <-> in_disc c r xy) /\
    (forall c r j, 0 <= r -> j <> i -> (In j (c_get_circ p s' c r) <-> In j (c_get_circ p s c r))) /\
    (makes_tie p s i xy = false ->
     exists s'', c_step p s' (CRemove i) = Ok (s'', RBool true) /\
       ~ In i (cs_items s'') /\
       (forall ll ur, ~ In i (c_get_rect p s'' ll ur)) /\
       (forall c r, ~ In i (c_get_circ p s'' c r)) /\
       (forall sq q, c_get_nearest p sq s'' q <> Ok (Some i))).
Proof.
  intros Hmi Hs Hxy.
  assert (Hgen : forall ops s ties, inv p s ties -> (forall j, In j ties -> (j < cs_next s)%nat) ->
    safe_hist p s ties (ops ++ [CMove i xy]) ->
    exists s1 rs ties1, c_run p s ops = Ok (s1, rs) /\ inv p s1 ties1 /\
      (forall j, In j ties1 -> (j < cs_next s1)%nat) /\ safe_step p s1 ties1 (CMove i xy)).
  { clear ops Hs. induction ops as [|o ops IH]; intros s ties I Ht Hs.
    - exists s, [], ties. cbn [app safe_hist] in Hs. split; [reflexivity|]. tauto.
    - cbn [app safe_hist] in Hs. destruct Hs as [Hs Hr].
      destruct (step_inv p Hmi s ties o I Ht Hs) as (s1 & r & A & B & C & _).
      rewrite A in Hr. destruct (IH s1 _ B C Hr) as (s2 & rs & t2 & E & F & G & H).
      exists s2, (r :: rs), t2. cbn [c_run]. rewrite A, E. auto. }
  destruct (Hgen ops c_init [] (inv_init p Hmi []) (fun j (H : In j []) => match H with end) Hs)
    as (s & rs & ties & Hr & I & Ht & (H1 & H2 & H3)).
  destruct (update_effect p Hmi s ties i xy I Ht H1) as (s' & H').
  - apply inroot_spec. exact H2.
  - exact H3.
  - exact Hxy.
  - exists s, rs, s'. auto.
Qed.

(* A bigger history that satisfies all hypotheses: splits, a merge, an update
   across buckets, an update onto a border, an item outside of the square. *)
Definition ex_ops : list cop :=
  [CPush (V2 1 1); CPush (V2 (-1) 1); CPush (V2 (3#2) (3#2)); CPush (V2 9 9);
   CInsert 1 (V2 (-1) (-1)); CMove 0%nat (V2 1 (-1)); CMove 1%nat (V2 0 1);
   CRemove 2%nat; CClear; CRemove 3%nat; CMove 4%nat (V2 (-1) (-3#2))].
Lemma ex_safe : safe_hist wp c_init [] ex_ops.
Proof. vm_compute. repeat split; try tauto; intros H; repeat (destruct H as [H|H]; try discriminate); destruct H. Qed.
Lemma ex_generic : generic_hist wp c_init
  [CPush (V2 1 1); CPush (V2 (-1) 1); CPush (V2 (3#2) (3#2)); CMove 0%nat (V2 1 (-1)); CRemove 2%nat].
Proof.
  vm_compute. repeat split; try tauto; try discriminate.
  intros gl tl H. injection H as <- <-. right. reflexivity.
Qed.
