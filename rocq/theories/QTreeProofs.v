(* Lemmas about the quadtree model. *)
From Coq Require Import Lqa Lia Permutation.
From Verif Require Import Base QTreeModel QTreeSpec.
Open Scope Q_scope.

(* --------------------------------------------------------------------- *)
(* Geometry *)

Lemma in_on_rect_iff v ll ur :
  in_on_rect v ll ur = true <->
  vx ll <= vx v /\ vy ll <= vy v /\ vx v <= vx ur /\ vy v <= vy ur.
Proof.
  unfold in_on_rect. rewrite !andb_true_iff, !Qleb_true. tauto.
Qed.

Lemma in_on_rect_spec v ll ur : in_on_rect v ll ur = true <-> in_rectangle ll ur v.
Proof. rewrite in_on_rect_iff. unfold in_rectangle. tauto. Qed.

Lemma rect_overlap_iff a b c d :
  rect_overlap a b c d = true <->
  vx a <= vx d /\ vx c <= vx b /\ vy a <= vy d /\ vy c <= vy b.
Proof.
  unfold rect_overlap. rewrite !andb_true_iff, !Qleb_true. tauto.
Qed.

Definition covers (g : geo) (v : vec2) : bool := in_on_rect v (g_ll g) (g_ur g).

Lemma covers_iff g v :
  covers g v = true <->
  vx (g_center g) - g_scale g / 2 <= vx v /\ vy (g_center g) - g_scale g / 2 <= vy v /\
  vx v <= vx (g_center g) + g_scale g / 2 /\ vy v <= vy (g_center g) + g_scale g / 2.
Proof. unfold covers. rewrite in_on_rect_iff. reflexivity. Qed.

Lemma child_sub g j v : covers (child g j) v = true -> covers g v = true.
Proof.
  rewrite !covers_iff. unfold child, g_half.
  destruct j as [|[|[|j]]]; cbn [g_scale g_center vx vy]; intros; repeat split; qlra.
Qed.

Lemma child_cover g v : covers g v = true ->
  covers (child g 0) v = true \/ covers (child g 1) v = true \/
  covers (child g 2) v = true \/ covers (child g 3) v = true.
Proof.
  rewrite !covers_iff. unfold child, g_half. cbn [g_scale g_center vx vy]. intros H.
  destruct (Qlt_le_dec (vx v) (vx (g_center g))) as [Hx|Hx];
  destruct (Qlt_le_dec (vy v) (vy (g_center g))) as [Hy|Hy].
  - right; right; left. repeat split; qlra.
  - right; left. repeat split; qlra.
  - right; right; right. repeat split; qlra.
  - left. repeat split; qlra.
Qed.

Lemma child_cover_false g v :
  covers (child g 0) v = false -> covers (child g 1) v = false ->
  covers (child g 2) v = false -> covers (child g 3) v = false -> covers g v = false.
Proof.
  intros H0 H1 H2 H3. destruct (covers g v) eqn:E; [|reflexivity].
  destruct (child_cover _ _ E) as [H|[H|[H|H]]]; congruence.
Qed.

Lemma inside_covers pos g i : inside pos g i = covers g (pos i).
Proof. reflexivity. Qed.

(* --------------------------------------------------------------------- *)
Section WF.
Variable mi : Z.
Hypothesis Hmi : (0 <= mi)%Z.

(* Structural invariant of a tree: exact counters, every item inside of the
   closed square of its leaf, buckets below the depth limit not overfull,
   and split nodes hold more than max_item items. *)
Fixpoint wf (pos : id -> vec2) (k : nat) (g : geo) (t : qtree) {struct t} : Prop :=
  match t with
  | QLeaf n l =>
      n = Z.of_nat (length l) /\
      (forall i, In i l -> inside pos g i = true) /\
      (k <> O -> (Z.of_nat (length l) <= mi)%Z)
  | QNode n c0 c1 c2 c3 =>
      match k with
      | O => False
      | S k' =>
        wf pos k' (child g 0) c0 /\ wf pos k' (child g 1) c1 /\
        wf pos k' (child g 2) c2 /\ wf pos k' (child g 3) c3 /\
        n = (q_n c0 + q_n c1 + q_n c2 + q_n c3)%Z /\ (mi < n)%Z
      end
  end.

(* The item is stored in the bucket in which [remove] will look for it: the
   first child (in the order NE, NW, SW, SE) whose square contains it. *)
Fixpoint resp (pos : id -> vec2) (g : geo) (t : qtree) (i : id) : Prop :=
  match t with
  | QLeaf _ l => In i l
  | QNode _ c0 c1 c2 c3 =>
      if inside pos (child g 0) i then resp pos (child g 0) c0 i
      else if inside pos (child g 1) i then resp pos (child g 1) c1 i
      else if inside pos (child g 2) i then resp pos (child g 2) c2 i
      else resp pos (child g 3) c3 i
  end.

Definition nresp pos g c0 c1 c2 c3 i := resp pos g (QNode 0 c0 c1 c2 c3) i.

Lemma resp_node pos g n c0 c1 c2 c3 i :
  resp pos g (QNode n c0 c1 c2 c3) i = nresp pos g c0 c1 c2 c3 i.
Proof. reflexivity. Qed.

Lemma resp_in pos g t i : resp pos g t i -> In i (q_ids t).
Proof.
  revert g. induction t as [n l|n c0 IH0 c1 IH1 c2 IH2 c3 IH3]; intros g; cbn [resp q_ids].
  - auto.
  - rewrite !in_app_iff. intros H.
    destruct (inside pos (child g 0) i); [left; eauto|].
    destruct (inside pos (child g 1) i); [right; left; eauto|].
    destruct (inside pos (child g 2) i); [right; right; left; eauto|].
    right; right; right; eauto.
Qed.

Lemma wf_count pos k g t : wf pos k g t -> q_n t = Z.of_nat (length (q_ids t)).
Proof.
  revert k g. induction t as [n l|n c0 IH0 c1 IH1 c2 IH2 c3 IH3]; intros k g H.
  - destruct H as [H _]. exact H.
  - destruct k as [|k']; [destruct H|].
    cbn [wf] in H. destruct H as (H0 & H1 & H2 & H3 & Hn & _).
    cbn [q_n q_ids]. rewrite !app_length, !Nat2Z.inj_add.
    rewrite Hn, (IH0 _ _ H0), (IH1 _ _ H1), (IH2 _ _ H2), (IH3 _ _ H3). lia.
Qed.

Lemma wf_inside pos k g t i : wf pos k g t -> In i (q_ids t) -> inside pos g i = true.
Proof.
  revert k g. induction t as [n l|n c0 IH0 c1 IH1 c2 IH2 c3 IH3]; intros k g H Hi.
  - destruct H as [_ [H _]]. apply H. exact Hi.
  - destruct k as [|k']; [destruct H|].
    cbn [wf] in H. destruct H as (H0 & H1 & H2 & H3 & _ & _).
    cbn [q_ids] in Hi. rewrite !in_app_iff in Hi.
    destruct Hi as [Hi|[Hi|[Hi|Hi]]];
      eapply child_sub; rewrite <- inside_covers; eauto.
Qed.

Lemma wf_leaf_empty pos k g : wf pos k g empty_leaf.
Proof.
  cbn. split; [reflexivity|]. split; [tauto|]. intros _. exact Hmi.
Qed.

Lemma wf_split_count pos k g t : wf pos k g t -> q_split t = true -> (mi < q_n t)%Z.
Proof.
  destruct t as [n l|n c0 c1 c2 c3]; cbn; intros H Hs; [discriminate|].
  destruct k; [destruct H|]. tauto.
Qed.

Lemma wf_n_nonneg pos k g t : wf pos k g t -> (0 <= q_n t)%Z.
Proof. intros H. rewrite (wf_count _ _ _ _ H). lia. Qed.

(* ---- add ---- *)

Definition add_ok pos k (addf : geo -> qtree -> id -> addres) : Prop :=
  forall g t i, wf pos k g t ->
    (inside pos g i = false -> addf g t i = Rejected) /\
    (inside pos g i = true ->
       exists t', addf g t i = Added t' /\ wf pos k g t' /\
         Permutation (q_ids t') (i :: q_ids t) /\ q_n t' = (q_n t + 1)%Z /\
         resp pos g t' i /\
         (forall j, resp pos g t j -> resp pos g t' j)).

Definition ids4 (c0 c1 c2 c3 : qtree) := q_ids c0 ++ q_ids c1 ++ q_ids c2 ++ q_ids c3.
Definition n4 (c0 c1 c2 c3 : qtree) := (q_n c0 + q_n c1 + q_n c2 + q_n c3)%Z.
Definition wf4 pos k g c0 c1 c2 c3 :=
  wf pos k (child g 0) c0 /\ wf pos k (child g 1) c1 /\
  wf pos k (child g 2) c2 /\ wf pos k (child g 3) c3.

Lemma perm_ids4 l0 l1 l2 l3 (i : id) :
  Permutation ((i :: l0) ++ l1 ++ l2 ++ l3) (i :: l0 ++ l1 ++ l2 ++ l3) /\
  Permutation (l0 ++ (i :: l1) ++ l2 ++ l3) (i :: l0 ++ l1 ++ l2 ++ l3) /\
  Permutation (l0 ++ l1 ++ (i :: l2) ++ l3) (i :: l0 ++ l1 ++ l2 ++ l3) /\
  Permutation (l0 ++ l1 ++ l2 ++ (i :: l3)) (i :: l0 ++ l1 ++ l2 ++ l3).
Proof.
  repeat split.
  - reflexivity.
  - cbn. symmetry. apply Permutation_middle.
  - symmetry. change (l0 ++ l1 ++ (i :: l2) ++ l3) with (l0 ++ l1 ++ i :: (l2 ++ l3)).
    rewrite !app_assoc. rewrite <- (app_assoc (l0 ++ l1)). apply Permutation_middle.
  - symmetry. rewrite !app_assoc. apply Permutation_middle.
Qed.

Lemma try_children_ok pos k addf g c0 c1 c2 c3 i :
  add_ok pos k addf -> wf4 pos k g c0 c1 c2 c3 -> inside pos g i = true ->
  exists d0 d1 d2 d3,
    try_children addf g c0 c1 c2 c3 i = inl (Some (d0, d1, d2, d3)) /\
    wf4 pos k g d0 d1 d2 d3 /\
    Permutation (ids4 d0 d1 d2 d3) (i :: ids4 c0 c1 c2 c3) /\
    n4 d0 d1 d2 d3 = (n4 c0 c1 c2 c3 + 1)%Z /\
    nresp pos g d0 d1 d2 d3 i /\
    (forall j, nresp pos g c0 c1 c2 c3 j -> nresp pos g d0 d1 d2 d3 j).
Proof.
  intros Hadd (W0 & W1 & W2 & W3) Hin.
  unfold try_children.
  assert (Hc := Hin). rewrite inside_covers in Hc. apply child_cover in Hc.
  rewrite <- !inside_covers in Hc.
  destruct (inside pos (child g 0) i) eqn:E0.
  { destruct (proj2 (Hadd _ _ i W0) E0) as (t & Ht & Wt & Pt & Nt & Rt & Ro).
    exists t, c1, c2, c3. rewrite Ht. split; [reflexivity|].
    split; [repeat split; assumption|].
    split. { unfold ids4. rewrite Pt. apply perm_ids4. }
    split. { unfold n4. rewrite Nt. lia. }
    split. { unfold nresp. cbn [resp]. rewrite E0. exact Rt. }
    intros j. unfold nresp. cbn [resp].
    destruct (inside pos (child g 0) j); auto. }
  rewrite (proj1 (Hadd _ _ i W0) E0).
  destruct (inside pos (child g 1) i) eqn:E1.
  { destruct (proj2 (Hadd _ _ i W1) E1) as (t & Ht & Wt & Pt & Nt & Rt & Ro).
    exists c0, t, c2, c3. rewrite Ht. split; [reflexivity|].
    split; [repeat split; assumption|].
    split. { unfold ids4. rewrite Pt. apply perm_ids4. }
    split. { unfold n4. rewrite Nt. lia. }
    split. { unfold nresp. cbn [resp]. rewrite E0, E1. exact Rt. }
    intros j. unfold nresp. cbn [resp].
    destruct (inside pos (child g 0) j); auto.
    destruct (inside pos (child g 1) j); auto. }
  rewrite (proj1 (Hadd _ _ i W1) E1).
  destruct (inside pos (child g 2) i) eqn:E2.
  { destruct (proj2 (Hadd _ _ i W2) E2) as (t & Ht & Wt & Pt & Nt & Rt & Ro).
    exists c0, c1, t, c3. rewrite Ht. split; [reflexivity|].
    split; [repeat split; assumption|].
    split. { unfold ids4. rewrite Pt. apply perm_ids4. }
    split. { unfold n4. rewrite Nt. lia. }
    split. { unfold nresp. cbn [resp]. rewrite E0, E1, E2. exact Rt. }
    intros j. unfold nresp. cbn [resp].
    destruct (inside pos (child g 0) j); auto.
    destruct (inside pos (child g 1) j); auto.
    destruct (inside pos (child g 2) j); auto. }
  rewrite (proj1 (Hadd _ _ i W2) E2).
  assert (E3 : inside pos (child g 3) i = true).
  { destruct Hc as [H|[H|[H|H]]]; congruence. }
  destruct (proj2 (Hadd _ _ i W3) E3) as (t & Ht & Wt & Pt & Nt & Rt & Ro).
  exists c0, c1, c2, t. rewrite Ht. split; [reflexivity|].
  split; [repeat split; assumption|].
  split. { unfold ids4. rewrite Pt. apply perm_ids4. }
  split. { unfold n4. rewrite Nt. lia. }
  split. { unfold nresp. cbn [resp]. rewrite E0, E1, E2. exact Rt. }
  intros j. unfold nresp. cbn [resp].
  destruct (inside pos (child g 0) j); auto.
  destruct (inside pos (child g 1) j); auto.
  destruct (inside pos (child g 2) j); auto.
Qed.

Lemma distribute_ok pos k addf g : add_ok pos k addf ->
  forall rl c0 c1 c2 c3,
  wf4 pos k g c0 c1 c2 c3 -> (forall i, In i rl -> inside pos g i = true) ->
  exists d0 d1 d2 d3,
    distribute addf g rl c0 c1 c2 c3 = Some (d0, d1, d2, d3) /\
    wf4 pos k g d0 d1 d2 d3 /\
    Permutation (ids4 d0 d1 d2 d3) (rl ++ ids4 c0 c1 c2 c3) /\
    n4 d0 d1 d2 d3 = (n4 c0 c1 c2 c3 + Z.of_nat (length rl))%Z /\
    (forall j, In j rl -> nresp pos g d0 d1 d2 d3 j) /\
    (forall j, nresp pos g c0 c1 c2 c3 j -> nresp pos g d0 d1 d2 d3 j).
Proof.
  intros Hadd. induction rl as [|i rl IH]; intros c0 c1 c2 c3 W Hin.
  - exists c0, c1, c2, c3. cbn [distribute]. split; [reflexivity|]. split; [exact W|].
    split; [reflexivity|]. split; [cbn; lia|]. split; [intros j []|auto].
  - cbn [distribute].
    destruct (try_children_ok pos k addf g c0 c1 c2 c3 i Hadd W (Hin i (or_introl eq_refl)))
      as (e0 & e1 & e2 & e3 & He & We & Pe & Ne & Ri & Ro).
    rewrite He.
    destruct (IH e0 e1 e2 e3 We (fun j Hj => Hin j (or_intror Hj)))
      as (d0 & d1 & d2 & d3 & Hd & Wd & Pd & Nd & Rd & Rod).
    exists d0, d1, d2, d3. split; [exact Hd|]. split; [exact Wd|].
    split. { rewrite Pd, Pe. cbn. symmetry. apply Permutation_middle. }
    split. { rewrite Nd, Ne. cbn [length]. lia. }
    split.
    + intros j [<-|Hj]; auto.
    + auto.
Qed.

Lemma qadd_ok pos k : add_ok pos k (qadd mi pos k).
Proof.
  induction k as [|k IH]; intros g t i W.
  - split; intros Hin.
    + cbn [qadd]. rewrite Hin. reflexivity.
    + destruct t as [n l|n c0 c1 c2 c3]; [|destruct W].
      destruct W as (Wn & Win & _).
      exists (QLeaf (n + 1) (l ++ [i])). cbn [qadd]. rewrite Hin. cbn [negb].
      split; [reflexivity|]. split.
      { cbn [wf]. rewrite app_length. cbn [length]. split; [lia|]. split.
        - intros j. rewrite in_app_iff. cbn. intros [Hj|[<-|[]]]; auto.
        - congruence. }
      split. { cbn [q_ids]. symmetry. apply Permutation_cons_append. }
      split; [reflexivity|]. split.
      * cbn [resp]. rewrite in_app_iff. cbn. auto.
      * cbn [resp]. intros j Hj. rewrite in_app_iff. auto.
  - split; intros Hin.
    + cbn [qadd]. rewrite Hin. reflexivity.
    + destruct t as [n l|n c0 c1 c2 c3].
      * destruct W as (Wn & Win & Wb).
        cbn [qadd]. rewrite Hin. cbn [negb].
        assert (Hall : forall j, In j (l ++ [i]) -> inside pos g j = true).
        { intros j. rewrite in_app_iff. cbn. intros [Hj|[<-|[]]]; auto. }
        destruct (Z.ltb mi (Z.of_nat (length (l ++ [i])))) eqn:E.
        -- destruct (distribute_ok pos k (qadd mi pos k) g IH (rev (l ++ [i]))
             empty_leaf empty_leaf empty_leaf empty_leaf)
             as (d0 & d1 & d2 & d3 & Hd & Wd & Pd & Nd & Rd & _).
           { unfold wf4. auto using wf_leaf_empty. }
           { intros j Hj. apply Hall. apply in_rev. exact Hj. }
           rewrite Hd. exists (QNode (n + 1) d0 d1 d2 d3). split; [reflexivity|].
           apply Z.ltb_lt in E. rewrite app_length in E. cbn [length] in E.
           rewrite rev_length, app_length in Nd. cbn [length] in Nd.
           split.
           { cbn [wf]. destruct Wd as (W0 & W1 & W2 & W3). repeat split; try assumption.
             - unfold n4 in Nd. cbn [empty_leaf q_n] in Nd. lia.
             - lia. }
           split.
           { cbn [q_ids]. fold (ids4 d0 d1 d2 d3). rewrite Pd.
             unfold ids4. cbn. rewrite app_nil_r.
             rewrite rev_app_distr. cbn. rewrite <- Permutation_rev. reflexivity. }
           split; [reflexivity|]. split.
           ++ rewrite resp_node. apply Rd. apply -> in_rev. rewrite in_app_iff. cbn. auto.
           ++ intros j Hj. rewrite resp_node. apply Rd. apply -> in_rev.
              rewrite in_app_iff. auto.
        -- exists (QLeaf (n + 1) (l ++ [i])). split; [reflexivity|].
           apply Z.ltb_ge in E.
           split.
           { cbn [wf]. split; [rewrite app_length; cbn [length]; lia|].
             split; [exact Hall|]. intros _. exact E. }
           split. { cbn [q_ids]. symmetry. apply Permutation_cons_append. }
           split; [reflexivity|]. split.
           ++ cbn [resp]. rewrite in_app_iff. cbn. auto.
           ++ cbn [resp]. intros j Hj. rewrite in_app_iff. auto.
      * cbn [wf] in W. destruct W as (W0 & W1 & W2 & W3 & Wn & Wm).
        cbn [qadd]. rewrite Hin. cbn [negb].
        destruct (try_children_ok pos k (qadd mi pos k) g c0 c1 c2 c3 i IH
                   (conj W0 (conj W1 (conj W2 W3))) Hin)
          as (d0 & d1 & d2 & d3 & Hd & Wd & Pd & Nd & Rd & Ro).
        rewrite Hd. exists (QNode (n + 1) d0 d1 d2 d3). split; [reflexivity|].
        split.
        { cbn [wf]. destruct Wd as (V0 & V1 & V2' & V3). repeat split; try assumption.
          - unfold n4 in Nd. lia.
          - lia. }
        split. { exact Pd. }
        split; [reflexivity|]. split; [exact Rd|].
        intros j Hj. apply Ro. exact Hj.
Qed.

(* ---- remove ---- *)

Lemma list_remove_in i j l : In j (list_remove i l) <-> In j l /\ j <> i.
Proof.
  unfold list_remove. rewrite filter_In, negb_true_iff, Nat.eqb_neq. tauto.
Qed.

Lemma list_remove_notin i l : ~ In i l -> list_remove i l = l.
Proof.
  induction l as [|j l IH]; cbn; intros H; [reflexivity|].
  destruct (Nat.eqb_spec j i) as [->|E]; [tauto|]. cbn. f_equal. apply IH. tauto.
Qed.

Lemma list_remove_perm i l : NoDup l -> In i l -> Permutation (i :: list_remove i l) l.
Proof.
  intros Hnd Hi. apply in_split in Hi. destruct Hi as (l1 & l2 & ->).
  apply NoDup_remove in Hnd. destruct Hnd as [_ Hn]. rewrite in_app_iff in Hn.
  unfold list_remove. rewrite filter_app. cbn [filter]. rewrite Nat.eqb_refl. cbn [negb].
  change (filter (fun j => negb (j =? i)%nat) l1) with (list_remove i l1).
  change (filter (fun j => negb (j =? i)%nat) l2) with (list_remove i l2).
  rewrite !list_remove_notin by tauto. apply Permutation_middle.
Qed.

Lemma list_remove_split (i : id) l1 l2 : NoDup (l1 ++ i :: l2) ->
  list_remove i (l1 ++ i :: l2) = l1 ++ l2.
Proof.
  intros Hnd. apply NoDup_remove in Hnd. destruct Hnd as [_ Hn].
  rewrite in_app_iff in Hn. unfold list_remove. rewrite filter_app. cbn [filter].
  rewrite Nat.eqb_refl. cbn [negb].
  change (filter (fun j => negb (j =? i)%nat) l1) with (list_remove i l1).
  change (filter (fun j => negb (j =? i)%nat) l2) with (list_remove i l2).
  rewrite !list_remove_notin by tauto. reflexivity.
Qed.

Definition rem_ok pos k g t i t' : Prop :=
  wf pos k g t' /\ Permutation (i :: q_ids t') (q_ids t) /\ q_n t' = (q_n t - 1)%Z /\
  (forall j, j <> i -> resp pos g t j -> resp pos g t' j).

Lemma qmerge_ids n c0 c1 c2 c3 :
  q_ids (qmerge (QNode n c0 c1 c2 c3)) = ids4 c0 c1 c2 c3.
Proof.
  unfold qmerge, ids4.
  destruct c0, c1, c2, c3; cbn; try reflexivity.
Qed.

Lemma qmerge_n t : q_n (qmerge t) = q_n t.
Proof. destruct t as [|n c0 c1 c2 c3]; [reflexivity|]. cbn. destruct (_ || _); reflexivity. Qed.

Lemma nresp_in4 pos g c0 c1 c2 c3 j : nresp pos g c0 c1 c2 c3 j -> In j (ids4 c0 c1 c2 c3).
Proof. intros H. apply (resp_in pos g (QNode 0 c0 c1 c2 c3)). exact H. Qed.

(* the common tail of the split case of remove *)
Lemma rem_fin pos k g n c0 c1 c2 c3 d0 d1 d2 d3 i :
  n = n4 c0 c1 c2 c3 ->
  wf4 pos k g d0 d1 d2 d3 ->
  Permutation (i :: ids4 d0 d1 d2 d3) (ids4 c0 c1 c2 c3) ->
  n4 d0 d1 d2 d3 = (n4 c0 c1 c2 c3 - 1)%Z ->
  (forall j, j <> i -> nresp pos g c0 c1 c2 c3 j -> nresp pos g d0 d1 d2 d3 j) ->
  rem_ok pos (S k) g (QNode n c0 c1 c2 c3) i
    (if Z.leb (n - 1) mi then qmerge (QNode (n - 1) d0 d1 d2 d3)
     else QNode (n - 1) d0 d1 d2 d3).
Proof.
  intros Hn W P N R. destruct W as (W0 & W1 & W2 & W3).
  destruct (Z.leb_spec (n - 1) mi) as [Hle|Hgt].
  - assert (Hs : q_split d0 || q_split d1 || q_split d2 || q_split d3 = false).
    { pose proof (wf_n_nonneg _ _ _ _ W0). pose proof (wf_n_nonneg _ _ _ _ W1).
      pose proof (wf_n_nonneg _ _ _ _ W2). pose proof (wf_n_nonneg _ _ _ _ W3).
      unfold n4 in N.
      destruct (q_split d0) eqn:S0; [pose proof (wf_split_count _ _ _ _ W0 S0); unfold n4 in *; lia|].
      destruct (q_split d1) eqn:S1; [pose proof (wf_split_count _ _ _ _ W1 S1); unfold n4 in *; lia|].
      destruct (q_split d2) eqn:S2; [pose proof (wf_split_count _ _ _ _ W2 S2); unfold n4 in *; lia|].
      destruct (q_split d3) eqn:S3; [pose proof (wf_split_count _ _ _ _ W3 S3); unfold n4 in *; lia|].
      reflexivity. }
    assert (Hids : q_leaf_items d0 ++ q_leaf_items d1 ++ q_leaf_items d2 ++ q_leaf_items d3
                   = ids4 d0 d1 d2 d3).
    { unfold ids4. destruct d0, d1, d2, d3; cbn in Hs; try discriminate. reflexivity. }
    unfold rem_ok, qmerge. rewrite Hs. rewrite Hids.
    assert (Hlen : (n - 1)%Z = Z.of_nat (length (ids4 d0 d1 d2 d3))).
    { unfold ids4. rewrite !app_length, !Nat2Z.inj_add.
      rewrite <- (wf_count _ _ _ _ W0), <- (wf_count _ _ _ _ W1),
              <- (wf_count _ _ _ _ W2), <- (wf_count _ _ _ _ W3).
      unfold n4 in *. lia. }
    split; [|split; [|split]].
    + cbn [wf]. split; [exact Hlen|]. split; [|lia].
      intros j Hj. unfold ids4 in Hj. rewrite !in_app_iff in Hj.
      destruct Hj as [Hj|[Hj|[Hj|Hj]]];
        [pose proof (wf_inside _ _ _ _ _ W0 Hj) as Hw
        |pose proof (wf_inside _ _ _ _ _ W1 Hj) as Hw
        |pose proof (wf_inside _ _ _ _ _ W2 Hj) as Hw
        |pose proof (wf_inside _ _ _ _ _ W3 Hj) as Hw];
        rewrite inside_covers in *; eapply child_sub; exact Hw.
    + cbn [q_ids]. exact P.
    + cbn [q_n]. lia.
    + intros j Hji Hj. cbn [resp]. apply (nresp_in4 pos g). apply R; auto.
  - split; [|split; [|split]].
    + cbn [wf]. unfold n4 in *. repeat split; try assumption; lia.
    + exact P.
    + reflexivity.
    + intros j Hji Hj. rewrite resp_node. apply R; auto.
Qed.

Lemma NoDup_app_l {A} (l1 l2 : list A) : NoDup (l1 ++ l2) -> NoDup l1.
Proof.
  induction l1 as [|a l1 IH]; cbn; intros H; [constructor|].
  inversion H as [|x xs Hx Hxs]; subst. constructor; [|auto].
  intro Ha. apply Hx. rewrite in_app_iff. auto.
Qed.

Lemma NoDup_app_r {A} (l1 l2 : list A) : NoDup (l1 ++ l2) -> NoDup l2.
Proof.
  induction l1 as [|a l1 IH]; cbn; intros H; [exact H|].
  inversion H; auto.
Qed.

Lemma NoDup_ids4 c0 c1 c2 c3 : NoDup (ids4 c0 c1 c2 c3) ->
  NoDup (q_ids c0) /\ NoDup (q_ids c1) /\ NoDup (q_ids c2) /\ NoDup (q_ids c3).
Proof.
  unfold ids4. intros H.
  split; [eapply NoDup_app_l; eassumption|]. apply NoDup_app_r in H.
  split; [eapply NoDup_app_l; eassumption|]. apply NoDup_app_r in H.
  split; [eapply NoDup_app_l; eassumption|]. apply NoDup_app_r in H. exact H.
Qed.

Lemma qremove_none pos g t i : inside pos g i = false -> qremove mi pos g t i = None.
Proof. intros H. destruct t; cbn [qremove]; rewrite H; reflexivity. Qed.

Lemma qremove_ok pos t : forall k g i,
  wf pos k g t -> NoDup (q_ids t) -> inside pos g i = true -> resp pos g t i ->
  exists t', qremove mi pos g t i = Some (t', true) /\ rem_ok pos k g t i t'.
Proof.
  induction t as [n l|n c0 IH0 c1 IH1 c2 IH2 c3 IH3]; intros k g i W Hnd Hin Hr.
  - cbn [qremove]. rewrite Hin. cbn [negb].
    exists (QLeaf (n - 1) (list_remove i l)). split; [reflexivity|].
    destruct W as (Wn & Win & Wb). cbn [q_ids] in Hnd. cbn [resp] in Hr.
    pose proof (list_remove_perm i l Hnd Hr) as P.
    pose proof (Permutation_length P) as L. cbn [length] in L.
    split; [|split; [|split]].
    + cbn [wf]. split; [lia|]. split.
      * intros j Hj. apply list_remove_in in Hj. apply Win. tauto.
      * intros Hk. specialize (Wb Hk). lia.
    + exact P.
    + reflexivity.
    + intros j Hji Hj. cbn [resp] in *. apply list_remove_in. auto.
  - destruct k as [|k]; [destruct W|].
    cbn [wf] in W. destruct W as (W0 & W1 & W2 & W3 & Wn & Wm).
    cbn [qremove]. rewrite Hin. cbn [negb].
    cbn [q_ids] in Hnd. fold (ids4 c0 c1 c2 c3) in Hnd.
    destruct (NoDup_ids4 _ _ _ _ Hnd) as (N0 & N1 & N2 & N3).
    rewrite resp_node in Hr. unfold nresp in Hr. cbn [resp] in Hr.
    destruct (inside pos (child g 0) i) eqn:E0.
    { destruct (IH0 k (child g 0) i W0 N0 E0 Hr) as (t' & Ht & Wt & Pt & Nt & Rt).
      rewrite Ht. cbn beta iota zeta.
      assert (H := rem_fin pos k g n c0 c1 c2 c3 t' c1 c2 c3 i Wn).
      eexists. split; [|apply H].
      - destruct (Z.leb (n - 1) mi); reflexivity.
      - repeat split; assumption.
      - unfold ids4. rewrite <- (proj1 (perm_ids4 _ _ _ _ i)). rewrite Pt. reflexivity.
      - unfold n4. lia.
      - intros j Hji. unfold nresp. cbn [resp].
        destruct (inside pos (child g 0) j); auto. }
    rewrite (qremove_none _ _ _ _ E0).
    destruct (inside pos (child g 1) i) eqn:E1.
    { destruct (IH1 k (child g 1) i W1 N1 E1 Hr) as (t' & Ht & Wt & Pt & Nt & Rt).
      rewrite Ht. cbn beta iota zeta.
      assert (H := rem_fin pos k g n c0 c1 c2 c3 c0 t' c2 c3 i Wn).
      eexists. split; [|apply H].
      - destruct (Z.leb (n - 1) mi); reflexivity.
      - repeat split; assumption.
      - unfold ids4. rewrite <- (proj1 (proj2 (perm_ids4 _ _ _ _ i))). rewrite Pt. reflexivity.
      - unfold n4. lia.
      - intros j Hji. unfold nresp. cbn [resp].
        destruct (inside pos (child g 0) j); auto.
        destruct (inside pos (child g 1) j); auto. }
    rewrite (qremove_none _ _ _ _ E1).
    destruct (inside pos (child g 2) i) eqn:E2.
    { destruct (IH2 k (child g 2) i W2 N2 E2 Hr) as (t' & Ht & Wt & Pt & Nt & Rt).
      rewrite Ht. cbn beta iota zeta.
      assert (H := rem_fin pos k g n c0 c1 c2 c3 c0 c1 t' c3 i Wn).
      eexists. split; [|apply H].
      - destruct (Z.leb (n - 1) mi); reflexivity.
      - repeat split; assumption.
      - unfold ids4. rewrite <- (proj1 (proj2 (proj2 (perm_ids4 _ _ _ _ i)))). rewrite Pt. reflexivity.
      - unfold n4. lia.
      - intros j Hji. unfold nresp. cbn [resp].
        destruct (inside pos (child g 0) j); auto.
        destruct (inside pos (child g 1) j); auto.
        destruct (inside pos (child g 2) j); auto. }
    rewrite (qremove_none _ _ _ _ E2).
    assert (E3 : inside pos (child g 3) i = true).
    { rewrite inside_covers in *. destruct (child_cover _ _ Hin) as [H|[H|[H|H]]]; congruence. }
    destruct (IH3 k (child g 3) i W3 N3 E3 Hr) as (t' & Ht & Wt & Pt & Nt & Rt).
    rewrite Ht. cbn beta iota zeta.
    assert (H := rem_fin pos k g n c0 c1 c2 c3 c0 c1 c2 t' i Wn).
    eexists. split; [|apply H].
    + destruct (Z.leb (n - 1) mi); reflexivity.
    + repeat split; assumption.
    + unfold ids4. rewrite <- (proj2 (proj2 (proj2 (perm_ids4 _ _ _ _ i)))). rewrite Pt. reflexivity.
    + unfold n4. lia.
    + intros j Hji. unfold nresp. cbn [resp].
      destruct (inside pos (child g 0) j); auto.
      destruct (inside pos (child g 1) j); auto.
      destruct (inside pos (child g 2) j); auto.
Qed.

(* ---- queries ---- *)

Lemma filter_none {A} (f : A -> bool) l : (forall x, In x l -> f x = false) -> filter f l = [].
Proof.
  induction l as [|a l IH]; cbn; intros H; [reflexivity|].
  rewrite (H a) by auto. apply IH. auto.
Qed.

Lemma q_rect_ok pos ll ur t : forall k g, wf pos k g t ->
  q_rect pos g t ll ur = filter (rect_query pos ll ur) (q_ids t).
Proof.
  unfold q_rect.
  induction t as [n l|n c0 IH0 c1 IH1 c2 IH2 c3 IH3]; intros k g W.
  - cbn [q_rect_with q_ids].
    destruct (rect_overlap (g_ll g) (g_ur g) ll ur) eqn:E; cbn [negb]; [reflexivity|].
    symmetry. apply filter_none. intros i Hi.
    destruct (rect_query pos ll ur i) eqn:Eq; [|reflexivity]. exfalso.
    pose proof (wf_inside _ _ _ _ _ W Hi) as Hw.
    unfold inside, rect_query in *. rewrite in_on_rect_iff in *.
    apply eq_true_false_abs in E; [exact E|]. apply rect_overlap_iff. repeat split; qlra.
  - destruct k as [|k]; [destruct W|]. assert (W' := W).
    cbn [wf] in W. destruct W as (W0 & W1 & W2 & W3 & _ & _).
    cbn [q_rect_with].
    rewrite (IH0 _ _ W0), (IH1 _ _ W1), (IH2 _ _ W2), (IH3 _ _ W3).
    destruct (rect_overlap (g_ll g) (g_ur g) ll ur) eqn:E; cbn [negb].
    + cbn [q_ids]. rewrite !filter_app. reflexivity.
    + symmetry. apply filter_none. intros i Hi.
      destruct (rect_query pos ll ur i) eqn:Eq; [|reflexivity]. exfalso.
      pose proof (wf_inside _ _ _ _ _ W' Hi) as Hw.
      unfold inside, rect_query in *. rewrite in_on_rect_iff in *.
      apply eq_true_false_abs in E; [exact E|]. apply rect_overlap_iff. repeat split; qlra.
Qed.

Lemma abs_lt_of_sq (d r : Q) : 0 <= r -> d * d < r * r -> - r <= d /\ d <= r.
Proof. intros Hr H. split; nra. Qed.

Lemma circ_in_box pos c r i : 0 <= r -> circ_query pos c (r * r) i = true ->
  vx c - c14142 * r <= vx (pos i) /\ vx (pos i) <= vx c + c14142 * r /\
  vy c - c14142 * r <= vy (pos i) /\ vy (pos i) <= vy c + c14142 * r.
Proof.
  intros Hr H. unfold circ_query in H. apply Qltb_true in H.
  unfold vnorm2, vdot, vsub in H. cbn [vx vy] in H.
  set (dx := vx (pos i) - vx c) in *. set (dy := vy (pos i) - vy c) in *.
  assert (Hx : dx * dx < r * r) by nra.
  assert (Hy : dy * dy < r * r) by nra.
  destruct (abs_lt_of_sq dx r Hr Hx). destruct (abs_lt_of_sq dy r Hr Hy).
  unfold dx, dy, c14142 in *. repeat split; qlra.
Qed.

Lemma q_circ_ok pos c r t : 0 <= r -> forall k g, wf pos k g t ->
  q_circ pos g t c r = filter (circ_query pos c (r * r)) (q_ids t).
Proof.
  intros Hr.
  assert (Hprune : forall g i,
    rect_overlap (g_ll g) (g_ur g) (V2 (vx c - c14142 * r) (vy c - c14142 * r))
      (V2 (vx c + c14142 * r) (vy c + c14142 * r)) = false ->
    inside pos g i = true -> circ_query pos c (r * r) i = false).
  { intros g i E Hw. destruct (circ_query pos c (r * r) i) eqn:Eq; [|reflexivity]. exfalso.
    apply (circ_in_box _ _ _ _ Hr) in Eq.
    unfold inside in Hw. rewrite in_on_rect_iff in Hw.
    apply eq_true_false_abs in E; [exact E|]. apply rect_overlap_iff. cbn [vx vy].
    repeat split; qlra. }
  induction t as [n l|n c0 IH0 c1 IH1 c2 IH2 c3 IH3]; intros k g W; cbn [q_circ].
  - destruct (rect_overlap _ _ _ _) eqn:E; cbn [negb]; [reflexivity|].
    symmetry. apply filter_none. intros i Hi. eapply Hprune; [exact E|].
    eapply wf_inside; eassumption.
  - destruct k as [|k]; [destruct W|]. assert (W' := W).
    cbn [wf] in W. destruct W as (W0 & W1 & W2 & W3 & _ & _).
    rewrite (IH0 _ _ W0), (IH1 _ _ W1), (IH2 _ _ W2), (IH3 _ _ W3).
    destruct (rect_overlap _ _ _ _) eqn:E; cbn [negb].
    + cbn [q_ids]. rewrite !filter_app. reflexivity.
    + symmetry. apply filter_none. intros i Hi. eapply Hprune; [exact E|].
      eapply wf_inside; eassumption.
Qed.

(* ---- leafs ---- *)

(* path of child numbers to the leaf responsible for a location *)
Fixpoint qpath (g : geo) (t : qtree) (q : vec2) : list nat :=
  match t with
  | QLeaf _ _ => []
  | QNode _ c0 c1 c2 c3 =>
    if covers (child g 0) q then 0%nat :: qpath (child g 0) c0 q
    else if covers (child g 1) q then 1%nat :: qpath (child g 1) c1 q
    else if covers (child g 2) q then 2%nat :: qpath (child g 2) c2 q
    else 3%nat :: qpath (child g 3) c3 q
  end.

Lemma qleaf_none g t q : covers g q = false -> qleaf g t q = None.
Proof. unfold covers. intros H. destruct t; cbn [qleaf]; rewrite H; reflexivity. Qed.

Lemma qleaf_some g t q : covers g q = true ->
  exists gl n l, qleaf g t q = Some (gl, QLeaf n l) /\ covers gl q = true.
Proof.
  revert g. induction t as [n l|n c0 IH0 c1 IH1 c2 IH2 c3 IH3]; intros g H.
  - exists g, n, l. cbn [qleaf]. unfold covers in H. rewrite H. split; [reflexivity|exact H].
  - cbn [qleaf]. assert (H' := H). unfold covers in H'. rewrite H'. cbn [negb].
    destruct (covers (child g 0) q) eqn:E0.
    { destruct (IH0 _ E0) as (gl & m & l & -> & Hc). eauto. }
    rewrite (qleaf_none _ _ _ E0).
    destruct (covers (child g 1) q) eqn:E1.
    { destruct (IH1 _ E1) as (gl & m & l & -> & Hc). eauto. }
    rewrite (qleaf_none _ _ _ E1).
    destruct (covers (child g 2) q) eqn:E2.
    { destruct (IH2 _ E2) as (gl & m & l & -> & Hc). eauto. }
    rewrite (qleaf_none _ _ _ E2).
    destruct (covers (child g 3) q) eqn:E3.
    { destruct (IH3 _ E3) as (gl & m & l & -> & Hc). eauto. }
    rewrite (child_cover_false _ _ E0 E1 E2 E3) in H. discriminate.
Qed.

Lemma qleaf_items_in g t q gl n l :
  qleaf g t q = Some (gl, QLeaf n l) -> forall i, In i l -> In i (q_ids t).
Proof.
  revert g. induction t as [m l'|m c0 IH0 c1 IH1 c2 IH2 c3 IH3]; intros g H i Hi.
  - cbn [qleaf] in H. destruct (negb _); [discriminate|].
    injection H as <- <- <-. exact Hi.
  - cbn [qleaf] in H. destruct (negb _); [discriminate|].
    cbn [q_ids]. rewrite !in_app_iff.
    destruct (qleaf (child g 0) c0 q) eqn:E0; [left; eapply IH0; [|exact Hi]; rewrite E0; congruence|].
    destruct (qleaf (child g 1) c1 q) eqn:E1; [right; left; eapply IH1; [|exact Hi]; rewrite E1; congruence|].
    destruct (qleaf (child g 2) c2 q) eqn:E2; [right; right; left; eapply IH2; [|exact Hi]; rewrite E2; congruence|].
    destruct (qleaf (child g 3) c3 q) eqn:E3; [right; right; right; eapply IH3; [|exact Hi]; rewrite E3; congruence|].
    discriminate.
Qed.

(* ---- change of the location of one item ---- *)

Definition agree_except (pos pos' : id -> vec2) (i : id) : Prop :=
  forall j, j <> i -> pos' j = pos j.

Lemma inside_agree pos pos' g i j :
  agree_except pos pos' i -> j <> i -> inside pos' g j = inside pos g j.
Proof. intros H Hj. unfold inside. rewrite (H j Hj). reflexivity. Qed.

Lemma wf_notin pos pos' i t : forall k g,
  agree_except pos pos' i -> ~ In i (q_ids t) -> wf pos k g t -> wf pos' k g t.
Proof.
  induction t as [n l|n c0 IH0 c1 IH1 c2 IH2 c3 IH3]; intros k g Ha Hi W.
  - destruct W as (Wn & Win & Wb). cbn [wf]. split; [exact Wn|]. split; [|exact Wb].
    intros j Hj. rewrite (inside_agree pos pos' g i j Ha); [auto|]. intros ->. auto.
  - destruct k as [|k]; [destruct W|]. cbn [wf] in *.
    cbn [q_ids] in Hi. rewrite !in_app_iff in Hi.
    destruct W as (W0 & W1 & W2 & W3 & Wn & Wm).
    repeat split; try assumption; [apply IH0|apply IH1|apply IH2|apply IH3]; tauto.
Qed.

Lemma resp_agree pos pos' i t : forall g j,
  agree_except pos pos' i -> j <> i -> resp pos g t j -> resp pos' g t j.
Proof.
  induction t as [n l|n c0 IH0 c1 IH1 c2 IH2 c3 IH3]; intros g j Ha Hj H.
  - exact H.
  - cbn [resp] in *. rewrite !(inside_agree pos pos' _ i j Ha Hj).
    destruct (inside pos (child g 0) j); eauto.
    destruct (inside pos (child g 1) j); eauto.
    destruct (inside pos (child g 2) j); eauto.
Qed.

Lemma disj_app {A} (l1 l2 : list A) x : NoDup (l1 ++ l2) -> In x l1 -> In x l2 -> False.
Proof.
  induction l1 as [|a l1 IH]; cbn; intros Hnd H1 H2; [destruct H1|].
  inversion Hnd as [|y ys Hy Hys]; subst. destruct H1 as [->|H1].
  - apply Hy. rewrite in_app_iff. auto.
  - apply IH; auto.
Qed.

Lemma ids4_disj c0 c1 c2 c3 (i : id) : NoDup (ids4 c0 c1 c2 c3) ->
  (In i (q_ids c0) -> ~ In i (q_ids c1) /\ ~ In i (q_ids c2) /\ ~ In i (q_ids c3)) /\
  (In i (q_ids c1) -> ~ In i (q_ids c0) /\ ~ In i (q_ids c2) /\ ~ In i (q_ids c3)) /\
  (In i (q_ids c2) -> ~ In i (q_ids c0) /\ ~ In i (q_ids c1) /\ ~ In i (q_ids c3)) /\
  (In i (q_ids c3) -> ~ In i (q_ids c0) /\ ~ In i (q_ids c1) /\ ~ In i (q_ids c2)).
Proof.
  unfold ids4. intros H.
  assert (D0 : In i (q_ids c0) -> In i (q_ids c1 ++ q_ids c2 ++ q_ids c3) -> False)
    by (intros; eapply disj_app; eassumption).
  apply NoDup_app_r in H.
  assert (D1 : In i (q_ids c1) -> In i (q_ids c2 ++ q_ids c3) -> False)
    by (intros; eapply disj_app; eassumption).
  apply NoDup_app_r in H.
  assert (D2 : In i (q_ids c2) -> In i (q_ids c3) -> False)
    by (intros; eapply disj_app; eassumption).
  rewrite !in_app_iff in *. tauto.
Qed.

Lemma wf_move_fast pos pos' i t : forall k g gl tl,
  agree_except pos pos' i -> NoDup (q_ids t) -> inside pos g i = true ->
  resp pos g t i -> wf pos k g t ->
  qleaf g t (pos i) = Some (gl, tl) -> covers gl (pos' i) = true ->
  wf pos' k g t.
Proof.
  induction t as [n l|n c0 IH0 c1 IH1 c2 IH2 c3 IH3]; intros k g gl tl Ha Hnd Hin Hr W Hl Hc.
  - cbn [qleaf] in Hl. destruct (negb _); [discriminate|]. injection Hl as <- <-.
    destruct W as (Wn & Win & Wb). cbn [wf]. split; [exact Wn|]. split; [|exact Wb].
    intros j Hj. destruct (Nat.eq_dec j i) as [->|E].
    + rewrite inside_covers. exact Hc.
    + rewrite (inside_agree pos pos' g i j Ha E). auto.
  - destruct k as [|k]; [destruct W|]. cbn [wf] in *.
    destruct W as (W0 & W1 & W2 & W3 & Wn & Wm).
    cbn [q_ids] in Hnd. fold (ids4 c0 c1 c2 c3) in Hnd.
    destruct (NoDup_ids4 _ _ _ _ Hnd) as (N0 & N1 & N2 & N3).
    destruct (ids4_disj _ _ _ _ i Hnd) as (D0 & D1 & D2 & D3).
    cbn [resp] in Hr. cbn [qleaf] in Hl.
    change (in_on_rect (pos i) (g_ll g) (g_ur g)) with (inside pos g i) in Hl.
    rewrite Hin in Hl. cbn [negb] in Hl.
    destruct (inside pos (child g 0) i) eqn:E0.
    { assert (Hi := resp_in _ _ _ _ Hr). destruct (D0 Hi) as (F1 & F2 & F3).
      destruct (qleaf_some (child g 0) c0 (pos i) E0) as (a & b & c & Hq & _).
      rewrite Hq in Hl. injection Hl as <- <-.
      repeat split; try assumption; try (eapply wf_notin; eassumption).
      eapply IH0; eassumption. }
    rewrite (qleaf_none _ _ _ E0) in Hl.
    destruct (inside pos (child g 1) i) eqn:E1.
    { assert (Hi := resp_in _ _ _ _ Hr). destruct (D1 Hi) as (F1 & F2 & F3).
      destruct (qleaf_some (child g 1) c1 (pos i) E1) as (a & b & c & Hq & _).
      rewrite Hq in Hl. injection Hl as <- <-.
      repeat split; try assumption; try (eapply wf_notin; eassumption).
      eapply IH1; eassumption. }
    rewrite (qleaf_none _ _ _ E1) in Hl.
    destruct (inside pos (child g 2) i) eqn:E2.
    { assert (Hi := resp_in _ _ _ _ Hr). destruct (D2 Hi) as (F1 & F2 & F3).
      destruct (qleaf_some (child g 2) c2 (pos i) E2) as (a & b & c & Hq & _).
      rewrite Hq in Hl. injection Hl as <- <-.
      repeat split; try assumption; try (eapply wf_notin; eassumption).
      eapply IH2; eassumption. }
    rewrite (qleaf_none _ _ _ E2) in Hl.
    assert (E3 : inside pos (child g 3) i = true).
    { rewrite inside_covers in *. destruct (child_cover _ _ Hin) as [H|[H|[H|H]]]; congruence. }
    assert (Hi := resp_in _ _ _ _ Hr). destruct (D3 Hi) as (F1 & F2 & F3).
    destruct (qleaf_some (child g 3) c3 (pos i) E3) as (a & b & c & Hq & _).
    rewrite Hq in Hl. injection Hl as <- <-.
    repeat split; try assumption; try (eapply wf_notin; eassumption).
    eapply IH3; eassumption.
Qed.

Lemma resp_move_fast pos pos' i t : forall g,
  resp pos g t i -> qpath g t (pos' i) = qpath g t (pos i) -> resp pos' g t i.
Proof.
  induction t as [n l|n c0 IH0 c1 IH1 c2 IH2 c3 IH3]; intros g Hr Hp.
  - exact Hr.
  - cbn [resp qpath] in *. rewrite !inside_covers in *.
    destruct (covers (child g 0) (pos i)) eqn:E0; destruct (covers (child g 0) (pos' i)) eqn:E0';
      try (injection Hp as Hp; apply IH0; auto); try discriminate;
      try (destruct (covers (child g 1) _); [discriminate|]; destruct (covers (child g 2) _); discriminate).
    destruct (covers (child g 1) (pos i)) eqn:E1; destruct (covers (child g 1) (pos' i)) eqn:E1';
      try (injection Hp as Hp; apply IH1; auto); try discriminate;
      try (destruct (covers (child g 2) _); discriminate).
    destruct (covers (child g 2) (pos i)) eqn:E2; destruct (covers (child g 2) (pos' i)) eqn:E2';
      try (injection Hp as Hp; apply IH2; auto); try discriminate.
    injection Hp as Hp. apply IH3; auto.
Qed.

(* A location strictly inside of the leaf of [p] belongs to the same leaf. *)
Definition strictly_in (g : geo) (v : vec2) : Prop :=
  vx (g_center g) - g_scale g / 2 < vx v /\ vy (g_center g) - g_scale g / 2 < vy v /\
  vx v < vx (g_center g) + g_scale g / 2 /\ vy v < vy (g_center g) + g_scale g / 2.

Definition sub_geo (a b : geo) : Prop :=
  vx (g_center b) - g_scale b / 2 <= vx (g_center a) - g_scale a / 2 /\
  vy (g_center b) - g_scale b / 2 <= vy (g_center a) - g_scale a / 2 /\
  vx (g_center a) + g_scale a / 2 <= vx (g_center b) + g_scale b / 2 /\
  vy (g_center a) + g_scale a / 2 <= vy (g_center b) + g_scale b / 2.

Lemma child_sub_geo g j : 0 <= g_scale g -> sub_geo (child g j) g.
Proof.
  intros Hg. unfold sub_geo, child, g_half.
  destruct j as [|[|[|j]]]; cbn [g_scale g_center vx vy]; repeat split; qlra.
Qed.

Lemma child_scale g j : 0 <= g_scale g -> 0 <= g_scale (child g j).
Proof. intros H. cbn. unfold g_half. qlra. Qed.

Lemma sub_geo_trans a b c : sub_geo a b -> sub_geo b c -> sub_geo a c.
Proof. unfold sub_geo. intros H1 H2. repeat split; qlra. Qed.

Lemma qleaf_sub g t q gl tl : 0 <= g_scale g -> qleaf g t q = Some (gl, tl) -> sub_geo gl g.
Proof.
  revert g. induction t as [m l'|m c0 IH0 c1 IH1 c2 IH2 c3 IH3]; intros g Hg H;
    cbn [qleaf] in H; destruct (negb _); try discriminate.
  - injection H as <- <-. unfold sub_geo. repeat split; qlra.
  - destruct (qleaf (child g 0) c0 q) eqn:E0.
    { injection H as ->. eapply sub_geo_trans; [apply (IH0 (child g 0)); [apply child_scale; exact Hg|exact E0]|apply child_sub_geo; exact Hg]. }
    destruct (qleaf (child g 1) c1 q) eqn:E1.
    { injection H as ->. eapply sub_geo_trans; [apply (IH1 (child g 1)); [apply child_scale; exact Hg|exact E1]|apply child_sub_geo; exact Hg]. }
    destruct (qleaf (child g 2) c2 q) eqn:E2.
    { injection H as ->. eapply sub_geo_trans; [apply (IH2 (child g 2)); [apply child_scale; exact Hg|exact E2]|apply child_sub_geo; exact Hg]. }
    destruct (qleaf (child g 3) c3 q) eqn:E3.
    { injection H as ->. eapply sub_geo_trans; [apply (IH3 (child g 3)); [apply child_scale; exact Hg|exact E3]|apply child_sub_geo; exact Hg]. }
    injection H as <- <-. unfold sub_geo. repeat split; qlra.
Qed.

Lemma strictly_in_sub a b v : sub_geo a b -> strictly_in a v -> strictly_in b v.
Proof. unfold sub_geo, strictly_in. intros H1 H2. repeat split; qlra. Qed.

(* strictly inside child j: not in the closed square of any other child *)
Lemma strictly_in_child g j v : (j < 4)%nat -> strictly_in (child g j) v ->
  forall m, (m < 4)%nat -> covers (child g m) v = true -> m = j.
Proof.
  intros Hj Hs m Hm Hc. rewrite covers_iff in Hc. unfold strictly_in in Hs.
  unfold child, g_half in *.
  destruct j as [|[|[|[|j]]]]; try lia; destruct m as [|[|[|[|m]]]]; try lia;
    cbn [g_scale g_center vx vy] in *; try reflexivity; exfalso; qlra.
Qed.

Lemma strictly_covers g v : strictly_in g v -> covers g v = true.
Proof. rewrite covers_iff. unfold strictly_in. intros H. repeat split; qlra. Qed.

Lemma qpath_strict g t p v gl tl : 0 <= g_scale g ->
  qleaf g t p = Some (gl, tl) -> strictly_in gl v -> qpath g t v = qpath g t p.
Proof.
  revert g. induction t as [m l'|m c0 IH0 c1 IH1 c2 IH2 c3 IH3]; intros g Hg H Hs.
  - reflexivity.
  - cbn [qleaf] in H. destruct (in_on_rect p (g_ll g) (g_ur g)) eqn:Ep; [|discriminate].
    cbn [negb] in H. cbn [qpath].
    assert (Hsc : forall j, 0 <= g_scale (child g j)) by (intro; apply child_scale; exact Hg).
    destruct (covers (child g 0) p) eqn:E0.
    { destruct (qleaf_some _ c0 _ E0) as (a & b & c & Hq & _). rewrite Hq in H. injection H as <- <-.
      pose proof (strictly_in_sub _ _ _ (qleaf_sub _ _ _ _ _ (Hsc 0%nat) Hq) Hs) as Hs0.
      rewrite (strictly_covers _ _ Hs0). f_equal. eapply IH0; eauto. }
    rewrite (qleaf_none _ _ _ E0) in H.
    destruct (covers (child g 1) p) eqn:E1.
    { destruct (qleaf_some _ c1 _ E1) as (a & b & c & Hq & _). rewrite Hq in H. injection H as <- <-.
      pose proof (strictly_in_sub _ _ _ (qleaf_sub _ _ _ _ _ (Hsc 1%nat) Hq) Hs) as Hs0.
      pose proof (strictly_in_child g 1 v ltac:(lia) Hs0) as Hu.
      destruct (covers (child g 0) v) eqn:F0; [specialize (Hu 0%nat ltac:(lia) F0); discriminate|].
      rewrite (strictly_covers _ _ Hs0). f_equal. eapply IH1; eauto. }
    rewrite (qleaf_none _ _ _ E1) in H.
    destruct (covers (child g 2) p) eqn:E2.
    { destruct (qleaf_some _ c2 _ E2) as (a & b & c & Hq & _). rewrite Hq in H. injection H as <- <-.
      pose proof (strictly_in_sub _ _ _ (qleaf_sub _ _ _ _ _ (Hsc 2%nat) Hq) Hs) as Hs0.
      pose proof (strictly_in_child g 2 v ltac:(lia) Hs0) as Hu.
      destruct (covers (child g 0) v) eqn:F0; [specialize (Hu 0%nat ltac:(lia) F0); discriminate|].
      destruct (covers (child g 1) v) eqn:F1; [specialize (Hu 1%nat ltac:(lia) F1); discriminate|].
      rewrite (strictly_covers _ _ Hs0). f_equal. eapply IH2; eauto. }
    rewrite (qleaf_none _ _ _ E2) in H.
    destruct (covers (child g 3) p) eqn:E3.
    { destruct (qleaf_some _ c3 _ E3) as (a & b & c & Hq & _). rewrite Hq in H. injection H as <- <-.
      pose proof (strictly_in_sub _ _ _ (qleaf_sub _ _ _ _ _ (Hsc 3%nat) Hq) Hs) as Hs0.
      pose proof (strictly_in_child g 3 v ltac:(lia) Hs0) as Hu.
      destruct (covers (child g 0) v) eqn:F0; [specialize (Hu 0%nat ltac:(lia) F0); discriminate|].
      destruct (covers (child g 1) v) eqn:F1; [specialize (Hu 1%nat ltac:(lia) F1); discriminate|].
      destruct (covers (child g 2) v) eqn:F2; [specialize (Hu 2%nat ltac:(lia) F2); discriminate|].
      f_equal. eapply IH3; eauto. }
    change (covers g p = true) in Ep. rewrite (child_cover_false _ _ E0 E1 E2 E3) in Ep. discriminate.
Qed.

End WF.
