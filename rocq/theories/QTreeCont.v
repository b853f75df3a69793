(* Container level lemmas: invariant of all safe histories, refinement of the
   abstract list of located items, exactness of the queries. *)
From Coq Require Import Lqa Lia Permutation.
From Verif Require Import Base QTreeModel QTreeSpec QTreeProofs.
Open Scope Q_scope.

(* --------------------------------------------------------------------- *)
(* nearest *)

(* What is required of the square root of the C library; any approximation
   with a relative error below 75 percent will do. *)
Definition sqrt_ok (sq : Q -> Q) : Prop :=
  forall x, 0 <= x -> 0 <= sq x /\ x <= 16 * (sq x * sq x).

Section Near.
Variable mi : Z.
Variable pos : id -> vec2.

Definition nd (q : vec2) (i : id) : Q := vnorm2 (vsub (pos i) q).

Lemma near_fold q l : forall st,
  let st' := fold_left (near_step pos q) l st in
  fst st' <= fst st /\ (forall j, In j l -> fst st' <= nd q j) /\
  ((st' = st /\ forall j, In j l -> fst st <= nd q j) \/
   exists j, In j l /\ st' = (nd q j, Some j) /\ nd q j < fst st).
Proof.
  induction l as [|i l IH]; intros st st'.
  - cbn in *. split; [apply Qle_refl|]. split; [tauto|]. left. split; [reflexivity|tauto].
  - cbn [fold_left] in st'. specialize (IH (near_step pos q st i)). fold st' in IH.
    cbn zeta in IH. destruct IH as (H1 & H2 & H3).
    unfold near_step in H1, H3. fold (nd q i) in H1, H3.
    destruct (Qltb (nd q i) (fst st)) eqn:E; qbool; cbn [fst] in *.
    + split; [lra|]. split.
      { intros j [<-|Hj]; auto. }
      right. destruct H3 as [[H3 _]|(j & Hj & H3 & H4)].
      * exists i. cbn. auto.
      * exists j. cbn. split; [auto|]. split; [auto|]. lra.
    + split; [exact H1|]. split.
      { intros j [<-|Hj]; [lra|auto]. }
      destruct H3 as [[H3 H4]|(j & Hj & H3 & H4)].
      * left. split; [exact H3|]. intros j [<-|Hj]; auto.
      * right. exists j. cbn. auto.
Qed.

Lemma nd_nonneg q i : 0 <= nd q i.
Proof.
  unfold nd, vnorm2, vdot.
  pose proof (Qle_refl 0). nra.
Qed.

Lemma q_nearest_ok sq k g t q :
  sqrt_ok sq -> wf mi pos k g t -> covers g q = true ->
  exists gl tl r, qleaf g t q = Some (gl, tl) /\ q_nearest pos sq g t q = Ok r /\
  match r with
  | Some i => In i (q_ids t) /\ (forall j, In j (q_ids t) -> nd q i <= nd q j) /\
              nd q i < 4 * g_scale gl * g_scale gl
  | None => forall j, In j (q_ids t) -> 4 * g_scale gl * g_scale gl <= nd q j
  end.
Proof.
  intros Hsq W Hc.
  destruct (qleaf_some g t q Hc) as (gl & n & l & Hl & _).
  unfold q_nearest. rewrite Hl. cbn [q_leaf_items].
  set (st0 := (4 * g_scale gl * g_scale gl, @None id)).
  pose proof (near_fold q l st0) as Hf1.
  set (st1 := fold_left (near_step pos q) l st0) in *. cbn zeta in Hf1.
  destruct Hf1 as (A1 & A2 & A3).
  assert (Hm : 0 <= fst st1).
  { destruct A3 as [[-> _]|(j & _ & -> & _)]; cbn [fst].
    - unfold st0. cbn [fst]. nra.
    - apply nd_nonneg. }
  destruct (Hsq _ Hm) as (S0 & S1).
  assert (Hr : 0 <= 4 * sq (fst st1)) by lra.
  rewrite (q_circ_ok mi pos q _ t Hr k g W).
  set (fl := filter (circ_query pos q (4 * sq (fst st1) * (4 * sq (fst st1)))) (q_ids t)).
  pose proof (near_fold q fl st1) as Hf2. cbn zeta in Hf2.
  set (st2 := fold_left (near_step pos q) fl st1) in *.
  destruct Hf2 as (B1 & B2 & B3).
  assert (Hall : forall j, In j (q_ids t) -> fst st2 <= nd q j).
  { intros j Hj. destruct (circ_query pos q (4 * sq (fst st1) * (4 * sq (fst st1))) j) eqn:E.
    - apply B2. unfold fl. rewrite filter_In. auto.
    - unfold circ_query in E. fold (nd q j) in E. apply Qltb_false in E. lra. }
  exists gl, (QLeaf n l), (snd st2). split; [reflexivity|]. split; [reflexivity|].
  assert (Hcase : (st2 = st0) \/
    exists j, In j (q_ids t) /\ st2 = (nd q j, Some j) /\ nd q j < fst st0).
  { destruct B3 as [[-> _]|(j & Hj & Hst & Hlt)].
    - destruct A3 as [[-> _]|(j & Hj & Hst & Hlt)]; [left; reflexivity|].
      right. exists j. split; [|auto]. eapply qleaf_items_in; eassumption.
    - right. exists j. unfold fl in Hj. rewrite filter_In in Hj.
      split; [tauto|]. split; [exact Hst|]. lra. }
  destruct Hcase as [Hst|(j & Hj & Hst & Hlt)].
  - rewrite Hst. cbn [snd st0]. intros j Hj. specialize (Hall j Hj). rewrite Hst in Hall.
    exact Hall.
  - rewrite Hst. cbn [snd]. split; [exact Hj|]. split; [|exact Hlt].
    intros j' Hj'. specialize (Hall j' Hj'). rewrite Hst in Hall. exact Hall.
Qed.
End Near.

(* --------------------------------------------------------------------- *)
(* Histories *)
Section Hist.
Variable p : cparams.
Hypothesis Hmi : (0 <= cp_items p)%Z.
Hypothesis Hsc : 0 <= cp_scale p.

Definition root := cp_root p.
Definition inroot (v : vec2) : bool := covers root v.

Lemma inroot_spec v : inroot v = true <-> in_square (cp_scale p) v.
Proof.
  unfold inroot. rewrite covers_iff. unfold in_square, root, cp_root. cbn [g_center g_scale vx vy].
  split; intros H; repeat split; lra.
Qed.

Fixpoint path_eqb (a b : list nat) : bool :=
  match a, b with
  | [], [] => true
  | x :: a', y :: b' => Nat.eqb x y && path_eqb a' b'
  | _, _ => false
  end.

Lemma path_eqb_true a b : path_eqb a b = true -> a = b.
Proof.
  revert b. induction a as [|x a IH]; intros [|y b]; cbn; try congruence.
  rewrite andb_true_iff, Nat.eqb_eq. intros [-> H]. f_equal. auto.
Qed.

(* [update] keeps an item in its bucket as long as the new location is in the
   closed square of the bucket.  If the new location is on the border shared
   with an earlier child, a later get_leaf() for that location finds another
   bucket.  Such an item is called tied. *)
Definition makes_tie (s : cstate) (i : id) (xy : vec2) : bool :=
  match qleaf root (cs_tree s) (cs_pos s i) with
  | None => false
  | Some (gl, _) =>
    covers gl xy &&
    negb (path_eqb (qpath root (cs_tree s) xy) (qpath root (cs_tree s) (cs_pos s i)))
  end.

Definition ties_step (s : cstate) (ties : list id) (o : cop) : list id :=
  match o with
  | CMove i xy => if makes_tie s i xy then i :: ties else ties
  | _ => ties
  end.

(* Calls a user may make: remove/update only with items of the container;
   update only with items inside of the square (else the code dereferences a
   null leaf); and neither with an item that was tied by an earlier update. *)
Definition safe_step (s : cstate) (ties : list id) (o : cop) : Prop :=
  match o with
  | CRemove i => In i (cs_items s) /\ ~ In i ties
  | CMove i _ => In i (cs_items s) /\ inroot (cs_pos s i) = true /\ ~ In i ties
  | _ => True
  end.

Fixpoint safe_hist (s : cstate) (ties : list id) (ops : list cop) : Prop :=
  match ops with
  | [] => True
  | o :: os =>
    safe_step s ties o /\
    match c_step p s o with
    | Ok (s', _) => safe_hist s' (ties_step s ties o) os
    | _ => True
    end
  end.

Definition inv (s : cstate) (ties : list id) : Prop :=
  wf (cp_items p) (cs_pos s) (cp_depth p) root (cs_tree s) /\
  NoDup (cs_items s) /\
  (forall i, In i (cs_items s) -> (i < cs_next s)%nat) /\
  Permutation (q_ids (cs_tree s)) (filter (fun i => inroot (cs_pos s i)) (cs_items s)) /\
  (forall i, In i (q_ids (cs_tree s)) -> ~ In i ties -> resp (cs_pos s) root (cs_tree s) i).

Definition abs (s : cstate) : astate :=
  AS (map (fun i => AI i (cs_pos s i)) (cs_items s)) (cs_next s).

Lemma inv_ids s ties i : inv s ties ->
  (In i (q_ids (cs_tree s)) <-> In i (cs_items s) /\ inroot (cs_pos s i) = true).
Proof.
  intros (_ & _ & _ & P & _). split; intros H.
  - apply (Permutation_in _ P) in H. rewrite filter_In in H. exact H.
  - apply (Permutation_in _ (Permutation_sym P)). rewrite filter_In. exact H.
Qed.

Lemma inv_nodup s ties : inv s ties -> NoDup (q_ids (cs_tree s)).
Proof.
  intros (_ & N & _ & P & _). eapply Permutation_NoDup; [symmetry; exact P|].
  apply NoDup_filter. exact N.
Qed.

Lemma inv_init ties : inv c_init ties.
Proof.
  unfold inv, c_init. cbn [cs_tree cs_items cs_pos cs_next].
  split; [apply wf_leaf_empty; exact Hmi|].
  split; [constructor|]. split; [intros i []|]. split; [reflexivity|].
  intros i [].
Qed.

(* ---- list facts ---- *)
Lemma insert_at_perm {A} k (x : A) l : Permutation (insert_at k x l) (x :: l).
Proof.
  unfold insert_at. rewrite <- (firstn_skipn k l) at 3. symmetry. apply Permutation_middle.
Qed.

Lemma map_insert_at {A B} (f : A -> B) k x l :
  map f (insert_at k x l) = insert_at k (f x) (map f l).
Proof.
  unfold insert_at. rewrite map_app. cbn [map]. rewrite firstn_map, skipn_map. reflexivity.
Qed.

Lemma filter_ext_in' {A} (f g : A -> bool) l :
  (forall x, In x l -> f x = g x) -> filter f l = filter g l.
Proof.
  induction l as [|a l IH]; cbn; intros H; [reflexivity|].
  rewrite (H a) by auto. rewrite IH by auto. reflexivity.
Qed.

Lemma perm_filter {A} (f : A -> bool) l1 l2 :
  Permutation l1 l2 -> Permutation (filter f l1) (filter f l2).
Proof.
  induction 1; cbn; try constructor.
  - destruct (f x); auto.
  - destruct (f x), (f y); try reflexivity. constructor.
  - etransitivity; eassumption.
Qed.

Lemma upd_same f i v : upd f i v i = v.
Proof. unfold upd. rewrite Nat.eqb_refl. reflexivity. Qed.
Lemma upd_other f i v j : j <> i -> upd f i v j = f j.
Proof. intros H. unfold upd. apply Nat.eqb_neq in H. rewrite H. reflexivity. Qed.
Lemma upd_agree f i v : agree_except f (upd f i v) i.
Proof. intros j Hj. apply upd_other. exact Hj. Qed.

Lemma existsb_in i l : existsb (Nat.eqb i) l = true <-> In i l.
Proof.
  rewrite existsb_exists. split.
  - intros (x & Hx & E). apply Nat.eqb_eq in E. subst. exact Hx.
  - intros H. exists i. split; [exact H|]. apply Nat.eqb_refl.
Qed.

Lemma map_upd_notin s i v l : ~ In i l ->
  map (fun j => AI j (upd (cs_pos s) i v j)) l = map (fun j => AI j (cs_pos s j)) l.
Proof.
  intros H. apply map_ext_in. intros j Hj. rewrite upd_other; [reflexivity|].
  intros ->. auto.
Qed.

(* ---- insert ---- *)
Lemma insert_inv s ties k xy : inv s ties -> (forall i, In i ties -> (i < cs_next s)%nat) ->
  exists s', c_insert p s k xy = Ok (s', RItem (cs_next s)) /\ inv s' ties /\
    cs_next s' = S (cs_next s) /\
    abs s' = AS (insert_at k (AI (cs_next s) xy) (as_items (abs s))) (S (cs_next s)).
Proof.
  intros I Hties. assert (I' := I). destruct I as (W & N & L & P & R).
  unfold c_insert. set (i := cs_next s). set (pos' := upd (cs_pos s) i xy).
  set (items' := insert_at k i (cs_items s)).
  assert (Hi : ~ In i (cs_items s)). { intros H. specialize (L _ H). unfold i in L. lia. }
  assert (Hit : ~ In i (q_ids (cs_tree s))).
  { intros H. apply (inv_ids _ _ _ I') in H. tauto. }
  assert (Ha : agree_except (cs_pos s) pos' i) by apply upd_agree.
  assert (W' : wf (cp_items p) pos' (cp_depth p) root (cs_tree s))
    by (eapply wf_notin; eassumption).
  assert (N' : NoDup items').
  { unfold items'. eapply Permutation_NoDup; [symmetry; apply insert_at_perm|].
    constructor; assumption. }
  assert (L' : forall j, In j items' -> (j < S i)%nat).
  { intros j Hj. apply (Permutation_in _ (insert_at_perm _ _ _)) in Hj.
    destruct Hj as [<-|Hj]; [lia|]. specialize (L _ Hj). unfold i. lia. }
  assert (P' : Permutation (filter (fun j => inroot (pos' j)) items')
     ((if inroot xy then [i] else []) ++ filter (fun j => inroot (cs_pos s j)) (cs_items s))).
  { unfold items'. rewrite (perm_filter _ _ _ (insert_at_perm k i (cs_items s))).
    cbn [filter]. unfold pos' at 1. rewrite upd_same.
    rewrite (filter_ext_in' (fun j => inroot (pos' j)) (fun j => inroot (cs_pos s j))).
    - destruct (inroot xy); reflexivity.
    - intros j Hj. unfold pos'. rewrite upd_other; [reflexivity|]. intros ->. auto. }
  assert (A' : map (fun j => AI j (pos' j)) items' =
               insert_at k (AI i xy) (as_items (abs s))).
  { unfold items'. rewrite map_insert_at. unfold pos' at 1. rewrite upd_same.
    unfold abs. cbn [as_items]. unfold pos'. rewrite map_upd_notin by exact Hi. reflexivity. }
  destruct (qadd_ok (cp_items p) Hmi pos' (cp_depth p) root (cs_tree s) i W') as [Hrej Hacc].
  rewrite inside_covers in Hrej, Hacc. unfold pos' in Hrej, Hacc.
  rewrite upd_same in Hrej, Hacc. fold pos' in Hrej, Hacc.
  fold root. destruct (covers root xy) eqn:E.
  - destruct (Hacc eq_refl) as (t' & Ht & Wt & Pt & Nt & Rt & Ro).
    rewrite Ht. eexists. split; [reflexivity|].
    split.
    { unfold inv. cbn [cs_tree cs_items cs_pos cs_next]. split; [exact Wt|].
      split; [exact N'|]. split; [exact L'|]. split.
      - rewrite Pt, P'. unfold inroot at 1. rewrite E. cbn. constructor. exact P.
      - intros j Hj Hjt. apply (Permutation_in _ Pt) in Hj. destruct Hj as [<-|Hj]; [exact Rt|].
        apply Ro. apply (resp_agree (cs_pos s) pos' i); [exact Ha| |apply R; assumption].
        intros ->. auto. }
    split; [reflexivity|]. unfold abs. cbn [cs_items cs_pos cs_next]. rewrite A'. reflexivity.
  - rewrite (Hrej eq_refl). eexists. split; [reflexivity|].
    split.
    { unfold inv. cbn [cs_tree cs_items cs_pos cs_next]. split; [exact W'|].
      split; [exact N'|]. split; [exact L'|]. split.
      - rewrite P'. unfold inroot at 1. rewrite E. cbn. exact P.
      - intros j Hj Hjt.
        apply (resp_agree (cs_pos s) pos' i); [exact Ha| |apply R; assumption].
        intros ->. auto. }
    split; [reflexivity|]. unfold abs. cbn [cs_items cs_pos cs_next]. rewrite A'. reflexivity.
Qed.

(* ---- remove ---- *)
Lemma remove_inv s ties i : inv s ties -> In i (cs_items s) -> ~ In i ties ->
  exists s' r, c_remove p s i = Ok (s', r) /\ inv s' ties /\ cs_next s' = cs_next s /\
    astep (cp_scale p) (abs s) (CRemove i) (abs s') r.
Proof.
  intros I Hi Ht. assert (I' := I). destruct I as (W & N & L & P & R).
  unfold c_remove. rewrite (proj2 (existsb_in i (cs_items s)) Hi). cbn [negb].
  destruct (inroot (cs_pos s i)) eqn:E.
  - assert (Hid : In i (q_ids (cs_tree s))) by (apply (inv_ids _ _ _ I'); auto).
    destruct (qremove_ok (cp_items p) (cs_pos s) (cs_tree s) (cp_depth p) root i W
               (inv_nodup _ _ I') E (R i Hid Ht)) as (t' & Hr & Wt & Pt & Nt & Rt).
    fold root. rewrite Hr. eexists _, _. split; [reflexivity|].
    assert (Hsplit := Hi). apply in_split in Hsplit. destruct Hsplit as (l1 & l2 & Hs).
    assert (N2 := N). rewrite Hs in N2. assert (N3 := N2). apply NoDup_remove in N3. destruct N3 as [N3 N4].
    split.
    { unfold inv. cbn [cs_tree cs_items cs_pos cs_next]. split; [exact Wt|].
      split; [unfold list_remove; apply NoDup_filter; exact N|].
      split. { intros j Hj. apply list_remove_in in Hj. apply L. tauto. }
      split.
      - rewrite Hs. rewrite (list_remove_split i l1 l2 N2).
        apply (Permutation_cons_inv (a := i)). rewrite Pt, P, Hs.
        rewrite !filter_app. cbn [filter]. rewrite E. symmetry. apply Permutation_middle.
      - intros j Hj Hjt. assert (Hji : j <> i).
        { intros ->. pose proof (inv_nodup _ _ I') as Nd.
          apply (Permutation_NoDup (Permutation_sym Pt)) in Nd.
          inversion Nd; auto. }
        apply Rt; [exact Hji|]. apply R; [|exact Hjt].
        apply (Permutation_in _ Pt). right. exact Hj. }
    split; [reflexivity|].
    unfold abs at 2. cbn [cs_items cs_pos cs_next].
    rewrite Hs, (list_remove_split i l1 l2 N2), map_app.
    change (CRemove i) with (CRemove (ai_id (AI i (cs_pos s i)))).
    change (cs_next s) with (as_next (abs s)).
    apply as_remove.
    + unfold abs. cbn [as_items]. rewrite Hs, map_app. reflexivity.
    + cbn [ai_xy]. apply inroot_spec. exact E.
  - fold root. rewrite qremove_none by exact E.
    exists s, (RBool false). split; [reflexivity|]. split; [exact I'|]. split; [reflexivity|].
    change (CRemove i) with (CRemove (ai_id (AI i (cs_pos s i)))).
    apply as_remove_out.
    + unfold abs. cbn [as_items]. apply in_map_iff. exists i. auto.
    + cbn [ai_xy]. rewrite <- inroot_spec. congruence.
Qed.

(* ---- update ---- *)
Lemma filter_upd (s : cstate) i xy l : NoDup l -> In i l ->
  Permutation (filter (fun j => inroot (upd (cs_pos s) i xy j)) l)
    ((if inroot xy then [i] else []) ++
     filter (fun j => inroot (cs_pos s j)) (list_remove i l)).
Proof.
  intros N Hi. apply in_split in Hi. destruct Hi as (l1 & l2 & ->).
  rewrite (list_remove_split _ _ _ N). apply NoDup_remove in N. destruct N as [N N'].
  rewrite in_app_iff in N'.
  rewrite !filter_app. cbn [filter]. rewrite upd_same.
  rewrite !(filter_ext_in' (fun j => inroot (upd (cs_pos s) i xy j)) (fun j => inroot (cs_pos s j))).
  - destruct (inroot xy); [|reflexivity]. cbn. symmetry. apply Permutation_middle.
  - intros j Hj. rewrite upd_other; [reflexivity|]. intros ->. auto.
  - intros j Hj. rewrite upd_other; [reflexivity|]. intros ->. auto.
Qed.

Lemma filter_remove_perm (s : cstate) i l : NoDup l -> In i l -> inroot (cs_pos s i) = true ->
  Permutation (filter (fun j => inroot (cs_pos s j)) l)
    (i :: filter (fun j => inroot (cs_pos s j)) (list_remove i l)).
Proof.
  intros N Hi E. apply in_split in Hi. destruct Hi as (l1 & l2 & ->).
  rewrite (list_remove_split _ _ _ N). rewrite !filter_app. cbn [filter]. rewrite E.
  symmetry. apply Permutation_middle.
Qed.

Lemma abs_upd s i xy l1 l2 : NoDup (cs_items s) -> cs_items s = l1 ++ i :: l2 ->
  map (fun j => AI j (upd (cs_pos s) i xy j)) (cs_items s) =
  map (fun j => AI j (cs_pos s j)) l1 ++ AI i xy :: map (fun j => AI j (cs_pos s j)) l2.
Proof.
  intros N Hs. rewrite Hs in *. apply NoDup_remove in N. destruct N as [_ N].
  rewrite in_app_iff in N. rewrite map_app. cbn [map]. rewrite upd_same.
  rewrite !map_upd_notin by tauto. reflexivity.
Qed.

Lemma move_inv s ties i xy : inv s ties ->
  In i (cs_items s) -> inroot (cs_pos s i) = true -> ~ In i ties ->
  exists s' r, c_move p s i xy = Ok (s', r) /\
    inv s' (if makes_tie s i xy then i :: ties else ties) /\ cs_next s' = cs_next s /\
    astep (cp_scale p) (abs s) (CMove i xy) (abs s') r.
Proof.
  intros I Hi E Ht. assert (I' := I). destruct I as (W & N & L & P & R).
  assert (Hid : In i (q_ids (cs_tree s))) by (apply (inv_ids _ _ _ I'); auto).
  assert (Ri := R i Hid Ht).
  assert (Nd := inv_nodup _ _ I').
  assert (Ha : agree_except (cs_pos s) (upd (cs_pos s) i xy) i) by apply upd_agree.
  unfold c_move. rewrite (proj2 (existsb_in i (cs_items s)) Hi). cbn [negb].
  unfold makes_tie. fold root.
  assert (Hq := qleaf_some root (cs_tree s) (cs_pos s i) E).
  destruct Hq as (gl & m & l & Hl & Hcl). rewrite Hl.
  assert (Hsplit := Hi). apply in_split in Hsplit. destruct Hsplit as (l1 & l2 & Hs).
  assert (Habs : as_items (abs s) = map (fun j => AI j (cs_pos s j)) l1 ++
            AI i (cs_pos s i) :: map (fun j => AI j (cs_pos s j)) l2).
  { unfold abs. cbn [as_items]. rewrite Hs, map_app. reflexivity. }
  fold (covers gl xy). destruct (covers gl xy) eqn:Ec.
  - (* new location in the same bucket *)
    eexists _, _. split; [reflexivity|].
    assert (W' : wf (cp_items p) (upd (cs_pos s) i xy) (cp_depth p) root (cs_tree s)).
    { eapply wf_move_fast; try eassumption. rewrite upd_same. exact Ec. }
    assert (Einr : inroot xy = true).
    { unfold inroot. pose proof (wf_inside _ _ _ _ _ _ W' Hid) as H.
      rewrite inside_covers, upd_same in H. exact H. }
    split.
    { unfold inv. cbn [cs_tree cs_items cs_pos cs_next]. split; [exact W'|].
      split; [exact N|]. split; [exact L|]. split.
      - rewrite P, (filter_upd s i xy _ N Hi), Einr, (filter_remove_perm s i _ N Hi E).
        reflexivity.
      - cbn [andb]. intros j Hj.
        destruct (path_eqb _ _) eqn:Ep; cbn [negb]; intros Hjt.
        + apply path_eqb_true in Ep. destruct (Nat.eq_dec j i) as [->|Hji].
          * apply (resp_move_fast (cs_pos s)); [exact Ri|]. rewrite upd_same. exact Ep.
          * apply (resp_agree (cs_pos s) _ i); auto.
        + cbn in Hjt. apply (resp_agree (cs_pos s) _ i); [exact Ha|intros ->; tauto|].
          apply R; tauto. }
    split; [reflexivity|].
    unfold abs at 2. cbn [cs_items cs_pos cs_next].
    rewrite (abs_upd s i xy l1 l2 N Hs).
    change (CMove i xy) with (CMove (ai_id (AI i (cs_pos s i))) xy).
    change (cs_next s) with (as_next (abs s)).
    apply (as_move _ _ _ (AI i (cs_pos s i))); [exact Habs|].
    apply inroot_spec. exact Einr.
  - cbn [andb].
    destruct (qremove_ok (cp_items p) (cs_pos s) (cs_tree s) (cp_depth p) root i W Nd E Ri)
      as (t' & Hr & Wt & Pt & Nt & Rt).
    rewrite Hr.
    assert (Hnt : ~ In i (q_ids t')).
    { pose proof (Permutation_NoDup (Permutation_sym Pt) Nd) as H. inversion H; auto. }
    assert (Wt' : wf (cp_items p) (upd (cs_pos s) i xy) (cp_depth p) root t')
      by (eapply wf_notin; eassumption).
    assert (Pt' : Permutation (q_ids t')
              (filter (fun j => inroot (cs_pos s j)) (list_remove i (cs_items s)))).
    { apply (Permutation_cons_inv (a := i)). rewrite Pt, P. apply filter_remove_perm; assumption. }
    destruct (qadd_ok (cp_items p) Hmi (upd (cs_pos s) i xy) (cp_depth p) root t' i Wt')
      as [Hrej Hacc].
    rewrite inside_covers, upd_same in Hrej, Hacc.
    destruct (covers root xy) eqn:Er.
    + destruct (Hacc eq_refl) as (t2 & Ht2 & W2 & P2 & N2 & R2 & Ro2).
      rewrite Ht2. eexists _, _. split; [reflexivity|].
      split.
      { unfold inv. cbn [cs_tree cs_items cs_pos cs_next]. split; [exact W2|].
        split; [exact N|]. split; [exact L|]. split.
        - rewrite P2, (filter_upd s i xy _ N Hi). unfold inroot at 1. rewrite Er. cbn.
          constructor. exact Pt'.
        - intros j Hj Hjt. apply (Permutation_in _ P2) in Hj.
          destruct Hj as [<-|Hj]; [exact R2|].
          assert (Hji : j <> i) by (intros ->; auto).
          apply Ro2. apply (resp_agree (cs_pos s) _ i); [exact Ha|exact Hji|].
          apply Rt; [exact Hji|]. apply R; [|exact Hjt].
          apply (Permutation_in _ Pt). right. exact Hj. }
      split; [reflexivity|].
      unfold abs at 2. cbn [cs_items cs_pos cs_next].
      rewrite (abs_upd s i xy l1 l2 N Hs).
      change (CMove i xy) with (CMove (ai_id (AI i (cs_pos s i))) xy).
      change (cs_next s) with (as_next (abs s)).
      apply (as_move _ _ _ (AI i (cs_pos s i))); [exact Habs|].
      apply inroot_spec. exact Er.
    + rewrite (Hrej eq_refl). eexists _, _. split; [reflexivity|].
      split.
      { unfold inv. cbn [cs_tree cs_items cs_pos cs_next]. split; [exact Wt'|].
        split; [exact N|]. split; [exact L|]. split.
        - rewrite (filter_upd s i xy _ N Hi). unfold inroot at 1. rewrite Er. cbn. exact Pt'.
        - intros j Hj Hjt. assert (Hji : j <> i) by (intros ->; auto).
          apply (resp_agree (cs_pos s) _ i); [exact Ha|exact Hji|].
          apply Rt; [exact Hji|]. apply R; [|exact Hjt].
          apply (Permutation_in _ Pt). right. exact Hj. }
      split; [reflexivity|].
      unfold abs at 2. cbn [cs_items cs_pos cs_next].
      rewrite (abs_upd s i xy l1 l2 N Hs).
      change (CMove i xy) with (CMove (ai_id (AI i (cs_pos s i))) xy).
      change (cs_next s) with (as_next (abs s)).
      apply (as_move_out _ _ _ (AI i (cs_pos s i))); [exact Habs|].
      rewrite <- inroot_spec. unfold inroot. congruence.
Qed.

(* ---- all histories ---- *)
Lemma step_inv s ties o : inv s ties -> (forall i, In i ties -> (i < cs_next s)%nat) ->
  safe_step s ties o ->
  exists s' r, c_step p s o = Ok (s', r) /\ inv s' (ties_step s ties o) /\
    (forall i, In i (ties_step s ties o) -> (i < cs_next s')%nat) /\
    astep (cp_scale p) (abs s) o (abs s') r.
Proof.
  intros I Ht Hs. destruct o as [xy|k xy|i|i xy|]; cbn [c_step ties_step safe_step] in *.
  - destruct (insert_inv s ties (length (cs_items s)) xy I Ht) as (s' & H1 & H2 & H3 & H4).
    exists s', (RItem (cs_next s)). split; [exact H1|]. split; [exact H2|]. split.
    { rewrite H3. intros j Hj. specialize (Ht j Hj). lia. }
    rewrite H4. unfold insert_at.
    replace (length (cs_items s)) with (length (as_items (abs s)))
      by (unfold abs; cbn; apply map_length).
    rewrite firstn_all, skipn_all. change (cs_next s) with (as_next (abs s)). apply as_push.
  - destruct (insert_inv s ties k xy I Ht) as (s' & H1 & H2 & H3 & H4).
    exists s', (RItem (cs_next s)). split; [exact H1|]. split; [exact H2|]. split.
    { rewrite H3. intros j Hj. specialize (Ht j Hj). lia. }
    rewrite H4. change (cs_next s) with (as_next (abs s)). apply as_insert.
  - destruct Hs as [H1 H2]. destruct (remove_inv s ties i I H1 H2) as (s' & r & A & B & C & D).
    exists s', r. rewrite C. auto.
  - destruct Hs as (H1 & H2 & H3).
    destruct (move_inv s ties i xy I H1 H2 H3) as (s' & r & A & B & C & D).
    exists s', r. split; [exact A|]. split; [exact B|]. split; [|exact D].
    rewrite C. destruct (makes_tie s i xy); [|exact Ht].
    intros j [<-|Hj]; [|auto]. destruct I as (_ & _ & L & _). apply L. exact H1.
  - eexists _, _. split; [reflexivity|]. split; [exact I|]. split; [exact Ht|]. apply as_clear.
Qed.

Fixpoint ties_run (s : cstate) (ties : list id) (ops : list cop) : list id :=
  match ops with
  | [] => ties
  | o :: os =>
    match c_step p s o with
    | Ok (s', _) => ties_run s' (ties_step s ties o) os
    | _ => ties
    end
  end.

Lemma run_inv ops : forall s ties,
  inv s ties -> (forall i, In i ties -> (i < cs_next s)%nat) -> safe_hist s ties ops ->
  exists s' rs, c_run p s ops = Ok (s', rs) /\ inv s' (ties_run s ties ops) /\
    aruns (cp_scale p) (abs s) ops (abs s') rs.
Proof.
  induction ops as [|o ops IH]; intros s ties I Ht Hs.
  - exists s, []. split; [reflexivity|]. split; [exact I|]. constructor.
  - cbn [safe_hist] in Hs. destruct Hs as [Hs Hr].
    destruct (step_inv s ties o I Ht Hs) as (s1 & r & A & B & C & D).
    cbn [c_run ties_run]. rewrite A in *.
    destruct (IH s1 _ B C Hr) as (s2 & rs & A2 & B2 & C2).
    rewrite A2. exists s2, (r :: rs). split; [reflexivity|]. split; [exact B2|].
    econstructor; eassumption.
Qed.

(* ---- observations in a state that satisfies the invariant ---- *)
Lemma in_abs s i xy : In (AI i xy) (as_items (abs s)) <-> In i (cs_items s) /\ cs_pos s i = xy.
Proof.
  unfold abs. cbn [as_items]. rewrite in_map_iff. split.
  - intros (j & H & Hj). injection H as -> <-. auto.
  - intros [H <-]. exists i. auto.
Qed.

Lemma rect_obs s ties ll ur : inv s ties ->
  NoDup (c_get_rect p s ll ur) /\
  forall i, In i (c_get_rect p s ll ur) <->
    exists xy, In (AI i xy) (as_items (abs s)) /\ in_square (cp_scale p) xy /\
               in_rectangle ll ur xy.
Proof.
  intros I. unfold c_get_rect. fold root.
  rewrite (q_rect_ok (cp_items p) _ ll ur _ (cp_depth p) root) by apply I.
  split. { apply NoDup_filter. eapply inv_nodup; eassumption. }
  intros i. rewrite filter_In, (inv_ids _ _ _ I). unfold rect_query.
  rewrite in_on_rect_spec, inroot_spec. split.
  - intros [[H1 H2] H3]. exists (cs_pos s i). rewrite in_abs. auto.
  - intros (xy & H1 & H2 & H3). rewrite in_abs in H1. destruct H1 as [H1 <-]. auto.
Qed.

Lemma nd_dist2 pos q i : nd pos q i = dist2 (pos i) q.
Proof. reflexivity. Qed.

Lemma circ_obs s ties c r : 0 <= r -> inv s ties ->
  NoDup (c_get_circ p s c r) /\
  forall i, In i (c_get_circ p s c r) <->
    exists xy, In (AI i xy) (as_items (abs s)) /\ in_square (cp_scale p) xy /\
               in_disc c r xy.
Proof.
  intros Hr I. unfold c_get_circ. fold root.
  rewrite (q_circ_ok (cp_items p) _ c r _ Hr (cp_depth p) root) by apply I.
  split. { apply NoDup_filter. eapply inv_nodup; eassumption. }
  intros i. rewrite filter_In, (inv_ids _ _ _ I). unfold circ_query.
  rewrite Qltb_true, inroot_spec.
  change (vnorm2 (vsub (cs_pos s i) c)) with (dist2 (cs_pos s i) c). split.
  - intros [[H1 H2] H3]. exists (cs_pos s i). rewrite in_abs. auto.
  - intros (xy & H1 & H2 & H3). rewrite in_abs in H1. destruct H1 as [H1 <-]. auto.
Qed.

Lemma near_obs sq s ties q : sqrt_ok sq -> inv s ties -> in_square (cp_scale p) q ->
  exists gl tl r, qleaf root (cs_tree s) q = Some (gl, tl) /\ c_get_nearest p sq s q = Ok r /\
  match r with
  | Some i => exists xy, In (AI i xy) (as_items (abs s)) /\
      (forall j xyj, In (AI j xyj) (as_items (abs s)) -> in_square (cp_scale p) xyj ->
         dist2 xy q <= dist2 xyj q) /\
      dist2 xy q < 4 * g_scale gl * g_scale gl
  | None => forall j xyj, In (AI j xyj) (as_items (abs s)) -> in_square (cp_scale p) xyj ->
      4 * g_scale gl * g_scale gl <= dist2 xyj q
  end.
Proof.
  intros Hsq I Hq. apply inroot_spec in Hq.
  destruct (q_nearest_ok (cp_items p) (cs_pos s) sq (cp_depth p) root (cs_tree s) q
              Hsq (proj1 I) Hq) as (gl & tl & r & Hl & Hr & H).
  exists gl, tl, r. split; [exact Hl|]. split; [exact Hr|].
  destruct r as [i|].
  - destruct H as (H1 & H2 & H3). exists (cs_pos s i). rewrite in_abs.
    split. { split; [|reflexivity]. apply (inv_ids _ _ _ I) in H1. tauto. }
    split; [|exact H3].
    intros j xyj Hj Hsqj. rewrite in_abs in Hj. destruct Hj as [Hj <-].
    rewrite <- !nd_dist2. apply H2. apply (inv_ids _ _ _ I). split; [exact Hj|].
    apply inroot_spec. exact Hsqj.
  - intros j xyj Hj Hsqj. rewrite in_abs in Hj. destruct Hj as [Hj <-].
    rewrite <- nd_dist2. apply H. apply (inv_ids _ _ _ I). split; [exact Hj|].
    apply inroot_spec. exact Hsqj.
Qed.

(* The bucket of the query point holds an item: the query does find one. *)
Lemma leaf_scale g t q gl tl : 0 <= g_scale g -> qleaf g t q = Some (gl, tl) -> 0 <= g_scale gl.
Proof.
  revert g. induction t as [m l'|m c0 IH0 c1 IH1 c2 IH2 c3 IH3]; intros g Hg H;
    cbn [qleaf] in H; destruct (negb _); try discriminate.
  - injection H as <- <-. exact Hg.
  - assert (Hj : forall j, 0 <= g_scale (child g j)) by (intro; apply child_scale; exact Hg).
    destruct (qleaf (child g 0) c0 q) as [[a b]|] eqn:E0; [injection H as -> ->; eauto|].
    destruct (qleaf (child g 1) c1 q) as [[a b]|] eqn:E1; [injection H as -> ->; eauto|].
    destruct (qleaf (child g 2) c2 q) as [[a b]|] eqn:E2; [injection H as -> ->; eauto|].
    destruct (qleaf (child g 3) c3 q) as [[a b]|] eqn:E3; [injection H as -> ->; eauto|].
    injection H as <- <-. exact Hg.
Qed.

End Hist.
