From Coq Require Import Lqa Lia Permutation.
From Verif Require Import Base Chain GeomModel GeomSpec GeomProofs UtilModel BdryModel BdrySpec.
Open Scope Q_scope.

(* ---------------- compute_area ---------------- *)
Lemma tri_sum_esum pos ref es :
  tri_sum pos ref es == esum (fun a b => vcross (vsub (pos a) ref) (vsub (pos b) ref)) (ends es).
Proof.
  unfold tri_sum. rewrite fold_sumQ. unfold ends.
  rewrite Qplus_0_l. induction es as [|e es IH]; cbn [map sumQ esum]; [reflexivity|]. rewrite IH. reflexivity.
Qed.

Lemma esum_cross_shift (pos : nat -> vec2) ref es :
  esum (fun a b => vcross (vsub (pos a) ref) (vsub (pos b) ref)) es ==
  esum (fun a b => vcross (pos a) (pos b)) es - esum (fun a b => vcross ref (pos b) - vcross ref (pos a)) es.
Proof.
  induction es as [|[a b] es IH]; cbn [esum]; [ring|]. rewrite IH.
  unfold vcross, vsub. cbn [vx vy]. ring.
Qed.

(* compute_area is the enclosed area, if the edges are closed *)
Lemma compute_area_enclosed pos l : (3 <= length (el_edges l))%nat ->
  balanced (ends (el_edges l)) -> compute_area pos l == enclosed pos (el_edges l).
Proof.
  intros Hn Hb. unfold compute_area, enclosed.
  destruct (el_edges l) as [|e0 [|e1 [|e2 r]]]; cbn [length] in Hn; try lia.
  rewrite tri_sum_esum.
  assert (H : esum (fun a b => vcross (vsub (pos a) (pos (be_v1 e0))) (vsub (pos b) (pos (be_v1 e0)))) (ends (e0 :: e1 :: e2 :: r))
    == esum (fun a b => vcross (vsub (pos a) (pos (be_v1 e0))) (vsub (pos b) (pos (be_v1 e0)))) (ends (e1 :: e2 :: r))).
  { cbn [ends map esum]. unfold vcross at 1, vsub at 1 2 3 4. cbn [vx vy]. ring. }
  rewrite <- H, esum_cross_shift.
  rewrite (Hb (fun x => vcross (pos (be_v1 e0)) (pos x))). ring.
Qed.

(* ---------------- split_edge ---------------- *)
Lemma find_split k es e : find_edge k es = Some e ->
  exists l1 l2, es = l1 ++ e :: l2 /\ be_id e = k /\ ~ In k (map be_id l1).
Proof.
  unfold find_edge. induction es as [|a es IH]; cbn [find]; [discriminate|].
  destruct (Nat.eqb (be_id a) k) eqn:E.
  - intros H. injection H as <-. exists [], es. apply Nat.eqb_eq in E. cbn. auto.
  - intros H. destruct (IH H) as (l1 & l2 & -> & Hk & Hn). exists (a :: l1), l2.
    apply Nat.eqb_neq in E. cbn. intuition.
Qed.

Lemma insert_before_at k n l1 e l2 : be_id e = k -> ~ In k (map be_id l1) ->
  insert_before k n (l1 ++ e :: l2) = l1 ++ n :: e :: l2.
Proof.
  intros He. induction l1 as [|a l1 IH]; cbn [app insert_before map In]; intros Hn.
  - rewrite (proj2 (Nat.eqb_eq _ _) He). reflexivity.
  - assert (Ha : Nat.eqb (be_id a) k = false) by (apply Nat.eqb_neq; tauto).
    rewrite Ha, IH; [reflexivity|tauto].
Qed.

Lemma remove_edge_none k es : ~ In k (map be_id es) -> remove_edge k es = es.
Proof.
  unfold remove_edge. induction es as [|a es IH]; cbn [filter map In]; intros H; [reflexivity|].
  rewrite (proj2 (Nat.eqb_neq (be_id a) k)) by tauto. cbn [negb]. rewrite IH by tauto. reflexivity.
Qed.
Lemma remove_edge_app k l l' : remove_edge k (l ++ l') = remove_edge k l ++ remove_edge k l'.
Proof. unfold remove_edge. apply filter_app. Qed.

(* [e] was found with addresses pairwise different and the new ones fresh *)
Definition addr_ok (l : elist) (k1 k2 : nat) : Prop :=
  NoDup (map be_id (el_edges l)) /\ ~ In k1 (map be_id (el_edges l)) /\ ~ In k2 (map be_id (el_edges l)) /\ k1 <> k2.

Lemma split_shape vs l k s vn k1 k2 l' vs' : addr_ok l k1 k2 ->
  split_edge vs l k s vn k1 k2 = Some (l', vs') ->
  exists p e q, el_edges l = p ++ e :: q /\ be_id e = k /\ 0 < s /\ s < 1 /\
    el_edges l' = p ++ BE k1 (be_v1 e) vn (be_col e) (be_prop e) :: BE k2 vn (be_v2 e) (be_col e) (be_prop e) :: q /\
    vs' = set_v vs vn (split_vertex vs e s) /\ el_or l' = el_or l.
Proof.
  intros (Hd & H1 & H2 & H12). unfold split_edge.
  destruct (find_edge k (el_edges l)) as [e|] eqn:F; [|discriminate].
  destruct (Qleb 1 s || Qleb s 0) eqn:B; [discriminate|]. qbool.
  intros E. injection E as <- <-.
  destruct (find_split _ _ _ F) as (p & q & Hl & Hk & Hn).
  exists p, e, q. repeat split; auto.
  - rewrite Hl in *. rewrite map_app in Hd, H1, H2. cbn [map] in Hd, H1, H2.
    unfold insert_edge_before, with_area. rewrite Hl.
    cbn [el_or el_edges el_area].
    destruct (has_orient (el_or l)) eqn:O; cbn [el_or el_edges el_area]; rewrite ?O; cbn [el_edges];
    rewrite insert_before_at by assumption;
    (change (p ++ BE k1 (be_v1 e) vn (be_col e) (be_prop e) :: e :: q)
       with (p ++ [BE k1 (be_v1 e) vn (be_col e) (be_prop e)] ++ e :: q);
     rewrite app_assoc, insert_before_at;
     [|assumption|rewrite map_app, in_app_iff; cbn [map In be_id]; intros [C|[C|[]]]; [tauto|];
        apply H1; rewrite C, Hk, in_app_iff; right; left; reflexivity]);
    rewrite <- app_assoc, remove_edge_app, remove_edge_none by assumption; f_equal;
    cbn [app]; unfold remove_edge; cbn [filter be_id];
    rewrite (proj2 (Nat.eqb_neq k1 k)) by (intros ->; apply H1; rewrite in_app_iff; right; left; auto);
    rewrite (proj2 (Nat.eqb_neq k2 k)) by (intros ->; apply H2; rewrite in_app_iff; right; left; auto);
    rewrite (proj2 (Nat.eqb_eq (be_id e) k)) by auto; cbn [negb]; do 2 f_equal;
    apply remove_edge_none; apply NoDup_remove_2 in Hd; rewrite in_app_iff in Hd; rewrite <- Hk; tauto.
  - unfold insert_edge_before, with_area. cbn [el_or]. destruct (has_orient (el_or l)) eqn:O; cbn [el_or]; rewrite ?O; reflexivity.
Qed.

Definition vpos (vs : nat -> vinfo) (v : nat) : vec2 := vi_xy (vs v).
Definition fresh_vertex (l : elist) (vn : nat) : Prop :=
  forall e, In e (el_edges l) -> be_v1 e <> vn /\ be_v2 e <> vn.

Lemma ends_app l l' : ends (l ++ l') = ends l ++ ends l'.
Proof. apply map_app. Qed.

Lemma set_v_other vs vn v x : x <> vn -> set_v vs vn v x = vs x.
Proof. intros H. unfold set_v. rewrite (proj2 (Nat.eqb_neq _ _) H). reflexivity. Qed.
Lemma set_v_same vs vn v : set_v vs vn v vn = v.
Proof. unfold set_v. rewrite Nat.eqb_refl. reflexivity. Qed.

Lemma esum_fresh vs vn v es (w : vec2 -> vec2 -> Q) : (forall e, In e es -> be_v1 e <> vn /\ be_v2 e <> vn) ->
  esum (fun a b => w (vpos (set_v vs vn v) a) (vpos (set_v vs vn v) b)) (ends es) ==
  esum (fun a b => w (vpos vs a) (vpos vs b)) (ends es).
Proof.
  intros H. apply esum_ext. intros a b Hab. unfold ends in Hab. apply in_map_iff in Hab.
  destruct Hab as (e & E & He). injection E as <- <-. destruct (H e He) as [A B].
  unfold vpos. rewrite !set_v_other by assumption. reflexivity.
Qed.

Lemma split_position vs l k s vn k1 k2 l' vs' : addr_ok l k1 k2 ->
  split_edge vs l k s vn k1 k2 = Some (l', vs') ->
  exists e, In e (el_edges l) /\ be_id e = k /\
    veq (vpos vs' vn) (on_seg (vpos vs (be_v1 e)) (vpos vs (be_v2 e)) (1 - s)).
Proof.
  intros A E. destruct (split_shape _ _ _ _ _ _ _ _ _ A E) as (p & e & q & Hl & Hk & H0 & H1 & Hl' & Hv & _).
  exists e. split; [rewrite Hl; apply in_elt|]. split; [exact Hk|].
  rewrite Hv. unfold vpos at 1. rewrite set_v_same. unfold split_vertex, on_seg, veq, vpos, vadd, vscale. cbn.
  split; ring.
Qed.

Lemma split_enclosed vs l k s vn k1 k2 l' vs' : addr_ok l k1 k2 -> fresh_vertex l vn ->
  split_edge vs l k s vn k1 k2 = Some (l', vs') ->
  enclosed (vpos vs') (el_edges l') == enclosed (vpos vs) (el_edges l).
Proof.
  intros A Hf E. destruct (split_shape _ _ _ _ _ _ _ _ _ A E) as (p & e & q & Hl & Hk & H0 & H1 & Hl' & Hv & _).
  unfold enclosed. rewrite Hl', Hl, Hv. unfold fresh_vertex in Hf. rewrite Hl in Hf.
  rewrite !ends_app, !esum_app. cbn [ends map esum be_v1 be_v2]. fold (ends q).
  rewrite (esum_fresh vs vn _ p vcross) by (intros; apply Hf; rewrite in_app_iff; auto).
  rewrite (esum_fresh vs vn _ q vcross) by (intros; apply Hf; rewrite in_app_iff; cbn; auto).
  destruct (Hf e) as [F1 F2]; [apply in_elt|].
  set (V := set_v vs vn (split_vertex vs e s)).
  assert (Q0 : vpos V vn = vi_xy (split_vertex vs e s)) by (unfold vpos, V; rewrite set_v_same; reflexivity).
  assert (Q1 : vpos V (be_v1 e) = vpos vs (be_v1 e)) by (unfold vpos, V; rewrite set_v_other by assumption; reflexivity).
  assert (Q2 : vpos V (be_v2 e) = vpos vs (be_v2 e)) by (unfold vpos, V; rewrite set_v_other by assumption; reflexivity).
  rewrite Q0, Q1, Q2. unfold split_vertex. cbn [vi_xy].
  set (X := esum _ (ends p)). set (Y := esum _ (ends q)). clearbody X Y. clear.
  unfold vpos, vcross, vadd, vscale. cbn [vx vy]. ring.
Qed.

Lemma split_balanced vs l k s vn k1 k2 l' vs' : addr_ok l k1 k2 ->
  split_edge vs l k s vn k1 k2 = Some (l', vs') ->
  balanced (ends (el_edges l)) -> balanced (ends (el_edges l')).
Proof.
  intros A E. destruct (split_shape _ _ _ _ _ _ _ _ _ A E) as (p & e & q & Hl & Hk & H0 & H1 & Hl' & Hv & _).
  intros B f. specialize (B f). rewrite Hl', Hl in *. rewrite ends_app, esum_app in *.
  cbn [ends map esum be_v1 be_v2] in *. rewrite <- B. ring.
Qed.

Lemma chained_app_cons l e r : chained (l ++ e :: r) <->
  chained (l ++ [e]) /\ chained (e :: r).
Proof.
  induction l as [|a l IH]; cbn [app]; [cbn; tauto|].
  destruct l as [|b l]; cbn [app] in *.
  - cbn [chained]. tauto.
  - cbn [chained] in *. tauto.
Qed.
Lemma chained_last l e : chained (l ++ [e]) <-> chained l /\
  (forall l0 a, l = l0 ++ [a] -> be_v2 a = be_v1 e).
Proof.
  induction l as [|a l IH]; cbn [app].
  - cbn. split; [|tauto]. intros _. split; [exact I|]. intros [|? ?] ? H; discriminate.
  - destruct l as [|b l]; cbn [app] in *.
    + cbn. split.
      * intros [H _]. split; [exact I|]. intros l0 x Hx. destruct l0 as [|? [|? ?]]; try discriminate.
        injection Hx as <-. exact H.
      * intros [_ H]. split; [|exact I]. apply (H []). reflexivity.
    + cbn [chained] in *. rewrite IH. split.
      * intros [H1 [H2 H3]]. split; [tauto|]. intros l0 x Hx. destruct l0 as [|c l0]; [discriminate|].
        cbn [app] in Hx. injection Hx as _ Hx. apply (H3 l0). exact Hx.
      * intros [[H1 H2] H3]. repeat split; auto. intros l0 x Hx. apply (H3 (a :: l0)). cbn. rewrite Hx. reflexivity.
Qed.

Lemma split_chained vs l k s vn k1 k2 l' vs' : addr_ok l k1 k2 ->
  split_edge vs l k s vn k1 k2 = Some (l', vs') -> chained (el_edges l) -> chained (el_edges l').
Proof.
  intros A E. destruct (split_shape _ _ _ _ _ _ _ _ _ A E) as (p & e & q & Hl & Hk & H0 & H1 & Hl' & Hv & _).
  rewrite Hl', Hl. intros C. apply chained_app_cons in C. destruct C as [C1 C2].
  apply chained_app_cons. split.
  - rewrite chained_last in *. exact C1.
  - cbn [chained]. split; [reflexivity|]. destruct q; cbn [chained] in *; [exact I|]. cbn [be_v2]. exact C2.
Qed.

(* area_ as left behind: the old edge is still in the list when it is computed *)
Lemma split_stored_area vs l k s vn k1 k2 l' vs' : addr_ok l k1 k2 -> fresh_vertex l vn ->
  has_orient (el_or l) = true -> balanced (ends (el_edges l)) ->
  split_edge vs l k s vn k1 k2 = Some (l', vs') ->
  exists e0 e r, el_edges l = e0 :: r /\ In e (e0 :: r) /\ be_id e = k /\
    el_area l' == enclosed (vpos vs) (el_edges l) +
      (1 # 2) * det (vpos vs (be_v1 e0)) (vpos vs (be_v1 e)) (vpos vs (be_v2 e)).
Proof.
  intros A Hf Ho Hb E. pose proof E as E'.
  destruct (split_shape _ _ _ _ _ _ _ _ _ A E') as (p & e & q & Hl & Hk & H0 & H1 & Hl' & Hv & _).
  destruct A as (Hd & HA1 & HA2 & HA12).
  assert (X : exists e0 r, el_edges l = e0 :: r) by (rewrite Hl; destruct p; cbn; eauto).
  destruct X as (e0 & r & Hr). exists e0, e, r. split; [exact Hr|].
  assert (He : In e (el_edges l)) by (rewrite Hl; apply in_elt).
  split; [rewrite <- Hr; exact He|]. split; [exact Hk|].
  unfold split_edge in E. destruct (find_edge k (el_edges l)) as [e'|] eqn:F; [|discriminate].
  assert (e' = e).
  { destruct (find_split _ _ _ F) as (p' & q' & Hl2 & Hk' & Hn').
    rewrite Hl in Hl2. clear - Hl2 Hk Hk' Hd Hl Hn'. rewrite Hl in Hd.
    assert (G : forall x y, In x (p ++ e :: q) -> In y (p ++ e :: q) -> be_id x = be_id y -> x = y).
    { clear - Hd. induction (p ++ e :: q) as [|a m IH]; [intros x y []|]. cbn in Hd. inversion Hd; subst.
      intros x y [->|Hx] [->|Hy] Hxy; auto.
      - exfalso. apply H1. rewrite Hxy. apply in_map. exact Hy.
      - exfalso. apply H1. rewrite <- Hxy. apply in_map. exact Hx. }
    apply G; [rewrite Hl2; apply in_elt|apply in_elt|congruence]. }
  subst e'. destruct (Qleb 1 s || Qleb s 0); [discriminate|]. injection E as E1 E2. subst l'. cbn [el_area].
  unfold insert_edge_before at 1. unfold with_area at 1. cbn [el_or].
  assert (O1 : el_or (insert_edge_before (fun v => vi_xy (set_v vs vn (split_vertex vs e s) v)) k
            (BE k1 (be_v1 e) vn (be_col e) (be_prop e)) l) = el_or l)
   by (unfold insert_edge_before, with_area; cbn [el_or]; rewrite Ho; reflexivity).
  rewrite O1, Ho. cbn [el_area].
  assert (L1 : el_edges (insert_edge_before (fun v => vi_xy (set_v vs vn (split_vertex vs e s) v)) k
            (BE k1 (be_v1 e) vn (be_col e) (be_prop e)) l) = p ++ BE k1 (be_v1 e) vn (be_col e) (be_prop e) :: e :: q).
  { unfold insert_edge_before, with_area. cbn [el_or]. rewrite Ho. cbn [el_edges]. rewrite Hl.
    apply insert_before_at; [exact Hk|].
    rewrite Hl, map_app in Hd. apply NoDup_remove_2 in Hd. rewrite in_app_iff in Hd. rewrite <- Hk. tauto. }
  rewrite L1.
  change (p ++ BE k1 (be_v1 e) vn (be_col e) (be_prop e) :: e :: q)
       with (p ++ [BE k1 (be_v1 e) vn (be_col e) (be_prop e)] ++ e :: q).
  rewrite app_assoc, insert_before_at; [|exact Hk|].
  2:{ rewrite map_app, in_app_iff. cbn [map In be_id]. rewrite Hl, map_app in Hd, HA1. 
      apply NoDup_remove_2 in Hd. rewrite in_app_iff in Hd, HA1. cbn [map In] in HA1.
      rewrite <- Hk. intros [C|[C|[]]]; [tauto|]. apply HA1. right. left. symmetry. exact C. }
  rewrite <- app_assoc. cbn [app]. set (e1 := BE k1 (be_v1 e) vn (be_col e) (be_prop e)).
  set (e2 := BE k2 vn (be_v2 e) (be_col e) (be_prop e)).
  set (P := fun v => vi_xy (set_v vs vn (split_vertex vs e s) v)).
  set (ref := P (be_v1 e0)).
  assert (HC : compute_area P (EL (el_or l) (p ++ e1 :: e2 :: e :: q) (el_area (insert_edge_before P k e1 l))) ==
     (1 # 2) * esum (fun a b => vcross (vsub (P a) ref) (vsub (P b) ref)) (ends (p ++ e1 :: e2 :: e :: q))).
  { unfold compute_area. cbn [el_edges].
    assert (Hfirst : forall b m, be_v1 b = be_v1 e0 -> esum (fun a b0 => vcross (vsub (P a) ref) (vsub (P b0) ref)) (ends m) ==
         esum (fun a b0 => vcross (vsub (P a) ref) (vsub (P b0) ref)) (ends (b :: m))).
    { intros b m Hbm. cbn [ends map esum]. rewrite Hbm. fold ref.
      assert (Z : forall x, vcross (vsub ref ref) x == 0) by (intros x; unfold vcross, vsub; cbn [vx vy]; ring).
      rewrite Z, Qplus_0_l. reflexivity. }
    destruct p as [|b p]; cbn [app] in *.
    - assert (Hee : e = e0) by (rewrite Hl in Hr; congruence).
      change (P (be_v1 e1)) with (P (be_v1 e)). rewrite Hee at 1. fold ref. rewrite tri_sum_esum.
      rewrite (Hfirst e1); [reflexivity|]. cbn. rewrite Hee. reflexivity.
    - assert (Hbe : b = e0) by (rewrite Hl in Hr; congruence).
      assert (Hlen : exists x y z, p ++ e1 :: e2 :: e :: q = x :: y :: z)
        by (destruct p as [|x [|y z]]; cbn; eauto).
      destruct Hlen as (x & y & z & Hz). rewrite Hz. rewrite <- Hz, Hbe. fold ref.
      rewrite tri_sum_esum. rewrite (Hfirst e0); reflexivity. }
  rewrite HC, ends_app, esum_app. cbn [ends map esum]. fold (ends q).
  destruct (Hf e He) as [F1 F2].
  assert (Pv : forall v, v <> vn -> P v = vpos vs v) by (intros v Hvn; unfold P; rewrite set_v_other by exact Hvn; reflexivity).
  assert (R : ref = vpos vs (be_v1 e0)).
  { unfold ref. apply Pv. apply (Hf e0). rewrite Hr. left. reflexivity. }
  set (W := fun a b => vcross (vsub a (vpos vs (be_v1 e0))) (vsub b (vpos vs (be_v1 e0)))).
  rewrite R. change (fun a b => vcross (vsub (P a) (vpos vs (be_v1 e0))) (vsub (P b) (vpos vs (be_v1 e0))))
     with (fun a b => W (vpos (set_v vs vn (split_vertex vs e s)) a) (vpos (set_v vs vn (split_vertex vs e s)) b)).
  rewrite (esum_fresh vs vn _ p W) by (intros; apply Hf; rewrite Hl, in_app_iff; auto).
  rewrite (esum_fresh vs vn _ q W) by (intros; apply Hf; rewrite Hl, in_app_iff; cbn; auto).
  assert (EN : enclosed (vpos vs) (el_edges l) == (1 # 2) * esum (fun a b => W (vpos vs a) (vpos vs b)) (ends (el_edges l))).
  { unfold enclosed, W. rewrite esum_cross_shift. rewrite (Hb (fun x => vcross (vpos vs (be_v1 e0)) (vpos vs x))). ring. }
  rewrite EN, Hl, ends_app, esum_app. cbn [ends map esum]. fold (ends q).
  unfold e1, e2. cbn [be_v1 be_v2]. rewrite !(Pv (be_v1 e)), !(Pv (be_v2 e)) by assumption.
  unfold P. rewrite set_v_same. unfold split_vertex. cbn [vi_xy].
  set (X := esum _ (ends p)). set (Y := esum _ (ends q)). clearbody X Y. clear. unfold W.
  unfold det, vcross, vpos, vadd, vscale, vsub. cbn [vx vy]. ring.
Qed.

(* ---------------- sequences of splits ---------------- *)
Definition ss_ok (st : sstate) : Prop :=
  NoDup (map be_id (el_edges (ss_list st))) /\
  Forall (fun e => be_id e < ss_ne st /\ be_v1 e < ss_nv st /\ be_v2 e < ss_nv st)%nat (el_edges (ss_list st)).

Lemma ss_ok_addr st : ss_ok st -> addr_ok (ss_list st) (ss_ne st) (ss_ne st + 1) /\ fresh_vertex (ss_list st) (ss_nv st).
Proof.
  intros [Hd Hf]. rewrite Forall_forall in Hf. repeat split.
  - exact Hd.
  - intros C. apply in_map_iff in C. destruct C as (e & E & He). specialize (Hf e He). lia.
  - intros C. apply in_map_iff in C. destruct C as (e & E & He). specialize (Hf e He). lia.
  - lia.
  - specialize (Hf e H). lia.
  - specialize (Hf e H). lia.
Qed.

Lemma split_step_ok st op : ss_ok st -> ss_ok (split_step st op).
Proof.
  intros H. destruct (ss_ok_addr st H) as [A Hv]. unfold split_step.
  destruct (split_edge _ _ _ _ _ _ _) as [[l vs]|] eqn:E; [|exact H].
  destruct (split_shape _ _ _ _ _ _ _ _ _ A E) as (p & e & q & Hl & Hk & H0 & H1 & Hl' & _).
  destruct H as [Hd Hf]. destruct A as (_ & A1 & A2 & A3).
  rewrite Hl in Hd, Hf, A1, A2. rewrite map_app in Hd, A1, A2. cbn [map] in Hd, A1, A2.
  split; cbn [ss_list ss_ne ss_nv]; rewrite Hl'.
  - rewrite map_app. cbn [map be_id]. pose proof (NoDup_remove_1 _ _ _ Hd) as Hd1.
    rewrite in_app_iff in A1, A2. cbn [In] in A1, A2.
    apply Permutation_NoDup with (l := ss_ne st :: (ss_ne st + 1)%nat :: map be_id p ++ map be_id q).
    + transitivity (ss_ne st :: (map be_id p ++ (ss_ne st + 1)%nat :: map be_id q)).
      * apply perm_skip. apply Permutation_middle.
      * apply Permutation_middle.
    + constructor; [|constructor; [|exact Hd1]]; cbn [In]; rewrite in_app_iff; tauto || (intros [C|[C|C]]; [lia|tauto|tauto]).
  - apply Forall_app in Hf. destruct Hf as [F1 F2]. inversion F2 as [|? ? [Fe [Fa Fb]] F3]; subst.
    apply Forall_app. split; [|constructor; [|constructor]].
    + eapply Forall_impl; [|exact F1]. cbn. intros; lia.
    + cbn. lia.
    + cbn. lia.
    + eapply Forall_impl; [|exact F3]. cbn. intros; lia.
Qed.

Lemma split_run_inv ops : forall st, ss_ok st ->
  let st' := split_run st ops in
  ss_ok st' /\
  enclosed (vpos (ss_vs st')) (el_edges (ss_list st')) == enclosed (vpos (ss_vs st)) (el_edges (ss_list st)) /\
  (balanced (ends (el_edges (ss_list st))) -> balanced (ends (el_edges (ss_list st')))) /\
  (chained (el_edges (ss_list st)) -> chained (el_edges (ss_list st'))) /\
  (length (el_edges (ss_list st)) <= length (el_edges (ss_list st')))%nat.
Proof.
  induction ops as [|op ops IH]; intros st H; cbn [split_run fold_left].
  - cbv zeta. repeat split; auto; try apply H.
  - pose proof (split_step_ok st op H) as H'. destruct (IH _ H') as (I1 & I2 & I3 & I4 & I5).
    fold (split_run (split_step st op) ops) in *. cbv zeta in *.
    assert (S : enclosed (vpos (ss_vs (split_step st op))) (el_edges (ss_list (split_step st op))) ==
                enclosed (vpos (ss_vs st)) (el_edges (ss_list st)) /\
      (balanced (ends (el_edges (ss_list st))) -> balanced (ends (el_edges (ss_list (split_step st op))))) /\
      (chained (el_edges (ss_list st)) -> chained (el_edges (ss_list (split_step st op)))) /\
      (length (el_edges (ss_list st)) <= length (el_edges (ss_list (split_step st op))))%nat).
    { destruct (ss_ok_addr st H) as [A Hv]. unfold split_step.
      destruct (split_edge _ _ _ _ _ _ _) as [[l vs]|] eqn:E; cbn [ss_list ss_vs].
      - split; [exact (split_enclosed _ _ _ _ _ _ _ _ _ A Hv E)|].
        split; [exact (split_balanced _ _ _ _ _ _ _ _ _ A E)|].
        split; [exact (split_chained _ _ _ _ _ _ _ _ _ A E)|].
        destruct (split_shape _ _ _ _ _ _ _ _ _ A E) as (p & e & q & Hl & Hk & H0 & H1 & Hl' & _).
        rewrite Hl, Hl', !app_length. cbn [length]. lia.
      - repeat split; auto. }
    destruct S as (S1 & S2 & S3 & S4).
    split; [exact I1|]. split; [rewrite I2; exact S1|]. split; [auto|]. split; [auto|]. lia.
Qed.

(* ---------------- create_boundary_shape ---------------- *)
Lemma shape_vertices_ok nearest : forall shape props store store' verts,
  shape_vertices nearest store shape props = Ok (store', verts) ->
  (exists ext, store' = store ++ ext) /\
  Forall2 (fun v xy => exists x, nth_error store' v = Some x /\ veq (vi_xy x) xy) verts shape.
Proof.
  induction shape as [|xy shape IH]; intros props store store' verts; cbn [shape_vertices].
  - intros E. injection E as <- <-. split; [exists []; rewrite app_nil_r; reflexivity|constructor].
  - destruct props as [|[sz rg] props]; [discriminate|]. destruct (nearest store xy) as [o| |]; cbn [obind]; try discriminate.
    assert (C : (exists i x, match o with Some i => match nth_error store i with Some v => if veqb (vi_xy v) xy then Some i else None | None => None end | None => None end = Some i /\ nth_error store i = Some x /\ veq (vi_xy x) xy) \/
       match o with Some i => match nth_error store i with Some v => if veqb (vi_xy v) xy then Some i else None | None => None end | None => None end = None).
    { destruct o as [i|]; [|auto]. destruct (nth_error store i) as [v|] eqn:N; [|auto].
      destruct (veqb (vi_xy v) xy) eqn:B; [|auto]. left. exists i, v. rewrite <- veqb_true. auto. }
    destruct C as [(i & x & -> & Hx & Hxy)| -> ].
    + destruct (shape_vertices nearest store shape props) as [[st vv]| |] eqn:R; cbn [obind fst snd]; try discriminate.
      intros E. injection E as <- <-. destruct (IH _ _ _ _ R) as [[ext ->] F]. split; [eauto|].
      constructor; [|exact F]. exists x. rewrite nth_error_app1 by (apply nth_error_Some; congruence). auto.
    + destruct (shape_vertices nearest (store ++ [VI xy sz rg 0%N]) shape props) as [[st vv]| |] eqn:R; cbn [obind fst snd]; try discriminate.
      intros E. injection E as <- <-. destruct (IH _ _ _ _ R) as [[ext ->] F].
      split; [exists ([VI xy sz rg 0%N] ++ ext); rewrite app_assoc; reflexivity|].
      constructor; [|exact F]. exists (VI xy sz rg 0%N). split.
      * rewrite <- app_assoc. rewrite nth_error_app2, Nat.sub_diag by lia. reflexivity.
      * split; reflexivity.
Qed.

Lemma ofold_ok {A B} (f : A -> outcome B) idx r :
  fold_right (fun i acc => obind (f i) (fun e => obind acc (fun r => Ok (e :: r)))) (Ok []) idx = Ok r ->
  Forall2 (fun i e => f i = Ok e) idx r.
Proof.
  revert r. induction idx as [|i idx IH]; intros r; cbn [fold_right].
  - intros E. injection E as <-. constructor.
  - destruct (f i) as [e| |] eqn:F; cbn [obind]; try discriminate.
    destruct (fold_right _ _ idx) as [r'| |]; cbn [obind]; try discriminate.
    intros E. injection E as <-. constructor; auto.
Qed.

Lemma Forall2_impl' {A B} (P Q : A -> B -> Prop) l r : (forall a b, P a b -> Q a b) -> Forall2 P l r -> Forall2 Q l r.
Proof. intros H. induction 1; constructor; auto. Qed.

Lemma Forall2_len {A B} (P : A -> B -> Prop) l r : Forall2 P l r -> length l = length r.
Proof. induction 1; cbn; congruence. Qed.

Lemma Forall2_nth' {A B} (P : A -> B -> Prop) l r : Forall2 P l r ->
  forall j d d', (j < length r)%nat -> P (nth j l d) (nth j r d').
Proof.
  induction 1 as [|a b l r H _ IH]; intros j d d' Hj; cbn in Hj; [lia|].
  destruct j; cbn; [exact H|]. apply IH. lia.
Qed.

Lemma Forall2_map_eq {A B} (g : A -> B) l r : Forall2 (fun a b => b = g a) l r -> r = map g l.
Proof. induction 1; cbn; congruence. Qed.

Lemma shape_edges_ok fwd verts colors es : shape_edges fwd verts colors = Ok es ->
  map fst es = (if fwd then ring_edges verts else reverse_edges (ring_edges verts)) /\
  (if fwd then forall i, (i < length verts)%nat -> nth_error colors i = Some (snd (nth i es (0%nat, 0%nat, 0%Z)))
   else forall i, (i < length verts)%nat ->
      nth_error colors (mod_succ i (length verts)) =
      Some (snd (nth (length verts - 1 - i) es (0%nat, 0%nat, 0%Z)))).
Proof.
  unfold shape_edges. intros E. apply ofold_ok in E. set (N := length verts) in *.
  assert (S : Forall2 (fun i e => fst e = (if fwd then (nth i verts 0%nat, nth (mod_succ i N) verts 0%nat)
                                   else (nth (mod_succ i N) verts 0%nat, nth i verts 0%nat)) /\
       nth_error colors (if fwd then i else mod_succ i N) = Some (snd e)) (if fwd then seq 0 N else rev (seq 0 N)) es).
  { eapply Forall2_impl'; [|exact E]. clear. intros i e. cbv beta zeta.
    destruct (nth_error verts i) as [a|] eqn:A; [|discriminate].
    destruct (nth_error verts (mod_succ i N)) as [b|] eqn:B; [|discriminate].
    apply nth_error_nth with (d := 0%nat) in A, B. destruct fwd.
    - destruct (nth_error colors i) as [c|] eqn:C; [|discriminate]. intros H. injection H as <-. cbn. rewrite A, B. auto.
    - destruct (nth_error colors (mod_succ i N)) as [c|] eqn:C; [|discriminate]. intros H. injection H as <-. cbn. rewrite A, B. auto. }
  clear E. split.
  - assert (M : map fst es = map (fun i => if fwd then (nth i verts 0%nat, nth (mod_succ i N) verts 0%nat)
                                   else (nth (mod_succ i N) verts 0%nat, nth i verts 0%nat)) (if fwd then seq 0 N else rev (seq 0 N))).
    { clear - S. induction S as [|i e l r [H _] _ IH]; cbn; [reflexivity|]. rewrite IH, H. reflexivity. }
    rewrite M. destruct fwd.
    + apply (ring_edges_indexed 0%nat verts).
    + unfold reverse_edges. rewrite <- (ring_edges_indexed 0%nat verts), map_map, <- map_rev. reflexivity.
  - assert (L : length es = N).
    { rewrite <- (Forall2_len _ _ _ S). destruct fwd; rewrite ?rev_length; apply seq_length. }
    assert (G : forall j, (j < N)%nat -> nth_error colors (if fwd then nth j (if fwd then seq 0 N else rev (seq 0 N)) 0%nat else mod_succ (nth j (if fwd then seq 0 N else rev (seq 0 N)) 0%nat) N)
        = Some (snd (nth j es (0%nat, 0%nat, 0%Z)))).
    { intros j Hj. rewrite <- L in Hj. exact (proj2 (Forall2_nth' _ _ _ S j 0%nat (0%nat, 0%nat, 0%Z) Hj)). }
    destruct fwd; intros i Hi.
    + rewrite <- G by exact Hi. rewrite seq_nth by exact Hi. reflexivity.
    + rewrite <- G by lia. rewrite rev_nth by (rewrite seq_length; lia). rewrite seq_length, seq_nth by lia.
      do 2 f_equal. lia.
Qed.

Lemma compute_area_edges pos o es a a' : (3 <= length es)%nat ->
  compute_area pos (EL o es a) = compute_area pos (EL o es a').
Proof. intros H. unfold compute_area. cbn [el_edges]. destruct es as [|? [|? [|? ?]]]; cbn in H; try lia; reflexivity. Qed.

Lemma push_all pos es : forall l, has_orient (el_or l) = true ->
  let l' := fold_left (fun l e => match e with (a, b, c) =>
          push_edge pos (BE (length (el_edges l)) a b c e_on_boundary) l end) es l in
  el_or l' = el_or l /\
  map payload (el_edges l') = map payload (el_edges l) ++ map (fun e => (fst (fst e), snd (fst e), snd e, e_on_boundary)) es /\
  (es <> [] -> (3 <= length (el_edges l'))%nat -> el_area l' = compute_area pos l').
Proof.
  induction es as [|[[a b] c] es IH]; intros l Ho; cbn [fold_left].
  - cbv zeta. rewrite app_nil_r. repeat split; congruence.
  - set (l1 := push_edge pos (BE (length (el_edges l)) a b c e_on_boundary) l).
    assert (L1 : l1 = EL (el_or l) (el_edges l ++ [BE (length (el_edges l)) a b c e_on_boundary])
        (compute_area pos (EL (el_or l) (el_edges l ++ [BE (length (el_edges l)) a b c e_on_boundary]) (el_area l))))
      by (unfold l1, push_edge, with_area; cbn [el_or]; rewrite Ho; reflexivity).
    destruct (IH l1) as (I1 & I2 & I3); [rewrite L1; exact Ho|]. cbv zeta in *.
    split; [rewrite I1, L1; reflexivity|]. split.
    + rewrite I2, L1. cbn [el_edges]. rewrite map_app, <- app_assoc. reflexivity.
    + intros _ Hn. destruct es as [|e es]; [|apply I3; [discriminate|exact Hn]].
      cbn [fold_left] in *. rewrite L1 in *. cbn [el_area el_edges] in *.
      apply compute_area_edges. exact Hn.
Qed.

Lemma path_edges_Forall2 {A B} (R : A -> B -> Prop) a a' l l' : R a a' -> Forall2 R l l' ->
  Forall2 (fun e f => R (fst e) (fst f) /\ R (snd e) (snd f)) (path_edges a l) (path_edges a' l').
Proof.
  intros Ha H. revert a a' Ha. induction H as [|b b' l l' Hb _ IH]; intros a a' Ha; cbn [path_edges]; constructor; auto.
Qed.
Lemma ring_edges_Forall2 {A B} (R : A -> B -> Prop) l l' : Forall2 R l l' ->
  Forall2 (fun e f => R (fst e) (fst f) /\ R (snd e) (snd f)) (ring_edges l) (ring_edges l').
Proof.
  intros H. destruct H as [|b b' l l' Hb H]; cbn [ring_edges]; [constructor|].
  apply path_edges_Forall2; [exact Hb|]. apply Forall2_app; auto.
Qed.
Lemma Forall2_rev' {A B} (R : A -> B -> Prop) l l' : Forall2 R l l' -> Forall2 R (rev l) (rev l').
Proof. induction 1; cbn; [constructor|]. apply Forall2_app; auto. Qed.
Lemma reverse_Forall2 {A B} (R : A -> B -> Prop) l l' :
  Forall2 (fun e f => R (fst e) (fst f) /\ R (snd e) (snd f)) l l' ->
  Forall2 (fun e f => R (fst e) (fst f) /\ R (snd e) (snd f)) (reverse_edges l) (reverse_edges l').
Proof.
  intros H. unfold reverse_edges. apply Forall2_rev'. induction H as [|e f l l' [H1 H2] _ IH]; cbn [map]; constructor; auto.
Qed.

Lemma esum_reverse {V} (w : V -> V -> Q) l : antisym w -> esum w (reverse_edges l) == - esum w l.
Proof.
  intros H. unfold reverse_edges. rewrite (esum_perm w _ (map swap_edge l)); [apply esum_swap; exact H|].
  apply Permutation_sym, Permutation_rev.
Qed.
Lemma balanced_reverse {V} (l : list (V * V)) : balanced l -> balanced (reverse_edges l).
Proof.
  intros H. unfold reverse_edges. eapply balanced_perm; [apply Permutation_rev|]. apply balanced_swap. exact H.
Qed.

Definition chain_pairs (es : list (nat * nat)) : Prop :=
  forall i e f, nth_error es i = Some e -> nth_error es (S i) = Some f -> snd e = fst f.
Lemma path_chain a l : chain_pairs (path_edges a l) /\ (forall e, nth_error (path_edges a l) 0 = Some e -> fst e = a).
Proof.
  revert a. induction l as [|b l IH]; intros a; cbn [path_edges].
  - split; [intros [|i] e f H; discriminate|intros e H; discriminate].
  - destruct (IH b) as [I1 I2]. split.
    + intros [|i] e f He Hf; cbn [nth_error] in *.
      * injection He as <-. cbn. symmetry. apply I2. exact Hf.
      * apply (I1 i); assumption.
    + intros e H. cbn in H. injection H as <-. reflexivity.
Qed.
Lemma ring_chain l : chain_pairs (ring_edges l).
Proof. destruct l; [intros [|i] e f H; discriminate|]. apply path_chain. Qed.
Lemma reverse_chain es : chain_pairs es -> chain_pairs (reverse_edges es).
Proof.
  intros H i e f He Hf. unfold reverse_edges in *.
  assert (Li : (S i < length es)%nat).
  { assert (S i < length (rev (map swap_edge es)))%nat by (apply nth_error_Some; congruence).
    rewrite rev_length, map_length in H0. exact H0. }
  assert (G : forall j, (j < length es)%nat -> nth_error (rev (map swap_edge es)) j = option_map swap_edge (nth_error es (length es - 1 - j))).
  { intros j Hj. rewrite <- nth_error_map.
    assert (Hl : length (map swap_edge es) = length es) by apply map_length.
    destruct (nth_error (map swap_edge es) (length es - 1 - j)) as [x|] eqn:X.
    - apply nth_error_nth with (d := x) in X. 
      rewrite (nth_error_nth' (rev (map swap_edge es)) x) by (rewrite rev_length, Hl; exact Hj).
      rewrite rev_nth by (rewrite Hl; exact Hj). rewrite Hl. rewrite <- X at 2. f_equal. f_equal. lia.
    - exfalso. apply nth_error_None in X. rewrite Hl in X. lia. }
  rewrite G in He by lia. rewrite G in Hf by lia.
  destruct (nth_error es (length es - 1 - i)) as [e'|] eqn:E1; [|discriminate].
  destruct (nth_error es (length es - 1 - S i)) as [f'|] eqn:E2; [|discriminate].
  injection He as <-. injection Hf as <-. cbn. symmetry. apply (H (length es - 1 - S i)%nat); [exact E2|].
  rewrite <- E1. f_equal. lia.
Qed.
Lemma chained_of_pairs es : chain_pairs (ends es) -> chained es.
Proof.
  induction es as [|e es IH]; intros H; [exact I|]. destruct es as [|f es]; [exact I|].
  split; [exact (H 0%nat _ _ eq_refl eq_refl)|]. apply IH. intros i x y Hx Hy. exact (H (S i) x y Hx Hy).
Qed.

Lemma path_w_veq (l l' : list vec2) a a' : veq a a' -> Forall2 veq l l' -> path_w vcross a l == path_w vcross a' l'.
Proof.
  intros Ha H. revert a a' Ha. induction H as [|b b' l l' Hb _ IH]; intros a a' Ha; cbn [path_w]; [reflexivity|].
  rewrite (IH b b' Hb). destruct Ha as [H1 H2], Hb as [H3 H4]. unfold vcross. rewrite H1, H2, H3, H4. reflexivity.
Qed.
Lemma loop_w_veq (l l' : list vec2) : Forall2 veq l l' -> loop_w vcross l == loop_w vcross l'.
Proof.
  intros H. destruct H as [|b b' l l' Hb H]; cbn [loop_w]; [reflexivity|].
  apply path_w_veq; [exact Hb|]. apply Forall2_app; auto.
Qed.

Definition store_pos (store : list vinfo) (v : nat) : vec2 :=
  match nth_error store v with Some x => vi_xy x | None => V2 0 0 end.

Lemma create_ok nearest bt store shape props colors store' l :
  create_boundary_shape nearest bt store shape props colors = Ok (store', l) ->
  let fwd := is_forward bt (Qltb 0 (polygon_area shape)) in
  let pos := store_pos store' in
  (exists ext, store' = store ++ ext) /\
  length (el_edges l) = length shape /\
  same_points (map (fun e => (pos (be_v1 e), pos (be_v2 e))) (el_edges l))
     (if fwd then ring_edges shape else reverse_edges (ring_edges shape)) /\
  chained (el_edges l) /\ balanced (ends (el_edges l)) /\
  enclosed pos (el_edges l) == (if fwd then polygon_area shape else - polygon_area shape) /\
  Forall (fun e => be_prop e = e_on_boundary) (el_edges l) /\
  ((3 <= length shape)%nat -> el_area l == enclosed pos (el_edges l)) /\
  (forall i, (i < length shape)%nat ->
     nth_error colors (if fwd then i else mod_succ i (length shape)) =
     option_map be_col (nth_error (el_edges l) (if fwd then i else length shape - 1 - i)%nat)).
Proof.
  unfold create_boundary_shape. intros E. cbv zeta.
  set (fwd := is_forward bt (Qltb 0 (polygon_area shape))) in *.
  destruct (shape_vertices nearest store shape props) as [[st verts]| |] eqn:V; cbn [obind fst snd] in E; try discriminate.
  destruct (shape_edges fwd verts colors) as [es| |] eqn:S; cbn [obind] in E; try discriminate.
  injection E as E1 E2. subst st.
  destruct (shape_vertices_ok _ _ _ _ _ _ V) as [Hext HF].
  destruct (shape_edges_ok _ _ _ _ S) as [Hes Hcol].
  fold (store_pos store') in E2. change (fun v => match nth_error store' v with Some x => vi_xy x | None => V2 0 0 end) with (store_pos store') in E2.
  set (pos := store_pos store') in *.
  destruct (push_all pos es (EL (bdry_orient bt) [] 0)) as (P1 & P2 & P3); [destruct bt; reflexivity|].
  rewrite E2 in P1, P2, P3. cbn [el_edges map app] in P2.
  assert (Hlen : length verts = length shape) by exact (Forall2_len _ _ _ HF).
  assert (Hends : ends (el_edges l) = map fst es).
  { assert (X : map (fun x => (fst (fst (fst x)), snd (fst (fst x)))) (map payload (el_edges l)) =
       map (fun x => (fst (fst (fst x)), snd (fst (fst x)))) (map (fun e => (fst (fst e), snd (fst e), snd e, e_on_boundary)) es))
      by (rewrite P2; reflexivity).
    rewrite !map_map in X. unfold ends, payload in *. cbn in X. rewrite X. apply map_ext. intros [[a b] c]. reflexivity. }
  assert (Hnum : length (el_edges l) = length shape).
  { rewrite <- Hlen, <- (map_length (fun e => (be_v1 e, be_v2 e))). fold (ends (el_edges l)). rewrite Hends, Hes.
    destruct fwd; [apply ring_edges_length|]. unfold reverse_edges. rewrite rev_length, map_length. apply ring_edges_length. }
  assert (Hpos : Forall2 (fun v xy => veq (pos v) xy) verts shape).
  { eapply Forall2_impl'; [|exact HF]. intros v xy (x & Hx & Hxy). unfold pos, store_pos. rewrite Hx. exact Hxy. }
  assert (Hbal : balanced (ends (el_edges l))).
  { rewrite Hends, Hes. destruct fwd; [apply ring_balanced|apply balanced_reverse, ring_balanced]. }
  split; [exact Hext|]. split; [exact Hnum|]. split.
  { unfold same_points.
    assert (X : map (fun e => (pos (be_v1 e), pos (be_v2 e))) (el_edges l) = map (fun e => (pos (fst e), pos (snd e))) (ends (el_edges l)))
      by (unfold ends; rewrite map_map; reflexivity).
    rewrite X, Hends, Hes. 
    assert (Y : Forall2 (fun e f => veq (pos (fst e)) (fst f) /\ veq (pos (snd e)) (snd f))
       (if fwd then ring_edges verts else reverse_edges (ring_edges verts)) (if fwd then ring_edges shape else reverse_edges (ring_edges shape))).
    { destruct fwd.
      - apply (ring_edges_Forall2 (fun v xy => veq (pos v) xy)). exact Hpos.
      - apply (reverse_Forall2 (fun v xy => veq (pos v) xy)). apply (ring_edges_Forall2 (fun v xy => veq (pos v) xy)). exact Hpos. }
    clear - Y. induction Y; cbn [map]; constructor; auto. }
  split.
  { apply chained_of_pairs. rewrite Hends, Hes. destruct fwd; [apply ring_chain|apply reverse_chain, ring_chain]. }
  split; [exact Hbal|].
  assert (Hring : esum (fun a b => vcross (pos a) (pos b)) (ring_edges verts) == 2 * polygon_area shape).
  { rewrite esum_ring, <- (loop_map pos vcross). rewrite (loop_w_veq _ shape).
    - rewrite polygon_area_loop, loop_shoelace_cross. ring.
    - clear - Hpos. induction Hpos; cbn; constructor; auto. }
  split.
  { unfold enclosed. rewrite Hends, Hes. destruct fwd.
    - rewrite Hring. ring.
    - rewrite esum_reverse, Hring; [ring|]. intros a b. unfold vcross. ring. }
  split.
  { assert (X : map snd (map payload (el_edges l)) = map snd (map (fun e => (fst (fst e), snd (fst e), snd e, e_on_boundary)) es)) by (rewrite P2; reflexivity).
    rewrite !map_map in X. cbn in X. clear - X. revert es X. induction (el_edges l) as [|e r IH]; intros es X; [constructor|].
    destruct es as [|x es]; [discriminate|]. cbn in X. injection X as X1 X2. constructor; eauto. }
  split.
  { intros H3. rewrite P3; [|intros ->|lia].
    - apply compute_area_enclosed; [lia|exact Hbal].
    - cbn in P2. destruct (el_edges l); [cbn in Hnum; lia|discriminate]. }
  { assert (X : map (fun x => snd (fst x)) (map payload (el_edges l)) = map (fun x => snd (fst x)) (map (fun e => (fst (fst e), snd (fst e), snd e, e_on_boundary)) es)) by (rewrite P2; reflexivity).
    rewrite !map_map in X. cbn in X.
    assert (Les : length es = length shape).
    { rewrite <- Hnum. apply (f_equal (@length _)) in X. rewrite !map_length in X. symmetry. exact X. }
    assert (G : forall j, (j < length shape)%nat -> option_map be_col (nth_error (el_edges l) j) = Some (snd (nth j es (0%nat, 0%nat, 0%Z)))).
    { intros j Hj. rewrite <- nth_error_map. change (fun x => be_col x) with be_col in X. rewrite X.
      rewrite nth_error_map. rewrite (nth_error_nth' es (0%nat, 0%nat, 0%Z)) by lia. reflexivity. }
    intros i Hi. rewrite Hlen in Hcol. rewrite G by (destruct fwd; lia). destruct fwd; apply Hcol; exact Hi. }
Qed.
