(* Proofs about the refinement of the initial front. *)
From Coq Require Import Lia Lqa Permutation.
From Verif Require Import Base Chain GeomModel FacetModel UtilModel BdryModel BdrySpec BdryProofs
  AdvanceModel AdvanceSpec AdvanceProofs FrontModel FrontSpec FrontProofs.
Open Scope Q_scope.

Lemma fold_front_remove_filter pos ks : forall es,
  fold_left (fun x k => front_remove pos k x) ks es =
  filter (fun e => negb (existsb (Nat.eqb (be_id e)) ks && in_square front_scale (mid pos e))) es.
Proof.
  induction ks as [|k ks IH]; intros es; cbn [fold_left existsb].
  - symmetry. apply filter_all. reflexivity.
  - rewrite IH. unfold front_remove. induction es as [|e es IHe]; [reflexivity|]. cbn [filter].
    destruct (Nat.eqb (be_id e) k), (in_square front_scale (mid pos e)) eqn:S; cbn [andb orb negb filter].
    + exact IHe.
    + rewrite S, Bool.andb_false_r. cbn [negb]. rewrite IHe. reflexivity.
    + destruct (existsb (Nat.eqb (be_id e)) ks); cbn; rewrite IHe; rewrite ?S; reflexivity.
    + rewrite S, Bool.andb_false_r. cbn [negb]. rewrite IHe. reflexivity.
Qed.

Lemma nodup_app_disjoint {A} (l l' : list A) : NoDup l -> NoDup l' -> (forall x, In x l -> In x l' -> False) -> NoDup (l ++ l').
Proof.
  induction l as [|a l IH]; intros N N' D; [exact N'|]. apply NoDup_cons_iff in N. destruct N as [N1 N2]. cbn [app].
  constructor.
  - rewrite in_app_iff. intros [H|H]; [exact (N1 H)|exact (D a (or_introl eq_refl) H)].
  - apply IH; [exact N2|exact N'|]. intros x Hx. exact (D x (or_intror Hx)).
Qed.
Lemma insert_verts_perm x new l : Permutation (insert_verts x l new) (new ++ l).
Proof.
  induction l as [|y l IH]; cbn [insert_verts]; [rewrite app_nil_r; apply Permutation_refl|].
  destruct (Nat.eqb y x); [apply Permutation_refl|]. rewrite IH. apply Permutation_middle.
Qed.

(* ---- the sub edges ---- *)
Lemma sub_edges_ids k : forall ne cur nv e, map be_id (sub_edges ne cur nv k e) = seq ne (S k).
Proof. induction k as [|k IH]; intros; cbn [sub_edges map seq be_id]; [reflexivity|]. rewrite IH. reflexivity. Qed.
Lemma sub_edges_len k : forall ne cur nv e, length (sub_edges ne cur nv k e) = S k.
Proof. induction k as [|k IH]; intros; cbn [sub_edges length]; [reflexivity|]. rewrite IH. reflexivity. Qed.
Lemma sub_edges_props k : forall ne cur nv e,
  Forall (fun c => be_col c = be_col e /\ be_prop c = front_prop (is_fixed e)) (sub_edges ne cur nv k e).
Proof. induction k as [|k IH]; intros; cbn [sub_edges]; constructor; auto. Qed.
Lemma sub_edges_route k : forall ne cur nv e, route cur (be_v2 e) (sub_edges ne cur nv k e).
Proof. induction k as [|k IH]; intros; cbn [sub_edges route be_v1 be_v2]; auto. Qed.
Lemma sub_edges_nonnil ne cur nv k e : sub_edges ne cur nv k e <> [].
Proof. destruct k; discriminate. Qed.
Lemma removelast_cons {A} (a : A) l : l <> [] -> removelast (a :: l) = a :: removelast l.
Proof. destruct l; [congruence|reflexivity]. Qed.
Lemma sub_edges_mid (pos : nat -> vec2) : forall pts ne cur nv e,
  (forall i, (i < length pts)%nat -> pos (nv + i)%nat = nth i pts (V2 0 0)) ->
  map (fun c => pos (be_v2 c)) (removelast (sub_edges ne cur nv (length pts) e)) = pts.
Proof.
  induction pts as [|p pts IH]; intros ne cur nv e H; [reflexivity|]. cbn [length sub_edges].
  rewrite removelast_cons by apply sub_edges_nonnil. cbn [map be_v2]. f_equal.
  - specialize (H 0%nat ltac:(cbn; lia)). rewrite Nat.add_0_r in H. exact H.
  - apply IH. intros i Hi. specialize (H (S i) ltac:(cbn; lia)). rewrite <- Nat.add_succ_comm in H. exact H.
Qed.
Lemma sub_edges_verts k : forall ne cur nv e c, In c (sub_edges ne cur nv k e) ->
  (cur < nv)%nat -> (be_v2 e < nv)%nat -> (k = 0%nat -> cur <> be_v2 e) ->
  (be_v1 c < nv + k)%nat /\ (be_v2 c < nv + k)%nat /\ be_v1 c <> be_v2 c.
Proof.
  induction k as [|k IH]; intros ne cur nv e c; cbn [sub_edges]; intros H C E N.
  - destruct H as [<-|[]]. cbn. specialize (N eq_refl). lia.
  - destruct H as [<-|H]; [cbn; lia|].
    destruct (IH (S ne) nv (S nv) e c H ltac:(lia) ltac:(lia) ltac:(lia)). lia.
Qed.

Definition chain_be (pos : nat -> vec2) (e : bedge) (pts : list vec2) (cs : list bedge) : Prop :=
  route (be_v1 e) (be_v2 e) cs /\ map (fun c => pos (be_v2 c)) (removelast cs) = pts /\
  length cs = S (length pts) /\
  Forall (fun c => be_col c = be_col e /\ be_prop c = be_prop e) cs.
Lemma route_esum a b es (f : nat -> Q) : route a b es -> esum (fun x y => f y - f x) (ends es) == f b - f a.
Proof.
  revert a. induction es as [|e es IH]; intros a; cbn [route]; [intros <-; cbn; ring|].
  intros [<- R]. cbn [ends map esum fst snd]. rewrite (IH _ R). ring.
Qed.

Section Refine.
Variable sub : vec2 -> vec2 -> list vec2.
(* positions before the refinement, edges with a twin, number of vertices *)
Variable pos0 : nat -> vec2.
Variable twins : list nat.
Variable nv0 : nat.

Definition is_twin (e : bedge) : bool := existsb (Nat.eqb (be_id e)) twins.
Definition inner (e : bedge) : list vec2 :=
  if is_twin e then [] else sub (pos0 (be_v1 e)) (pos0 (be_v2 e)).

Fixpoint grow (keep : bool) (nv ne : nat) (es : list bedge) : list bedge :=
  match es with
  | [] => []
  | e :: r =>
    match inner e with
    | [] => e :: grow keep nv ne r
    | _ => let k := length (inner e) in
           sub_edges ne (be_v1 e) nv k e ++ (if keep then [e] else []) ++ grow keep (nv + k) (ne + S k) r
    end
  end.
Fixpoint placed (pos : nat -> vec2) (nv : nat) (es : list bedge) : Prop :=
  match es with
  | [] => True
  | e :: r => (forall i, (i < length (inner e))%nat -> pos (nv + i)%nat = nth i (inner e) (V2 0 0)) /\
              placed pos (nv + length (inner e)) r
  end.
Definition more (es : list bedge) : nat := list_sum (map (fun e => length (inner e)) es).
Definition refined (es : list bedge) : list bedge :=
  filter (fun e => match inner e with [] => false | _ => true end) es.

Lemma more_cons e es : more (e :: es) = (length (inner e) + more es)%nat.
Proof. reflexivity. Qed.
Lemma placed_ext es : forall pos pos' nv, (forall i, (nv <= i < nv + more es)%nat -> pos' i = pos i) ->
  placed pos nv es -> placed pos' nv es.
Proof.
  induction es as [|e es IH]; intros pos pos' nv H; cbn [placed]; [auto|]. intros [A B].
  rewrite more_cons in H. split.
  - intros i Hi. rewrite H by lia. apply A, Hi.
  - apply IH with (pos := pos); [|exact B]. intros i Hi. apply H. lia.
Qed.

Lemma insert_chain k news : forall l1 e l2, be_id e = k -> ~ In k (map be_id l1) -> ~ In k (map be_id news) ->
  fold_left (fun es n => insert_before k n es) news (l1 ++ e :: l2) = l1 ++ news ++ e :: l2.
Proof.
  induction news as [|n news IH]; intros l1 e l2 He H1 H2; [reflexivity|]. cbn [fold_left].
  rewrite insert_before_at by assumption.
  change (l1 ++ n :: e :: l2) with (l1 ++ [n] ++ e :: l2). rewrite app_assoc. rewrite IH.
  - rewrite <- app_assoc. reflexivity.
  - exact He.
  - rewrite map_app, in_app_iff. cbn in *. intuition.
  - cbn in H2. intuition.
Qed.

Definition step (p : rstate * list nat) (e : bedge) : rstate * list nat :=
  let (st', ok) := refine_edge sub (fst p) e in (st', if ok then snd p ++ [be_id e] else snd p).

Lemma set_positions_old pos nv pts j : (j < nv)%nat -> set_positions pos nv pts j = pos j.
Proof. intros H. unfold set_positions. rewrite (proj2 (Nat.leb_gt nv j)) by lia. reflexivity. Qed.
Lemma set_positions_new pos nv pts i : (i < length pts)%nat -> set_positions pos nv pts (nv + i) = nth i pts (V2 0 0).
Proof.
  intros H. unfold set_positions. rewrite (proj2 (Nat.leb_le nv (nv + i))) by lia.
  rewrite (proj2 (Nat.ltb_lt (nv + i) (nv + length pts))) by lia. cbn. f_equal. lia.
Qed.
Lemma seq_more nv k l : Permutation l (seq 0 nv) -> Permutation (seq nv k ++ l) (seq 0 (nv + k)).
Proof. intros P. rewrite P, Permutation_app_comm, seq_app. apply Permutation_refl. Qed.

Lemma fold_spec es : forall st ks done,
  rs_front st = done ++ es -> NoDup (map be_id es) ->
  (forall e, In e es -> ~ In (be_id e) (map be_id done)) ->
  (forall e, In e es -> (be_id e < rs_ne st)%nat /\ (be_v1 e < nv0)%nat /\ (be_v2 e < nv0)%nat) ->
  (nv0 <= rs_nv st)%nat -> (forall v, (v < nv0)%nat -> rs_pos st v = pos0 v) ->
  Permutation (rs_verts st) (seq 0 (rs_nv st)) ->
  let r := fold_left step (filter (fun e => negb (is_twin e)) es) (st, ks) in
  rs_front (fst r) = done ++ grow true (rs_nv st) (rs_ne st) es /\
  rs_nv (fst r) = (rs_nv st + more es)%nat /\
  rs_ne (fst r) = (rs_ne st + more es + length (refined es))%nat /\
  snd r = ks ++ map be_id (refined es) /\
  (forall v, (v < rs_nv st)%nat -> rs_pos (fst r) v = rs_pos st v) /\
  placed (rs_pos (fst r)) (rs_nv st) es /\
  Permutation (rs_verts (fst r)) (seq 0 (rs_nv (fst r))).
Proof.
  induction es as [|e es IH]; intros st ks done F ND DJ IDS NV POS PV; cbv zeta.
  - cbn [filter fold_left fst snd grow placed refined]. change (more []) with 0%nat.
    cbn [map length]. rewrite !Nat.add_0_r, !app_nil_r in *.
    split; [exact F|]. split; [reflexivity|]. split; [reflexivity|]. split; [reflexivity|].
    split; [reflexivity|]. split; [exact I|exact PV].
  - apply NoDup_cons_iff in ND. destruct ND as [ND1 ND2].
    destruct (IDS e (or_introl eq_refl)) as (Le & V1 & V2).
    (* an edge that stays *)
    assert (STAY : inner e = [] -> forall st', st' = st -> 
      let r := fold_left step (filter (fun e => negb (is_twin e)) es) (st', ks) in
      rs_front (fst r) = done ++ grow true (rs_nv st) (rs_ne st) (e :: es) /\
      rs_nv (fst r) = (rs_nv st + more (e :: es))%nat /\
      rs_ne (fst r) = (rs_ne st + more (e :: es) + length (refined (e :: es)))%nat /\
      snd r = ks ++ map be_id (refined (e :: es)) /\
      (forall v, (v < rs_nv st)%nat -> rs_pos (fst r) v = rs_pos st v) /\
      placed (rs_pos (fst r)) (rs_nv st) (e :: es) /\
      Permutation (rs_verts (fst r)) (seq 0 (rs_nv (fst r)))).
    { intros E st' ->. cbv zeta.
      specialize (IH st ks (done ++ [e])). rewrite <- app_assoc in IH.
      specialize (IH F ND2).
      assert (DJ' : forall f, In f es -> ~ In (be_id f) (map be_id (done ++ [e]))).
      { intros f Hf. rewrite map_app, in_app_iff. cbn. intros [H|[H|[]]]; [exact (DJ f (or_intror Hf) H)|].
        apply ND1. rewrite H. apply in_map. exact Hf. }
      specialize (IH DJ' (fun f Hf => IDS f (or_intror Hf)) NV POS PV). cbv zeta in IH.
      destruct IH as (A & B & C & D & G & H & J).
      rewrite more_cons. unfold refined in *. cbn [filter grow placed]. rewrite E. cbn [length Nat.add]. 
      rewrite A, <- app_assoc. split; [reflexivity|]. split; [exact B|]. split; [exact C|]. split; [exact D|].
      split; [exact G|]. split; [|exact J]. split; [intros i Hi; inversion Hi|]. rewrite Nat.add_0_r. exact H. }
    cbn [filter]. unfold inner at 1 in STAY. destruct (is_twin e) eqn:T; cbn [negb].
    + apply (STAY eq_refl st eq_refl).
    + cbn [fold_left].
      assert (SE : step (st, ks) e = let (st', ok) := refine_edge sub st e in (st', if ok then ks ++ [be_id e] else ks)) by reflexivity.
      rewrite SE. clear SE. unfold refine_edge. rewrite (POS _ V1), (POS _ V2).
      assert (EI : inner e = sub (pos0 (be_v1 e)) (pos0 (be_v2 e))) by (unfold inner; rewrite T; reflexivity).
      destruct (sub (pos0 (be_v1 e)) (pos0 (be_v2 e))) as [|p pts'] eqn:ES; [exact (STAY eq_refl st eq_refl)|].
      clear STAY. set (pts := p :: pts') in *. set (k := length pts) in *.
      set (st1 := RS _ _ _ _ _).
      set (news := sub_edges (rs_ne st) (be_v1 e) (rs_nv st) k e) in *.
      assert (NI : forall f, In f (e :: es) -> ~ In (be_id f) (map be_id news)).
      { intros f Hf. unfold news. rewrite sub_edges_ids, in_seq. destruct (IDS f Hf). lia. }
      assert (F1 : rs_front st1 = (done ++ news ++ [e]) ++ es).
      { cbn [st1 rs_front]. rewrite F. rewrite insert_chain.
        - rewrite <- !app_assoc. reflexivity.
        - reflexivity.
        - apply DJ. left. reflexivity.
        - apply NI. left. reflexivity. }
      assert (DJ1 : forall f, In f es -> ~ In (be_id f) (map be_id (done ++ news ++ [e]))).
      { intros f Hf. rewrite !map_app, !in_app_iff. cbn. intros [H|[H|[H|[]]]].
        - exact (DJ f (or_intror Hf) H).
        - exact (NI f (or_intror Hf) H).
        - apply ND1. rewrite H. apply in_map. exact Hf. }
      assert (IDS1 : forall f, In f es -> (be_id f < rs_ne st1)%nat /\ (be_v1 f < nv0)%nat /\ (be_v2 f < nv0)%nat).
      { intros f Hf. destruct (IDS f (or_intror Hf)) as (X & Y). split; [cbn; lia|exact Y]. }
      assert (POS1 : forall v, (v < nv0)%nat -> rs_pos st1 v = pos0 v).
      { intros v Hv. cbn [st1 rs_pos]. rewrite set_positions_old by lia. apply POS, Hv. }
      assert (PV1 : Permutation (rs_verts st1) (seq 0 (rs_nv st1))).
      { cbn [st1 rs_verts rs_nv]. rewrite insert_verts_perm. apply seq_more, PV. }
      assert (N1 : (nv0 <= rs_nv st1)%nat) by (cbn; lia).
      specialize (IH st1 (ks ++ [be_id e]) (done ++ news ++ [e]) F1 ND2 DJ1 IDS1 N1 POS1 PV1). cbv zeta in IH.
      destruct IH as (A & B & C & D & G & H & J).
      assert (RC : refined (e :: es) = e :: refined es) by (unfold refined; cbn [filter]; rewrite EI; reflexivity).
      rewrite more_cons, RC. cbn [grow placed]. rewrite EI. fold k. unfold pts at 1. cbn iota. fold k.
      split; [|split; [|split; [|split; [|split; [|split]]]]].
      * rewrite A. rewrite <- !app_assoc. cbn [app]. reflexivity.
      * rewrite B. cbn [st1 rs_nv]. lia.
      * rewrite C. cbn [st1 rs_ne length]. lia.
      * rewrite D, <- app_assoc. reflexivity.
      * intros v Hv. rewrite G by (cbn; lia). cbn [st1 rs_pos]. apply set_positions_old, Hv.
      * split; [|exact H]. intros i Hi. rewrite G by (cbn [st1 rs_nv]; fold k in Hi; lia). cbn [st1 rs_pos]. apply set_positions_new. exact Hi.
      * exact J.
Qed.

Lemma grow_removed pos nv ne0 es : forall ne nv', (ne0 <= ne)%nat -> 
  (forall e, In e es -> (be_id e < ne0)%nat /\ in_square front_scale (mid pos e) = true) ->
  forall ks, (forall k, In k ks -> (k < ne0)%nat) -> NoDup (map be_id es) ->
  (forall e, In e es -> existsb (Nat.eqb (be_id e)) ks = match inner e with [] => false | _ => true end) ->
  nv = nv' ->
  filter (fun e => negb (existsb (Nat.eqb (be_id e)) ks && in_square front_scale (mid pos e))) (grow true nv ne es) = grow false nv' ne es.
Proof.
  revert nv. induction es as [|e es IH]; intros nv ne nv' L H ks K ND X <-; [reflexivity|].
  apply NoDup_cons_iff in ND. destruct ND as [ND1 ND2].
  assert (IH' := fun n m Hm => IH n m n Hm (fun f Hf => H f (or_intror Hf)) ks K ND2 (fun f Hf => X f (or_intror Hf)) eq_refl).
  pose proof (X e (or_introl eq_refl)) as Xe. destruct (H e (or_introl eq_refl)) as [He Se]. cbn [grow].
  destruct (inner e) as [|p pts] eqn:E.
  - cbn [filter]. rewrite Xe. cbn [andb negb]. rewrite IH' by exact L. reflexivity.
  - cbv zeta. rewrite !filter_app. f_equal.
    + apply filter_all. intros c Hc.
      assert (In (be_id c) (seq ne (S (length (p :: pts))))).
      { rewrite <- (sub_edges_ids (length (p :: pts)) ne (be_v1 e) nv e). apply in_map, Hc. }
      apply in_seq in H0. assert (N : existsb (Nat.eqb (be_id c)) ks = false).
      { apply Bool.not_true_iff_false. intros Y. apply existsb_exists in Y. destruct Y as (k & Hk & Y).
        apply Nat.eqb_eq in Y. specialize (K k Hk). lia. }
      rewrite N. reflexivity.
    + cbn [filter]. rewrite Xe, Se. cbn [andb negb app]. apply IH'. lia.
Qed.

(* the edges of a chain are the edge itself or new ones *)
Definition tagged (ne : nat) (e : bedge) (cs : list bedge) : Prop :=
  (inner e = [] -> cs = [e]) /\ forall c, In c cs -> c = e \/ (ne <= be_id c)%nat.
Lemma grow_chains pos es : (forall e, In e es -> exists b, be_prop e = front_prop b) -> forall nv ne, placed pos nv es ->
  exists css, grow false nv ne es = concat css /\ Forall2 (fun e cs => chain_be pos e (inner e) cs) es css /\ Forall2 (tagged ne) es css.
Proof.
  intros HP. induction es as [|e es IH]; intros nv ne P; [exists []; split; [reflexivity|split; constructor]|].
  destruct P as [P1 P2]. specialize (IH (fun f Hf => HP f (or_intror Hf))). cbn [grow].
  destruct (HP e (or_introl eq_refl)) as (b & Hb).
  destruct (inner e) as [|p pts] eqn:E.
  - rewrite Nat.add_0_r in P2. destruct (IH nv ne P2) as (css & A & B & T). exists ([e] :: css). split; [cbn; rewrite A; reflexivity|]. split.
    + constructor; [|exact B]. rewrite E. split; [cbn; auto|]. split; [reflexivity|]. split; [reflexivity|]. constructor; auto.
    + constructor; [|exact T]. split; [reflexivity|]. intros c [<-|[]]. left. reflexivity.
  - set (k := length (p :: pts)) in *. cbv zeta. destruct (IH (nv + k)%nat (ne + S k)%nat P2) as (css & A & B & T).
    exists (sub_edges ne (be_v1 e) nv k e :: css). split; [cbn [app concat]; rewrite A; reflexivity|]. split.
    + constructor; [|exact B]. rewrite E. split; [apply sub_edges_route|]. split; [apply sub_edges_mid; exact P1|].
      split; [apply sub_edges_len|]. eapply Forall_impl; [|apply sub_edges_props]. cbn. intros c [C D]. split; [exact C|].
      rewrite D. unfold is_fixed. rewrite Hb. destruct b; reflexivity.
    + constructor.
      * split; [rewrite E; discriminate|]. intros c Hc. right. assert (X : In (be_id c) (seq ne (S k))) by (rewrite <- (sub_edges_ids k ne (be_v1 e) nv e); apply in_map, Hc).
        apply in_seq in X. lia.
      * revert T. clear. induction 1 as [|x cs xs css [T1 T2] _ IH]; constructor; [|exact IH]. split; [exact T1|]. intros c Hc. destruct (T2 c Hc) as [X|X]; [left; exact X|right; lia].
Qed.

Lemma grow_ids es : forall nv ne, (forall e, In e es -> (be_id e < ne)%nat) -> NoDup (map be_id es) ->
  NoDup (map be_id (grow false nv ne es)) /\
  (forall c, In c (grow false nv ne es) -> In c es \/ (ne <= be_id c < ne + more es + length (refined es))%nat).
Proof.
  induction es as [|e es IH]; intros nv ne L ND; [split; [constructor|intros c []]|].
  apply NoDup_cons_iff in ND. destruct ND as [ND1 ND2]. cbn [grow]. rewrite more_cons. unfold refined in *. cbn [filter].
  destruct (inner e) as [|p pts] eqn:E.
  - destruct (IH nv ne (fun f Hf => L f (or_intror Hf)) ND2) as (A & B). split.
    + cbn [map]. constructor; [|exact A]. intros H. apply in_map_iff in H. destruct H as (c & Hc & Hc').
      destruct (B c Hc') as [X|X]; [apply ND1; rewrite <- Hc; apply in_map, X|]. specialize (L e (or_introl eq_refl)). lia.
    + intros c [<-|Hc]; [left; left; reflexivity|]. destruct (B c Hc) as [X|X]; [left; right; exact X|right; cbn; lia].
  - set (k := length (p :: pts)) in *. cbv zeta. cbn [app].
    destruct (IH (nv + k)%nat (ne + S k)%nat (fun f Hf => Nat.lt_lt_add_r _ _ _ (L f (or_intror Hf))) ND2) as (A & B). 
    assert (S1 : forall c, In c (sub_edges ne (be_v1 e) nv k e) -> (ne <= be_id c < ne + S k)%nat).
    { intros c Hc. apply in_seq. rewrite <- (sub_edges_ids k ne (be_v1 e) nv e). apply in_map, Hc. }
    split.
    + rewrite map_app. apply nodup_app_disjoint; [rewrite sub_edges_ids; apply seq_NoDup|exact A|].
      intros i H1 H2. apply in_map_iff in H1. destruct H1 as (c & <- & Hc). specialize (S1 c Hc).
      apply in_map_iff in H2. destruct H2 as (d & Hd & Hd'). destruct (B d Hd') as [X|X]; [|lia].
      specialize (L d (or_intror X)). lia.
    + intros c Hc. apply in_app_or in Hc. destruct Hc as [Hc|Hc].
      * right. specialize (S1 c Hc). cbn [length]. lia.
      * destruct (B c Hc) as [X|X]; [left; right; exact X|right; cbn [length]; lia].
Qed.

Lemma grow_verts es : (forall e, In e es -> (be_v1 e < nv0)%nat /\ (be_v2 e < nv0)%nat /\ be_v1 e <> be_v2 e) ->
  forall nv ne c, (nv0 <= nv)%nat -> In c (grow false nv ne es) ->
  (be_v1 c < nv + more es)%nat /\ (be_v2 c < nv + more es)%nat /\ be_v1 c <> be_v2 c.
Proof.
  intros V. induction es as [|e es IH]; intros nv ne c L H; [destruct H|]. cbn [grow] in H.
  destruct (V e (or_introl eq_refl)) as (V1 & V2 & V3). specialize (IH (fun f Hf => V f (or_intror Hf))).
  rewrite more_cons. destruct (inner e) as [|p pts] eqn:E.
  - destruct H as [<-|H]; [cbn; lia|]. destruct (IH nv ne c L H) as (A & B & C). cbn. auto.
  - set (k := length (p :: pts)) in *. cbv zeta in H. cbn [app] in H. apply in_app_or in H. destruct H as [H|H].
    + destruct (sub_edges_verts k ne (be_v1 e) nv e c H ltac:(lia) ltac:(lia) ltac:(intros; assumption)) as (A & B & C).
      split; [|split; [|exact C]]; lia.
    + destruct (IH (nv + k)%nat (ne + S k)%nat c ltac:(lia) H) as (A & B & C). split; [|split; [|exact C]]; lia.
Qed.
End Refine.
