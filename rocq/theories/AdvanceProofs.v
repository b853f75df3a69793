(* Proofs about the advancing front update. *)
From Coq Require Import Lia Lqa Permutation Setoid.
From Verif Require Import Base Chain GeomModel GeomSpec FacetModel UtilModel BdryModel BdrySpec AdvanceModel AdvanceSpec.
Open Scope Q_scope.

(* ---- lists ---- *)
Lemma filter_all {A} (f : A -> bool) l : (forall x, In x l -> f x = true) -> filter f l = l.
Proof.
  induction l as [|a l IH]; intros H; [reflexivity|]. cbn [filter].
  rewrite (H a (or_introl eq_refl)), IH; [reflexivity|]. intros. apply H. right. assumption.
Qed.
Lemma filter_none {A} (f : A -> bool) l : (forall x, In x l -> f x = false) -> filter f l = [].
Proof.
  induction l as [|a l IH]; intros H; [reflexivity|]. cbn [filter].
  rewrite (H a (or_introl eq_refl)). apply IH. intros. apply H. right. assumption.
Qed.
Lemma perm_filter {A} (f : A -> bool) l l' : Permutation l l' -> Permutation (filter f l) (filter f l').
Proof.
  induction 1 as [|a l l' _ IH|a b l|l1 l2 l3 _ IH1 _ IH2]; cbn [filter].
  - constructor.
  - destruct (f a); [constructor; exact IH|exact IH].
  - destruct (f a), (f b); try apply Permutation_refl. apply perm_swap.
  - eapply Permutation_trans; eassumption.
Qed.
Lemma perm_ends l l' : Permutation l l' -> Permutation (ends l) (ends l').
Proof. apply Permutation_map. Qed.
Lemma ends_app l l' : ends (l ++ l') = ends l ++ ends l'.
Proof. apply map_app. Qed.

Lemma nodup_app_r {A} (l l' : list A) : NoDup (l ++ l') -> NoDup l'.
Proof. induction l as [|a l IH]; intros H; [exact H|]. inversion H; subst. apply IH. assumption. Qed.

Lemma NoDup_app_snoc {A} (l : list A) x : NoDup l -> ~ In x l -> NoDup (l ++ [x]).
Proof.
  intros N H. eapply Permutation_NoDup; [apply Permutation_cons_append|]. constructor; assumption.
Qed.

(* ---- the square ---- *)
Lemma in_square_iff s v : in_square s v = true <->
  (- (s * (1#2)) <= vx v /\ - (s * (1#2)) <= vy v) /\ (vx v <= s * (1#2) /\ vy v <= s * (1#2)).
Proof.
  unfold in_square. rewrite !andb_true_iff, !Qleb_true.
  assert (E : s / 2 == s * (1#2)) by (unfold Qdiv; reflexivity).
  rewrite !E. tauto.
Qed.
Lemma in_square_mid s pos e : in_square s (pos (be_v1 e)) = true -> in_square s (pos (be_v2 e)) = true ->
  in_square s (mid pos e) = true.
Proof. rewrite !in_square_iff. unfold mid. cbn [vx vy vscale vadd]. intros. repeat split; lra. Qed.
Lemma in_square_centroid s a b c : in_square s a = true -> in_square s b = true -> in_square s c = true ->
  in_square s (tri_centroid a b c) = true.
Proof.
  rewrite !in_square_iff. unfold tri_centroid. cbn [vx vy].
  intros. unfold Qdiv. change (/ 3) with (1 # 3). repeat split; lra.
Qed.

(* ---- front edges ---- *)
Lemma oldest_in es e : oldest es = Some e -> In e es.
Proof.
  revert e. induction es as [|f es IH]; intros e H; [discriminate|]. cbn [oldest] in H.
  destruct (oldest es) as [g|] eqn:E.
  - destruct (Nat.ltb (be_id g) (be_id f)); injection H as <-; [right; apply IH; reflexivity|left; reflexivity].
  - injection H as <-. left. reflexivity.
Qed.
Lemma oldest_none es : oldest es = None -> es = [].
Proof.
  destruct es as [|f es]; [reflexivity|]. cbn [oldest]. destruct (oldest es) as [g|]; [|discriminate].
  destruct (Nat.ltb (be_id g) (be_id f)); discriminate.
Qed.
Lemma oldest_least es e : oldest es = Some e -> forall f, In f es -> (be_id e <= be_id f)%nat.
Proof.
  revert e. induction es as [|g es IH]; intros e H f Hf; [discriminate|]. cbn [oldest] in H.
  destruct (oldest es) as [h|] eqn:E.
  - destruct (Nat.ltb_spec (be_id h) (be_id g)); injection H as <-.
    + destruct Hf as [<-|Hf]; [lia|]. apply IH; [reflexivity|exact Hf].
    + destruct Hf as [<-|Hf]; [lia|]. specialize (IH h eq_refl f Hf). lia.
  - injection H as <-. apply oldest_none in E. subst es. destruct Hf as [<-|[]]. lia.
Qed.

Lemma joins_spec a b e : joins a b e = true <->
  (be_v1 e = a /\ be_v2 e = b) \/ (be_v1 e = b /\ be_v2 e = a).
Proof. unfold joins. rewrite orb_true_iff, !andb_true_iff, !Nat.eqb_eq. tauto. Qed.

Lemma get_edge_in es a b e : get_edge_nodir es a b = Some e ->
  In e es /\ ((be_v1 e = a /\ be_v2 e = b) \/ (be_v1 e = b /\ be_v2 e = a)).
Proof.
  intros H. apply oldest_in in H. apply filter_In in H. destruct H as [H J].
  split; [exact H|]. apply joins_spec. exact J.
Qed.
Lemma get_edge_none es a b : get_edge_nodir es a b = None -> forall e, In e es ->
  ~ (be_v1 e = a /\ be_v2 e = b) /\ ~ (be_v1 e = b /\ be_v2 e = a).
Proof.
  intros H e He. apply oldest_none in H.
  assert (J : joins a b e = false).
  { destruct (joins a b e) eqn:J; [|reflexivity]. exfalso.
    assert (I : In e (filter (joins a b) es)) by (apply filter_In; split; assumption).
    rewrite H in I. exact I. }
  split; intros C; apply Bool.not_true_iff_false in J; apply J, joins_spec; tauto.
Qed.

Lemma find_edge_in k es e : find_edge k es = Some e -> In e es /\ be_id e = k.
Proof.
  unfold find_edge. intros H. apply find_some in H. destruct H as [H E].
  split; [exact H|]. apply Nat.eqb_eq. exact E.
Qed.

Lemma id_inj es e f : NoDup (map be_id es) -> In e es -> In f es -> be_id e = be_id f -> e = f.
Proof.
  induction es as [|g es IH]; intros N He Hf E; [destruct He|].
  cbn [map] in N. inversion N as [|? ? Ni N']; subst.
  destruct He as [<-|He], Hf as [<-|Hf]; [reflexivity| | |apply IH; assumption].
  - exfalso. apply Ni. rewrite E. apply in_map. exact Hf.
  - exfalso. apply Ni. rewrite <- E. apply in_map. exact He.
Qed.

Lemma front_remove_perm pos es e : NoDup (map be_id es) -> In e es ->
  in_square front_scale (mid pos e) = true ->
  Permutation es (e :: front_remove pos (be_id e) es).
Proof.
  intros N He S. induction es as [|g es IH]; [destruct He|].
  cbn [map] in N. inversion N as [|? ? Ni N']; subst.
  unfold front_remove. cbn [filter]. destruct (Nat.eqb_spec (be_id g) (be_id e)) as [E|E].
  - assert (Eg : g = e).
    { destruct He as [He|He]; [exact He|]. exfalso. apply Ni. rewrite E. apply in_map. exact He. }
    subst g. rewrite S. cbn [andb negb]. apply perm_skip.
    match goal with |- Permutation _ (filter ?f ?l) => rewrite (filter_all f l) end; [apply Permutation_refl|].
    intros f Hf. destruct (Nat.eqb_spec (be_id f) (be_id e)) as [E2|E2]; [|reflexivity].
    exfalso. apply Ni. rewrite <- E2. apply in_map. exact Hf.
  - cbn [andb negb]. destruct He as [He|He]; [subst; congruence|].
    eapply Permutation_trans; [apply perm_skip, IH; assumption|]. apply perm_swap.
Qed.

Lemma front_remove_incl pos k es e : In e (front_remove pos k es) -> In e es.
Proof. unfold front_remove. intros H. apply filter_In in H. apply H. Qed.
Lemma front_remove_app pos k l l' : front_remove pos k (l ++ l') = front_remove pos k l ++ front_remove pos k l'.
Proof. apply filter_app. Qed.
Lemma front_remove_fresh pos k es : (forall e, In e es -> be_id e <> k) -> front_remove pos k es = es.
Proof.
  intros H. apply filter_all. intros e He. specialize (H e He).
  destruct (Nat.eqb_spec (be_id e) k); [contradiction|reflexivity].
Qed.
Lemma nodup_filter_ids {A} (g : A -> nat) (f : A -> bool) l : NoDup (map g l) -> NoDup (map g (filter f l)).
Proof.
  induction l as [|a l IH]; intros N; [exact N|]. cbn [map] in N. inversion N as [|? ? Ni N']; subst.
  cbn [filter]. destruct (f a); [|apply IH; exact N']. cbn [map]. constructor; [|apply IH; exact N'].
  intros C. apply Ni. apply in_map_iff in C. destruct C as [x [<- Hx]]. apply filter_In in Hx.
  apply in_map. apply Hx.
Qed.

Lemma new_edges_ids n ps : map be_id (new_edges n ps) = seq n (length ps).
Proof. revert n. induction ps as [|[a b] ps IH]; intros n; cbn; [reflexivity|]. rewrite IH. reflexivity. Qed.
Lemma new_edges_ends n ps : ends (new_edges n ps) = ps.
Proof. revert n. induction ps as [|[a b] ps IH]; intros n; cbn; [reflexivity|]. f_equal. apply IH. Qed.
Lemma new_edges_in n ps e : In e (new_edges n ps) ->
  (n <= be_id e < n + length ps)%nat /\ In (pair_of e) ps /\ be_prop e = 0%N /\ be_col e = interior_edge_color.
Proof.
  revert n. induction ps as [|[a b] ps IH]; intros n H; [destruct H|]. cbn [new_edges] in H.
  destruct H as [<-|H]; [cbn; repeat split; try lia; left; reflexivity|].
  apply IH in H. cbn [length]. destruct H as (H1 & H2 & H3). split; [lia|]. split; [right; exact H2|exact H3].
Qed.
Lemma new_edges_interior n ps : filter interior (new_edges n ps) = new_edges n ps.
Proof. apply filter_all. intros e He. apply new_edges_in in He. unfold interior. rewrite (proj1 (proj2 (proj2 He))). reflexivity. Qed.
Lemma new_edges_boundary n ps : filter (fun e => negb (interior e)) (new_edges n ps) = [].
Proof. apply filter_none. intros e He. apply new_edges_in in He. unfold interior. rewrite (proj1 (proj2 (proj2 He))). reflexivity. Qed.

(* ---- what one advance does to the front ---- *)
Definition plan_of (st : mstate) (base : bedge) (v : nat) :=
  adv_plan (get_edge_nodir (ms_front st) v (be_v1 base)) (get_edge_nodir (ms_front st) v (be_v2 base))
           (be_v1 base) (be_v2 base) v.

Lemma plan_in st base v e : In e (fst (plan_of st base v)) -> In e (ms_front st).
Proof.
  unfold plan_of, adv_plan. intros H.
  destruct (get_edge_nodir (ms_front st) v (be_v1 base)) as [f1|] eqn:E1;
  destruct (get_edge_nodir (ms_front st) v (be_v2 base)) as [f2|] eqn:E2; cbn in H;
  repeat (destruct H as [<-|H]);
  try (apply get_edge_in in E1; apply E1); try (apply get_edge_in in E2; apply E2); destruct H.
Qed.

Lemma plan_new_ends st base v p : In p (snd (plan_of st base v)) ->
  p = (be_v1 base, v) \/ p = (v, be_v2 base).
Proof.
  unfold plan_of, adv_plan.
  destruct (get_edge_nodir (ms_front st) v (be_v1 base)); destruct (get_edge_nodir (ms_front st) v (be_v2 base));
  cbn; intuition.
Qed.

Lemma fold_front_remove pos es L : NoDup (map be_id es) -> NoDup (map be_id L) ->
  (forall e, In e L -> In e es /\ in_square front_scale (mid pos e) = true) ->
  Permutation es (L ++ fold_left (fun x e => front_remove pos (be_id e) x) L es).
Proof.
  revert es. induction L as [|a L IH]; intros es N NL H; [apply Permutation_refl|].
  cbn [fold_left app]. cbn [map] in NL. inversion NL as [|? ? Na NL']; subst.
  destruct (H a (or_introl eq_refl)) as [Ha Sa].
  pose proof (front_remove_perm pos es a N Ha Sa) as P.
  eapply Permutation_trans; [exact P|]. apply perm_skip. apply IH.
  - apply nodup_filter_ids. exact N.
  - exact NL'.
  - intros e He. destruct (H e (or_intror He)) as [He' Se]. split; [|exact Se].
    unfold front_remove. apply filter_In. split; [exact He'|].
    destruct (Nat.eqb_spec (be_id e) (be_id a)) as [E|E]; [|reflexivity].
    exfalso. apply Na. rewrite <- E. apply in_map. exact He.
Qed.

Lemma plan_nodup st base v : wf st -> In base (ms_front st) -> v <> be_v1 base -> v <> be_v2 base ->
  NoDup (map be_id (base :: fst (plan_of st base v))).
Proof.
  intros W Hb N1 N2. destruct (wf_ev _ W base Hb) as (_ & _ & Nb).
  assert (D : forall e f, In e (ms_front st) -> In f (ms_front st) -> e <> f -> be_id e <> be_id f).
  { intros e f He Hf Ne E. apply Ne. eapply id_inj; try eassumption. apply (wf_eid _ W). }
  unfold plan_of, adv_plan.
  destruct (get_edge_nodir (ms_front st) v (be_v1 base)) as [f1|] eqn:E1;
  destruct (get_edge_nodir (ms_front st) v (be_v2 base)) as [f2|] eqn:E2;
  try apply get_edge_in in E1; try apply get_edge_in in E2; cbn [fst map].
  - destruct E1 as [I1 J1], E2 as [I2 J2].
    constructor; [cbn; intros [C|[C|[]]]|constructor; [cbn; intros [C|[]]|constructor; [intros []|constructor]]].
    + eapply (D f1 base); try eassumption. intros ->. intuition congruence.
    + eapply (D f2 base); try eassumption. intros ->. intuition congruence.
    + eapply (D f2 f1); try eassumption. intros ->. intuition congruence.
  - destruct E1 as [I1 J1].
    constructor; [cbn; intros [C|[]]|constructor; [intros []|constructor]].
    eapply (D f1 base); try eassumption. intros ->. intuition congruence.
  - destruct E2 as [I2 J2].
    constructor; [cbn; intros [C|[]]|constructor; [intros []|constructor]].
    eapply (D f2 base); try eassumption. intros ->. intuition congruence.
  - constructor; [intros []|constructor].
Qed.

(* the edges that stay *)
Definition kept (st : mstate) (base : bedge) (v : nat) : list bedge :=
  front_remove (ms_pos st) (be_id base)
    (fold_left (fun es e => front_remove (ms_pos st) (be_id e) es) (fst (plan_of st base v)) (ms_front st)).

Lemma advance_front_front st base v t : wf st -> In base (ms_front st) ->
  ms_front (advance_front st base v t) = kept st base v ++ new_edges (ms_ne st) (snd (plan_of st base v)).
Proof.
  intros W Hb. unfold advance_front, kept. cbn [ms_front]. fold (plan_of st base v).
  rewrite front_remove_app. f_equal. apply front_remove_fresh.
  intros e He. apply new_edges_in in He. pose proof (wf_elt _ W base Hb). lia.
Qed.

Lemma front_split st base v : wf st -> vertices_in front_scale st -> In base (ms_front st) ->
  v <> be_v1 base -> v <> be_v2 base ->
  Permutation (ms_front st) (base :: fst (plan_of st base v) ++ kept st base v).
Proof.
  intros W S Hb N1 N2.
  pose proof (plan_nodup st base v W Hb N1 N2) as ND. cbn [map] in ND.
  inversion ND as [|? ? Nb NL]; subst.
  assert (SQ : forall e, In e (ms_front st) -> in_square front_scale (mid (ms_pos st) e) = true).
  { intros e He. destruct (wf_ev _ W e He) as (H1 & H2 & _). apply in_square_mid; apply S; assumption. }
  pose proof (fold_front_remove (ms_pos st) (ms_front st) (fst (plan_of st base v)) (wf_eid _ W) NL
    (fun e He => conj (plan_in _ _ _ _ He) (SQ e (plan_in _ _ _ _ He)))) as P.
  set (F := fold_left (fun x e => front_remove (ms_pos st) (be_id e) x) (fst (plan_of st base v)) (ms_front st)) in *.
  assert (PF : Permutation F (base :: kept st base v)).
  { unfold kept. fold F. apply front_remove_perm.
    - apply (Permutation_map be_id) in P. pose proof (Permutation_NoDup P (wf_eid _ W)) as N.
      rewrite map_app in N. apply nodup_app_r in N. exact N.
    - pose proof (Permutation_in _ P Hb) as I. apply in_app_or in I. destruct I as [I|I]; [|exact I].
      exfalso. apply Nb. apply in_map. exact I.
    - apply SQ. exact Hb. }
  eapply Permutation_trans; [exact P|]. eapply Permutation_trans; [apply Permutation_app_head; exact PF|].
  apply Permutation_sym, Permutation_middle.
Qed.

Lemma kept_in st base v e : In e (kept st base v) -> In e (ms_front st).
Proof.
  unfold kept. intros H. apply front_remove_incl in H. revert H.
  generalize (ms_front st) as es. induction (fst (plan_of st base v)) as [|a L IH]; intros es H; [exact H|].
  cbn [fold_left] in H. apply IH in H. eapply front_remove_incl. exact H.
Qed.

(* ---- sums over the sides ---- *)
Lemma esum_one {V} (w : V -> V -> Q) a b : esum w [(a, b)] == w a b.
Proof. cbn [esum]. ring. Qed.
Lemma sides_app l l' : sides (l ++ l') = sides l ++ sides l'.
Proof. unfold sides. apply flat_map_app. Qed.
Lemma perm_sides l l' : Permutation l l' -> Permutation (sides l) (sides l').
Proof.
  unfold sides. induction 1 as [|a l l' _ IH|a b l|l1 l2 l3 _ IH1 _ IH2]; cbn [flat_map].
  - constructor.
  - apply Permutation_app_head. exact IH.
  - rewrite !app_assoc. apply Permutation_app_tail, Permutation_app_comm.
  - eapply Permutation_trans; eassumption.
Qed.

Section Sums.
Variable w : nat -> nat -> Q.

Lemma front_sum_anti st base v : antisym w -> wf st -> vertices_in front_scale st -> In base (ms_front st) ->
  v <> be_v1 base -> v <> be_v2 base ->
  sides_expected st (TR 0 (be_v1 base) (be_v2 base) v true 0) ->
  esum w (ends (kept st base v ++ new_edges (ms_ne st) (snd (plan_of st base v)))) +
    (w (be_v1 base) (be_v2 base) + w (be_v2 base) v + w v (be_v1 base)) == esum w (ends (ms_front st)).
Proof.
  intros A W S Hb N1 N2 X.
  rewrite (esum_perm w _ _ (perm_ends _ _ (front_split st base v W S Hb N1 N2))).
  rewrite ends_app, esum_app, new_edges_ends. cbn [ends map]. cbn [esum].
  rewrite map_app. fold (ends (kept st base v)). fold (ends (fst (plan_of st base v))).
  rewrite esum_app. unfold plan_of, adv_plan. destruct X as [X1 X2]. cbn in X1, X2.
  pose proof (A (be_v1 base) v) as A1. pose proof (A (be_v2 base) v) as A2.
  destruct (get_edge_nodir (ms_front st) v (be_v1 base)) as [f1|] eqn:E1;
  destruct (get_edge_nodir (ms_front st) v (be_v2 base)) as [f2|] eqn:E2;
  cbn [fst snd ends map esum].
  - destruct (X1 f1 eq_refl) as [-> ->]. destruct (X2 f2 eq_refl) as [-> ->]. lra.
  - destruct (X1 f1 eq_refl) as [-> ->]. lra.
  - destruct (X2 f2 eq_refl) as [-> ->]. lra.
  - lra.
Qed.

Definition symm : Prop := forall a b, w a b == w b a.

Definition intr_of (base : bedge) (L : list bedge) : list (nat * nat) :=
  map pair_of (filter interior L) ++ (if interior base then [pair_of base] else []).

Lemma front_sum_sym st base v : symm -> wf st -> vertices_in front_scale st -> In base (ms_front st) ->
  v <> be_v1 base -> v <> be_v2 base ->
  let new := kept st base v ++ new_edges (ms_ne st) (snd (plan_of st base v)) in
  (w (be_v1 base) (be_v2 base) + w (be_v2 base) v + w v (be_v1 base))
  - 2 * esum w (intr_of base (fst (plan_of st base v)))
  - esum w (ends (filter interior new)) + esum w (ends (filter (fun e => negb (interior e)) new))
  == - esum w (ends (filter interior (ms_front st)))
     + esum w (ends (filter (fun e => negb (interior e)) (ms_front st))).
Proof.
  intros Y W S Hb N1 N2 new.
  pose proof (front_split st base v W S Hb N1 N2) as P.
  rewrite (esum_perm w _ _ (perm_ends _ _ (perm_filter interior _ _ P))).
  rewrite (esum_perm w _ _ (perm_ends _ _ (perm_filter (fun e => negb (interior e)) _ _ P))).
  unfold new. rewrite !filter_app, new_edges_interior, new_edges_boundary, !ends_app, !esum_app, new_edges_ends.
  cbn [filter]. unfold intr_of.
  assert (G : forall e, interior e = true ->
    esum w (ends (if interior e then [e] else [])) == w (be_v1 e) (be_v2 e)) by (intros e ->; cbn; ring).
  unfold plan_of, adv_plan.
  assert (K : forall a b f, get_edge_nodir (ms_front st) a b = Some f -> w (be_v1 f) (be_v2 f) == w a b).
  { intros a b f E. apply get_edge_in in E. destruct E as [_ [[-> ->]|[-> ->]]]; [reflexivity|apply Y]. }
  pose proof (Y v (be_v1 base)) as Y1. pose proof (Y v (be_v2 base)) as Y2.
  set (kI := filter interior (kept st base v)). set (kB := filter (fun e => negb (interior e)) (kept st base v)).
  destruct (get_edge_nodir (ms_front st) v (be_v1 base)) as [f1|] eqn:E1;
  destruct (get_edge_nodir (ms_front st) v (be_v2 base)) as [f2|] eqn:E2;
  try (pose proof (K _ _ _ E1) as K1); try (pose proof (K _ _ _ E2) as K2);
  cbn [fst snd filter app]; rewrite ?filter_app; cbn [filter]; fold kI; fold kB;
  destruct (interior base); try destruct (interior f1); try destruct (interior f2);
  cbn [negb app map pair_of ends]; fold (ends kI); fold (ends kB); cbn [esum]; unfold pair_of; lra.
Qed.
End Sums.

(* ---- candidate triangles only extend the element list ---- *)
Definition fresh_tris (st : mstate) (X : list tri) (n : nat) : Prop :=
  (ms_nt st <= n)%nat /\ NoDup (map tr_id X) /\
  forall x, In x X -> (ms_nt st <= tr_id x < n)%nat /\ tr_act x = false /\ tr_col x = ms_col st /\
    (tr_v1 x < ms_nv st)%nat /\ (tr_v2 x < ms_nv st)%nat /\ (tr_v3 x < ms_nv st)%nat.
Definition extended (st st1 : mstate) : Prop :=
  exists X n, st1 = with_tris st (ms_tris st ++ X) n /\ fresh_tris st X n.

Lemma with_tris_eta st : with_tris st (ms_tris st) (ms_nt st) = st.
Proof. destruct st; reflexivity. Qed.
Lemma extended_refl st : extended st st.
Proof.
  exists [], (ms_nt st). rewrite app_nil_r, with_tris_eta. split; [reflexivity|].
  split; [lia|]. split; [constructor|]. intros x [].
Qed.
Lemma nodup_app_ids {A} (g : A -> nat) l l' n : NoDup (map g l) -> NoDup (map g l') ->
  (forall x, In x l -> (g x < n)%nat) -> (forall x, In x l' -> (n <= g x)%nat) ->
  NoDup (map g (l ++ l')).
Proof.
  intros N N' H H'. induction l as [|a l IH]; [exact N'|]. cbn [map app] in *.
  inversion N as [|? ? Na Nl]; subst. constructor; [|apply IH; [exact Nl|intros; apply H; right; assumption]].
  intros C. rewrite map_app in C. apply in_app_or in C. destruct C as [C|C]; [contradiction|].
  apply in_map_iff in C. destruct C as [x [E Hx]]. specialize (H' x Hx). specialize (H a (or_introl eq_refl)). lia.
Qed.
Lemma extended_trans st s1 s2 : extended st s1 -> extended s1 s2 -> extended st s2.
Proof.
  intros (X & n & -> & L & N & HX) (Y & m & -> & L2 & N2 & HY). cbn in *.
  exists (X ++ Y), m. split; [rewrite app_assoc; reflexivity|]. split; [lia|]. split.
  - apply nodup_app_ids with (n := n); try assumption; intros x Hx; [apply HX in Hx|apply HY in Hx]; lia.
  - intros x Hx. apply in_app_or in Hx. destruct Hx as [Hx|Hx].
    + destruct (HX x Hx) as [? ?]. split; [lia|assumption].
    + destruct (HY x Hx) as [? ?]. split; [lia|assumption].
Qed.
Lemma extended_wf st st1 : wf st -> extended st st1 -> wf st1.
Proof.
  intros W (X & n & -> & L & N & HX). constructor; cbn; try apply W.
  - apply nodup_app_ids with (n := ms_nt st); [apply W|exact N|apply W|]. intros x Hx. apply HX in Hx. lia.
  - intros t Ht. apply in_app_or in Ht. destruct Ht as [Ht|Ht]; [apply (wf_tlt _ W) in Ht; lia|apply HX in Ht; lia].
  - intros t Ht. apply in_app_or in Ht. destruct Ht as [Ht|Ht]; [apply (wf_tv _ W); exact Ht|apply HX in Ht; tauto].
Qed.
Lemma extended_generated st st1 : extended st st1 -> generated st1 = generated st.
Proof.
  intros (X & n & -> & L & N & HX). unfold generated. cbn. rewrite filter_app.
  rewrite (filter_none tr_act X); [apply app_nil_r|]. intros x Hx. apply HX in Hx. tauto.
Qed.
Lemma extended_in st st1 t : extended st st1 -> In t (ms_tris st) -> In t (ms_tris st1).
Proof. intros (X & n & -> & _) H. cbn. apply in_or_app. left. exact H. Qed.

Lemma add_triangle_ext st a b c : (a < ms_nv st)%nat -> (b < ms_nv st)%nat -> (c < ms_nv st)%nat ->
  extended st (fst (add_triangle st a b c)).
Proof.
  intros Ha Hb Hc. unfold add_triangle. cbn [fst].
  eexists [_], _. split; [reflexivity|]. split; [lia|]. split; [constructor; [intros []|constructor]|].
  intros x [<-|[]]. cbn. repeat split; try assumption; lia.
Qed.

Section Steps.
Variable mesh_scale : Q.
Variable tri_ok : mstate -> tri -> bool.
Variable vtx_ok : mstate -> nat -> bool.
Variable qual : mstate -> tri -> Q.

Lemma remove_triangle_ext st st1 t : wf st -> extended st st1 -> (ms_nt st <= tr_id t)%nat ->
  extended st (remove_triangle mesh_scale st1 t).
Proof.
  intros W (X & n & -> & L & N & HX) Ht. unfold remove_triangle.
  destruct (in_square mesh_scale (tri_loc _ t)); [|exists X, n; split; [reflexivity|split; [exact L|split; assumption]]].
  cbn [ms_tris ms_nt with_tris].
  exists (filter (fun s => negb (Nat.eqb (tr_id s) (tr_id t))) X), n. split; [|split; [exact L|split]].
  - unfold with_tris. cbn. f_equal. rewrite filter_app. f_equal. apply filter_all.
    intros s Hs. apply (wf_tlt _ W) in Hs. destruct (Nat.eqb_spec (tr_id s) (tr_id t)); [lia|reflexivity].
  - apply nodup_filter_ids. exact N.
  - intros x Hx. apply filter_In in Hx. apply HX. apply Hx.
Qed.
Lemma remove_triangle_keeps st t s : In s (ms_tris st) -> tr_id s <> tr_id t ->
  In s (ms_tris (remove_triangle mesh_scale st t)).
Proof.
  intros H Ne. unfold remove_triangle. destruct (in_square mesh_scale (tri_loc _ t)); [|exact H]. cbn.
  apply filter_In. split; [exact H|]. destruct (Nat.eqb_spec (tr_id s) (tr_id t)); [contradiction|reflexivity].
Qed.
Lemma fold_remove_ext st ts st1 : wf st -> extended st st1 -> (forall t, In t ts -> (ms_nt st <= tr_id t)%nat) ->
  extended st (fold_left (remove_triangle mesh_scale) ts st1).
Proof.
  intros W. revert st1. induction ts as [|t ts IH]; intros st1 E H; [exact E|]. cbn [fold_left].
  apply IH; [|intros; apply H; right; assumption]. apply remove_triangle_ext; try assumption. apply H. left. reflexivity.
Qed.
Lemma fold_remove_keeps ts st s : In s (ms_tris st) -> (forall t, In t ts -> tr_id s <> tr_id t) ->
  In s (ms_tris (fold_left (remove_triangle mesh_scale) ts st)).
Proof.
  revert st. induction ts as [|t ts IH]; intros st H N; [exact H|]. cbn [fold_left].
  apply IH; [|intros; apply N; right; assumption]. apply remove_triangle_keeps; [exact H|]. apply N. left. reflexivity.
Qed.

Definition candidate (st : mstate) (base : bedge) (cands : list nat) (t : tri) : Prop :=
  tr_v1 t = be_v1 base /\ tr_v2 t = be_v2 base /\ In (tr_v3 t) cands /\ tr_act t = false /\
  ms_onf st (tr_v3 t) = true /\
  orientation (ms_pos st (be_v1 base)) (ms_pos st (be_v2 base)) (ms_pos st (tr_v3 t)) <> CL /\
  exists stx, extended st stx /\ tri_ok stx t = true.

Lemma create_possible_spec cands : forall st base, wf st -> In base (ms_front st) ->
  (forall v, In v cands -> (v < ms_nv st)%nat) ->
  let r := create_possible mesh_scale tri_ok st base cands in
  extended st (fst r) /\ NoDup (map tr_id (snd r)) /\
  forall t, In t (snd r) -> In t (ms_tris (fst r)) /\ (ms_nt st <= tr_id t)%nat /\ candidate st base cands t.
Proof.
  assert (M : forall st st1 base cands cands' t, extended st st1 -> (forall v, In v cands' -> In v cands) ->
    candidate st1 base cands' t -> candidate st base cands t).
  { intros st st1 base cands0 cands' t X I C. pose proof X as X0. destruct X as (Y & n & -> & _).
    destruct C as (C1 & C2 & C3 & C4 & C5 & C6 & stx & C7 & C8).
    do 2 (split; [assumption|]). split; [apply I; assumption|]. do 3 (split; [assumption|]).
    exists stx. split; [eapply extended_trans; eassumption|exact C8]. }
  induction cands as [|v r IH]; intros st base W Hb HC res; unfold res; clear res.
  { cbn. split; [apply extended_refl|]. split; [constructor|]. intros t []. }
  cbn [create_possible].
  assert (HC' : forall u, In u r -> (u < ms_nv st)%nat) by (intros; apply HC; right; assumption).
  assert (Skip : let r0 := create_possible mesh_scale tri_ok st base r in
    extended st (fst r0) /\ NoDup (map tr_id (snd r0)) /\
    forall t, In t (snd r0) -> In t (ms_tris (fst r0)) /\ (ms_nt st <= tr_id t)%nat /\ candidate st base (v :: r) t).
  { destruct (IH st base W Hb HC') as (A & B & C). split; [exact A|]. split; [exact B|].
    intros t Ht. destruct (C t Ht) as (C1 & C2 & C3). split; [exact C1|]. split; [exact C2|].
    eapply M; [apply extended_refl| |exact C3]. intros; right; assumption. }
  destruct (ms_onf st v) eqn:On; cbn [negb]; [|exact Skip].
  destruct (orient_eqb (orientation (ms_pos st (be_v1 base)) (ms_pos st (be_v2 base)) (ms_pos st v)) CL) eqn:Or; [exact Skip|].
  destruct (wf_ev _ W base Hb) as (B1 & B2 & _).
  pose proof (add_triangle_ext st (be_v1 base) (be_v2 base) v B1 B2 (HC v (or_introl eq_refl))) as X1.
  destruct (add_triangle st (be_v1 base) (be_v2 base) v) as [st1 t] eqn:At. cbn [fst] in X1.
  pose proof (extended_wf _ _ W X1) as W1.
  assert (Et : t = TR (ms_nt st) (be_v1 base) (be_v2 base) v false (ms_col st)) by (unfold add_triangle in At; injection At; intros; subst; reflexivity).
  assert (E1 : st1 = with_tris st (ms_tris st ++ [t]) (S (ms_nt st))) by (unfold add_triangle in At; injection At; intros; subst; reflexivity).
  assert (Orn : orientation (ms_pos st (be_v1 base)) (ms_pos st (be_v2 base)) (ms_pos st v) <> CL).
  { intros C. rewrite C in Or. discriminate. }
  destruct (tri_ok st1 t) eqn:Ok1.
  - assert (Hb1 : In base (ms_front st1)) by (rewrite E1; exact Hb).
    assert (HC1 : forall u, In u r -> (u < ms_nv st1)%nat) by (rewrite E1; exact HC').
    destruct (IH st1 base W1 Hb1 HC1) as (A & B & C).
    destruct (create_possible mesh_scale tri_ok st1 base r) as [st2 ts]. cbn [fst snd] in *.
    split; [eapply extended_trans; eassumption|]. split.
    + cbn [map]. constructor; [|exact B]. intros I. apply in_map_iff in I. destruct I as [s [Es Hs]].
      destruct (C s Hs) as (_ & C2 & _). rewrite E1 in C2. cbn in C2. rewrite Et in Es. cbn in Es. lia.
    + intros s [<-|Hs].
      * split; [eapply extended_in; [exact A|]; rewrite E1; cbn; apply in_or_app; right; left; reflexivity|].
        split; [rewrite Et; cbn; lia|].
        rewrite Et. unfold candidate. cbn. do 2 (split; [reflexivity|]). split; [left; reflexivity|].
        split; [reflexivity|]. split; [exact On|]. split; [exact Orn|].
        exists st1. split; [exact X1|]. rewrite <- Et. exact Ok1.
      * destruct (C s Hs) as (C1 & C2 & C3). split; [exact C1|]. split; [rewrite E1 in C2; cbn in C2; lia|].
        eapply M; [exact X1| |exact C3]. intros; right; assumption.
  - assert (X2 : extended st (remove_triangle mesh_scale st1 t)).
    { apply remove_triangle_ext; try assumption. rewrite Et. cbn. lia. }
    pose proof (extended_wf _ _ W X2) as W2.
    set (st2 := remove_triangle mesh_scale st1 t) in *.
    assert (Eq2 : ms_front st2 = ms_front st /\ ms_nv st2 = ms_nv st /\ (ms_nt st <= ms_nt st2)%nat).
    { destruct X2 as (Y & n & -> & L & _). cbn. repeat split. exact L. }
    destruct Eq2 as (F2 & V2 & T2).
    assert (Hb2 : In base (ms_front st2)) by (rewrite F2; exact Hb).
    assert (HC2 : forall u, In u r -> (u < ms_nv st2)%nat) by (rewrite V2; exact HC').
    destruct (IH st2 base W2 Hb2 HC2) as (A & B & C).
    split; [eapply extended_trans; eassumption|]. split; [exact B|].
    intros s Hs. destruct (C s Hs) as (C1 & C2 & C3). split; [exact C1|]. split; [lia|].
    eapply M; [exact X2| |exact C3]. intros; right; assumption.
Qed.

Lemma ins_tri_perm q t l : Permutation (t :: l) (ins_tri q t l).
Proof.
  induction l as [|s l IH]; [apply Permutation_refl|]. cbn [ins_tri].
  destruct (Qltb (q t) (q s)); [|apply Permutation_refl].
  eapply Permutation_trans; [apply perm_swap|]. apply perm_skip. exact IH.
Qed.
Lemma sort_tris_perm q l : Permutation l (sort_tris q l).
Proof.
  induction l as [|t l IH]; [apply Permutation_refl|]. cbn [sort_tris fold_right].
  eapply Permutation_trans; [apply perm_skip; exact IH|]. apply ins_tri_perm.
Qed.
(* the first triangle has the best quality *)
Lemma ins_tri_head q t l s r : ins_tri q t l = s :: r ->
  (forall l0 x, l = l0 :: x -> forall y, In y l -> q y <= q l0) -> forall y, In y (t :: l) -> q y <= q s.
Proof.
  intros E H y Hy. destruct l as [|a l]; cbn [ins_tri] in E.
  - injection E as <- <-. destruct Hy as [<-|[]]. apply Qle_refl.
  - specialize (H a l eq_refl). destruct (Qltb (q t) (q a)) eqn:B; injection E as <- <-; qbool.
    + destruct Hy as [<-|Hy]; [lra|apply H; exact Hy].
    + destruct Hy as [<-|Hy]; [lra|]. specialize (H y Hy). lra.
Qed.
Lemma sort_tris_head q l : forall s r, sort_tris q l = s :: r -> forall y, In y l -> q y <= q s.
Proof.
  induction l as [|t l IH]; intros s r E y Hy; [destruct Hy|]. cbn [sort_tris fold_right] in E.
  eapply ins_tri_head; [exact E| |].
  - intros l0 x E0 z Hz. apply (IH l0 x); [exact E0|]. eapply Permutation_in; [apply Permutation_sym, sort_tris_perm|exact Hz].
  - destruct Hy as [<-|Hy]; [left; reflexivity|right]. eapply Permutation_in; [apply sort_tris_perm|exact Hy].
Qed.

(* ---- everything that happens before the front is advanced ---- *)
Record grown (st st2 : mstate) : Prop := {
  g_nv : (ms_nv st <= ms_nv st2)%nat;
  g_front : ms_front st2 = ms_front st;
  g_ne : ms_ne st2 = ms_ne st;
  g_intr : ms_intr st2 = ms_intr st;
  g_gen : generated st2 = generated st;
  g_area : ms_area st2 = ms_area st;
  g_col : ms_col st2 = ms_col st;
  g_quads : ms_quads st2 = ms_quads st;
  g_pos : forall v, (v < ms_nv st)%nat -> ms_pos st2 v = ms_pos st v;
  g_onf : forall v, (v < ms_nv st)%nat -> ms_onf st2 v = ms_onf st v
}.

Lemma extended_grown st st1 : extended st st1 -> grown st st1.
Proof.
  intros X. pose proof (extended_generated _ _ X) as G. destruct X as (Y & n & -> & _).
  constructor; cbn; try reflexivity; try lia. exact G.
Qed.
Lemma grown_trans a b c : grown a b -> grown b c -> grown a c.
Proof.
  intros G H. pose proof (g_nv _ _ G). pose proof (g_nv _ _ H). constructor.
  - lia.
  - rewrite (g_front _ _ H). apply G.
  - rewrite (g_ne _ _ H). apply G.
  - rewrite (g_intr _ _ H). apply G.
  - rewrite (g_gen _ _ H). apply G.
  - rewrite (g_area _ _ H). apply G.
  - rewrite (g_col _ _ H). apply G.
  - rewrite (g_quads _ _ H). apply G.
  - intros v Hv. rewrite (g_pos _ _ H) by lia. apply G. exact Hv.
  - intros v Hv. rewrite (g_onf _ _ H) by lia. apply G. exact Hv.
Qed.
Lemma grown_refl st : grown st st.
Proof. constructor; auto; lia. Qed.

Lemma add_vertex_grown st xy : wf st -> grown st (fst (add_vertex st xy)) /\ wf (fst (add_vertex st xy)).
Proof.
  intros W. split.
  - constructor; cbn; auto; intros v Hv; destruct (Nat.eqb_spec v (ms_nv st)); try reflexivity; lia.
  - constructor; cbn; try apply W.
    + intros e He. destruct ((wf_ev _ W) e He) as (? & ? & ?). repeat split; try assumption; lia.
    + intros t Ht. destruct ((wf_tv _ W) t Ht) as (? & ? & ?). repeat split; lia.
    + apply NoDup_app_snoc; [apply W|]. intros C. apply (wf_vlt _ W) in C. lia.
    + intros v Hv. apply in_app_or in Hv. destruct Hv as [Hv|[<-|[]]]; [apply (wf_vlt _ W) in Hv; lia|lia].
Qed.
End Steps.
