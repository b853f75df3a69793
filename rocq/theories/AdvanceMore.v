(* Consequences of the front invariants: degrees, areas, conformity, and the
   geometric reason why the expected edges are found. *)
From Coq Require Import Lia Lqa Permutation Setoid.
From Verif Require Import Base Chain GeomModel GeomSpec GeomProofs FacetModel FacetProofs UtilModel BdryModel BdrySpec
  AdvanceModel AdvanceSpec AdvanceProofs AdvanceInv.
Open Scope Q_scope.

Definition nQ (n : nat) : Q := inject_Z (Z.of_nat n).
Lemma nQ_S n : nQ (S n) == 1 + nQ n.
Proof. unfold nQ. rewrite Nat2Z.inj_succ, <- Z.add_1_l, inject_Z_plus. reflexivity. Qed.
Lemma nQ_inj a b : nQ a == nQ b -> a = b.
Proof. unfold nQ. intros H. apply (proj1 (inject_Z_injective _ _)) in H. apply Nat2Z.inj. exact H. Qed.
Lemma nQ_plus a b : nQ (a + b) == nQ a + nQ b.
Proof. unfold nQ. rewrite Nat2Z.inj_add, inject_Z_plus. reflexivity. Qed.
Lemma nQ_le a b : (a <= b)%nat -> nQ a <= nQ b.
Proof. unfold nQ. intros. rewrite <- Zle_Qle. lia. Qed.
Lemma nQ_nonneg a : 0 <= nQ a.
Proof. change 0 with (nQ 0). apply nQ_le. lia. Qed.

Lemma esum_count (g : nat -> nat -> bool) l :
  esum (fun a b => if g a b then 1 else 0) l == nQ (length (filter (fun e => g (fst e) (snd e)) l)).
Proof.
  induction l as [|[a b] l IH]; [reflexivity|]. cbn [esum filter fst snd]. rewrite IH.
  destruct (g a b); cbn [length]; [rewrite nQ_S; reflexivity|ring].
Qed.
Lemma uses_app p q l l' : uses p q (l ++ l') = (uses p q l + uses p q l')%nat.
Proof. unfold uses. rewrite filter_app, app_length. reflexivity. Qed.
Lemma uses_perm p q l l' : Permutation l l' -> uses p q l = uses p q l'.
Proof. intros P. unfold uses. apply Permutation_length, perm_filter, P. Qed.
Lemma uses_cons p q a b l : uses p q ((a, b) :: l) = ((if Nat.eqb a p && Nat.eqb b q then 1 else 0) + uses p q l)%nat.
Proof. unfold uses. cbn [filter fst snd]. destruct (Nat.eqb a p && Nat.eqb b q); reflexivity. Qed.
Lemma uses_zero p q l : ~ In (p, q) l -> uses p q l = 0%nat.
Proof.
  intros H. unfold uses. rewrite filter_none; [reflexivity|]. intros [a b] Hab. cbn.
  destruct (Nat.eqb_spec a p), (Nat.eqb_spec b q); try reflexivity. subst. contradiction.
Qed.
Lemma uses_any_split p q l : p <> q -> uses_any p q l = (uses p q l + uses q p l)%nat.
Proof.
  intros N. induction l as [|[a b] l IH]; [reflexivity|]. rewrite !uses_cons. unfold uses_any in *. cbn [filter fst snd].
  destruct (Nat.eqb_spec a p), (Nat.eqb_spec b q), (Nat.eqb_spec b p), (Nat.eqb_spec a q); subst; try contradiction;
    cbn [andb orb length]; rewrite ?IH; try lia; exfalso; congruence.
Qed.

Definition w_dir (p q a b : nat) : Q := if Nat.eqb a p && Nat.eqb b q then 1 else 0.
Definition w_anti (p q a b : nat) : Q := w_dir p q a b - w_dir q p a b.
Definition w_any (p q a b : nat) : Q := if (Nat.eqb a p && Nat.eqb b q) || (Nat.eqb b p && Nat.eqb a q) then 1 else 0.
Lemma w_anti_antisym p q : antisym (w_anti p q).
Proof.
  intros a b. unfold w_anti, w_dir.
  rewrite (andb_comm (Nat.eqb b p)), (andb_comm (Nat.eqb b q)). ring.
Qed.
Lemma w_any_sym p q : symm (w_any p q).
Proof. intros a b. unfold w_any. rewrite orb_comm. reflexivity. Qed.
Lemma esum_dir p q l : esum (w_dir p q) l == nQ (uses p q l).
Proof. unfold w_dir. apply (esum_count (fun a b => Nat.eqb a p && Nat.eqb b q)). Qed.
Lemma esum_anti p q l : esum (w_anti p q) l == nQ (uses p q l) - nQ (uses q p l).
Proof.
  rewrite <- !esum_dir. induction l as [|[a b] l IH]; [reflexivity|]. cbn [esum]. rewrite IH. unfold w_anti. ring.
Qed.
Lemma esum_any p q l : esum (w_any p q) l == nQ (uses_any p q l).
Proof. unfold w_any. apply (esum_count (fun a b => (Nat.eqb a p && Nat.eqb b q) || (Nat.eqb b p && Nat.eqb a q))). Qed.

(* weight counting the edge ends at v *)
Definition w_deg (v a b : nat) : Q := ind v a + ind v b.
Lemma w_deg_sym v : symm (w_deg v).
Proof. intros a b. unfold w_deg. ring. Qed.
Lemma esum_deg v l : esum (w_deg v) l == nQ (in_deg v l + out_deg v l).
Proof.
  unfold in_deg, out_deg. induction l as [|[a b] l IH]; [reflexivity|]. cbn [esum filter fst snd]. rewrite IH.
  unfold w_deg, ind. destruct (Nat.eqb a v), (Nat.eqb b v); cbn [length]; rewrite ?Nat.add_succ_r, ?Nat.add_succ_l, ?nQ_S; ring.
Qed.
Fixpoint corners (v : nat) (ts : list tri) : nat :=
  match ts with [] => 0%nat | t :: r =>
    ((if Nat.eqb (tr_v1 t) v then 1 else 0) + (if Nat.eqb (tr_v2 t) v then 1 else 0)
     + (if Nat.eqb (tr_v3 t) v then 1 else 0) + corners v r)%nat end.
Lemma sides_deg v ts : esum (w_deg v) (sides ts) == 2 * nQ (corners v ts).
Proof.
  induction ts as [|t ts IH]; [reflexivity|]. unfold sides. cbn [flat_map]. rewrite esum_app. fold (sides ts). rewrite IH.
  cbn [tri_sides esum corners]. rewrite !nQ_plus. unfold w_deg, ind.
  destruct (Nat.eqb (tr_v1 t) v), (Nat.eqb (tr_v2 t) v), (Nat.eqb (tr_v3 t) v);
    change (nQ 0) with 0; change (nQ 1) with 1; ring.
Qed.

Lemma filter_split_perm {A} (f : A -> bool) l : Permutation l (filter f l ++ filter (fun x => negb (f x)) l).
Proof.
  induction l as [|a l IH]; [constructor|]. cbn [filter]. destruct (f a); cbn [negb app].
  - apply perm_skip. exact IH.
  - eapply Permutation_trans; [apply perm_skip; exact IH|]. apply Permutation_middle.
Qed.

Lemma degree_split v es : nQ (degree v es) ==
  esum (w_deg v) (ends (filter interior es)) + esum (w_deg v) (ends (filter (fun e => negb (interior e)) es)).
Proof.
  unfold degree. rewrite <- esum_deg. rewrite <- esum_app, <- ends_app. apply esum_perm, perm_ends, filter_split_perm.
Qed.

Section More.
Variable mesh_scale : Q.
Variable tri_ok : mstate -> tri -> bool.
Variable vtx_ok : mstate -> nat -> bool.
Variable qual : mstate -> tri -> Q.
Notation fstep := (fstep mesh_scale tri_ok vtx_ok qual).
Notation frun := (frun mesh_scale tri_ok vtx_ok qual).
Notation accepted := (accepted mesh_scale tri_ok vtx_ok qual).

(* the number of front edges at a vertex never changes its parity *)
Lemma run_degree os st st' v : wf st -> vertices_in front_scale st -> no_ghosts st ->
  Forall (op_in front_scale) os -> frun st os = Ok st' ->
  Nat.even (degree v (ms_front st')) = Nat.even (degree v (ms_front st)).
Proof.
  intros W V NG O H.
  pose proof (run_sym mesh_scale tri_ok vtx_ok qual _ os st st' (w_deg_sym v) W V NG O H) as E.
  unfold wbalance in E. rewrite !sides_deg in E.
  rewrite (esum_deg v (ms_intr st)), (esum_deg v (ms_intr st')) in E.
  pose proof (degree_split v (ms_front st)) as D. pose proof (degree_split v (ms_front st')) as D'.
  rewrite (esum_deg v (ends (filter interior (ms_front st)))) in E, D.
  rewrite (esum_deg v (ends (filter (fun e => negb (interior e)) (ms_front st)))) in E, D.
  rewrite (esum_deg v (ends (filter interior (ms_front st')))) in E, D'.
  rewrite (esum_deg v (ends (filter (fun e => negb (interior e)) (ms_front st')))) in E, D'.
  set (a := corners v (generated st)) in *. set (a' := corners v (generated st')) in *.
  set (i := (in_deg v (ms_intr st) + out_deg v (ms_intr st))%nat) in *.
  set (i' := (in_deg v (ms_intr st') + out_deg v (ms_intr st'))%nat) in *.
  set (f := (in_deg v (ends (filter interior (ms_front st))) + out_deg v (ends (filter interior (ms_front st))))%nat) in *.
  set (f' := (in_deg v (ends (filter interior (ms_front st'))) + out_deg v (ends (filter interior (ms_front st'))))%nat) in *.
  set (b := (in_deg v (ends (filter (fun e => negb (interior e)) (ms_front st))) + out_deg v (ends (filter (fun e => negb (interior e)) (ms_front st))))%nat) in *.
  set (b' := (in_deg v (ends (filter (fun e => negb (interior e)) (ms_front st'))) + out_deg v (ends (filter (fun e => negb (interior e)) (ms_front st'))))%nat) in *.
  rewrite <- nQ_plus in D, D'. apply nQ_inj in D, D'. rewrite D, D'.
  assert (Ez : (2 * a' + 2 * i + f + b' = 2 * a + 2 * i' + f' + b)%nat).
  { apply nQ_inj. replace (2 * a')%nat with (a' + a')%nat by lia. replace (2 * a)%nat with (a + a)%nat by lia.
    replace (2 * i')%nat with (i' + i')%nat by lia. replace (2 * i)%nat with (i + i)%nat by lia.
    rewrite !nQ_plus. lra. }
  assert (Hm : exists k, (f' + b' + 2 * k)%nat = (f + b + 2 * (f' + i' + a + b'))%nat \/ (f' + b' = f + b + 2 * k)%nat).
  { exists (f + i + a' + b')%nat. left. lia. }
  destruct Hm as [k [Hk|Hk]].
  - rewrite <- (Nat.add_0_r (f' + b')), <- (Nat.add_0_r (f + b)).
    assert (P : forall m n, Nat.even (m + 2 * n) = Nat.even m).
    { intros m n. rewrite Nat.even_add, Nat.even_mul. cbn. destruct (Nat.even m); reflexivity. }
    rewrite !Nat.add_0_r. rewrite <- (P (f' + b')%nat k), Hk, P. reflexivity.
  - rewrite Hk, Nat.even_add, Nat.even_mul. cbn. destruct (Nat.even (f + b)); reflexivity.
Qed.

(* ---- areas ---- *)
Definition w_area (pos : nat -> vec2) (a b : nat) : Q := (1 # 2) * vcross (pos a) (pos b).
Lemma w_area_antisym pos : antisym (w_area pos).
Proof. intros a b. unfold w_area, vcross. ring. Qed.
Lemma sides_area pos ts : esum (w_area pos) (sides ts) == tri_areas pos ts.
Proof.
  induction ts as [|t ts IH]; [reflexivity|]. unfold sides. cbn [flat_map]. rewrite esum_app. fold (sides ts). rewrite IH.
  unfold tri_areas. cbn [tri_sides esum map sumQ]. unfold w_area, tri_area, vcross, vsub. cbn [vx vy]. ring.
Qed.
Lemma enclosed_area pos es : enclosed pos es == esum (w_area pos) (ends es).
Proof. unfold enclosed, w_area. rewrite <- esum_scale. reflexivity. Qed.

Lemma run_area os st st' : wf st -> vertices_in front_scale st -> Forall (op_in front_scale) os ->
  accepted sides_expected st os -> frun st os = Ok st' ->
  tri_areas (ms_pos st') (generated st') + enclosed (ms_pos st') (ms_front st') ==
  tri_areas (ms_pos st) (generated st) + enclosed (ms_pos st) (ms_front st).
Proof.
  intros W V O X H.
  pose proof (run_anti mesh_scale tri_ok vtx_ok qual _ os st st' (w_area_antisym (ms_pos st')) W V O X H) as E.
  unfold wtotal in E. rewrite !sides_area, <- !enclosed_area in E.
  destruct (run_wf mesh_scale tri_ok vtx_ok qual os st st' W H) as (_ & _ & P & _).
  rewrite E. apply Qplus_comp.
  - apply tri_areas_ext. intros t Ht. apply gen_in in Ht. destruct (wf_tv _ W t Ht) as (A & B & C).
    repeat split; apply P; assumption.
  - rewrite !enclosed_area. apply esum_ext. intros a b Hab. unfold ends in Hab. apply in_map_iff in Hab.
    destruct Hab as [e [Ee He]]. injection Ee as <- <-. destruct (wf_ev _ W e He) as (A & B & _).
    unfold w_area. rewrite (P _ A), (P _ B). reflexivity.
Qed.

(* ---- the interior mesh edges ---- *)
Lemma run_edges os st st' p q : wf st -> vertices_in front_scale st -> no_ghosts st ->
  Forall (op_in front_scale) os -> frun st os = Ok st' ->
  (uses_any p q (sides (generated st')) + 2 * uses_any p q (ms_intr st)
     + uses_any p q (ends (filter interior (ms_front st)))
     + uses_any p q (ends (filter (fun e => negb (interior e)) (ms_front st'))) =
   uses_any p q (sides (generated st)) + 2 * uses_any p q (ms_intr st')
     + uses_any p q (ends (filter interior (ms_front st')))
     + uses_any p q (ends (filter (fun e => negb (interior e)) (ms_front st))))%nat.
Proof.
  intros W V NG O H.
  pose proof (run_sym mesh_scale tri_ok vtx_ok qual _ os st st' (w_any_sym p q) W V NG O H) as E.
  unfold wbalance in E. rewrite !esum_any in E. apply nQ_inj.
  replace (2 * uses_any p q (ms_intr st))%nat with (uses_any p q (ms_intr st) + uses_any p q (ms_intr st))%nat by lia.
  replace (2 * uses_any p q (ms_intr st'))%nat with (uses_any p q (ms_intr st') + uses_any p q (ms_intr st'))%nat by lia.
  rewrite !nQ_plus. lra.
Qed.

(* ---- conformity ---- *)
(* a side that is not closed by a front edge is new: no triangle lies on this
   side of it yet, and it does not run against an edge of the initial front *)
Definition side_fresh (f0 : list bedge) (st : mstate) (a b : nat) : Prop :=
  uses a b (sides (generated st)) = 0%nat /\ uses b a (ends f0) = 0%nat.
Definition not_overlapping (f0 : list bedge) (st : mstate) (t : tri) : Prop :=
  (get_edge_nodir (ms_front st) (tr_v3 t) (tr_v1 t) = None -> side_fresh f0 st (tr_v3 t) (tr_v1 t)) /\
  (get_edge_nodir (ms_front st) (tr_v3 t) (tr_v2 t) = None -> side_fresh f0 st (tr_v2 t) (tr_v3 t)).

Definition once (st : mstate) : Prop :=
  forall p q, (uses p q (sides (generated st)) + uses p q (ends (ms_front st)) <= 1)%nat.

Lemma step_once f0 st o st' r : wf st -> vertices_in front_scale st -> op_in front_scale o ->
  (forall p q, wtotal (w_anti p q) st == esum (w_anti p q) (ends f0)) -> once st ->
  fstep st o = Ok (st', r) -> (forall t, r = Some t -> sides_expected st t /\ not_overlapping f0 st t) -> once st'.
Proof.
  intros W V O B J H X. apply fstep_spec in H; [|exact W]. destruct r as [t|].
  2:{ destruct H as (G & _). intros p q. rewrite (q_gen _ _ G).
      rewrite <- (uses_perm p q _ _ (perm_ends _ _ (q_front _ _ G))). apply J. }
  destruct H as (st2 & base & T & -> & SQ). pose proof (SQ _ V O) as V2.
  pose proof (tk_grown _ _ _ _ _ T) as G. pose proof (tk_wf _ _ _ _ _ T) as W2.
  destruct (X t eq_refl) as [X1 X2]. clear X.
  assert (Hb2 : In base (ms_front st2)) by (rewrite (g_front _ _ G); apply T).
  pose proof (front_split st2 base (tr_v3 t) W2 V2 Hb2 (tk_n1 _ _ _ _ _ T) (tk_n2 _ _ _ _ _ T)) as P.
  pose proof (advance_generated st2 base (tr_v3 t) t W2 (tk_in _ _ _ _ _ T) (tk_act _ _ _ _ _ T)) as PG.
  rewrite (g_front _ _ G) in P. rewrite (g_gen _ _ G) in PG.
  assert (C : forall p q, (uses p q (sides (generated st)) + uses p q (ends (ms_front st)) + uses q p (ends f0) =
                           uses q p (sides (generated st)) + uses q p (ends (ms_front st)) + uses p q (ends f0))%nat).
  { intros p q. pose proof (B p q) as E. unfold wtotal in E. rewrite !esum_anti in E. apply nQ_inj. rewrite !nQ_plus. lra. }
  set (b1 := be_v1 base) in *. set (b2 := be_v2 base) in *. set (v := tr_v3 t) in *.
  assert (T1 : tr_v1 t = b1) by apply T. assert (T2 : tr_v2 t = b2) by apply T.
  unfold sides_expected in X1. unfold not_overlapping in X2. rewrite T1, T2 in X1, X2. fold v in X1, X2.
  destruct X1 as [X11 X12], X2 as [X21 X22].
  intros p q.
  rewrite (uses_perm p q _ _ (perm_sides _ _ PG)).
  rewrite (advance_front_front st2 base v t W2 Hb2).
  rewrite ends_app, uses_app, new_edges_ends.
  unfold sides at 1. cbn [flat_map]. fold (sides (generated st)). rewrite uses_app.
  change (tri_sides (activated t)) with [(tr_v1 t, tr_v2 t); (tr_v2 t, v); (v, tr_v1 t)]. rewrite T1, T2.
  pose proof (J p q) as Jpq.
  rewrite (uses_perm p q _ _ (perm_ends _ _ P)) in Jpq. cbn [ends map] in Jpq.
  rewrite map_app in Jpq. fold (ends (kept st2 base v)) in Jpq. fold (ends (fst (plan_of st2 base v))) in Jpq.
  fold b1 b2 in Jpq. rewrite uses_cons, uses_app in Jpq.
  rewrite !uses_cons. change (uses p q []) with 0%nat.
  (* a fresh side is free in both directions *)
  assert (FR : forall a b, get_edge_nodir (ms_front st) v (if Nat.eqb a v then b else a) = None ->
     (a = v \/ b = v) -> side_fresh f0 st a b ->
     (uses a b (sides (generated st)) + uses a b (ends (ms_front st)) = 0 /\
      uses b a (sides (generated st)) + uses b a (ends (ms_front st)) = 0)%nat).
  { intros a b E Hv [F1 F2].
    assert (Z : uses a b (ends (ms_front st)) = 0%nat /\ uses b a (ends (ms_front st)) = 0%nat).
    { split; apply uses_zero; intros I; unfold ends in I; apply in_map_iff in I; destruct I as [e [Ee He]];
        injection Ee as E1 E2; destruct (get_edge_none _ _ _ E e He) as [Q1 Q2];
        destruct (Nat.eqb_spec a v) as [->|Na];
        (apply Q1; split; congruence) || (apply Q2; split; congruence) || (destruct Hv as [Hv|Hv]; [contradiction|];
          (apply Q1; split; congruence) || (apply Q2; split; congruence)). }
    pose proof (C a b). lia. }
  unfold plan_of, adv_plan in Jpq |- *. fold b1 b2 in Jpq |- *. rewrite (g_front _ _ G) in Jpq |- *.
  assert (Nv1 : v <> b1) by apply T. assert (Nv2 : v <> b2) by apply T.
  assert (Nb : b1 <> b2). { destruct (wf_ev _ W2 base Hb2) as (_ & _ & Nb). exact Nb. }
  assert (Z1 : get_edge_nodir (ms_front st) v b1 = None ->
    (uses v b1 (sides (generated st)) + uses v b1 (ends (ms_front st)) = 0 /\
     uses b1 v (sides (generated st)) + uses b1 v (ends (ms_front st)) = 0)%nat).
  { intros E. apply FR; [rewrite Nat.eqb_refl; exact E|left; reflexivity|apply X21; exact E]. }
  assert (Z2 : get_edge_nodir (ms_front st) v b2 = None ->
    (uses b2 v (sides (generated st)) + uses b2 v (ends (ms_front st)) = 0 /\
     uses v b2 (sides (generated st)) + uses v b2 (ends (ms_front st)) = 0)%nat).
  { intros E. apply FR; [|right; reflexivity|apply X22; exact E].
    destruct (Nat.eqb_spec b2 v) as [E2|E2]; [congruence|exact E]. }
  (* counting in the front before the step, for the pairs of the new edges *)
  assert (KL : forall a b, (uses a b (ends (kept st2 base v)) <= uses a b (ends (ms_front st)))%nat).
  { intros a b. rewrite (uses_perm a b _ _ (perm_ends _ _ P)). cbn [ends map].
    rewrite map_app. fold (ends (kept st2 base v)). rewrite uses_cons, uses_app. lia. }
  pose proof (KL p q) as Kpq.
  destruct (get_edge_nodir (ms_front st) v b1) as [g1|] eqn:E1;
  destruct (get_edge_nodir (ms_front st) v b2) as [g2|] eqn:E2; cbn [fst snd ends map] in Jpq |- *;
  try (destruct (X11 g1 eq_refl) as [Eg1 Eh1]; rewrite Eg1, Eh1 in Jpq);
  try (destruct (X12 g2 eq_refl) as [Eg2 Eh2]; rewrite Eg2, Eh2 in Jpq);
  rewrite ?uses_cons in Jpq; rewrite ?uses_cons; change (uses p q []) with 0%nat in *;
  try (destruct (Z1 eq_refl) as [Z11 Z12]); try (destruct (Z2 eq_refl) as [Z21 Z22]);
  pose proof (J p q) as J0;
  destruct (Nat.eqb_spec b1 p), (Nat.eqb_spec b2 q), (Nat.eqb_spec b2 p), (Nat.eqb_spec v q), (Nat.eqb_spec v p), (Nat.eqb_spec b1 q);
  subst; try contradiction; cbn [andb] in *; try lia; exfalso; congruence.
Qed.

Lemma run_once os st st' : wf st -> vertices_in front_scale st -> Forall (op_in front_scale) os ->
  generated st = [] -> (forall p q, uses p q (ends (ms_front st)) <= 1)%nat ->
  accepted (fun s t => sides_expected s t /\ not_overlapping (ms_front st) s t) st os ->
  frun st os = Ok st' -> once st'.
Proof.
  intros W V O G0 F1 X H.
  pose proof (run_ind mesh_scale tri_ok vtx_ok qual
    (fun s => wf s /\ vertices_in front_scale s /\
       (forall p q, wtotal (w_anti p q) s == esum (w_anti p q) (ends (ms_front st))) /\ once s)
    (op_in front_scale) (fun s t => sides_expected s t /\ not_overlapping (ms_front st) s t)) as R.
  refine (proj2 (proj2 (proj2 (R _ os st st' _ O X H)))).
  - intros s o s' r (W1 & V1 & B1 & J1) O1 E X1.
    split; [exact (step_wf _ _ _ _ _ _ _ _ W1 E)|].
    split; [exact (step_square _ _ _ _ _ _ _ _ _ W1 V1 O1 E)|]. split.
    + intros p q. rewrite <- (B1 p q). apply (step_anti mesh_scale tri_ok vtx_ok qual _ s o s' r (w_anti_antisym p q) W1 V1 O1 E).
      intros t Ht. apply (X1 t Ht).
    + exact (step_once (ms_front st) s o s' r W1 V1 O1 B1 J1 E X1).
  - split; [exact W|]. split; [exact V|]. split.
    + intros p q. unfold wtotal. rewrite G0. cbn [sides flat_map esum]. ring.
    + intros p q. rewrite G0. cbn. apply F1.
Qed.

Lemma run_conform os st st' : wf st -> vertices_in front_scale st -> no_ghosts st -> Forall (op_in front_scale) os ->
  generated st = [] -> ms_intr st = [] -> (forall e, In e (ms_front st) -> interior e = false) ->
  (forall p q, uses_any p q (ends (ms_front st)) <= 1)%nat ->
  accepted (fun s t => sides_expected s t /\ not_overlapping (ms_front st) s t) st os ->
  frun st os = Ok st' -> ms_front st' = [] ->
  forall p q, p <> q ->
    (uses p q (ends (ms_front st)) = 1%nat ->
       uses p q (sides (generated st')) = 1%nat /\ uses q p (sides (generated st')) = 0%nat /\
       uses_any p q (ms_intr st') = 0%nat) /\
    (uses_any p q (ends (ms_front st)) = 0%nat ->
       uses p q (sides (generated st')) = uses q p (sides (generated st')) /\
       (uses p q (sides (generated st')) <= 1)%nat /\
       uses_any p q (ms_intr st') = uses p q (sides (generated st'))).
Proof.
  intros W V NG O G0 I0 B0 F1 X H FE p q N.
  assert (F1' : forall p q, (uses p q (ends (ms_front st)) <= 1)%nat).
  { intros a b. pose proof (F1 a b) as L. destruct (Nat.eq_dec a b) as [->|Nab].
    - rewrite uses_zero; [lia|]. intros I. unfold ends in I. apply in_map_iff in I. destruct I as [e [Ee He]].
      injection Ee as E1 E2. destruct (wf_ev _ W e He) as (_ & _ & Ne). congruence.
    - rewrite uses_any_split in L by assumption. lia. }
  pose proof (run_once os st st' W V O G0 F1' X H) as J.
  assert (XS : accepted sides_expected st os).
  { clear - X. revert X. generalize (ms_front st) as f0. revert st.
    induction os as [|o os IH]; intros st f0 X; [exact I|]. cbn [AdvanceModel.accepted] in *.
    destruct (fstep st o) as [[s1 [t|]]| |]; try exact I.
    - destruct X as [[X1 _] X2]. split; [exact X1|]. exact (IH _ _ X2).
    - exact (IH _ _ X). }
  pose proof (run_anti mesh_scale tri_ok vtx_ok qual _ os st st' (w_anti_antisym p q) W V O XS H) as E.
  unfold wtotal in E. rewrite G0, FE in E. cbn [sides flat_map ends map esum] in E.
  fold (sides (generated st')) in E. fold (ends (ms_front st)) in E. rewrite !esum_anti in E.
  pose proof (run_edges os st st' p q W V NG O H) as D.
  rewrite G0, FE, I0 in D. cbn [filter ends map sides flat_map] in D. fold (sides (generated st')) in D.
  fold (ends (filter interior (ms_front st))) in D. fold (ends (filter (fun e => negb (interior e)) (ms_front st))) in D.
  rewrite (filter_none interior (ms_front st)) in D by exact B0.
  rewrite (filter_all (fun e => negb (interior e)) (ms_front st)) in D by (intros e He; rewrite (B0 e He); reflexivity).
  cbn [ends map] in D. change (uses_any p q []) with 0%nat in D.
  fold (ends (ms_front st)) in D.
  rewrite (uses_any_split p q (sides _)) in D by exact N.
  pose proof (J p q) as Jp. pose proof (J q p) as Jq. rewrite FE in Jp, Jq.
  change (uses p q (ends [])) with 0%nat in Jp. change (uses q p (ends [])) with 0%nat in Jq.
  pose proof (F1 p q) as L. rewrite uses_any_split in L, D |- * by exact N.
  assert (E' : (uses p q (sides (generated st')) + uses q p (ends (ms_front st)) =
                uses q p (sides (generated st')) + uses p q (ends (ms_front st)))%nat).
  { apply nQ_inj. rewrite !nQ_plus. lra. }
  split; intros U; repeat split; lia.
Qed.
End More.
