(* Proofs about the triangulation loops. *)
From Coq Require Import Lia Lqa Permutation.
From Verif Require Import Base Chain GeomModel FacetModel UtilModel BdryModel BdrySpec
  AdvanceModel AdvanceSpec AdvanceProofs AdvanceInv LoopModel.

Lemma behind_at pre e suf : NoDup (map be_id (pre ++ e :: suf)) -> behind (be_id e) (pre ++ e :: suf) = Some suf.
Proof.
  induction pre as [|a pre IH]; intros N; cbn [app behind].
  - rewrite Nat.eqb_refl. reflexivity.
  - cbn [app map] in N. inversion N as [|? ? Na N']; subst.
    destruct (Nat.eqb_spec (be_id a) (be_id e)) as [E|E].
    + exfalso. apply Na. rewrite E. apply in_map. apply in_or_app. right. left. reflexivity.
    + apply IH. exact N'.
Qed.

(* a list read cyclically from some position on *)
Definition cyc (es c : list bedge) : Prop := exists pre suf, es = pre ++ suf /\ c = suf ++ pre.
Lemma cyc_start es : cyc es es.
Proof. exists [], es. split; [reflexivity|]. rewrite app_nil_r. reflexivity. Qed.
Lemma cyc_length es c : cyc es c -> length c = length es.
Proof. intros (pre & suf & -> & ->). rewrite !app_length. lia. Qed.
Lemma cyc_in es c e : cyc es c -> In e c <-> In e es.
Proof. intros (pre & suf & -> & ->). rewrite !in_app_iff. tauto. Qed.
Lemma cyc_next es e c : cyc es (e :: c) -> NoDup (map be_id es) ->
  cyc es (c ++ [e]) /\ set_base_next es (be_id e) = Ok (set_base_first (c ++ [e])).
Proof.
  intros (pre & suf & -> & C) N. destruct suf as [|x suf].
  - (* position 0 *)
    cbn [app] in C. subst pre. rewrite app_nil_r in *. split.
    + exists [e], c. split; reflexivity.
    + unfold set_base_next. pose proof (behind_at [] e c N) as B. cbn [app] in B. rewrite B. destruct c as [|f c]; reflexivity.
  - cbn [app] in C. injection C as -> ->. split.
    + destruct suf as [|f suf].
      * exists [], (pre ++ [x]). split; [reflexivity|]. cbn [app]. rewrite app_nil_r. reflexivity.
      * exists (pre ++ [x]), (f :: suf). split; [rewrite <- app_assoc; reflexivity|]. rewrite <- app_assoc. reflexivity.
    + unfold set_base_next. rewrite (behind_at pre x suf N).
      destruct pre as [|p pre]; cbn [app]; destruct suf as [|f suf]; reflexivity.
Qed.
Lemma find_edge_here es e : NoDup (map be_id es) -> In e es -> find_edge (be_id e) es = Some e.
Proof.
  intros N H. unfold find_edge. induction es as [|a es IH]; [destruct H|]. cbn [find map] in *.
  inversion N as [|? ? Na N']; subst. destruct H as [->|H].
  - rewrite Nat.eqb_refl. reflexivity.
  - destruct (Nat.eqb_spec (be_id a) (be_id e)) as [E|E]; [|apply IH; assumption].
    exfalso. apply Na. rewrite E. apply in_map. exact H.
Qed.

Section Loops.
Variable mesh_scale : Q.
Variable tri_ok : mstate -> tri -> bool.
Variable vtx_ok : mstate -> nat -> bool.
Variable qual : mstate -> tri -> Q.
Variable newpos : mstate -> bedge -> vec2.
Variable query : mstate -> bedge -> bool -> list nat.
Notation fstep := (fstep mesh_scale tri_ok vtx_ok qual).
Notation frun := (frun mesh_scale tri_ok vtx_ok qual).
Notation aft := (advance_front_triangle mesh_scale tri_ok vtx_ok qual newpos query).
Notation adv_iter := (adv_iter mesh_scale tri_ok vtx_ok qual newpos query).
Notation adv_loop := (adv_loop mesh_scale tri_ok vtx_ok qual newpos query).
Notation exh_walk := (exh_walk mesh_scale tri_ok vtx_ok qual).
Notation est := (exhaustive_search_triangle mesh_scale tri_ok vtx_ok qual).
Notation exh_iter := (exh_iter mesh_scale tri_ok vtx_ok qual).
Notation exh_loop := (exh_loop mesh_scale tri_ok vtx_ok qual).
Notation exhaustive := (exhaustive mesh_scale tri_ok vtx_ok qual).
Notation generate := (generate mesh_scale tri_ok vtx_ok qual newpos query).

(* a history with its number of accepted elements *)
Inductive history : mstate -> list fop -> mstate -> nat -> Prop :=
| h_nil st : history st [] st 0
| h_cons st o os st1 r st' c : fstep st o = Ok (st1, r) ->
    (forall k xy cs, o = FUpdate k xy cs -> exists s e, xy = newpos s e) ->
    history st1 os st' c -> history st (o :: os) st' ((if succeeded r then 1 else 0) + c).

Lemma history_app st os st1 c1 os' st2 c2 : history st os st1 c1 -> history st1 os' st2 c2 ->
  history st (os ++ os') st2 (c1 + c2).
Proof.
  induction 1 as [|st o os sa r st' c E Hx H IH]; intros H2; [exact H2|].
  cbn [app]. rewrite <- Nat.add_assoc. econstructor; eauto.
Qed.
Lemma history_run st os st' c : history st os st' c -> frun st os = Ok st'.
Proof.
  induction 1 as [|st o os sa r st' c E Hx H IH]; [reflexivity|].
  cbn [AdvanceModel.frun]. rewrite E. exact IH.
Qed.
Lemma history_ops sc st os st' c : (forall s e, in_square sc (newpos s e) = true) ->
  history st os st' c -> Forall (op_in sc) os.
Proof.
  intros P. induction 1 as [|st o os sa r st' c E Hx H IH]; constructor; auto.
  destruct o as [k xy cs| |]; cbn; auto. destruct (Hx k xy cs eq_refl) as (s & e & ->). apply P.
Qed.
Lemma history_count st os st' c : wf st -> history st os st' c ->
  wf st' /\ length (generated st') = (length (generated st) + c)%nat.
Proof.
  intros W H. revert W. induction H as [st|st o os st1 r st' c E Hx H IH]; intros W; [split; [exact W|lia]|].
  pose proof (step_wf _ _ _ _ _ _ _ _ W E) as W1. destruct (IH W1) as [W' IH']. split; [exact W'|].
  rewrite IH'. clear IH IH' H Hx. apply fstep_spec in E; [|exact W]. destruct r as [t|]; cbn [succeeded].
  - destruct E as (st2 & base & T & -> & _).
    pose proof (advance_generated st2 base (tr_v3 t) t (tk_wf _ _ _ _ _ T) (tk_in _ _ _ _ _ T) (tk_act _ _ _ _ _ T)) as P.
    apply Permutation_length in P. rewrite P. cbn [length]. rewrite (g_gen _ _ (tk_grown _ _ _ _ _ T)). lia.
  - destruct E as (Q & _). rewrite (q_gen _ _ Q). lia.
Qed.

(* no element: same front up to sorting *)
Lemma history_still st os st' : wf st -> history st os st' 0 ->
  Permutation (ms_front st) (ms_front st') /\ generated st = generated st'.
Proof.
  intros W H. remember 0%nat as z eqn:Ez. revert W Ez.
  induction H as [st|st o os st1 r st' c E Hx H IH]; intros W Ez; [split; [apply Permutation_refl|reflexivity]|].
  destruct r as [t|]; cbn [succeeded] in Ez; [discriminate|].
  pose proof (step_wf _ _ _ _ _ _ _ _ W E) as W1. apply fstep_spec in E; [|exact W]. destruct E as (Q & _).
  destruct (IH W1 Ez) as [P G]. split; [exact (Permutation_trans (q_front _ _ Q) P)|].
  rewrite <- G. symmetry. exact (q_gen _ _ Q).
Qed.

(* nothing happened, apart from what a failed step may leave behind outside of
   the square of the mesh (C26) *)
Definition idle (st st' : mstate) : Prop :=
  grown st st' /\
  (vertices_in mesh_scale st -> (forall s e, in_square mesh_scale (newpos s e) = true) ->
     same_mesh st st' /\ vertices_in mesh_scale st').
Lemma idle_refl st : idle st st.
Proof. split; [apply grown_refl|]. intros V _. split; [|exact V]. unfold same_mesh. repeat split. Qed.
Lemma same_mesh_trans a b c : (ms_nv a <= ms_nv b)%nat -> same_mesh a b -> same_mesh b c -> same_mesh a c.
Proof.
  intros L (A1 & A2 & A3 & A4 & A5 & A6 & A7 & A8) (B1 & B2 & B3 & B4 & B5 & B6 & B7 & B8).
  unfold same_mesh. do 7 (split; [congruence|]). intros v Hv. destruct (A8 v Hv) as [X Y].
  destruct (B8 v) as [X' Y']; [lia|]. split; congruence.
Qed.
Lemma idle_trans a b c : idle a b -> idle b c -> idle a c.
Proof.
  intros [G1 S1] [G2 S2]. split; [exact (grown_trans _ _ _ G1 G2)|]. intros V N.
  destruct (S1 V N) as [X1 V1]. destruct (S2 V1 N) as [X2 V2]. split; [|exact V2].
  exact (same_mesh_trans _ _ _ (g_nv _ _ G1) X1 X2).
Qed.

Lemma failed_idle st o st' : wf st -> (forall a, o <> FSort a) ->
  (forall k xy cs, o = FUpdate k xy cs -> exists s e, xy = newpos s e) ->
  fstep st o = Ok (st', None) -> idle st st' /\ wf st'.
Proof.
  intros W NS NP H. destruct o as [k xy cs|k v|a]; [| |exfalso; apply (NS a); reflexivity].
  - cbn [AdvanceModel.fstep] in H. apply update_front_spec in H; [|exact W|].
    2:{ intros v Hv. apply filter_In in Hv. apply in_list_spec. apply Hv. }
    destruct H as (G & W' & SQ & SM). split; [|exact W']. split; [exact G|]. intros V N.
    destruct (NP k xy cs eq_refl) as (s & e & ->). split; [apply SM|apply SQ]; auto.
  - cbn [AdvanceModel.fstep] in H. destruct (existsb (incident v) (ms_front st)) eqn:E; [|discriminate].
    apply (incident_lt _ _ W) in E. apply update_exhaustive_spec in H; [|exact W|exact E].
    destruct H as (G & W' & SQ & SM). split; [|exact W']. split; [exact G|]. intros V N. split; [apply SM|apply SQ]; auto.
Qed.

Lemma aft_spec st k wide : wf st -> (exists e, In e (ms_front st) /\ be_id e = k) ->
  exists st' ok o r, aft st (Some k) wide = Ok (st', ok) /\ fstep st o = Ok (st', r) /\ ok = succeeded r /\
    (forall a, o <> FSort a) /\ (forall k xy cs, o = FUpdate k xy cs -> exists s e, xy = newpos s e).
Proof.
  intros W (e & He & <-). unfold advance_front_triangle. rewrite (find_edge_here _ _ (wf_eid _ W) He).
  assert (D : exists st' r, fstep st (FUpdate (be_id e) (newpos st e) (query st e wide)) = Ok (st', r)).
  { cbn [AdvanceModel.fstep]. unfold update_front. rewrite (find_edge_here _ _ (wf_eid _ W) He).
    destruct (create_possible _ _ _ _ _) as [s1 ts]. destruct (sort_tris _ _) as [|best others]; [|eauto].
    destruct (add_vertex s1 _) as [s2 v]. destruct (add_triangle s2 _ _ _) as [s3 t]. destruct (_ && _); eauto. }
  destruct D as (st' & r & D). rewrite D. cbn [obind fst snd].
  exists st', (succeeded r), (FUpdate (be_id e) (newpos st e) (query st e wide)), r.
  repeat split; auto; try discriminate. intros k xy cs E. injection E as <- <- <-. eauto.
Qed.

(* size of the front after a step *)
Lemma front_remove_length pos k es : (length (front_remove pos k es) <= length es)%nat.
Proof. unfold front_remove. induction es as [|e es IH]; [apply Nat.le_refl|]. cbn [filter length]. destruct (negb _); cbn [length]; lia. Qed.
Lemma new_edges_length n ps : length (new_edges n ps) = length ps.
Proof. revert n. induction ps as [|[a b] ps IH]; intros n; cbn; [|rewrite IH]; reflexivity. Qed.
Lemma step_size st o st' r : wf st -> fstep st o = Ok (st', r) ->
  (length (ms_front st') <= length (ms_front st) + 2)%nat.
Proof.
  intros W H. apply fstep_spec in H; [|exact W]. destruct r as [t|].
  - destruct H as (st2 & base & T & -> & _). unfold advance_front. cbn [ms_front].
    etransitivity; [apply front_remove_length|]. rewrite app_length, new_edges_length.
    rewrite (g_front _ _ (tk_grown _ _ _ _ _ T)).
    assert (L : forall l es, (length (fold_left (fun (es : list bedge) (e : bedge) => front_remove (ms_pos st2) (be_id e) es) l es) <= length es)%nat).
    { induction l as [|a l IH]; intros es; cbn [fold_left]; [lia|]. etransitivity; [apply IH|apply front_remove_length]. }
    pose proof (L (fst (adv_plan (get_edge_nodir (ms_front st) (tr_v3 t) (be_v1 base)) (get_edge_nodir (ms_front st) (tr_v3 t) (be_v2 base)) (be_v1 base) (be_v2 base) (tr_v3 t))) (ms_front st)) as L1.
    assert (S2 : forall e1 e2 b1 b2 v, (length (snd (adv_plan e1 e2 b1 b2 v)) <= 2)%nat).
    { intros e1 e2 b1 b2 v. destruct e1, e2; cbn; lia. }
    pose proof (S2 (get_edge_nodir (ms_front st) (tr_v3 t) (be_v1 base)) (get_edge_nodir (ms_front st) (tr_v3 t) (be_v2 base)) (be_v1 base) (be_v2 base) (tr_v3 t)). lia.
  - destruct H as (Q & _). rewrite (Permutation_length (q_front _ _ Q)). lia.
Qed.

(* ---- advancing_front_loop ---- *)
(* every edge of [l] was tried, without success, with the mesh as it is now *)
Definition tried (wide : bool) (st : mstate) (l : list bedge) : Prop :=
  Forall (fun e => exists s s1, idle s st /\ idle s1 st /\ In e (ms_front s) /\ aft s (Some (be_id e)) wide = Ok (s1, false)) l.

Lemma tried_idle wide st st' l : idle st st' -> tried wide st l -> tried wide st' l.
Proof.
  intros I. apply Forall_impl. intros e (s & s1 & H1 & H2 & H3 & H4). exists s, s1.
  split; [exact (idle_trans _ _ _ H1 I)|]. split; [exact (idle_trans _ _ _ H2 I)|]. auto.
Qed.

(* loop invariant: the edge under base_ is the first of the edges not yet tried
   in this round; in the narrow round base_edge may be another edge first *)
Definition linv (s : lstate) : Prop :=
  wf (l_st s) /\
  (exists e, In e (ms_front (l_st s)) /\ l_cur s = Some (be_id e)) /\
  (exists e c, cyc (ms_front (l_st s)) (e :: c) /\ l_base s = Some (be_id e)) /\
  (l_iter s < length (ms_front (l_st s)))%nat /\
  (l_wide s = true -> exists todo done, cyc (ms_front (l_st s)) (todo ++ done) /\ length done = l_iter s /\
     l_base s = set_base_first (todo ++ done) /\ l_cur s = l_base s /\ tried true (l_st s) done).

Lemma set_base_some es k : set_base_first es = Some k -> exists e c, es = e :: c /\ be_id e = k.
Proof. destruct es as [|e c]; [discriminate|]. intros H. injection H as <-. eauto. Qed.

Lemma adv_check_cases n s : exists s1 r, adv_check n s = (s1, r) /\ l_st s1 = l_st s /\ l_gen s1 = l_gen s /\
  l_base s1 = l_base s /\ l_cur s1 = l_cur s /\
  ((ms_front (l_st s) = [] /\ r = Some true) \/
   (ms_front (l_st s) <> [] /\ reached n (l_gen s) = true /\ r = Some true) \/
   (ms_front (l_st s) <> [] /\ reached n (l_gen s) = false /\ l_wide s = true /\
      l_iter s = length (ms_front (l_st s)) /\ r = Some false) \/
   (ms_front (l_st s) <> [] /\ reached n (l_gen s) = false /\ l_wide s = false /\
      l_iter s = length (ms_front (l_st s)) /\ l_iter s1 = 0%nat /\ l_wide s1 = true /\ r = None) \/
   (ms_front (l_st s) <> [] /\ reached n (l_gen s) = false /\ l_iter s <> length (ms_front (l_st s)) /\
      l_iter s1 = l_iter s /\ l_wide s1 = l_wide s /\ r = None)).
Proof.
  unfold adv_check. eexists _, _. split; [reflexivity|].
  assert (NE : forall (l : list bedge), Nat.eqb (length l) 0 = false <-> l <> []).
  { intros l. destruct l; cbn; split; intros; congruence. }
  assert (ZE : forall (l : list bedge), Nat.eqb (length l) 0 = true -> l = []).
  { intros l. destruct l; cbn; congruence. }
  destruct (l_wide s) eqn:Ew; destruct (Nat.eqb (l_iter s) (length (ms_front (l_st s)))) eqn:Ei;
    cbn [andb negb l_st l_gen l_base l_cur l_iter l_wide];
    do 4 (split; [reflexivity|]);
    destruct (Nat.eqb (length (ms_front (l_st s))) 0) eqn:E0;
    try (left; split; [apply ZE; exact E0|reflexivity]); right;
    destruct (reached n (l_gen s)) eqn:Er; try (left; split; [apply NE; exact E0|split; reflexivity]); right;
    first [apply (proj1 (Nat.eqb_eq _ _)) in Ei|apply (proj1 (Nat.eqb_neq _ _)) in Ei]; apply NE in E0.
  - left. rewrite Ew, (proj2 (Nat.eqb_eq _ _) Ei). auto 10.
  - right. right. rewrite Ew, (proj2 (Nat.eqb_neq _ _) Ei). auto 10.
  - right. left. destruct (length (ms_front (l_st s))) eqn:El; [destruct (ms_front (l_st s)); [congruence|discriminate]|]. cbn. auto 10.
  - right. right. rewrite Ew, (proj2 (Nat.eqb_neq _ _) Ei). auto 10.
Qed.

Lemma adv_iter_spec n s : linv s ->
  exists s' r os c, adv_iter n s = Ok (s', r) /\ history (l_st s) os (l_st s') c /\ (c <= 1)%nat /\
    l_gen s' = (l_gen s + c)%nat /\ wf (l_st s') /\
    (length (ms_front (l_st s')) <= length (ms_front (l_st s)) + 2 * c)%nat /\
    match r with
    | Some true => ms_front (l_st s') = [] \/ (ms_front (l_st s') <> [] /\ reached n (l_gen s') = true)
    | Some false => ms_front (l_st s') <> [] /\ c = 0%nat /\ tried true (l_st s') (ms_front (l_st s'))
    | None => linv s' /\ reached n (l_gen s') = false /\ (c = 0%nat -> length (ms_front (l_st s')) = length (ms_front (l_st s)) /\
                ((l_wide s' = l_wide s /\ l_iter s' = S (l_iter s)) \/
                 (l_wide s = false /\ l_wide s' = true /\ l_iter s' = 0%nat)))
    end.
Proof.
  intros (W & (ec & Hec & Ec) & (eb & cb & Cb & Eb) & Li & Wd).
  destruct (aft_spec (l_st s) (be_id ec) (l_wide s) W) as (st1 & ok & o & r & A & F & Eok & NS & NP).
  { exists ec. auto. }
  pose proof (step_wf _ _ _ _ _ _ _ _ W F) as W1.
  unfold LoopModel.adv_iter. rewrite Ec, A. cbn [obind]. subst ok. destruct r as [t|]; cbn [succeeded].
  - (* success *)
    set (st2 := if l_wide s then sort_edges st1 false else st1).
    assert (H2 : exists os, history (l_st s) os st2 1 /\ wf st2 /\ length (ms_front st2) = length (ms_front st1)).
    { destruct (l_wide s) eqn:Ew; unfold st2.
      - exists [o; FSort false].
        assert (FS : fstep st1 (FSort false) = Ok (sort_edges st1 false, None)) by reflexivity.
        pose proof (step_wf _ _ _ _ _ _ _ _ W1 FS) as W2. split; [|split; [exact W2|]].
        + change 1%nat with ((if succeeded (Some t) then 1 else 0) + ((if succeeded None then 1 else 0) + 0))%nat.
          econstructor; [exact F|exact NP|]. econstructor; [exact FS|intros ? ? ? X; discriminate X|constructor].
        + cbn [sort_edges ms_front]. symmetry. apply Permutation_length, sort_front_perm.
      - exists [o]. split; [|split; [exact W1|reflexivity]].
        change 1%nat with ((if succeeded (Some t) then 1 else 0) + 0)%nat. econstructor; [exact F|exact NP|constructor]. }
    destruct H2 as (os & H2 & W2 & L2). pose proof (step_size _ _ _ _ W F) as SZ. clearbody st2.
    set (s0 := LS st2 (set_base_first (ms_front st2)) (set_base_first (ms_front st2)) 0 false (S (l_gen s))).
    destruct (adv_check_cases n s0) as (s1 & res & -> & E1 & E2 & E3 & E4 & CASES).
    exists s1, res, os, 1%nat. split; [reflexivity|].
    split; [rewrite E1; exact H2|]. split; [lia|]. split; [rewrite E2; cbn; lia|]. split; [rewrite E1; exact W2|].
    split; [rewrite E1; cbn [s0 l_st]; lia|]. rewrite E1, E2. unfold s0 in CASES |- *. cbn [l_st l_gen l_wide l_iter] in CASES |- *.
    destruct CASES as [(C1 & ->)|[(C1 & C2 & ->)|[(C1 & C2 & C3 & C4 & ->)|[(C1 & C2 & C3 & C4 & C5 & C6 & ->)|(C1 & C2 & C3 & C4 & C5 & ->)]]]].
    + left. exact C1.
    + right. auto.
    + discriminate.
    + exfalso. destruct (ms_front st2); [congruence|discriminate].
    + split; [|split; [exact C2|intros; discriminate]].
      destruct (ms_front st2) as [|e0 r0] eqn:Ef; [congruence|].
      unfold linv. rewrite E1, E3, E4, C4, C5. unfold s0. cbn [l_st l_base l_cur l_iter l_wide]. rewrite Ef.
      split; [exact W2|]. split; [exists e0; split; [left; reflexivity|reflexivity]|].
      split; [exists e0, r0; split; [apply cyc_start|reflexivity]|]. split; [cbn; lia|discriminate].
  - (* failure *)
    destruct (failed_idle _ _ _ W NS NP F) as [I1 _].
    pose proof (g_front _ _ (proj1 I1)) as EF.
    assert (Cb1 : cyc (ms_front st1) (eb :: cb)) by (rewrite EF; exact Cb).
    destruct (cyc_next _ _ _ Cb1 (wf_eid _ W1)) as [Cn En].
    rewrite Eb, En. cbn [obind].
    set (s0 := LS st1 (set_base_first (cb ++ [eb])) (set_base_first (cb ++ [eb])) (S (l_iter s)) (l_wide s) (l_gen s)).
    destruct (adv_check_cases n s0) as (s1 & res & -> & E1 & E2 & E3 & E4 & CASES).
    exists s1, res, [o], 0%nat. split; [reflexivity|].
    assert (HH : history (l_st s) [o] st1 0).
    { change 0%nat with ((if succeeded None then 1 else 0) + 0)%nat. econstructor; [exact F|exact NP|constructor]. }
    split; [rewrite E1; exact HH|]. split; [lia|]. split; [rewrite E2; cbn; lia|]. split; [rewrite E1; exact W1|].
    split; [rewrite E1; cbn [s0 l_st]; rewrite EF; lia|].
    rewrite E1, E2. unfold s0 in CASES |- *. cbn [l_st l_gen l_wide l_iter] in CASES |- *.
    assert (RN : set_base_first (cb ++ [eb]) <> None) by (destruct cb; discriminate).
    assert (NW : l_wide s = true -> exists todo done, cyc (ms_front st1) (todo ++ done) /\ length done = S (l_iter s) /\
       set_base_first (cb ++ [eb]) = set_base_first (todo ++ done) /\ tried true st1 done).
    { intros Ew. destruct (Wd Ew) as (todo & done & C & Ld & Bd & Cd & Tr).
      rewrite <- EF in C. pose proof (cyc_length _ _ C) as LC. rewrite app_length in LC. rewrite EF in LC.
      destruct todo as [|e0 todo]; [cbn in LC; lia|]. cbn [app] in C, Bd. cbn [set_base_first] in Bd.
      destruct (cyc_next _ _ _ C (wf_eid _ W1)) as [C' E'].
      rewrite Eb in Bd. injection Bd as Bd. rewrite Bd, E' in En. injection En as En.
      exists todo, (done ++ [e0]). rewrite app_assoc. split; [exact C'|]. split; [rewrite app_length; cbn; lia|]. split; [symmetry; exact En|].
      apply Forall_app. split; [exact (tried_idle _ _ _ _ I1 Tr)|]. constructor; [|constructor].
      exists (l_st s), st1. split; [exact I1|]. split; [apply idle_refl|].
      assert (In0 : In e0 (ms_front st1)) by (apply (cyc_in _ _ e0 C); left; reflexivity).
      split; [rewrite <- EF; exact In0|].
      assert (Eid : be_id e0 = be_id ec).
      { rewrite Ec, Eb in Cd. injection Cd as Cd. congruence. }
      rewrite Eid. rewrite Ew in A. exact A. }
    destruct CASES as [(C1 & ->)|[(C1 & C2 & ->)|[(C1 & C2 & C3 & C4 & ->)|[(C1 & C2 & C3 & C4 & C5 & C6 & ->)|(C1 & C2 & C3 & C4 & C5 & ->)]]]].
    + left. exact C1.
    + right. auto.
    + split; [exact C1|]. split; [reflexivity|].
      destruct (NW C3) as (todo & done & C & Ld & _ & Tr).
      pose proof (cyc_length _ _ C) as LC. rewrite app_length in LC.
      destruct todo as [|e0 todo]; [|cbn in LC; lia].
      cbn [app] in C. apply Forall_forall. intros e He. apply (cyc_in _ _ e C) in He.
      exact (proj1 (Forall_forall _ _) Tr e He).
    + split; [|split; [exact C2|intros _; split; [rewrite EF; reflexivity|right; auto]]].
      unfold linv. rewrite E1, E3, E4, C5, C6. unfold s0. cbn [l_st l_base l_cur].
      split; [exact W1|].
      assert (XB : exists e c, cyc (ms_front st1) (e :: c) /\ set_base_first (cb ++ [eb]) = Some (be_id e)).
      { destruct cb as [|x cb']; cbn [app] in Cn |- *; eexists _, _; split; [exact Cn|reflexivity|exact Cn|reflexivity]. }
      destruct XB as (e & c & XC & XE).
      split; [exists e; split; [apply (cyc_in _ _ e XC); left; reflexivity|exact XE]|].
      split; [exists e, c; auto|]. split; [destruct (ms_front st1); [congruence|cbn; lia]|].
      intros _. exists (cb ++ [eb]), []. rewrite app_nil_r. repeat split; auto. constructor.
    + split; [|split; [exact C2|intros _; split; [rewrite EF; reflexivity|left; rewrite C4, C5; auto]]].
      unfold linv. rewrite E1, E3, E4, C4, C5. unfold s0. cbn [l_st l_base l_cur].
      split; [exact W1|].
      assert (XB : exists e c, cyc (ms_front st1) (e :: c) /\ set_base_first (cb ++ [eb]) = Some (be_id e)).
      { destruct cb as [|x cb']; cbn [app] in Cn |- *; eexists _, _; split; [exact Cn|reflexivity|exact Cn|reflexivity]. }
      destruct XB as (e & c & XC & XE).
      split; [exists e; split; [apply (cyc_in _ _ e XC); left; reflexivity|exact XE]|].
      split; [exists e, c; auto|]. split; [rewrite EF in C3 |- *; lia|].
      intros Ew. destruct (NW Ew) as (todo & done & C & Ld & Bd & Tr). exists todo, done. auto.
Qed.

(* measure of the remaining iterations with limit n *)
Definition failures_left (s : lstate) : nat :=
  let k := length (ms_front (l_st s)) in
  if l_wide s then (k - l_iter s)%nat else (2 * k - l_iter s)%nat.

Lemma adv_loop_spec n fuel s : linv s -> reached n (l_gen s) = false ->
  match adv_loop fuel n s with
  | None => True
  | Some (Ok (s', r)) => exists os c, history (l_st s) os (l_st s') c /\ l_gen s' = (l_gen s + c)%nat /\ wf (l_st s') /\
      ((0 < n)%Z -> (Z.of_nat (l_gen s) < n)%Z -> (Z.of_nat (l_gen s') <= n)%Z) /\
      (length (ms_front (l_st s')) <= length (ms_front (l_st s)) + 2 * c)%nat /\
      (if r then ms_front (l_st s') = [] \/ (ms_front (l_st s') <> [] /\ reached n (l_gen s') = true)
       else ms_front (l_st s') <> [] /\ reached n (l_gen s') = false /\ tried true (l_st s') (ms_front (l_st s')))
  | Some UB | Some Throw => False
  end.
Proof.
  revert s. induction fuel as [|f IH]; intros s I NR; [exact Logic.I|]. cbn [LoopModel.adv_loop].
  destruct (adv_iter_spec n s I) as (s' & r & os & c & -> & H & Lc & G & W' & SZ & R).
  assert (NX : (0 < n)%Z -> (Z.of_nat (l_gen s) < n)%Z -> (Z.of_nat (l_gen s') <= n)%Z) by lia.
  destruct r as [[|]|].
  - exists os, c. repeat (split; [assumption|]). exact R.
  - destruct R as (R1 & -> & R2). exists os, 0%nat.
    assert (G' : l_gen s' = l_gen s) by lia. split; [exact H|]. split; [exact G|]. split; [exact W'|].
    split; [exact NX|]. split; [exact SZ|]. split; [exact R1|]. split; [rewrite G'; exact NR|exact R2].
  - destruct R as (I' & NR' & _). specialize (IH s' I' NR').
    destruct (adv_loop f n s') as [[[s2 r]| |]|]; try exact IH.
    destruct IH as (os2 & c2 & H2 & G2 & W2 & L2 & SZ2 & R2).
    exists (os ++ os2), (c + c2)%nat. split; [exact (history_app _ _ _ _ _ _ _ H H2)|]. split; [lia|]. split; [exact W2|].
    split; [|split; [lia|exact R2]].
    intros P L. apply L2; [exact P|]. specialize (NX P L). unfold reached in NR'.
    rewrite (proj2 (Z.ltb_lt _ _) P) in NR'. cbn [andb] in NR'. apply Z.eqb_neq in NR'. lia.
Qed.

Lemma adv_loop_ends n S0 : (0 < n)%Z -> forall fuel s, linv s -> reached n (l_gen s) = false ->
  (Z.of_nat (l_gen s) < n)%Z ->
  (length (ms_front (l_st s)) + 2 * (Z.to_nat n - l_gen s) <= S0)%nat ->
  ((Z.to_nat n - l_gen s) * (2 * S0 + 1) + failures_left s < fuel)%nat ->
  adv_loop fuel n s <> None.
Proof.
  intros P fuel. induction fuel as [|f IH]; intros s I NR L B M; [lia|]. cbn [LoopModel.adv_loop].
  destruct (adv_iter_spec n s I) as (s' & r & os & c & -> & H & Lc & G & W' & SZ & R).
  destruct r as [r|]; [discriminate|]. destruct R as (I' & NR' & R).
  assert (L' : (Z.of_nat (l_gen s') < n)%Z).
  { unfold reached in NR'. rewrite (proj2 (Z.ltb_lt _ _) P) in NR'. cbn [andb] in NR'. apply Z.eqb_neq in NR'. lia. }
  assert (NG : (l_gen s' < Z.to_nat n)%nat) by lia.
  apply IH; try assumption; destruct I as (_ & _ & _ & Li & _); destruct I' as (_ & _ & _ & Li' & _).
  - destruct c as [|[|]]; lia.
  - destruct c as [|[|c]]; [| |lia].
    + rewrite Nat.add_0_r in G. rewrite G. destruct (R eq_refl) as (EL & [[R1 R2]|(R1 & R2 & R3)]).
      * unfold failures_left in *. rewrite R1, R2, EL in *. destruct (l_wide s); lia.
      * unfold failures_left in *. rewrite R2, R3, EL. rewrite R1 in M. lia.
    + assert (FL : (failures_left s' <= 2 * S0)%nat) by (unfold failures_left; destruct (l_wide s'); lia).
      replace (Z.to_nat n - l_gen s)%nat with (S (Z.to_nat n - l_gen s')) in M by lia. cbn [Nat.mul] in M. lia.
Qed.

(* ---- exhaustive search ---- *)
Lemma walk_spec i st base next : wf st -> In base (ms_front st) ->
  (forall f, next = Some f -> In f (ms_front st)) ->
  exists st' ok os, exh_walk i st base next = Ok (st', ok) /\ wf st' /\
    history st os st' (if ok then 1 else 0) /\
    (length (ms_front st') <= length (ms_front st) + 2)%nat /\ (ok = false -> idle st st').
Proof.
  revert st next. induction i as [|i IH]; intros st next W Hb Hn; cbn [LoopModel.exh_walk].
  { exists st, false, []. split; [reflexivity|]. split; [exact W|]. split; [apply h_nil|]. split; [lia|]. intros _. apply idle_refl. }
  assert (Stop : exists st' ok os, Ok (st, false) = Ok (st', ok) /\ wf st' /\ history st os st' (if ok then 1 else 0) /\
    (length (ms_front st') <= length (ms_front st) + 2)%nat /\ (ok = false -> idle st st')).
  { exists st, false, []. split; [reflexivity|]. split; [exact W|]. split; [apply h_nil|]. split; [lia|]. intros _. apply idle_refl. }
  destruct next as [f|]; [|exact Stop]. destruct (Nat.eqb (be_id f) (be_id base)); [exact Stop|]. clear Stop.
  assert (NXT : forall st1 g, ms_front st1 = ms_front st -> get_next_edge (ms_front st1) f = Some g -> In g (ms_front st1)).
  { intros st1 g E Hg. unfold get_next_edge in Hg. apply oldest_in in Hg. apply filter_In in Hg. apply Hg. }
  destruct (negb _ && negb _).
  - assert (D : exists st' r, fstep st (FExhaust (be_id base) (be_v2 f)) = Ok (st', r)).
    { cbn [AdvanceModel.fstep].
      assert (X : existsb (incident (be_v2 f)) (ms_front st) = true).
      { apply existsb_exists. exists f. split; [apply Hn; reflexivity|]. unfold incident. rewrite Nat.eqb_refl, orb_true_r. reflexivity. }
      rewrite X. unfold update_front_exhaustive. rewrite (find_edge_here _ _ (wf_eid _ W) Hb).
      destruct (negb (ms_onf st (be_v2 f))); [eauto|]. destruct (negb _); [eauto|].
      destruct (add_triangle st _ _ _) as [s1 t]. destruct (tri_ok s1 t); eauto. }
    destruct D as (st1 & r & D). rewrite D. pose proof (step_wf _ _ _ _ _ _ _ _ W D) as W1.
    destruct r as [t|].
    + exists st1, true, [FExhaust (be_id base) (be_v2 f)]. split; [reflexivity|]. split; [exact W1|]. split.
      * change 1%nat with ((if succeeded (Some t) then 1 else 0) + 0)%nat. econstructor; [exact D|intros ? ? ? X; discriminate X|constructor].
      * split; [exact (step_size _ _ _ _ W D)|discriminate].
    + destruct (failed_idle st (FExhaust (be_id base) (be_v2 f)) st1 W ltac:(intros ? X; discriminate X) ltac:(intros ? ? ? X; discriminate X) D) as [I1 _].
      pose proof (g_front _ _ (proj1 I1)) as EF.
      destruct (IH st1 (get_next_edge (ms_front st1) f) W1) as (st2 & ok & os & E & W2 & H2 & L2 & I2).
      { rewrite EF. exact Hb. } { intros g Hg. exact (NXT st1 g EF Hg). }
      exists st2, ok, (FExhaust (be_id base) (be_v2 f) :: os). split; [exact E|]. split; [exact W2|]. split.
      * replace (if ok then 1 else 0)%nat with ((if succeeded None then 1 else 0) + (if ok then 1 else 0))%nat by reflexivity.
        econstructor; [exact D|intros ? ? ? X; discriminate X|exact H2].
      * split; [rewrite EF in L2; exact L2|]. intros Eo. exact (idle_trans _ _ _ I1 (I2 Eo)).
  - apply IH; [exact W|exact Hb|]. intros g Hg. exact (NXT st g eq_refl Hg).
Qed.

Lemma est_spec st k : wf st -> (exists e, In e (ms_front st) /\ be_id e = k) ->
  exists st' ok os, est st (Some k) = Ok (st', ok) /\ wf st' /\ history st os st' (if ok then 1 else 0) /\
    (length (ms_front st') <= length (ms_front st) + 2)%nat /\ (ok = false -> idle st st').
Proof.
  intros W (e & He & <-). unfold exhaustive_search_triangle. rewrite (find_edge_here _ _ (wf_eid _ W) He).
  apply walk_spec; [exact W|exact He|]. intros f Hf. unfold get_next_edge in Hf. apply oldest_in in Hf.
  apply filter_In in Hf. apply Hf.
Qed.

Definition searched (st : mstate) (l : list bedge) : Prop :=
  Forall (fun e => exists s s1, idle s st /\ idle s1 st /\ In e (ms_front s) /\ est s (Some (be_id e)) = Ok (s1, false)) l.
Lemma searched_idle st st' l : idle st st' -> searched st l -> searched st' l.
Proof.
  intros I. apply Forall_impl. intros e (s & s1 & H1 & H2 & H3 & H4). exists s, s1.
  split; [exact (idle_trans _ _ _ H1 I)|]. split; [exact (idle_trans _ _ _ H2 I)|]. auto.
Qed.
Definition einv (s : lstate) : Prop :=
  wf (l_st s) /\ (l_iter s < length (ms_front (l_st s)))%nat /\ l_cur s = l_base s /\
  exists todo done, cyc (ms_front (l_st s)) (todo ++ done) /\ length done = l_iter s /\
     l_base s = set_base_first (todo ++ done) /\ searched (l_st s) done.

Lemma exh_iter_spec n s : einv s ->
  exists s' r os c, exh_iter n s = Ok (s', r) /\ history (l_st s) os (l_st s') c /\ (c <= 1)%nat /\
    l_gen s' = (l_gen s + c)%nat /\ wf (l_st s') /\
    (length (ms_front (l_st s')) <= length (ms_front (l_st s)) + 2 * c)%nat /\
    match r with
    | Some true => ms_front (l_st s') = [] \/ (ms_front (l_st s') <> [] /\ reached n (l_gen s') = true)
    | Some false => ms_front (l_st s') <> [] /\ c = 0%nat /\ searched (l_st s') (ms_front (l_st s'))
    | None => einv s' /\ reached n (l_gen s') = false /\
              (c = 0%nat -> length (ms_front (l_st s')) = length (ms_front (l_st s)) /\ l_iter s' = S (l_iter s))
    end.
Proof.
  intros (W & Li & Ec & todo & done & C & Ld & Bd & Tr).
  pose proof (cyc_length _ _ C) as LC. rewrite app_length in LC.
  destruct todo as [|e0 todo]; [cbn in LC; lia|]. cbn [app set_base_first] in C, Bd.
  assert (In0 : In e0 (ms_front (l_st s))) by (apply (cyc_in _ _ e0 C); left; reflexivity).
  destruct (est_spec (l_st s) (be_id e0) W) as (st1 & ok & os & A & W1 & H & SZ & ID).
  { exists e0. auto. }
  unfold LoopModel.exh_iter. rewrite Ec, Bd, A. cbn [obind]. destruct ok.
  - destruct (ms_front st1) as [|f r] eqn:Ef.
    + eexists _, _, os, 1%nat. split; [reflexivity|]. cbn [l_st l_gen l_cur exh_check set_base_first]. rewrite Ef.
      split; [exact H|]. split; [lia|]. split; [lia|]. split; [exact W1|]. split; [cbn; lia|]. left. reflexivity.
    + eexists _, _, os, 1%nat. split; [reflexivity|]. unfold exh_check. cbn [l_st l_gen l_cur l_iter set_base_first]. rewrite Ef.
      split; [exact H|]. split; [lia|]. split; [lia|]. split; [exact W1|]. split; [lia|].
      cbn [length Nat.eqb]. destruct (reached n (S (l_gen s))) eqn:Er.
      * right. split; [discriminate|reflexivity].
      * split; [|split; [reflexivity|discriminate]]. unfold einv. cbn [l_st l_iter l_cur l_base]. rewrite Ef.
        split; [exact W1|]. split; [cbn; lia|]. split; [reflexivity|]. exists (f :: r), []. rewrite app_nil_r.
        split; [apply cyc_start|]. repeat split. constructor.
  - pose proof (ID eq_refl) as I1. pose proof (g_front _ _ (proj1 I1)) as EF. rewrite <- EF in C.
    destruct (cyc_next _ _ _ C (wf_eid _ W1)) as [C' E']. rewrite E'. cbn [obind].
    eexists _, _, os, 0%nat. split; [reflexivity|]. cbn [l_st l_gen]. split; [exact H|]. split; [lia|]. split; [lia|].
    split; [exact W1|]. split; [rewrite EF; lia|].
    assert (XB : exists e c, (todo ++ done) ++ [e0] = e :: c).
    { destruct (todo ++ done) as [|x r]; cbn; eauto. }
    destruct XB as (e & c & XE). unfold exh_check. cbn [l_st l_gen l_cur l_iter]. rewrite XE. cbn [set_base_first].
    assert (NE : ms_front st1 <> []) by (rewrite EF; destruct (ms_front (l_st s)); [destruct In0|discriminate]).
    assert (TR : searched st1 (done ++ [e0])).
    { apply Forall_app. split; [exact (searched_idle _ _ _ I1 Tr)|]. constructor; [|constructor].
      exists (l_st s), st1. split; [exact I1|]. split; [apply idle_refl|]. split; [exact In0|exact A]. }
    destruct (Nat.eqb_spec (S (l_iter s)) (length (ms_front st1))) as [EI|EI].
    + split; [exact NE|]. split; [reflexivity|].
      assert (todo = []) as ->. { rewrite EF in EI. destruct todo; [reflexivity|cbn in LC; lia]. }
      cbn [app] in C'. apply Forall_forall. intros x Hx. apply (cyc_in _ _ x C') in Hx.
      exact (proj1 (Forall_forall _ _) TR x Hx).
    + destruct (Nat.eqb (length (ms_front st1)) 0) eqn:E0.
      { exfalso. destruct (ms_front st1); [congruence|discriminate]. }
      destruct (reached n (l_gen s)) eqn:Er; [right; auto|].
      split; [|split; [reflexivity|intros _; split; [rewrite EF; reflexivity|reflexivity]]].
      unfold einv. cbn [l_st l_iter l_cur l_base]. split; [exact W1|]. split; [rewrite EF in EI |- *; lia|].
      split; [reflexivity|]. exists todo, (done ++ [e0]). rewrite app_assoc. split; [exact C'|].
      split; [rewrite app_length; cbn; lia|]. split; [rewrite XE; reflexivity|exact TR].
Qed.

Lemma exh_loop_spec n fuel s : einv s -> reached n (l_gen s) = false ->
  match exh_loop fuel n s with
  | None => True
  | Some (Ok (s', r)) => exists os c, history (l_st s) os (l_st s') c /\ l_gen s' = (l_gen s + c)%nat /\ wf (l_st s') /\
      ((0 < n)%Z -> (Z.of_nat (l_gen s) < n)%Z -> (Z.of_nat (l_gen s') <= n)%Z) /\
      (if r then ms_front (l_st s') = [] \/ (ms_front (l_st s') <> [] /\ reached n (l_gen s') = true)
       else ms_front (l_st s') <> [] /\ searched (l_st s') (ms_front (l_st s')))
  | Some UB | Some Throw => False
  end.
Proof.
  revert s. induction fuel as [|f IH]; intros s I NR; [exact Logic.I|]. cbn [LoopModel.exh_loop].
  destruct (exh_iter_spec n s I) as (s' & r & os & c & -> & H & Lc & G & W' & SZ & R).
  assert (NX : (0 < n)%Z -> (Z.of_nat (l_gen s) < n)%Z -> (Z.of_nat (l_gen s') <= n)%Z) by lia.
  destruct r as [[|]|].
  - exists os, c. repeat (split; [assumption|]). exact R.
  - destruct R as (R1 & -> & R2). exists os, 0%nat. repeat (split; [assumption|]). exact R2.
  - destruct R as (I' & NR' & _). specialize (IH s' I' NR').
    destruct (exh_loop f n s') as [[[s2 r]| |]|]; try exact IH.
    destruct IH as (os2 & c2 & H2 & G2 & W2 & L2 & R2).
    exists (os ++ os2), (c + c2)%nat. split; [exact (history_app _ _ _ _ _ _ _ H H2)|]. split; [lia|]. split; [exact W2|].
    split; [|exact R2].
    intros P L. apply L2; [exact P|]. specialize (NX P L). unfold reached in NR'.
    rewrite (proj2 (Z.ltb_lt _ _) P) in NR'. cbn [andb] in NR'. apply Z.eqb_neq in NR'. lia.
Qed.

Lemma exh_loop_ends n S0 : (0 < n)%Z -> forall fuel s, einv s -> reached n (l_gen s) = false ->
  (Z.of_nat (l_gen s) < n)%Z ->
  (length (ms_front (l_st s)) + 2 * (Z.to_nat n - l_gen s) <= S0)%nat ->
  ((Z.to_nat n - l_gen s) * (S0 + 1) + (length (ms_front (l_st s)) - l_iter s) < fuel)%nat ->
  exh_loop fuel n s <> None.
Proof.
  intros P fuel. induction fuel as [|f IH]; intros s I NR L B M; [lia|]. cbn [LoopModel.exh_loop].
  destruct (exh_iter_spec n s I) as (s' & r & os & c & -> & H & Lc & G & W' & SZ & R).
  destruct r as [r|]; [discriminate|]. destruct R as (I' & NR' & R).
  assert (L' : (Z.of_nat (l_gen s') < n)%Z).
  { unfold reached in NR'. rewrite (proj2 (Z.ltb_lt _ _) P) in NR'. cbn [andb] in NR'. apply Z.eqb_neq in NR'. lia. }
  assert (NG : (l_gen s' < Z.to_nat n)%nat) by lia.
  apply IH; try assumption; destruct I as (_ & Li & _); destruct I' as (_ & Li' & _).
  - destruct c as [|[|]]; lia.
  - destruct c as [|[|c]]; [| |lia].
    + rewrite Nat.add_0_r in G. rewrite G. destruct (R eq_refl) as (EL & R1). rewrite EL, R1 in *. lia.
    + replace (Z.to_nat n - l_gen s)%nat with (S (Z.to_nat n - l_gen s')) in M by lia. cbn [Nat.mul] in M. lia.
Qed.

(* ---- generate_elements ---- *)
Lemma sort_step st a : wf st -> history st [FSort a] (sort_edges st a) 0 /\ wf (sort_edges st a) /\
  Permutation (ms_front st) (ms_front (sort_edges st a)).
Proof.
  intros W. assert (F : fstep st (FSort a) = Ok (sort_edges st a, None)) by reflexivity. split; [|split].
  - change 0%nat with ((if succeeded None then 1 else 0) + 0)%nat. econstructor; [exact F|intros ? ? ? X; discriminate X|constructor].
  - exact (step_wf _ _ _ _ _ _ _ _ W F).
  - apply sort_front_perm.
Qed.
Lemma linv_start st : wf st -> ms_front st <> [] ->
  linv (LS (sort_edges st false) (set_base_first (ms_front (sort_edges st false))) (set_base_first (ms_front st)) 0 false 0).
Proof.
  intros W NE. destruct (sort_step st false W) as (_ & W1 & P). unfold linv. cbn [l_st l_cur l_base l_iter l_wide].
  split; [exact W1|]. split.
  { destruct (ms_front st) as [|e r]; [congruence|]. exists e. split; [|reflexivity].
    apply (Permutation_in _ P). left. reflexivity. }
  destruct (ms_front (sort_edges st false)) as [|e r] eqn:E.
  { exfalso. apply Permutation_sym, Permutation_nil in P. congruence. }
  split; [exists e, r; split; [apply cyc_start|reflexivity]|]. split; [cbn; lia|discriminate].
Qed.
Lemma einv_start st : wf st -> ms_front st <> [] ->
  let st1 := sort_edges st true in
  einv (LS st1 (set_base_first (ms_front st1)) (set_base_first (ms_front st1)) 0 false 0).
Proof.
  intros W NE st1. destruct (sort_step st true W) as (_ & W1 & P). fold st1 in W1, P.
  unfold einv. cbn [l_st l_cur l_base l_iter]. split; [exact W1|].
  split. { apply Permutation_length in P. rewrite <- P. destruct (ms_front st); [congruence|cbn; lia]. }
  split; [reflexivity|]. exists (ms_front st1), []. rewrite app_nil_r. split; [apply cyc_start|]. repeat split. constructor.
Qed.

Lemma to_int_small n : (0 <= n < 2 ^ 31)%Z -> to_int n = n.
Proof. intros H. unfold to_int. rewrite Z.mod_small; [lia|]. change (2 ^ 32)%Z with (2 * 2 ^ 31)%Z. lia. Qed.
Lemma reached_true n g : reached n g = true -> Z.of_nat g = n.
Proof. unfold reached. intros H. apply andb_prop in H. apply Z.eqb_eq. apply H. Qed.
Lemma reached_false n g : (0 < n)%Z -> reached n g = false -> Z.of_nat g <> n.
Proof. unfold reached. intros P H. rewrite (proj2 (Z.ltb_lt _ _) P) in H. apply Z.eqb_neq. exact H. Qed.
Lemma reached_zero n : (0 < n)%Z -> reached n 0 = false.
Proof. intros P. unfold reached. destruct (Z.eqb_spec (Z.of_nat 0) n); [lia|apply andb_false_r]. Qed.

Definition gen_result (n : Z) (st : mstate) (x : mstate * bool * nat) : Prop :=
  let '(st', r, c) := x in
  wf st' /\ (Z.of_nat c <= n)%Z /\
  if r then (exists os, history st os st' c) /\ (ms_front st' = [] \/ Z.of_nat c = n)
  else ms_front st' <> [] /\
       exists sx os1 c1 os2 c2, history st os1 sx c1 /\ tried true sx (ms_front sx) /\
         history sx (FSort true :: os2) st' c2 /\ c = (c1 + c2)%nat /\ searched st' (ms_front st').

Lemma generate_spec fuel n st : wf st -> ms_front st <> [] -> (0 < n < 2 ^ 31)%Z ->
  match generate fuel n st with
  | None => True
  | Some (Ok x) => gen_result n st x
  | Some UB | Some Throw => False
  end.
Proof.
  intros W NE Hn. unfold LoopModel.generate. rewrite to_int_small by lia.
  destruct (sort_step st false W) as (H0 & W1 & P0).
  pose proof (adv_loop_spec n fuel _ (linv_start st W NE) (reached_zero n (proj1 Hn))) as A.
  destruct (adv_loop _ _ _) as [[[s r]| |]|]; try exact A.
  destruct A as (os & c & H & G & Ws & L & SZ & R). cbn [l_st l_gen] in *.
  assert (Gc : l_gen s = c) by lia. assert (Lc : (Z.of_nat c <= n)%Z) by (rewrite <- Gc; apply L; lia).
  pose proof (history_app _ _ _ _ _ _ _ H0 H) as H1. cbn [app] in H1. rewrite Nat.add_0_l in H1.
  destruct r.
  - unfold gen_result. split; [exact Ws|]. split; [rewrite Gc; exact Lc|]. split; [exists (FSort false :: os); rewrite Gc; exact H1|].
    destruct R as [R|[_ R]]; [left; exact R|right]. apply reached_true in R. exact R.
  - destruct R as (NE1 & R & T). apply reached_false in R; [|lia].
    assert (LT : (Z.of_nat c < n)%Z) by (rewrite Gc in R; lia).
    rewrite to_int_small by (rewrite Gc; lia). rewrite Z.max_r by (rewrite Gc; lia).
    destruct (sort_step (l_st s) true Ws) as (H2 & W2 & P2).
    unfold LoopModel.exhaustive. destruct (set_base_first (ms_front (sort_edges (l_st s) true))) as [b|] eqn:EB.
    2:{ exfalso. destruct (ms_front (sort_edges (l_st s) true)) eqn:E; [|discriminate].
        apply Permutation_sym, Permutation_nil in P2. congruence. }
    assert (Pm : (0 < n - Z.of_nat (l_gen s))%Z) by (rewrite Gc; lia).
    pose proof (exh_loop_spec (n - Z.of_nat (l_gen s)) fuel _ (einv_start _ Ws NE1) (reached_zero _ Pm)) as E.
    rewrite EB in E. destruct (exh_loop _ _ _) as [[[s' r]| |]|]; try exact E.
    destruct E as (os2 & c2 & H3 & G2 & W3 & L2 & R2). cbn [l_st l_gen] in *.
    assert (Gc2 : l_gen s' = c2) by lia.
    assert (Lc2 : (Z.of_nat (c + c2) <= n)%Z).
    { assert (Z.of_nat (l_gen s') <= n - Z.of_nat (l_gen s))%Z by (apply L2; lia). lia. }
    pose proof (history_app _ _ _ _ _ _ _ H2 H3) as H4. cbn [app] in H4. rewrite Nat.add_0_l in H4.
    unfold gen_result. rewrite Gc, Gc2. split; [exact W3|]. split; [exact Lc2|]. destruct r.
    + split; [eexists; exact (history_app _ _ _ _ _ _ _ H1 H4)|].
      destruct R2 as [R2|[_ R2]]; [left; exact R2|right]. apply reached_true in R2. lia.
    + destruct R2 as [R2 R3]. split; [exact R2|]. exists (l_st s), (FSort false :: os), c, os2, c2. auto 10.
Qed.

(* iterations that are enough for both loops *)
Definition bound (st : mstate) (n : Z) : nat :=
  let S0 := (length (ms_front st) + 2 * Z.to_nat n)%nat in (S (S (Z.to_nat n) * (2 * S0 + 1)))%nat.

Lemma generate_ends fuel n st : wf st -> ms_front st <> [] -> (0 < n < 2 ^ 31)%Z -> (bound st n <= fuel)%nat ->
  generate fuel n st <> None.
Proof.
  intros W NE Hn F. unfold LoopModel.generate. rewrite to_int_small by lia.
  destruct (sort_step st false W) as (H0 & W1 & P0). pose proof (Permutation_length P0) as L0.
  unfold bound in F. set (S0 := (length (ms_front st) + 2 * Z.to_nat n)%nat) in *.
  assert (S1 : (1 <= Z.to_nat n)%nat) by lia.
  pose proof (adv_loop_spec n fuel _ (linv_start st W NE) (reached_zero n (proj1 Hn))) as A.
  assert (E1 : adv_loop fuel n (LS (sort_edges st false) (set_base_first (ms_front (sort_edges st false))) (set_base_first (ms_front st)) 0 false 0) <> None).
  { apply (adv_loop_ends n S0 (proj1 Hn)); [exact (linv_start st W NE)|apply reached_zero; lia|cbn; lia| |];
      unfold failures_left; cbn [l_st l_gen l_wide l_iter]; rewrite <- L0; rewrite ?Nat.sub_0_r; [unfold S0; lia|].
    replace (S (Z.to_nat n) * (2 * S0 + 1))%nat with (Z.to_nat n * (2 * S0 + 1) + (2 * S0 + 1))%nat in F by ring.
    clear - F S1. subst S0. lia. }
  destruct (adv_loop _ _ _) as [[[s r]| |]|]; [|discriminate|discriminate|congruence]. destruct r; [discriminate|].
  destruct A as (os & c & H & G & Ws & L & SZ & NE1 & R & T). cbn [l_st l_gen] in *.
  assert (Gc : l_gen s = c) by lia. assert (Lc : (Z.of_nat c <= n)%Z) by (rewrite <- Gc; apply L; lia).
  apply reached_false in R; [|lia]. rewrite to_int_small by (rewrite Gc; lia). rewrite Z.max_r by (rewrite Gc; lia).
  destruct (sort_step (l_st s) true Ws) as (H2 & W2 & P2). pose proof (Permutation_length P2) as L2.
  unfold LoopModel.exhaustive. destruct (set_base_first (ms_front (sort_edges (l_st s) true))) as [b|] eqn:EB; [|discriminate].
  assert (Pm : (0 < n - Z.of_nat (l_gen s))%Z) by (rewrite Gc; lia).
  pose proof (einv_start _ Ws NE1) as EI. cbv zeta in EI. rewrite EB in EI.
  pose proof (exh_loop_ends (n - Z.of_nat (l_gen s)) S0 Pm fuel _ EI (reached_zero _ Pm)) as X.
  destruct (exh_loop _ _ _) as [[[s' r]| |]|]; try discriminate. exfalso. apply X; cbn [l_st l_gen l_iter]; [lia|rewrite <- L2; unfold S0; lia| |reflexivity].
  - rewrite <- L2, !Nat.sub_0_r.
    assert (N1 : (Z.to_nat (n - Z.of_nat (l_gen s)) <= Z.to_nat n)%nat) by lia.
    assert (L3 : (length (ms_front (l_st s)) <= S0)%nat) by (unfold S0; lia).
    replace (S (Z.to_nat n) * (2 * S0 + 1))%nat with (Z.to_nat n * (2 * S0 + 1) + (2 * S0 + 1))%nat in F by ring.
    pose proof (Nat.mul_le_mono_nonneg_r _ _ (S0 + 1) ltac:(lia) N1) as M.
    assert (M2 : (Z.to_nat n * (S0 + 1) <= Z.to_nat n * (2 * S0 + 1))%nat) by (apply Nat.mul_le_mono_l; lia).
    clear - F M M2 L3. lia.
Qed.

(* more fuel does not change the result *)
Lemma adv_loop_more n : forall f g s, (f <= g)%nat -> adv_loop f n s <> None -> adv_loop g n s = adv_loop f n s.
Proof.
  induction f as [|f IH]; intros g s L H; [exfalso; apply H; reflexivity|]. destruct g as [|g]; [lia|].
  cbn [LoopModel.adv_loop] in *. destruct (adv_iter n s) as [[s' [r|]]| |]; try reflexivity. apply IH; [lia|exact H].
Qed.
Lemma exh_loop_more n : forall f g s, (f <= g)%nat -> exh_loop f n s <> None -> exh_loop g n s = exh_loop f n s.
Proof.
  induction f as [|f IH]; intros g s L H; [exfalso; apply H; reflexivity|]. destruct g as [|g]; [lia|].
  cbn [LoopModel.exh_loop] in *. destruct (exh_iter n s) as [[s' [r|]]| |]; try reflexivity. apply IH; [lia|exact H].
Qed.
Lemma generate_more n st f g : (f <= g)%nat -> generate f n st <> None -> generate g n st = generate f n st.
Proof.
  intros L. unfold LoopModel.generate, LoopModel.exhaustive. intros H.
  rewrite (adv_loop_more _ f g _ L) by (intros E; rewrite E in H; apply H; reflexivity).
  destruct (adv_loop f _ _) as [[[s r]| |]|]; try reflexivity. destruct r; [reflexivity|].
  destruct (set_base_first _); [|reflexivity].
  rewrite (exh_loop_more _ f g _ L) by (intros E; rewrite E in H; apply H; reflexivity). reflexivity.
Qed.
End Loops.
