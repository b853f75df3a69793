(* Invariants of advancing front histories. *)
From Coq Require Import Lia Lqa Permutation Setoid.
From Verif Require Import Base Chain GeomModel GeomSpec FacetModel FacetProofs UtilModel BdryModel BdrySpec
  AdvanceModel AdvanceSpec AdvanceProofs.
Open Scope Q_scope.

Definition activated (t : tri) : tri := TR (tr_id t) (tr_v1 t) (tr_v2 t) (tr_v3 t) true (tr_col t).

Lemma activate_ids k ts : map tr_id (activate k ts) = map tr_id ts.
Proof.
  unfold activate. rewrite map_map. apply map_ext. intros s. destruct (Nat.eqb (tr_id s) k); reflexivity.
Qed.
Lemma activate_in k ts s : In s (activate k ts) -> exists s0, In s0 ts /\ tr_id s0 = tr_id s /\
  tr_v1 s0 = tr_v1 s /\ tr_v2 s0 = tr_v2 s /\ tr_v3 s0 = tr_v3 s /\ tr_col s0 = tr_col s.
Proof.
  unfold activate. intros H. apply in_map_iff in H. destruct H as [s0 [<- H]]. exists s0. split; [exact H|].
  destruct (Nat.eqb (tr_id s0) k); repeat split; reflexivity.
Qed.
Lemma activate_gen ts t : NoDup (map tr_id ts) -> In t ts -> tr_act t = false ->
  Permutation (filter tr_act (activate (tr_id t) ts)) (activated t :: filter tr_act ts).
Proof.
  intros N H A. induction ts as [|s ts IH]; [destruct H|].
  cbn [map] in N. inversion N as [|? ? Ns N']; subst. unfold activate. cbn [map filter].
  destruct (Nat.eqb_spec (tr_id s) (tr_id t)) as [E|E].
  - assert (s = t).
    { destruct H as [H|H]; [exact H|]. exfalso. apply Ns. rewrite E. apply in_map. exact H. }
    subst s. cbn [tr_act]. rewrite A. fold (activated t). apply perm_skip.
    match goal with |- Permutation (filter _ (map ?f ts)) _ => assert (M : map f ts = ts) end.
    { transitivity (map (fun x => x) ts); [|apply map_id]. apply map_ext_in. intros x Hx.
      destruct (Nat.eqb_spec (tr_id x) (tr_id t)) as [E2|E2]; [|reflexivity].
      exfalso. apply Ns. rewrite <- E2. apply in_map. exact Hx. }
    rewrite M. apply Permutation_refl.
  - destruct H as [H|H]; [subst; congruence|]. specialize (IH N' H). unfold activate in IH.
    destruct (tr_act s); [|exact IH]. eapply Permutation_trans; [apply perm_skip; exact IH|]. apply perm_swap.
Qed.

Lemma ins_edge_perm lt e l : Permutation (e :: l) (ins_edge lt e l).
Proof.
  induction l as [|f l IH]; [apply Permutation_refl|]. cbn [ins_edge]. destruct (lt f e); [|apply Permutation_refl].
  eapply Permutation_trans; [apply perm_swap|]. apply perm_skip. exact IH.
Qed.
Lemma sort_front_perm pos a l : Permutation l (sort_front pos a l).
Proof.
  induction l as [|e l IH]; [apply Permutation_refl|]. cbn [sort_front fold_right].
  eapply Permutation_trans; [apply perm_skip; exact IH|]. apply ins_edge_perm.
Qed.

(* ---- one advance ---- *)
Lemma advance_wf st base v t : wf st -> In base (ms_front st) -> (v < ms_nv st)%nat ->
  v <> be_v1 base -> v <> be_v2 base -> In t (ms_tris st) -> wf (advance_front st base v t).
Proof.
  intros W Hb Hv N1 N2 Ht.
  assert (KI : forall e, In e (kept st base v) -> In e (ms_front st)) by apply kept_in.
  constructor.
  - rewrite advance_front_front by assumption.
    apply nodup_app_ids with (n := ms_ne st).
    + unfold kept. apply nodup_filter_ids. generalize (wf_eid _ W). generalize (ms_front st).
      induction (fst (plan_of st base v)) as [|a L IH]; intros es N; [exact N|]. cbn [fold_left]. apply IH.
      apply nodup_filter_ids. exact N.
    + rewrite new_edges_ids. apply seq_NoDup.
    + intros e He. apply (wf_elt _ W). apply KI. exact He.
    + intros e He. apply new_edges_in in He. lia.
  - rewrite advance_front_front by assumption. intros e He. cbn [ms_ne advance_front].
    fold (plan_of st base v). apply in_app_or in He. destruct He as [He|He].
    + apply KI in He. apply (wf_elt _ W) in He. lia.
    + apply new_edges_in in He. lia.
  - rewrite advance_front_front by assumption. intros e He. cbn [ms_nv advance_front].
    apply in_app_or in He. destruct He as [He|He]; [apply (wf_ev _ W), KI, He|].
    apply new_edges_in in He. destruct He as (_ & He & _). apply plan_new_ends in He.
    destruct (wf_ev _ W base Hb) as (B1 & B2 & _). unfold pair_of in He.
    destruct He as [He|He]; injection He as -> ->; repeat split; try assumption; congruence.
  - cbn. rewrite activate_ids. apply W.
  - cbn. intros s Hs. apply activate_in in Hs. destruct Hs as (s0 & H0 & <- & _). apply (wf_tlt _ W). exact H0.
  - cbn. intros s Hs. apply activate_in in Hs. destruct Hs as (s0 & H0 & _ & <- & <- & <- & _). apply (wf_tv _ W). exact H0.
  - apply W.
  - apply W.
Qed.

Lemma advance_generated st base v t : wf st -> In t (ms_tris st) -> tr_act t = false ->
  Permutation (generated (advance_front st base v t)) (activated t :: generated st).
Proof. intros W Ht A. apply activate_gen; [apply W|exact Ht|exact A]. Qed.

Section Steps.
Variable mesh_scale : Q.
Variable tri_ok : mstate -> tri -> bool.
Variable vtx_ok : mstate -> nat -> bool.
Variable qual : mstate -> tri -> Q.
Notation fstep := (fstep mesh_scale tri_ok vtx_ok qual).
Notation frun := (frun mesh_scale tri_ok vtx_ok qual).
Notation accepted := (accepted mesh_scale tri_ok vtx_ok qual).

(* an accepted triangle: the state it was added to, its base edge *)
Record taken (st st2 : mstate) (base : bedge) (t : tri) : Prop := {
  tk_grown : grown st st2;
  tk_wf : wf st2;
  tk_sq : forall s, vertices_in s st -> (ms_nv st2 = ms_nv st \/ in_square s (ms_pos st2 (tr_v3 t)) = true) ->
          vertices_in s st2;
  tk_base : In base (ms_front st);
  tk_v1 : tr_v1 t = be_v1 base;
  tk_v2 : tr_v2 t = be_v2 base;
  tk_v3 : (tr_v3 t < ms_nv st2)%nat;
  tk_n1 : tr_v3 t <> be_v1 base;
  tk_n2 : tr_v3 t <> be_v2 base;
  tk_in : In t (ms_tris st2);
  tk_act : tr_act t = false;
  tk_col : tr_col t = ms_col st;
  tk_onf : (tr_v3 t < ms_nv st)%nat -> ms_onf st (tr_v3 t) = true;
  tk_ok : exists stx, grown st stx /\ tri_ok stx t = true /\
          (forall v, (v < ms_nv st2)%nat -> ms_pos stx v = ms_pos st2 v) /\
          (forall v, In v (ms_verts st) -> In v (ms_verts stx))
}.

Lemma orientation_self_l p q : orientation p q p = CL.
Proof.
  assert (E : area2 p q p == 0) by (unfold area2; ring).
  unfold orientation. rewrite (proj2 (Qltb_true _ _)); [reflexivity|]. rewrite E. reflexivity.
Qed.
Lemma orientation_self_r p q : orientation p q q = CL.
Proof.
  assert (E : area2 p q q == 0) by (unfold area2; ring).
  unfold orientation. rewrite (proj2 (Qltb_true _ _)); [reflexivity|]. rewrite E. reflexivity.
Qed.

Lemma update_front_spec st k xy cands st' r : wf st ->
  (forall v, In v cands -> In v (ms_verts st)) ->
  update_front mesh_scale tri_ok vtx_ok qual st k xy cands = Ok (st', r) ->
  match r with
  | Some t => exists st2 base, taken st st2 base t /\ st' = advance_front st2 base (tr_v3 t) t /\
                (ms_nv st2 = ms_nv st \/ ms_pos st2 (tr_v3 t) = xy)
  | None => grown st st' /\ wf st' /\ (forall s, vertices_in s st -> in_square s xy = true -> vertices_in s st') /\
            (vertices_in mesh_scale st -> in_square mesh_scale xy = true -> same_mesh st st')
  end.
Proof.
  intros W HC U. unfold update_front in U. destruct (find_edge k (ms_front st)) as [base|] eqn:Fb; [|discriminate].
  apply find_edge_in in Fb. destruct Fb as [Hb _].
  assert (HC' : forall v, In v cands -> (v < ms_nv st)%nat) by (intros v Hv; apply (wf_vlt _ W), HC, Hv).
  destruct (create_possible_spec mesh_scale tri_ok cands st base W Hb HC') as (X & N & C).
  destruct (create_possible mesh_scale tri_ok st base cands) as [st1 ts] eqn:CP. cbn [fst snd] in *.
  pose proof (extended_wf _ _ W X) as W1. pose proof (extended_grown _ _ X) as G1.
  pose proof (sort_tris_perm (qual st1) ts) as P.
  destruct (sort_tris (qual st1) ts) as [|best others] eqn:So.
  - (* no candidate *)
    apply Permutation_sym, Permutation_nil in P. subst ts.
    destruct (add_vertex_grown st1 xy W1) as [G2 W2].
    set (v := ms_nv st1) in *. cbn [add_vertex] in U. fold v in U.
    set (st2 := fst (add_vertex st1 xy)) in *.
    change (MS (fun j => if Nat.eqb j v then xy else ms_pos st1 j)
        (fun i => if Nat.eqb i v then false else ms_onf st1 i) (ms_verts st1 ++ [v]) (S v)
        (ms_front st1) (ms_ne st1) (ms_intr st1) (ms_tris st1) (ms_nt st1) (ms_quads st1) (ms_area st1) (ms_col st1)) with st2 in U.
    assert (NV : ms_nv st1 = ms_nv st) by (destruct X as (Y & n & -> & _); reflexivity).
    assert (B12 : (be_v1 base < ms_nv st2)%nat /\ (be_v2 base < ms_nv st2)%nat /\ (v < ms_nv st2)%nat).
    { destruct (wf_ev _ W base Hb) as (B1 & B2 & _). cbn. unfold v. rewrite NV. lia. }
    destruct B12 as (B1 & B2 & Bv).
    pose proof (add_triangle_ext st2 (be_v1 base) (be_v2 base) v B1 B2 Bv) as X3.
    destruct (add_triangle st2 (be_v1 base) (be_v2 base) v) as [st3 t] eqn:At. cbn [fst] in X3.
    assert (Et : t = TR (ms_nt st2) (be_v1 base) (be_v2 base) v false (ms_col st2)) by (unfold add_triangle in At; injection At; intros; subst; reflexivity).
    assert (E3 : st3 = with_tris st2 (ms_tris st2 ++ [t]) (S (ms_nt st2))) by (unfold add_triangle in At; injection At; intros; subst; reflexivity).
    pose proof (extended_wf _ _ W2 X3) as W3. pose proof (extended_grown _ _ X3) as G3.
    assert (Pv : ms_pos st3 v = xy) by (rewrite E3; cbn; rewrite Nat.eqb_refl; reflexivity).
    assert (SQ : forall s, vertices_in s st -> in_square s xy = true -> vertices_in s st3).
    { intros s V Sx u Hu. rewrite E3 in Hu |- *. cbn in Hu |- *. fold v in Hu |- *.
      destruct (Nat.eqb_spec u v) as [->|Ne]; [exact Sx|]. rewrite (g_pos _ _ G1) by (unfold v in *; lia).
      apply V. unfold v in *. lia. }
    destruct (vtx_ok st3 v && tri_ok st3 t) eqn:OK.
    + injection U as <- <-. apply andb_true_iff in OK. destruct OK as [_ OK].
      assert (G : grown st st3) by (eapply grown_trans; [exact G1|]; eapply grown_trans; eassumption).
      exists st3, base. split; [|split; [rewrite Et; reflexivity|right; rewrite Et; exact Pv]].
      constructor; rewrite ?Et; cbn [tr_v1 tr_v2 tr_v3 tr_act tr_col tr_id].
      * exact G.
      * exact W3.
      * intros s V [Q|Q]; [rewrite E3 in Q; cbn in Q; unfold v in Q; lia|]. rewrite Pv in Q. apply SQ; assumption.
      * exact Hb.
      * reflexivity.
      * reflexivity.
      * rewrite E3. exact Bv.
      * intros E. destruct (wf_ev _ W base Hb) as (? & ? & _). unfold v in E. lia.
      * intros E. destruct (wf_ev _ W base Hb) as (? & ? & _). unfold v in E. lia.
      * rewrite E3. cbn [ms_tris with_tris]. rewrite Et. apply in_or_app. right. left. reflexivity.
      * reflexivity.
      * rewrite <- (g_col _ _ G1). reflexivity.
      * intros Hv. exfalso. unfold v in Hv. lia.
      * exists st3. split; [exact G|]. split; [rewrite <- Et; exact OK|]. split; [reflexivity|].
        intros u Hu. rewrite E3. cbn. apply in_or_app. left.
        destruct X as (Y & n & -> & _). exact Hu.
    + injection U as <- <-.
      assert (X4 : extended st2 (remove_triangle mesh_scale st3 t)).
      { apply remove_triangle_ext; try assumption. rewrite Et. cbn. lia. }
      pose proof (extended_grown _ _ X4) as G4. pose proof (extended_wf _ _ W2 X4) as W4.
      set (st4 := remove_triangle mesh_scale st3 t) in *.
      assert (P4 : ms_pos st4 = ms_pos st3 /\ ms_nv st4 = ms_nv st3).
      { destruct X4 as (Y4 & n4 & -> & _). rewrite E3. split; reflexivity. }
      destruct P4 as [P4 V4].
      assert (G5 : grown st st4) by (eapply grown_trans; [exact G1|]; eapply grown_trans; eassumption).
      assert (G6 : grown st (remove_vertex mesh_scale st4 v) /\ wf (remove_vertex mesh_scale st4 v)).
      { unfold remove_vertex. destruct (in_square mesh_scale (ms_pos st4 v)); [|split; assumption]. split.
        - constructor; cbn; try apply G5.
        - constructor; cbn; try apply W4.
          + apply NoDup_filter. apply W4.
          + intros u Hu. apply filter_In in Hu. apply (wf_vlt _ W4). apply Hu. }
      destruct G6 as [G6 W6]. split; [exact G6|]. split; [exact W6|]. split.
      * intros s V Sx u Hu. pose proof (SQ s V Sx u) as Q.
        assert (Pr : ms_pos (remove_vertex mesh_scale st4 v) = ms_pos st3 /\ ms_nv (remove_vertex mesh_scale st4 v) = ms_nv st3).
        { unfold remove_vertex. destruct (in_square mesh_scale (ms_pos st4 v)); cbn; rewrite P4, V4; split; reflexivity. }
        destruct Pr as [Pr1 Pr2]. rewrite Pr1. apply Q. rewrite <- Pr2. exact Hu.
      * intros V Sx.
        assert (S4 : in_square mesh_scale (ms_pos st4 v) = true) by (rewrite P4, Pv; exact Sx).
        assert (St : in_square mesh_scale (tri_loc (ms_pos st3) t) = true).
        { pose proof (SQ _ V Sx) as Q. rewrite Et. unfold tri_loc. cbn [tr_v1 tr_v2 tr_v3].
          assert (NV3 : ms_nv st3 = ms_nv st2) by (rewrite E3; reflexivity).
          apply in_square_centroid; apply Q; rewrite NV3; assumption. }
        assert (T4 : ms_tris st4 = ms_tris st1).
        { unfold st4, remove_triangle. rewrite St. rewrite E3. cbn [ms_tris with_tris]. rewrite filter_app.
          cbn [filter]. rewrite Nat.eqb_refl. cbn [negb]. rewrite app_nil_r. apply filter_all.
          intros s Hs. apply (wf_tlt _ W2) in Hs. rewrite Et. cbn [tr_id].
          destruct (Nat.eqb_spec (tr_id s) (ms_nt st2)); [lia|reflexivity]. }
        assert (T1 : ms_tris st1 = ms_tris st).
        { (* no accepted candidate: everything was removed again *)
          clear - CP W Hb HC' V. revert st W Hb HC' V st1 CP. induction cands as [|c cs IH]; intros st W Hb HC' V st1 CP.
          - cbn in CP. injection CP as <-. reflexivity.
          - assert (HC2 : forall u, In u cs -> (u < ms_nv st)%nat) by (intros; apply HC'; right; assumption).
            cbn [create_possible] in CP.
            destruct (negb (ms_onf st c)); [apply (IH st W Hb HC2 V _ CP)|].
            destruct (orient_eqb _ CL); [apply (IH st W Hb HC2 V _ CP)|].
            destruct (wf_ev _ W base Hb) as (B1 & B2 & _). pose proof (HC' c (or_introl eq_refl)) as Bc.
            pose proof (add_triangle_ext st (be_v1 base) (be_v2 base) c B1 B2 Bc) as X.
            destruct (add_triangle st (be_v1 base) (be_v2 base) c) as [s1 t] eqn:At.
            unfold add_triangle in At. injection At as <- <-. cbn [fst] in X.
            set (t := TR (ms_nt st) (be_v1 base) (be_v2 base) c false (ms_col st)) in *.
            destruct (tri_ok _ t).
            { destruct (create_possible mesh_scale tri_ok _ base cs) as [s2 ts]. discriminate. }
            set (s1 := with_tris st (ms_tris st ++ [t]) (S (ms_nt st))) in *.
            assert (R : remove_triangle mesh_scale s1 t = with_tris st (ms_tris st) (S (ms_nt st))).
            { unfold remove_triangle.
              assert (Sq : in_square mesh_scale (tri_loc (ms_pos s1) t) = true)
                by exact (in_square_centroid mesh_scale _ _ _ (V _ B1) (V _ B2) (V _ Bc)).
              rewrite Sq. unfold s1.
              unfold with_tris. cbn. f_equal. rewrite filter_app. cbn [filter tr_id t]. rewrite Nat.eqb_refl. cbn [negb].
              rewrite app_nil_r. apply filter_all. intros s Hs. apply (wf_tlt _ W) in Hs.
              destruct (Nat.eqb_spec (tr_id s) (ms_nt st)); [lia|reflexivity]. }
            rewrite R in CP.
            assert (W' : wf (with_tris st (ms_tris st) (S (ms_nt st)))).
            { constructor; cbn; try apply W. intros x Hx. pose proof (wf_tlt _ W x Hx). lia. }
            rewrite (IH _ W' Hb HC2 V _ CP).
            reflexivity. }
        unfold same_mesh, remove_vertex. rewrite S4. cbn [ms_verts ms_front ms_intr ms_tris ms_quads ms_area ms_col ms_pos ms_onf].
        split.
        { assert (V4' : ms_verts st4 = ms_verts st ++ [v]).
          { destruct X4 as (Y4 & n4 & -> & _). cbn. destruct X as (Y & n & -> & _). reflexivity. }
          rewrite V4', filter_app. cbn [filter]. rewrite Nat.eqb_refl. cbn [negb]. rewrite app_nil_r. apply filter_all.
          intros u Hu. apply (wf_vlt _ W) in Hu. destruct (Nat.eqb_spec u v); [unfold v in *; lia|reflexivity]. }
        split; [apply G5|]. split; [apply G5|]. split; [rewrite T4; exact T1|].
        split; [apply G5|]. split; [apply G5|]. split; [apply G5|].
        intros u Hu. split; apply G5; exact Hu.
  - (* the best candidate is taken *)
    injection U as <- <-.
    assert (Ib : In best ts) by (eapply Permutation_in; [apply Permutation_sym, P|left; reflexivity]).
    destruct (C best Ib) as (T1 & T2 & (K1 & K2 & K3 & K4 & K5 & K6 & stx & K7 & K8)).
    assert (No : forall t, In t others -> tr_id best <> tr_id t).
    { apply (Permutation_map tr_id) in P. pose proof (Permutation_NoDup P N) as N2. cbn [map] in N2.
      inversion N2 as [|? ? Nb _]; subst. intros t Ht E. apply Nb. rewrite E. apply in_map. exact Ht. }
    assert (Ho : forall t, In t others -> (ms_nt st <= tr_id t)%nat).
    { intros t Ht. apply C. eapply Permutation_in; [apply Permutation_sym, P|right; exact Ht]. }
    pose proof (fold_remove_ext mesh_scale st others st1 W X Ho) as X2.
    pose proof (fold_remove_keeps mesh_scale others st1 best T1 No) as Kb.
    set (st2 := fold_left (remove_triangle mesh_scale) others st1) in *. clearbody st2.
    exists st2, base. split; [|split; [reflexivity|left; destruct X2 as (Y & n & -> & _); reflexivity]].
    constructor.
    + apply extended_grown. exact X2.
    + exact (extended_wf _ _ W X2).
    + intros s V _. destruct X2 as (Y & n & -> & _). exact V.
    + exact Hb.
    + exact K1.
    + exact K2.
    + destruct X2 as (Y & n & -> & _). cbn. apply HC'. exact K3.
    + intros E. apply K6. rewrite E. apply orientation_self_l.
    + intros E. apply K6. rewrite E. apply orientation_self_r.
    + exact Kb.
    + exact K4.
    + destruct X as (Y & n & -> & _ & _ & HX).
      cbn in T1. apply in_app_or in T1. destruct T1 as [T1|T1]; [apply (wf_tlt _ W) in T1; lia|]. apply HX in T1. tauto.
    + intros _. exact K5.
    + exists stx. split; [apply extended_grown; exact K7|]. split; [exact K8|]. split.
      * destruct K7 as (Y & n & -> & _). destruct X2 as (Y2 & n2 & -> & _). reflexivity.
      * destruct K7 as (Y & n & -> & _). auto.
Qed.

Lemma update_exhaustive_spec st k v st' r : wf st -> (v < ms_nv st)%nat ->
  update_front_exhaustive mesh_scale tri_ok st k v = Ok (st', r) ->
  match r with
  | Some t => exists st2 base, taken st st2 base t /\ st' = advance_front st2 base (tr_v3 t) t /\
                ms_nv st2 = ms_nv st /\ tr_v3 t = v
  | None => grown st st' /\ wf st' /\ (forall s, vertices_in s st -> vertices_in s st') /\
            (vertices_in mesh_scale st -> same_mesh st st')
  end.
Proof.
  intros W Hv U. unfold update_front_exhaustive in U.
  destruct (find_edge k (ms_front st)) as [base|] eqn:Fb; [|discriminate].
  apply find_edge_in in Fb. destruct Fb as [Hb _].
  assert (SM : same_mesh st st) by (unfold same_mesh; repeat split).
  assert (Triv : grown st st /\ wf st /\ (forall s, vertices_in s st -> vertices_in s st) /\
            (vertices_in mesh_scale st -> same_mesh st st)).
  { split; [apply grown_refl|]. split; [exact W|]. split; auto. }
  destruct (ms_onf st v) eqn:On; cbn [negb] in U; [|injection U as <- <-; exact Triv].
  destruct (orient_eqb _ CCW) eqn:Or; cbn [negb] in U; [|injection U as <- <-; exact Triv]. clear Triv.
  destruct (wf_ev _ W base Hb) as (B1 & B2 & _). pose proof Hv as Bv.
  pose proof (add_triangle_ext st (be_v1 base) (be_v2 base) v B1 B2 Bv) as X.
  destruct (add_triangle st (be_v1 base) (be_v2 base) v) as [st1 t] eqn:At. cbn [fst] in X.
  assert (Et : t = TR (ms_nt st) (be_v1 base) (be_v2 base) v false (ms_col st)) by (unfold add_triangle in At; injection At; intros; subst; reflexivity).
  assert (E1 : st1 = with_tris st (ms_tris st ++ [t]) (S (ms_nt st))) by (unfold add_triangle in At; injection At; intros; subst; reflexivity).
  clear At.
  assert (Nc : forall x, orientation (ms_pos st (be_v1 base)) (ms_pos st (be_v2 base)) x = CL -> ms_pos st v <> x).
  { intros x E Ex. rewrite Ex, E in Or. discriminate. }
  destruct (tri_ok st1 t) eqn:OK; injection U as <- <-.
  - exists st1, base. split; [|split; [rewrite Et; reflexivity|split; [rewrite E1; reflexivity|rewrite Et; reflexivity]]].
    constructor; try (rewrite Et; cbn [tr_v1 tr_v2 tr_v3 tr_act tr_col tr_id]).
    + apply extended_grown. exact X.
    + exact (extended_wf _ _ W X).
    + intros s V _. rewrite E1. exact V.
    + exact Hb.
    + reflexivity.
    + reflexivity.
    + rewrite E1. exact Bv.
    + intros E. apply (Nc (ms_pos st (be_v1 base))); [apply orientation_self_l|rewrite E; reflexivity].
    + intros E. apply (Nc (ms_pos st (be_v2 base))); [apply orientation_self_r|rewrite E; reflexivity].
    + rewrite E1, Et. cbn. apply in_or_app. right. left. reflexivity.
    + reflexivity.
    + reflexivity.
    + intros _. exact On.
    + exists st1. split; [apply extended_grown; exact X|]. split; [rewrite <- Et; exact OK|]. split; [reflexivity|].
      rewrite E1. auto.
  - assert (X2 : extended st (remove_triangle mesh_scale st1 t)).
    { apply remove_triangle_ext; try assumption. rewrite Et. cbn. lia. }
    split; [apply extended_grown; exact X2|]. split; [exact (extended_wf _ _ W X2)|]. split.
    + intros s V. destruct X2 as (Y & n & -> & _). exact V.
    + intros V.
      assert (T : ms_tris (remove_triangle mesh_scale st1 t) = ms_tris st).
      { unfold remove_triangle.
        assert (Sq : in_square mesh_scale (tri_loc (ms_pos st1) t) = true).
        { rewrite E1, Et. unfold tri_loc. cbn. apply in_square_centroid; apply V; assumption. }
        rewrite Sq, E1. cbn [ms_tris with_tris]. rewrite filter_app. cbn [filter]. rewrite Nat.eqb_refl. cbn [negb].
        rewrite app_nil_r. apply filter_all. intros x Hx. apply (wf_tlt _ W) in Hx. rewrite Et. cbn [tr_id].
        destruct (Nat.eqb_spec (tr_id x) (ms_nt st)); [lia|reflexivity]. }
      destruct X2 as (Y & n & E & _). rewrite E in T |- *. unfold same_mesh. cbn in *.
      repeat (split; [reflexivity|]). split; [exact T|]. repeat (split; [reflexivity|]). auto.
Qed.

Lemma in_list_spec l v : in_list l v = true <-> In v l.
Proof.
  unfold in_list. rewrite existsb_exists. split.
  - intros (x & Hx & E). apply Nat.eqb_eq in E. subst. exact Hx.
  - intros H. exists v. split; [exact H|apply Nat.eqb_refl].
Qed.

Lemma incident_lt st v : wf st -> existsb (incident v) (ms_front st) = true -> (v < ms_nv st)%nat.
Proof.
  intros W H. apply existsb_exists in H. destruct H as (e & He & I). destruct (wf_ev _ W e He) as (A & B & _).
  unfold incident in I. apply orb_true_iff in I. destruct I as [I|I]; apply Nat.eqb_eq in I; subst; assumption.
Qed.

(* the front may have been sorted *)
Record quiet (st st' : mstate) : Prop := {
  q_nv : (ms_nv st <= ms_nv st')%nat;
  q_front : Permutation (ms_front st) (ms_front st');
  q_intr : ms_intr st' = ms_intr st;
  q_gen : generated st' = generated st;
  q_area : ms_area st' = ms_area st;
  q_col : ms_col st' = ms_col st;
  q_pos : forall v, (v < ms_nv st)%nat -> ms_pos st' v = ms_pos st v
}.
Lemma grown_quiet st st' : grown st st' -> quiet st st'.
Proof. intros G. constructor; try apply G. rewrite (g_front _ _ G). apply Permutation_refl. Qed.

Lemma fstep_spec st o st' r : wf st -> fstep st o = Ok (st', r) ->
  match r with
  | Some t => exists st2 base, taken st st2 base t /\ st' = advance_front st2 base (tr_v3 t) t /\
                (forall s, vertices_in s st -> op_in s o -> vertices_in s st2)
  | None => quiet st st' /\ wf st' /\ (forall s, vertices_in s st -> op_in s o -> vertices_in s st')
  end.
Proof.
  intros W H. destruct o as [k xy cands|k v|a]; cbn [AdvanceModel.fstep] in H.
  - apply update_front_spec in H; [|exact W|].
    2:{ intros v Hv. apply filter_In in Hv. apply in_list_spec. apply Hv. }
    destruct r as [t|].
    + destruct H as (st2 & base & T & E & Q). exists st2, base. split; [exact T|]. split; [exact E|].
      intros s V O. apply (tk_sq _ _ _ _ T s V). destruct Q as [Q|Q]; [left; exact Q|right; rewrite Q; exact O].
    + destruct H as (G & W' & SQ & _). split; [apply grown_quiet; exact G|]. split; [exact W'|].
      intros s V O. apply SQ; assumption.
  - destruct (existsb (incident v) (ms_front st)) eqn:Iv; [|discriminate]. apply (incident_lt _ _ W) in Iv.
    apply update_exhaustive_spec in H; [|exact W|exact Iv]. destruct r as [t|].
    + destruct H as (st2 & base & T & E & Q & _). exists st2, base. split; [exact T|]. split; [exact E|].
      intros s V O. apply (tk_sq _ _ _ _ T s V). left. exact Q.
    + destruct H as (G & W' & SQ & _). split; [apply grown_quiet; exact G|]. split; [exact W'|]. intros s V _. apply SQ; assumption.
  - injection H as <- <-. cbn [sort_edges].
    pose proof (sort_front_perm (ms_pos st) a (ms_front st)) as P. split; [constructor; cbn; auto|]. split.
    + constructor; cbn; try apply W.
      * eapply Permutation_NoDup; [apply Permutation_map; exact P|apply W].
      * intros e He. apply (wf_elt _ W). eapply Permutation_in; [apply Permutation_sym, P|exact He].
      * intros e He. apply (wf_ev _ W). eapply Permutation_in; [apply Permutation_sym, P|exact He].
    + intros s V _. exact V.
Qed.

(* ---- weights ---- *)
Definition wtotal (w : nat -> nat -> Q) (st : mstate) : Q :=
  esum w (sides (generated st)) + esum w (ends (ms_front st)).
Definition wbalance (w : nat -> nat -> Q) (st : mstate) : Q :=
  esum w (sides (generated st)) - 2 * esum w (ms_intr st)
  - esum w (ends (filter interior (ms_front st)))
  + esum w (ends (filter (fun e => negb (interior e)) (ms_front st))).

Lemma sides_activated w t l : esum w (sides (activated t :: l)) ==
  w (tr_v1 t) (tr_v2 t) + w (tr_v2 t) (tr_v3 t) + w (tr_v3 t) (tr_v1 t) + esum w (sides l).
Proof. unfold sides. cbn [flat_map]. rewrite esum_app. cbn [tri_sides activated tr_v1 tr_v2 tr_v3 esum]. ring. Qed.

Lemma step_anti w st o st' r : antisym w -> wf st -> vertices_in front_scale st -> op_in front_scale o ->
  fstep st o = Ok (st', r) -> (forall t, r = Some t -> sides_expected st t) ->
  wtotal w st' == wtotal w st.
Proof.
  intros A W V O H X. apply fstep_spec in H; [|exact W]. destruct r as [t|].
  - destruct H as (st2 & base & T & -> & SQ). pose proof (SQ _ V O) as V2. destruct T.
    specialize (X t eq_refl). unfold wtotal.
    rewrite (esum_perm w _ _ (perm_sides _ _ (advance_generated st2 base (tr_v3 t) t tk_wf0 tk_in0 tk_act0))).
    rewrite sides_activated, (g_gen _ _ tk_grown0).
    assert (Hb2 : In base (ms_front st2)) by (rewrite (g_front _ _ tk_grown0); exact tk_base0).
    rewrite advance_front_front by assumption.
    pose proof (front_sum_anti w st2 base (tr_v3 t) A tk_wf0 V2 Hb2 tk_n3 tk_n4) as S.
    rewrite (g_front _ _ tk_grown0) in S. rewrite tk_v4, tk_v5.
    assert (X2 : sides_expected st2 (TR 0 (be_v1 base) (be_v2 base) (tr_v3 t) true 0)).
    { unfold sides_expected in *. cbn. rewrite (g_front _ _ tk_grown0). rewrite tk_v4, tk_v5 in X. exact X. }
    specialize (S X2). lra.
  - destruct H as (G & _ & _). unfold wtotal. rewrite (q_gen _ _ G).
    rewrite <- (esum_perm w _ _ (perm_ends _ _ (q_front _ _ G))). reflexivity.
Qed.

Lemma step_sym w st o st' r : symm w -> wf st -> vertices_in front_scale st -> op_in front_scale o ->
  no_ghosts st -> fstep st o = Ok (st', r) -> wbalance w st' == wbalance w st.
Proof.
  intros A W V O NG H. apply fstep_spec in H; [|exact W]. destruct r as [t|].
  - destruct H as (st2 & base & T & -> & SQ). pose proof (SQ _ V O) as V2.
    pose proof (tk_grown _ _ _ _ T) as G. pose proof (tk_wf _ _ _ _ T) as W2.
    unfold wbalance.
    rewrite (esum_perm w _ _ (perm_sides _ _ (advance_generated st2 base (tr_v3 t) t W2 (tk_in _ _ _ _ T) (tk_act _ _ _ _ T)))).
    rewrite sides_activated, (g_gen _ _ G).
    assert (Hb2 : In base (ms_front st2)) by (rewrite (g_front _ _ G); apply T).
    pose proof (front_sum_sym w st2 base (tr_v3 t) A W2 V2 Hb2 (tk_n1 _ _ _ _ T) (tk_n2 _ _ _ _ T)) as S. cbv zeta in S.
    rewrite <- (advance_front_front st2 base (tr_v3 t) t W2 Hb2) in S.
    set (F := ms_front (advance_front st2 base (tr_v3 t) t)) in *.
    rewrite (g_front _ _ G) in S. rewrite (tk_v1 _ _ _ _ T), (tk_v2 _ _ _ _ T).
    assert (I : ms_intr (advance_front st2 base (tr_v3 t) t) =
                ms_intr st ++ intr_of base (fst (plan_of st2 base (tr_v3 t)))).
    { unfold advance_front, intr_of. cbn [ms_intr]. fold (plan_of st2 base (tr_v3 t)).
      rewrite (NG base) by apply T. rewrite (g_intr _ _ G). cbn [negb]. rewrite andb_true_r.
      destruct (interior base); rewrite ?app_nil_r, ?app_assoc; reflexivity. }
    rewrite I, esum_app. lra.
  - destruct H as (G & _ & _). unfold wbalance. rewrite (q_gen _ _ G), (q_intr _ _ G).
    rewrite <- (esum_perm w _ _ (perm_ends _ _ (perm_filter interior _ _ (q_front _ _ G)))).
    rewrite <- (esum_perm w _ _ (perm_ends _ _ (perm_filter (fun e => negb (interior e)) _ _ (q_front _ _ G)))).
    reflexivity.
Qed.

Lemma step_wf st o st' r : wf st -> fstep st o = Ok (st', r) -> wf st'.
Proof.
  intros W H. apply fstep_spec in H; [|exact W]. destruct r as [t|].
  - destruct H as (st2 & base & T & -> & _). pose proof (tk_grown _ _ _ _ T) as G. apply advance_wf.
    + exact (tk_wf _ _ _ _ T).
    + rewrite (g_front _ _ G). exact (tk_base _ _ _ _ T).
    + exact (tk_v3 _ _ _ _ T).
    + exact (tk_n1 _ _ _ _ T).
    + exact (tk_n2 _ _ _ _ T).
    + exact (tk_in _ _ _ _ T).
  - apply H.
Qed.
Lemma step_square s st o st' r : wf st -> vertices_in s st -> op_in s o -> fstep st o = Ok (st', r) -> vertices_in s st'.
Proof.
  intros W V O H. apply fstep_spec in H; [|exact W]. destruct r as [t|].
  - destruct H as (st2 & base & T & -> & SQ). apply SQ; assumption.
  - destruct H as (_ & _ & SQ). apply SQ; assumption.
Qed.
Lemma step_no_ghosts st o st' r : wf st -> no_ghosts st -> fstep st o = Ok (st', r) -> no_ghosts st'.
Proof.
  intros W NG H. apply fstep_spec in H; [|exact W]. destruct r as [t|].
  - destruct H as (st2 & base & T & -> & _). pose proof (tk_grown _ _ _ _ T) as G. intros e He.
    rewrite advance_front_front in He; [|exact (tk_wf _ _ _ _ T)|rewrite (g_front _ _ G); exact (tk_base _ _ _ _ T)].
    apply in_app_or in He. destruct He as [He|He].
    + apply NG. apply kept_in in He. rewrite (g_front _ _ G) in He. exact He.
    + apply new_edges_in in He. unfold ghost. destruct He as (_ & _ & -> & _). reflexivity.
  - destruct H as (G & _). intros e He. apply NG. eapply Permutation_in; [apply Permutation_sym, (q_front _ _ G)|exact He].
Qed.
Lemma step_pos st o st' r : wf st -> fstep st o = Ok (st', r) ->
  (ms_nv st <= ms_nv st')%nat /\ forall v, (v < ms_nv st)%nat -> ms_pos st' v = ms_pos st v.
Proof.
  intros W H. apply fstep_spec in H; [|exact W]. destruct r as [t|].
  - destruct H as (st2 & base & T & -> & _). pose proof (tk_grown _ _ _ _ T) as G. split; apply G.
  - destruct H as (G & _). split; apply G.
Qed.

(* the stored area counts exactly the generated triangles *)
Lemma tri_areas_perm pos l l' : Permutation l l' -> tri_areas pos l == tri_areas pos l'.
Proof.
  unfold tri_areas. induction 1 as [|a l l' _ IH|a b l|l1 l2 l3 _ IH1 _ IH2]; cbn [map sumQ].
  - reflexivity.
  - rewrite IH. reflexivity.
  - ring.
  - rewrite IH1. exact IH2.
Qed.
Lemma tri_areas_ext pos pos' l : (forall t, In t l -> pos (tr_v1 t) = pos' (tr_v1 t) /\
  pos (tr_v2 t) = pos' (tr_v2 t) /\ pos (tr_v3 t) = pos' (tr_v3 t)) -> tri_areas pos l == tri_areas pos' l.
Proof.
  intros H. unfold tri_areas. apply sumQ_ext. intros t Ht. destruct (H t Ht) as (-> & -> & ->). reflexivity.
Qed.
Lemma gen_in st t : In t (generated st) -> In t (ms_tris st).
Proof. unfold generated. intros H. apply filter_In in H. apply H. Qed.

Lemma step_area st o st' r : wf st -> fstep st o = Ok (st', r) ->
  ms_area st' - tri_areas (ms_pos st') (generated st') == ms_area st - tri_areas (ms_pos st) (generated st).
Proof.
  intros W H. pose proof (step_pos _ _ _ _ W H) as [L P].
  assert (E : tri_areas (ms_pos st') (generated st) == tri_areas (ms_pos st) (generated st)).
  { apply tri_areas_ext. intros t Ht. apply gen_in in Ht. destruct (wf_tv _ W t Ht) as (A & B & C).
    repeat split; apply P; assumption. }
  apply fstep_spec in H; [|exact W]. destruct r as [t|].
  - destruct H as (st2 & base & T & -> & _). pose proof (tk_grown _ _ _ _ T) as G.
    rewrite (tri_areas_perm _ _ _ (advance_generated st2 base (tr_v3 t) t (tk_wf _ _ _ _ T) (tk_in _ _ _ _ T) (tk_act _ _ _ _ T))).
    unfold tri_areas at 1. cbn [map sumQ activated tr_v1 tr_v2 tr_v3]. fold (tri_areas (ms_pos (advance_front st2 base (tr_v3 t) t)) (generated st2)).
    rewrite (g_gen _ _ G), E. cbn [ms_area ms_pos advance_front]. rewrite (g_area _ _ G). ring.
  - destruct H as (G & _). rewrite (q_gen _ _ G), (q_area _ _ G), E. reflexivity.
Qed.

(* ---- histories ---- *)
Lemma run_ind (I : mstate -> Prop) (O : fop -> Prop) (A : mstate -> tri -> Prop) :
  (forall st o st' r, I st -> O o -> fstep st o = Ok (st', r) -> (forall t, r = Some t -> A st t) -> I st') ->
  forall os st st', I st -> Forall O os -> accepted A st os -> frun st os = Ok st' -> I st'.
Proof.
  intros HS os. induction os as [|o os IH]; intros st st' Hi Ho Ha H.
  - cbn in H. injection H as <-. exact Hi.
  - cbn [AdvanceModel.frun AdvanceModel.accepted] in *. inversion Ho as [|? ? Ho1 Ho2]; subst.
    destruct (fstep st o) as [[s1 r]| |] eqn:E; cbn [obind fst] in H; try discriminate.
    assert (Hi1 : I s1).
    { apply (HS st o s1 r Hi Ho1 E). intros t ->. apply Ha. }
    apply (IH s1 st' Hi1 Ho2); [|exact H]. destruct r as [t|]; [apply Ha|exact Ha].
Qed.
Lemma accepted_true os : forall st, accepted (fun _ _ => True) st os.
Proof.
  induction os as [|o os IH]; intros st; cbn [AdvanceModel.accepted]; [exact I|].
  destruct (fstep st o) as [[s1 [t|]]| |]; auto.
Qed.

Lemma run_anti w os st st' : antisym w -> wf st -> vertices_in front_scale st -> Forall (op_in front_scale) os ->
  accepted sides_expected st os -> frun st os = Ok st' -> wtotal w st' == wtotal w st.
Proof.
  intros A W V O X H.
  pose proof (run_ind (fun s => wf s /\ vertices_in front_scale s /\ wtotal w s == wtotal w st) (op_in front_scale) sides_expected) as R.
  refine (proj2 (proj2 (R _ os st st' _ O X H))).
  - intros s o s' r (W1 & V1 & E1) O1 E X1. split; [exact (step_wf _ _ _ _ W1 E)|].
    split; [exact (step_square _ _ _ _ _ W1 V1 O1 E)|]. rewrite (step_anti w s o s' r A W1 V1 O1 E X1). exact E1.
  - split; [exact W|]. split; [exact V|reflexivity].
Qed.
Lemma run_sym w os st st' : symm w -> wf st -> vertices_in front_scale st -> no_ghosts st ->
  Forall (op_in front_scale) os -> frun st os = Ok st' -> wbalance w st' == wbalance w st.
Proof.
  intros A W V NG O H.
  pose proof (run_ind (fun s => wf s /\ vertices_in front_scale s /\ no_ghosts s /\ wbalance w s == wbalance w st)
    (op_in front_scale) (fun _ _ => True)) as R.
  refine (proj2 (proj2 (proj2 (R _ os st st' _ O (accepted_true os st) H)))).
  - intros s o s' r (W1 & V1 & N1 & E1) O1 E _. split; [exact (step_wf _ _ _ _ W1 E)|].
    split; [exact (step_square _ _ _ _ _ W1 V1 O1 E)|]. split; [exact (step_no_ghosts _ _ _ _ W1 N1 E)|].
    rewrite (step_sym w s o s' r A W1 V1 O1 N1 E). exact E1.
  - split; [exact W|]. split; [exact V|]. split; [exact NG|reflexivity].
Qed.
Lemma run_wf os st st' : wf st -> frun st os = Ok st' -> wf st' /\ (ms_nv st <= ms_nv st')%nat /\
  (forall v, (v < ms_nv st)%nat -> ms_pos st' v = ms_pos st v) /\
  ms_area st' - tri_areas (ms_pos st') (generated st') == ms_area st - tri_areas (ms_pos st) (generated st).
Proof.
  intros W H.
  pose proof (run_ind (fun s => wf s /\ (ms_nv st <= ms_nv s)%nat /\
    (forall v, (v < ms_nv st)%nat -> ms_pos s v = ms_pos st v) /\
    ms_area s - tri_areas (ms_pos s) (generated s) == ms_area st - tri_areas (ms_pos st) (generated st))
    (fun _ => True) (fun _ _ => True)) as R.
  refine (R _ os st st' _ _ (accepted_true os st) H).
  - intros s o s' r (W1 & L1 & P1 & E1) _ E _. split; [exact (step_wf _ _ _ _ W1 E)|].
    destruct (step_pos _ _ _ _ W1 E) as [L2 P2]. split; [lia|]. split.
    + intros v Hv. rewrite P2 by lia. apply P1. exact Hv.
    + rewrite (step_area _ _ _ _ W1 E). exact E1.
  - split; [exact W|]. split; [lia|]. split; [auto|reflexivity].
  - apply Forall_forall. auto.
Qed.

(* ---- closedness, degrees ---- *)
Lemma closed_balanced es : closed es <-> balanced (ends es).
Proof. unfold closed. symmetry. apply balanced_degrees. Qed.

Lemma sides_balanced ts : balanced (sides ts).
Proof.
  intros f. induction ts as [|t ts IH]; [reflexivity|]. unfold sides. cbn [flat_map]. rewrite esum_app.
  fold (sides ts). rewrite IH. cbn [tri_sides esum]. ring.
Qed.

Lemma run_closed os st st' : wf st -> vertices_in front_scale st -> Forall (op_in front_scale) os ->
  accepted sides_expected st os -> frun st os = Ok st' -> closed (ms_front st) -> closed (ms_front st').
Proof.
  intros W V O X H C. apply closed_balanced. apply closed_balanced in C. intros f.
  assert (A : antisym (fun a b : nat => f b - f a)) by (intros a b; ring).
  pose proof (run_anti _ os st st' A W V O X H) as E. unfold wtotal in E.
  rewrite (sides_balanced (generated st') f), (sides_balanced (generated st) f), (C f) in E. lra.
Qed.
End Steps.
