(* What the advancing front loops leave in the mesh: proofs for FinProps. *)
From Coq Require Import Lia Lqa Permutation.
From Verif Require Import Base Chain GeomModel GeomSpec FacetModel UtilModel BdryModel BdrySpec
  AdvanceModel AdvanceSpec AdvanceProofs AdvanceInv ClearRun.
Open Scope Q_scope.

Section Steps.
Variable mesh_scale : Q.
Variable tri_ok : mstate -> tri -> bool.
Variable vtx_ok : mstate -> nat -> bool.
Variable qual : mstate -> tri -> Q.

(* ---- rejected triangles leave nothing behind ---- *)
Lemma create_tris cands : forall st base, wf st -> vertices_in mesh_scale st -> In base (ms_front st) ->
  (forall v, In v cands -> (v < ms_nv st)%nat) ->
  ms_tris (fst (create_possible mesh_scale tri_ok st base cands)) = ms_tris st ++ snd (create_possible mesh_scale tri_ok st base cands).
Proof.
  induction cands as [|c cs IH]; intros st base W V Hb HC; [cbn; rewrite app_nil_r; reflexivity|].
  assert (HC2 : forall u, In u cs -> (u < ms_nv st)%nat) by (intros; apply HC; right; assumption).
  cbn [create_possible]. destruct (negb (ms_onf st c)); [apply (IH st base W V Hb HC2)|].
  destruct (orient_eqb _ CL); [apply (IH st base W V Hb HC2)|].
  destruct (wf_ev _ W base Hb) as (B1 & B2 & _). pose proof (HC c (or_introl eq_refl)) as Bc.
  pose proof (extended_wf _ _ W (add_triangle_ext st (be_v1 base) (be_v2 base) c B1 B2 Bc)) as W1.
  unfold add_triangle in *. cbn [fst] in W1. set (t := TR (ms_nt st) (be_v1 base) (be_v2 base) c false (ms_col st)) in *.
  set (s1 := with_tris st (ms_tris st ++ [t]) (S (ms_nt st))) in *. destruct (tri_ok s1 t).
  - specialize (IH s1 base W1 V Hb HC2). destruct (create_possible mesh_scale tri_ok s1 base cs) as [s2 ts]. cbn [fst snd] in *.
    rewrite IH. cbn. rewrite <- app_assoc. reflexivity.
  - assert (R : remove_triangle mesh_scale s1 t = with_tris st (ms_tris st) (S (ms_nt st))).
    { unfold remove_triangle.
      assert (Sq : in_square mesh_scale (tri_loc (ms_pos s1) t) = true)
        by exact (in_square_centroid mesh_scale _ _ _ (V _ B1) (V _ B2) (V _ Bc)).
      rewrite Sq. unfold s1, with_tris. cbn. f_equal. rewrite filter_app. cbn [filter tr_id t]. rewrite Nat.eqb_refl. cbn [negb].
      rewrite app_nil_r. apply filter_all. intros s Hs. apply (wf_tlt _ W) in Hs.
      destruct (Nat.eqb_spec (tr_id s) (ms_nt st)); [lia|reflexivity]. }
    rewrite R.
    assert (W' : wf (with_tris st (ms_tris st) (S (ms_nt st)))).
    { constructor; cbn; try apply W. intros x Hx. pose proof (wf_tlt _ W x Hx). lia. }
    exact (IH _ base W' V Hb HC2).
Qed.

Lemma fold_remove_tris others : forall st, vertices_in mesh_scale st ->
  (forall t, In t others -> (tr_v1 t < ms_nv st)%nat /\ (tr_v2 t < ms_nv st)%nat /\ (tr_v3 t < ms_nv st)%nat) ->
  ms_tris (fold_left (remove_triangle mesh_scale) others st) =
  filter (fun s => negb (existsb (fun t => Nat.eqb (tr_id s) (tr_id t)) others)) (ms_tris st).
Proof.
  induction others as [|t l IH]; intros st V H; [cbn; symmetry; apply filter_all; reflexivity|].
  cbn [fold_left]. destruct (H t (or_introl eq_refl)) as (A & B & C).
  assert (Sq : in_square mesh_scale (tri_loc (ms_pos st) t) = true) by (apply in_square_centroid; apply V; assumption).
  assert (R : remove_triangle mesh_scale st t = with_tris st (filter (fun s => negb (Nat.eqb (tr_id s) (tr_id t))) (ms_tris st)) (ms_nt st))
    by (unfold remove_triangle; rewrite Sq; reflexivity).
  rewrite R, IH; [|exact V|intros u I; apply (H u (or_intror I))]. cbn [with_tris ms_tris].
  clear. induction (ms_tris st) as [|s ts IHs]; [reflexivity|]. cbn [filter existsb].
  destruct (Nat.eqb (tr_id s) (tr_id t)) eqn:E; cbn [negb orb filter]; [exact IHs|]. destruct (negb _); [f_equal|]; exact IHs.
Qed.

Lemma best_left ts best others : NoDup (map tr_id ts) -> Permutation ts (best :: others) ->
  filter (fun s => negb (existsb (fun t => Nat.eqb (tr_id s) (tr_id t)) others)) ts = [best].
Proof.
  intros N P. apply Permutation_length_1_inv. apply Permutation_sym.
  eapply Permutation_trans; [apply (perm_filter _ _ _ P)|].
  pose proof (Permutation_NoDup (Permutation_map tr_id P) N) as N2. cbn [map] in N2. inversion N2 as [|? ? Nb N3]; subst.
  cbn [filter]. destruct (existsb _ others) eqn:E.
  - exfalso. apply existsb_exists in E. destruct E as (t & I & E). apply Nat.eqb_eq in E. apply Nb. rewrite E. apply in_map, I.
  - cbn [negb]. rewrite filter_none; [reflexivity|]. intros s I. apply negb_false_iff, existsb_exists. exists s. split; [exact I|apply Nat.eqb_refl].
Qed.

Lemma activate_last ts t : (forall s, In s ts -> tr_id s <> tr_id t) -> activate (tr_id t) (ts ++ [t]) = ts ++ [activated t].
Proof.
  intros H. unfold activate. rewrite map_app. cbn [map]. rewrite Nat.eqb_refl. f_equal.
  rewrite <- (map_id ts) at 2. apply map_ext_in. intros s I. destruct (Nat.eqb_spec (tr_id s) (tr_id t)) as [E|E]; [exfalso; exact (H s I E)|reflexivity].
Qed.

Lemma update_tris st k xy cands st' r : wf st -> vertices_in mesh_scale st -> in_square mesh_scale xy = true ->
  (forall v, In v cands -> In v (ms_verts st)) ->
  update_front mesh_scale tri_ok vtx_ok qual st k xy cands = Ok (st', r) ->
  ms_tris st' = ms_tris st ++ match r with Some t => [activated t] | None => [] end.
Proof.
  intros W V SX HC U. destruct r as [t|].
  - unfold update_front in U. destruct (find_edge k (ms_front st)) as [base|] eqn:Fb; [|discriminate].
    apply find_edge_in in Fb. destruct Fb as [Hb _].
    assert (HC' : forall v, In v cands -> (v < ms_nv st)%nat) by (intros v Hv; apply (wf_vlt _ W), HC, Hv).
    destruct (create_possible_spec mesh_scale tri_ok cands st base W Hb HC') as (X & N & C).
    pose proof (create_tris cands st base W V Hb HC') as CT.
    destruct (create_possible mesh_scale tri_ok st base cands) as [st1 ts]. cbn [fst snd] in *.
    pose proof (sort_tris_perm (qual st1) ts) as P.
    destruct (sort_tris (qual st1) ts) as [|best others].
    + apply Permutation_sym, Permutation_nil in P. subst ts. rewrite app_nil_r in CT.
      cbn [add_vertex add_triangle] in U. destruct (_ && _); [|discriminate]. injection U as <- <-. cbn [advance_front ms_tris tr_id].
      cbn. rewrite CT. apply (activate_last (ms_tris st) (TR (ms_nt st1) (be_v1 base) (be_v2 base) (ms_nv st1) false (ms_col st1))).
      intros s I. cbn. apply (wf_tlt _ W) in I. destruct X as (Y & n & -> & L & _). cbn in *. lia.
    + injection U as <- <-. cbn [advance_front ms_tris].
      assert (Ib : In best ts) by (eapply Permutation_in; [apply Permutation_sym, P|left; reflexivity]).
      assert (NV : ms_nv st1 = ms_nv st /\ vertices_in mesh_scale st1) by (destruct X as (Y & n & -> & _); split; [reflexivity|exact V]).
      destruct NV as [NV V1]. destruct (wf_ev _ W base Hb) as (B1 & B2 & _).
      rewrite fold_remove_tris; [|exact V1|].
      * rewrite CT, filter_app, (best_left ts best others N P).
        rewrite filter_all.
        -- apply activate_last. intros s I. apply (wf_tlt _ W) in I. destruct (C best Ib) as (_ & L & _). lia.
        -- intros s I. apply negb_true_iff. apply (wf_tlt _ W) in I. destruct (existsb _ others) eqn:E; [|reflexivity]. exfalso.
           apply existsb_exists in E. destruct E as (u & Iu & E). apply Nat.eqb_eq in E.
           destruct (C u) as (_ & L & _); [eapply Permutation_in; [apply Permutation_sym, P|right; exact Iu]|lia].
      * intros u Iu. destruct (C u) as (_ & _ & (K1 & K2 & K3 & _)); [eapply Permutation_in; [apply Permutation_sym, P|right; exact Iu]|].
        rewrite NV, K1, K2. split; [exact B1|]. split; [exact B2|]. apply HC', K3.
  - rewrite app_nil_r. apply (update_front_spec mesh_scale tri_ok vtx_ok qual st k xy cands st' None W HC) in U.
    destruct U as (_ & _ & _ & SM). apply (SM V SX).
Qed.

Lemma step_tris st o st' r : wf st -> vertices_in mesh_scale st -> op_in mesh_scale o ->
  fstep mesh_scale tri_ok vtx_ok qual st o = Ok (st', r) ->
  ms_tris st' = ms_tris st ++ match r with Some t => [activated t] | None => [] end.
Proof.
  intros W V O H. destruct o as [k xy cands|k v|a]; cbn [fstep op_in] in *.
  - apply (update_tris st k xy _ st' r W V O) in H; [exact H|]. intros v I. apply filter_In in I. apply in_list_spec, I.
  - destruct (existsb (incident v) (ms_front st)) eqn:Iv; [|discriminate]. apply (incident_lt _ _ W) in Iv.
    destruct r as [t|].
    + unfold update_front_exhaustive in H. destruct (find_edge k (ms_front st)) as [base|]; [|discriminate].
      destruct (negb _); [discriminate|]. destruct (negb _); [discriminate|]. cbn [add_triangle] in H.
      destruct (tri_ok _ _); [|discriminate]. injection H as <- <-. cbn [advance_front ms_tris with_tris].
      apply activate_last. intros s I. cbn. apply (wf_tlt _ W) in I. lia.
    + apply (update_exhaustive_spec mesh_scale tri_ok st k v st' None W Iv) in H. destruct H as (_ & _ & _ & SM).
      rewrite app_nil_r. apply (SM V).
  - injection H as <- <-. cbn. rewrite app_nil_r. reflexivity.
Qed.

(* ---- invariants of a history ---- *)
Record tidy (c : Z) (st : mstate) : Prop := {
  td_wf : wf st;
  td_sq : vertices_in mesh_scale st;
  td_front : forall e, In e (ms_front st) -> In (be_v1 e) (ms_verts st) /\ In (be_v2 e) (ms_verts st);
  td_quads : ms_quads st = [];
  td_col : ms_col st = c;
  td_tris : forall t, In t (ms_tris st) -> tr_act t = true /\ tr_col t = c /\
    In (tr_v1 t) (ms_verts st) /\ In (tr_v2 t) (ms_verts st) /\ In (tr_v3 t) (ms_verts st);
  td_intr : forall a b, In (a, b) (ms_intr st) -> a <> b
}.

Lemma step_tidy c st o st' r : tidy c st -> op_in mesh_scale o ->
  fstep mesh_scale tri_ok vtx_ok qual st o = Ok (st', r) -> tidy c st'.
Proof.
  intros T O H. destruct T as [W V F Q C TR I].
  pose proof (step_tris st o st' r W V O H) as E.
  destruct (step_verts mesh_scale tri_ok vtx_ok qual st o st' r W F H) as [M M3].
  pose proof (step_wf mesh_scale tri_ok vtx_ok qual st o st' r W H) as W'.
  pose proof (step_square mesh_scale tri_ok vtx_ok qual mesh_scale st o st' r W V O H) as V'.
  assert (QS : ms_quads st' = ms_quads st).
  { destruct o as [k xy cands|k v|a]; cbn [fstep] in H.
    - destruct r as [t|].
      + apply (update_front_spec mesh_scale tri_ok vtx_ok qual) in H; [|exact W|intros v J; apply filter_In in J; apply in_list_spec, J].
        destruct H as (st2 & base & TK & -> & _). cbn. apply (tk_grown _ _ _ _ _ TK).
      + apply (update_front_spec mesh_scale tri_ok vtx_ok qual) in H; [|exact W|intros v J; apply filter_In in J; apply in_list_spec, J]. exact (g_quads _ _ (proj1 H)).
    - destruct (existsb (incident v) (ms_front st)) eqn:Iv; [|discriminate]. apply (incident_lt _ _ W) in Iv.
      apply (update_exhaustive_spec mesh_scale tri_ok st k v st' r W Iv) in H. destruct r as [t|].
      + destruct H as (st2 & base & TK & -> & _). cbn. apply (tk_grown _ _ _ _ _ TK).
      + exact (g_quads _ _ (proj1 H)).
    - injection H as <- <-. reflexivity. }
  pose proof (fstep_spec mesh_scale tri_ok vtx_ok qual st o st' r W H) as SP. destruct r as [t|].
  - destruct SP as (st2 & base & TK & -> & _). pose proof (tk_base _ _ _ _ _ TK) as Hb. destruct (F base Hb) as [Fb1 Fb2].
    pose proof (tk_grown _ _ _ _ _ TK) as G. pose proof (M3 t eq_refl) as F3.
    assert (Hb2 : In base (ms_front st2)) by (rewrite (g_front _ _ G); exact Hb).
    pose proof (advance_front_front st2 base (tr_v3 t) t (tk_wf _ _ _ _ _ TK) Hb2) as EF.
    constructor; try assumption.
    + intros e Ie. rewrite EF in Ie. apply in_app_or in Ie. destruct Ie as [Ie|Ie].
      * apply kept_in in Ie. rewrite (g_front _ _ G) in Ie. destruct (F e Ie). split; apply M; assumption.
      * apply new_edges_in in Ie. destruct Ie as (_ & Ie & _). apply plan_new_ends in Ie. unfold pair_of in Ie.
        destruct Ie as [Ie|Ie]; injection Ie as -> ->; split; first [exact F3|apply M; assumption].
    + rewrite QS. exact Q.
    + cbn. rewrite (g_col _ _ G). exact C.
    + intros s Is. rewrite E in Is. apply in_app_or in Is. destruct Is as [Is|[<-|[]]].
      * destruct (TR s Is) as (A & B & D1 & D2 & D3). split; [exact A|]. split; [exact B|]. split; [apply M, D1|]. split; [apply M, D2|apply M, D3].
      * cbn [activated tr_act tr_col tr_v1 tr_v2 tr_v3]. split; [reflexivity|]. split; [rewrite (tk_col _ _ _ _ _ TK); exact C|].
        rewrite (tk_v1 _ _ _ _ _ TK), (tk_v2 _ _ _ _ _ TK). split; [apply M, Fb1|]. split; [apply M, Fb2|exact F3].
    + assert (FR : forall e, In e (ms_front st2) -> be_v1 e <> be_v2 e) by (intros e Ie; apply (wf_ev _ (tk_wf _ _ _ _ _ TK) e Ie)).
      intros a b J. cbn [advance_front ms_intr] in J. fold (plan_of st2 base (tr_v3 t)) in J.
      assert (K : In (a, b) (ms_intr st2) \/ exists e, In e (ms_front st2) /\ pair_of e = (a, b)).
      { assert (B1 : In (a, b) (ms_intr st2 ++ map pair_of (filter interior (fst (plan_of st2 base (tr_v3 t))))) -> In (a, b) (ms_intr st2) \/ exists e, In e (ms_front st2) /\ pair_of e = (a, b)).
        { intros L. apply in_app_or in L. destruct L as [L|L]; [left; exact L|right]. apply in_map_iff in L. destruct L as (e & Ee & L). apply filter_In in L.
          exists e. split; [|exact Ee]. exact (plan_in _ _ _ _ (proj1 L)). }
        destruct (interior base && negb (ghost base)); [|exact (B1 J)]. apply in_app_or in J. destruct J as [J|[J|[]]]; [exact (B1 J)|right; exists base; auto]. }
      destruct K as [K|(e & Ie & Ee)]; [rewrite (g_intr _ _ G) in K; exact (I a b K)|]. injection Ee as <- <-. exact (FR e Ie).
  - destruct SP as (QT & _). rewrite app_nil_r in E. constructor; try assumption.
    + intros e Ie. destruct (F e (Permutation_in _ (Permutation_sym (q_front _ _ QT)) Ie)). split; apply M; assumption.
    + rewrite QS. exact Q.
    + rewrite (q_col _ _ QT). exact C.
    + intros s Is. rewrite E in Is. destruct (TR s Is) as (A & B & D1 & D2 & D3). split; [exact A|]. split; [exact B|]. split; [apply M, D1|]. split; [apply M, D2|apply M, D3].
    + intros a b. rewrite (q_intr _ _ QT). apply I.
Qed.

Lemma run_tidy c os st st' : tidy c st -> Forall (op_in mesh_scale) os ->
  frun mesh_scale tri_ok vtx_ok qual st os = Ok st' -> tidy c st'.
Proof.
  intros T O H. apply (run_ind mesh_scale tri_ok vtx_ok qual (tidy c) (op_in mesh_scale) (fun _ _ => True)) with (os := os) (st := st); try assumption.
  - intros s o s' r Ts Os Hs _. exact (step_tidy c s o s' r Ts Os Hs).
  - apply accepted_true.
Qed.
End Steps.
