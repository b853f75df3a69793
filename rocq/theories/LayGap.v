(* Quad layers with the tests of the code: the gaps between the elements of a layer.
   Proofs for LayProps. *)
From Coq Require Import Lia Lqa Permutation.
From Verif Require Import Base Chain GeomModel GeomSpec GeomProofs FacetModel UtilModel BdryModel BdrySpec BdryProofs
  AdvanceModel AdvanceSpec AdvanceProofs AdvanceInv AdvanceMore AdvanceGeom MeshModel WindSpec WindProofs WindMesh PolyProofs QLayerModel QLayerSpec QLayerProofs QTileSpec QTileProofs
  ClearSpec ClearGeom ClearWind ClearStep ClearRun ClearEnd FinMesh MixSpec MixShape MixRun LayRun LayWay.
Open Scope Q_scope.

(* ---- segments on the two sides of a line ---- *)
Lemma zero_product x y : ~ y == 0 -> x * y == 0 -> x == 0.
Proof. intros N H. destruct (Qeq_dec x 0) as [E|E]; [exact E|]. destruct (Qmult_integral _ _ H) as [K|K]; [exact K|contradiction]. Qed.
Lemma det_on p q x y : veq x y -> det p q x == det p q y.
Proof. intros E. apply det_veq; [apply veq_refl|apply veq_refl|exact E]. Qed.
(* segments with a common end that are not on one line *)
Lemma hinge p q r : ~ det p q r == 0 -> ends_only p q q r.
Proof.
  intros N s t S T E. assert (E1 := det_on p q _ _ E). rewrite !det_mix, det_same_l, det_same_r in E1.
  assert (E2 := det_on q r _ _ E). rewrite !det_mix, det_same_l, det_same_r in E2.
  assert (R : det q r p == det p q r) by (unfold det; ring). rewrite R in E2.
  assert (T0 : t * det p q r == 0) by lra. assert (S0 : (1 - s) * det p q r == 0) by lra.
  apply zero_product in T0; [|exact N]. apply zero_product in S0; [|exact N]. split; [right|left]; lra.
Qed.
(* two segments on different sides of the line through b and v *)
Lemma parted b v a c : 0 < det b v a -> det b v c < 0 -> ends_only a v b c /\ ends_only a v c v /\ ends_only a v v b.
Proof.
  intros A C.
  assert (K : forall x y, 0 <= x -> 0 <= y -> x * det b v a == y * det b v c -> x == 0 /\ y == 0).
  { intros x y X Y E. assert (P1 : 0 <= x * det b v a) by (apply Qmult_le_0_compat; lra). assert (P2 : 0 <= y * (- det b v c)) by (apply Qmult_le_0_compat; lra).
    assert (Z1 : x * det b v a == 0) by lra. assert (Z2 : y * det b v c == 0) by lra. split; eapply zero_product; [|exact Z1| |exact Z2]; lra. }
  split; [|split]; intros s t S T E.
  - assert (E1 := det_on b v _ _ E). rewrite !det_mix, det_same_l, det_same_r in E1. destruct (K (1 - s) t) as [K1 K2]; [lra..|]. split; [right|left]; lra.
  - assert (E1 := det_on b v _ _ E). rewrite !det_mix, det_same_r in E1. destruct (K (1 - s) (1 - t)) as [K1 K2]; [lra..|]. split; [right|right]; lra.
  - assert (N : ~ det a v b == 0) by (assert (Q : det a v b == det b a v) by (unfold det; ring); assert (Q2 : det b a v == - det b v a) by (unfold det; ring); lra).
    exact (hinge a v b N s t S T E).
Qed.
Lemma sides3_turn p q r x : In x (sides3 p q r) -> In x (sides3 q r p).
Proof. unfold sides3. cbn. tauto. Qed.
Lemma touching_turn z p q r : touching z p q r -> touching z q r p.
Proof. unfold touching. tauto. Qed.

(* ---- states ---- *)
Lemma advance_add m x y z e v t : tr_id t <> ms_nt m -> advance_front (fst (add_triangle m x y z)) e v t = fst (add_triangle (advance_front m e v t) x y z).
Proof.
  intros N. unfold add_triangle, advance_front, with_tris. cbn. f_equal. unfold activate. rewrite map_app. cbn [map tr_id]. f_equal.
  destruct (Nat.eqb_spec (ms_nt m) (tr_id t)); [congruence|reflexivity].
Qed.
Lemma remove_tris scale m t : in_square scale (tri_loc (ms_pos m) t) = true -> ms_tris (remove_triangle scale m t) = filter (fun s => negb (Nat.eqb (tr_id s) (tr_id t))) (ms_tris m).
Proof. intros E. unfold remove_triangle. rewrite E. reflexivity. Qed.
Lemma filter_fresh (l : list tri) k : (forall t, In t l -> (tr_id t < k)%nat) -> filter (fun s => negb (Nat.eqb (tr_id s) k)) l = l.
Proof. intros H. apply filter_all. intros t I. specialize (H t I). apply negb_true_iff, Nat.eqb_neq. lia. Qed.

Section LayGap.
Variable rho : vec2 -> Q.
Variable shape_ok : vec2 -> vec2 -> vec2 -> bool.
Variable dom : list (vec2 * vec2).
Variable scale : Q.
Variable inside : vec2 -> bool.
Variable qual : mstate -> tri -> Q.
Notation valid := (triangle_is_valid rho shape_ok dom).
Notation placed := (vertex_is_valid rho inside).
Notation sq := (QTileProofs.sq scale).

Variable pos : nat -> vec2.
Variable verts : list nat.
Variable gen : list tri.
Variable f0 : list bedge.
Variable c : Z.
Hypothesis EX : exact_at pos verts.
Hypothesis FO : found_at (near rho) pos f0 gen.
Hypothesis B0 : forall e, In e f0 -> interior e = false /\ ghost e = false.
Hypothesis S0 : simple_front pos f0.
Notation partway := (partway scale pos gen f0 c).
Notation lasts_st := (lasts_st pos verts gen).
Notation sides_of m := (flat_map shape_sides (elements m)).

Lemma grown_way m m' : partway m -> grown m m' -> ms_tris m' = ms_tris m -> incl (ms_verts m) (ms_verts m') -> wf m' -> sq m' -> (ms_nt m <= ms_nt m')%nat ->
  partway m' /\ after m m'.
Proof.
  intros P G ET IV W' [SF SS] NT. pose proof (pw_neat _ _ _ _ _ _ P) as N. pose proof (nt_wf _ _ _ N) as W.
  assert (EE : elements m' = elements m) by (unfold elements; rewrite (g_gen _ _ G), (g_quads _ _ G); reflexivity).
  split.
  - constructor; rewrite ?EE, ?(g_front _ _ G), ?(g_intr _ _ G); try apply P.
    + constructor; rewrite ?ET, ?(g_front _ _ G), ?(g_intr _ _ G), ?(g_quads _ _ G), ?(g_col _ _ G); try assumption; try apply N.
      * intros e I. destruct (nt_front _ _ _ N e I). split; apply IV; assumption.
      * intros t I. destruct (nt_tris _ _ _ N t I) as (A & B & D1 & D2 & D3). repeat split; try assumption; apply IV; assumption.
      * intros q I. destruct (nt_quads _ _ _ N q I) as (A & B & D & D1 & D2 & D3 & D4). split; [exact A|]. split; [exact B|]. split; [lia|]. repeat split; apply IV; assumption.
      * intros a b I. destruct (nt_intr _ _ _ N a b I) as (A & D1 & D2). split; [exact A|]. split; apply IV; assumption.
    + rewrite (g_area _ _ G). apply P.
  - constructor; rewrite ?ET, ?(g_quads _ _ G), ?(g_intr _ _ G), ?(g_ne _ _ G); auto. intros v I. apply (g_pos _ _ G). exact (wf_vlt _ W v I).
Qed.
Lemma side_verts m x y : partway m -> In (x, y) (sides_of m) -> In x (ms_verts m) /\ In y (ms_verts m).
Proof.
  intros P J. pose proof (pw_neat _ _ _ _ _ _ P) as N. apply in_flat_map in J. destruct J as (s & I & J). unfold elements in I. rewrite (neat_gen _ _ _ N) in I. apply in_app_or in I.
  destruct I as [I|I]; apply in_map_iff in I; destruct I as (z & <- & I).
  - destruct (nt_tris _ _ _ N z I) as (_ & _ & K1 & K2 & K3). cbn in J. destruct J as [J|[J|[J|[]]]]; injection J as <- <-; auto.
  - destruct (nt_quads _ _ _ N z I) as (_ & _ & _ & K1 & K2 & K3 & K4). cbn in J. destruct J as [J|[J|[J|[J|[]]]]]; injection J as <- <-; auto.
Qed.

(* a triangle on an edge of the front *)
Lemma advance_way m x y z e v : partway m -> (forall u, In u (ms_verts m) -> pos u = ms_pos m u) -> In e (ms_front m) -> In v (ms_verts m) ->
  (x = be_v1 e /\ y = be_v2 e /\ z = v) \/ (x = v /\ y = be_v1 e /\ z = be_v2 e) ->
  0 < det (pos (be_v1 e)) (pos (be_v2 e)) (pos v) ->
  (forall f s, In f (ms_front m) -> In s (sides3 (pos (be_v1 e)) (pos (be_v2 e)) (pos v)) ->
    ends_only (fst (seg pos f)) (snd (seg pos f)) (fst s) (snd s) \/ same_ends (fst (seg pos f)) (snd (seg pos f)) (fst s) (snd s)) ->
  (forall w, on_front (ms_front m) w -> w <> be_v1 e -> w <> be_v2 e -> w <> v -> ~ touching (pos w) (pos (be_v1 e)) (pos (be_v2 e)) (pos v)) ->
  known f0 gen (be_v1 e) v -> known f0 gen v (be_v2 e) ->
  let m' := advance_front (fst (add_triangle m x y z)) e v (snd (add_triangle m x y z)) in
  partway m' /\ after m m' /\ Permutation (elements m') (Tri3 x y z :: elements m).
Proof.
  intros P PV Ie Iv CO D HT1 HT2 KA KB. cbv zeta. pose proof (pw_neat _ _ _ _ _ _ P) as N. pose proof (nt_wf _ _ _ N) as W.
  destruct (det_distinct pos _ _ _ D) as (NE & N2 & N1). apply not_eq_sym in N2.
  destruct (nt_front _ _ _ N e Ie) as [V1 V2]. pose proof (wf_vlt _ W _ V1) as L1. pose proof (wf_vlt _ W _ V2) as L2. pose proof (wf_vlt _ W _ Iv) as L3.
  assert (CL : In x (ms_verts m) /\ In y (ms_verts m) /\ In z (ms_verts m)) by (destruct CO as [(-> & -> & ->)|(-> & -> & ->)]; auto). destruct CL as (IX & IY & IZ).
  pose proof (add_triangle_ext m x y z (wf_vlt _ W _ IX) (wf_vlt _ W _ IY) (wf_vlt _ W _ IZ)) as X.
  unfold add_triangle in *. cbn [fst snd] in *. set (t := TR (ms_nt m) x y z false (ms_col m)) in *. set (m1 := with_tris m (ms_tris m ++ [t]) (S (ms_nt m))) in *.
  pose proof (extended_wf _ _ W X) as W1. pose proof (extended_grown _ _ X) as G.
  assert (It : In t (ms_tris m1)) by (unfold m1; cbn; apply in_or_app; right; left; reflexivity).
  assert (Ie1 : In e (ms_front m1)) by exact Ie.
  assert (VF1 : vertices_in front_scale m1) by exact (nt_fsq _ _ _ N).
  assert (J : on_way pos gen f0 m) by (constructor; [exact W|apply N|apply P|apply N|apply P]).
  destruct (accept_on_way pos gen f0 m m1 e v t J G W1 VF1 Ie L3 N1 N2 It (fun u I => I) Iv D HT1 HT2 KA KB) as [J' SX].
  assert (SX1 : sides_expected m1 (TR 0 (be_v1 e) (be_v2 e) v true 0)) by exact SX.
  pose proof (advance_generated m1 e v t W1 It eq_refl) as PG. rewrite (g_gen _ _ G) in PG.
  pose proof (advance_front_front m1 e v t W1 Ie1) as EF.
  assert (ET : ms_tris (advance_front m1 e v t) = ms_tris m ++ [activated t]).
  { cbn [advance_front ms_tris]. unfold m1. cbn [with_tris ms_tris]. unfold activate. rewrite map_app. cbn [map]. rewrite Nat.eqb_refl. f_equal.
    rewrite <- (map_id (ms_tris m)) at 2. apply map_ext_in. intros s Is. pose proof (wf_tlt _ W s Is). destruct (Nat.eqb_spec (tr_id s) (tr_id t)) as [E|E]; [cbn in E; lia|reflexivity]. }
  set (M := advance_front m1 e v t) in *.
  assert (PE : Permutation (elements M) (Tri3 x y z :: elements m)).
  { unfold elements. change (ms_quads M) with (ms_quads m). change (Tri3 x y z :: map tri_element (generated m) ++ map quad_element (ms_quads m))
      with (map tri_element (activated t :: generated m) ++ map quad_element (ms_quads m)). apply Permutation_app_tail, Permutation_map. exact PG. }
  pose proof (perm_flat shape_sides _ _ PE) as PS. cbn [flat_map] in PS. change (shape_sides (Tri3 x y z)) with [(x, y); (y, z); (z, x)] in PS.
  assert (SUMT : forall w, esum w [(x, y); (y, z); (z, x)] == w (be_v1 e) (be_v2 e) + w (be_v2 e) v + w v (be_v1 e)).
  { intros w. destruct CO as [(-> & -> & ->)|(-> & -> & ->)]; cbn [esum]; lra. }
  assert (WM : wf M) by (apply advance_wf; assumption).
  split; [|split; [|exact PE]].
  - constructor.
    + constructor.
      * exact WM.
      * exact (nt_sq _ _ _ N).
      * exact (nt_fsq _ _ _ N).
      * exact (ow_verts _ _ _ _ J').
      * exact (nt_col _ _ _ N).
      * intros s Is. rewrite ET in Is. apply in_app_or in Is. destruct Is as [Is|[<-|[]]]; [exact (nt_tris _ _ _ N s Is)|].
        cbn [activated t tr_act tr_col tr_v1 tr_v2 tr_v3]. split; [reflexivity|]. split; [exact (nt_col _ _ _ N)|]. auto.
      * intros q Iq. destruct (nt_quads _ _ _ N q Iq) as (A & B & L & R). split; [exact A|]. split; [exact B|]. split; [cbn; lia|exact R].
      * rewrite ET, map_app. change (ms_quads M) with (ms_quads m). cbn [map activated tr_id]. apply nodup_middle_last; [exact (nt_ids _ _ _ N)| |]; intros I; apply in_map_iff in I; destruct I as (u & Eu & Iu); cbn in Eu.
        -- destruct (nt_quads _ _ _ N u Iu) as (_ & _ & L & _). lia.
        -- pose proof (wf_tlt _ W u Iu). lia.
      * intros a b I. apply advance_intr in I.
        assert (FE : forall f, In f (ms_front m) -> pair_of f = (a, b) -> a <> b /\ In a (ms_verts m) /\ In b (ms_verts m)).
        { intros f If Ef. injection Ef as <- <-. split; [apply (wf_ev _ W f If)|apply (nt_front _ _ _ N f If)]. }
        destruct I as [I|[(f & If & Ef)|(_ & I)]]; [exact (nt_intr _ _ _ N a b I)|exact (FE f If Ef)|exact (FE e Ie I)].
    + apply J'.
    + apply J'.
    + intros s I. apply (Permutation_in _ PE) in I. destruct I as [<-|I]; [|exact (pw_shape _ _ _ _ _ _ P s I)]. cbn [simple_shape].
      destruct CO as [(-> & -> & ->)|(-> & -> & ->)]; [exact D|]. assert (Q : det (pos v) (pos (be_v1 e)) (pos (be_v2 e)) == det (pos (be_v1 e)) (pos (be_v2 e)) (pos v)) by (unfold det; ring). lra.
    + intros w A. rewrite (esum_perm w _ _ PS), esum_app, SUMT. pose proof (front_sum_anti w m1 e v A W1 VF1 Ie1 N1 N2 SX1) as S. rewrite <- EF in S.
      pose proof (pw_total _ _ _ _ _ _ P w A) as T. change (ms_front m1) with (ms_front m) in S. lra.
    + intros p q NQ. pose proof (front_sum_sym (w_any p q) m1 e v (w_any_sym p q) W1 VF1 Ie1 N1 N2) as S. cbv zeta in S. rewrite <- EF in S. change (ms_front m1) with (ms_front m) in S.
      assert (I : ms_intr M = ms_intr m ++ intr_of e (fst (plan_of m1 e v))).
      { unfold M, advance_front, intr_of. cbn [ms_intr]. fold (plan_of m1 e v). rewrite (way_ghosts scale pos gen f0 c B0 m P e Ie). cbn [negb]. rewrite andb_true_r.
        change (ms_intr m1) with (ms_intr m). destruct (interior e); rewrite ?app_nil_r, ?app_assoc; reflexivity. }
      pose proof (pw_balance _ _ _ _ _ _ P p q NQ) as T.
      assert (T' : nQ (uses_any p q (sides_of m) + uses_any p q (ends (filter (fun e => negb (interior e)) (ms_front m)))) ==
        nQ (2 * uses_any p q (ms_intr m) + uses_any p q (ends (filter interior (ms_front m))) + uses_any p q (ends f0))) by (rewrite T; reflexivity).
      apply nQ_inj. change (2 * uses_any p q (ms_intr m))%nat with (uses_any p q (ms_intr m) + (uses_any p q (ms_intr m) + 0))%nat in T'.
      change (2 * uses_any p q (ms_intr M))%nat with (uses_any p q (ms_intr M) + (uses_any p q (ms_intr M) + 0))%nat.
      rewrite !nQ_plus, <- !esum_any in T'. rewrite !nQ_plus, <- !esum_any. rewrite I, !esum_app, (esum_perm (w_any p q) _ _ PS), esum_app, SUMT. change (nQ 0) with 0 in *. lra.
    + intros f I. rewrite EF in I. apply in_app_or in I. destruct I as [I|I].
      * apply kept_in in I. exact (pw_kind _ _ _ _ _ _ P f I).
      * apply new_edges_in in I. left. split; apply I.
    + rewrite (esum_perm _ _ _ PS), esum_app, SUMT. cbn [M advance_front ms_area]. change (ms_area m1) with (ms_area m). rewrite (pw_area _ _ _ _ _ _ P).
      change (ms_pos m1) with (ms_pos m). cbn [t tr_v1 tr_v2 tr_v3]. rewrite <- (PV x IX), <- (PV y IY), <- (PV z IZ).
      destruct CO as [(-> & -> & ->)|(-> & -> & ->)]; unfold w_area, tri_area, vcross, vsub; cbn [vx vy]; ring.
  - constructor; auto.
    + intros s I. rewrite ET. apply in_or_app. left. exact I.
    + intros p I. cbn [M advance_front ms_intr]. destruct (interior e && negb (ghost e)); [apply in_or_app; left|]; apply in_or_app; left; exact I.
    + cbn. lia.
    + cbn. lia.
Qed.

(* ---- one gap ---- *)
Variable sharp : vec2 -> vec2 -> bool.
Notation close_gap := (close_gap sharp scale valid placed).
Notation close_gaps := (close_gaps sharp scale valid placed).
Notation positive := (valid_positive rho shape_ok dom).
Lemma front_in m (e : bedge) w : on_front (ms_front m) w -> partway m -> In w (ms_verts m).
Proof. intros (f & I & E) P. destruct (nt_front _ _ _ (pw_neat _ _ _ _ _ _ P) f I). destruct E as [<-|<-]; assumption. Qed.

Lemma gap_way m a b c' m' : partway m -> In (c', b) (sides_of m) -> In (b, a) (sides_of m) -> close_gap m a b c' = Ok m' -> sq m' -> lasts_st m' ->
  partway m' /\ after m m'.
Proof.
  intros P SB SA H SQ LT. pose proof (partway_ok scale pos gen f0 c m P) as BO. pose proof (proj1 BO) as W. pose proof (pw_neat _ _ _ _ _ _ P) as N.
  destruct (side_verts m _ _ P SB) as [Ic Ib]. destruct (side_verts m _ _ P SA) as [_ Ia].
  pose proof (wf_vlt _ W _ Ia) as La. pose proof (wf_vlt _ W _ Ib) as Lb. pose proof (wf_vlt _ W _ Ic) as Lc.
  pose proof (gap_lay scale valid placed positive sharp m a b c' m' BO La Lb Lc H) as LY.
  pose proof (lasts_back pos verts gen m m' BO LY LT) as LT0.
  unfold QLayerModel.close_gap in H. cbv zeta in H. destruct (sharp _ _).
  - pose proof (add_triangle_ext m a b c' La Lb Lc) as X. destruct (add_triangle m a b c') as [m1 t] eqn:AD. cbn [fst] in X.
    pose proof (extended_wf _ _ W X) as W1. pose proof (extended_grown _ _ X) as G1.
    assert (TE : t = TR (ms_nt m) a b c' false (ms_col m) /\ m1 = with_tris m (ms_tris m ++ [t]) (S (ms_nt m))) by (unfold add_triangle in AD; injection AD as <- <-; auto).
    destruct TE as [TE ME].
    assert (FR : ms_front m1 = ms_front m) by apply G1. assert (VR : ms_verts m1 = ms_verts m) by (rewrite ME; reflexivity). assert (PR : ms_pos m1 = ms_pos m) by (rewrite ME; reflexivity).
    destruct (valid m1 t) eqn:OK; cbn [negb] in H.
    + destruct (get_edge_nodir (ms_front m1) b c') as [e|] eqn:GE; [|discriminate]. injection H as EM. rewrite FR in GE.
      destruct (way_directed scale pos gen f0 c S0 m c' b e P SB (or_intror GE)) as (Ie & E1 & E2).
      assert (LA : lasting gen t).
      { assert (It : In t (ms_tris m1)) by (rewrite ME; cbn; apply in_or_app; right; left; reflexivity).
        assert (PG := advance_generated m1 e a t W1 It ltac:(rewrite TE; reflexivity)). rewrite EM in PG.
        apply (pair_lasting pos verts gen m' _ t LT (gen_element m' (activated t) (Permutation_in _ (Permutation_sym PG) (or_introl eq_refl)))).
        eexists. split; [left; reflexivity|]. cbn. auto. }
      destruct (valid_clear rho shape_ok dom inside qual pos verts gen f0 EX FO m1 t OK) as (D & HT1 & HT2).
      * rewrite FR. apply P.
      * exact LA.
      * rewrite FR. apply P.
      * rewrite FR, VR, PR. intros w OW. pose proof (front_in m e w OW P) as Iw. split; [exact Iw|]. split; [exact (lt_verts _ _ _ _ LT0 w Iw)|symmetry; exact (lt_pos _ _ _ _ LT0 w Iw)].
      * rewrite PR, TE. cbn [tr_v1 tr_v2 tr_v3]. intros w [<-|[<-|[<-|[]]]]; (split; [apply (lt_verts _ _ _ _ LT0); assumption|symmetry; apply (lt_pos _ _ _ _ LT0); assumption]).
      * rewrite FR in HT1, HT2. assert (K1 := proj1 (lasting_known gen f0 t a b LA ltac:(rewrite TE; cbn; tauto))). assert (K2 := proj1 (lasting_known gen f0 t c' a LA ltac:(rewrite TE; cbn; tauto))).
        rewrite TE in D, HT1, HT2. cbn [tr_v1 tr_v2 tr_v3] in D, HT1, HT2.
        destruct (advance_way m a b c' e a P (lt_pos _ _ _ _ LT0) Ie Ia) as (R1 & R2 & _).
        -- right. auto.
        -- rewrite E1, E2. assert (Q : det (pos b) (pos c') (pos a) == det (pos a) (pos b) (pos c')) by (unfold det; ring). lra.
        -- rewrite E1, E2. intros f s If Is. apply HT1; [exact If|]. apply sides3_turn, sides3_turn, Is.
        -- rewrite E1, E2. intros w OW A1 A2 A3 TO. apply (HT2 w OW A3 A1 A2). apply touching_turn, touching_turn, TO.
        -- rewrite E1. exact K1.
        -- rewrite E2. exact K2.
        -- rewrite AD in R1, R2. cbn [fst snd] in R1, R2. rewrite EM in R1, R2. split; assumption.
    + injection H as EM. assert (X2 : extended m (remove_triangle scale m1 t)) by (apply remove_triangle_ext; [exact W|exact X|rewrite TE; cbn; lia]). rewrite EM in X2.
      destruct (extended_more _ _ X2) as [Y1 Y2]. apply grown_way; try assumption.
      * exact (extended_grown _ _ X2).
      * rewrite <- EM, remove_tris.
        -- rewrite ME, TE. cbn [with_tris ms_tris tr_id]. rewrite filter_app, filter_fresh by apply W. cbn. rewrite Nat.eqb_refl. cbn. apply app_nil_r.
        -- rewrite TE, PR. apply in_square_centroid; apply (nt_sq _ _ _ N); assumption.
      * rewrite Y2. apply incl_refl.
      * exact (extended_wf _ _ W X2).
  - set (xy := vadd (vadd (ms_pos m b) (vsub (ms_pos m a) (ms_pos m b))) (vsub (ms_pos m c') (ms_pos m b))) in *.
    destruct (add_vertex_grown m xy W) as [G1 W1]. unfold add_vertex in H, G1, W1. cbn [fst] in G1, W1. cbv zeta in H, G1, W1.
    set (v := ms_nv m) in *.
    match type of W1 with wf ?x => set (m1 := x) in * end.
    assert (N1 : ms_nv m1 = S v) by reflexivity. assert (T1 : ms_nt m1 = ms_nt m) by reflexivity. assert (FR1 : ms_front m1 = ms_front m) by reflexivity.
    assert (V1 : ms_verts m1 = ms_verts m ++ [v]) by reflexivity. assert (TR1 : ms_tris m1 = ms_tris m) by reflexivity. clearbody m1.
    pose proof (add_triangle_ext m1 a b v ltac:(lia) ltac:(lia) ltac:(lia)) as X2.
    destruct (add_triangle m1 a b v) as [m2 t1] eqn:A1. cbn [fst] in X2.
    assert (T1' : t1 = TR (ms_nt m1) a b v false (ms_col m1) /\ m2 = with_tris m1 (ms_tris m1 ++ [t1]) (S (ms_nt m1))) by (unfold add_triangle in A1; injection A1 as <- <-; auto).
    destruct T1' as [T1' M2].
    assert (N2 : ms_nv m2 = S v) by (rewrite M2; exact N1).
    pose proof (add_triangle_ext m2 b c' v ltac:(lia) ltac:(lia) ltac:(lia)) as X3.
    destruct (add_triangle m2 b c' v) as [m3 t2] eqn:A2. cbn [fst] in X3.
    assert (T2 : t2 = TR (ms_nt m2) b c' v false (ms_col m2) /\ m3 = with_tris m2 (ms_tris m2 ++ [t2]) (S (ms_nt m2))) by (unfold add_triangle in A2; injection A2 as <- <-; auto).
    destruct T2 as [T2 M3].
    pose proof (extended_trans _ _ _ X2 X3) as X13. pose proof (extended_wf _ _ W1 X13) as W3. destruct (extended_more _ _ X13) as [NT3 VT3].
    assert (K : ms_nt m2 = S (ms_nt m1)) by (rewrite M2; reflexivity).
    assert (PR3 : ms_pos m3 = ms_pos m1) by (rewrite M3, M2; reflexivity). assert (N3 : ms_nv m3 = S v) by (rewrite M3; exact N2).
    assert (FR3 : ms_front m3 = ms_front m) by (rewrite M3, M2; exact FR1).
    assert (FR2 : ms_front m2 = ms_front m) by (rewrite M2; exact FR1).
    assert (IV1 : incl (ms_verts m) (ms_verts m1)) by (rewrite V1; intros u Iu; apply in_or_app; left; exact Iu).
    destruct (placed m3 v && valid m3 t1 && valid m3 t2) eqn:OK; cbn [negb] in H.
    + apply andb_true_iff in OK. destruct OK as [OK O2]. apply andb_true_iff in OK. destruct OK as [_ O1].
      destruct (get_edge_nodir (ms_front m3) a b) as [e1|] eqn:GE1; [|discriminate]. rewrite FR3 in GE1.
      destruct (way_directed scale pos gen f0 c S0 m b a e1 P SA (or_intror GE1)) as (I1 & E1 & E2).
      destruct (get_edge_nodir (ms_front (advance_front m3 e1 v t1)) b c') as [e2|] eqn:GE2; [|discriminate]. injection H as EM.
      assert (MP : ms_pos m' = ms_pos m1 /\ ms_nv m' = ms_nv m1 /\ ms_verts m' = ms_verts m1) by (rewrite <- EM; cbn; repeat split; congruence). destruct MP as (MP & MN & MV).
      assert (SQ1 : sq m1) by (destruct SQ as [Sa Sb]; split; intros u Hu; rewrite <- MP; [apply Sa|apply Sb]; rewrite MN; exact Hu).
      destruct (grown_way m m1 P G1 TR1 IV1 W1 SQ1 ltac:(lia)) as [P1 AF1].
      assert (PV1 : forall u, In u (ms_verts m1) -> pos u = ms_pos m1 u) by (intros u Iu; rewrite <- MP; apply (lt_pos _ _ _ _ LT); rewrite MV; exact Iu).
      assert (VV1 : forall u, In u (ms_verts m1) -> In u verts) by (intros u Iu; apply (lt_verts _ _ _ _ LT); rewrite MV; exact Iu).
      assert (Iv : In v (ms_verts m1)) by (rewrite V1; apply in_or_app; right; left; reflexivity).
      (* the second triangle is added after the first one *)
      assert (M4 : advance_front m3 e1 v t1 = fst (add_triangle (advance_front m2 e1 v t1) b c' v)).
      { assert (E3 : m3 = fst (add_triangle m2 b c' v)) by (rewrite A2; reflexivity). rewrite E3. apply advance_add. rewrite T1'. cbn. lia. }
      assert (T24 : t2 = snd (add_triangle (advance_front m2 e1 v t1) b c' v)) by (rewrite T2; reflexivity).
      rewrite M4 in GE2, EM. set (m4 := advance_front m2 e1 v t1) in *. change (ms_front (fst (add_triangle m4 b c' v))) with (ms_front m4) in GE2.
      assert (W2 : wf m2) by exact (extended_wf _ _ W1 X2).
      assert (It1 : In t1 (ms_tris m2)) by (rewrite M2; cbn; apply in_or_app; right; left; reflexivity).
      assert (I12 : In e1 (ms_front m2)) by (rewrite FR2; exact I1).
      assert (Iv2 : In v (ms_verts m2)) by (rewrite M2; exact Iv).
      assert (W4 : wf m4).
      { destruct (wf_ev _ W e1 I1) as (Q1 & Q2 & _). apply advance_wf; try assumption; try lia. }
      assert (PG1 := advance_generated m2 e1 v t1 W2 It1 ltac:(rewrite T1'; reflexivity)). fold m4 in PG1.
      assert (PG2 : Permutation (generated m') (activated t2 :: generated m4)).
      { set (mm := fst (add_triangle m4 b c' v)) in *.
        assert (XX := add_triangle_ext m4 b c' v ltac:(cbn; lia) ltac:(cbn; lia) ltac:(cbn; lia)). fold mm in XX.
        assert (It2 : In t2 (ms_tris mm)) by (unfold mm; rewrite T24; cbn; apply in_or_app; right; left; reflexivity).
        assert (PG := advance_generated mm e2 v t2 (extended_wf _ _ W4 XX) It2 ltac:(rewrite T2; reflexivity)). rewrite EM, (g_gen _ _ (extended_grown _ _ XX)) in PG. exact PG. }
      assert (LA2 : lasting gen t2).
      { apply (pair_lasting pos verts gen m' _ t2 LT (gen_element m' (activated t2) (Permutation_in _ (Permutation_sym PG2) (or_introl eq_refl)))). eexists. split; [left; reflexivity|]. cbn. auto. }
      assert (LA1 : lasting gen t1).
      { apply (pair_lasting pos verts gen m' _ t1 LT (gen_element m' (activated t1) (Permutation_in _ (Permutation_sym PG2) (or_intror (Permutation_in _ (Permutation_sym PG1) (or_introl eq_refl)))))). eexists. split; [left; reflexivity|]. cbn. auto. }
      assert (FV : forall w, on_front (ms_front m3) w -> In w (ms_verts m3) /\ In w verts /\ ms_pos m3 w = pos w).
      { intros w OW. rewrite FR3 in OW. pose proof (IV1 _ (front_in m e1 w OW P)) as Iw. rewrite VT3, PR3. split; [exact Iw|]. split; [exact (VV1 w Iw)|symmetry; exact (PV1 w Iw)]. }
      assert (CV : forall w, In w (ms_verts m1) -> In w verts /\ ms_pos m3 w = pos w) by (intros w Iw; rewrite PR3; split; [exact (VV1 w Iw)|symmetry; exact (PV1 w Iw)]).
      assert (SF3 : simple_front pos (ms_front m3)) by (rewrite FR3; apply P).
      assert (KF3 : forall f, In f (ms_front m3) -> known f0 gen (be_v1 f) (be_v2 f)) by (rewrite FR3; apply P).
      destruct (valid_clear rho shape_ok dom inside qual pos verts gen f0 EX FO m3 t1 O1 SF3 LA1 KF3 FV) as (D1 & HA1 & HA2).
      { rewrite T1'. cbn [tr_v1 tr_v2 tr_v3]. intros w [<-|[<-|[<-|[]]]]; apply CV; auto. }
      destruct (valid_clear rho shape_ok dom inside qual pos verts gen f0 EX FO m3 t2 O2 SF3 LA2 KF3 FV) as (D2 & HB1 & HB2).
      { rewrite T2. cbn [tr_v1 tr_v2 tr_v3]. intros w [<-|[<-|[<-|[]]]]; apply CV; auto. }
      rewrite FR3 in HA1, HA2, HB1, HB2.
      assert (KA := proj1 (lasting_known gen f0 t1 v a LA1 ltac:(rewrite T1'; cbn; tauto))). assert (KB := proj1 (lasting_known gen f0 t1 b v LA1 ltac:(rewrite T1'; cbn; tauto))).
      assert (KC := proj1 (lasting_known gen f0 t2 v b LA2 ltac:(rewrite T2; cbn; tauto))). assert (KD := proj1 (lasting_known gen f0 t2 c' v LA2 ltac:(rewrite T2; cbn; tauto))).
      rewrite T1' in D1, HA1, HA2. rewrite T2 in D2, HB1, HB2. cbn [tr_v1 tr_v2 tr_v3] in *.
      destruct (advance_way m1 a b v e1 v P1 PV1) as (P4 & AF4 & PE4); try (rewrite ?E1, ?E2, ?FR1; assumption).
      { left. auto. }
      rewrite A1 in P4, AF4, PE4. cbn [fst snd] in P4, AF4, PE4. fold m4 in P4, AF4, PE4.
      assert (SB4 : In (c', b) (sides_of m4)).
      { apply in_flat_map in SB. destruct SB as (s & Is & Js). apply in_flat_map. exists s. split; [|exact Js]. apply (Permutation_in _ (Permutation_sym PE4)). right.
        unfold elements. rewrite (g_gen _ _ G1), (g_quads _ _ G1). exact Is. }
      destruct (way_directed scale pos gen f0 c S0 m4 c' b e2 P4 SB4 (or_intror GE2)) as (I2 & E3 & E4).
      assert (KIND : forall f, In f (ms_front m4) -> In f (ms_front m) \/ (be_v1 f = a /\ be_v2 f = v) \/ (be_v1 f = v /\ be_v2 f = b)).
      { intros f If. unfold m4 in If. rewrite (advance_front_front m2 e1 v t1 W2 I12) in If. apply in_app_or in If. destruct If as [If|If].
        - left. rewrite <- FR2. exact (kept_in _ _ _ _ If).
        - right. apply new_edges_in in If. destruct If as (_ & If & _). apply plan_new_ends in If. unfold pair_of in If. rewrite E1, E2 in If.
          destruct If as [If|If]; injection If as -> ->; auto. }
      assert (PV4 : forall u, In u (ms_verts m4) -> pos u = ms_pos m4 u) by (intros u Iu; change (ms_pos m4) with (ms_pos m2); change (ms_verts m4) with (ms_verts m2) in Iu; rewrite M2 in Iu |- *; apply PV1; exact Iu).
      assert (SEP := parted (pos b) (pos v) (pos a) (pos c')).
      destruct SEP as (Q1 & Q2 & Q3).
      { assert (Q : det (pos b) (pos v) (pos a) == det (pos a) (pos b) (pos v)) by (unfold det; ring). lra. }
      { assert (Q : det (pos b) (pos v) (pos c') == - det (pos b) (pos c') (pos v)) by (unfold det; ring). lra. }
      destruct (advance_way m4 b c' v e2 v P4 PV4 I2) as (P5 & AF5 & _).
      * exact Iv2.
      * left. auto.
      * rewrite E3, E4. exact D2.
      * rewrite E3, E4. intros f s If Is. destruct (KIND f If) as [Kf|[(K1 & K2)|(K1 & K2)]]; [exact (HB1 f s Kf Is)| |]; unfold seg; cbn [fst snd]; rewrite K1, K2;
          destruct Is as [<-|[<-|[<-|[]]]]; cbn [fst snd].
        -- left. exact Q1.
        -- left. exact Q2.
        -- left. exact Q3.
        -- left. apply hinge. assert (Q : det (pos v) (pos b) (pos c') == det (pos b) (pos c') (pos v)) by (unfold det; ring). lra.
        -- left. apply ends_only_sym, hinge. assert (Q : det (pos c') (pos v) (pos b) == det (pos b) (pos c') (pos v)) by (unfold det; ring). lra.
        -- right. left. split; apply veq_refl.
      * rewrite E3, E4. intros w (f & If & Ef) B1 B2 B3. apply HB2; try assumption. destruct (KIND f If) as [Kf|[(K1 & K2)|(K1 & K2)]].
        -- exists f. auto.
        -- rewrite K1, K2 in Ef. destruct Ef as [<-|<-]; [|congruence]. exists e1. auto.
        -- rewrite K1, K2 in Ef. destruct Ef as [<-|<-]; congruence.
      * rewrite E3. exact KC.
      * rewrite E4. exact KD.
      * rewrite <- T24, EM in P5, AF5. split; [exact P5|]. exact (after_trans _ _ _ AF1 (after_trans _ _ _ AF4 AF5)).
    + injection H as EM.
      assert (Y0 : extended m1 (remove_triangle scale m3 t1)) by (apply remove_triangle_ext; [exact W1|exact X13|rewrite T1'; cbn; lia]).
      assert (Y : extended m1 (remove_triangle scale (remove_triangle scale m3 t1) t2)) by (apply remove_triangle_ext; [exact W1|exact Y0|rewrite T2; cbn; lia]).
      assert (MP : ms_pos m' = ms_pos m1 /\ ms_nv m' = ms_nv m1).
      { rewrite <- EM. unfold remove_vertex, remove_triangle. repeat (destruct (in_square _ _)); cbn; (split; [exact PR3|congruence]). }
      destruct MP as (MP & MN).
      assert (S1 : forall u, (u < S v)%nat -> in_square scale (ms_pos m1 u) = true) by (intros u Hu; rewrite <- MP; apply SQ; rewrite MN, N1; exact Hu).
      assert (TE5 : ms_tris (remove_triangle scale (remove_triangle scale m3 t1) t2) = ms_tris m).
      { rewrite remove_tris.
        - rewrite remove_tris.
          + rewrite M3, M2. cbn [with_tris ms_tris]. rewrite TR1, T1', T2. cbn [tr_id]. rewrite K. rewrite !filter_app. rewrite (filter_fresh (ms_tris m) (ms_nt m1)) by (rewrite T1; apply W).
            rewrite (filter_fresh (ms_tris m) (S (ms_nt m1))) by (intros t It; pose proof (wf_tlt _ W t It); lia). cbn [filter tr_id]. rewrite Nat.eqb_refl. cbn [negb filter app].
            destruct (Nat.eqb_spec (S (ms_nt m1)) (ms_nt m1)) as [EQ|_]; [lia|]. cbn [negb filter tr_id]. rewrite Nat.eqb_refl. cbn. rewrite ?app_nil_r. reflexivity.
          + rewrite T1', PR3. apply in_square_centroid; apply S1; cbn [tr_v1 tr_v2 tr_v3]; lia.
        - assert (PQ : ms_pos (remove_triangle scale m3 t1) = ms_pos m1) by (rewrite (proj1 (remove_same scale m3 t1)); exact PR3). rewrite T2, PQ. apply in_square_centroid; apply S1; cbn [tr_v1 tr_v2 tr_v3]; lia. }
      set (m5 := remove_triangle scale (remove_triangle scale m3 t1) t2) in *. destruct (extended_more _ _ Y) as [NT5 VT5].
      assert (G5 : grown m m5) by (eapply grown_trans; [exact G1|apply extended_grown; exact Y]). pose proof (extended_wf _ _ W1 Y) as W5. clearbody m5.
      assert (VL : forall u, In u (ms_verts m) -> (u < v)%nat) by exact (wf_vlt _ W).
      unfold remove_vertex in EM. destruct (in_square scale (ms_pos m5 v)).
      * apply grown_way; try assumption; rewrite <- EM.
        -- constructor; cbn; try apply G5.
        -- exact TE5.
        -- intros u Iu. cbn. apply filter_In. split; [rewrite VT5, V1; apply in_or_app; left; exact Iu|]. apply negb_true_iff, Nat.eqb_neq. pose proof (VL u Iu) as VLu. lia.
        -- constructor; cbn; try apply W5; [apply NoDup_filter; apply W5|]. intros u Hu. apply filter_In in Hu. apply (wf_vlt _ W5). apply Hu.
        -- cbn. lia.
      * apply grown_way; try assumption; rewrite <- EM; try assumption; try lia. rewrite VT5, V1. intros u Iu. apply in_or_app. left. exact Iu.
Qed.

(* ---- all gaps ---- *)
Lemma gaps_way r : forall m x m', partway m -> (forall d, In d (x :: r) -> cell_ok m d /\ cell_sides m d) -> linked_up (map lc_e (x :: r)) ->
  close_gaps m x r = Ok m' -> sq m' -> lasts_st m' -> partway m' /\ after m m'.
Proof.
  induction r as [|d r IH]; intros m x m' P HC LU H SQ LT; cbn [QLayerModel.close_gaps] in H.
  - injection H as <-. split; [exact P|apply after_refl].
  - assert (S : exists m1, (match lc_v1 d, lc_v2 x with Some u, Some y => if Nat.eqb u y then Ok m else close_gap m y (be_v1 (lc_e d)) u | _, _ => Ok m end) = Ok m1
              /\ close_gaps m1 d r = Ok m').
    { destruct (match lc_v1 d, lc_v2 x with Some u, Some y => _ | _, _ => _ end) as [m1| |]; try discriminate. exists m1. auto. }
    destruct S as (m1 & S1 & S2). pose proof (partway_ok scale pos gen f0 c m P) as BO.
    destruct (HC x (or_introl eq_refl)) as ((_ & C2 & _) & (_ & X2)). destruct (HC d (or_intror (or_introl eq_refl))) as ((D1 & _ & D3 & _) & (X1 & _)).
    assert (LK : be_v2 (lc_e x) = be_v1 (lc_e d)) by (cbn in LU; apply LU).
    assert (LU2 : linked_up (map lc_e (d :: r))) by (cbn in LU |- *; apply LU).
    assert (L1 : lay m m1).
    { destruct (lc_v1 d) as [u|], (lc_v2 x) as [y|]; try (injection S1 as <-; apply lay_refl; exact BO).
      destruct (Nat.eqb u y); [injection S1 as <-; apply lay_refl; exact BO|].
      cbn in C2, D1. apply (gap_lay scale valid placed positive sharp m y (be_v1 (lc_e d)) u m1 BO); assumption. }
    assert (HC1 : forall f, In f (d :: r) -> cell_ok m1 f /\ cell_sides m1 f).
    { intros f Hf. destruct (HC f (or_intror Hf)) as [Y1 Y2]. split; [eapply cell_onward; [apply L1|exact Y1]|exact (cell_sides_lay _ _ _ L1 Y2)]. }
    pose proof (gaps_lay scale valid placed positive sharp r m1 d m' (ly_ok _ _ L1) (fun f Hf => proj1 (HC1 f Hf)) S2) as L2.
    assert (SQ1 := lay_sq _ _ _ L2 SQ). pose proof (lasts_back pos verts gen m1 m' (ly_ok _ _ L1) L2 LT) as LT1.
    assert (O : partway m1 /\ after m m1).
    { destruct (lc_v1 d) as [u|], (lc_v2 x) as [y|]; try (injection S1 as <-; split; [exact P|apply after_refl]).
      destruct (Nat.eqb u y); [injection S1 as <-; split; [exact P|apply after_refl]|].
      apply (gap_way m y (be_v1 (lc_e d)) u m1 P); try assumption.
      - apply X1. reflexivity.
      - rewrite <- LK. apply X2. reflexivity. }
    destruct O as [P1 A1]. destruct (IH m1 d m' P1 HC1 LU2 S2 SQ LT) as [P2 A2]. split; [exact P2|exact (after_trans _ _ _ A1 A2)].
Qed.
End LayGap.
