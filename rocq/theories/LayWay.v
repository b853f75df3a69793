(* Quad layers with the tests of the code: the elements of one layer.  Proofs for
   LayProps. *)
From Coq Require Import Lia Lqa Permutation.
From Verif Require Import Base Chain GeomModel GeomSpec GeomProofs FacetModel UtilModel BdryModel BdrySpec BdryProofs
  AdvanceModel AdvanceSpec AdvanceProofs AdvanceInv AdvanceMore AdvanceGeom MeshModel WindSpec WindProofs WindMesh QLayerModel QLayerSpec QLayerProofs QTileSpec QTileProofs
  ClearSpec ClearRun ClearEnd FinMesh MixSpec MixShape MixRun LayRun.
Open Scope Q_scope.

Lemma find_own e l : NoDup (map be_id l) -> In e l -> find_edge (be_id e) l = Some e.
Proof.
  intros N I. unfold find_edge. destruct (find _ l) as [x|] eqn:E.
  - apply find_some in E. destruct E as [Ix E]. apply Nat.eqb_eq in E. f_equal. exact (id_eq l x e N Ix I E).
  - exfalso. pose proof (find_none _ _ E e I) as K. cbn in K. rewrite Nat.eqb_refl in K. discriminate.
Qed.
Lemma drop_kept f p l : In p l -> f p = false -> In p (drop_first f l).
Proof.
  induction l as [|x l IH]; intros I K; [exact I|]. cbn [drop_first]. destruct I as [->|I].
  - rewrite K. left. reflexivity.
  - destruct (f x); [exact I|right; apply IH; assumption].
Qed.
Lemma drop_in f p l : In p (drop_first f l) -> In p l.
Proof. induction l as [|x l IH]; cbn [drop_first]; [auto|]. destruct (f x); [right; assumption|]. intros [->|I]; [left; reflexivity|right; apply IH, I]. Qed.
Definition one_any (p q a b : nat) : nat := if (Nat.eqb a p && Nat.eqb b q) || (Nat.eqb b p && Nat.eqb a q) then 1%nat else 0%nat.
Lemma any_cons p q a b l : uses_any p q ((a, b) :: l) = (one_any p q a b + uses_any p q l)%nat.
Proof. unfold uses_any, one_any. cbn [filter fst snd]. destruct (_ || _); reflexivity. Qed.
Lemma any_app p q l l' : uses_any p q (l ++ l') = (uses_any p q l + uses_any p q l')%nat.
Proof. unfold uses_any. rewrite filter_app, app_length. reflexivity. Qed.
Lemma any_perm p q l l' : Permutation l l' -> uses_any p q l = uses_any p q l'.
Proof. intros P. unfold uses_any. apply Permutation_length. apply perm_filter. exact P. Qed.
Lemma one_sym p q a b : one_any p q b a = one_any p q a b.
Proof. unfold one_any. rewrite orb_comm. reflexivity. Qed.
Lemma drop_uses p q a b l : existsb (joins2 a b) l = true -> uses_any p q l = (one_any p q a b + uses_any p q (drop_first (joins2 a b) l))%nat.
Proof.
  induction l as [|[x y] l IH]; intros E; [discriminate|]. cbn [existsb drop_first] in *. destruct (joins2 a b (x, y)) eqn:J.
  - rewrite any_cons. f_equal. unfold joins2 in J. cbn [fst snd] in J. rewrite orb_true_iff, !andb_true_iff, !Nat.eqb_eq in J.
    destruct J as [[-> ->]|[-> ->]]; [reflexivity|apply one_sym].
  - cbn [orb] in E. rewrite !any_cons, (IH E). lia.
Qed.
Lemma merge_same scale m t1 t2 a b c d : let m' := merge_pair scale m t1 t2 a b c d in
  ms_pos m' = ms_pos m /\ ms_nv m' = ms_nv m /\ ms_verts m' = ms_verts m /\ ms_front m' = ms_front m /\ ms_area m' = ms_area m /\ ms_col m' = ms_col m.
Proof.
  cbv zeta. unfold merge_pair. destruct (existsb _ _); [|auto 10]. cbn [add_quad ms_pos ms_nv ms_verts ms_front ms_area ms_col].
  unfold remove_triangle, remove_interior. repeat (destruct (in_square _ _)); cbn; auto 10.
Qed.

Section LayWay.
Variable rho : vec2 -> Q.
Variable shape_ok : vec2 -> vec2 -> vec2 -> bool.
Variable dom : list (vec2 * vec2).
Variable scale : Q.
Variable inside : vec2 -> bool.
Variable qual : mstate -> tri -> Q.
Notation valid := (triangle_is_valid rho shape_ok dom).
Notation placed := (vertex_is_valid rho inside).
Notation fstep := (fstep scale valid placed qual).
Notation sq := (QTileProofs.sq scale).

Variable pos : nat -> vec2.
Variable verts : list nat.
Variable gen : list tri.
Variable f0 : list bedge.
Variable c : Z.
Hypothesis EX : exact_at pos verts.
Hypothesis FO : found_at (near rho) pos f0 gen.
Hypothesis B0 : forall e, In e f0 -> interior e = false /\ ghost e = false.
Hypothesis S0 : simple_front pos f0.
Notation partway := (partway scale pos gen f0 c).
Notation before := (before pos verts gen).
Notation sides_of m := (flat_map shape_sides (elements m)).

Lemma valid_positive s t : valid s t = true -> 0 < det (ms_pos s (tr_v1 t)) (ms_pos s (tr_v2 t)) (ms_pos s (tr_v3 t)).
Proof.
  intros OK. destruct (valid_facts _ _ _ _ _ OK) as (D & _). unfold corner1, corner2, corner3 in D.
  assert (TD := tri_area_det (ms_pos s (tr_v1 t)) (ms_pos s (tr_v2 t)) (ms_pos s (tr_v3 t))). lra.
Qed.

(* nothing of the state is lost later, quads are lost as little as triangles *)
Record lasts_st (m : mstate) : Prop := {
  lt_pos : forall v, In v (ms_verts m) -> pos v = ms_pos m v;
  lt_verts : forall v, In v (ms_verts m) -> In v verts;
  lt_gen : forall s t, In s (elements m) -> In t (cut s) -> lasting gen t
}.
Lemma lasts_back m m' : base_ok m -> lay m m' -> lasts_st m' -> lasts_st m.
Proof.
  intros [W _] L T. constructor.
  - intros v I. rewrite (lt_pos _ T v (ly_verts _ _ L v I)). apply (ly_keeps _ _ L). exact (wf_vlt _ W v I).
  - intros v I. exact (lt_verts _ T v (ly_verts _ _ L v I)).
  - intros s t I. exact (lt_gen _ T s t (lay_elements _ _ L s I)).
Qed.
Lemma gen_element m t : In t (generated m) -> In (Tri3 (tr_v1 t) (tr_v2 t) (tr_v3 t)) (elements m).
Proof. intros I. unfold elements. apply in_or_app. left. apply in_map_iff. exists t. split; [reflexivity|exact I]. Qed.
Lemma lasts_before m : lasts_st m -> before m.
Proof.
  intros T. constructor; try apply T. intros t I.
  destruct (lt_gen _ T _ _ (gen_element m t I) (or_introl eq_refl)) as (u & Iu & U). cbn [tr_v1 tr_v2 tr_v3] in U. exists u. split; [exact Iu|exact U].
Qed.

Lemma partway_ok m : partway m -> base_ok m.
Proof.
  intros P. pose proof (pw_neat _ _ _ _ _ _ P) as N. split; [apply N|]. intros q Iq v Iv. destruct (nt_quads _ _ _ N q Iq) as (_ & _ & _ & K1 & K2 & K3 & K4).
  apply (wf_vlt _ (nt_wf _ _ _ N)). cbn in Iv. destruct Iv as [<-|[<-|[<-|[<-|[]]]]]; assumption.
Qed.
Lemma partway_sq m : partway m -> sq m.
Proof. intros P. split; apply (pw_neat _ _ _ _ _ _ P). Qed.

Lemma update_way m k xy cands m' r : partway m -> fstep m (FUpdate k xy cands) = Ok (m', r) -> sq m' -> before m' -> partway m' /\ after m m'.
Proof.
  intros P H S B. pose proof (nt_wf _ _ _ (pw_neat _ _ _ _ _ _ P)) as W. destruct (update_in scale valid placed qual m k xy cands m' r W H S) as (xy' & H' & O & OF).
  split.
  - exact (step_partway rho shape_ok dom scale inside qual pos verts gen f0 c EX FO B0 m (FUpdate k xy' cands) m' r P O OF H' B).
  - apply (step_neat scale valid placed qual c m (FUpdate k xy' cands) m' r (pw_neat _ _ _ _ _ _ P) O OF H').
Qed.
Lemma update_gen m k xy cands m' t : wf m -> fstep m (FUpdate k xy cands) = Ok (m', Some t) -> Permutation (generated m') (activated t :: generated m) /\ ms_quads m' = ms_quads m.
Proof.
  intros W H. destruct (step_fresh scale valid placed qual m _ m' _ W H) as (_ & _ & Q & _). split; [|exact Q].
  apply fstep_spec in H; [|exact W]. destruct H as (m2 & base & T & -> & _).
  pose proof (advance_generated m2 base (tr_v3 t) t (tk_wf _ _ _ _ _ T) (tk_in _ _ _ _ _ T) (tk_act _ _ _ _ _ T)) as PG.
  rewrite (g_gen _ _ (tk_grown _ _ _ _ _ T)) in PG. exact PG.
Qed.

(* ---- sides of elements and the front ---- *)
Lemma way_front m e : partway m -> In e (ms_front m) -> ~ In (be_v1 e, be_v2 e) (sides_of m).
Proof.
  intros P I J. pose proof (mix_front pos (elements m) f0 (ms_front m) S0 (pw_simple _ _ _ _ _ _ P) (pw_shape _ _ _ _ _ _ P) (pw_total _ _ _ _ _ _ P) e I) as Z.
  apply uses_in in J. lia.
Qed.
Lemma way_directed m a b e : partway m -> In (a, b) (sides_of m) -> get_edge_nodir (ms_front m) a b = Some e \/ get_edge_nodir (ms_front m) b a = Some e ->
  In e (ms_front m) /\ be_v1 e = b /\ be_v2 e = a.
Proof.
  intros P J [G|G]; apply get_edge_in in G; destruct G as [I [[E1 E2]|[E1 E2]]]; split; try assumption; auto; exfalso; apply (way_front m e P I); rewrite E1, E2; exact J.
Qed.
Lemma way_once m p q : partway m -> (uses p q (sides_of m) <= 1)%nat.
Proof. intros P. exact (mix_once pos (elements m) f0 (ms_front m) S0 (pw_simple _ _ _ _ _ _ P) (pw_shape _ _ _ _ _ _ P) (pw_total _ _ _ _ _ _ P) p q). Qed.
Lemma way_interior m a b : partway m -> In (a, b) (ms_intr m) -> In (a, b) (sides_of m) /\ In (b, a) (sides_of m).
Proof.
  intros P J. destruct (nt_intr _ _ _ (pw_neat _ _ _ _ _ _ P) a b J) as (NE & _).
  pose proof (pair_cases pos (elements m) f0 (ms_front m) S0 (pw_simple _ _ _ _ _ _ P) (pw_shape _ _ _ _ _ _ P) (pw_total _ _ _ _ _ _ P) (ms_intr m) (pw_balance _ _ _ _ _ _ P) (way_old scale pos gen f0 c m P)) as RC.
  assert (NI : uses_any a b (ms_intr m) <> 0%nat) by (apply uses_any_in; left; exact J).
  destruct (RC a b NE) as (C1 & C2 & C3 & C4 & C5). destruct (RC b a (fun E => NE (eq_sym E))) as (_ & _ & G3 & G4 & _).
  assert (SY : uses_any b a (ms_intr m) = uses_any a b (ms_intr m)) by (rewrite !uses_any_split by congruence; lia). rewrite SY in G3, G4.
  assert (D1 : uses a b (ends f0) = 0%nat) by (destruct (Nat.eq_dec (uses a b (ends f0)) 0) as [Z|Z]; [exact Z|exfalso; destruct C3 as (_ & _ & X & _); [lia|congruence]]).
  assert (D2 : uses b a (ends f0) = 0%nat) by (destruct (Nat.eq_dec (uses b a (ends f0)) 0) as [Z|Z]; [exact Z|exfalso; destruct G3 as (_ & _ & X & _); [lia|congruence]]).
  assert (F1 : uses a b (ends (ms_front m)) = 0%nat) by (destruct (Nat.eq_dec (uses a b (ends (ms_front m))) 0) as [Z|Z]; [exact Z|exfalso; destruct C4 as (_ & _ & X); [lia..|congruence]]).
  assert (F2 : uses b a (ends (ms_front m)) = 0%nat) by (destruct (Nat.eq_dec (uses b a (ends (ms_front m))) 0) as [Z|Z]; [exact Z|exfalso; destruct G4 as (_ & _ & X); [lia..|congruence]]).
  destruct (C5 D1 D2 F1 F2) as (X & Y & Z). split; apply uses_some; lia.
Qed.

(* ---- two triangles become a quad ---- *)
Lemma merge_way m m2 t1 t2 a b c' d : partway m -> partway m2 -> after m m2 ->
  Permutation (generated m2) (activated t2 :: activated t1 :: generated m) -> ms_quads m2 = ms_quads m ->
  base_ok (merge_pair scale m2 t1 t2 a b c' d) ->
  tr_v1 t1 = a -> tr_v2 t1 = b -> tr_v3 t1 = d -> tr_v1 t2 = d -> tr_v2 t2 = b -> tr_v3 t2 = c' ->
  partway (merge_pair scale m2 t1 t2 a b c' d) /\ after m (merge_pair scale m2 t1 t2 a b c' d).
Proof.
  intros P0 P A PG EQ BO A1 A2 A3 A4 A5 A6. destruct (merge_same scale m2 t1 t2 a b c' d) as (MP & MN & MV & MF & MA & MC).
  assert (LAY := lay_refl m2 (partway_ok m2 P)).
  unfold merge_pair in *. destruct (existsb (joins2 b d) (ms_intr m2)) eqn:EI; [|split; assumption].
  pose proof (pw_neat _ _ _ _ _ _ P) as N. pose proof (nt_wf _ _ _ N) as W. pose proof (nt_fsq _ _ _ N) as VF. pose proof (nt_sq _ _ _ N) as VS.
  assert (I1 : In (activated t1) (generated m2)) by (apply (Permutation_in _ (Permutation_sym PG)); right; left; reflexivity).
  assert (I2 : In (activated t2) (generated m2)) by (apply (Permutation_in _ (Permutation_sym PG)); left; reflexivity).
  pose proof (neat_gen _ _ _ N) as GE.
  assert (K1 := I1). assert (K2 := I2). rewrite GE in K1, K2. destruct (nt_tris _ _ _ N _ K1) as (_ & _ & Va & Vb & Vd). destruct (nt_tris _ _ _ N _ K2) as (_ & _ & _ & _ & Vc).
  cbn [activated tr_v1 tr_v2 tr_v3] in Va, Vb, Vd, Vc. rewrite A1 in Va. rewrite A2 in Vb. rewrite A3 in Vd. rewrite A6 in Vc.
  pose proof (wf_vlt _ W _ Vb) as Lb. pose proof (wf_vlt _ W _ Vd) as Ld.
  (* the interior edge *)
  assert (SH : in_square front_scale (shown_xy (ms_pos m2) b d) = true).
  { apply (in_square_mid front_scale (ms_pos m2) (BE 0 b d 0 0)); cbn [be_v1 be_v2]; apply VF; assumption. }
  assert (IN : ms_intr (remove_interior m2 b d) = drop_first (joins2 b d) (ms_intr m2)) by (unfold remove_interior; rewrite SH; reflexivity).
  destruct (interior_same m2 b d) as (X1 & X2 & X3 & X4 & X5 & X6 & X7 & X8 & X9 & X10). set (m3 := remove_interior m2 b d) in *.
  pose proof (wf_same m2 m3 X4 X5 X3 X6 X7 X2 W) as W3.
  assert (GE3 : generated m3 = generated m2) by (unfold generated; rewrite X6; reflexivity).
  assert (NDG : NoDup (map tr_id (activated t2 :: activated t1 :: generated m))).
  { eapply Permutation_NoDup; [apply Permutation_map; exact PG|]. apply nodup_generated. exact W. }
  assert (R1 : generated (remove_triangle scale m3 t1) = filter (fun s => negb (Nat.eqb (tr_id s) (tr_id t1))) (generated m2)).
  { rewrite (remove_id scale m3 t1 (activated t1)) by reflexivity. rewrite remove_generated.
    - rewrite GE3. reflexivity.
    - intros v Hv. rewrite X1. apply VS. rewrite <- X3. exact Hv.
    - rewrite X6. exact K1.
    - exact W3. }
  assert (PR1 : Permutation (generated (remove_triangle scale m3 t1)) (activated t2 :: generated m)).
  { rewrite R1. eapply Permutation_trans; [apply perm_filter; exact PG|]. eapply Permutation_trans; [apply perm_filter; apply perm_swap|].
    change (tr_id t1) with (tr_id (activated t1)). rewrite (filter_head tr_id); [apply Permutation_refl|].
    eapply Permutation_NoDup; [apply Permutation_map; apply perm_swap|]. exact NDG. }
  pose proof (remove_wf scale m3 t1 W3) as W4. destruct (remove_same scale m3 t1) as (Y1 & Y2 & Y3 & Y4 & Y5). destruct (remove_more scale m3 t1) as (Y6 & Y7 & Y8 & Y9 & Y10).
  set (m4 := remove_triangle scale m3 t1) in *.
  assert (R2 : generated (remove_triangle scale m4 t2) = filter (fun s => negb (Nat.eqb (tr_id s) (tr_id t2))) (generated m4)).
  { rewrite (remove_id scale m4 t2 (activated t2)) by reflexivity. rewrite remove_generated.
    - reflexivity.
    - intros v Hv. rewrite Y1, X1. apply VS. rewrite <- X3, <- Y2. exact Hv.
    - apply gen_in. apply (Permutation_in _ (Permutation_sym PR1)). left. reflexivity.
    - exact W4. }
  assert (PR2 : Permutation (generated (remove_triangle scale m4 t2)) (generated m)).
  { rewrite R2. eapply Permutation_trans; [apply perm_filter; exact PR1|]. change (tr_id t2) with (tr_id (activated t2)).
    rewrite (filter_head tr_id); [apply Permutation_refl|]. cbn [map] in NDG |- *. inversion NDG as [|x y NI ND EQ1]. constructor.
    - intros C. apply NI. right. exact C.
    - inversion ND as [|x' y' NI' ND' EQ2]. exact ND'. }
  destruct (remove_same scale m4 t2) as (Z1 & Z2 & Z3 & Z4 & Z5). destruct (remove_more scale m4 t2) as (Z6 & Z7 & Z8 & Z9 & Z10).
  assert (SUBT : forall s, In s (ms_tris (remove_triangle scale m4 t2)) -> In s (ms_tris m2)).
  { assert (SB : forall k t s, In s (ms_tris (remove_triangle scale k t)) -> In s (ms_tris k)).
    { intros k t s J. unfold remove_triangle in J. destruct (in_square scale (tri_loc (ms_pos k) t)); [|exact J]. cbn in J. apply filter_In in J. apply J. }
    intros s J. apply SB in J. unfold m4 in J. apply SB in J. rewrite X6 in J. exact J. }
  set (m5 := remove_triangle scale m4 t2) in *.
  assert (E5 : generated m5 = ms_tris m5).
  { unfold generated. apply filter_all. intros t J. exact (proj1 (nt_tris _ _ _ N t (SUBT t J))). }
  set (M := add_quad m5 a b c' d) in *.
  assert (QM : ms_quads M = ms_quads m2 ++ [QU (ms_nt m2) a b c' d true (ms_col m2)]).
  { cbn [M add_quad ms_quads]. rewrite Z5, Y5, X8, Z7, Y7, X7, Z10, Y10, X10. reflexivity. }
  assert (NT : ms_nt M = S (ms_nt m2)) by (cbn [M add_quad ms_nt]; rewrite Z7, Y7, X7; reflexivity).
  assert (IM : ms_intr M = drop_first (joins2 b d) (ms_intr m2)) by (cbn [M add_quad ms_intr]; rewrite Z8, Y8; exact IN).
  assert (GM : Permutation (generated M) (generated m)) by exact PR2.
  assert (TM : ms_tris M = generated M) by (symmetry; exact E5).
  assert (PE : Permutation (elements M) (Quad4 a b c' d :: elements m)).
  { unfold elements. rewrite QM, EQ, map_app. cbn [map].
    change (quad_element _) with (Quad4 a b c' d). rewrite app_assoc. eapply Permutation_trans; [apply Permutation_app_comm|].
    cbn [app]. apply perm_skip, Permutation_app_tail, Permutation_map. exact GM. }
  assert (PE2 : Permutation (elements m2) (Tri3 d b c' :: Tri3 a b d :: elements m)).
  { assert (T1 : tri_element (activated t1) = Tri3 a b d) by (unfold tri_element; cbn; rewrite A1, A2, A3; reflexivity).
    assert (T2 : tri_element (activated t2) = Tri3 d b c') by (unfold tri_element; cbn; rewrite A4, A5, A6; reflexivity).
    unfold elements. rewrite EQ. change (Tri3 d b c' :: Tri3 a b d :: map tri_element (generated m) ++ map quad_element (ms_quads m))
      with ((Tri3 d b c' :: Tri3 a b d :: map tri_element (generated m)) ++ map quad_element (ms_quads m)).
    apply Permutation_app_tail. rewrite <- T1, <- T2. exact (Permutation_map tri_element PG). }
  pose proof (perm_flat shape_sides _ _ PE) as PS. pose proof (perm_flat shape_sides _ _ PE2) as PS2. cbn [flat_map] in PS, PS2.
  change (shape_sides (Quad4 a b c' d)) with [(a, b); (b, c'); (c', d); (d, a)] in PS. change (shape_sides (Tri3 d b c')) with [(d, b); (b, c'); (c', d)] in PS2.
  change (shape_sides (Tri3 a b d)) with [(a, b); (b, d); (d, a)] in PS2.
  assert (SUM : forall w, antisym w -> esum w (sides_of M) == esum w (sides_of m2)).
  { intros w Aw. rewrite (esum_perm w _ _ PS), (esum_perm w _ _ PS2). rewrite !esum_app. cbn [esum]. pose proof (Aw b d). lra. }
  assert (NEbd : ~ (b = d)).
  { intros E. assert (SS := pw_shape _ _ _ _ _ _ P (Tri3 a b d) (Permutation_in _ (Permutation_sym PE2) (or_intror (or_introl eq_refl)))). cbn [simple_shape] in SS.
    rewrite E in SS. unfold det in SS. lra. }
  assert (VERT : ms_verts M = ms_verts m2) by exact MV.
  assert (PN : partway M).
  { constructor.
    - constructor.
      + apply BO.
      + intros v Hv. rewrite MP. apply VS. rewrite MN in Hv. exact Hv.
      + intros v Hv. rewrite MP. apply VF. rewrite MN in Hv. exact Hv.
      + rewrite MF, MV. apply N.
      + rewrite MC. apply N.
      + intros t J. rewrite VERT. exact (nt_tris _ _ _ N t (SUBT t J)).
      + intros q J. rewrite VERT, NT. rewrite QM in J. apply in_app_or in J. destruct J as [J|[<-|[]]].
        * destruct (nt_quads _ _ _ N q J) as (B1 & B2 & B3 & B4). split; [exact B1|]. split; [exact B2|]. split; [lia|exact B4].
        * cbn [qu_act qu_col qu_id qu_v1 qu_v2 qu_v3 qu_v4]. split; [reflexivity|]. split; [apply N|]. split; [lia|]. auto.
      + rewrite QM, map_app. cbn [map qu_id]. assert (ID := nt_ids _ _ _ N). rewrite <- GE in ID.
        assert (ID2 : NoDup (map qu_id (ms_quads m2) ++ map tr_id (generated m))).
        { assert (PP : Permutation (map qu_id (ms_quads m2) ++ map tr_id (generated m2)) (tr_id t2 :: tr_id t1 :: map qu_id (ms_quads m2) ++ map tr_id (generated m))).
          { eapply Permutation_trans; [apply Permutation_app_head, Permutation_map, PG|]. cbn [map activated tr_id].
            eapply Permutation_trans; [apply Permutation_sym, Permutation_middle|]. apply perm_skip. apply Permutation_sym, Permutation_middle. }
          apply (Permutation_NoDup PP) in ID. inversion ID as [|x y NI ND EQ1]. inversion ND as [|x' y' NI' ND' EQ2]. exact ND'. }
        rewrite <- app_assoc. cbn [app]. apply (Permutation_NoDup (l := ms_nt m2 :: map qu_id (ms_quads m2) ++ map tr_id (generated m))).
        * eapply Permutation_trans; [apply Permutation_middle|]. apply Permutation_app_head. apply perm_skip. apply Permutation_map. rewrite TM. apply Permutation_sym. exact GM.
        * constructor; [|exact ID2]. intros J. apply in_app_or in J. destruct J as [J|J]; apply in_map_iff in J; destruct J as (x & Ex & J).
          -- destruct (nt_quads _ _ _ N x J) as (_ & _ & L & _). lia.
          -- assert (J2 : In x (ms_tris m2)) by (rewrite <- GE; apply (Permutation_in _ (Permutation_sym PG)); right; right; exact J).
             pose proof (wf_tlt _ W x J2). lia.
      + intros x y J. rewrite VERT. rewrite IM in J. apply drop_in in J. exact (nt_intr _ _ _ N x y J).
    - rewrite MF. apply P.
    - rewrite MF. apply P.
    - intros s J. apply (Permutation_in _ PE) in J. destruct J as [<-|J].
      + right. assert (D1 := pw_shape _ _ _ _ _ _ P (Tri3 a b d) (Permutation_in _ (Permutation_sym PE2) (or_intror (or_introl eq_refl)))).
        assert (D2 := pw_shape _ _ _ _ _ _ P (Tri3 d b c') (Permutation_in _ (Permutation_sym PE2) (or_introl eq_refl))).
        cbn [simple_shape] in D1, D2. unfold cuts, det in *. split; lra.
      + apply (pw_shape _ _ _ _ _ _ P). apply (Permutation_in _ (Permutation_sym PE2)). right. right. exact J.
    - intros w Aw. rewrite MF, (SUM w Aw). apply P. exact Aw.
    - intros p q NE. rewrite MF, IM. pose proof (pw_balance _ _ _ _ _ _ P p q NE) as BB. rewrite (drop_uses p q b d (ms_intr m2) EI) in BB.
      rewrite (any_perm p q _ _ PS2), !any_app, !any_cons in BB. rewrite (any_perm p q _ _ PS), !any_app, !any_cons. change (uses_any p q []) with 0%nat in *.
      pose proof (one_sym p q b d). lia.
    - rewrite MF. apply P.
    - rewrite MA, (SUM _ (w_area_antisym pos)). apply P. }
  split; [exact PN|].
  constructor.
  - intros v J. rewrite MP. apply A. exact J.
  - intros v J. rewrite VERT. apply A. exact J.
  - intros t J. rewrite TM. apply (Permutation_in _ (Permutation_sym GM)). rewrite (neat_gen _ _ _ (pw_neat _ _ _ _ _ _ P0)). exact J.
  - intros q J. rewrite QM. apply in_or_app. left. apply A. exact J.
  - intros [x y] J. rewrite IM. apply drop_kept; [apply A; exact J|]. destruct (joins2 b d (x, y)) eqn:JJ; [exfalso|reflexivity].
    destruct (way_interior m x y P0 J) as [J1 J2].
    assert (J3 : In (b, d) (sides_of m)).
    { unfold joins2 in JJ. cbn [fst snd] in JJ. rewrite orb_true_iff, !andb_true_iff, !Nat.eqb_eq in JJ. destruct JJ as [[-> ->]|[-> ->]]; assumption. }
    pose proof (way_once m2 b d P) as U. rewrite (uses_perm b d _ _ PS2), !uses_app, !uses_cons in U. apply uses_in in J3.
    rewrite !Nat.eqb_refl in U. cbn [andb] in U. lia.
  - rewrite NT. pose proof (af_nt _ _ A). lia.
  - cbn [M add_quad ms_ne]. rewrite Z4, Y4, X5. apply A.
Qed.

(* ---- one element of a layer ---- *)
Variable norm : vec2 -> Q.
Variable query : mstate -> vec2 -> Q -> list nat.
Notation create_element := (create_element norm scale valid placed qual query).
Notation create_layer := (create_layer norm scale valid placed qual query).
Lemma pair_lasting m s t : lasts_st m -> In s (elements m) -> (exists u, In u (cut s) /\ tr_v1 u = tr_v1 t /\ tr_v2 u = tr_v2 t /\ tr_v3 u = tr_v3 t) -> lasting gen t.
Proof.
  intros T I (u & Iu & E1 & E2 & E3). destruct (lt_gen _ T s u I Iu) as (x & Ix & X1 & X2 & X3). exists x. split; [exact Ix|]. repeat split; congruence.
Qed.
Lemma side_in m s x : In s (elements m) -> In x (shape_sides s) -> In x (sides_of m).
Proof. intros I J. apply in_flat_map. exists s. split; assumption. Qed.

Lemma element_way m e p1 p2 m' o1 o2 : partway m -> In e (ms_front m) -> create_element m e p1 p2 = Ok (m', (o1, o2)) -> sq m' -> lasts_st m' ->
  partway m' /\ after m m' /\ (forall w, o1 = Some w -> In (w, be_v1 e) (sides_of m')) /\ (forall w, o2 = Some w -> In (be_v2 e, w) (sides_of m')).
Proof.
  intros P Ie H SQ LT. pose proof (partway_ok m P) as BO. pose proof (proj1 BO) as W.
  destruct (element_lay _ _ _ _ _ _ _ _ _ _ _ _ _ BO Ie H) as (LY & _).
  unfold QLayerModel.create_element in H. destruct (fstep m _) as [[m1 r1]| |] eqn:ST1 in H; try discriminate. cbn [obind] in H.
  pose proof (step_lay _ _ _ _ _ _ _ _ BO ST1) as L1. pose proof (ly_ok _ _ L1) as B1.
  destruct r1 as [t1|].
  2:{ injection H as <- <- <-. destruct (update_way _ _ _ _ _ _ P ST1 SQ (lasts_before _ LT)) as [P1 A1]. split; [exact P1|]. split; [exact A1|]. split; discriminate. }
  destruct (update_gen _ _ _ _ _ _ W ST1) as [G1 Q1].
  destruct (update_base scale valid placed qual m _ _ _ m1 t1 e W ST1 (find_own e _ (wf_eid _ W) Ie)) as [V1 V2].
  assert (BF1 : lasting gen t1 -> incl (ms_verts m1) (ms_verts m') -> keeps m1 m' -> before m1).
  { intros LA IV KP. constructor.
    - intros v J. rewrite (lt_pos _ LT v (IV v J)). apply KP. exact (wf_vlt _ (proj1 B1) v J).
    - intros v J. exact (lt_verts _ LT v (IV v J)).
    - intros t J. apply (Permutation_in _ G1) in J. destruct J as [<-|J]; [exact LA|]. apply (bf_gen _ _ _ _ (lasts_before _ (lasts_back m m' BO LY LT)) t J). }
  destruct (get_edge_nodir (ms_front m1) (tr_v3 t1) (be_v2 e)) as [dg|] eqn:GD.
  2:{ injection H as <- <- <-. destruct (update_way _ _ _ _ _ _ P ST1 SQ (lasts_before _ LT)) as [P1 A1]. split; [exact P1|]. split; [exact A1|]. split; [|discriminate].
      intros w E. injection E as <-. apply (side_in m1 (Tri3 (tr_v1 t1) (tr_v2 t1) (tr_v3 t1))); [|rewrite V1; cbn; tauto].
      apply (gen_element m1 (activated t1)). apply (Permutation_in _ (Permutation_sym G1)). left. reflexivity. }
  destruct (fstep m1 _) as [[m2 r2]| |] eqn:ST2 in H; try discriminate. cbn [obind] in H.
  pose proof (step_lay _ _ _ _ _ _ _ _ B1 ST2) as L2. pose proof (ly_ok _ _ L2) as B2.
  destruct r2 as [t2|].
  2:{ injection H as <- <- <-. pose proof (lasts_back _ _ B1 L2 LT) as LT1. destruct (update_way _ _ _ _ _ _ P ST1 (lay_sq _ _ _ L2 SQ) (lasts_before _ LT1)) as [P1 A1].
      destruct (update_way _ _ _ _ _ _ P1 ST2 SQ (lasts_before _ LT)) as [P2 A2]. split; [exact P2|]. split; [exact (after_trans _ _ _ A1 A2)|]. split; [|discriminate].
      intros w E. injection E as <-. apply (side_in m2 (Tri3 (tr_v1 t1) (tr_v2 t1) (tr_v3 t1))); [|rewrite V1; cbn; tauto].
      apply (lay_elements _ _ L2). apply (gen_element m1 (activated t1)). apply (Permutation_in _ (Permutation_sym G1)). left. reflexivity. }
  destruct (update_gen _ _ _ _ _ _ (proj1 B1) ST2) as [G2 Q2].
  set (w1 := tr_v3 t1) in *. set (w2 := tr_v3 t2) in *. injection H as EM <- <-.
  destruct (merge_same scale m2 t1 t2 (be_v1 e) (be_v2 e) w2 w1) as (MP & MN & MV & _). rewrite EM in MP, MN, MV.
  assert (SQ2 : sq m2) by (destruct SQ as [SA SB]; split; intros v Hv; rewrite <- MP; [apply SA|apply SB]; rewrite MN; exact Hv).
  assert (LS : lasting gen t1 /\ In (w1, be_v1 e) (sides_of m')).
  { unfold merge_pair in EM. destruct (existsb _ _).
    - assert (IQ : In (Quad4 (be_v1 e) (be_v2 e) w2 w1) (elements m')).
      { rewrite <- EM. unfold elements. apply in_or_app. right. cbn [add_quad ms_quads]. rewrite map_app. apply in_or_app. right. left. reflexivity. }
      split; [|apply (side_in _ _ _ IQ); cbn; tauto]. apply (pair_lasting m' _ t1 LT IQ). eexists. split; [left; reflexivity|]. cbn. auto.
    - assert (IT : In (Tri3 (tr_v1 t1) (tr_v2 t1) (tr_v3 t1)) (elements m')).
      { rewrite <- EM. apply (lay_elements _ _ L2). apply (gen_element m1 (activated t1)). apply (Permutation_in _ (Permutation_sym G1)). left. reflexivity. }
      split; [|apply (side_in _ _ _ IT); rewrite V1; cbn; tauto]. apply (pair_lasting m' _ t1 LT IT). eexists. split; [left; reflexivity|]. cbn. auto. }
  destruct LS as [LA1 SD1].
  assert (KP1 : keeps m1 m').
  { intros v Hv. rewrite MP. apply (ly_keeps _ _ L2). exact Hv. }
  assert (IV1 : incl (ms_verts m1) (ms_verts m')) by (rewrite MV; apply (ly_verts _ _ L2)).
  destruct (update_way _ _ _ _ _ _ P ST1 (lay_sq _ _ _ L2 SQ2) (BF1 LA1 IV1 KP1)) as [P1 A1].
  (* the second triangle lies on the diagonal *)
  assert (SD : In (be_v2 e, w1) (sides_of m1)).
  { apply (side_in m1 (Tri3 (tr_v1 t1) (tr_v2 t1) (tr_v3 t1))); [|rewrite V2; cbn; tauto].
    apply (gen_element m1 (activated t1)). apply (Permutation_in _ (Permutation_sym G1)). left. reflexivity. }
  destruct (way_directed m1 (be_v2 e) w1 dg P1 SD (or_intror GD)) as (Id & D1 & D2).
  destruct (update_base scale valid placed qual m1 _ _ _ m2 t2 dg (proj1 B1) ST2 (find_own dg _ (wf_eid _ (proj1 B1)) Id)) as [U1 U2].
  rewrite D1 in U1. rewrite D2 in U2.
  assert (LS2 : lasting gen t2 /\ In (be_v2 e, w2) (sides_of m')).
  { unfold merge_pair in EM. destruct (existsb _ _).
    - assert (IQ : In (Quad4 (be_v1 e) (be_v2 e) w2 w1) (elements m')).
      { rewrite <- EM. unfold elements. apply in_or_app. right. cbn [add_quad ms_quads]. rewrite map_app. apply in_or_app. right. left. reflexivity. }
      split; [|apply (side_in _ _ _ IQ); cbn; tauto]. apply (pair_lasting m' _ t2 LT IQ). eexists. split; [right; left; reflexivity|]. cbn. auto.
    - assert (IT : In (Tri3 (tr_v1 t2) (tr_v2 t2) (tr_v3 t2)) (elements m')).
      { rewrite <- EM. apply (gen_element m2 (activated t2)). apply (Permutation_in _ (Permutation_sym G2)). left. reflexivity. }
      split; [|apply (side_in _ _ _ IT); rewrite U2; cbn; tauto]. apply (pair_lasting m' _ t2 LT IT). eexists. split; [left; reflexivity|]. cbn. auto. }
  destruct LS2 as [LA2 SD2].
  assert (PG : Permutation (generated m2) (activated t2 :: activated t1 :: generated m)) by (eapply Permutation_trans; [exact G2|apply perm_skip; exact G1]).
  assert (BF2 : before m2).
  { constructor.
    - intros v J. rewrite <- MP. apply (lt_pos _ LT). rewrite MV. exact J.
    - intros v J. apply (lt_verts _ LT). rewrite MV. exact J.
    - intros t J. apply (Permutation_in _ PG) in J. destruct J as [<-|[<-|J]]; [exact LA2|exact LA1|]. apply (bf_gen _ _ _ _ (lasts_before _ (lasts_back m m' BO LY LT)) t J). }
  destruct (update_way _ _ _ _ _ _ P1 ST2 SQ2 BF2) as [P2 A2].
  assert (RES : partway m' /\ after m m').
  { rewrite <- EM. apply merge_way; auto.
    - exact (after_trans _ _ _ A1 A2).
    - rewrite Q2. exact Q1.
    - rewrite EM. apply LY. }
  split; [apply RES|]. split; [apply RES|]. split; intros w E; injection E as <-; assumption.
Qed.

(* ---- the elements of a layer ---- *)
(* the sides at the ends of a cell that neighbouring cells have in common *)
Definition cell_sides (m : mstate) (x : lcell) : Prop :=
  (forall w, lc_v1 x = Some w -> In (w, be_v1 (lc_e x)) (sides_of m)) /\ (forall w, lc_v2 x = Some w -> In (be_v2 (lc_e x), w) (sides_of m)).
Lemma cell_sides_lay m m' x : lay m m' -> cell_sides m x -> cell_sides m' x.
Proof.
  intros L [A B]. split; intros w E; [specialize (A w E)|specialize (B w E)]; [apply in_flat_map in A; destruct A as (s & I & J)|apply in_flat_map in B; destruct B as (s & I & J)];
    apply (side_in _ s _ (lay_elements _ _ L s I) J).
Qed.
Lemma layer_way m0 cs : forall m m' cs', lay m0 m -> partway m -> (forall x, In x cs -> kept_edge m0 (lc_e x) /\ cell_ok m x /\ cell_sides m x) ->
  create_layer m cs = Ok (m', cs') -> sq m' -> lasts_st m' -> partway m' /\ after m m' /\ (forall x, In x cs' -> cell_sides m' x).
Proof.
  induction cs as [|x cs IH]; intros m m' cs' O P HC H SQ LT; cbn [QLayerModel.create_layer] in H.
  - injection H as <- <-. split; [exact P|]. split; [apply after_refl|intros x []].
  - destruct (HC x (or_introl eq_refl)) as (Ic & Cc & Sc).
    destruct (find_edge (be_id (lc_e x)) (ms_front m)) as [f|] eqn:FE.
    + assert (f = lc_e x) by (eapply find_kept; eassumption). subst f.
      destruct (create_element m (lc_e x) (lc_p1 x) (lc_p2 x)) as [[m1 [o1 o2]]| |] eqn:E; try discriminate. cbn [obind fst snd] in H.
      destruct (create_layer m1 cs) as [[m2 r]| |] eqn:E2; try discriminate. cbn [obind fst snd] in H. injection H as <- <-.
      destruct (find_edge_in _ _ _ FE) as [Ie _].
      destruct (element_lay _ _ _ _ _ _ _ _ _ _ _ _ _ (partway_ok m P) Ie E) as (O1 & L1 & L2).
      assert (HC1 : forall y, In y cs -> kept_edge m0 (lc_e y) /\ cell_ok m1 y).
      { intros y Hy. destruct (HC y (or_intror Hy)) as (X & Y & _). split; [exact X|]. eapply cell_onward; [apply O1|exact Y]. }
      destruct (layer_lay scale valid placed qual norm query m0 cs m1 m2 r (lay_trans _ _ _ O O1) HC1 E2) as (O2 & _).
      destruct (element_way m (lc_e x) _ _ m1 o1 o2 P Ie E (lay_sq _ _ _ O2 SQ) (lasts_back _ _ (ly_ok _ _ O1) O2 LT)) as (P1 & A1 & X1 & X2).
      destruct (IH m1 m2 r (lay_trans _ _ _ O O1) P1) as (P2 & A2 & X); try assumption.
      { intros y Hy. destruct (HC1 y Hy) as [Y1 Y2]. split; [exact Y1|]. split; [exact Y2|]. destruct (HC y (or_intror Hy)) as (_ & _ & Z). exact (cell_sides_lay _ _ _ O1 Z). }
      split; [exact P2|]. split; [exact (after_trans _ _ _ A1 A2)|].
      intros y [<-|Hy]; [|exact (X y Hy)]. apply (cell_sides_lay _ _ _ O2). split; assumption.
    + destruct (create_layer m cs) as [[m2 r]| |] eqn:E2; try discriminate. cbn [obind fst snd] in H. injection H as <- <-.
      destruct (IH m m2 r O P (fun y Hy => HC y (or_intror Hy)) E2 SQ LT) as (P2 & A2 & X).
      destruct (layer_lay scale valid placed qual norm query m0 cs m m2 r O (fun y Hy => conj (proj1 (HC y (or_intror Hy))) (proj1 (proj2 (HC y (or_intror Hy))))) E2) as (O2 & _).
      split; [exact P2|]. split; [exact A2|]. intros y [<-|Hy]; [|exact (X y Hy)]. exact (cell_sides_lay _ _ _ O2 Sc).
Qed.
End LayWay.
