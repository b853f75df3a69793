(* C35, C36: smoothing. *)
From Coq Require Import Lia Permutation Lqa.
From Verif Require Import Base GeomModel FacetModel UtilModel GeomSpec GeomProofs UtilProofs BdryModel AdvanceModel Chain AdvanceProofs MeshModel MeshSpec MeshProofs MeshProps
  QRefineModel QRefineSpec QRefineShape QRefineConf QRefineProps CleanSpec MergeProofs CleanProofs CleanCheck CleanPass GlueProofs SmoothModel SmoothSpec SmoothProofs.

(* [run] covers every smoother of the code: [smooth_with] (Laplace, torsion) and
   [smooth_mixed] are runs with a schedule of rules and step sizes. *)

(* C35: only vertices that may move are moved, to positions inside of the domain;
   nothing but positions and facet pointers changes *)
Theorem C35_moves s m ks m' : run s m ks = Ok m' -> same_structure m m' /\
  (forall v, pinned (sm_layers s) m v \/ ~ In v (mh_verts m) -> mh_pos m' v = mh_pos m v) /\
  (forall v, mh_pos m' v <> mh_pos m v -> sm_inside s (mh_pos m' v) = true).
Proof.
  intros E. assert (R := run_reached s m ks m' E). destruct (rc_form _ _ _ R) as [p F]. split; [|split].
  - destruct (map_bare m) as [B1 B2]. rewrite F. constructor; cbn [set_pos mh_verts mh_quads mh_tris mh_intr mh_bdry mh_prop mh_next mh_area mh_col setup_facet_connectivity]; try reflexivity; assumption.
  - intros v H. exact (rc_still _ _ _ R v H).
  - intros v N. destruct (rc_in _ _ _ R v) as [H|H]; [contradiction|exact H].
Qed.
(* counter-clockwise triangles stay so, exactly and by the tolerance of the code *)
Theorem C35_triangles s m ks m' : run s m ks = Ok m' -> forall f a b c, In f (facets m) -> fa_sh f = Tri3 a b c ->
  In f (facets m') /\ (left_turn (mh_pos m) a b c -> left_turn (mh_pos m') a b c) /\ (clear_turn (mh_pos m) a b c -> clear_turn (mh_pos m') a b c).
Proof.
  intros E f a b c Hf Hs. assert (R := run_reached s m ks m' E). split; [|exact (rc_tri _ _ _ R f a b c Hf Hs)].
  destruct (rc_form _ _ _ R) as [p ->]. exact Hf.
Qed.
(* of a quad only the two corners that are checked are protected *)
Theorem C35_quads_partial s m ks m' : run s m ks = Ok m' -> forall f a b c d, In f (facets m) -> fa_sh f = Quad4 a b c d ->
  In f (facets m') /\ (left_turn (mh_pos m) a b c -> left_turn (mh_pos m) b c d -> left_turn (mh_pos m') a b c /\ left_turn (mh_pos m') b c d) /\
  (clear_turn (mh_pos m) a b c -> clear_turn (mh_pos m) b c d -> clear_turn (mh_pos m') a b c /\ clear_turn (mh_pos m') b c d).
Proof.
  intros E f a b c d Hf Hs. assert (R := run_reached s m ks m' E). split; [|destruct (rc_quad _ _ _ R f a b c d Hf Hs); auto].
  destruct (rc_form _ _ _ R) as [p ->]. exact Hf.
Qed.
(* the covered area does not change *)
Theorem C35_area s m ks m' : conforming m -> boundary_unset m -> boundary_marked m -> run s m ks = Ok m' -> covered m' == covered m.
Proof.
  intros C U B E. assert (R := run_reached s m ks m' E). set (m0 := setup_facet_connectivity m) in *. destruct (C30_again m C U) as [C0 _]. fold m0 in C0.
  change (covered m) with (covered m0). destruct (rc_form _ _ _ R) as [p F]. assert (CM : conforming m') by (rewrite F; apply set_pos_conforming; exact C0).
  rewrite (covered_boundary m' CM), (covered_boundary m0 C0). replace (mh_bdry m') with (mh_bdry m0) by (rewrite F; reflexivity).
  apply esum_ext. intros a b H. apply in_map_iff in H. destruct H as [e [He H]]. injection He as <- <-. unfold cr.
  unfold m0 in H. cbn [setup_facet_connectivity mh_bdry] in H. apply in_map_iff in H. destruct H as [x [<- Hx]]. destruct (B x Hx) as [B1 B2].
  assert (Y := connect_bdry_bare m x). apply bare_fields in Y. destruct Y as [_ [Y1 [Y2 _]]]. rewrite Y1, Y2.
  rewrite !(rc_still _ _ _ R) by (left; right; left; assumption). reflexivity.
Qed.
(* nothing is undefined on a valid mesh whose domain fits into the quadtrees *)
Theorem C35_defined s m ks : sound m -> domain_fits (sm_inside s) m -> exists m', run s m ks = Ok m'.
Proof.
  intros S D. assert (S0 := setup_sound m S). set (m0 := setup_facet_connectivity m) in *. unfold run. fold m0.
  destruct (directions_ok s m0 (sd_fits _ S0)) as [ds ->]. cbn [obind].
  apply (iterations_ok s m0 (sd_conf _ S0) (sd_addr _ S0) (sd_fits _ S0) D); [rewrite app_length, map_length; lia|apply reached_refl].
Qed.
(* the mesh stays valid as long as no element is turned over ... *)
Theorem C35_sound s m ks m' : sound m -> domain_fits (sm_inside s) m -> run s m ks = Ok m' -> positive m' -> sound m'.
Proof.
  intros S D E P. assert (S0 := setup_sound m S). assert (R := run_reached s m ks m' E). assert (F := reached_fits s _ m' (sd_fits _ S0) D R). destruct (rc_form _ _ _ R) as [p X]. subst m'.
  destruct S0 as [C0 A0 F0 N0 P0 U0]. constructor; [apply set_pos_conforming; exact C0|apply set_pos_addressed; exact A0|exact F|exact N0|exact P|exact U0].
Qed.
Lemma tri_turn pos f a b c : fa_sh f = Tri3 a b c -> (0 < fa_area pos f <-> left_turn pos a b c).
Proof. intros E. unfold fa_area, left_turn, tri_area, area2, vcross, vsub. rewrite E. cbn [vx vy]. split; intros H; lra. Qed.
(* ... which is guaranteed for triangles *)
Theorem C35_triangle_mesh s m ks m' : sound m -> mh_quads m = [] -> domain_fits (sm_inside s) m -> run s m ks = Ok m' -> sound m'.
Proof.
  intros S NQ D E. apply (C35_sound s m ks m' S D E). intros f Hf. destruct (C35_moves s m ks m' E) as [SS _]. unfold facets in Hf. rewrite (ss_quads _ _ SS), (ss_tris _ _ SS), NQ in Hf. cbn [app] in Hf.
  destruct (cf_tris _ (sd_conf _ S) f Hf) as [a [b [c Hs]]]. assert (Hf' : In f (facets m)) by (apply in_or_app; auto). apply (tri_turn _ f a b c Hs).
  apply (C35_triangles s m ks m' E f a b c Hf' Hs). apply (tri_turn _ f a b c Hs). exact (sd_pos _ S f Hf').
Qed.

(* ---------- cases ---------- *)
Definition loop_of (ps : list vec2) : list (vec2 * vec2) := combine ps (tl ps ++ firstn 1 ps).
Definition plain (ps : list vec2) (layers : bool) : smoother :=
  SM (domain_inside [Bd EXTERIOR (loop_of ps) 0]) layers (fun es _ => hd_error es) (fun d => d) (fun d => vx d).
(* a square cut into four triangles with the common corner away from the middle *)
Definition fan_mesh (pr : N) : mesh :=
  MH (ptl [V2 0 0; V2 4 0; V2 4 4; V2 0 4; V2 2 1]) (fun v => if Nat.eqb v 4 then pr else 8%N) [0;1;2;3;4]%nat []
     [FA 5 (Tri3 0 1 4) 1 true; FA 6 (Tri3 1 2 4) 1 true; FA 7 (Tri3 2 3 4) 1 true; FA 8 (Tri3 3 0 4) 1 true]
     [fresh_edge 9 0 4 (-1); fresh_edge 10 1 4 (-1); fresh_edge 11 2 4 (-1); fresh_edge 12 3 4 (-1)]
     [fresh_edge 13 0 1 1; fresh_edge 14 1 2 1; fresh_edge 15 2 3 1; fresh_edge 16 3 0 1] (fun _ _ => None) 17 16 1 100.
Definition square4 : list vec2 := [V2 0 0; V2 4 0; V2 4 4; V2 0 4].
Definition read (o : outcome mesh) (v : nat) : option vec2 :=
  match o with Ok m => Some (V2 (Qred (vx (mh_pos m v))) (Qred (vy (mh_pos m v)))) | _ => None end.
Lemma eqd_near a b : EQd a b = true -> -5 <= b <= 5 -> -6 <= a <= 6.
Proof.
  unfold EQd, EQtol. assert (D : dbl_min <= 1) by (unfold dbl_min; vm_compute; discriminate). assert (E0 : 0 <= dbl_eps <= 1 # 100) by (split; vm_compute; discriminate).
  generalize dbl_min dbl_eps D E0. intros u w DU DW. destruct (Qleb (ABSq (a - b)) u) eqn:E; intros H B.
  - apply Qleb_true in E. unfold ABSq in E. destruct (Qltb 0 (a - b)) eqn:S; [apply Qltb_true in S|apply Qltb_false in S]; lra.
  - apply Qleb_true in H. clear E. unfold ABSq, Qmaxb in H.
    repeat match type of H with context [if ?c then _ else _] => destruct c eqn:?Z end;
      repeat match goal with Z : Qltb _ _ = true |- _ => apply Qltb_true in Z | Z : Qltb _ _ = false |- _ => apply Qltb_false in Z end; nra.
Qed.
Lemma square_fits ly m : mh_scale m = 100 -> domain_fits (sm_inside (plain square4 ly)) m.
Proof.
  intros SC [x y]. unfold plain, sm_inside, domain_inside, is_inside. cbn [fold_left bd_type bd_edges andb loop_of square4 combine tl app firstn length Nat.ltb Nat.leb inside_loop].
  intros H. rewrite SC. assert (B : -6 <= x <= 6 /\ -6 <= y <= 6).
  2:{ rewrite !in_square_iff. unfold front_scale. cbn [vx vy]. lra. }
  assert (X : forall a b, touches (V2 x y) a b = true -> 0 <= vx a <= 4 -> 0 <= vy a <= 4 -> 0 <= vx b <= 4 -> 0 <= vy b <= 4 ->
     (vy a == vy b -> vx a - vx b == 4 \/ vx b - vx a == 4) -> (vy a == vy b \/ vx a == vx b /\ vy a == 0 /\ vy b == 4 \/ vx a == vx b /\ vy b == 0 /\ vy a == 4) -> -6 <= x <= 6 /\ -6 <= y <= 6).
  { clear. intros [ax ay] [bx by_] H A1 A2 B1 B2 HZ HV. cbn [vx vy] in *. unfold touches in H. rewrite !orb_true_iff, !andb_true_iff in H. cbn [vx vy] in H. destruct H as [[H|H]|[[H1 H2] H]].
    - unfold veqb in H. apply andb_true_iff in H. rewrite !Qeq_bool_iff in H. cbn [vx vy] in H. lra.
    - unfold veqb in H. apply andb_true_iff in H. rewrite !Qeq_bool_iff in H. cbn [vx vy] in H. lra.
    - assert (Y := eqd_near y by_ H1 ltac:(lra)). split; [|exact Y]. destruct HV as [HV|HV].
      + unfold in_on_segment in H. destruct (negb _); [discriminate|]. cbn [vx vy vsub vdot vnorm2] in H. unfold vdot, vnorm2, vdot in H. cbn [vx vy vsub] in H.
        apply andb_true_iff in H. rewrite !Qleb_true in H. destruct H as [T1 T2]. destruct (HZ HV) as [Z|Z]; [assert (bx == ax - 4) by lra|assert (bx == ax + 4) by lra]; clear - T1 T2 HV A1 B1 A2 B2 H; nra.
      + exfalso. clear - H1 H2 HV. unfold EQd, EQtol in *. assert (D : dbl_min <= 1 # 100) by (unfold dbl_min; vm_compute; discriminate). assert (E0 : 0 <= dbl_eps <= 1 # 100) by (split; vm_compute; discriminate).
        revert H1 H2. generalize dbl_min dbl_eps D E0. intros u w DU DW.
        assert (K : forall c, 0 <= c <= 4 -> (if Qleb (ABSq (y - c)) u then true else Qleb (ABSq (y - c)) (Qmaxb (ABSq y) (ABSq c) * w)) = true -> -1 <= y - c <= 1).
        { intros c C H. destruct (Qleb (ABSq (y - c)) u) eqn:E.
          - apply Qleb_true in E. unfold ABSq in E. destruct (Qltb 0 (y - c)) eqn:S; [apply Qltb_true in S|apply Qltb_false in S]; lra.
          - apply Qleb_true in H. clear E. unfold ABSq, Qmaxb in H.
            repeat match type of H with context [if ?c then _ else _] => destruct c eqn:?Z end;
              repeat match goal with Z : Qltb _ _ = true |- _ => apply Qltb_true in Z | Z : Qltb _ _ = false |- _ => apply Qltb_false in Z end; nra. }
        intros H1 H2. apply (K by_ ltac:(lra)) in H1. apply (K ay ltac:(lra)) in H2. lra. }
  assert (CH : forall a b, vy a == vy b -> crosses (V2 x y) a b = false).
  { clear. intros a b H. unfold crosses. cbn [vx vy]. apply andb_false_iff. left. apply orb_false_iff. split; apply andb_false_iff;
      (destruct (Qlt_le_dec (vy b) y); [right; apply Qleb_false|left; apply Qltb_false]; lra) || (destruct (Qlt_le_dec (vy a) y); [right; apply Qleb_false|left; apply Qltb_false]; lra). }
  assert (CV : forall a b, crosses (V2 x y) a b = true -> vx a == vx b -> 0 <= vy a <= 4 -> 0 <= vy b <= 4 -> 0 <= y <= 4 /\ vx a < x).
  { clear. intros a b H E A B. unfold crosses in H. cbn [vx vy] in H. rewrite andb_true_iff, orb_true_iff, !andb_true_iff, !Qltb_true, !Qleb_true in H. destruct H as [H1 H2]. split; [lra|].
    assert (Z : vx a - vx b == 0) by lra. rewrite Z in H2. lra. }
  destruct (touches (V2 x y) (V2 0 0) (V2 4 0)) eqn:T1; [apply (X _ _ T1); cbn [vx vy]; lra|].
  rewrite (CH (V2 0 0) (V2 4 0)) in H by (cbn [vy]; lra).
  destruct (touches (V2 x y) (V2 4 0) (V2 4 4)) eqn:T2; [apply (X _ _ T2); cbn [vx vy]; lra|].
  destruct (touches (V2 x y) (V2 4 4) (V2 0 4)) eqn:T3; [apply (X _ _ T3); cbn [vx vy]; lra|].
  rewrite (CH (V2 4 4) (V2 0 4)) in H by (cbn [vy]; lra).
  destruct (touches (V2 x y) (V2 0 4) (V2 0 0)) eqn:T4; [apply (X _ _ T4); cbn [vx vy]; lra|].
  destruct (crosses (V2 x y) (V2 0 4) (V2 0 0)) eqn:C4.
  - destruct (CV _ _ C4) as [Y Z]; cbn [vx vy] in *; try lra. destruct (crosses (V2 x y) (V2 4 0) (V2 4 4)) eqn:C2; [discriminate|].
    split; [|lra]. split; [lra|]. destruct (Qlt_le_dec 4 x) as [L|L]; [|lra]. exfalso. unfold crosses in C2, C4. cbn [vx vy] in C2, C4.
    apply andb_true_iff in C4. destruct C4 as [C4 _]. rewrite orb_true_iff, !andb_true_iff, !Qltb_true, !Qleb_true in C4.
    apply andb_false_iff in C2. destruct C2 as [C2|C2].
    + apply orb_false_iff in C2. destruct C2 as [_ C2]. apply andb_false_iff in C2. destruct C2 as [C2|C2]; [apply Qltb_false in C2|apply Qleb_false in C2]; lra.
    + apply Qltb_false in C2. assert (Z0 : 4 - 4 == 0) by lra. rewrite Z0 in C2. lra.
  - destruct (crosses (V2 x y) (V2 4 0) (V2 4 4)) eqn:C2; [|discriminate]. exfalso. destruct (CV _ _ C2) as [Y Z]; cbn [vx vy] in *; try lra.
    unfold crosses in C2, C4. cbn [vx vy] in C2, C4. apply andb_true_iff in C2. destruct C2 as [C2 _]. rewrite orb_true_iff, !andb_true_iff, !Qltb_true, !Qleb_true in C2.
    apply andb_false_iff in C4. destruct C4 as [C4|C4].
    + apply orb_false_iff in C4. destruct C4 as [C4 _]. apply andb_false_iff in C4. destruct C4 as [C4|C4]; [apply Qltb_false in C4|apply Qleb_false in C4]; lra.
    + apply Qltb_false in C4. assert (Z0 : 0 - 0 == 0) by lra. rewrite Z0 in C4. lra.
Qed.
Lemma ok_such {A} (o : outcome A) (b : A -> bool) : match o with Ok x => b x | _ => false end = true -> exists x, o = Ok x /\ b x = true.
Proof. destruct o as [x| |]; [exists x; auto|discriminate|discriminate]. Qed.
Lemma read_such o v p : read o v = Some p -> exists m, o = Ok m /\ vx (mh_pos m v) == vx p /\ vy (mh_pos m v) == vy p.
Proof.
  destruct o as [m| |]; [|discriminate|discriminate]. cbn [read]. intros H. injection H as <-. exists m. cbn [vx vy].
  split; [reflexivity|]. split; symmetry; apply Qred_correct.
Qed.
Lemma sq_nonneg (x : Q) : 0 <= x * x.
Proof. nra. Qed.
Lemma fan_sound : sound (fan_mesh 0).
Proof. apply soundb_sound. vm_compute. reflexivity. Qed.
Lemma fan_marked : boundary_marked (fan_mesh 0).
Proof. intros e He. cbn [fan_mesh mh_bdry In] in He. repeat destruct He as [He|He]; try contradiction; subst e; split; reflexivity. Qed.
(* two Laplace iterations with the default settings; the second one has the
   opposite sign and moves the vertex back *)
Example C35_fan_case : sound (fan_mesh 0) /\ mh_quads (fan_mesh 0) = [] /\ boundary_marked (fan_mesh 0) /\ domain_fits (sm_inside (plain square4 false)) (fan_mesh 0) /\
  ~ pinned false (fan_mesh 0) 4 /\ pinned false (fan_mesh 2) 4 /\
  read (smooth_with (plain square4 false) laplace (3 # 4) 1 1 (fan_mesh 0)) 4 = Some (V2 2 (7 # 4)) /\
  read (smooth_with (plain square4 false) laplace (3 # 4) 1 2 (fan_mesh 0)) 4 = Some (V2 2 (25 # 16)) /\
  read (smooth_with (plain square4 false) laplace (3 # 4) 1 1 (fan_mesh 2)) 4 = Some (V2 2 1) /\
  read (smooth_mixed (plain square4 false) laplace (1 # 2) 1 1 (fan_mesh 0)) 4 = Some (V2 2 (7 # 4)).
Proof.
  split; [exact fan_sound|]. split; [reflexivity|]. split; [exact fan_marked|]. split; [apply square_fits; reflexivity|].
  split; [intros [H|[H|[H _]]]; discriminate|]. split; [right; right; split; reflexivity|].
  split; [vm_compute; reflexivity|]. split; [vm_compute; reflexivity|]. split; [vm_compute; reflexivity|]. vm_compute. reflexivity.
Qed.
(* a quad and two triangles around an interior vertex close to a diagonal *)
Definition kite_mesh : mesh :=
  MH (ptl [V2 0 0; V2 4 0; V2 (5 # 2) (5 # 2); V2 0 4; V2 (21 # 10) (21 # 10)]) (fun v => if Nat.eqb v 4 then 0%N else 8%N) [0;1;2;3;4]%nat
     [FA 5 (Quad4 3 0 1 4) 1 true] [FA 6 (Tri3 1 2 4) 1 true; FA 7 (Tri3 2 3 4) 1 true]
     [fresh_edge 9 1 4 (-1); fresh_edge 10 2 4 (-1); fresh_edge 11 3 4 (-1)]
     [fresh_edge 13 0 1 1; fresh_edge 14 1 2 1; fresh_edge 15 2 3 1; fresh_edge 16 3 0 1] (fun _ _ => None) 17 16 1 100.
Definition kite : list vec2 := [V2 0 0; V2 4 0; V2 (5 # 2) (5 # 2); V2 0 4].
(* As stated C35 is FALSE: a convex quad becomes concave *)
Theorem C35_convex_refuted : exists s m m' f, sound m /\ smooth_with s laplace (3 # 4) 1 1 m = Ok m' /\
  In f (facets m) /\ strictly_convex (mh_pos m) f /\ ~ strictly_convex (mh_pos m') f.
Proof.
  set (f := FA 5 (Quad4 3 0 1 4) 1 true).
  destruct (ok_such (smooth_with (plain kite false) laplace (3 # 4) 1 1 kite_mesh) (fun m' => Qleb (area2 (mh_pos m' 1%nat) (mh_pos m' 4%nat) (mh_pos m' 3%nat)) 0)) as [m' [E T]]; [vm_compute; reflexivity|].
  exists (plain kite false), kite_mesh, m', f. split; [apply soundb_sound; vm_compute; reflexivity|]. split; [exact E|]. split; [cbn; auto|]. split.
  - unfold strictly_convex, f, fa_sh. split; [|split; [|split]]; vm_compute; reflexivity.
  - unfold strictly_convex, f, fa_sh. intros [_ [_ [H _]]]. apply Qleb_true in T. lra.
Qed.

(* ---------- C36 ---------- *)
(* the direction that is read for a vertex is always the zero vector *)
Lemma push_prefix s m vs : forall acc dirs, push_directions s m vs acc = Ok dirs -> exists ds, dirs = acc ++ ds.
Proof.
  induction vs as [|v vs IH]; intros acc dirs; cbn [push_directions]; [intros E; injection E as <-; exists []; rewrite app_nil_r; reflexivity|].
  destruct (direction s m v) as [d| |]; cbn [obind]; try discriminate. intros E. destruct (IH _ _ E) as [ds ->]. exists (d ++ ds). rewrite app_assoc. reflexivity.
Qed.
Theorem C36_directions_zero s m dirs : directions s m = Ok dirs -> forall i, (i < length (mh_verts m))%nat -> nth_error dirs i = Some (V2 0 0).
Proof.
  intros E i Hi. assert (X : exists ds, dirs = map (fun _ => V2 0 0) (mh_verts m) ++ ds).
  { unfold directions in E. destruct (sm_layers s); [exact (push_prefix _ _ _ _ _ E)|]. injection E as <-. exists []. rewrite app_nil_r. reflexivity. }
  destruct X as [ds ->]. rewrite nth_error_app1 by (rewrite map_length; exact Hi). rewrite nth_error_map. destruct (nth_error (mh_verts m) i) eqn:N; [reflexivity|]. apply nth_error_None in N. lia.
Qed.
(* the closest point of an edge, in exact arithmetic *)
Definition foot (pos : nat -> vec2) (e : medge) (p q : vec2) : Prop :=
  (exists t, 0 <= t <= 1 /\ veq q (vadd (pos (ed_1 e)) (vscale t (vsub (pos (ed_2 e)) (pos (ed_1 e)))))) /\
  forall t, 0 <= t <= 1 -> vnorm2 (vsub q p) <= vnorm2 (vsub (vadd (pos (ed_1 e)) (vscale t (vsub (pos (ed_2 e)) (pos (ed_1 e))))) p).
(* As stated C36 is FALSE: with quad layer smoothing a layer vertex is moved
   straight away from the closest boundary edge *)
Theorem C36_refuted : exists s m m' v e q, sound m /\ sm_layers s = true /\ has_property (mh_prop m v) v_in_quad_layer = true /\
  In e (mh_bdry m) /\ foot (mh_pos m) e (mh_pos m v) q /\
  (forall g t, In g (mh_bdry m) -> 0 <= t <= 1 -> vnorm2 (vsub q (mh_pos m v)) <= vnorm2 (vsub (vadd (mh_pos m (ed_1 g)) (vscale t (vsub (mh_pos m (ed_2 g)) (mh_pos m (ed_1 g))))) (mh_pos m v))) /\
  sm_nearest s (mh_bdry m) (mh_pos m v) = Some e /\
  smooth_with s laplace (3 # 4) 1 1 m = Ok m' /\ ~ vdot (vsub (mh_pos m' v) (mh_pos m v)) (vsub q (mh_pos m v)) == 0.
Proof.
  destruct (read_such (smooth_with (plain square4 true) laplace (3 # 4) 1 1 (fan_mesh 2)) 4 (V2 2 (7 # 4))) as [m' [E [X1 X2]]]; [vm_compute; reflexivity|].
  assert (ALL : forall g t, In g (mh_bdry (fan_mesh 2)) -> 0 <= t <= 1 -> 1 <= vnorm2 (vsub (vadd (mh_pos (fan_mesh 2) (ed_1 g)) (vscale t (vsub (mh_pos (fan_mesh 2) (ed_2 g)) (mh_pos (fan_mesh 2) (ed_1 g))))) (V2 2 1))).
  { intros g t Hg Ht. cbn [fan_mesh mh_bdry In] in Hg. repeat destruct Hg as [Hg|Hg]; try contradiction; subst g; cbn [fan_mesh mh_pos fresh_edge ed_1 ed_2]; unfold ptl; cbn [nth]; unfold vnorm2, vdot, vsub, vadd, vscale; cbn [vx vy]; ring_simplify; assert (S1 := sq_nonneg (t - (1 # 2))); assert (S2 := sq_nonneg (t - (1 # 4))); assert (S3 := sq_nonneg (t - (3 # 4))); assert (S4 := sq_nonneg t); lra. }
  exists (plain square4 true), (fan_mesh 2), m', 4%nat, (fresh_edge 13 0 1 1), (V2 2 0).
  assert (N1 : vnorm2 (vsub (V2 2 0) (mh_pos (fan_mesh 2) 4%nat)) == 1) by (vm_compute; reflexivity).
  split; [apply soundb_sound; vm_compute; reflexivity|]. split; [reflexivity|]. split; [reflexivity|]. split; [cbn; auto|].
  split; [split|].
  - exists (1 # 2). split; [lra|]. split; vm_compute; reflexivity.
  - intros t Ht. rewrite N1. apply (ALL (fresh_edge 13 0 1 1) t); [cbn; auto|exact Ht].
  - split; [intros g t Hg Ht; rewrite N1; exact (ALL g t Hg Ht)|]. split; [reflexivity|]. split; [exact E|].
    unfold vdot, vsub. cbn [vx vy fan_mesh mh_pos]. unfold ptl. cbn [nth vx vy]. cbn [vx vy] in X1, X2. rewrite X1, X2. vm_compute. discriminate.
Qed.
(* what the code does with a direction: if it is a unit vector, the displacement
   has no component along it *)
Theorem C36_projection_partial s dirs r eps m i v nbrs d m' : smooth_vertex s dirs r eps m (i, (v, nbrs)) = Ok m' ->
  has_property (mh_prop m v) v_in_quad_layer = true -> nth_error dirs i = Some d -> vnorm2 d == 1 ->
  vdot (vsub (mh_pos m' v) (mh_pos m v)) d == 0.
Proof.
  intros E Q N U. assert (ZZ : forall p, p = mh_pos m v -> vdot (vsub p (mh_pos m v)) d == 0) by (intros p ->; unfold vdot, vsub; cbn [vx vy]; ring).
  unfold smooth_vertex in E. destruct (may_move s m v); cbn [negb] in E; [|injection E as <-; apply ZZ; reflexivity].
  destruct (r (mh_pos m) v nbrs) as [delta|]; [|injection E as <-; apply ZZ; reflexivity]. rewrite Q, N in E. cbn [obind] in E.
  destruct (sm_inside s _); [|injection E as <-; apply ZZ; reflexivity]. unfold set_vertex in E. destruct (located m v); cbn [obind] in E; [|discriminate].
  destruct (position_ok s _ v).
  - injection E as <-. cbn [set_pos mh_pos]. rewrite put_same. unfold vnorm2, vdot, vsub, vadd, vscale in *. cbn [vx vy] in *.
    transitivity (eps * (vx delta * vx d + vy delta * vy d) * (1 - (vx d * vx d + vy d * vy d))); [ring|]. rewrite U. ring.
  - destruct (located _ v); [|discriminate]. injection E as <-. apply ZZ. cbn [set_pos mh_pos]. apply put_same.
Qed.
Example C36_projection_case : exists m', smooth_vertex (plain square4 true) [V2 0 0; V2 0 0; V2 0 0; V2 0 0; V2 0 (-1)] laplace (3 # 4) (fan_mesh 2) (4%nat, (4%nat, [0; 1; 2]%nat)) = Ok m' /\
  (vx (mh_pos m' 4%nat) == 5 # 2 /\ vy (mh_pos m' 4%nat) == 1) /\ vnorm2 (V2 0 (-1)) == 1.
Proof.
  destruct (read_such (smooth_vertex (plain square4 true) [V2 0 0; V2 0 0; V2 0 0; V2 0 0; V2 0 (-1)] laplace (3 # 4) (fan_mesh 2) (4%nat, (4%nat, [0; 1; 2]%nat))) 4 (V2 (5 # 2) 1)) as [m' [E X]]; [vm_compute; reflexivity|].
  exists m'. split; [exact E|]. split; [exact X|reflexivity].
Qed.

Print Assumptions C35_moves.
Print Assumptions C35_triangles.
Print Assumptions C35_quads_partial.
Print Assumptions C35_area.
Print Assumptions C35_defined.
Print Assumptions C35_sound.
Print Assumptions C35_triangle_mesh.
Print Assumptions C35_convex_refuted.
Print Assumptions C36_directions_zero.
Print Assumptions C36_refuted.
Print Assumptions C36_projection_partial.
