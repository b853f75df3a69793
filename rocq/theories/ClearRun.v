(* Histories of the advancing front that keep the front simple: proofs for ClearProps. *)
From Coq Require Import Lqa Lia Permutation.
From Verif Require Import Base Chain GeomModel GeomSpec GeomProofs FacetModel FacetProofs UtilModel BdryModel BdrySpec
  AdvanceModel AdvanceSpec AdvanceProofs AdvanceInv AdvanceMore AdvanceGeom MeshModel WindSpec WindProofs WindMesh PolyCorner PolyProofs
  ClearSpec ClearGeom ClearWind ClearStep.
Open Scope Q_scope.

(* ---- points of a triangle are within its longest side of the centroid ---- *)
Lemma qmax_l x y : x <= Qmaxb x y.
Proof. unfold Qmaxb. destruct (Qltb y x) eqn:E; [lra|]. apply not_true_iff_false in E. rewrite Qltb_true in E. lra. Qed.
Lemma qmax_r x y : y <= Qmaxb x y.
Proof. unfold Qmaxb. destruct (Qltb y x) eqn:E; [|lra]. apply Qltb_true in E. lra. Qed.
Lemma jensen al be ga x y z : 0 <= al -> 0 <= be -> 0 <= ga -> al + be + ga == 1 ->
  (al * x + be * y + ga * z) * (al * x + be * y + ga * z) <= al * (x * x) + be * (y * y) + ga * (z * z).
Proof.
  intros A B C S.
  assert (P1 : 0 <= (al * be) * ((x - y) * (x - y))) by (apply Qmult_le_0_compat; [apply Qmult_le_0_compat; assumption|apply square_nonneg]).
  assert (P2 : 0 <= (al * ga) * ((x - z) * (x - z))) by (apply Qmult_le_0_compat; [apply Qmult_le_0_compat; assumption|apply square_nonneg]).
  assert (P3 : 0 <= (be * ga) * ((y - z) * (y - z))) by (apply Qmult_le_0_compat; [apply Qmult_le_0_compat; assumption|apply square_nonneg]).
  assert (E : al * (x * x) + be * (y * y) + ga * (z * z) ==
    (al * x + be * y + ga * z) * (al * x + be * y + ga * z) +
    ((al * be) * ((x - y) * (x - y)) + (al * ga) * ((x - z) * (x - z)) + (be * ga) * ((y - z) * (y - z))) +
    (1 - (al + be + ga)) * (al * (x * x) + be * (y * y) + ga * (z * z))) by ring.
  rewrite E, S. lra.
Qed.
Lemma third_square x y : ((x + y) * (1 # 3)) * ((x + y) * (1 # 3)) <= (2 # 9) * (x * x) + (2 # 9) * (y * y).
Proof. assert (P := square_nonneg (x - y)). lra. Qed.
Lemma corner_reach p q r m : edge_len2 p q <= m -> edge_len2 r p <= m -> vnorm2 (vsub p (tri_centroid p q r)) <= (4 # 9) * m.
Proof.
  unfold edge_len2, vnorm2, vdot, vsub, tri_centroid. cbn [vx vy]. intros A B.
  assert (X : vx p - (vx p + vx q + vx r) / 3 == - (((vx q - vx p) + - (vx p - vx r)) * (1 # 3))) by field.
  assert (Y : vy p - (vy p + vy q + vy r) / 3 == - (((vy q - vy p) + - (vy p - vy r)) * (1 # 3))) by field.
  rewrite X, Y. assert (P1 := third_square (vx q - vx p) (- (vx p - vx r))). assert (P2 := third_square (vy q - vy p) (- (vy p - vy r))). lra.
Qed.
Lemma centroid_turn p q r : veq (tri_centroid p q r) (tri_centroid q r p).
Proof. unfold veq, tri_centroid. cbn [vx vy]. split; field. Qed.
Lemma norm_veq a b c : veq b c -> vnorm2 (vsub a b) == vnorm2 (vsub a c).
Proof. intros [E1 E2]. unfold vnorm2, vdot, vsub. cbn [vx vy]. rewrite E1, E2. reflexivity. Qed.
Lemma touching_reach z p q r : 0 < det p q r -> touching z p q r -> vnorm2 (vsub z (tri_centroid p q r)) <= (4 # 9) * max_len2 p q r.
Proof.
  intros D (T1 & T2 & T3). set (m := max_len2 p q r). set (c := tri_centroid p q r).
  assert (M : edge_len2 p q <= m /\ edge_len2 q r <= m /\ edge_len2 r p <= m).
  { unfold m, max_len2. assert (A := qmax_l (edge_len2 p q) (Qmaxb (edge_len2 q r) (edge_len2 r p))). assert (B := qmax_r (edge_len2 p q) (Qmaxb (edge_len2 q r) (edge_len2 r p))).
    assert (C := qmax_l (edge_len2 q r) (edge_len2 r p)). assert (E := qmax_r (edge_len2 q r) (edge_len2 r p)). lra. }
  destruct M as (M1 & M2 & M3).
  assert (Cp : vnorm2 (vsub p c) <= (4 # 9) * m) by (apply corner_reach; assumption).
  assert (Cq : vnorm2 (vsub q c) <= (4 # 9) * m) by (unfold c; rewrite (norm_veq q _ _ (centroid_turn p q r)); apply corner_reach; assumption).
  assert (Cr : vnorm2 (vsub r c) <= (4 # 9) * m) by (unfold c; rewrite (norm_veq r _ _ (centroid_turn p q r)), (norm_veq r _ _ (centroid_turn q r p)); apply corner_reach; assumption).
  set (al := det q r z / det p q r). set (be := det r p z / det p q r). set (ga := det p q z / det p q r).
  assert (NZ : ~ det p q r == 0) by lra.
  assert (A0 : 0 <= al) by (apply Qle_shift_div_l; lra). assert (B0 : 0 <= be) by (apply Qle_shift_div_l; lra). assert (C0 : 0 <= ga) by (apply Qle_shift_div_l; lra).
  assert (S : al + be + ga == 1).
  { unfold al, be, ga. transitivity ((det q r z + det r p z + det p q z) / det p q r); [field; exact NZ|]. assert (E := det_sum p q r z).
    assert (E' : det q r z + det r p z + det p q z == det p q r) by lra. rewrite E'. field. exact NZ. }
  assert (ZX : vx z - vx c == al * (vx p - vx c) + be * (vx q - vx c) + ga * (vx r - vx c)).
  { assert (E : vx z * det p q r == det q r z * vx p + det r p z * vx q + det p q z * vx r) by (unfold det; ring).
    transitivity (al * vx p + be * vx q + ga * vx r - (al + be + ga) * vx c); [|ring]. rewrite S.
    unfold al, be, ga. transitivity ((vx z * det p q r) / det p q r - vx c); [field; exact NZ|]. rewrite E. field. exact NZ. }
  assert (ZY : vy z - vy c == al * (vy p - vy c) + be * (vy q - vy c) + ga * (vy r - vy c)).
  { assert (E : vy z * det p q r == det q r z * vy p + det r p z * vy q + det p q z * vy r) by (unfold det; ring).
    transitivity (al * vy p + be * vy q + ga * vy r - (al + be + ga) * vy c); [|ring]. rewrite S.
    unfold al, be, ga. transitivity ((vy z * det p q r) / det p q r - vy c); [field; exact NZ|]. rewrite E. field. exact NZ. }
  unfold vnorm2, vdot, vsub in *. cbn [vx vy] in *. rewrite ZX, ZY.
  assert (J1 := jensen al be ga (vx p - vx c) (vx q - vx c) (vx r - vx c) A0 B0 C0 S).
  assert (J2 := jensen al be ga (vy p - vy c) (vy q - vy c) (vy r - vy c) A0 B0 C0 S).
  clearbody al be ga c m. clear - A0 B0 C0 S Cp Cq Cr J1 J2.
  set (np := (vx p - vx c) * (vx p - vx c) + (vy p - vy c) * (vy p - vy c)) in *.
  set (nq := (vx q - vx c) * (vx q - vx c) + (vy q - vy c) * (vy q - vy c)) in *.
  set (nr := (vx r - vx c) * (vx r - vx c) + (vy r - vy c) * (vy r - vy c)) in *.
  assert (P1 : 0 <= al * ((4 # 9) * m - np)) by (apply Qmult_le_0_compat; lra).
  assert (P2 : 0 <= be * ((4 # 9) * m - nq)) by (apply Qmult_le_0_compat; lra).
  assert (P3 : 0 <= ga * ((4 # 9) * m - nr)) by (apply Qmult_le_0_compat; lra).
  assert (E : (al + be + ga) * ((4 # 9) * m) == (4 # 9) * m) by (rewrite S; ring).
  unfold np, nq, nr in *. lra.
Qed.

(* ---- the vertices of the mesh ---- *)
Section Verts.
Variable mesh_scale : Q.
Variable tri_ok : mstate -> tri -> bool.
Variable vtx_ok : mstate -> nat -> bool.
Variable qual : mstate -> tri -> Q.
Lemma remove_triangle_verts st t : ms_verts (remove_triangle mesh_scale st t) = ms_verts st.
Proof. unfold remove_triangle. destruct (in_square _ _); reflexivity. Qed.
Lemma update_verts st k xy cands st' r : wf st -> (forall v, In v cands -> In v (ms_verts st)) ->
  update_front mesh_scale tri_ok vtx_ok qual st k xy cands = Ok (st', r) ->
  (forall u, In u (ms_verts st) -> In u (ms_verts st')) /\ (forall t, r = Some t -> In (tr_v3 t) (ms_verts st')).
Proof.
  intros W HC U. unfold update_front in U. destruct (find_edge k (ms_front st)) as [base|] eqn:Fb; [|discriminate].
  apply find_edge_in in Fb. destruct Fb as [Hb _].
  assert (HC' : forall v, In v cands -> (v < ms_nv st)%nat) by (intros v Hv; apply (wf_vlt _ W), HC, Hv).
  destruct (create_possible_spec mesh_scale tri_ok cands st base W Hb HC') as (X & _ & C).
  destruct (create_possible mesh_scale tri_ok st base cands) as [st1 ts]. cbn [fst snd] in *.
  assert (V1 : ms_verts st1 = ms_verts st) by (destruct X as (Y & n & -> & _); reflexivity).
  pose proof (sort_tris_perm (qual st1) ts) as P.
  destruct (sort_tris (qual st1) ts) as [|best others].
  - cbn [add_vertex add_triangle] in U.
    set (v := ms_nv st1) in *. destruct (_ && _); injection U as <- <-.
    + split; [|intros t E; injection E as <-; cbn; apply in_or_app; right; left; reflexivity].
      intros u I. cbn. apply in_or_app. left. rewrite V1. exact I.
    + split; [|discriminate]. intros u I. assert (Lu := wf_vlt _ W u I).
      assert (NV : ms_nv st1 = ms_nv st) by (destruct X as (Y & n & -> & _); reflexivity).
      unfold remove_vertex. destruct (in_square _ _).
      * cbn [ms_verts]. rewrite remove_triangle_verts. cbn. apply filter_In. split; [apply in_or_app; left; rewrite V1; exact I|].
        destruct (Nat.eqb_spec u v); [unfold v in *; lia|reflexivity].
      * rewrite remove_triangle_verts. cbn. apply in_or_app. left. rewrite V1. exact I.
  - injection U as <- <-. cbn [advance_front ms_verts].
    assert (V2 : forall l s, ms_verts (fold_left (remove_triangle mesh_scale) l s) = ms_verts s).
    { clear. induction l as [|t l IH]; intros s; [reflexivity|]. cbn [fold_left]. rewrite IH. apply remove_triangle_verts. }
    rewrite V2, V1. split; [auto|]. intros t E. injection E as <-. apply HC.
    destruct (C best) as (_ & _ & (_ & _ & K & _)); [eapply Permutation_in; [apply Permutation_sym, P|left; reflexivity]|exact K].
Qed.
Lemma step_verts st o st' r : wf st -> (forall e, In e (ms_front st) -> In (be_v1 e) (ms_verts st) /\ In (be_v2 e) (ms_verts st)) ->
  fstep mesh_scale tri_ok vtx_ok qual st o = Ok (st', r) ->
  (forall u, In u (ms_verts st) -> In u (ms_verts st')) /\ (forall t, r = Some t -> In (tr_v3 t) (ms_verts st')).
Proof.
  intros W FV H. destruct o as [k xy cands|k v|a]; cbn [fstep] in H.
  - apply (update_verts st k xy _ st' r W) in H; [exact H|]. intros v I. apply filter_In in I. apply in_list_spec. apply I.
  - destruct (existsb (incident v) (ms_front st)) eqn:Iv; [|discriminate].
    assert (V : In v (ms_verts st)).
    { apply existsb_exists in Iv. destruct Iv as (e & I & E). destruct (FV e I) as [A B]. unfold incident in E. apply orb_true_iff in E.
      destruct E as [E|E]; apply Nat.eqb_eq in E; subst; assumption. }
    unfold update_front_exhaustive in H. destruct (find_edge k (ms_front st)) as [base|]; [|discriminate].
    destruct (negb _); [injection H as <- <-; split; [auto|discriminate]|].
    destruct (negb _); [injection H as <- <-; split; [auto|discriminate]|].
    cbn [add_triangle] in H. destruct (tri_ok _ _); injection H as <- <-.
    + split; [auto|]. intros t E. injection E as <-. exact V.
    + rewrite remove_triangle_verts. split; [auto|discriminate].
  - injection H as <- <-. split; [auto|discriminate].
Qed.
Lemma step_verts_mono st o st' r : wf st -> fstep mesh_scale tri_ok vtx_ok qual st o = Ok (st', r) ->
  forall u, In u (ms_verts st) -> In u (ms_verts st').
Proof.
  intros W H. destruct o as [k xy cands|k v|a]; cbn [fstep] in H.
  - apply (update_verts st k xy _ st' r W) in H; [apply H|]. intros v I. apply filter_In in I. apply in_list_spec. apply I.
  - destruct (existsb (incident v) (ms_front st)); [|discriminate].
    unfold update_front_exhaustive in H. destruct (find_edge k (ms_front st)) as [base|]; [|discriminate].
    destruct (negb _); [injection H as <- <-; auto|]. destruct (negb _); [injection H as <- <-; auto|].
    cbn [add_triangle] in H. destruct (tri_ok _ _); injection H as <- <-; [auto|]. rewrite remove_triangle_verts. auto.
  - injection H as <- <-. auto.
Qed.
Lemma step_gen_mono st o st' r : wf st -> fstep mesh_scale tri_ok vtx_ok qual st o = Ok (st', r) ->
  forall t, In t (generated st) -> In t (generated st').
Proof.
  intros W H t I. apply fstep_spec in H; [|exact W]. destruct r as [u|].
  - destruct H as (st2 & base & T & E & _).
    pose proof (advance_generated st2 base (tr_v3 u) u (tk_wf _ _ _ _ _ T) (tk_in _ _ _ _ _ T) (tk_act _ _ _ _ _ T)) as PG.
    rewrite <- E, (g_gen _ _ (tk_grown _ _ _ _ _ T)) in PG. apply (Permutation_in _ (Permutation_sym PG)). right. exact I.
  - destruct H as (G & _). rewrite (q_gen _ _ G). exact I.
Qed.
End Verts.

(* ---- one accepted triangle ---- *)
Lemma veq_dec a b : {veq a b} + {~ veq a b}.
Proof. unfold veq. destruct (Qeq_dec (vx a) (vx b)), (Qeq_dec (vy a) (vy b)); [left; tauto|right; tauto|right; tauto|right; tauto]. Qed.
Lemma same_ends_dec a b c d : {same_ends a b c d} + {~ same_ends a b c d}.
Proof. unfold same_ends. destruct (veq_dec a c), (veq_dec b d), (veq_dec a d), (veq_dec b c); first [left; tauto|right; tauto]. Qed.
Lemma segs_at pos z es : winding z (map (seg pos) es) == esum (at_pos pos z) (ends es).
Proof. unfold winding, ends. induction es as [|e l IH]; [reflexivity|]. cbn [map esum seg]. rewrite IH. reflexivity. Qed.
Lemma simple_perm pos es fs : Permutation es fs -> simple_front pos es -> simple_front pos fs.
Proof.
  intros P S.
  assert (I : forall e, In e fs -> In e es) by (intros e; apply Permutation_in, Permutation_sym, P).
  assert (O : forall v, on_front fs v -> on_front es v) by (intros v (e & J & E); exists e; split; [apply I, J|exact E]).
  constructor.
  - apply (Permutation_NoDup (Permutation_map be_id P) (sf_ids _ _ S)).
  - intros e J. apply (sf_proper _ _ S), I, J.
  - apply AdvanceInv.closed_balanced. apply (balanced_perm (ends es)); [unfold ends; apply Permutation_map, P|]. apply AdvanceInv.closed_balanced, (sf_closed _ _ S).
  - intros u v U V. apply (sf_pos _ _ S); apply O; assumption.
  - intros e f J K. apply (sf_ends _ _ S); apply I; assumption.
  - intros z. assert (E : winding z (map (seg pos) fs) == winding z (map (seg pos) es)) by (apply esum_perm, Permutation_map, Permutation_sym, P).
    rewrite E. apply (sf_region _ _ S).
Qed.

Section Accept.
Variable rho : vec2 -> Q.
Variable shape_ok : vec2 -> vec2 -> vec2 -> bool.
Variable dom : list (vec2 * vec2).
Variable mesh_scale : Q.
Variable inside : vec2 -> bool.
Variable qual : mstate -> tri -> Q.
Notation valid := (triangle_is_valid rho shape_ok dom).
Notation fstep := (fstep mesh_scale valid (vertex_is_valid rho inside) qual).
Notation frun := (frun mesh_scale valid (vertex_is_valid rho inside) qual).
Notation accepted := (accepted mesh_scale valid (vertex_is_valid rho inside) qual).

(* positions, vertices and elements at the end of the history *)
Variable pos : nat -> vec2.
Variable verts : list nat.
Variable gen : list tri.
Variable f0 : list bedge.
Hypothesis EX : forall a b c, In a verts -> In b verts -> In c verts -> sharp (det (pos a) (pos b) (pos c)).
Hypothesis FO : forall t a b, In t gen -> known f0 gen a b ->
  (exists s, 0 <= s <= 1 /\ touching (on_seg (pos a) (pos b) s) (pos (tr_v1 t)) (pos (tr_v2 t)) (pos (tr_v3 t))) ->
  near rho pos t (vscale (1 # 2) (vadd (pos a) (pos b))).

(* a state of the history *)
Record on_way (st : mstate) : Prop := {
  ow_wf : wf st;
  ow_sq : vertices_in front_scale st;
  ow_simple : simple_front pos (ms_front st);
  ow_verts : forall e, In e (ms_front st) -> In (be_v1 e) (ms_verts st) /\ In (be_v2 e) (ms_verts st);
  ow_known : forall e, In e (ms_front st) -> known f0 gen (be_v1 e) (be_v2 e)
}.
(* an element with the same corners is there at the end *)
Definition lasting (t : tri) : Prop := exists u, In u gen /\ tr_v1 u = tr_v1 t /\ tr_v2 u = tr_v2 t /\ tr_v3 u = tr_v3 t.
(* nothing of the state is lost later *)
Record before (st : mstate) : Prop := {
  bf_pos : forall v, In v (ms_verts st) -> pos v = ms_pos st v;
  bf_verts : forall v, In v (ms_verts st) -> In v verts;
  bf_gen : forall t, In t (generated st) -> lasting t
}.

Lemma tri_side_pos pt p q r x : touching pt p q r -> veq x pt -> touching x p q r.
Proof. intros T V. unfold touching in *. rewrite !(det_veq _ _ _ _ _ _ (veq_refl _) (veq_refl _) V). exact T. Qed.

(* the tests of the code against a simple front *)
Lemma valid_clear stx t : valid stx t = true -> simple_front pos (ms_front stx) -> lasting t ->
  (forall e, In e (ms_front stx) -> known f0 gen (be_v1 e) (be_v2 e)) ->
  (forall w, on_front (ms_front stx) w -> In w (ms_verts stx) /\ In w verts /\ ms_pos stx w = pos w) ->
  (forall w, In w [tr_v1 t; tr_v2 t; tr_v3 t] -> In w verts /\ ms_pos stx w = pos w) ->
  0 < det (pos (tr_v1 t)) (pos (tr_v2 t)) (pos (tr_v3 t)) /\
  (forall e x, In e (ms_front stx) -> In x (sides3 (pos (tr_v1 t)) (pos (tr_v2 t)) (pos (tr_v3 t))) ->
    ends_only (fst (seg pos e)) (snd (seg pos e)) (fst x) (snd x) \/ same_ends (fst (seg pos e)) (snd (seg pos e)) (fst x) (snd x)) /\
  (forall w, on_front (ms_front stx) w -> w <> tr_v1 t -> w <> tr_v2 t -> w <> tr_v3 t ->
    ~ touching (pos w) (pos (tr_v1 t)) (pos (tr_v2 t)) (pos (tr_v3 t))).
Proof.
  intros OK SF (u & TF & U1 & U2 & U3) KN FV TV. set (a := tr_v1 t) in *. set (b := tr_v2 t) in *. set (v := tr_v3 t) in *.
  destruct (TV a ltac:(cbn; auto)) as [VA PA]. destruct (TV b ltac:(cbn; auto)) as [VB PB]. destruct (TV v ltac:(cbn; auto)) as [VV3 PV].
  destruct (valid_facts _ _ _ _ _ OK) as (D0 & F & VV & _). unfold corner1, corner2, corner3 in *. fold a b v in D0, F, VV. rewrite PA, PB, PV in D0.
  assert (D : 0 < det (pos a) (pos b) (pos v)) by (assert (TD := tri_area_det (pos a) (pos b) (pos v)); lra).
  assert (NEAR : forall x, near rho (ms_pos stx) t x <-> near rho pos u x).
  { intros x. unfold near, search2, tri_loc, corner1, corner2, corner3. rewrite U1, U2, U3. fold a b v. rewrite PA, PB, PV. tauto. }
  assert (EF : forall e, In e (ms_front stx) -> on_front (ms_front stx) (be_v1 e) /\ on_front (ms_front stx) (be_v2 e)) by (intros e I; split; exists e; auto).
  split; [exact D|]. split.
  - intros e x I X. cbn [seg fst snd]. destruct (EF e I) as [O1 O2]. destruct (FV _ O1) as (_ & K1 & Q1). destruct (FV _ O2) as (_ & K2 & Q2).
    destruct (AdvanceModel.within (tri_loc pos u) (search2 rho pos u) (vscale (1 # 2) (vadd (pos (be_v1 e)) (pos (be_v2 e))))) eqn:NE.
    + assert (NE' : near rho (ms_pos stx) t (mid (ms_pos stx) e)).
      { apply NEAR. unfold near, mid. rewrite Q1, Q2. exact NE. }
      specialize (F e I NE'). rewrite Q1, Q2, PA, PB, PV in F.
      assert (L : line_line_intersection (pos (be_v1 e)) (pos (be_v2 e)) (fst x) (snd x) = false).
      { unfold line_tri_intersection in F. rewrite !orb_false_iff in F. destruct F as ((F1 & F2) & F3). destruct X as [<-|[<-|[<-|[]]]]; assumption. }
      destruct (same_ends_dec (pos (be_v1 e)) (pos (be_v2 e)) (fst x) (snd x)) as [SE|SE]; [right; exact SE|left].
      assert (XV : exists y z, In y verts /\ In z verts /\ x = (pos y, pos z) /\ ~ veq (pos y) (pos z)).
      { destruct X as [<-|[<-|[<-|[]]]].
        - exists a, b. repeat split; try assumption. apply (det_neq _ _ _ D).
        - exists b, v. repeat split; try assumption. apply (det_neq _ _ (pos a)). assert (Q : det (pos b) (pos v) (pos a) == det (pos a) (pos b) (pos v)) by (unfold det; ring). lra.
        - exists v, a. repeat split; try assumption. apply (det_neq _ _ (pos b)). assert (Q : det (pos v) (pos a) (pos b) == det (pos a) (pos b) (pos v)) by (unfold det; ring). lra. }
      destruct XV as (y & z & Y & Z & -> & NYZ). cbn [fst snd] in *.
      intros s w S U EQ. destruct (quiet_pair _ _ _ _ s w L (seg_proper pos (ms_front stx) SF e I) NYZ
        (EX _ _ _ K1 K2 Y) (EX _ _ _ K1 K2 Z) (EX _ _ _ Y Z K1) (EX _ _ _ Y Z K2) S U EQ) as [R|R]; [exact R|contradiction].
    + left. intros s w S U EQ. exfalso.
      assert (N : near rho pos u (vscale (1 # 2) (vadd (pos (be_v1 e)) (pos (be_v2 e))))).
      { apply FO; [exact TF|apply (KN e I)|]. exists s. split; [exact S|]. rewrite U1, U2, U3. fold a b v.
        apply (tri_side_pos _ _ _ _ _ (side_touching _ _ _ D x w X U) EQ). }
      unfold near in N. congruence.
  - intros w OW NA NB NV3 TO. destruct (FV w OW) as (IW & _ & PW).
    assert (NW : near rho (ms_pos stx) t (ms_pos stx w)).
    { rewrite PW. apply NEAR. unfold near, AdvanceModel.within, search2, tri_loc, corner1, corner2, corner3. rewrite U1, U2, U3. fold a b v.
      apply Qle_bool_iff. assert (R := touching_reach _ _ _ _ D TO). set (ml := max_len2 (pos a) (pos b) (pos v)) in *.
      assert (0 <= ml).
      { unfold ml, max_len2. eapply Qle_trans; [|apply qmax_l]. unfold edge_len2, vnorm2, vdot. apply (Qle_trans _ (0 + 0)); [lra|]. apply Qplus_le_compat; apply square_nonneg. }
      eapply Qle_trans; [exact R|]. eapply Qle_trans; [|apply qmax_r]. lra. }
    specialize (VV w IW NW NA NB NV3). rewrite PW, PA, PB, PV in VV.
    apply not_true_iff_false in VV. apply VV. unfold in_on_triangle. rewrite !andb_true_iff, !is_lefton_iff. pose proof tol_pos. destruct TO as (X & Y & Z). repeat split; lra.
Qed.

(* an element on the front edge [base] with the third corner [v] *)
Lemma accept_on_way st st2 base v t : on_way st -> grown st st2 -> wf st2 -> vertices_in front_scale st2 ->
  In base (ms_front st) -> (v < ms_nv st2)%nat -> v <> be_v1 base -> v <> be_v2 base -> In t (ms_tris st2) ->
  (forall u, In u (ms_verts st) -> In u (ms_verts st2)) -> In v (ms_verts st2) ->
  0 < det (pos (be_v1 base)) (pos (be_v2 base)) (pos v) ->
  (forall e x, In e (ms_front st) -> In x (sides3 (pos (be_v1 base)) (pos (be_v2 base)) (pos v)) ->
    ends_only (fst (seg pos e)) (snd (seg pos e)) (fst x) (snd x) \/ same_ends (fst (seg pos e)) (snd (seg pos e)) (fst x) (snd x)) ->
  (forall w, on_front (ms_front st) w -> w <> be_v1 base -> w <> be_v2 base -> w <> v ->
    ~ touching (pos w) (pos (be_v1 base)) (pos (be_v2 base)) (pos v)) ->
  known f0 gen (be_v1 base) v -> known f0 gen v (be_v2 base) ->
  on_way (advance_front st2 base v t) /\ sides_expected st (TR 0 (be_v1 base) (be_v2 base) v true 0).
Proof.
  intros J G W2 V2 Hb LV N1 N2 TI VM VT D HT1 HT2 KA KB. set (st' := advance_front st2 base v t).
  set (a := be_v1 base) in *. set (b := be_v2 base) in *.
  assert (Hb2 : In base (ms_front st2)) by (rewrite (g_front _ _ G); exact Hb).
  assert (W' : wf st') by (apply advance_wf; assumption).
  assert (V' : vertices_in front_scale st') by exact V2.
  assert (SX : sides_expected st (TR 0 a b v true 0)).
  { split; intros e GE; apply get_edge_in in GE; destruct GE as [I [K|K]]; try exact K; exfalso; cbn [tr_v1 tr_v2 tr_v3] in K.
    - exact (no_start_at pos (ms_front st) (ow_simple _ J) base Hb v D HT1 HT2 e I K).
    - exact (no_end_at pos (ms_front st) (ow_simple _ J) base Hb v D HT1 HT2 e I K). }
  split; [|exact SX].
  assert (SX2 : sides_expected st2 (TR 0 a b v true 0)).
  { unfold sides_expected in *. cbn [tr_v1 tr_v2 tr_v3] in *. rewrite (g_front _ _ G). exact SX. }
  pose proof (fun w A => front_sum_anti w st2 base v A W2 V2 Hb2 N1 N2 SX2) as SUM.
  assert (FR : ms_front st' = AdvanceProofs.kept st2 base v ++ new_edges (ms_ne st2) (snd (plan_of st2 base v))) by (apply advance_front_front; assumption).
  assert (KIND : forall e, In e (ms_front st') -> In e (ms_front st) \/ fresh (ms_front st) base v e).
  { intros e I. rewrite FR in I. apply in_app_or in I. destruct I as [I|I].
    - left. rewrite <- (g_front _ _ G). apply (kept_in _ _ _ _ I).
    - right. apply new_edges_in in I. destruct I as (_ & I & _).
      assert (UJ : forall y z, get_edge_nodir (ms_front st2) y z = None -> unjoined (ms_front st) y z).
      { intros y z GN f K. rewrite (g_front _ _ G) in GN. apply (get_edge_none _ _ _ GN f K). }
      unfold plan_of, adv_plan in I. fold a b in I. unfold pair_of in I.
      destruct (get_edge_nodir (ms_front st2) v a) eqn:GA, (get_edge_nodir (ms_front st2) v b) eqn:GB; cbn [snd In] in I;
        repeat (destruct I as [I|I]); try contradiction; injection I as I1 I2; unfold fresh; fold a b.
      + right. split; [symmetry; exact I1|]. split; [symmetry; exact I2|apply UJ, GB].
      + left. split; [symmetry; exact I1|]. split; [symmetry; exact I2|apply UJ, GA].
      + left. split; [symmetry; exact I1|]. split; [symmetry; exact I2|apply UJ, GA].
      + right. split; [symmetry; exact I1|]. split; [symmetry; exact I2|apply UJ, GB]. }
  assert (SN : simple_front pos (ms_front st')).
  { apply (next_front pos (ms_front st) (ow_simple _ J) base Hb v D HT1 HT2).
    - apply W'.
    - apply AdvanceInv.closed_balanced. assert (C := sf_closed _ _ (ow_simple _ J)). apply AdvanceInv.closed_balanced in C. intros f.
      assert (A : antisym (fun x y : nat => f y - f x)) by (intros x y; ring). specialize (SUM _ A). rewrite <- FR, (g_front _ _ G), (C f) in SUM. lra.
    - exact N1.
    - exact N2.
    - exact KIND.
    - intros e f I K FE FF NI EQ. rewrite FR in I, K.
      assert (NEW : forall g, In g (AdvanceProofs.kept st2 base v ++ new_edges (ms_ne st2) (snd (plan_of st2 base v))) -> fresh (ms_front st) base v g -> In g (new_edges (ms_ne st2) (snd (plan_of st2 base v)))).
      { intros g Ig Fg. apply in_app_or in Ig. destruct Ig as [Ig|Ig]; [exfalso|exact Ig]. apply kept_in in Ig. rewrite (g_front _ _ G) in Ig.
        destruct Fg as [(Y1 & Y2 & U)|(Y1 & Y2 & U)]; destruct (U g Ig) as [U1 U2]; [apply U2|apply U1]; split; assumption. }
      specialize (NEW e I FE) as Ne. specialize (NEW f K FF) as Nf. revert Ne Nf. unfold plan_of, adv_plan. fold a b.
      destruct (get_edge_nodir (ms_front st2) v a) eqn:GA, (get_edge_nodir (ms_front st2) v b) eqn:GB; cbn [snd new_edges In]; intros Ne Nf;
        repeat (destruct Ne as [Ne|Ne]); repeat (destruct Nf as [Nf|Nf]); try contradiction; subst e f; try congruence; unfold pair_of in EQ; cbn [be_v1 be_v2] in EQ; injection EQ; intros; congruence.
    - intros z. rewrite !segs_at. specialize (SUM (at_pos pos z) (at_pos_antisym pos z)). rewrite <- FR, (g_front _ _ G) in SUM.
      unfold mem. unfold at_pos in SUM at 2 3 4. lra. }
  constructor; try assumption.
  - intros e I. destruct (KIND e I) as [K|[(-> & -> & _)|(-> & -> & _)]]; fold a b.
    + destruct (ow_verts _ J e K). split; apply VM; assumption.
    + split; [apply VM, (ow_verts _ J base Hb)|exact VT].
    + split; [exact VT|apply VM, (ow_verts _ J base Hb)].
  - intros e I. destruct (KIND e I) as [K|[(-> & -> & _)|(-> & -> & _)]]; fold a b; [apply (ow_known _ J e K)|exact KA|exact KB].
Qed.

(* vertices of the state before the last step *)
Lemma lasting_known t a b : lasting t -> In (a, b) (tri_sides t) -> known f0 gen b a /\ known f0 gen a b.
Proof.
  intros (u & I & U1 & U2 & U3) S. assert (K : In (a, b) (sides gen)).
  { unfold sides. apply in_flat_map. exists u. split; [exact I|]. unfold tri_sides in *. rewrite U1, U2, U3. exact S. }
  split; right; [right|left]; exact K.
Qed.
Lemma step_on_way st o st' r : on_way st -> op_in front_scale o -> fstep st o = Ok (st', r) -> before st' ->
  on_way st' /\ (forall t, r = Some t -> sides_expected st t).
Proof.
  intros J O H B. pose proof (ow_wf _ J) as W. pose proof (step_wf _ _ _ _ _ _ _ _ W H) as W'.
  pose proof (step_square _ _ _ _ _ _ _ _ _ W (ow_sq _ J) O H) as V'.
  destruct (step_verts _ _ _ _ _ _ _ _ W (ow_verts _ J) H) as [VM VT].
  destruct (step_pos _ _ _ _ _ _ _ _ W H) as [NV PP].
  apply fstep_spec in H; [|exact W]. destruct r as [t|].
  2:{ destruct H as (G & _). split; [|discriminate]. constructor; try assumption.
      - apply (simple_perm _ _ _ (q_front _ _ G) (ow_simple _ J)).
      - intros e I. apply (Permutation_in _ (Permutation_sym (q_front _ _ G))) in I. destruct (ow_verts _ J e I). split; apply VM; assumption.
      - intros e I. apply (Permutation_in _ (Permutation_sym (q_front _ _ G))) in I. apply (ow_known _ J e I). }
  destruct H as (st2 & base & T & E & SQ). specialize (VT t eq_refl).
  pose proof (tk_grown _ _ _ _ _ T) as G. pose proof (tk_wf _ _ _ _ _ T) as W2. pose proof (SQ _ (ow_sq _ J) O) as V2.
  pose proof (tk_base _ _ _ _ _ T) as Hb. pose proof (tk_v1 _ _ _ _ _ T) as T1. pose proof (tk_v2 _ _ _ _ _ T) as T2.
  destruct (tk_ok _ _ _ _ _ T) as (stx & Gx & OK & PX & VX).
  assert (E2 : ms_pos st' = ms_pos st2 /\ ms_nv st' = ms_nv st2 /\ ms_verts st' = ms_verts st2) by (rewrite E; repeat split; reflexivity). destruct E2 as (E2 & E3 & E4).
  assert (PN : forall v, In v (ms_verts st') -> ms_pos stx v = pos v).
  { intros v L. rewrite (bf_pos _ B v L), E2. apply PX. rewrite E4 in L. apply (wf_vlt _ W2 v L). }
  destruct (wf_tv _ W2 t (tk_in _ _ _ _ _ T)) as (B1 & B2 & B3).
  (* the new element is one of the final elements *)
  pose proof (advance_generated st2 base (tr_v3 t) t W2 (tk_in _ _ _ _ _ T) (tk_act _ _ _ _ _ T)) as PG. rewrite <- E in PG.
  assert (TF : lasting t) by exact (bf_gen _ B _ (Permutation_in _ (Permutation_sym PG) (or_introl eq_refl))).
  assert (FV : forall w, on_front (ms_front stx) w -> In w (ms_verts stx) /\ In w verts /\ ms_pos stx w = pos w).
  { intros w (e & I & EW). rewrite (g_front _ _ Gx) in I. destruct (ow_verts _ J e I) as [K1 K2]. destruct (wf_ev _ W e I) as (L1 & L2 & _). pose proof (g_nv _ _ G).
    assert (KW : In w (ms_verts st) /\ (w < ms_nv st)%nat) by (destruct EW as [<-|<-]; split; assumption). destruct KW as [KW LW].
    split; [apply VX, KW|]. split; [apply (bf_verts _ B), VM, KW|apply PN, VM, KW]. }
  destruct (ow_verts _ J base Hb) as [K1 K2].
  destruct (valid_clear stx t OK) as (D & HT1 & HT2).
  - rewrite (g_front _ _ Gx). exact (ow_simple _ J).
  - exact TF.
  - intros e I. rewrite (g_front _ _ Gx) in I. exact (ow_known _ J e I).
  - exact FV.
  - assert (IV : forall w, In w [tr_v1 t; tr_v2 t; tr_v3 t] -> In w (ms_verts st')) by (intros w [<-|[<-|[<-|[]]]]; [rewrite T1; apply VM, K1|rewrite T2; apply VM, K2|exact VT]).
    intros w I. split; [apply (bf_verts _ B), IV, I|apply PN, IV, I].
  - rewrite (g_front _ _ Gx) in HT1, HT2.
    assert (KA := proj1 (lasting_known t _ _ TF (or_intror (or_intror (or_introl eq_refl))))).
    assert (KB := proj1 (lasting_known t _ _ TF (or_intror (or_introl eq_refl)))).
    rewrite T1, T2 in *.
    destruct (accept_on_way st st2 base (tr_v3 t) t J G W2 V2 Hb (tk_v3 _ _ _ _ _ T) (tk_n1 _ _ _ _ _ T) (tk_n2 _ _ _ _ _ T) (tk_in _ _ _ _ _ T)) as [J' SX]; try assumption.
    + intros u I. rewrite <- E4. apply VM, I.
    + rewrite <- E4. exact VT.
    + rewrite <- E in J'. split; [exact J'|]. intros t0 EQ. injection EQ as <-. unfold sides_expected in *. cbn [tr_v1 tr_v2 tr_v3] in SX. rewrite T1, T2. exact SX.
Qed.
(* what is lost neither by the step nor later *)
Lemma step_before st o st' r : wf st -> fstep st o = Ok (st', r) -> before st' -> before st.
Proof.
  intros W E B. destruct (step_pos _ _ _ _ _ _ _ _ W E) as [NV PP]. constructor.
  - intros v L. rewrite (bf_pos _ B) by (apply (step_verts_mono _ _ _ _ _ _ _ _ W E), L). apply PP, (wf_vlt _ W v L).
  - intros v I. apply (bf_verts _ B), (step_verts_mono _ _ _ _ _ _ _ _ W E), I.
  - intros t I. apply (bf_gen _ B), (step_gen_mono _ _ _ _ _ _ _ _ W E), I.
Qed.
Lemma run_before os st st' : wf st -> frun st os = Ok st' -> before st' -> before st.
Proof.
  revert st. induction os as [|o os IH]; intros st W H B.
  - cbn [AdvanceModel.frun] in H. injection H as ->. exact B.
  - cbn [AdvanceModel.frun] in H. destruct (fstep st o) as [[s r]| |] eqn:E; try discriminate. cbn [obind fst] in H.
    apply (step_before st o s r W E). exact (IH s (step_wf _ _ _ _ _ _ _ _ W E) H B).
Qed.
Lemma run_on_way os st st' : on_way st -> Forall (op_in front_scale) os -> frun st os = Ok st' -> before st' ->
  on_way st' /\ accepted sides_expected st os.
Proof.
  revert st. induction os as [|o os IH]; intros st J O H B.
  - cbn [AdvanceModel.frun] in H. injection H as ->. split; [exact J|exact I].
  - cbn [AdvanceModel.frun AdvanceModel.accepted] in *. inversion O as [|? ? O1 O2]; subst.
    destruct (fstep st o) as [[s r]| |] eqn:E; try discriminate. cbn [obind fst] in H.
    destruct (step_on_way st o s r J O1 E) as [J' X]; [apply (run_before os s st'); [apply (step_wf _ _ _ _ _ _ _ _ (ow_wf _ J) E)|exact H|exact B]|].
    destruct (IH s J' O2 H B) as [A C]. split; [exact A|]. destruct r as [t|]; [split; [apply X; reflexivity|exact C]|exact C].
Qed.
End Accept.
