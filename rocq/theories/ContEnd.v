(* Meshes between two stages and at the end: proofs for ContProps. *)
From Coq Require Import Lqa Lia Permutation.
From Verif Require Import Base Chain GeomModel GeomSpec GeomProofs FacetModel FacetProofs UtilModel BdryModel BdrySpec
  AdvanceModel AdvanceSpec AdvanceProofs AdvanceInv AdvanceMore AdvanceGeom MeshModel MeshSpec MeshProofs QRefineModel QRefineSpec WindSpec WindProofs WindMesh ClearSpec ClearRun
  ClearEnd CleanSpec FanProofs FinModel FinMesh QTileSpec MixSpec MixShape MixRun ContModel ContSpec OpenConn ContProofs ContMesh ContStage.
Open Scope Q_scope.

Definition sh_area (pos : nat -> vec2) (s : shape) : Q :=
  match s with
  | Tri3 a b c => tri_area (pos a) (pos b) (pos c)
  | Quad4 a b c d => quad_area (pos a) (pos b) (pos c) (pos d)
  end.
Lemma side_area pos s : esum (w_area pos) (shape_sides s) == sh_area pos s.
Proof.
  destruct s as [a b c|a b c d]; cbn [sh_area].
  - unfold shape_sides, ring_edges. cbn. unfold w_area, tri_area, vcross, vsub. cbn [vx vy]. ring.
  - rewrite quad_area_det. unfold shape_sides, ring_edges. cbn. unfold w_area, det, vcross, vsub. cbn [vx vy]. ring.
Qed.
Lemma area_shape pos f : fa_area pos f = sh_area pos (fa_sh f).
Proof. reflexivity. Qed.
Lemma covered_sides m : QRefineSpec.covered m == esum (w_area (mh_pos m)) (all_sides m).
Proof.
  unfold QRefineSpec.covered, all_sides. induction (facets m) as [|f l IH]; [reflexivity|]. cbn [map flat_map sumQ]. rewrite esum_app, <- IH. rewrite area_shape, <- side_area. reflexivity.
Qed.
Lemma simple_area pos s : simple_shape pos s -> 0 < sh_area pos s.
Proof.
  destruct s as [a b c|a b c d]; cbn [simple_shape sh_area].
  - intros H. assert (X := tri_area_det (pos a) (pos b) (pos c)). lra.
  - rewrite quad_area_det. assert (T : det (pos a) (pos b) (pos c) + det (pos a) (pos c) (pos d) == det (pos b) (pos c) (pos d) + det (pos b) (pos d) (pos a)) by (unfold det; ring).
    intros [[H1 H2]|[H1 H2]]; [|rewrite T]; lra.
Qed.

Section End.
Variable pos : nat -> vec2.
Variable gen : list tri.
Variable f0 : list bedge.
Variable m : mesh.
Hypothesis S0 : simple_front pos f0.
Hypothesis B0 : forall e, In e f0 -> interior e = false /\ ghost e = false.
Hypothesis MW : midway pos gen f0 m.
Notation m1 := (setup_facet_connectivity m).
Notation st := (opened m1).
Let P := mw_way _ _ _ _ MW.
Let L := mw_laid _ _ _ _ MW.
Notation shapes := (map fa_sh (facets m)).
Notation U p q := (uses p q (all_sides m)).

Lemma end_total w : antisym w -> esum w (flat_map shape_sides shapes) + esum w (ends (ms_front st)) == esum w (ends f0).
Proof.
  intros A. rewrite <- (pw_total _ _ _ _ _ _ P w A). apply Qplus_comp; [|reflexivity]. apply esum_perm. apply Permutation_flat_map, Permutation_sym. exact (mid_shapes _ _ _ _ MW).
Qed.
Lemma end_simple s : In s shapes -> simple_shape pos s.
Proof. intros J. apply in_map_iff in J. destruct J as (f & <- & J). exact (mid_shape _ _ _ _ MW f J). Qed.
Lemma end_tiles : tiles pos shapes (fun z => winding z (map (seg pos) f0) - winding z (map (seg pos) (ms_front st))).
Proof. exact (mix_tiles pos shapes f0 (ms_front st) end_simple end_total). Qed.
Lemma end_apart f g z : In f (facets m) -> In g (facets m) -> inside_shape pos (fa_sh f) z -> inside_shape pos (fa_sh g) z -> f = g.
Proof.
  intros I J F G. destruct (In_nth_error _ _ I) as [i Ei]. destruct (In_nth_error _ _ J) as [j Ej].
  assert (E : i = j).
  { apply (mix_apart pos shapes f0 (ms_front st) S0 (pw_simple _ _ _ _ _ _ P) end_simple end_total i j (fa_sh f) (fa_sh g) z); try assumption; rewrite nth_error_map, ?Ei, ?Ej; reflexivity. }
  subst j. congruence.
Qed.
Lemma end_inside f z : In f (facets m) -> inside_shape pos (fa_sh f) z -> winding z (map (seg pos) f0) == 1 /\ winding z (map (seg pos) (ms_front st)) == 0.
Proof. intros J. exact (mix_inside pos shapes f0 (ms_front st) S0 (pw_simple _ _ _ _ _ _ P) end_simple end_total (fa_sh f) z (in_map fa_sh _ _ J)). Qed.

Lemma end_uses p q : uses p q (flat_map shape_sides (elements st)) = U p q.
Proof. apply uses_perm, (mid_sides _ _ _ _ MW). Qed.
Lemma end_in p q : In (p, q) (all_sides m) <-> U p q = 1%nat.
Proof.
  split; intros H.
  - apply uses_in in H. assert (X := mid_once _ _ _ _ S0 MW p q). lia.
  - apply uses_some. lia.
Qed.
(* ---- edges ---- *)
Lemma end_intr e : In e (mh_intr m) -> In (ed_pair e) (ms_intr st) \/ (exists x, In x (ms_front st) /\ pair_of x = ed_pair e /\ interior x = true).
Proof.
  intros J. destruct (connect_ends m e) as (E1 & E2 & E3 & E5 & E4 & _).
  assert (K : In (connect_intr m e) (mh_intr m1)) by (cbn [setup_facet_connectivity mh_intr]; apply in_map, J).
  assert (Q : ed_pair (connect_intr m e) = ed_pair e) by (unfold ed_pair; rewrite E1, E2; reflexivity).
  destruct (half_open (connect_intr m e)) eqn:H.
  - right. assert (X : In (connect_intr m e) (front_edges m1)) by (unfold front_edges; apply in_or_app; left; apply filter_In; auto).
    apply (in_map msig) in X. rewrite <- (front_from_sig (mh_next m1)) in X. apply in_map_iff in X. destruct X as (x & X & Ix). exists x. split; [exact Ix|].
    unfold sig, msig in X. injection X as X1 X2 X3 X4. unfold pair_of. rewrite X1, X2. split; [exact Q|].
    unfold interior. rewrite X4. destruct (mw_new _ _ _ _ MW e J) as [_ Z]. rewrite E4, Z. reflexivity.
  - left. rewrite <- Q. cbn [opened ms_intr]. apply in_map. unfold kept_intr. apply filter_In. split; [exact K|]. rewrite H. reflexivity.
Qed.
Lemma end_found e : In e (mh_intr m) -> In (ed_1 e, ed_2 e) (all_sides m) \/ In (ed_2 e, ed_1 e) (all_sides m).
Proof.
  intros J. destruct (end_intr e J) as [K|(x & K & E & I)].
  - left. destruct (rs_inner pos gen f0 m st S0 P _ _ K) as (_ & X & _). apply end_in. rewrite <- end_uses. exact X.
  - right. injection E as E1 E2. destruct (rs_interior pos gen f0 m st S0 B0 P x K I) as (_ & D1 & D2). destruct (rs_pair pos gen f0 m st S0 P x K) as (NE & F1 & _).
    destruct (rs_cases pos gen f0 m st S0 P _ _ NE) as (_ & _ & _ & C4 & _). destruct (C4 D1 D2 F1) as (_ & X & _). apply end_in. rewrite <- end_uses, <- E1, <- E2. exact X.
Qed.
Lemma end_check : check_mesh_validity m = true <-> forall e, In e (mh_bdry m) -> In (ed_1 e, ed_2 e) (all_sides m).
Proof.
  rewrite validity_iff. split; intros H e J.
  - destruct (H e) as [X|X]; [apply in_or_app; right; exact J|exact X|]. destruct (mid_outer _ _ _ _ S0 MW e J X).
  - apply in_app_or in J. destruct J as [J|J]; [exact (end_found e J)|left; exact (H e J)].
Qed.
Lemma bdry_front e : In e (mh_bdry m) -> exists x, In x f0 /\ be_v1 x = ed_1 e /\ be_v2 x = ed_2 e.
Proof.
  intros J. apply (in_map msig) in J. rewrite (mw_bdry _ _ _ _ MW) in J. apply in_map_iff in J. destruct J as (x & E & J). unfold sig, msig in E. injection E as E1 E2 _ _. exists x. auto.
Qed.
Lemma end_area : (forall v, In v (mh_verts m) -> pos v = mh_pos m v) -> mh_area m == QRefineSpec.covered m /\ QRefineSpec.covered m + enclosed pos (ms_front st) == enclosed pos f0.
Proof.
  intros E. assert (X : QRefineSpec.covered m == esum (w_area pos) (all_sides m)).
  { rewrite covered_sides. apply Qeq_sym. unfold all_sides.
    assert (G : forall f, In f (facets m) -> forall v, In v (corners (fa_sh f)) -> pos v = mh_pos m v) by (intros f J v K; apply E, (ld_facets _ L f J), K).
    revert G. induction (facets m) as [|f l IH]; intros G; [reflexivity|]. cbn [flat_map]. rewrite !esum_app, IH by (intros g J; apply G; right; exact J).
    apply Qplus_comp; [|reflexivity]. change (MeshSpec.sides f) with (shape_sides (fa_sh f)). rewrite !side_area. specialize (G f (or_introl eq_refl)).
    destruct (fa_sh f) as [a b c|a b c d]; cbn [sh_area corners In] in G |- *; rewrite !G by tauto; reflexivity. }
  split.
  - rewrite X. change (mh_area m) with (ms_area st). rewrite (pw_area _ _ _ _ _ _ P). apply esum_perm, (mid_sides _ _ _ _ MW).
  - rewrite X, !enclosed_area. rewrite <- (end_total _ (w_area_antisym pos)). unfold all_sides. rewrite sides_shapes. reflexivity.
Qed.

(* ---- nothing is left of the front ---- *)
Hypothesis F : ms_front st = [].
Lemma full_intr e : In e (mh_intr m) -> In (ed_pair e) (ms_intr st).
Proof. intros J. destruct (end_intr e J) as [K|(x & K & _)]; [exact K|]. rewrite F in K. destruct K. Qed.
Lemma full_bdry e : In e (mh_bdry m) -> In (ed_1 e, ed_2 e) (all_sides m).
Proof.
  intros J. destruct (bdry_front e J) as (x & I & E1 & E2). destruct (rs_outer pos gen f0 m st S0 P x I) as (NE & D1 & _). rewrite <- E1, <- E2.
  destruct (rs_cases pos gen f0 m st S0 P _ _ NE) as (_ & _ & C3 & _). destruct (C3 D1) as (_ & _ & _ & X). rewrite F in X. rewrite end_uses in X. apply end_in. cbn in X. lia.
Qed.
Lemma full_check : check_mesh_validity m = true.
Proof. apply end_check, full_bdry. Qed.
Lemma full_kept : kept_intr m1 = mh_intr m1.
Proof.
  unfold kept_intr. apply filter_all. intros e J. apply negb_true_iff. destruct (half_open e) eqn:H; [exfalso|reflexivity].
  assert (X : In e (front_edges m1)) by (unfold front_edges; apply in_or_app; left; apply filter_In; auto).
  cbn [opened ms_front] in F. destruct (front_edges m1); [destruct X|discriminate].
Qed.
Lemma full_pairs : map ed_pair (mh_intr m) = ms_intr st.
Proof.
  cbn [opened ms_intr]. rewrite full_kept. cbn [setup_facet_connectivity mh_intr]. rewrite map_map. apply map_ext. intros e. destruct (connect_ends m e) as (E1 & E2 & _).
  unfold ed_pair. rewrite E1, E2. reflexivity.
Qed.
Lemma full_cover a b : In (a, b) (all_sides m) -> exists e, In e (all_edges m) /\ ((ed_1 e = a /\ ed_2 e = b) \/ (ed_1 e = b /\ ed_2 e = a)).
Proof.
  intros K. assert (NE : a <> b).
  { intros ->. unfold all_sides in K. apply in_flat_map in K. destruct K as (f & J & K). exact (side_neq f b b (mid_corners _ _ _ _ MW f J) K eq_refl). }
  apply end_in in K. rewrite <- end_uses in K. destruct (rs_cases pos gen f0 m st S0 P _ _ NE) as (_ & C2 & _ & _ & C5).
  assert (BB : forall p q, uses p q (ends f0) <> 0%nat -> exists e, In e (mh_bdry m) /\ ed_1 e = p /\ ed_2 e = q).
  { intros p q Z. apply uses_some in Z. unfold ends in Z. apply in_map_iff in Z. destruct Z as (x & E & J). injection E as E1 E2.
    apply (in_map sig) in J. rewrite <- (mw_bdry _ _ _ _ MW) in J. apply in_map_iff in J. destruct J as (e & E & J). unfold sig, msig in E. injection E as X1 X2 _ _. exists e. rewrite <- E1, <- E2. auto. }
  destruct (Nat.eq_dec (uses a b (ends f0)) 0) as [D1|D1]; [|destruct (BB _ _ D1) as (e & J & X); exists e; split; [apply in_or_app; right; exact J|left; exact X]].
  destruct (Nat.eq_dec (uses b a (ends f0)) 0) as [D2|D2]; [|destruct (BB _ _ D2) as (e & J & X); exists e; split; [apply in_or_app; right; exact J|right; exact X]].
  rewrite F in C5. destruct (C5 D1 D2 eq_refl eq_refl) as (_ & X & _). assert (Z : uses_any a b (ms_intr st) <> 0%nat) by lia. apply uses_any_in in Z. rewrite <- full_pairs in Z.
  destruct Z as [Z|Z]; apply in_map_iff in Z; destruct Z as (e & E & J); injection E as E1 E2; exists e; (split; [apply in_or_app; left; exact J|auto]).
Qed.
Lemma same_nth {A} (l : list A) (x y : A) : In x l -> In y l -> x = y \/ exists i j, i <> j /\ nth_error l i = Some x /\ nth_error l j = Some y.
Proof.
  intros I J. destruct (In_nth_error _ _ I) as [i Ei]. destruct (In_nth_error _ _ J) as [j Ej]. destruct (Nat.eq_dec i j) as [->|NE]; [left; congruence|right; exists i, j; auto].
Qed.
Lemma full_single e f : In e (all_edges m) -> In f (all_edges m) -> same_pair e f -> e = f.
Proof.
  intros I J SP. unfold all_edges in I, J. apply in_app_or in I, J.
  assert (X : forall x y, In x (mh_intr m) -> In y (mh_bdry m) -> ~ same_pair x y).
  { intros x y Ix Iy SXY. destruct (bdry_front y Iy) as (z & Iz & E1 & E2). destruct (rs_outer pos gen f0 m st S0 P z Iz) as (_ & D1 & _). rewrite E1, E2 in D1.
    destruct (rs_inner pos gen f0 m st S0 P _ _ (full_intr x Ix)) as (_ & _ & _ & Z1 & Z2).
    destruct SXY as [[A B]|[A B]]; rewrite A, B in *; lia. }
  destruct I as [I|I], J as [J|J].
  - destruct (same_nth _ e f I J) as [E|(i & j & NE & Ni & Nj)]; [exact E|exfalso].
    destruct (rs_inner pos gen f0 m st S0 P _ _ (full_intr e I)) as (ND & U1 & U2 & D1 & D2). destruct (rs_cases pos gen f0 m st S0 P _ _ ND) as (_ & _ & _ & _ & C5).
    rewrite F in C5. destruct (C5 D1 D2 eq_refl eq_refl) as (_ & X1 & X2). assert (Y : (2 <= uses_any (ed_1 e) (ed_2 e) (ms_intr st))%nat); [|lia].
    rewrite <- full_pairs. apply (uses_any_two _ _ _ i j (ed_pair e) (ed_pair f)); [rewrite nth_error_map, Ni; reflexivity|rewrite nth_error_map, Nj; reflexivity|exact NE|left; reflexivity|].
    unfold ed_pair. destruct SP as [[A B]|[A B]]; rewrite A, B; auto.
  - destruct (X e f I J SP).
  - destruct (X f e J I). destruct SP as [[A B]|[A B]]; [left|right]; auto.
  - destruct (same_nth _ e f I J) as [E|(i & j & NE & Ni & Nj)]; [exact E|exfalso].
    destruct (bdry_front e I) as (z & Iz & E1 & E2). destruct (rs_outer pos gen f0 m st S0 P z Iz) as (ND & D1 & D2). rewrite E1, E2 in ND, D1, D2.
    assert (Y : (2 <= uses_any (ed_1 e) (ed_2 e) (ends f0))%nat); [|rewrite uses_any_split in Y by exact ND; lia].
    assert (EE : ends f0 = map ed_pair (mh_bdry m)).
    { rewrite ends_sigs, <- (mw_bdry _ _ _ _ MW), map_map. reflexivity. }
    rewrite EE. apply (uses_any_two _ _ _ i j (ed_pair e) (ed_pair f)); [rewrite nth_error_map, Ni; reflexivity|rewrite nth_error_map, Nj; reflexivity|exact NE|left; reflexivity|].
    unfold ed_pair. destruct SP as [[A B]|[A B]]; rewrite A, B; auto.
Qed.
Lemma full_conforming : conforming m.
Proof.
  constructor.
  - exact (ld_ids _ L).
  - exact (mid_corners _ _ _ _ MW).
  - exact (ld_quads _ L).
  - exact (ld_tris _ L).
  - exact (mid_nodup _ _ _ _ S0 MW).
  - intros e J. destruct (rs_inner pos gen f0 m st S0 P _ _ (full_intr e J)) as (_ & X & Y & _). rewrite end_uses in X, Y. split; apply end_in; assumption.
  - intros e J. split; [exact (full_bdry e J)|exact (mid_outer _ _ _ _ S0 MW e J)].
  - exact full_cover.
  - exact (mw_eids _ _ _ _ MW).
  - exact full_single.
Qed.
Lemma full_unset : boundary_unset m.
Proof.
  intros f i a b J SA N. destruct (mh_nbr m (fa_id f) i) eqn:E; [exfalso|reflexivity].
  destruct (pt_nbr _ (mw_point _ _ _ _ MW) (fa_id f) i) as (g & a' & b' & G & EI & SG & X); [congruence|].
  assert (Q : g = f) by (exact (nodup_map_in _ _ _ _ (ld_ids _ L) G J EI)). subst g. rewrite SA in SG. injection SG as <- <-. contradiction.
Qed.
Lemma full_sound : pos = mh_pos m -> (forall f, In f (facets m) -> strictly_convex (mh_pos m) f) -> unpinched_mesh m -> sound m.
Proof.
  intros E SC UP. constructor.
  - exact full_conforming.
  - constructor.
    + exact (ld_verts _ L).
    + intros f v J. apply (ld_facets _ L f J).
    + exact (ld_vnext _ L).
    + intros f J. apply (ld_facets _ L f J).
    + exact (ld_enext _ L).
  - intros v J. apply (ld_sq _ L). exact (list_max_in _ _ J).
  - apply fans_of; [exact full_conforming|exact SC| |exact UP]. rewrite <- E. exact end_apart.
  - intros f J. rewrite area_shape, <- E. apply simple_area, (mid_shape _ _ _ _ MW f J).
  - exact full_unset.
Qed.
End End.
