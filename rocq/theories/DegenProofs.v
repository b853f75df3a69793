(* Proofs about merge_degenerate_triangles. *)
From Coq Require Import Lia Permutation Lqa Setoid Relations.
From Verif Require Import Base GeomModel FacetModel UtilModel AdvanceModel Chain AdvanceProofs MeshModel MeshSpec MeshProofs
  QRefineModel QRefineSpec QRefineShape QRefineConf MeshProps CleanSpec CleanModel MergeProofs CleanProofs CleanPass CleanScan.

Lemma corner_after_rot f v x : corner_after f v = Some x -> exists y, rot3 (fa_sh f) v x y.
Proof.
  unfold corner_after, rot3. destruct (fa_sh f) as [a b c|a b c d]; [|discriminate].
  destruct (Nat.eqb_spec a v); [intros H; injection H as <-; subst; eauto|].
  destruct (Nat.eqb_spec b v); [intros H; injection H as <-; subst; eauto|].
  destruct (Nat.eqb_spec c v); [intros H; injection H as <-; subst; eauto|discriminate].
Qed.
Lemma rot3_after f v x y : rot3 (fa_sh f) v x y -> NoDup (corners (fa_sh f)) -> corner_after f v = Some x.
Proof.
  intros R N. destruct (rot3_nodup _ _ _ _ R N) as [D1 [D2 D3]]. unfold corner_after.
  destruct R as [R|[R|R]]; rewrite R; repeat (first [rewrite Nat.eqb_refl|match goal with |- context [Nat.eqb ?a ?b] => destruct (Nat.eqb_spec a b); [congruence|] end]); reflexivity.
Qed.
Lemma tri_rot3 f v : n_corners f = 3%nat -> In v (corners (fa_sh f)) -> exists x y, rot3 (fa_sh f) v x y.
Proof.
  unfold n_corners, rot3. destruct (fa_sh f) as [a b c|a b c d]; [|discriminate]. intros _. cbn [corners In]. intros H. or_destruct H; try contradiction; subst; eauto 10.
Qed.
Lemma tri_in m f : conforming m -> In f (facets m) -> n_corners f = 3%nat -> In f (mh_tris m).
Proof.
  intros C Hf K. apply in_app_or in Hf. destruct Hf as [Hf|Hf]; [|exact Hf]. destruct (cf_quads _ C f Hf) as [a [b [c [d E]]]].
  unfold n_corners in K. rewrite E in K. discriminate.
Qed.
Lemma facets_at_nodup m v : conforming m -> NoDup (facets_at m v).
Proof.
  intros C. unfold facets_at. apply (Permutation_NoDup (Permutation_sym (by_age_perm _))). apply NoDup_filter. apply nodup_facets. exact (cf_ids _ C).
Qed.
Lemma rot3_corner s a b c v : rot3 s a b c -> In v (corners s) <-> v = a \/ v = b \/ v = c.
Proof. intros [H|[H|H]]; subst; cbn; intuition auto. Qed.

(* the triangles around a vertex: (v,x0,x1), (v,x1,x2), (v,x2,x0) *)
Record star (m : mesh) (v : nat) (g0 g1 g2 : facet) (x0 x1 x2 : nat) : Prop := {
  st_0 : rot3 (fa_sh g0) v x0 x1;
  st_1 : rot3 (fa_sh g1) v x1 x2;
  st_2 : rot3 (fa_sh g2) v x2 x0;
  st_i0 : In g0 (mh_tris m);
  st_i1 : In g1 (mh_tris m);
  st_i2 : In g2 (mh_tris m);
  st_only : forall f, In f (facets m) -> In v (corners (fa_sh f)) -> f = g0 \/ f = g1 \/ f = g2
}.

Lemma edges_at_in m v e : In e (edges_at m v) <-> In e (all_edges m) /\ (ed_1 e = v \/ ed_2 e = v).
Proof. unfold edges_at. rewrite filter_In, orb_true_iff, !Nat.eqb_eq. reflexivity. Qed.

Lemma rot3_in_sides f a b c : rot3 (fa_sh f) a b c -> In (a, b) (sides f) /\ In (b, c) (sides f) /\ In (c, a) (sides f).
Proof.
  intros R. assert (P := Permutation_sym (rot3_sides f a b c R)). repeat split; apply (Permutation_in _ P); cbn; auto.
Qed.

(* a vertex chosen by the pass is the centre of a star *)
Lemma degenerate_star m v : conforming m -> degenerate m v = true ->
  has_property (mh_prop m v) v_is_fixed = false /\
  exists g0 g1 g2 x0 x1 x2, facets_at m v = [g0; g1; g2] /\ fa_col g1 = fa_col g0 /\ fa_col g2 = fa_col g0 /\
    corner_after g0 v = Some x0 /\ corner_after g1 v = Some x1 /\ corner_after g2 v = Some x2 /\
    (star m v g0 g1 g2 x0 x1 x2 \/ star m v g0 g2 g1 x0 x2 x1).
Proof.
  intros C H. unfold degenerate in H. destruct (has_property (mh_prop m v) v_is_fixed); [discriminate|]. split; [reflexivity|].
  destruct (facets_at m v) as [|g0 [|g1 [|g2 [|]]]] eqn:F; try discriminate.
  rewrite !andb_true_iff, !Nat.eqb_eq, !Z.eqb_eq in H. destruct H as [[[[[LE K0] K1] K2] C1] C2].
  assert (IN : forall f, In f [g0; g1; g2] <-> In f (facets m) /\ In v (corners (fa_sh f))) by (intros f; rewrite <- F; apply facets_at_in).
  assert (ND := facets_at_nodup m v C). rewrite F in ND.
  assert (D01 : g0 <> g1) by (intros E; subst; inversion ND as [|? ? N _]; apply N; cbn; auto).
  assert (D02 : g0 <> g2) by (intros E; subst; inversion ND as [|? ? N _]; apply N; cbn; auto).
  assert (D12 : g1 <> g2) by (intros E; subst; inversion ND as [|? ? _ N]; inversion N as [|? ? M _]; apply M; cbn; auto).
  assert (I0 := proj1 (IN g0) ltac:(cbn; auto)). assert (I1 := proj1 (IN g1) ltac:(cbn; auto)). assert (I2 := proj1 (IN g2) ltac:(cbn; auto)).
  destruct I0 as [I0 V0], I1 as [I1 V1], I2 as [I2 V2].
  destruct (tri_rot3 g0 v K0 V0) as [x0 [y0 R0]]. destruct (tri_rot3 g1 v K1 V1) as [x1 [y1 R1]]. destruct (tri_rot3 g2 v K2 V2) as [x2 [y2 R2]].
  assert (N0 := rot3_nodup _ _ _ _ R0 (cf_corners _ C g0 I0)). assert (N1 := rot3_nodup _ _ _ _ R1 (cf_corners _ C g1 I1)). assert (N2 := rot3_nodup _ _ _ _ R2 (cf_corners _ C g2 I2)).
  destruct N0 as [N01 [N02 N03]], N1 as [N11 [N12 N13]], N2 as [N21 [N22 N23]].
  destruct (rot3_in_sides _ _ _ _ R0) as [A0 [B0 E0]]. destruct (rot3_in_sides _ _ _ _ R1) as [A1 [B1 E1]]. destruct (rot3_in_sides _ _ _ _ R2) as [A2 [B2 E2]].
  assert (X01 : x0 <> x1) by (intros E; rewrite E in A0; exact (D01 (side_owner m g0 g1 _ C I0 I1 A0 A1))).
  assert (X02 : x0 <> x2) by (intros E; rewrite E in A0; exact (D02 (side_owner m g0 g2 _ C I0 I2 A0 A2))).
  assert (X12 : x1 <> x2) by (intros E; rewrite E in A1; exact (D12 (side_owner m g1 g2 _ C I1 I2 A1 A2))).
  assert (Y01 : y0 <> y1) by (intros E; rewrite E in E0; exact (D01 (side_owner m g0 g1 _ C I0 I1 E0 E1))).
  assert (Y02 : y0 <> y2) by (intros E; rewrite E in E0; exact (D02 (side_owner m g0 g2 _ C I0 I2 E0 E2))).
  assert (Y12 : y1 <> y2) by (intros E; rewrite E in E1; exact (D12 (side_owner m g1 g2 _ C I1 I2 E1 E2))).
  (* the edge of each outgoing side *)
  assert (EX : forall f a b, In f (facets m) -> In (a, b) (sides f) -> a = v \/ b = v -> exists e, In e (edges_at m v) /\ ends e a b).
  { intros f a b Hf Sf J. destruct (cf_cover _ C a b) as [e [He Je]]; [apply all_sides_in; eauto|]. exists e. split; [|unfold ends; tauto].
    apply edges_at_in. split; [exact He|]. destruct Je as [[-> ->]|[-> ->]]; tauto. }
  destruct (EX g0 v x0 I0 A0 (or_introl eq_refl)) as [e0 [He0 J0]].
  destruct (EX g1 v x1 I1 A1 (or_introl eq_refl)) as [e1 [He1 J1]].
  destruct (EX g2 v x2 I2 A2 (or_introl eq_refl)) as [e2 [He2 J2]].
  assert (EJ : forall e a b, ends e v a -> ends e v b -> v <> a -> a = b) by (unfold ends; intros e a b [[P1 P2]|[P1 P2]] [[Q1 Q2]|[Q1 Q2]] NV; congruence).
  assert (ALL : incl (edges_at m v) [e0; e1; e2]).
  { apply NoDup_length_incl.
    - repeat constructor; cbn [In]; intros X; or_destruct X; try contradiction; subst; eauto.
    - cbn [length]. lia.
    - intros e [<-|[<-|[<-|[]]]]; assumption. }
  assert (YX : forall f y, In f (facets m) -> In (y, v) (sides f) -> y <> v -> y = x0 \/ y = x1 \/ y = x2).
  { intros f y Hf Sf NV. destruct (EX f y v Hf Sf (or_intror eq_refl)) as [e [He J]].
    assert (J' : ends e v y) by (unfold ends in *; tauto).
    assert (NV' : v <> y) by congruence.
    destruct (ALL e He) as [<-|[<-|[<-|[]]]]; [left|right; left|right; right]; eapply EJ; eauto. }
  assert (Z0 := YX g0 y0 I0 E0 N03). assert (Z1 := YX g1 y1 I1 E1 N13). assert (Z2 := YX g2 y2 I2 E2 N23).
  exists g0, g1, g2, x0, x1, x2.
  split; [reflexivity|]. split; [exact C1|]. split; [exact C2|].
  split; [exact (rot3_after _ _ _ _ R0 (cf_corners _ C g0 I0))|]. split; [exact (rot3_after _ _ _ _ R1 (cf_corners _ C g1 I1))|].
  split; [exact (rot3_after _ _ _ _ R2 (cf_corners _ C g2 I2))|].
  assert (ON : forall f, In f (facets m) -> In v (corners (fa_sh f)) -> f = g0 \/ f = g1 \/ f = g2).
  { intros f Hf Hv. assert (X := proj2 (IN f) (conj Hf Hv)). destruct X as [X|[X|[X|[]]]]; auto. }
  assert (T0 := tri_in m g0 C I0 K0). assert (T1 := tri_in m g1 C I1 K1). assert (T2 := tri_in m g2 C I2 K2).
  assert (CASES : (y0 = x1 /\ y1 = x2 /\ y2 = x0) \/ (y0 = x2 /\ y2 = x1 /\ y1 = x0)) by (clear - Z0 Z1 Z2 N02 N12 N22 Y01 Y02 Y12; lia).
  clear - CASES ON T0 T1 T2 R0 R1 R2. destruct CASES as [[-> [-> ->]]|[-> [-> ->]]].
  - left. constructor; assumption.
  - right. constructor; try assumption. intros f Hf Hv. destruct (ON f Hf Hv) as [X|[X|X]]; auto.
Qed.

Section Star.
Variable m : mesh.
Variable v : nat.
Variables g0 g1 g2 : facet.
Variables x0 x1 x2 : nat.
Hypothesis S : sound m.
Hypothesis T : star m v g0 g1 g2 x0 x1 x2.
Let C := sd_conf _ S.
Let A := sd_addr _ S.

Lemma st_in : In g0 (facets m) /\ In g1 (facets m) /\ In g2 (facets m).
Proof. destruct T. split; [|split]; apply in_or_app; auto. Qed.
Lemma st_sides : Permutation (sides g0 ++ sides g1 ++ sides g2)
  ([(x0, x1); (x1, x2); (x2, x0)] ++ [(v, x0); (x0, v)] ++ [(v, x1); (x1, v)] ++ [(v, x2); (x2, v)]).
Proof.
  rewrite (rot3_sides g0 _ _ _ (st_0 _ _ _ _ _ _ _ _ T)), (rot3_sides g1 _ _ _ (st_1 _ _ _ _ _ _ _ _ T)), (rot3_sides g2 _ _ _ (st_2 _ _ _ _ _ _ _ _ T)).
  cbn [app]. perm.
Qed.
Definition hull_area : Q := tri_area (mh_pos m x0) (mh_pos m x1) (mh_pos m x2).
Lemma st_area : hull_area == fa_area (mh_pos m) g0 + fa_area (mh_pos m) g1 + fa_area (mh_pos m) g2.
Proof.
  assert (E : hull_area == esum (half_cross (mh_pos m)) [(x0, x1); (x1, x2); (x2, x0)]).
  { exact (fa_area_sides (mh_pos m) (FA 0 (Tri3 x0 x1 x2) 0%Z false)). }
  rewrite E, !fa_area_sides, <- Qplus_assoc, <- !esum_app, (esum_perm _ _ _ st_sides), !esum_app.
  unfold esum, half_cross. cbn [fst snd]. ring.
Qed.
Lemma st_pos : 0 < fa_area (mh_pos m) g0 /\ 0 < fa_area (mh_pos m) g1 /\ 0 < fa_area (mh_pos m) g2 /\ 0 < hull_area.
Proof.
  destruct st_in as [I0 [I1 I2]]. assert (P := sd_pos _ S). assert (P0 := P g0 I0). assert (P1 := P g1 I1). assert (P2 := P g2 I2).
  assert (E := st_area). repeat split; try assumption. lra.
Qed.
Lemma st_distinct : v <> x0 /\ v <> x1 /\ v <> x2 /\ x0 <> x1 /\ x1 <> x2 /\ x2 <> x0.
Proof.
  destruct st_in as [I0 [I1 I2]].
  assert (N0 := rot3_nodup _ _ _ _ (st_0 _ _ _ _ _ _ _ _ T) (cf_corners _ C g0 I0)).
  assert (N1 := rot3_nodup _ _ _ _ (st_1 _ _ _ _ _ _ _ _ T) (cf_corners _ C g1 I1)).
  assert (N2 := rot3_nodup _ _ _ _ (st_2 _ _ _ _ _ _ _ _ T) (cf_corners _ C g2 I2)).
  intuition congruence.
Qed.
Lemma st_nodup : NoDup [g0; g1; g2].
Proof.
  destruct st_distinct as [D1 [D2 [D3 [D4 [D5 D6]]]]].
  assert (R0 := st_0 _ _ _ _ _ _ _ _ T). assert (R1 := st_1 _ _ _ _ _ _ _ _ T). assert (R2 := st_2 _ _ _ _ _ _ _ _ T).
  unfold rot3 in *. repeat constructor; cbn [In]; intros X; or_destruct X; try contradiction; subst;
    repeat match goal with H : _ \/ _ |- _ => destruct H end; congruence.
Qed.
Lemma st_edge x y z (f g : facet) : In f (facets m) -> In g (facets m) -> rot3 (fa_sh f) v x y -> rot3 (fa_sh g) v z x ->
  exists e, find_edge (mh_intr m) v x = Some e /\ In e (mh_intr m) /\ ends e v x.
Proof.
  intros Hf Hg R1 R2. destruct (rot3_in_sides _ _ _ _ R1) as [A1 _]. destruct (rot3_in_sides _ _ _ _ R2) as [_ [_ A2]].
  destruct (interior_edge m v x C) as [e [He J]]; [apply all_sides_in; eauto|apply all_sides_in; eauto|].
  destruct (find_edge_some (mh_intr m) v x e He ltac:(unfold ends; tauto)) as [e' [E [He' J']]]. eauto.
Qed.

(* two neighbouring vertices cannot both be centres: the triangle on the other
   side would have negative area *)
Lemma st_no_neighbour k0 k1 k2 p0 p1 p2 : star m x0 k0 k1 k2 p0 p1 p2 -> False.
Proof.
  intros K. destruct st_in as [I0 [I1 I2]]. destruct st_distinct as [D1 [D2 [D3 [D4 [D5 D6]]]]].
  assert (R0 := st_0 _ _ _ _ _ _ _ _ T). assert (R2 := st_2 _ _ _ _ _ _ _ _ T).
  assert (V0 : In x0 (corners (fa_sh g0))) by (apply (rot3_corner _ _ _ _ x0 R0); auto).
  assert (V2 : In x0 (corners (fa_sh g2))) by (apply (rot3_corner _ _ _ _ x0 R2); auto).
  assert (O0 := st_only _ _ _ _ _ _ _ _ K g0 I0 V0). assert (O2 := st_only _ _ _ _ _ _ _ _ K g2 I2 V2).
  assert (Q0 := st_0 _ _ _ _ _ _ _ _ K). assert (Q1 := st_1 _ _ _ _ _ _ _ _ K). assert (Q2 := st_2 _ _ _ _ _ _ _ _ K).
  (* the third triangle *)
  assert (TH : exists t, In t (facets m) /\ rot3 (fa_sh t) x0 x2 x1).
  { assert (B0 : rot3 (fa_sh g0) x0 x1 v) by (clear - R0; unfold rot3 in *; tauto). assert (B2 : rot3 (fa_sh g2) x0 v x2) by (clear - R2; unfold rot3 in *; tauto).
    assert (IK0 : In k0 (facets m)) by (apply in_or_app; right; exact (st_i0 _ _ _ _ _ _ _ _ K)).
    assert (IK1 : In k1 (facets m)) by (apply in_or_app; right; exact (st_i1 _ _ _ _ _ _ _ _ K)).
    assert (IK2 : In k2 (facets m)) by (apply in_or_app; right; exact (st_i2 _ _ _ _ _ _ _ _ K)).
    assert (U : forall f a b a' b', In f (facets m) -> rot3 (fa_sh f) x0 a b -> rot3 (fa_sh f) x0 a' b' -> a = a' /\ b = b').
    { intros f a b a' b' Hf U1 U2. assert (N := rot3_nodup _ _ _ _ U1 (cf_corners _ C f Hf)). destruct N as [N1 [N2 N3]].
      unfold rot3 in U1, U2. destruct U1 as [U1|[U1|U1]], U2 as [U2|[U2|U2]]; rewrite U1 in U2; injection U2; intros; subst; split; congruence. }
    assert (NVX : v <> x2) by exact D3.
    destruct O0 as [E|[E|E]]; subst g0.
    - destruct (U k0 _ _ _ _ IK0 B0 Q0) as [<- <-].
      destruct O2 as [E|[E|E]]; subst g2.
      + destruct (U k0 _ _ _ _ IK0 B2 Q0) as [E1 E2]. congruence.
      + destruct (U k1 _ _ _ _ IK1 B2 Q1) as [E1 E2]. subst p2. exists k2. split; [exact IK2|exact Q2].
      + destruct (U k2 _ _ _ _ IK2 B2 Q2) as [E1 E2]. congruence.
    - destruct (U k1 _ _ _ _ IK1 B0 Q1) as [<- <-].
      destruct O2 as [E|[E|E]]; subst g2.
      + destruct (U k0 _ _ _ _ IK0 B2 Q0) as [E1 E2]. congruence.
      + destruct (U k1 _ _ _ _ IK1 B2 Q1) as [E1 E2]. congruence.
      + destruct (U k2 _ _ _ _ IK2 B2 Q2) as [E1 E2]. subst p0. exists k0. split; [exact IK0|exact Q0].
    - destruct (U k2 _ _ _ _ IK2 B0 Q2) as [<- <-].
      destruct O2 as [E|[E|E]]; subst g2.
      + destruct (U k0 _ _ _ _ IK0 B2 Q0) as [E1 E2]. subst p1. exists k1. split; [exact IK1|exact Q1].
      + destruct (U k1 _ _ _ _ IK1 B2 Q1) as [E1 E2]. congruence.
      + destruct (U k2 _ _ _ _ IK2 B2 Q2) as [E1 E2]. congruence. }
  destruct TH as [t [It Rt]]. assert (P := sd_pos _ S t It). destruct st_pos as [_ [_ [_ H]]].
  rewrite fa_area_sides, (esum_perm _ _ _ (rot3_sides t _ _ _ Rt)) in P. unfold hull_area in H.
  unfold tri_area, vcross, vsub in H. cbn [vx vy] in H. unfold esum, half_cross in P. cbn [fst snd] in P. lra.
Qed.
End Star.

Lemma star_rotate m v g0 g1 g2 x0 x1 x2 : star m v g0 g1 g2 x0 x1 x2 -> star m v g1 g2 g0 x1 x2 x0.
Proof. intros []. constructor; try assumption. intros f Hf Hv. destruct (st_only0 f Hf Hv) as [X|[X|X]]; auto. Qed.

(* two vertices chosen by the pass have no triangle in common *)
Lemma degenerate_apart m v w g0 g1 g2 x0 x1 x2 : sound m -> star m v g0 g1 g2 x0 x1 x2 -> degenerate m w = true -> w <> v ->
  w <> x0 /\ w <> x1 /\ w <> x2.
Proof.
  intros S T D N. destruct (degenerate_star m w (sd_conf _ S) D) as [_ [k0 [k1 [k2 [p0 [p1 [p2 [_ [_ [_ [_ [_ [_ K]]]]]]]]]]]]].
  repeat split; intros E; subst w; destruct K as [K|K].
  - exact (st_no_neighbour _ _ _ _ _ _ _ _ S T _ _ _ _ _ _ K).
  - exact (st_no_neighbour _ _ _ _ _ _ _ _ S T _ _ _ _ _ _ K).
  - exact (st_no_neighbour _ _ _ _ _ _ _ _ S (star_rotate _ _ _ _ _ _ _ _ T) _ _ _ _ _ _ K).
  - exact (st_no_neighbour _ _ _ _ _ _ _ _ S (star_rotate _ _ _ _ _ _ _ _ T) _ _ _ _ _ _ K).
  - exact (st_no_neighbour _ _ _ _ _ _ _ _ S (star_rotate _ _ _ _ _ _ _ _ (star_rotate _ _ _ _ _ _ _ _ T)) _ _ _ _ _ _ K).
  - exact (st_no_neighbour _ _ _ _ _ _ _ _ S (star_rotate _ _ _ _ _ _ _ _ (star_rotate _ _ _ _ _ _ _ _ T)) _ _ _ _ _ _ K).
Qed.

(* ---------- exactly the rings of three triangles are degenerate ---------- *)
Lemma tri_rot3_sides m f v x y : conforming m -> In f (mh_tris m) -> In (v, x) (sides f) -> In (y, v) (sides f) -> rot3 (fa_sh f) v x y.
Proof.
  intros C Hf S1 S2. assert (ND := cf_corners _ C f (in_or_app _ _ _ (or_intror Hf))). destruct (cf_tris _ C f Hf) as [a [b [c E]]].
  unfold sides, rot3 in *. rewrite E in *. cbn [corners ring_edges path_edges app In] in *. apply nodup3 in ND. destruct ND as [D1 [D2 D3]].
  clear - S1 S2 D1 D2 D3. or_destruct S1; try contradiction; or_destruct S2; try contradiction; apply pair_eq in S1; apply pair_eq in S2; destruct S1, S2; subst; auto; congruence.
Qed.
Lemma star_ring m v f g h x y z : sound m -> In f (mh_tris m) -> In g (mh_tris m) -> In h (mh_tris m) ->
  rot3 (fa_sh f) v x y -> rot3 (fa_sh g) v y z -> rot3 (fa_sh h) v z x -> star m v f g h x y z.
Proof.
  intros S If Ig Ih Rf Rg Rh. assert (C := sd_conf _ S). constructor; try assumption.
  assert (F : In f (facets m)) by (apply in_or_app; auto). assert (G : In g (facets m)) by (apply in_or_app; auto). assert (H : In h (facets m)) by (apply in_or_app; auto).
  assert (CL : forall s t, (s = f \/ s = g \/ s = h) -> meet_at m v s t -> t = f \/ t = g \/ t = h).
  { intros s t Hs [Is [It [a [b [S1 [S2 J]]]]]].
    assert (V := fun k p q R => rot3_nodup (fa_sh k) v p q R).
    assert (ST : forall k p q (l r : facet), In k (facets m) -> rot3 (fa_sh k) v p q -> In l (facets m) -> In r (facets m) -> In (p, v) (sides l) -> In (v, q) (sides r) ->
      In (a, b) (sides k) -> t = l \/ t = r).
    { intros k p q l r Hk Rk Hl Hr Sl Sr Sk. destruct (rot3_nodup _ _ _ _ Rk (cf_corners _ C k Hk)) as [N1 [N2 N3]].
      apply (Permutation_in _ (rot3_sides k v p q Rk)) in Sk. destruct Sk as [E|[E|[E|[]]]]; apply pair_eq in E; destruct E as [E1 E2]; subst a b.
      - left. exact (side_owner m t l _ C It Hl S2 Sl).
      - exfalso. clear - J N1 N2 N3. destruct J; congruence.
      - right. exact (side_owner m t r _ C It Hr S2 Sr). }
    destruct (rot3_in_sides _ _ _ _ Rf) as [F1 [_ F2]]. destruct (rot3_in_sides _ _ _ _ Rg) as [G1 [_ G2]]. destruct (rot3_in_sides _ _ _ _ Rh) as [H1 [_ H2]].
    destruct Hs as [ -> |[ -> | -> ]].
    - destruct (ST f x y h g F Rf H G H2 G1 S1); auto.
    - destruct (ST g y z f h G Rg F H F2 H1 S1); auto.
    - destruct (ST h z x g f H Rh G F G2 F1 S1); auto. }
  intros k Hk Vk. assert (P := sd_fans _ S v f k F Hk (proj1 (side_corners f _ _ (proj1 (rot3_in_sides _ _ _ _ Rf)))) Vk).
  apply clos_rt_rtn1 in P. clear Hk Vk. induction P as [|s t M P IH]; [auto|]. exact (CL s t IH M).
Qed.
Lemma ring_degenerate m v : sound m -> three_ring m v -> has_property (mh_prop m v) v_is_fixed = false -> degenerate m v = true.
Proof.
  intros S [f [g [h [x [y [z [If [Ig [Ih [Cg [Ch [F1 [F2 [G1 [G2 [H1 H2]]]]]]]]]]]]]]]] FX. assert (C := sd_conf _ S).
  assert (Rf := tri_rot3_sides m f v x y C If F1 F2). assert (Rg := tri_rot3_sides m g v y z C Ig G1 G2). assert (Rh := tri_rot3_sides m h v z x C Ih H1 H2).
  assert (T := star_ring m v f g h x y z S If Ig Ih Rf Rg Rh).
  assert (NF := st_nodup _ _ _ _ _ _ _ _ S T). destruct (st_in _ _ _ _ _ _ _ _ T) as [F [G H]].
  destruct (st_distinct _ _ _ _ _ _ _ _ S T) as [D1 [D2 [D3 [D4 [D5 D6]]]]].
  assert (Vf := proj1 (side_corners f _ _ F1)). assert (Vg := proj1 (side_corners g _ _ G1)). assert (Vh := proj1 (side_corners h _ _ H1)).
  assert (PF : Permutation [f; g; h] (facets_at m v)).
  { apply NoDup_Permutation; [exact NF|exact (facets_at_nodup m v C)|]. intros k. rewrite facets_at_in. split.
    - intros [<-|[<-|[<-|[]]]]; auto.
    - intros [Hk Vk]. destruct (st_only _ _ _ _ _ _ _ _ T k Hk Vk) as [ -> |[ -> | -> ]]; cbn; auto. }
  assert (ALL : forall k, In k (facets_at m v) -> n_corners k = 3%nat /\ fa_col k = fa_col f).
  { intros k Hk. apply (Permutation_in _ (Permutation_sym PF)) in Hk. unfold n_corners.
    destruct Hk as [<-|[<-|[<-|[]]]]; (split; [|congruence]);
      match goal with |- length (corners (fa_sh ?k)) = _ => destruct (cf_tris _ C k ltac:(assumption)) as [? [? [? E]]]; rewrite E; reflexivity end. }
  assert (LF := Permutation_length PF). cbn [length] in LF.
  assert (LE : length (edges_at m v) = 3%nat).
  { assert (EX : forall a b, In (a, b) (all_sides m) -> a = v \/ b = v -> exists e, In e (edges_at m v) /\ ends e a b).
    { intros a b Sf J. destruct (cf_cover _ C a b Sf) as [e [He Je]]. exists e. split; [|unfold ends; tauto].
      apply edges_at_in. split; [exact He|]. destruct Je as [[-> ->]|[-> ->]]; tauto. }
    destruct (EX v x (proj2 (all_sides_in m _) (ex_intro _ f (conj F F1))) (or_introl eq_refl)) as [e0 [He0 J0]].
    destruct (EX v y (proj2 (all_sides_in m _) (ex_intro _ g (conj G G1))) (or_introl eq_refl)) as [e1 [He1 J1]].
    destruct (EX v z (proj2 (all_sides_in m _) (ex_intro _ h (conj H H1))) (or_introl eq_refl)) as [e2 [He2 J2]].
    assert (EJ : forall e a b, ends e v a -> ends e v b -> v <> a -> a = b) by (unfold ends; clear; intros e a b [[P1 P2]|[P1 P2]] [[Q1 Q2]|[Q1 Q2]] NV; congruence).
    assert (NE : NoDup [e0; e1; e2]).
    { constructor; [intros [X|[X|[]]]|constructor; [intros [X|[]]|constructor; [intros []|constructor]]]; subst.
      - apply D4. exact (EJ e0 x y J0 J1 D1).
      - apply D6. symmetry. exact (EJ e0 x z J0 J2 D1).
      - apply D5. exact (EJ e1 y z J1 J2 D2). }
    assert (PE : Permutation [e0; e1; e2] (edges_at m v)).
    { apply NoDup_Permutation; [exact NE|apply NoDup_filter; exact (NoDup_map_inv' ed_id _ (cf_eids _ C))|].
      intros e. split; [intros [<-|[<-|[<-|[]]]]; assumption|]. intros He. apply edges_at_in in He. destruct He as [He J].
      assert (SI : In (ed_1 e, ed_2 e) (all_sides m)).
      { apply in_app_or in He. destruct He as [He|He]; [apply (cf_intr _ C e He)|apply (cf_bdry _ C e He)]. }
      assert (OWN := SI). apply all_sides_in in OWN. destruct OWN as [k [Hk Sk]].
      assert (Vk : In v (corners (fa_sh k))) by (destruct (side_corners k _ _ Sk); destruct J as [<-|<-]; assumption).
      assert (EQ : forall p e', (p = x \/ p = y \/ p = z) -> ends e' v p -> In e' (edges_at m v) -> ends e v p -> e = e').
      { intros p e' _ Je' He' Je. apply edges_at_in in He'. apply (cf_single _ C e e' He (proj1 He')). clear - Je Je'. unfold same_pair, ends in *.
        destruct Je as [[-> ->]|[-> ->]], Je' as [[-> ->]|[-> ->]]; auto. }
      assert (EN : ends e v x \/ ends e v y \/ ends e v z).
      { assert (ST : forall k p q, In k (facets m) -> rot3 (fa_sh k) v p q -> In (ed_1 e, ed_2 e) (sides k) -> ends e v p \/ ends e v q).
        { clear - J C. intros k p q Hk Rk Sk. destruct (rot3_nodup _ _ _ _ Rk (cf_corners _ C k Hk)) as [N1 [N2 N3]].
          apply (Permutation_in _ (rot3_sides k v p q Rk)) in Sk. unfold ends. destruct Sk as [E|[E|[E|[]]]]; apply pair_eq in E; destruct E as [E1 E2]; rewrite <- E1, <- E2 in *; auto.
          exfalso. destruct J; congruence. }
        destruct (st_only _ _ _ _ _ _ _ _ T k Hk Vk) as [ -> |[ -> | -> ]];
          [destruct (ST f x y F Rf Sk)|destruct (ST g y z G Rg Sk)|destruct (ST h z x H Rh Sk)]; auto. }
      destruct EN as [EN|[EN|EN]].
      - left. symmetry. exact (EQ x e0 ltac:(auto) J0 He0 EN).
      - right; left. symmetry. exact (EQ y e1 ltac:(auto) J1 He1 EN).
      - right; right; left. symmetry. exact (EQ z e2 ltac:(auto) J2 He2 EN). }
    rewrite <- (Permutation_length PE). reflexivity. }
  unfold degenerate. rewrite FX. destruct (facets_at m v) as [|k0 [|k1 [|k2 [|]]]]; cbn [length] in LF; try discriminate LF.
  destruct (ALL k0 ltac:(cbn; auto)) as [A0 B0]. destruct (ALL k1 ltac:(cbn; auto)) as [A1 B1]. destruct (ALL k2 ltac:(cbn; auto)) as [A2 B2].
  rewrite LE, A0, A1, A2, B0, B1, B2, Z.eqb_refl. reflexivity.
Qed.
Lemma star_three_ring m v f g h x y z : star m v f g h x y z -> fa_col g = fa_col f -> fa_col h = fa_col f -> three_ring m v.
Proof.
  intros T C1 C2. exists f, g, h, x, y, z. destruct T as [R0 R1 R2 I0 I1 I2 _].
  destruct (rot3_in_sides _ _ _ _ R0) as [A0 [_ B0]]. destruct (rot3_in_sides _ _ _ _ R1) as [A1 [_ B1]]. destruct (rot3_in_sides _ _ _ _ R2) as [A2 [_ B2]].
  repeat (split; [assumption|]). assumption.
Qed.
Lemma degenerate_ring m v : sound m -> degenerate m v = true -> three_ring m v /\ has_property (mh_prop m v) v_is_fixed = false.
Proof.
  intros S D. destruct (degenerate_star m v (sd_conf _ S) D) as [F [g0 [g1 [g2 [x0 [x1 [x2 [_ [C1 [C2 [_ [_ [_ [T|T]]]]]]]]]]]]]]; split; try exact F.
  - exact (star_three_ring _ _ _ _ _ _ _ _ T C1 C2).
  - exact (star_three_ring _ _ _ _ _ _ _ _ T C2 C1).
Qed.
