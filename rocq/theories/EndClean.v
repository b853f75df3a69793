(* The clean-up of doubled edges keeps elements simple, so that the conversion to
   quadrilaterals covers the region of the triangulation exactly. *)
From Coq Require Import Lqa Lia Permutation.
From Verif Require Import Base Chain GeomModel GeomSpec UtilModel FacetModel MeshModel MeshSpec MeshProofs QRefineModel QRefineSpec QRefineShape QRefineConf QRefineProps
  CleanModel CleanSpec CleanProofs CleanPass CleanScan CleanProps T2QModel T2QSpec T2QProofs T2QProps FinPipe WindSpec WindProofs WindMesh WindMeshProps.
Open Scope Q_scope.

(* a point that sees all four sides from the left *)
Lemma star_cuts A B C D P R : 0 < A -> 0 < B -> 0 < C -> 0 < D -> P * R == A * C - B * D ->
  (0 < A + B - P /\ 0 < P + C + D) \/ (0 < B + C - R /\ 0 < R + D + A).
Proof.
  intros a b c d E. destruct (Qlt_le_dec 0 (A + B - P)) as [X1|X1].
  - destruct (Qlt_le_dec 0 (P + C + D)) as [X2|X2]; [left; split; assumption|right].
    split; [destruct (Qlt_le_dec 0 (B + C - R)) as [Y|Y]|destruct (Qlt_le_dec 0 (R + D + A)) as [Y|Y]]; try assumption; exfalso; nra.
  - right. split; [destruct (Qlt_le_dec 0 (B + C - R)) as [Y|Y]|destruct (Qlt_le_dec 0 (R + D + A)) as [Y|Y]]; try assumption; exfalso; nra.
Qed.
Lemma star_quad x a b c d : 0 < det x a b -> 0 < det x b c -> 0 < det x c d -> 0 < det x d a -> cuts a b c d \/ cuts b c d a.
Proof.
  intros A B C D. assert (E : det x a c * det x b d == det x a b * det x c d - det x b c * det x d a) by (unfold det; ring).
  assert (E1 : det a b c == det x a b + det x b c - det x a c) by (unfold det; ring). assert (E2 : det a c d == det x a c + det x c d + det x d a) by (unfold det; ring).
  assert (E3 : det b c d == det x b c + det x c d - det x b d) by (unfold det; ring). assert (E4 : det b d a == det x b d + det x d a + det x a b) by (unfold det; ring).
  unfold cuts. rewrite E1, E2, E3, E4. exact (star_cuts _ _ _ _ _ _ A B C D E).
Qed.
Lemma rot4_simple pos s a b c d : rot4 s a b c d ->
  simple_shape pos s <-> cuts (pos a) (pos b) (pos c) (pos d) \/ cuts (pos b) (pos c) (pos d) (pos a).
Proof.
  assert (G : forall w x y z, cuts w x y z <-> cuts y z w x).
  { intros w x y z. unfold cuts. assert (E1 : det w x y == det y w x) by (unfold det; ring). assert (E2 : det w y z == det y z w) by (unfold det; ring). rewrite E1, E2. tauto. }
  assert (G1 := G (pos a) (pos b) (pos c) (pos d)). assert (G2 := G (pos b) (pos c) (pos d) (pos a)).
  intros [-> |[-> |[-> | ->]]]; cbn [simple_shape]; tauto.
Qed.
(* two simple quads with two common sides *)
Lemma doubled_simple x v1 v3 o1 o :
  cuts v1 x v3 o1 \/ cuts x v3 o1 v1 -> cuts v3 x v1 o \/ cuts x v1 o v3 -> cuts o1 v1 o v3 \/ cuts v1 o v3 o1.
Proof.
  assert (T : forall p q r, det p q r == det q r p) by (intros p q r; unfold det; ring).
  assert (N : det v3 x v1 == - det v1 x v3) by (unfold det; ring).
  intros [[H1 H2]|[H1 H2]] [[K1 K2]|[K1 K2]].
  - exfalso. lra.
  - right. unfold cuts.
    assert (E1 : det v1 o v3 == det x v1 o + det x o v3 + det v1 x v3) by (unfold det; ring). rewrite E1. split; lra.
  - right. unfold cuts.
    assert (E1 : det v1 v3 o1 == det x v3 o1 + det x o1 v1 + det v3 x v1) by (unfold det; ring).
    assert (E2 : det v1 o v3 == det v3 v1 o) by (unfold det; ring). rewrite E1, E2. split; lra.
  - apply (star_quad x); assumption.
Qed.
Lemma after_simple quad4 m d v1 v3 o : sound m -> pairing quad4 m d v1 v3 o -> simple_elements m -> simple_elements (after quad4 m d v1 v3 o).
Proof.
  intros S P SE f Hf. destruct (after_pos quad4 m d v1 v3 o P) as [AP _]. rewrite AP.
  destruct (after_in quad4 m d v1 v3 o f S P Hf) as [H| ->]; [exact (SE f H)|]. destruct quad4.
  - assert (Q := SE _ (pg_in_q _ _ _ _ _ _ P)). assert (N := SE _ (pg_in_n _ _ _ _ _ _ P)).
    apply (rot4_simple _ _ _ _ _ _ (pg_rq _ _ _ _ _ _ P)) in Q. apply (rot4_simple _ _ _ _ _ _ (pg_rn _ _ _ _ _ _ P)) in N.
    cbn [created fa_sh simple_shape]. exact (doubled_simple _ _ _ _ _ Q N).
  - apply (positive_tri (mh_pos m) (created false m d v1 v3 o) v3 (db_o1 d) v1 eq_refl). exact (pg_h_pos _ _ _ _ _ _ S P).
Qed.
Lemma pass_simple quad4 init m m' : sound m -> init = true \/ linked m -> pass quad4 (if init then setup_facet_connectivity m else m) = Ok m' ->
  simple_elements m -> simple_elements m'.
Proof.
  intros S I E SE. destruct (prepared init m S I) as [S0 [L0 _]]. apply (pass_inv quad4 simple_elements (after_simple quad4) (fun m O => O) _ m' S0 L0 E).
  destruct init; exact SE.
Qed.
Lemma swapped_simple own m m' ds : sound m -> swapped own m m' ds -> simple_elements m -> simple_elements m'.
Proof.
  intros S SW SE f Hf. assert (P := kp_pos _ _ (sw_keeps _ _ _ _ SW)). rewrite P.
  unfold facets in Hf. rewrite (sw_quads _ _ _ _ SW), <- app_assoc in Hf. apply in_app_or in Hf. destruct Hf as [Hf|Hf]; [apply SE, in_or_app; left; exact Hf|].
  apply in_app_or in Hf. destruct Hf as [Hf|Hf].
  - apply in_map_iff in Hf. destruct Hf as [[[l r] h] [E Hd]]. cbn in E. subst h. assert (J := sw_joined _ _ _ _ SW l r f Hd).
    assert (L : forall x, In x [l; r] -> In x (facets m)).
    { intros x Hx. apply in_or_app. right. apply (Permutation_in _ (Permutation_sym (sw_tris _ _ _ _ SW))). apply in_or_app. left. apply in_flat_map. exists (l, r, f). auto. }
    assert (Hl := L l (or_introl eq_refl)). assert (Hr := L r (or_intror (or_introl eq_refl))).
    exact (joined_simple (mh_pos m) l r f J (cf_corners _ (sd_conf _ S) l Hl) (cf_corners _ (sd_conf _ S) r Hr) (SE l Hl) (SE r Hr)).
  - apply SE, in_or_app. right. apply (Permutation_in _ (Permutation_sym (sw_tris _ _ _ _ SW))), in_or_app. right. exact Hf.
Qed.
Lemma converted own m m' ds : sound m -> merge_triangles own (setup_facet_connectivity m) = Ok m' -> swapped own (setup_facet_connectivity m) m' ds -> simple_elements m ->
  exists m2, tri2quad own m = Ok m2 /\ keeps m m2 /\ simple_elements m2.
Proof.
  intros S E SW SE. assert (K1 := keeps_trans _ _ _ (setup_keeps m S) (sw_keeps _ _ _ _ SW)).
  assert (SE1 := swapped_simple own _ _ _ (setup_sound m S) SW SE).
  destruct (pass_kept true true m' (kp_sound _ _ K1) (or_introl eq_refl)) as [m2 [E2 [K2 [L2 _]]]].
  assert (SE2 := pass_simple true true m' m2 (kp_sound _ _ K1) (or_introl eq_refl) E2 SE1).
  destruct (pass_kept false false m2 (kp_sound _ _ K2) (or_intror L2)) as [m3 [E3 [K3 _]]].
  assert (SE3 := pass_simple false false m2 m3 (kp_sound _ _ K2) (or_intror L2) E3 SE2).
  exists m3. split; [|split; [exact (keeps_trans _ _ _ (keeps_trans _ _ _ K1 K2) K3)|exact SE3]].
  unfold tri2quad. rewrite E. cbn [obind]. rewrite pass_quads, E2. cbn [obind]. rewrite pass_tris. exact E3.
Qed.
Lemma tris_simple m : sound m -> mh_quads m = [] -> simple_elements m.
Proof.
  intros S NQ f Hf. assert (P := sd_pos _ S f Hf). unfold facets in Hf. rewrite NQ in Hf. destruct (cf_tris _ (sd_conf _ S) f Hf) as (a & b & c & E). exact (positive_tri _ f a b c E P).
Qed.

(* repeated refinement *)
Lemma refined_many k : forall c, refinable c -> (forall f, In f (facets c) -> strictly_convex (mh_pos c) f) ->
  exists m, refine_n k c = Ok m /\ refinable m /\ simple_elements m /\ (forall f, In f (facets m) -> strictly_convex (mh_pos m) f) /\ forall p, mesh_region m p == mesh_region c p.
Proof.
  induction k as [|k IH]; intros c R CV.
  - exists c. split; [reflexivity|]. split; [exact R|]. split; [intros f I; apply convex_simple, CV, I|]. split; [exact CV|intros p; reflexivity].
  - destruct (C50_refined c R CV) as (m & E & G & _). destruct (C31_convex_partial c R CV) as (m1 & E1 & CM). rewrite E in E1. injection E1 as <-.
    destruct (C31_preserved_partial c R) as (m1 & E1 & RM & _). rewrite E in E1. injection E1 as <-.
    destruct (IH m RM CM) as (m2 & E2 & R2 & S2 & C2 & G2). exists m2. cbn [refine_n]. rewrite E. cbn [obind fst]. split; [exact E2|]. split; [exact R2|]. split; [exact S2|]. split; [exact C2|].
    intros p. rewrite (G2 p). apply G.
Qed.
