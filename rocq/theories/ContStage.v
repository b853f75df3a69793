(* Stages of a triangulation: proofs for ContProps. *)
From Coq Require Import Lqa Lia Permutation.
From Verif Require Import Base Chain GeomModel GeomSpec GeomProofs FacetModel UtilModel BdryModel BdrySpec
  AdvanceModel AdvanceSpec AdvanceProofs AdvanceInv AdvanceMore AdvanceGeom MeshModel MeshSpec QRefineModel WindSpec WindProofs ClearSpec ClearRun
  ClearEnd FinModel FinMesh QTileSpec MixSpec MixShape MixRun ContModel ContSpec OpenConn ContProofs ContMesh.
Open Scope Q_scope.

Lemma centred_ext pos pos' f : (forall v, In v (corners (fa_sh f)) -> pos' v = pos v) -> centred pos f -> centred pos' f.
Proof.
  intros E C a b J. assert (IN : In a (corners (fa_sh f)) /\ In b (corners (fa_sh f))).
  { unfold sides, ring_edges in J. destruct (fa_sh f) as [x y z|x y z w]; cbn in J |- *; intuition (try match goal with H : (_, _) = (_, _) |- _ => injection H as <- <- end; auto). }
  assert (X : fa_xy pos' f = fa_xy pos f).
  { unfold fa_xy. destruct (fa_sh f) as [x y z|x y z w]; cbn [corners In] in E; rewrite !E by tauto; reflexivity. }
  rewrite X, !E by tauto. exact (C a b J).
Qed.

(* ---- a mesh between two stages ---- *)
Section Mid.
Variable pos : nat -> vec2.
Variable gen : list tri.
Variable f0 : list bedge.
Variable m : mesh.
Hypothesis S0 : simple_front pos f0.
Hypothesis MW : midway pos gen f0 m.
Notation m1 := (setup_facet_connectivity m).
Let P := mw_way _ _ _ _ MW.
Let L := mw_laid _ _ _ _ MW.
Lemma mid_shapes : Permutation (elements (opened m1)) (map fa_sh (facets m)).
Proof.
  unfold elements. rewrite (neat_gen _ _ _ (pw_neat _ _ _ _ _ _ P)). cbn [opened ms_tris ms_quads setup_facet_connectivity mh_tris mh_quads]. unfold facets. rewrite map_app.
  apply (Permutation_trans (Permutation_app_comm _ _)).
  assert (E1 : map quad_element (flat_map quad_of (mh_quads m)) = map fa_sh (mh_quads m)).
  { rewrite <- (fin_quad_of _ (ld_quads _ L)) at 2. rewrite map_map. reflexivity. }
  assert (E2 : map tri_element (flat_map tri_of (mh_tris m)) = map fa_sh (mh_tris m)).
  { rewrite <- (fin_tri_of _ (ld_tris _ L)) at 2. rewrite map_map. reflexivity. }
  rewrite E1, E2. apply Permutation_refl.
Qed.
Lemma mid_sides : Permutation (flat_map shape_sides (elements (opened m1))) (all_sides m).
Proof. unfold all_sides. rewrite sides_shapes. apply Permutation_flat_map, mid_shapes. Qed.
Lemma mid_once p q : (uses p q (all_sides m) <= 1)%nat.
Proof.
  rewrite <- (uses_perm p q _ _ mid_sides).
  exact (mix_once pos _ f0 _ S0 (pw_simple _ _ _ _ _ _ P) (pw_shape _ _ _ _ _ _ P) (pw_total _ _ _ _ _ _ P) p q).
Qed.
Lemma mid_nodup : NoDup (all_sides m).
Proof. apply (uses_two (p := 0%nat) (q := 0%nat)). exact mid_once. Qed.
Lemma mid_shape f : In f (facets m) -> simple_shape pos (fa_sh f).
Proof. intros J. apply (pw_shape _ _ _ _ _ _ P). apply (Permutation_in _ (Permutation_sym mid_shapes)). apply in_map, J. Qed.
Lemma mid_corners f : In f (facets m) -> NoDup (corners (fa_sh f)).
Proof. intros J. exact (simple_corners pos _ (mid_shape f J)). Qed.
Hypothesis CEN : forall f, In f (facets m) -> centred (mh_pos m) f.
Lemma mid_outer e : In e (mh_bdry m) -> ~ In (ed_2 e, ed_1 e) (all_sides m).
Proof.
  intros J K. apply (in_map msig) in J. rewrite (mw_bdry _ _ _ _ MW) in J. apply in_map_iff in J. destruct J as (x & E & J). unfold sig, msig in E. injection E as E1 E2 _ _. rewrite <- E1, <- E2 in K.
  assert (Z := mix_outer pos _ f0 _ S0 (pw_simple _ _ _ _ _ _ P) (pw_shape _ _ _ _ _ _ P) (pw_total _ _ _ _ _ _ P) x J).
  rewrite (uses_perm _ _ _ _ mid_sides) in Z. apply uses_in in K. lia.
Qed.
Lemma setup_pointed : pointed m1.
Proof.
  assert (PT := mw_point _ _ _ _ MW). constructor.
  - intros e J K. change (all_sides m1) with (all_sides m). unfold all_edges in J. cbn [setup_facet_connectivity mh_intr mh_bdry] in J. apply in_app_or in J.
    destruct J as [J|J]; apply in_map_iff in J; destruct J as (x & <- & J).
    + destruct (connect_ends m x) as (E1 & E2 & _). rewrite E1, E2. apply (connect_cases m (ld_ids _ L) mid_corners mid_nodup CEN x) in K.
      destruct K as [K|K]; [exact K|]. apply (pt_l _ PT); [apply in_or_app; left; exact J|exact K].
    + destruct (connect_bdry_ends m x) as (E1 & E2 & _). rewrite E1, E2. apply (connect_bdry_cases m (ld_ids _ L) mid_corners mid_nodup CEN x (mid_outer x J)) in K.
      destruct K as [K|K]; [exact K|]. apply (pt_l _ PT); [apply in_or_app; right; exact J|exact K].
  - intros e J K. change (all_sides m1) with (all_sides m). cbn [setup_facet_connectivity mh_intr] in J. apply in_map_iff in J; destruct J as (x & <- & J).
    destruct (connect_ends m x) as (E1 & E2 & _). rewrite E1, E2. apply (connect_cases' m (ld_ids _ L) mid_corners mid_nodup CEN x) in K.
    destruct K as [K|K]; [exact K|]. exact (pt_r _ PT x J K).
  - intros k i K. change (facets m1) with (facets m). change (all_sides m1) with (all_sides m). cbn [setup_facet_connectivity mh_nbr] in K.
    destruct (fold_left write_nbr _ (mh_nbr m) k i) as [y|] eqn:E; [|congruence]. apply write_some in E. destruct E as [E|(w & J & E1 & E2)].
    + apply (pt_nbr _ PT k i). congruence.
    + apply in_flat_map in J. destruct J as (e & _ & J). destruct (open_writes m (ld_ids _ L) mid_corners mid_nodup e w J) as (f & j & a & b & F1 & F2 & F3 & F4); [congruence|].
      rewrite E1 in F4. injection F4 as -> ->. exists f, a, b. auto.
Qed.
Lemma setup_new e : In e (mh_intr m1) -> ed_col e = interior_edge_color /\ ed_prop e = 0%N.
Proof.
  cbn [setup_facet_connectivity mh_intr]. intros J. apply in_map_iff in J; destruct J as (x & <- & J). destruct (connect_ends m x) as (_ & _ & _ & E4 & E5 & _). rewrite E4, E5.
  exact (mw_new _ _ _ _ MW x J).
Qed.
Lemma setup_eids : NoDup (map ed_id (all_edges m1)).
Proof.
  assert (E : map ed_id (all_edges m1) = map ed_id (all_edges m)).
  { unfold all_edges. cbn [setup_facet_connectivity mh_intr mh_bdry]. rewrite !map_app, !map_map. f_equal; apply map_ext; intros x; [apply (connect_ends m x)|apply (connect_bdry_ends m x)]. }
  rewrite E. exact (mw_eids _ _ _ _ MW).
Qed.
End Mid.

Section Stage.
Variable rho : vec2 -> Q.
Variable shape_ok : vec2 -> vec2 -> vec2 -> bool.
Variable dom : list (vec2 * vec2).
Variable inside : vec2 -> bool.
Variable qual : mstate -> tri -> Q.
Notation valid := (triangle_is_valid rho shape_ok dom).
Notation vvalid := (vertex_is_valid rho inside).
Variable pos : nat -> vec2.
Variable verts : list nat.
Variable ss : list shape.
Variable f0 : list bedge.
Hypothesis EX : exact_at pos verts.
Hypothesis FO : found_at (near rho) pos f0 (pieces ss).
Hypothesis B0 : forall e, In e f0 -> interior e = false /\ ghost e = false.
Hypothesis S0 : simple_front pos f0.

Lemma lasts_before m st' : neat (mh_scale m) (mh_col m) st' -> lasts pos verts ss (put_back m st') -> before pos verts (pieces ss) st'.
Proof.
  intros N B. constructor.
  - exact (ls_pos _ _ _ _ B).
  - exact (ls_verts _ _ _ _ B).
  - intros t J. rewrite (neat_gen _ _ _ N) in J. assert (K : In (tri_element t) ss).
    { apply (ls_shapes _ _ _ _ B). rewrite back_shapes. apply in_or_app. right. apply in_map, J. }
    exists (TR 0 (tr_v1 t) (tr_v2 t) (tr_v3 t) true 0). split; [|cbn; auto]. unfold pieces. apply in_flat_map. exists (tri_element t). split; [exact K|left; reflexivity].
Qed.
Lemma centred_before m st' : laid m -> after (opened m) st' -> (forall f, In f (facets (put_back m st')) -> centred (ms_pos st') f) ->
  forall f, In f (facets m) -> centred (mh_pos m) f.
Proof.
  intros L A C f J. apply (centred_ext (ms_pos st')); [|apply C, (back_facets m st' L A f J)]. intros v K. symmetry. apply (af_pos _ _ A). cbn [opened ms_verts].
  apply (ld_facets _ L f J), K.
Qed.
(* the mesh with what remains of the front is between two stages again *)
Lemma reopen_midway m st' : midway pos (pieces ss) f0 m -> neat (mh_scale m) (mh_col m) st' -> after (opened (setup_facet_connectivity m)) st' ->
  partway (mh_scale m) pos (pieces ss) f0 (mh_col m) st' ->
  (forall f, In f (facets (put_back (setup_facet_connectivity m) st')) -> centred (ms_pos st') f) ->
  midway pos (pieces ss) f0 (put_back (setup_facet_connectivity m) st') /\ same_state st' (opened (setup_facet_connectivity (put_back (setup_facet_connectivity m) st'))).
Proof.
  intros MW N A P C. pose proof (mw_laid _ _ _ _ MW) as L. pose proof (setup_laid m L) as L1. set (m1 := setup_facet_connectivity m) in *.
  assert (CM : forall f, In f (facets m) -> centred (mh_pos m) f) by exact (centred_before m1 st' L1 A C).
  assert (PT := setup_pointed pos (pieces ss) f0 m S0 MW CM). fold m1 in PT.
  assert (NW := setup_new pos (pieces ss) f0 m MW). fold m1 in NW.
  assert (EI := setup_eids pos (pieces ss) f0 m MW). fold m1 in EI.
  assert (BD : map msig (mh_bdry m1) = map sig f0) by (unfold m1; rewrite setup_bdry_sig; exact (mw_bdry _ _ _ _ MW)).
  assert (NV : mh_verts m1 <> []) by exact (mw_verts _ _ _ _ MW).
  assert (K := rs_kept pos (pieces ss) f0 m1 st' S0 B0 L1 NV A P BD PT C).
  assert (FR := rs_front pos (pieces ss) f0 m1 st' S0 B0 L1 NV A P BD PT NW C).
  split.
  - constructor.
    + exact (back_laid m1 st' L1 N A NV).
    + cbn [put_back mh_verts]. destruct (mh_verts m1) as [|v l] eqn:E; [congruence|]. intros Z.
      assert (X : In v (ms_verts st')) by (apply (af_verts _ _ A); cbn [opened ms_verts]; rewrite E; left; reflexivity). rewrite Z in X. destruct X.
    + exact (rs_partway pos (pieces ss) f0 m1 st' S0 B0 L1 NV A P BD PT NW C).
    + exact BD.
    + exact (rs_pointed m1 st' L1 A PT).
    + exact (rs_new m1 st' NW).
    + exact (rs_eids pos (pieces ss) f0 m1 st' S0 B0 L1 A P BD EI).
  - constructor; try reflexivity; try assumption.
    + exact (tri_of_fin (ms_tris st')).
    + exact (quad_of_fin (ms_quads st')).
    + intros v J. cbn [opened ms_onf ms_front] in *. set (es := front_from _ _) in *.
      assert (E : existsb (incident v) es = existsb (incident v) (ms_front st')).
      { assert (E : forall l, existsb (incident v) l = existsb (fun x => Nat.eqb (fst (fst (fst x))) v || Nat.eqb (snd (fst (fst x))) v) (map sig l)).
        { intros l. induction l as [|e l IH]; [reflexivity|]. cbn [existsb map]. rewrite IH. reflexivity. }
        rewrite !E. clear E. apply eq_true_iff_eq. rewrite !existsb_exists. split; intros (x & X1 & X2); exists x; (split; [|exact X2]).
        - exact (Permutation_in _ (Permutation_sym FR) X1).
        - exact (Permutation_in _ FR X1). }
      rewrite E. cbn [setup_facet_connectivity mh_prop put_back]. unfold fin_prop. set (old := if Nat.ltb v (ms_nv (opened m1)) then mh_prop m1 v else 0%N).
      assert (CL : has_property (N.ldiff old v_on_front) v_on_front = false).
      { unfold has_property. apply negb_false_iff. apply N.eqb_eq. apply N.bits_inj. intros i. rewrite N.land_spec, N.ldiff_spec, N.bits_0. destruct (N.testbit old i), (N.testbit v_on_front i); reflexivity. }
      assert (SE : has_property (N.lor (N.ldiff old v_on_front) v_on_front) v_on_front = true).
      { unfold has_property. apply negb_true_iff. apply N.eqb_neq. intros Z.
        assert (X : N.land (N.lor (N.ldiff old v_on_front) v_on_front) v_on_front = v_on_front).
        { apply N.bits_inj. intros i. rewrite N.land_spec, N.lor_spec. destruct (N.testbit v_on_front i); [rewrite orb_true_r; reflexivity|apply andb_false_r]. }
        rewrite X in Z. discriminate. }
      destruct (ms_onf st' v); cbn [andb]; destruct (existsb (incident v) (ms_front st')); cbn [negb]; rewrite ?CL, ?SE; reflexivity.
Qed.
(* one stage *)
Lemma stage_midway m os m' : midway pos (pieces ss) f0 m -> ops_in (mh_scale m) os -> stage valid vvalid qual m os = Ok m' -> lasts pos verts ss m' ->
  (forall f, In f (facets m') -> centred (mh_pos m') f) ->
  midway pos (pieces ss) f0 m' /\
  exists st', frun (mh_scale m) valid vvalid qual (opened (setup_facet_connectivity m)) os = Ok st' /\ m' = put_back (setup_facet_connectivity m) st' /\
    partway (mh_scale m) pos (pieces ss) f0 (mh_col m) st' /\ same_state st' (opened (setup_facet_connectivity m')).
Proof.
  intros MW [O OF] H B C. pose proof (mw_laid _ _ _ _ MW) as L. pose proof (setup_laid m L) as L1. pose proof (opened_neat _ L1) as N1.
  unfold stage in H. set (m1 := setup_facet_connectivity m) in *.
  destruct (frun (mh_scale m) valid vvalid qual (opened m1) os) as [st'| |] eqn:R; try discriminate. cbn [obind] in H. injection H as <-.
  destruct (run_neat (mh_scale m) valid vvalid qual (mh_col m) os (opened m1) st' N1 O OF R) as [N A].
  assert (BE := lasts_before m1 st' N B).
  assert (P := run_partway rho shape_ok dom (mh_scale m) inside qual pos verts (pieces ss) f0 (mh_col m) EX FO B0 os (opened m1) st' (mw_way _ _ _ _ MW) O OF R BE).
  destruct (reopen_midway m st' MW N A P C) as [M1 M2]. split; [exact M1|]. exists st'. split; [reflexivity|]. split; [reflexivity|]. split; [exact P|exact M2].
Qed.
End Stage.

(* ---- the first mesh ---- *)
Lemma sharing_none m a b : facets m = [] -> sharing m a b = [].
Proof. intros E. unfold sharing, facets_at. rewrite E. reflexivity. Qed.
Lemma blank_midway pos ss m : blank m -> simple_front pos (outline 0 m) -> midway pos (pieces ss) (outline 0 m) m.
Proof.
  intros B S. assert (L := bl_laid _ B).
  assert (NF : facets m = []) by (unfold facets; rewrite (bl_tris _ B), (bl_quads _ B); reflexivity).
  assert (CB : forall e, connect_bdry m e = e) by (intros e; unfold connect_bdry; rewrite sharing_none by exact NF; reflexivity).
  assert (EB : mh_bdry (setup_facet_connectivity m) = mh_bdry m) by (cbn [setup_facet_connectivity mh_bdry]; rewrite (map_ext _ _ CB); apply map_id).
  assert (EI : mh_intr (setup_facet_connectivity m) = []) by (cbn [setup_facet_connectivity mh_intr]; rewrite (bl_intr _ B); reflexivity).
  assert (FE : front_edges (setup_facet_connectivity m) = mh_bdry m).
  { unfold front_edges. rewrite EB, EI. cbn [filter app]. apply filter_all. intros e J. destruct (bl_kind _ B e J) as (_ & _ & E). rewrite E. reflexivity. }
  assert (SG : map sig (outline 0 m) = map sig (ms_front (opened (setup_facet_connectivity m)))).
  { cbn [opened ms_front]. rewrite FE, outline_from, !front_from_sig. reflexivity. }
  assert (EE : ends (ms_front (opened (setup_facet_connectivity m))) = ends (outline 0 m)) by (rewrite !ends_sigs, SG; reflexivity).
  assert (KI : forall e, In e (ms_front (opened (setup_facet_connectivity m))) -> interior e = false /\ ghost e = false).
  { intros e J. cbn [opened ms_front] in J. rewrite FE in J. apply front_from_in in J. destruct J as (x & J & _ & _ & _ & E). destruct (bl_kind _ B x J) as (K1 & K2 & _).
    unfold interior, ghost. rewrite E, K1, K2. auto. }
  assert (EL : elements (opened (setup_facet_connectivity m)) = []).
  { unfold elements, generated. cbn [opened ms_tris ms_quads setup_facet_connectivity mh_tris mh_quads]. rewrite (bl_tris _ B), (bl_quads _ B). reflexivity. }
  assert (IL : ms_intr (opened (setup_facet_connectivity m)) = []).
  { cbn [opened ms_intr]. unfold kept_intr. rewrite EI. reflexivity. }
  constructor.
  - exact L.
  - destruct (mh_bdry m) as [|e l] eqn:E; [destruct (bl_some _ B E)|]. destruct (ld_edges _ L e) as (_ & X & _); [apply in_or_app; right; rewrite E; left; reflexivity|].
    intros Z. rewrite Z in X. destruct X.
  - constructor.
    + exact (opened_neat _ (setup_laid m L)).
    + apply (simple_same pos (outline 0 m)); [rewrite SG; apply Permutation_refl| |exact S]. cbn [opened ms_front]. rewrite front_from_ids. apply seq_NoDup.
    + intros e J. left. rewrite <- EE. unfold ends. apply in_map_iff. exists e. auto.
    + rewrite EL. intros s [].
    + intros w _. rewrite EL, EE. cbn [flat_map esum]. lra.
    + intros p q _. rewrite EL, IL. rewrite filter_all by (intros e J; destruct (KI e J) as [K _]; rewrite K; reflexivity).
      rewrite filter_none by (intros e J; apply KI, J). rewrite EE. cbn. lia.
    + intros e J. right. rewrite SG. apply in_map, J.
    + rewrite EL. cbn [flat_map esum opened ms_area setup_facet_connectivity mh_area]. exact (bl_area _ B).
  - rewrite outline_from, front_from_sig. reflexivity.
  - constructor.
    + intros e J K. unfold all_edges in J. rewrite (bl_intr _ B) in J. destruct (bl_kind _ B e J) as (_ & _ & E). congruence.
    + intros e J. rewrite (bl_intr _ B) in J. destruct J.
    + intros k i K. rewrite (bl_nbr _ B) in K. congruence.
  - intros e J. rewrite (bl_intr _ B) in J. destruct J.
  - unfold all_edges. rewrite (bl_intr _ B). exact (bl_eids _ B).
Qed.
