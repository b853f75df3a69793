(* A mesh generated beside its neighbours: proofs for TwinProps. *)
From Coq Require Import Lia Permutation Lqa.
From Verif Require Import Base Chain GeomModel GeomSpec GeomProofs FacetModel UtilModel BdryModel BdrySpec AdvanceModel AdvanceSpec AdvanceProofs AdvanceInv AdvanceGeom
  AdvanceProps LoopModel LoopProps FrontModel FrontSpec FrontProofs FrontProps InitProofs MeshModel MeshSpec MeshProofs QRefineSpec CleanModel CleanSpec CleanProps
  T2QSpec T2QProofs T2QProps MergerModel MergerSpec WindSpec WindFront ClearSpec ClearStart ClearEnd ClearProps FinModel FinProofs FinMesh FinPipe FinProps
  TwinModel TwinSpec TwinProofs TwinMain TwinMesh.
From Verif Require WindMesh WindProofs GlueProofs SmoothProofs SmoothSpec.
Open Scope Q_scope.

Lemma start_state bounds fixed meshes sub loose col :
  closed_curves (map fst (flat_map (wanted meshes) bounds)) ->
  (forall e, In e bounds -> de_fix e = false) -> (forall e, In e fixed -> de_fix e = true) ->
  (forall e, In e (concat meshes) -> de_fix e = false) ->
  (forall e, In e (bounds ++ fixed ++ concat meshes) -> veqb (de_a e) (de_b e) = false /\
     in_square front_scale (de_a e) = true /\ in_square front_scale (de_b e) = true) ->
  (forall a b p, In p (sub a b) -> in_square front_scale a = true -> in_square front_scale b = true ->
     in_square front_scale p = true) ->
  (forall p, In p loose -> in_square front_scale p = true) ->
  let st := FrontModel.prepared sub (collect_front_edges bounds fixed meshes) loose col in
  wf st /\ vertices_in front_scale st /\ no_ghosts st /\ (forall e, In e (ms_front st) -> interior e = false).
Proof.
  intros C HB HF HM HE HS HL st. set (d := collect_front_edges bounds fixed meshes) in *.
  assert (OK : indices_ok d) by apply collect_indices.
  assert (SQ : coords_in front_scale d).
  { apply collect_coords; [intros e He; apply (HE e He)|]. intros e n Hn. exact (proj1 (neighbours_in _ _ _ Hn)). }
  assert (PR : proper d) by (apply collect_proper; intros e He; apply (HE e He)).
  split; [apply prepared_wf; assumption|]. split; [apply prepared_square; assumption|].
  split; [intros e He; unfold ghost; rewrite (prepared_props sub d loose col OK SQ e He); reflexivity|].
  intros e He. unfold interior. rewrite (prepared_props sub d loose col OK SQ e He). reflexivity.
Qed.

Section Beside.
Variable sub : vec2 -> vec2 -> list vec2.
Variables bounds fixed : list dedge.
Variable ms : list mesh.
Variable loose : list vec2.
Variable col : Z.
Let d := collect_front_edges bounds fixed (segments_of ms).
Let st := FrontModel.prepared sub d loose col.
Let curve := map fst (flat_map (wanted (segments_of ms)) bounds).
Hypothesis R : ready sub bounds fixed ms.
Hypothesis ENDS : ForallOrdPairs (fun w w' : vec2 * vec2 => ~ veq (snd w) (snd w')) curve.
Hypothesis SUBIN : forall a b p, In p (sub a b) -> in_square front_scale a = true -> in_square front_scale b = true -> in_square front_scale p = true.
Hypothesis LOOSE : forall p, In p loose -> in_square front_scale p = true.

Variables (rho : vec2 -> Q) (shape_ok : vec2 -> vec2 -> vec2 -> bool) (dom : list (vec2 * vec2)) (mesh_scale : Q) (inside : vec2 -> bool).
Variables (qual : mstate -> tri -> Q) (newpos : mstate -> bedge -> vec2) (query : mstate -> bedge -> bool -> list nat) (fuel : nat) (n : Z).
Variables (twin : nat -> option nat) (prop : nat -> N) (st' : mstate) (r : bool) (c : nat).
Hypothesis NEWIN : forall s e, in_square front_scale (newpos s e) = true.
Hypothesis NPOS : (0 < n < 2 ^ 31)%Z.
Hypothesis VIN : vertices_in mesh_scale st.
Hypothesis NEWMESH : forall s e, in_square mesh_scale (newpos s e) = true.
Hypothesis COL : (0 <= col)%Z.
Hypothesis RUN : generate mesh_scale (triangle_is_valid rho shape_ok dom) (vertex_is_valid rho inside) qual newpos query fuel n st = Some (Ok (st', r, c)).
Hypothesis EXACT : exact_vertices st'.
Hypothesis FOUND : found (near rho) (ms_front st) st'.
Hypothesis START : ms_front st <> [].
Hypothesis DONE : ms_front st' = [].

Lemma beside : exists m, finish mesh_scale twin prop st st' = Ok m /\ sound m /\ mh_quads m = [] /\ one_colour m /\ mh_col m = col /\
  map bare (mh_bdry m) = map (fin_bdry twin) (ms_front st) /\
  (forall v, mh_pos m v = ms_pos st' v) /\ incl (mh_verts m) (ms_verts st') /\
  (forall v, (v < ms_nv st)%nat -> ms_pos st' v = ms_pos st v) /\
  covered m == (1 # 2) * esum vcross curve /\
  (forall p, WindMesh.mesh_region m p == winding p curve) /\
  (forall x, (forall t, In t (ms_tris st') -> x <= tri_area (ms_pos st' (tr_v1 t)) (ms_pos st' (tr_v2 t)) (ms_pos st' (tr_v3 t))) ->
     forall f, In f (mh_tris m) -> x <= fa_area (mh_pos m) f).
Proof.
  assert (HB := rd_bounds _ _ _ _ R). assert (HF := rd_fixed _ _ _ _ R). assert (HM := rd_loose _ _ _ _ R). assert (HE := rd_edges _ _ _ _ R).
  assert (HL := rd_line _ _ _ _ R). assert (HS := rd_sub _ _ _ _ R). assert (SC := rd_simple _ _ _ _ R).
  destruct (start_state bounds fixed (segments_of ms) sub loose col (sc_closed _ SC) HB HF HM HE SUBIN LOOSE) as (W & V & NG & INT). fold d in W, V, NG, INT. fold st in W, V, NG, INT.
  destruct (start_front bounds fixed (segments_of ms) sub loose col SC HB HF HM HE HL HS) as (S & FM & EN). fold d in S, FM, EN. fold st in S, FM, EN.
  assert (PN : unpinched (ms_front st)) by (exact (EN ENDS)).
  destruct (C27_success_partial mesh_scale _ _ qual newpos query fuel n st _ W START NPOS RUN) as (st1 & r1 & c1 & os & Q & _ & RU & O & _).
  injection Q as <- <- <-.
  destruct (C60_finished_partial rho shape_ok dom mesh_scale inside qual twin prop os st st' W V (O _ NEWIN) S FM NG eq_refl (Qeq_refl _) INT eq_refl eq_refl VIN (O _ NEWMESH) PN RU EXACT FOUND DONE)
    as (SD & CK & CO & _ & OC & MC & NQ & BD & Z).
  set (m := finished mesh_scale twin prop st st') in *. change (ms_col st) with col in MC.
  destruct (C60_cleanup_partial m SD NQ OC ltac:(rewrite MC; exact COL) Z) as [m' (E' & K & NQ' & OC' & MC' & _ & GR)].
  destruct K as (S' & A' & (B' & BP) & P' & V' & _).
  assert (POS : forall v, (v < ms_nv st)%nat -> ms_pos st' v = ms_pos st v) by (apply (run_wf _ _ _ _ os st st' W RU)).
  assert (BB : map bare (mh_bdry m') = map (fin_bdry twin) (ms_front st)) by (rewrite B', BD, map_map; reflexivity).
  exists m'.
  split; [unfold finish; fold m; rewrite CK; exact E'|]. split; [exact S'|]. split; [exact NQ'|]. split; [exact OC'|]. split; [rewrite MC'; exact MC|].
  split; [exact BB|]. split; [exact P'|]. split; [exact V'|]. split; [exact POS|]. split; [|split].
  - rewrite A', CO. assert (AR := C21_area_partial bounds fixed (segments_of ms) sub loose col HB HF HM HE HL). cbv zeta in AR. fold d in AR. fold st in AR. rewrite AR.
    apply Qmult_comp; [reflexivity|]. unfold curve. clear. induction (flat_map (wanted (segments_of ms)) bounds) as [|x l IH]; [reflexivity|]. cbn [map esum sumQ]. rewrite IH. destruct x as [[a b] z]. reflexivity.
  - intros p. rewrite WindMesh.region_ends. assert (IW := initial_winding p bounds fixed (segments_of ms) sub loose col HB HF HM HE HL). cbv zeta in IW. fold d in IW. fold st in IW. fold curve in IW. rewrite <- IW.
    assert (EE : map SmoothProofs.ends_of (mh_bdry m') = ends (ms_front st)).
    { apply (f_equal (map SmoothProofs.ends_of)) in BB. rewrite !map_map in BB. exact BB. }
    rewrite EE. assert (VL : forall e, In e (ms_front st) -> (be_v1 e < ms_nv st)%nat /\ (be_v2 e < ms_nv st)%nat) by (intros e I; destruct (wf_ev _ W e I) as (F1 & F2 & _); split; assumption).
    revert VL. unfold ends. generalize (ms_front st). intros es VL. induction es as [|e es IH]; [reflexivity|]. cbn [map esum]. rewrite IH by (intros x I; apply VL; right; exact I).
    destruct (VL e (or_introl eq_refl)) as [L1 L2]. unfold WindProofs.at_pos. rewrite !P'. cbn [m finished mh_pos]. rewrite !POS by assumption. reflexivity.
  - intros x HX. apply GR. intros f I. unfold m, finished in I. cbn [mh_tris] in I. apply in_map_iff in I. destruct I as (t & <- & I). exact (HX t I).
Qed.
End Beside.

Lemma plain_eq p q : plain p -> plain q -> veq p q -> p = q.
Proof.
  intros [A B] [C D] [X Y]. destruct p as [px py], q as [qx qy]. cbn [vx vy] in *. f_equal; [rewrite <- A, <- C|rewrite <- B, <- D]; apply Qred_complete; assumption.
Qed.
Lemma nodup_three (a b c : list nat) n : NoDup (a ++ c) -> NoDup b -> (forall x, In x (a ++ c) -> (x < n)%nat) -> (forall x, In x b -> (n <= x)%nat) -> NoDup (a ++ b ++ c).
Proof.
  intros N B L G. apply (Permutation_NoDup (l := (a ++ c) ++ b)); [rewrite <- app_assoc; apply Permutation_app_head, Permutation_app_comm|].
  revert N L. generalize (a ++ c). intros l N L. induction N as [|x l X _ IH]; [exact B|]. cbn [app]. constructor.
  - intros Y. apply in_app_or in Y. destruct Y as [Y|Y]; [contradiction|]. assert (P := L x (or_introl eq_refl)). assert (Q := G x Y). lia.
  - apply IH. intros y Y. apply L. right. exact Y.
Qed.
Lemma link_all_in f ms t : In t (flat_map mh_bdry (map (link f) ms)) <-> exists t0, In t0 (flat_map mh_bdry ms) /\ t = point_to (f (ed_id t0)) t0.
Proof.
  rewrite in_flat_map. split.
  - intros (m & Hm & Ht). apply in_map_iff in Hm. destruct Hm as (m0 & <- & Hm). apply link_bdry_in in Ht. destruct Ht as (t0 & Ht & ->).
    exists t0. split; [apply in_flat_map; exists m0; auto|reflexivity].
  - intros (t0 & Ht & ->). apply in_flat_map in Ht. destruct Ht as (m0 & Hm & Ht). exists (link f m0). split; [apply in_map; exact Hm|]. apply link_bdry_in. exists t0. auto.
Qed.
Lemma link_all_ids f ms : map ed_id (flat_map mh_bdry (map (link f) ms)) = map ed_id (flat_map mh_bdry ms).
Proof. induction ms as [|m ms IH]; [reflexivity|]. cbn [map flat_map]. rewrite !map_app, link_ids, IH. reflexivity. Qed.
Lemma link_all_facets f ms : flat_map facets (map (link f) ms) = flat_map facets ms.
Proof. induction ms as [|m ms IH]; [reflexivity|]. cbn [map flat_map]. rewrite IH. reflexivity. Qed.
Lemma tri_elements m : sound m -> mh_quads m = [] -> WindMesh.simple_elements m.
Proof.
  intros S NQ f I. assert (P := sd_pos _ S f I). unfold facets in I. rewrite NQ in I. destruct (cf_tris _ (sd_conf _ S) f I) as (a & b & c & E). unfold fa_area in P. rewrite E in *. cbn [simple_shape].
  assert (D := WindMesh.tri_area_det (mh_pos m a) (mh_pos m b) (mh_pos m c)). lra.
Qed.

Section Merge.
Variable sub : vec2 -> vec2 -> list vec2.
Variables fbase nbase : nat.
Variables bounds fixed : list dedge.
Variable rm : mesh.
Variable oth : list mesh.
Variable loose : list vec2.
Variable col : Z.
Let ms := rm :: oth.
Let d := collect_front_edges bounds fixed (segments_of ms).
Let st := FrontModel.prepared sub d loose col.
Variable tw : list (option nat).
Variable ms' : list mesh.
Hypothesis PREP : prepare sub fbase nbase bounds fixed ms loose col = (st, tw, ms').
Hypothesis R : ready sub bounds fixed ms.
Hypothesis AR : around nbase rm oth.
Hypothesis PF : forall e, In e (ms_front st) -> plain (ms_pos st (be_v1 e)) /\ plain (ms_pos st (be_v2 e)).
Variable m : mesh.
Hypothesis SM : sound m.
Hypothesis CM : all_centred m.
Hypothesis EM : WindMesh.simple_elements m.
Hypothesis DM : distinct_points m.
Hypothesis BM : map bare (mh_bdry m) = map (fin_bdry (twin_of tw)) (ms_front st).
Hypothesis PM : forall e, In e (ms_front st) -> mh_pos m (be_v1 e) = ms_pos st (be_v1 e) /\ mh_pos m (be_v2 e) = ms_pos st (be_v2 e).
Hypothesis FM : forall v, In v (mh_verts m) -> in_square (mh_scale rm) (mh_pos m v) = true.
Hypothesis APART : forall p, ~ (0 < WindMesh.mesh_region rm p /\ 0 < WindMesh.mesh_region m p).
Let L := last_at nbase tw.

Lemma prep_parts : tw = map (front_twin (twin_refs bounds fixed ms)) (loosened (rs_front (refined_state sub d))) /\ ms' = map (link L) ms.
Proof.
  assert (E := prepare_meshes sub fbase nbase bounds fixed ms loose col R). rewrite PREP in E. injection E. intros E1 E2. unfold d, L. rewrite segments_des. split; [exact E2|]. rewrite E1. rewrite <- E2. reflexivity.
Qed.
Lemma tl e i : In e (ms_front st) -> twin_of tw (be_id e) = Some i ->
  exists x t, In x ms /\ In t (mh_bdry x) /\ ed_id t = i /\ coincide (ms_pos st) e x t /\ be_col e = ed_col t /\ L i = Some (nbase + be_id e)%nat.
Proof. unfold L. destruct prep_parts as [-> _]. apply (twin_leads sub nbase bounds fixed ms loose col R). Qed.
Lemma tb i x : L i = Some x -> exists e, In e (ms_front st) /\ x = (nbase + be_id e)%nat /\ twin_of tw (be_id e) = Some i.
Proof. unfold L. destruct prep_parts as [-> _]. apply (twin_back sub nbase bounds fixed ms loose col). Qed.
Lemma tc e x t : In e (ms_front st) -> In x ms -> In t (mh_bdry x) -> coincide (ms_pos st) e x t -> twin_of tw (be_id e) = Some (ed_id t).
Proof. destruct prep_parts as [-> _]. apply (twin_complete sub bounds fixed ms loose col R). Qed.
Lemma below x e : In x ms -> In e (mh_bdry x) -> (ed_id e < nbase)%nat.
Proof. intros A B. exact (proj1 (ar_below _ _ _ AR x A) e B). Qed.
Lemma bdry_m t : In t (mh_bdry m) -> exists e, In e (ms_front st) /\ ed_id t = be_id e /\ ed_1 t = be_v1 e /\ ed_2 t = be_v2 e /\ ed_twin t = twin_of tw (be_id e).
Proof.
  intros I. apply (in_map bare) in I. rewrite BM in I. apply in_map_iff in I. destruct I as (e & E & I). exists e. split; [exact I|]. destruct t. unfold bare, fin_bdry in E. cbn in *. injection E. intros. subst. auto.
Qed.
Lemma same_place e e0 t : In e (ms_front st) -> In e0 (mh_bdry rm) -> ed_1 t = be_v1 e -> ed_2 t = be_v2 e ->
  ((mh_pos rm (ed_1 e0) = mh_pos m (ed_2 t) /\ mh_pos rm (ed_2 e0) = mh_pos m (ed_1 t)) <-> coincide (ms_pos st) e rm e0).
Proof.
  intros I I0 -> ->. destruct (PM e I) as [-> ->]. unfold coincide. destruct (PF e I) as [P1 P2]. destruct (ar_plain _ _ _ AR e0 I0) as [P3 P4]. split.
  - intros [-> ->]. split; apply veq_refl.
  - intros [A B]. split; [apply plain_eq; [exact P3|exact P2|apply veq_sym; exact B]|apply plain_eq; [exact P4|exact P1|apply veq_sym; exact A]].
Qed.
Lemma front_ids_d : map ed_id (mh_bdry (relocate nbase m)) = map (Nat.add nbase) (map be_id (ms_front st)).
Proof.
  assert (E : map ed_id (mh_bdry m) = map be_id (ms_front st)).
  { transitivity (map ed_id (map bare (mh_bdry m))); [rewrite map_map; reflexivity|]. rewrite BM, map_map. reflexivity. }
  rewrite <- E. cbn [relocate mh_bdry]. rewrite !map_map. reflexivity.
Qed.
Lemma front_nodup : NoDup (map be_id (ms_front st)).
Proof. unfold st. rewrite prepared_front, renumber_ids. apply seq_NoDup. Qed.

Lemma beside_mergeable : mergeable (link L rm) (relocate nbase m) (map (link L) oth).
Proof.
  assert (MSM : map (link L) ms = link L rm :: map (link L) oth) by reflexivity.
  assert (ALL : forall e, In e (flat_map mh_bdry (link L rm :: relocate nbase m :: map (link L) oth)) <->
    In e (flat_map mh_bdry (map (link L) ms)) \/ In e (mh_bdry (relocate nbase m))).
  { intros e. rewrite MSM. cbn [flat_map]. rewrite !in_app_iff. tauto. }
  assert (TW : forall e t, In e (mh_bdry (link L rm)) -> In t (mh_bdry (relocate nbase m)) ->
    exists e0 f, In e0 (mh_bdry rm) /\ e = point_to (L (ed_id e0)) e0 /\ In f (ms_front st) /\ ed_id t = (nbase + be_id f)%nat /\ ed_twin t = twin_of tw (be_id f) /\
      (opposite (link L rm) (relocate nbase m) e t <-> coincide (ms_pos st) f rm e0)).
  { intros e t He Ht. apply link_bdry_in in He. destruct He as (e0 & He & ->). cbn [relocate mh_bdry] in Ht. apply in_map_iff in Ht. destruct Ht as (t0 & <- & Ht).
    destruct (bdry_m t0 Ht) as (f & Hf & I1 & I2 & I3 & I4). exists e0, f. split; [exact He|]. split; [reflexivity|]. split; [exact Hf|]. cbn [shift_edge ed_id ed_twin].
    split; [rewrite I1; reflexivity|]. split; [exact I4|]. rewrite <- (same_place f e0 t0 Hf He I2 I3). unfold opposite. cbn [relocate mh_pos link set_bdry shift_edge ed_1 ed_2].
    destruct (point_ends (L (ed_id e0)) e0) as [-> ->]. reflexivity. }
  constructor.
  - apply link_sound. exact (ar_sound _ _ _ AR).
  - apply relocate_sound. exact SM.
  - exact (ar_centred _ _ _ AR).
  - apply relocate_centred. exact CM.
  - exact (ar_points _ _ _ AR).
  - exact DM.
  - apply regions_apart.
    + apply link_conforming. apply (sd_conf _ (ar_sound _ _ _ AR)).
    + apply relocate_conforming. exact (sd_conf _ SM).
    + exact (ar_simple _ _ _ AR).
    + apply relocate_simple. exact EM.
    + intros p. rewrite link_region, relocate_region. apply APART.
  - constructor.
    + cbn [flat_map]. rewrite !map_app. apply (nodup_three _ _ _ nbase).
      * rewrite <- map_app. change (mh_bdry (link L rm) ++ flat_map mh_bdry (map (link L) oth)) with (flat_map mh_bdry (map (link L) ms)). rewrite link_all_ids. exact (rd_ids _ _ _ _ R).
      * rewrite front_ids_d. apply shifted_nodup; [lia|exact front_nodup].
      * intros x Hx. rewrite <- map_app in Hx. change (mh_bdry (link L rm) ++ flat_map mh_bdry (map (link L) oth)) with (flat_map mh_bdry (map (link L) ms)) in Hx. rewrite link_all_ids in Hx.
        apply in_map_iff in Hx. destruct Hx as (e & <- & He). apply in_flat_map in He. destruct He as (y & Hy & He). exact (below y e Hy He).
      * intros x Hx. rewrite front_ids_d in Hx. apply in_map_iff in Hx. destruct Hx as (y & <- & _). lia.
    + cbn [flat_map]. rewrite !map_app. apply (nodup_three _ _ _ nbase).
      * rewrite <- map_app. change (facets (link L rm) ++ flat_map facets (map (link L) oth)) with (flat_map facets (map (link L) ms)). rewrite link_all_facets. exact (ar_facets _ _ _ AR).
      * apply (cf_ids _ (relocate_conforming nbase m (sd_conf _ SM))).
      * intros x Hx. rewrite <- map_app in Hx. change (facets (link L rm) ++ flat_map facets (map (link L) oth)) with (flat_map facets (map (link L) ms)) in Hx. rewrite link_all_facets in Hx.
        apply in_map_iff in Hx. destruct Hx as (e & <- & He). apply in_flat_map in He. destruct He as (y & Hy & He). exact (proj2 (ar_below _ _ _ AR y Hy) e He).
      * intros x Hx. rewrite relocate_facets, map_map in Hx. apply in_map_iff in Hx. destruct Hx as (y & <- & _). cbn [shift_facet fa_id]. lia.
    + intros e i He T. assert (OLD : forall t0, In t0 (flat_map mh_bdry ms) -> exists t, In t (flat_map mh_bdry (link L rm :: relocate nbase m :: map (link L) oth)) /\ ed_id t = ed_id t0).
      { intros t0 H0. exists (point_to (L (ed_id t0)) t0). split; [|apply point_id]. apply ALL. left. apply link_all_in. exists t0. auto. }
      apply ALL in He. destruct He as [He|He].
      * apply link_all_in in He. destruct He as (t0 & H0 & ->). destruct (L (ed_id t0)) as [x|] eqn:LE; cbn [point_to ed_twin] in T.
        -- injection T as ->. destruct (tb _ _ LE) as (f & Hf & -> & TF). assert (X : In (nbase + be_id f)%nat (map ed_id (mh_bdry (relocate nbase m)))) by (rewrite front_ids_d; apply in_map, in_map; exact Hf).
           apply in_map_iff in X. destruct X as (t & Q & Ht). exists t. split; [apply ALL; right; exact Ht|exact Q].
        -- destruct (ar_twin _ _ _ AR t0 i H0 T) as (t & Ht & <-). exact (OLD t Ht).
      * cbn [relocate mh_bdry] in He. apply in_map_iff in He. destruct He as (t0 & <- & Ht). destruct (bdry_m t0 Ht) as (f & Hf & _ & _ & _ & I4). cbn [shift_edge ed_twin] in T. rewrite I4 in T.
        destruct (tl f i Hf T) as (x & t & Hx & Hxt & <- & _). apply OLD. apply in_flat_map. exists x. auto.
    + intros x e i Hx He Li. apply in_map_iff in Hx. destruct Hx as (y & <- & Hy). apply link_bdry_in in He. destruct He as (t & Ht & ->). rewrite point_left in Li. exact (ar_left _ _ _ AR y t i Hy Ht Li).
    + intros x Hx. apply in_map_iff in Hx. destruct Hx as (y & <- & Hy). destruct (ar_next _ _ _ AR y Hy) as [A B]. split; [|exact B]. intros e He. apply link_bdry_in in He. destruct He as (t & Ht & ->).
      rewrite point_id. exact (A t Ht).
    + intros e t He Ht. destruct (TW e t He Ht) as (e0 & f & He0 & -> & Hf & It & Tt & OP). rewrite OP, It. split.
      * intros T. destruct (L (ed_id e0)) as [x|] eqn:LE; cbn [point_to ed_twin] in T.
        -- injection T as ->. destruct (tb _ _ LE) as (f' & Hf' & Q & TF). assert (Q' : be_id f' = be_id f) by lia. rewrite Q' in TF. destruct (tl f _ Hf TF) as (x & t1 & Hx & Ht1 & Q1 & C & _).
           destruct (same_id ms x t1 rm e0 (rd_ids _ _ _ _ R) Hx (or_introl eq_refl) Ht1 He0 Q1) as [-> ->]. exact C.
        -- exfalso. destruct (ar_twin _ _ _ AR e0 (nbase + be_id f)%nat) as (t1 & Ht1 & Q); [apply in_flat_map; exists rm; split; [left; reflexivity|exact He0]|exact T|].
           apply in_flat_map in Ht1. destruct Ht1 as (y & Hy & Ht1). assert (B := below y t1 Hy Ht1). lia.
      * intros C. assert (TF := tc f rm e0 Hf (or_introl eq_refl) He0 C). destruct (tl f _ Hf TF) as (_ & _ & _ & _ & _ & _ & _ & ->). reflexivity.
    + intros e t He Ht. destruct (TW e t He Ht) as (e0 & f & He0 & -> & Hf & It & Tt & OP). rewrite OP, Tt, point_id. split.
      * intros T. destruct (tl f _ Hf T) as (x & t1 & Hx & Ht1 & Q1 & C & _). destruct (same_id ms x t1 rm e0 (rd_ids _ _ _ _ R) Hx (or_introl eq_refl) Ht1 He0 Q1) as [-> ->]. exact C.
      * apply (tc f rm e0 Hf (or_introl eq_refl) He0).
    + intros t t' Ht Ht' T. cbn [relocate mh_bdry] in Ht, Ht'. apply in_map_iff in Ht. destruct Ht as (t0 & <- & Ht). apply in_map_iff in Ht'. destruct Ht' as (t1 & <- & Ht').
      destruct (bdry_m t0 Ht) as (f & Hf & _ & _ & _ & I4). cbn [shift_edge ed_twin ed_id] in T. rewrite I4 in T. destruct (tl f _ Hf T) as (x & t2 & Hx & Ht2 & Q & _). assert (B := below x t2 Hx Ht2). lia.
  - exact FM.
Qed.
End Merge.
