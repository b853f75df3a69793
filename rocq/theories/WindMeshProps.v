(* C50: the elements cover the domain exactly once; part 2, finished meshes and
   the operations on them. *)
From Coq Require Import Lqa Lia Permutation.
From Verif Require Import Base Chain GeomModel GeomSpec UtilModel FacetModel
  MeshModel MeshSpec MeshProofs MeshProps QRefineModel QRefineSpec QRefineShape QRefineConf QRefineProps CleanModel CleanSpec CleanProps CleanCheck
  T2QModel T2QSpec T2QProps MergerModel MergerSpec MergerProps SmoothModel SmoothSpec SmoothProofs SmoothProps WindSpec WindProofs WindMesh.
From Verif Require GlueProofs BdryProofs.
Open Scope Q_scope.

(* ---------- a finished mesh ---------- *)
(* every point is owned by as many elements as the mesh boundary winds around it *)
Theorem C50_tiles m : conforming m -> simple_elements m -> tiles (mh_pos m) (shapes m) (mesh_region m).
Proof. apply mesh_tiles. Qed.
(* hence, where the boundary winds at most once around a point: the interiors of
   two elements have no common point, points around which the boundary winds lie
   in an element, all others in no interior *)
Theorem C50_exact m : conforming m -> simple_elements m -> simple_region (mesh_region m) ->
  (forall i j f g p, i <> j -> nth_error (facets m) i = Some f -> nth_error (facets m) j = Some g ->
     ~ (inside_shape (mh_pos m) (fa_sh f) p /\ inside_shape (mh_pos m) (fa_sh g) p)) /\
  (forall p, 0 < mesh_region m p -> exists f, In f (facets m) /\ in_closure (mh_pos m) (fa_sh f) p) /\
  (forall p, ~ 0 < mesh_region m p -> forall f, In f (facets m) -> ~ inside_shape (mh_pos m) (fa_sh f) p).
Proof.
  intros C S R. assert (T := mesh_tiles m C S). split; [|split].
  - intros i j f g p N Hi Hj [If Ig]. apply N.
    apply (tiles_disjoint _ _ _ T R i j (fa_sh f) (fa_sh g) p); [| |exact If|exact Ig]; apply map_nth_error; assumption.
  - intros p Hp. destruct (tiles_cover _ _ _ p T (tiles_pos _ _ _ p T Hp)) as [s [Hs Cl]].
    apply in_map_iff in Hs. destruct Hs as [f [<- Hf]]. exists f. auto.
  - intros p N f Hf I. apply N. assert (X := tiles_only _ _ _ p (fa_sh f) T (in_map fa_sh _ f Hf) I). lra.
Qed.


(* ---------- refinement ---------- *)
(* the refined mesh covers the same region; its elements are convex if those of
   the coarse mesh are *)
Theorem C50_refined c : refinable c -> (forall f, In f (facets c) -> strictly_convex (mh_pos c) f) ->
  exists m, refine c = Ok (m, true) /\ (forall p, mesh_region m p == mesh_region c p) /\ tiles (mh_pos m) (shapes m) (mesh_region c).
Proof.
  intros RB CV. destruct (C31_boundary_partial c RB) as [m [E [[hs [B H]] _]]]. exists m. split; [exact E|].
  destruct (C31_refined_closed c RB) as [m1 [E1 R]]. rewrite E in E1. injection E1 as <-.
  destruct (C31_convex_partial c RB CV) as [m2 [E2 CM]]. rewrite E in E2. injection E2 as <-.
  assert (G : forall p, mesh_region m p == mesh_region c p).
  { intros p. apply (halved_region p m c hs B H). intros e He. destruct RB as [C A F T].
    destruct (edge_old c e C A (in_or_app _ _ _ (or_intror He))) as [_ [_ [L1 [L2 _]]]]. split; apply (rf_old _ _ R); assumption. }
  split; [exact G|]. apply (tiles_eq _ _ (mesh_region m) _ G). apply mesh_tiles.
  - destruct (C31_preserved_partial c RB) as [m3 [E3 [C3 _]]]. rewrite E in E3. injection E3 as <-. exact (rb_conf _ C3).
  - intros f Hf. apply convex_simple, CM, Hf.
Qed.

(* ---------- clean-up and triangle merging ---------- *)
Lemma kept_region m m' : kept m m' -> forall p, mesh_region m' p = mesh_region m p.
Proof. intros (_ & _ & B & _). apply same_boundary_region. exact B. Qed.
(* every clean-up step keeps the region; with simple quads the result covers it
   exactly (triangles are simple in any case) *)
Theorem C50_cleanup_partial m m' : kept m m' -> (forall f, In f (mh_quads m') -> simple_shape (mh_pos m') (fa_sh f)) ->
  tiles (mh_pos m') (shapes m') (mesh_region m).
Proof.
  intros K Q. apply (tiles_eq _ _ (mesh_region m')); [intros p; rewrite (kept_region m m' K); reflexivity|].
  destruct K as (S & _). apply mesh_tiles; [exact (sd_conf _ S)|]. intros f Hf. assert (P := sd_pos _ S f Hf).
  unfold facets in Hf. apply in_app_or in Hf. destruct Hf as [Hf|Hf]; [exact (Q f Hf)|].
  destruct (cf_tris _ (sd_conf _ S) f Hf) as (a & b & c & E). exact (positive_tri _ f a b c E P).
Qed.
Theorem C50_degenerate_partial m : sound m -> sized m -> (forall f, In f (mh_tris m) -> (0 <= fa_col f)%Z) -> simple_elements m ->
  exists m', merge_degenerates m = Ok m' /\ tiles (mh_pos m') (shapes m') (mesh_region m).
Proof.
  intros S Z NC SE. destruct (C33_degenerate_partial m S Z NC) as (m' & E & K & _ & _ & MQ). exists m'. split; [exact E|].
  apply C50_cleanup_partial; [exact K|]. destruct K as (_ & _ & _ & P & _). intros f Hf. rewrite MQ in Hf.
  apply (simple_ext (mh_pos m)); [intros v _; apply P|]. apply SE. apply in_or_app. left. exact Hf.
Qed.
(* two counter-clockwise triangles without their common side make a simple quad *)
Theorem C50_tri2quad_partial own m : sound m -> well_sided m -> tris_centred m -> simple_elements m ->
  exists m', merge_triangles own (setup_facet_connectivity m) = Ok m' /\ simple_elements m' /\ tiles (mh_pos m') (shapes m') (mesh_region m).
Proof.
  intros S W T SE. destruct (C32_merge_partial own m S W T) as (m' & ds & E & K & _ & PT & _ & Q & J & _). exists m'. split; [exact E|].
  assert (QS : forall f, In f (mh_quads m') -> simple_shape (mh_pos m') (fa_sh f)).
  { destruct K as (_ & _ & _ & P & _). intros f Hf. apply (simple_ext (mh_pos m)); [intros v _; apply P|].
    rewrite Q in Hf. apply in_app_or in Hf. destruct Hf as [Hf|Hf]; [apply SE, in_or_app; left; exact Hf|].
    apply in_map_iff in Hf. destruct Hf as [[[l r] h] [<- Hd]]. cbn [snd]. destruct (J l r h Hd) as [JH _].
    assert (L : forall x, In x [l; r] -> In x (facets m)).
    { intros x Hx. apply in_or_app. right. apply (Permutation_in _ (Permutation_sym PT)). apply in_or_app. left. apply in_flat_map. exists (l, r, h). auto. }
    assert (Hl := L l (or_introl eq_refl)). assert (Hr := L r (or_intror (or_introl eq_refl))).
    exact (joined_simple (mh_pos m) l r h JH (cf_corners _ (sd_conf _ S) l Hl) (cf_corners _ (sd_conf _ S) r Hr) (SE l Hl) (SE r Hr)). }
  split.
  - destruct K as (S' & _). intros f Hf. assert (P := sd_pos _ S' f Hf).
    unfold facets in Hf. apply in_app_or in Hf. destruct Hf as [Hf|Hf]; [exact (QS f Hf)|].
    destruct (cf_tris _ (sd_conf _ S') f Hf) as (a & b & c & Es). exact (positive_tri _ f a b c Es P).
  - apply C50_cleanup_partial; assumption.
Qed.

(* ---------- smoothing ---------- *)
Theorem C50_smoothed_partial s m ks m' : sound m -> mh_quads m = [] -> boundary_marked m -> domain_fits (sm_inside s) m -> run s m ks = Ok m' ->
  tiles (mh_pos m') (shapes m') (mesh_region m).
Proof.
  intros S NQ BM D E. assert (S' := C35_triangle_mesh s m ks m' S NQ D E). destruct (C35_moves s m ks m' E) as [SS [ST _]].
  apply (tiles_eq _ _ (mesh_region m')).
  - intros p. rewrite (same_boundary_region m m'); [reflexivity|]. split; [exact (ss_bdry _ _ SS)|].
    intros e He. destruct (BM e He) as [B1 B2]. split; apply ST; left; right; left; assumption.
  - apply mesh_tiles; [exact (sd_conf _ S')|]. intros f Hf. assert (P := sd_pos _ S' f Hf). unfold facets in Hf. rewrite (ss_quads _ _ SS), NQ in Hf. cbn [app] in Hf.
    destruct (cf_tris _ (sd_conf _ S') f Hf) as (a & b & c & Es). exact (positive_tri _ f a b c Es P).
Qed.

(* ---------- merging meshes ---------- *)
Theorem C50_merged_partial r d oth w : mergeable r d oth -> simple_elements r -> simple_elements d -> merge_pair (WD r d oth) = Ok (true, w) ->
  simple_elements (w_rec w) /\ (forall p, mesh_region (w_rec w) p == mesh_region r p + mesh_region d p) /\
  tiles (mh_pos (w_rec w)) (shapes (w_rec w)) (fun p => mesh_region r p + mesh_region d p).
Proof.
  intros M SR SD E. destruct (C34_merge_partial r d oth w M E) as (S & _ & (g & FD & ID & IE & BR & BD & Rin & Dout & PD & PR & PF & FC & _) & _).
  assert (CR := sd_conf _ (ma_r _ _ _ M)). assert (CD := sd_conf _ (ma_d _ _ _ M)).
  assert (AR := sd_addr _ (ma_r _ _ _ M)). assert (AD := sd_addr _ (ma_d _ _ _ M)).
  set (pos := mh_pos (w_rec w)) in *.
  assert (SE : simple_elements (w_rec w)).
  { intros f Hf. apply (Permutation_in _ PF), in_app_or in Hf. destruct Hf as [Hf|Hf].
    - apply (simple_ext (mh_pos r)); [|exact (SR f Hf)]. intros v Hv. apply PR. exact (ad_corner _ AR f v Hf Hv).
    - destruct (GlueProofs.forall2_in_r _ _ _ f FC Hf) as [x [Hx [Ex _]]]. fold pos. rewrite Ex. assert (K := SD x Hx). assert (C := fun v => ad_corner _ AD x v Hx).
      destruct (fa_sh x) as [a b c|a b c e]; cbn [map_shape simple_shape corners] in *; rewrite !PD by (apply C; cbn; auto 10); exact K. }
  split; [exact SE|].
  assert (RG : forall p, mesh_region (w_rec w) p == mesh_region r p + mesh_region d p).
  { intros p. rewrite <- (sides_region p _ (sd_conf _ S)), <- (sides_region p r CR), <- (sides_region p d CD). fold pos.
    assert (PS : Permutation (all_sides (w_rec w)) (all_sides r ++ flat_map sides FD)).
    { unfold all_sides. rewrite <- flat_map_app. apply Permutation_flat_map. exact PF. }
    rewrite (esum_perm _ _ _ PS), esum_app. apply Qplus_comp.
    - apply esum_ext. intros a b H. apply all_sides_in in H. destruct H as [f [Hf H]]. destruct (side_corners f a b H) as [H1 H2].
      unfold at_pos. rewrite !PR by (eapply (ad_corner _ AR f); assumption). reflexivity.
    - assert (IM : Forall2 (MergerSpec.image g) (facets d) FD) by (apply (BdryProofs.Forall2_impl' (fcopy g (mh_col r))); [intros x y [Hxy _]; exact Hxy|exact FC]).
      rewrite (GlueProofs.flat_sides_image g _ _ IM). fold (all_sides d).
      assert (Q : forall l, incl l (all_sides d) -> esum (at_pos pos p) (map (GlueProofs.gg g) l) == esum (at_pos (mh_pos d) p) l).
      { induction l as [|[a b] l IH]; intros Hl; [reflexivity|]. cbn [map GlueProofs.gg esum fst snd]. rewrite IH by (intros x Hx; apply Hl; right; exact Hx).
        assert (H := Hl (a, b) (or_introl eq_refl)). apply all_sides_in in H. destruct H as [f [Hf H]]. destruct (side_corners f a b H) as [H1 H2].
        unfold at_pos. rewrite !PD by (eapply (ad_corner _ AD f); assumption). reflexivity. }
      apply Q. apply incl_refl. }
  split; [exact RG|]. apply (tiles_eq _ _ (mesh_region (w_rec w)) _ RG). apply mesh_tiles; [exact (sd_conf _ S)|exact SE].
Qed.

(* ---------- cases ---------- *)
Definition withinb (p a b c : vec2) : bool := Qltb 0 (det a b p) && Qltb 0 (det b c p) && Qltb 0 (det c a p).
Definition cutsb (a b c d : vec2) : bool := Qltb 0 (det a b c) && Qltb 0 (det a c d).
Definition simpleb (pos : nat -> vec2) (s : shape) : bool :=
  match s with
  | Tri3 a b c => Qltb 0 (det (pos a) (pos b) (pos c))
  | Quad4 a b c d => cutsb (pos a) (pos b) (pos c) (pos d) || cutsb (pos b) (pos c) (pos d) (pos a)
  end.
Lemma withinb_sound p a b c : withinb p a b c = true <-> within p a b c.
Proof. unfold withinb, within. rewrite !andb_true_iff, !Qltb_true. tauto. Qed.
Lemma cutsb_sound a b c d : cutsb a b c d = true <-> cuts a b c d.
Proof. unfold cutsb, cuts. rewrite !andb_true_iff, !Qltb_true. tauto. Qed.
Lemma simpleb_sound pos s : simpleb pos s = true <-> simple_shape pos s.
Proof. destruct s; cbn [simpleb simple_shape]; [apply Qltb_true|]. rewrite orb_true_iff, !cutsb_sound. tauto. Qed.
Lemma simple_all m : forallb (fun f => simpleb (mh_pos m) (fa_sh f)) (facets m) = true -> simple_elements m.
Proof. rewrite forallb_forall. intros H f Hf. apply simpleb_sound. exact (H f Hf). Qed.
(* a boundary of four edges around a simple quad *)
Lemma quad_region m a b c d : map ends_of (mh_bdry m) = [(a, b); (b, c); (c, d); (d, a)] -> simple_shape (mh_pos m) (Quad4 a b c d) -> simple_region (mesh_region m).
Proof.
  intros E S p. destruct (shape_owned (mh_pos m) p (Quad4 a b c d) S) as [x [_ [_ W]]]. rewrite region_ends, E.
  assert (K : esum (at_pos (mh_pos m) p) [(a, b); (b, c); (c, d); (d, a)] == esum (at_pos (mh_pos m) p) (shape_sides (Quad4 a b c d))) by reflexivity.
  rewrite K, W. destruct x; lra.
Qed.

Example C50_fan_case : sound (fan_mesh 0) /\ simple_elements (fan_mesh 0) /\ simple_region (mesh_region (fan_mesh 0)) /\
  mesh_region (fan_mesh 0) (V2 2 1) == 1 /\ mesh_region (fan_mesh 0) (V2 5 1) == 0.
Proof.
  split; [exact fan_sound|]. split; [apply simple_all; vm_compute; reflexivity|].
  split; [apply (quad_region _ 0 1 2 3); [reflexivity|left; split; vm_compute; reflexivity]|]. split; vm_compute; reflexivity.
Qed.
Example C50_house_case : refinable house /\ (forall f, In f (facets house) -> strictly_convex (mh_pos house) f) /\ simple_elements house.
Proof. split; [apply C31_house_case|]. split; [apply C31_house_case|]. apply simple_all. vm_compute. reflexivity. Qed.
Example C50_strip_case : sound (strip 1 1) /\ well_sided (strip 1 1) /\ tris_centred (strip 1 1) /\ simple_elements (strip 1 1).
Proof. destruct (strip_ready 1 1) as [A [B C]]. split; [exact A|]. split; [exact B|]. split; [exact C|]. apply simple_all. vm_compute. reflexivity. Qed.
Example C50_nested_case : sound (nested 1) /\ sized (nested 1) /\ (forall f, In f (mh_tris (nested 1)) -> (0 <= fa_col f)%Z) /\ simple_elements (nested 1).
Proof.
  destruct C33_nested_case as [A [[B [C _]] _]]. split; [exact A|]. split; [exact B|]. split; [exact C|]. apply simple_all. vm_compute. reflexivity.
Qed.
Example C50_row_case : mergeable sq_left sq_mid [sq_right] /\ simple_elements sq_left /\ simple_elements sq_mid /\
  exists w, merge_pair (WD sq_left sq_mid [sq_right]) = Ok (true, w).
Proof.
  split; [exact row_mergeable|]. split; [apply simple_all; vm_compute; reflexivity|]. split; [apply simple_all; vm_compute; reflexivity|].
  destruct row_result as [w [E _]]. exists w. exact E.
Qed.

(* ---------- quads and smoothing ---------- *)
(* As stated C50 is FALSE for smoothed meshes with quads: one Laplace iteration
   with the default factor moves the last corner of a quad across its first side.
   The midpoints of the crossed edges are further away than the searched radius.
   Two sides of the quad cross, and two other elements overlap. *)
Definition bow : list vec2 :=
  [V2 0 0; V2 130 0; V2 30 1; V2 (-80) 80; V2 (-210) 50; V2 (-215) (-50); V2 (-110) (-120); V2 0 (-100); V2 105 (-30)].
Definition bow_mesh : mesh :=
  MH (ptl (bow ++ [V2 (-180) 20])) (fun v => if Nat.eqb v 9 then 0%N else 8%N) [0;1;2;3;4;5;6;7;8;9]%nat
     [FA 10 (Quad4 0 1 2 9) 1 true; FA 11 (Quad4 9 7 8 0) 1 true]
     [FA 12 (Tri3 2 3 9) 1 true; FA 13 (Tri3 3 4 9) 1 true; FA 14 (Tri3 4 5 9) 1 true; FA 15 (Tri3 5 6 9) 1 true; FA 16 (Tri3 6 7 9) 1 true]
     [fresh_edge 20 0 9 (-1); fresh_edge 21 2 9 (-1); fresh_edge 22 3 9 (-1); fresh_edge 23 4 9 (-1); fresh_edge 24 5 9 (-1); fresh_edge 25 6 9 (-1); fresh_edge 26 7 9 (-1)]
     [fresh_edge 30 0 1 1; fresh_edge 31 1 2 1; fresh_edge 32 2 3 1; fresh_edge 33 3 4 1; fresh_edge 34 4 5 1; fresh_edge 35 5 6 1; fresh_edge 36 6 7 1; fresh_edge 37 7 8 1; fresh_edge 38 8 0 1]
     (fun _ _ => None) 39 20000 1 1000.
(* the two segments have an inner point in common *)
Definition cross_at (a b c d : vec2) : Prop :=
  0 < det a b c /\ det a b d < 0 /\ 0 < det c d b /\ det c d a < 0.
Definition cross_atb (a b c d : vec2) : bool := Qltb 0 (det a b c) && Qltb (det a b d) 0 && Qltb 0 (det c d b) && Qltb (det c d a) 0.
Theorem C50_smoothing_refuted : exists s m m' f g h p, sound m /\ simple_elements m /\ boundary_marked m /\
  smooth_with s laplace (3 # 4) 1 1 m = Ok m' /\ In f (facets m') /\ In g (facets m') /\ In h (facets m') /\
  (exists a b c d, fa_sh f = Quad4 a b c d /\ cross_at (mh_pos m' a) (mh_pos m' b) (mh_pos m' c) (mh_pos m' d)) /\
  fa_id g <> fa_id h /\ inside_shape (mh_pos m') (fa_sh g) p /\ inside_shape (mh_pos m') (fa_sh h) p.
Proof.
  set (p := V2 (-44) (-5)).
  destruct (ok_such (smooth_with (plain bow false) laplace (3 # 4) 1 1 bow_mesh) (fun m' =>
    let q := mh_pos m' in cross_atb (q 0%nat) (q 1%nat) (q 2%nat) (q 9%nat) && withinb p (q 2%nat) (q 3%nat) (q 9%nat) &&
      (cutsb (q 7%nat) (q 8%nat) (q 0%nat) (q 9%nat) && withinb p (q 7%nat) (q 0%nat) (q 9%nat))))
    as [m' [E T]]; [vm_compute; reflexivity|].
  assert (F : facets m' = facets bow_mesh).
  { destruct (C35_moves (plain bow false) bow_mesh _ m' E) as [SS _]. unfold facets. rewrite (ss_quads _ _ SS), (ss_tris _ _ SS). reflexivity. }
  cbv zeta in T. rewrite !andb_true_iff in T. destruct T as [[T1 T2] [T3 T4]]. apply withinb_sound in T2, T4. apply cutsb_sound in T3.
  unfold cross_atb in T1. rewrite !andb_true_iff, !Qltb_true in T1.
  exists (plain bow false), bow_mesh, m', (FA 10 (Quad4 0 1 2 9) 1 true), (FA 11 (Quad4 9 7 8 0) 1 true), (FA 12 (Tri3 2 3 9) 1 true), p.
  split; [apply soundb_sound; vm_compute; reflexivity|]. split; [apply simple_all; vm_compute; reflexivity|].
  split; [intros e He; cbn [bow_mesh mh_bdry In] in He; repeat destruct He as [He|He]; try contradiction; subst e; split; reflexivity|].
  split; [exact E|]. rewrite F. split; [cbn; auto|]. split; [cbn; auto|]. split; [cbn; auto 10|].
  split; [exists 0%nat, 1%nat, 2%nat, 9%nat; split; [reflexivity|unfold cross_at; tauto]|].
  split; [cbn; discriminate|]. split; [|exact T2].
  right. split; [exact T3|]. right. left. exact T4.
Qed.

Print Assumptions C50_tiles.
Print Assumptions C50_exact.
Print Assumptions C50_refined.
Print Assumptions C50_cleanup_partial.
Print Assumptions C50_degenerate_partial.
Print Assumptions C50_tri2quad_partial.
Print Assumptions C50_smoothed_partial.
Print Assumptions C50_merged_partial.
Print Assumptions C50_smoothing_refuted.
