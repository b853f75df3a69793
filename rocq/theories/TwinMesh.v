(* A mesh at other addresses and with other pointers to its neighbours. *)
From Coq Require Import Lia Lqa Permutation Relations.
From Verif Require Import Base Chain GeomModel GeomSpec GeomProofs UtilModel AdvanceModel MeshModel MeshSpec MeshProofs QRefineSpec CleanSpec MergerModel MergerSpec
  WindSpec WindProofs TwinModel TwinSpec TwinProofs.
From Verif Require GlueProofs WindMesh.
Open Scope Q_scope.

(* ---- other pointers ---- *)
Lemma link_facets f m : facets (link f m) = facets m.
Proof. reflexivity. Qed.
Lemma link_sides f m : all_sides (link f m) = all_sides m.
Proof. reflexivity. Qed.
Lemma link_bdry_in f m e : In e (mh_bdry (link f m)) <-> exists t, In t (mh_bdry m) /\ e = point_to (f (ed_id t)) t.
Proof. unfold link, set_bdry. cbn [mh_bdry]. rewrite in_map_iff. split; intros (t & A & B); exists t; auto. Qed.
Lemma point_ends o e : ed_1 (point_to o e) = ed_1 e /\ ed_2 (point_to o e) = ed_2 e.
Proof. destruct o; split; reflexivity. Qed.
Lemma point_left o e : ed_l (point_to o e) = ed_l e.
Proof. destruct o; reflexivity. Qed.
Lemma link_ids f m : map ed_id (mh_bdry (link f m)) = map ed_id (mh_bdry m).
Proof. unfold link, set_bdry. cbn [mh_bdry]. rewrite map_map. apply map_ext. intros e. apply point_id. Qed.
Lemma link_edges_ids f m : map ed_id (all_edges (link f m)) = map ed_id (all_edges m).
Proof. unfold all_edges. rewrite !map_app, link_ids. reflexivity. Qed.
Lemma link_edge_in f m e : In e (all_edges (link f m)) -> exists t, In t (all_edges m) /\ ed_id e = ed_id t /\ ed_1 e = ed_1 t /\ ed_2 e = ed_2 t.
Proof.
  intros H. unfold all_edges in H. apply in_app_or in H. destruct H as [H|H].
  - exists e. split; [apply in_or_app; left; exact H|auto].
  - apply link_bdry_in in H. destruct H as (t & Ht & ->). exists t. split; [apply in_or_app; right; exact Ht|]. rewrite point_id. split; [reflexivity|apply point_ends].
Qed.
Lemma link_conforming f m : conforming m -> conforming (link f m).
Proof.
  intros C. constructor; try (apply C).
  - intros e He. apply link_bdry_in in He. destruct He as (t & Ht & ->). destruct (point_ends (f (ed_id t)) t) as [-> ->]. exact (cf_bdry _ C t Ht).
  - intros a b H. destruct (cf_cover _ C a b H) as (e & He & X). unfold all_edges in He. apply in_app_or in He. destruct He as [He|He].
    + exists e. split; [apply in_or_app; left; exact He|exact X].
    + exists (point_to (f (ed_id e)) e). split; [apply in_or_app; right; apply link_bdry_in; exists e; auto|]. destruct (point_ends (f (ed_id e)) e) as [-> ->]. exact X.
  - rewrite link_edges_ids. apply C.
  - intros e g He Hg S. destruct (link_edge_in f m e He) as (e' & He' & I1 & A1 & A2). destruct (link_edge_in f m g Hg) as (g' & Hg' & I2 & B1 & B2).
    assert (Q : e' = g') by (apply (cf_single _ C e' g' He' Hg'); unfold same_pair in *; rewrite A1, A2, B1, B2 in S; exact S). subst g'.
    assert (N := cf_eids _ C). rewrite <- (link_edges_ids f) in N. clear - N He Hg I1 I2.
    assert (Q : ed_id e = ed_id g) by congruence. clear I1 I2. revert N He Hg. generalize (all_edges (link f m)). intros l N He Hg.
    induction l as [|x l IH]; [destruct He|]. cbn [map] in N. apply NoDup_cons_iff in N. destruct N as [N1 N2].
    destruct He as [<-|He], Hg as [<-|Hg]; [reflexivity| | |exact (IH N2 He Hg)]; exfalso; apply N1; [rewrite Q|rewrite <- Q]; apply in_map; assumption.
Qed.
Lemma link_addressed f m : addressed m -> addressed (link f m).
Proof.
  intros A. destruct A. constructor; try assumption.
  intros e He. destruct (link_edge_in f m e He) as (t & Ht & -> & _). auto.
Qed.
Lemma link_sound f m : sound m -> sound (link f m).
Proof.
  intros S. constructor.
  - apply link_conforming, S.
  - apply link_addressed, S.
  - apply S.
  - apply S.
  - apply S.
  - apply S.
Qed.

(* ---- other addresses ---- *)
Lemma relocate_facets k m : facets (relocate k m) = map (shift_facet k) (facets m).
Proof. unfold facets, relocate. cbn [mh_quads mh_tris]. rewrite map_app. reflexivity. Qed.
Lemma relocate_edges k m : all_edges (relocate k m) = map (shift_edge k) (all_edges m).
Proof. unfold all_edges, relocate. cbn [mh_intr mh_bdry]. rewrite map_app. reflexivity. Qed.
Lemma relocate_sides k m : all_sides (relocate k m) = all_sides m.
Proof. unfold all_sides. rewrite relocate_facets. induction (facets m) as [|f l IH]; [reflexivity|]. cbn [map flat_map]. rewrite IH. reflexivity. Qed.
Lemma shifted_nodup (g : nat -> nat) l : (forall x y, g x = g y -> x = y) -> NoDup l -> NoDup (map g l).
Proof.
  intros I. induction 1 as [|x l N _ IH]; cbn [map]; constructor; [|exact IH]. intros X. apply in_map_iff in X. destruct X as (y & Q & Y). apply I in Q. subst. contradiction.
Qed.
Lemma relocate_conforming k m : conforming m -> conforming (relocate k m).
Proof.
  intros C. constructor.
  - rewrite relocate_facets, map_map. change (fun x => fa_id (shift_facet k x)) with (fun x => Nat.add k (fa_id x)). rewrite <- map_map. apply shifted_nodup; [lia|apply C].
  - rewrite relocate_facets. intros f H. apply in_map_iff in H. destruct H as (g & <- & H). exact (cf_corners _ C g H).
  - intros f H. cbn [relocate mh_quads] in H. apply in_map_iff in H. destruct H as (g & <- & H). exact (cf_quads _ C g H).
  - intros f H. cbn [relocate mh_tris] in H. apply in_map_iff in H. destruct H as (g & <- & H). exact (cf_tris _ C g H).
  - rewrite relocate_sides. apply C.
  - rewrite relocate_sides. intros e H. cbn [relocate mh_intr] in H. apply in_map_iff in H. destruct H as (g & <- & H). exact (cf_intr _ C g H).
  - rewrite relocate_sides. intros e H. cbn [relocate mh_bdry] in H. apply in_map_iff in H. destruct H as (g & <- & H). exact (cf_bdry _ C g H).
  - rewrite relocate_sides, relocate_edges. intros a b H. destruct (cf_cover _ C a b H) as (e & He & X). exists (shift_edge k e). split; [apply in_map; exact He|exact X].
  - rewrite relocate_edges, map_map. change (fun x => ed_id (shift_edge k x)) with (fun x => Nat.add k (ed_id x)). rewrite <- map_map. apply shifted_nodup; [lia|apply C].
  - rewrite relocate_edges. intros e f He Hf S. apply in_map_iff in He. destruct He as (e' & <- & He). apply in_map_iff in Hf. destruct Hf as (f' & <- & Hf).
    f_equal. exact (cf_single _ C e' f' He Hf S).
Qed.
Lemma relocate_addressed k m : addressed m -> addressed (relocate k m).
Proof.
  intros A. constructor.
  - apply A.
  - rewrite relocate_facets. intros f v H. apply in_map_iff in H. destruct H as (g & <- & H). exact (ad_corner _ A g v H).
  - intros v H. assert (X := ad_vnext _ A v H). cbn [relocate mh_next]. lia.
  - rewrite relocate_facets. intros f H. apply in_map_iff in H. destruct H as (g & <- & H). assert (X := ad_fnext _ A g H). cbn [relocate mh_next shift_facet fa_id]. lia.
  - rewrite relocate_edges. intros f H. apply in_map_iff in H. destruct H as (g & <- & H). assert (X := ad_enext _ A g H). cbn [relocate mh_next shift_edge ed_id]. lia.
Qed.
Lemma relocate_fans k m : fans m -> fans (relocate k m).
Proof.
  intros F v f g. rewrite relocate_facets. intros Hf Hg. apply in_map_iff in Hf. destruct Hf as (f' & <- & Hf). apply in_map_iff in Hg. destruct Hg as (g' & <- & Hg).
  intros Vf Vg. specialize (F v f' g' Hf Hg Vf Vg). clear - F. induction F as [x y (A & B & C)|x|x y z _ IH1 _ IH2].
  - apply rt_step. split; [rewrite relocate_facets; apply in_map; exact A|]. split; [rewrite relocate_facets; apply in_map; exact B|exact C].
  - apply rt_refl.
  - exact (rt_trans _ _ _ _ _ IH1 IH2).
Qed.
Lemma relocate_sound k m : sound m -> sound (relocate k m).
Proof.
  intros S. constructor.
  - apply relocate_conforming, S.
  - apply relocate_addressed, S.
  - apply S.
  - apply relocate_fans, S.
  - intros f. rewrite relocate_facets. intros H. apply in_map_iff in H. destruct H as (g & <- & H). exact (sd_pos _ S g H).
  - intros f i a b. rewrite relocate_facets, relocate_sides. intros H. apply in_map_iff in H. destruct H as (g & <- & H). intros A N.
    cbn [relocate mh_nbr shift_facet fa_id]. assert (L : Nat.leb k (k + fa_id g) = true) by (apply Nat.leb_le; lia). rewrite L.
    replace (k + fa_id g - k)%nat with (fa_id g) by lia. rewrite (sd_unset _ S g i a b H A N). reflexivity.
Qed.
Lemma relocate_covered k m : covered (relocate k m) == covered m.
Proof. unfold covered. rewrite relocate_facets, map_map. reflexivity. Qed.
Lemma relocate_centred k m : all_centred m -> all_centred (relocate k m).
Proof. intros H f. rewrite relocate_facets. intros I. apply in_map_iff in I. destruct I as (g & <- & I). exact (H g I). Qed.
Lemma relocate_region k m p : WindMesh.mesh_region (relocate k m) p = WindMesh.mesh_region m p.
Proof. unfold WindMesh.mesh_region, WindMesh.boundary_segments. cbn [relocate mh_bdry mh_pos]. rewrite map_map. reflexivity. Qed.
Lemma link_region f m p : WindMesh.mesh_region (link f m) p = WindMesh.mesh_region m p.
Proof.
  unfold WindMesh.mesh_region, WindMesh.boundary_segments. unfold link, set_bdry. cbn [mh_bdry mh_pos]. rewrite map_map. f_equal. apply map_ext. intros e.
  destruct (point_ends (f (ed_id e)) e) as [-> ->]. reflexivity.
Qed.
Lemma relocate_simple k m : WindMesh.simple_elements m -> WindMesh.simple_elements (relocate k m).
Proof. intros H f. rewrite relocate_facets. intros I. apply in_map_iff in I. destruct I as (g & <- & I). exact (H g I). Qed.

(* ---- elements on the same side of one segment overlap ---- *)
Definition steps (l : list (Q * Q)) (x : Q) : Prop := Forall (fun p => 0 < fst p + x * snd p) l.
Lemma small_step l : Forall (fun p : Q * Q => 0 < fst p) l -> exists x, 0 < x /\ steps l x.
Proof.
  intros F. assert (G : exists x, 0 < x /\ forall y, 0 < y -> y <= x -> steps l y).
  { induction F as [|[d k] l D _ (x & X & S)]; [exists 1; split; [reflexivity|]; intros; constructor|]. cbn [fst] in D.
    destruct (Qlt_le_dec k 0) as [K|K].
    - assert (P : 0 < d / (- k) * (1 # 2)) by (apply Qmult_lt_0_compat; [apply Qlt_shift_div_l; lra|reflexivity]).
      assert (E : d / (- k) * (1 # 2) * k == - (d * (1 # 2))) by (field; lra).
      destruct (Qlt_le_dec x (d / (- k) * (1 # 2))) as [L|L].
      + exists x. split; [exact X|]. intros y Y1 Y2. constructor; [|apply S; assumption]. cbn [fst snd].
        assert (y * (- k) <= d / (- k) * (1 # 2) * (- k)) by (apply Qmult_le_compat_r; lra). lra.
      + exists (d / (- k) * (1 # 2)). split; [exact P|]. intros y Y1 Y2. constructor; [|apply S; [exact Y1|lra]]. cbn [fst snd].
        assert (y * (- k) <= d / (- k) * (1 # 2) * (- k)) by (apply Qmult_le_compat_r; lra). lra.
    - exists x. split; [exact X|]. intros y Y1 Y2. constructor; [|apply S; assumption]. cbn [fst snd].
      assert (0 <= y * k) by (apply Qmult_le_0_compat; lra). lra. }
  destruct G as (x & X & S). exists x. split; [exact X|]. apply S; [exact X|lra].
Qed.
Lemma det_turn a b c : det a b c == det b c a.
Proof. unfold det. ring. Qed.
Lemma within_turn p a b c : within p a b c -> within p b c a.
Proof. intros (A & B & C). split; [exact B|]. split; assumption. Qed.
Lemma side_apex pos s u v : simple_shape pos s -> In (u, v) (ring_edges (corners s)) ->
  exists w, 0 < det (pos u) (pos v) (pos w) /\ forall p, within p (pos u) (pos v) (pos w) -> inside_shape pos s p.
Proof.
  destruct s as [a b c|a b c d]; cbn [simple_shape corners ring_edges path_edges app In inside_shape].
  - intros P [H|[H|[H|[]]]]; injection H as <- <-.
    + exists c. split; [exact P|auto].
    + exists a. split; [rewrite <- det_turn; exact P|]. intros p W. apply within_turn, within_turn. exact W.
    + exists b. split; [rewrite <- det_turn, <- det_turn; exact P|]. intros p W. apply within_turn. exact W.
  - intros [C|C]; assert (C' := C); destruct C' as [C1 C2]; intros [H|[H|[H|[H|[]]]]]; injection H as <- <-.
    + exists c. split; [exact C1|]. intros p W. left. split; [exact C|left; exact W].
    + exists a. split; [rewrite <- det_turn; exact C1|]. intros p W. left. split; [exact C|left]. apply within_turn, within_turn. exact W.
    + exists a. split; [rewrite <- det_turn; exact C2|]. intros p W. left. split; [exact C|right; left]. apply within_turn, within_turn. exact W.
    + exists c. split; [rewrite <- det_turn, <- det_turn; exact C2|]. intros p W. left. split; [exact C|right; left]. apply within_turn. exact W.
    + exists d. split; [rewrite <- det_turn, <- det_turn; exact C2|]. intros p W. right. split; [exact C|right; left]. apply within_turn. exact W.
    + exists d. split; [exact C1|]. intros p W. right. split; [exact C|left; exact W].
    + exists b. split; [rewrite <- det_turn; exact C1|]. intros p W. right. split; [exact C|left]. apply within_turn, within_turn. exact W.
    + exists b. split; [rewrite <- det_turn; exact C2|]. intros p W. right. split; [exact C|right; left]. apply within_turn, within_turn. exact W.
Qed.
Lemma common_point a b c e : 0 < det a b c -> 0 < det a b e -> exists p, within p a b c /\ within p a b e.
Proof.
  intros C E. set (k := fun w => (vx b - vx a) * (vx w - vx b) + (vy b - vy a) * (vy w - vy b)). set (l := fun w => (vx b - vx a) * (vx a - vx w) + (vy b - vy a) * (vy a - vy w)).
  destruct (small_step [((1 # 2) * det a b c, k c); ((1 # 2) * det a b c, l c); ((1 # 2) * det a b e, k e); ((1 # 2) * det a b e, l e)]) as (x & X & S).
  { repeat constructor; cbn [fst]; lra. }
  inversion S as [|? ? S1 T1]; subst. inversion T1 as [|? ? S2 T2]; subst. inversion T2 as [|? ? S3 T3]; subst. inversion T3 as [|? ? S4 _]; subst. clear S T1 T2 T3. cbn [fst snd] in *.
  exists (V2 ((1 # 2) * (vx a + vx b) - x * (vy b - vy a)) ((1 # 2) * (vy a + vy b) + x * (vx b - vx a))).
  set (p := V2 _ _).
  assert (NP : 0 < det a b p).
  { assert (Q : det a b p == x * ((vx b - vx a) * (vx b - vx a) + (vy b - vy a) * (vy b - vy a))) by (unfold det, p; cbn [vx vy]; ring). rewrite Q.
    apply Qmult_lt_0_compat; [exact X|]. destruct (Qlt_le_dec 0 ((vx b - vx a) * (vx b - vx a) + (vy b - vy a) * (vy b - vy a))) as [P|P]; [exact P|exfalso].
    unfold det in C. revert P C. generalize (vx b - vx a) (vy b - vy a) (vx c - vx a) (vy c - vy a). clear. intros u v s t P C.
    assert (Z1 : u == 0) by nra. assert (Z2 : v == 0) by nra. rewrite Z1, Z2 in C. lra. }
  assert (K : forall w, det b w p == (1 # 2) * det a b w + x * k w) by (intros w; unfold det, p, k; cbn [vx vy]; ring).
  assert (L : forall w, det w a p == (1 # 2) * det a b w + x * l w) by (intros w; unfold det, p, l; cbn [vx vy]; ring).
  split; (split; [exact NP|]); rewrite K, L; split; assumption.
Qed.
Lemma regions_apart r d : conforming r -> conforming d -> WindMesh.simple_elements r -> WindMesh.simple_elements d ->
  (forall p, ~ (0 < WindMesh.mesh_region r p /\ 0 < WindMesh.mesh_region d p)) -> no_overlap r d.
Proof.
  intros CR CD SR SD N a b c e A B [E1 E2]. apply all_sides_in in A. destruct A as (f & Hf & A). apply all_sides_in in B. destruct B as (g & Hg & B).
  destruct (side_apex _ _ _ _ (SR f Hf) A) as (w & W & WI). destruct (side_apex _ _ _ _ (SD g Hg) B) as (z & Z & ZI).
  rewrite E1, E2 in W, WI. destruct (common_point _ _ _ _ W Z) as (p & P1 & P2). apply (N p).
  assert (TR := WindMesh.mesh_tiles r CR SR). assert (TD := WindMesh.mesh_tiles d CD SD).
  assert (X1 := tiles_only _ _ _ p (fa_sh f) TR (in_map fa_sh _ f Hf) (WI p P1)). assert (X2 := tiles_only _ _ _ p (fa_sh g) TD (in_map fa_sh _ g Hg) (ZI p P2)). split; lra.
Qed.
