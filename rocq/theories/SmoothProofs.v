From Coq Require Import Lia Permutation Lqa.
From Verif Require Import Base GeomModel FacetModel UtilModel GeomSpec GeomProofs UtilProofs AdvanceModel Chain MeshModel MeshSpec MeshProofs MeshProps
  QRefineModel QRefineSpec QRefineShape QRefineConf QRefineProps CleanSpec CleanProofs CleanPass GlueProofs SmoothModel SmoothSpec.

(* ---------- the area of a mesh depends on its boundary only ---------- *)
Definition cr (pos : nat -> vec2) (a b : nat) : Q := (1 # 2) * vcross (pos a) (pos b).
Lemma cr_antisym pos : antisym (cr pos).
Proof. intros a b. unfold cr, vcross. ring. Qed.
Lemma fa_area_sides pos f : fa_area pos f == esum (cr pos) (sides f).
Proof. unfold fa_area, sides. destruct (fa_sh f); cbn [corners ring_edges]; unfold ring_edges; cbn; unfold cr, tri_area, quad_area, vcross, vsub; cbn [vx vy]; unfold tri_area, vcross, vsub; cbn [vx vy]; ring. Qed.
Lemma covered_sides m : covered m == esum (cr (mh_pos m)) (all_sides m).
Proof.
  unfold covered, all_sides. induction (facets m) as [|f l IH]; [reflexivity|]. cbn [map sumQ flat_map]. rewrite esum_app, <- IH, <- fa_area_sides. reflexivity.
Qed.
Definition ends_of (e : medge) : nat * nat := (ed_1 e, ed_2 e).
Definition both (e : medge) : list (nat * nat) := [(ed_1 e, ed_2 e); (ed_2 e, ed_1 e)].
Lemma sides_perm m : conforming m -> Permutation (all_sides m) (flat_map both (mh_intr m) ++ map ends_of (mh_bdry m)).
Proof.
  intros C. apply NoDup_Permutation.
  - exact (cf_sides _ C).
  - apply nodup_app.
    + apply nodup_flat_map.
      * assert (N := cf_eids _ C). unfold all_edges in N. rewrite map_app in N. apply nodup_app_l' in N. exact (NoDup_map_inv _ _ (proj1 N)).
      * intros e He. constructor; [|constructor; [intros []|constructor]]. intros [E|[]]. injection E as E1 E2.
        assert (S := proj1 (cf_intr _ C e He)). apply all_sides_in in S. destruct S as [f [Hf S]]. apply (side_neq f (ed_1 e) (ed_2 e)); [apply C; exact Hf|exact S|congruence].
      * intros e e' p He He' H1 H2. apply (cf_single _ C); [apply in_or_app; auto|apply in_or_app; auto|]. unfold same_pair.
        destruct H1 as [H1|[H1|[]]], H2 as [H2|[H2|[]]]; rewrite <- H1 in H2; injection H2 as E1 E2; auto.
    + assert (NB := bdry_nodup m C). assert (S := cf_single _ C). assert (I : incl (mh_bdry m) (all_edges m)) by (intros x Hx; apply in_or_app; auto). clear - NB S I.
      induction NB as [|e l N1 N2 IH]; [constructor|]. cbn [map]. constructor; [|apply IH; intros x Hx; apply I; right; exact Hx].
      intros H. apply in_map_iff in H. destruct H as [e' [E H]]. apply N1. injection E as E1 E2. rewrite (S e e'); [exact H|apply I; left; reflexivity|apply I; right; exact H|left; auto].
    + intros p Hp Hb. apply in_flat_map in Hp. destruct Hp as [e [He Hp]]. apply in_map_iff in Hb. destruct Hb as [b [E Hb]]. subst p.
      destruct (cf_intr _ C e He) as [I1 I2]. destruct (cf_bdry _ C b Hb) as [_ B2]. apply B2. unfold ends_of in Hp. destruct Hp as [Hp|[Hp|[]]]; injection Hp as <- <-; assumption.
  - intros [a b]. rewrite in_app_iff, in_flat_map, in_map_iff. split.
    + intros H. destruct (cf_cover _ C a b H) as [e [He D]]. apply in_app_or in He. destruct He as [He|He].
      * left. exists e. split; [exact He|]. destruct D as [[<- <-]|[<- <-]]; cbn; auto.
      * right. exists e. split; [|exact He]. unfold ends_of. destruct D as [[<- <-]|[<- <-]]; [reflexivity|]. destruct (proj2 (cf_bdry _ C e He) H).
    + intros [[e [He H]]|[e [E He]]].
      * destruct (cf_intr _ C e He) as [I1 I2]. destruct H as [H|[H|[]]]; injection H as <- <-; assumption.
      * unfold ends_of in E. injection E as <- <-. exact (proj1 (cf_bdry _ C e He)).
Qed.
Lemma covered_boundary m : conforming m -> covered m == esum (cr (mh_pos m)) (map ends_of (mh_bdry m)).
Proof.
  intros C. rewrite covered_sides, (esum_perm _ _ _ (sides_perm m C)), esum_app.
  assert (Z : esum (cr (mh_pos m)) (flat_map both (mh_intr m)) == 0).
  { induction (mh_intr m) as [|e l IH]; [reflexivity|]. cbn [flat_map both app esum]. rewrite IH, (cr_antisym (mh_pos m) (ed_1 e) (ed_2 e)). ring. }
  rewrite Z. ring.
Qed.

(* ---------- one vertex ---------- *)
Lemma put_same p v x : put_at p v x v = x.
Proof. unfold put_at. rewrite Nat.eqb_refl. reflexivity. Qed.
Lemma put_other p v x w : w <> v -> put_at p v x w = p w.
Proof. intros H. unfold put_at. destruct (Nat.eqb_spec w v); [contradiction|reflexivity]. Qed.
Lemma may_move_pinned s m v : may_move s m v = false <-> pinned (sm_layers s) m v.
Proof.
  unfold may_move, pinned. destruct (has_property _ v_is_fixed), (has_property _ v_on_boundary), (has_property _ v_in_quad_layer), (sm_layers s); cbn; split; intros H; auto; try discriminate;
    repeat match goal with H : _ \/ _ |- _ => destruct H | H : _ /\ _ |- _ => destruct H end; discriminate.
Qed.

Record reached (s : smoother) (m m' : mesh) : Prop := {
  rc_form : exists p, m' = set_pos m p;
  rc_still : forall v, pinned (sm_layers s) m v \/ ~ In v (mh_verts m) -> mh_pos m' v = mh_pos m v;
  rc_in : forall v, mh_pos m' v = mh_pos m v \/ sm_inside s (mh_pos m' v) = true;
  rc_tri : forall f a b c, In f (facets m) -> fa_sh f = Tri3 a b c ->
    (left_turn (mh_pos m) a b c -> left_turn (mh_pos m') a b c) /\ (clear_turn (mh_pos m) a b c -> clear_turn (mh_pos m') a b c);
  rc_quad : forall f a b c d, In f (facets m) -> fa_sh f = Quad4 a b c d ->
    (left_turn (mh_pos m) a b c /\ left_turn (mh_pos m) b c d -> left_turn (mh_pos m') a b c /\ left_turn (mh_pos m') b c d) /\
    (clear_turn (mh_pos m) a b c /\ clear_turn (mh_pos m) b c d -> clear_turn (mh_pos m') a b c /\ clear_turn (mh_pos m') b c d)
}.
Lemma reached_refl s m : reached s m m.
Proof. constructor; [exists (mh_pos m); destruct m; reflexivity|auto|auto|auto|auto]. Qed.
Lemma reached_trans s m1 m2 m3 : reached s m1 m2 -> reached s m2 m3 -> reached s m1 m3.
Proof.
  intros [[p F1] S1 I1 T1 Q1] [[q F2] S2 I2 T2 Q2]. assert (X : facets m2 = facets m1) by (rewrite F1; reflexivity). constructor.
  - exists q. rewrite F2, F1. reflexivity.
  - intros v H. rewrite S2, S1; auto. destruct H as [H|H]; [left|right]; rewrite F1; exact H.
  - intros v. destruct (I2 v) as [->|H]; auto.
  - intros f a b c Hf E. rewrite <- X in Hf. destruct (T2 f a b c Hf E). rewrite X in Hf. destruct (T1 f a b c Hf E). auto.
  - intros f a b c d Hf E. rewrite <- X in Hf. destruct (Q2 f a b c d Hf E). rewrite X in Hf. destruct (Q1 f a b c d Hf E). auto.
Qed.
(* pointwise the same positions *)
Lemma reached_back s m p : (forall v, p v = mh_pos m v) -> reached s m (set_pos m p).
Proof.
  intros H. constructor; cbn [set_pos mh_pos].
  - exists p. reflexivity.
  - intros v _. apply H.
  - intros v. left. apply H.
  - intros f a b c _ _. unfold left_turn, clear_turn. rewrite !H. auto.
  - intros f a b c d _ _. unfold left_turn, clear_turn. rewrite !H. auto.
Qed.
Lemma clear_left pos a b c : clear_turn pos a b c -> left_turn pos a b c.
Proof.
  unfold clear_turn, left_turn, is_left, orientation. intros H. destruct (Qltb (area2 (pos a) (pos b) (pos c) * area2 (pos a) (pos b) (pos c)) small); [discriminate|].
  destruct (Qltb 0 (area2 (pos a) (pos b) (pos c))) eqn:E; [apply Qltb_true; exact E|discriminate].
Qed.
Lemma accepted_reached s m v new : may_move s m v = true -> In v (mh_verts m) ->
  position_ok s (set_pos m (put_at (mh_pos m) v new)) v = true -> reached s m (set_pos m (put_at (mh_pos m) v new)).
Proof.
  set (p := put_at (mh_pos m) v new). intros MM Hv OK. unfold position_ok in OK. apply andb_true_iff in OK. destruct OK as [OK _]. apply andb_true_iff in OK. destruct OK as [OI OF].
  cbn [set_pos mh_pos] in OI, OF. change (facets_at (set_pos m p) v) with (facets_at m v) in OF. rewrite forallb_forall in OF.
  assert (FO : forall f, In f (facets m) -> In v (corners (fa_sh f)) -> facet_ok p f = true) by (intros f Hf Hc; apply OF; apply facets_at_in; auto).
  constructor; cbn [set_pos mh_pos].
  - exists p. reflexivity.
  - intros w H. unfold p. apply put_other. intros ->. destruct H as [H|H]; [apply may_move_pinned in H; congruence|contradiction].
  - intros w. destruct (Nat.eq_dec w v) as [->|N]; [right; exact OI|left; unfold p; apply put_other; exact N].
  - intros f a b c Hf E. destruct (in_dec Nat.eq_dec v (corners (fa_sh f))) as [I|I].
    + specialize (FO f Hf I). unfold facet_ok in FO. rewrite E in FO. split; intros _; [apply clear_left; exact FO|exact FO].
    + rewrite E in I. cbn [corners In] in I. unfold left_turn, clear_turn, p. rewrite !put_other by (intros X; apply I; auto). auto.
  - intros f a b c d Hf E. destruct (in_dec Nat.eq_dec v (corners (fa_sh f))) as [I|I].
    + specialize (FO f Hf I). unfold facet_ok in FO. rewrite E in FO. apply andb_true_iff in FO. destruct FO as [F1 F2]. split; intros _; split; try exact F1; try exact F2; apply clear_left; assumption.
    + rewrite E in I. cbn [corners In] in I. unfold left_turn, clear_turn, p. rewrite !put_other by (intros X; apply I; auto). auto.
Qed.
Lemma smooth_vertex_reached s dirs r eps m i v nbrs m' : In v (mh_verts m) -> smooth_vertex s dirs r eps m (i, (v, nbrs)) = Ok m' -> reached s m m'.
Proof.
  intros Hv. unfold smooth_vertex. destruct (may_move s m v) eqn:MM; cbn [negb]; [|intros E; injection E as <-; apply reached_refl].
  destruct (r (mh_pos m) v nbrs) as [delta|]; [|intros E; injection E as <-; apply reached_refl].
  destruct (if has_property (mh_prop m v) v_in_quad_layer then _ else _) as [d| |]; cbn [obind]; try discriminate.
  destruct (sm_inside s _); [|intros E; injection E as <-; apply reached_refl]. unfold set_vertex at 1. destruct (located m v); cbn [obind]; [|discriminate].
  set (new := vadd (mh_pos m v) (vscale eps d)). destruct (position_ok s _ v) eqn:OK.
  - intros E. injection E as <-. exact (accepted_reached s m v new MM Hv OK).
  - unfold set_vertex. destruct (located _ v); [|discriminate]. intros E. injection E as <-. change (set_pos (set_pos m (put_at (mh_pos m) v new)) ?p) with (set_pos m p).
    apply reached_back. intros w. unfold put_at. destruct (Nat.eqb_spec w v) as [->|N]; reflexivity.
Qed.
Lemma numbered_in {A} (l : list A) i x : In (i, x) (numbered l) -> In x l /\ (i < length l)%nat.
Proof. unfold numbered. intros H. split; [exact (in_combine_r _ _ _ _ H)|]. apply in_combine_l in H. apply in_seq in H. lia. Qed.
Lemma conn_in s m v ns : In (v, ns) (connectivity s m) -> In v (mh_verts m).
Proof. unfold connectivity. intros H. apply in_map_iff in H. destruct H as [x [E H]]. injection E as <- _. exact H. Qed.
Lemma iteration_reached s dirs m0 k m m' : reached s m0 m -> iteration s dirs (connectivity s m0) m k = Ok m' -> reached s m0 m'.
Proof.
  intros R. unfold iteration. assert (I : forall i v ns, In (i, (v, ns)) (numbered (connectivity s m0)) -> In v (mh_verts m0)) by (intros i v ns H; apply numbered_in in H; apply (conn_in s m0 v ns), H).
  revert m R. induction (numbered (connectivity s m0)) as [|[i [v ns]] l IH]; intros m R; cbn [ofold]; [intros E; injection E as <-; exact R|].
  destruct (smooth_vertex s dirs (fst k) (snd k) m (i, (v, ns))) as [m1| |] eqn:E1; cbn [obind]; try discriminate.
  apply IH; [intros j w nw H; apply (I j w nw); right; exact H|]. apply (reached_trans s m0 m m1 R). apply (smooth_vertex_reached _ _ _ _ _ _ _ _ _) with (2 := E1).
  destruct (rc_form _ _ _ R) as [p ->]. exact (I i v ns (or_introl eq_refl)).
Qed.
Lemma run_reached s m ks m' : run s m ks = Ok m' -> reached s (setup_facet_connectivity m) m'.
Proof.
  unfold run. destruct (directions s (setup_facet_connectivity m)) as [dirs| |]; cbn [obind]; try discriminate.
  set (m0 := setup_facet_connectivity m). assert (R := reached_refl s m0). revert R. generalize m0 at 2 4. revert m'.
  induction ks as [|k ks IH]; intros m' x R; cbn [ofold]; [intros E; injection E as <-; exact R|].
  destruct (iteration s dirs (connectivity s m0) x k) as [m1| |] eqn:E1; cbn [obind]; try discriminate. apply IH. exact (iteration_reached _ _ _ _ _ _ R E1).
Qed.

(* ---------- no undefined behaviour ---------- *)
Lemma reached_fits s m m' : fits m -> domain_fits (sm_inside s) m -> reached s m m' -> fits m'.
Proof.
  intros F D R. destruct (rc_form _ _ _ R) as [p E]. intros v Hv. assert (H := rc_in _ _ _ R v). rewrite E in *. cbn [set_pos mh_verts mh_pos mh_scale] in *.
  destruct H as [->|H]; [exact (F v Hv)|exact (D _ H)].
Qed.
Lemma located_ok m v : conforming m -> addressed m -> fits m -> In v (mh_verts m) -> located m v = true.
Proof.
  intros C A F Hv. unfold located. apply andb_true_iff. split; [apply andb_true_iff; split|].
  - apply F. exact Hv.
  - apply forallb_forall. intros e He. apply filter_In in He. destruct He as [He _]. destruct (edge_corners m e C A He) as [V1 V2]. apply in_square_ed_xy; apply F; assumption.
  - apply forallb_forall. intros f Hf. apply facets_at_in in Hf. destruct Hf as [Hf _]. apply in_square_fa_xy. intros w Hw. apply F. exact (ad_corner _ A f w Hf Hw).
Qed.
Lemma set_pos_conforming m p : conforming m -> conforming (set_pos m p).
Proof. intros [? ? ? ? ? ? ? ? ? ?]. constructor; assumption. Qed.
Lemma set_pos_addressed m p : addressed m -> addressed (set_pos m p).
Proof. intros [? ? ? ? ?]. constructor; assumption. Qed.
Section NoUB.
Variable s : smoother.
Variable m0 : mesh.
Hypothesis C : conforming m0.
Hypothesis A : addressed m0.
Hypothesis F : fits m0.
Hypothesis D : domain_fits (sm_inside s) m0.
Lemma smooth_vertex_ok dirs r eps m i v nbrs : reached s m0 m -> In v (mh_verts m0) -> (i < length dirs)%nat ->
  exists m', smooth_vertex s dirs r eps m (i, (v, nbrs)) = Ok m'.
Proof.
  intros R Hv Hi. assert (RM := R). destruct (rc_form _ _ _ R) as [p E]. unfold smooth_vertex. destruct (may_move s m v) eqn:MM; cbn [negb]; [|eauto].
  destruct (r (mh_pos m) v nbrs) as [delta|]; [|eauto].
  assert (X : exists d, (if has_property (mh_prop m v) v_in_quad_layer then match nth_error dirs i with Some d => Ok (vsub delta (vscale (vdot delta d) d)) | None => UB end else Ok delta) = Ok d).
  { destruct (has_property _ _); [|eauto]. destruct (nth_error dirs i) eqn:N; [eauto|]. apply nth_error_None in N. lia. }
  destruct X as [d ->]. cbn [obind]. destruct (sm_inside s (vadd (mh_pos m v) (vscale eps d))) eqn:IN; [|eauto].
  assert (LOC : forall m', reached s m0 m' -> located m' v = true).
  { intros m' R'. assert (F' := reached_fits s m0 m' F D R'). destruct (rc_form _ _ _ R') as [q ->]. apply located_ok; [apply set_pos_conforming; exact C|apply set_pos_addressed; exact A|exact F'|exact Hv]. }
  unfold set_vertex. rewrite (LOC m R). cbn [obind]. destruct (position_ok s _ v); [eauto|].
  set (m1 := set_pos m (put_at (mh_pos m) v (vadd (mh_pos m v) (vscale eps d)))). assert (L1 : located m1 v = true).
  { apply located_ok.
    - unfold m1. rewrite E. apply (set_pos_conforming m0). exact C.
    - unfold m1. rewrite E. apply (set_pos_addressed m0). exact A.
    - intros w Hw. unfold m1. cbn [set_pos mh_scale mh_pos]. assert (FM := reached_fits s m0 m F D RM). unfold put_at. destruct (Nat.eqb_spec w v) as [->|N].
      + rewrite E. cbn [set_pos mh_scale]. rewrite E in IN. exact (D _ IN).
      + apply FM. exact Hw.
    - unfold m1. rewrite E. exact Hv. }
  rewrite L1. eauto.
Qed.
Lemma iteration_ok dirs k m : (length (mh_verts m0) <= length dirs)%nat -> reached s m0 m -> exists m', iteration s dirs (connectivity s m0) m k = Ok m'.
Proof.
  intros L R. unfold iteration.
  assert (I : forall i v ns, In (i, (v, ns)) (numbered (connectivity s m0)) -> In v (mh_verts m0) /\ (i < length dirs)%nat).
  { intros i v ns H. apply numbered_in in H. destruct H as [H1 H2]. split; [apply (conn_in s m0 v ns), H1|]. unfold connectivity in H2. rewrite map_length in H2. lia. }
  revert m R. induction (numbered (connectivity s m0)) as [|[i [v ns]] l IH]; intros m R; cbn [ofold]; [eauto|]. destruct (I i v ns (or_introl eq_refl)) as [Hv Hi].
  destruct (smooth_vertex_ok dirs (fst k) (snd k) m i v ns R Hv Hi) as [m1 E1]. rewrite E1. cbn [obind]. apply IH; [intros j w nw H; apply (I j w nw); right; exact H|].
  apply (reached_trans s m0 m m1 R). apply (smooth_vertex_reached _ _ _ _ _ _ _ _ _) with (2 := E1). destruct (rc_form _ _ _ R) as [p ->]. exact Hv.
Qed.
Lemma push_ok vs : forall acc, incl vs (mh_verts m0) -> exists ds, push_directions s m0 vs acc = Ok (acc ++ ds).
Proof.
  induction vs as [|v vs IH]; intros acc I; cbn [push_directions]; [exists []; rewrite app_nil_r; reflexivity|].
  assert (X : exists d, direction s m0 v = Ok d).
  { unfold direction. destruct (negb (has_property _ _)); [eauto|]. assert (SQ := proj2 (F v (I v (or_introl eq_refl)))). rewrite SQ. cbn [negb]. destruct (sm_nearest _ _ _); eauto. }
  destruct X as [d ->]. cbn [obind]. destruct (IH (acc ++ d)) as [ds E]; [intros x Hx; apply I; right; exact Hx|]. exists (d ++ ds). rewrite E, app_assoc. reflexivity.
Qed.
Lemma directions_ok : exists ds, directions s m0 = Ok (map (fun _ => V2 0 0) (mh_verts m0) ++ ds).
Proof. unfold directions. destruct (sm_layers s); [apply push_ok; apply incl_refl|exists []; rewrite app_nil_r; reflexivity]. Qed.
Lemma iterations_ok ks : forall dirs m, (length (mh_verts m0) <= length dirs)%nat -> reached s m0 m -> exists m', ofold (iteration s dirs (connectivity s m0)) ks m = Ok m'.
Proof.
  induction ks as [|k ks IH]; intros dirs m L R; cbn [ofold]; [eauto|]. destruct (iteration_ok dirs k m L R) as [m1 E1]. rewrite E1. cbn [obind].
  apply IH; [exact L|exact (iteration_reached _ _ _ _ _ _ R E1)].
Qed.
End NoUB.
