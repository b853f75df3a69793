(* C34: merging two meshes. *)
From Coq Require Import Lia Permutation Lqa.
From Verif Require Import Base GeomModel FacetModel UtilModel UtilProofs AdvanceModel Chain AdvanceProofs BdryProofs MeshModel MeshSpec MeshProofs MeshProps
  QRefineModel QRefineSpec QRefineShape QRefineConf QRefineProps CleanModel CleanSpec MergeProofs CleanProofs CleanCheck CleanPass T2QProofs T2QProps
  MergerModel MergerSpec GlueProofs MergerCopy MergerProofs MergerMain.

Lemma opposite_setup r d e t : opposite (setup_facet_connectivity r) (setup_facet_connectivity d) (connect_bdry r e) (connect_bdry d t) <-> opposite r d e t.
Proof. unfold opposite. destruct (connect_bdry_fields r e) as [_ [-> [-> _]]]. destruct (connect_bdry_fields d t) as [_ [-> [-> _]]]. reflexivity. Qed.
Lemma interface_setup r d e : In e (mh_bdry r) -> (interface (setup_facet_connectivity r) (setup_facet_connectivity d) (connect_bdry r e) <-> interface r d e).
Proof.
  intros He. unfold interface. split; intros [_ [t [Ht O]]].
  - split; [exact He|]. apply setup_bdry_in in Ht. destruct Ht as [x [Hx ->]]. exists x. split; [exact Hx|]. apply (proj1 (opposite_setup r d _ _)) in O. exact O.
  - split; [apply setup_bdry_in; eauto|]. exists (connect_bdry d t). split; [apply setup_bdry_in; eauto|]. apply (proj2 (opposite_setup r d _ _)). exact O.
Qed.
Lemma interface_setup_ex r d : (exists e, interface (setup_facet_connectivity r) (setup_facet_connectivity d) e) <-> exists e, interface r d e.
Proof.
  split; intros [e He].
  - destruct (proj1 (setup_bdry_in r e) (proj1 He)) as [x [Hx E]]. exists x. apply (interface_setup r d x Hx). rewrite <- E. exact He.
  - exists (connect_bdry r e). apply (interface_setup r d e (proj1 He)). exact He.
Qed.

(* C34 on a pair of meshes.  Merging never fails, reports exactly whether the
   meshes touch along an edge, and changes nothing but facet pointers if not. *)
Theorem C34_merge_reports r d oth : mergeable r d oth -> exists b w, merge_pair (WD r d oth) = Ok (b, w) /\
  (b = true <-> exists e, interface r d e) /\
  w_don w = setup_facet_connectivity d /\
  (b = false -> w = WD (setup_facet_connectivity r) (setup_facet_connectivity d) oth).
Proof.
  intros A. destruct (merge_pair_result r d oth (ma_r _ _ _ A) (ma_d _ _ _ A) (ma_rc _ _ _ A) (ma_dc _ _ _ A) (ma_rp _ _ _ A) (ma_dp _ _ _ A) (ma_side _ _ _ A) (ma_fits _ _ _ A))
    as [[N E]|[I [M [g [Rin [Rout [Din [Dout [FD [ID [IE [BD [E [G _]]]]]]]]]]]]]].
  - exists false, (WD (setup_facet_connectivity r) (setup_facet_connectivity d) oth). split; [exact E|]. split; [|split; [reflexivity|reflexivity]].
    split; [discriminate|]. intros [e He]. exfalso. apply (N (connect_bdry r e)); [apply setup_bdry_in; exists e; split; [exact (proj1 He)|reflexivity]|].
    apply (interface_setup r d e (proj1 He)). exact He.
  - eexists true, _. split; [exact E|]. split; [|split; [reflexivity|discriminate]]. split; [|reflexivity]. intros _. apply interface_setup_ex. exact I.
Qed.

(* The merged mesh: valid again, covers both areas, consists of the elements of r
   and copies of the elements of d with their colours; vertices are shared
   exactly along the interface; boundary edges are exactly the others. *)
Theorem C34_merge_partial r d oth w : mergeable r d oth -> merge_pair (WD r d oth) = Ok (true, w) ->
  sound (w_rec w) /\
  covered (w_rec w) == covered r + covered d /\
  (exists g FD ID IE BR BD Rin Dout, 
     (forall v, In v (mh_verts d) -> mh_pos (w_rec w) (g v) = mh_pos d v) /\
     (forall v, In v (mh_verts r) -> mh_pos (w_rec w) v = mh_pos r v) /\
     Permutation (facets (w_rec w)) (facets r ++ FD) /\ Forall2 (fcopy g (mh_col r)) (facets d) FD /\
     Permutation (map bare (mh_intr (w_rec w))) (map bare (mh_intr r ++ ID ++ IE)) /\ Forall2 (icopy g) (mh_intr d) ID /\
     Permutation (map bare (mh_bdry r)) (map bare (Rin ++ BR)) /\ (forall e, In e Rin <-> interface r d e) /\ Forall2 (eimage (fun v => v)) Rin IE /\
     Permutation (map bare (mh_bdry (w_rec w))) (map bare (BR ++ BD)) /\ Forall2 (bcopy g) Dout BD /\
     (forall t, In t Dout <-> In t (mh_bdry d) /\ forall e, In e (mh_bdry r) -> ~ opposite r d e t)) /\
  (exists shared, NoDup shared /\ (length (mh_verts (w_rec w)) + length shared = length (mh_verts r) + length (mh_verts d))%nat /\
     (forall v, In v shared <-> In v (mh_verts d) /\ exists e t, In e (mh_bdry r) /\ In t (mh_bdry d) /\ opposite r d e t /\ (v = ed_1 t \/ v = ed_2 t))) /\
  length (mh_quads (w_rec w)) = (length (mh_quads r) + length (mh_quads d))%nat /\
  length (mh_tris (w_rec w)) = (length (mh_tris r) + length (mh_tris d))%nat /\
  mh_col (w_rec w) = mh_col r.
Proof.
  intros A EW. set (R := setup_facet_connectivity r). set (D := setup_facet_connectivity d).
  destruct (merge_pair_result r d oth (ma_r _ _ _ A) (ma_d _ _ _ A) (ma_rc _ _ _ A) (ma_dc _ _ _ A) (ma_rp _ _ _ A) (ma_dp _ _ _ A) (ma_side _ _ _ A) (ma_fits _ _ _ A))
    as [[N E]|[I [M [g [Rin [Rout [Din [Dout [FD [ID [IE [BD [E [G _]]]]]]]]]]]]]]; rewrite E in EW; [discriminate|]. injection EW as <-. cbn [w_rec].
  fold R D in G. assert (GL := mg_glued _ _ _ _ _ _ _ _ _ _ _ _ G). assert (SR : sound R) by (apply setup_sound; exact (ma_r _ _ _ A)). assert (SD : sound D) by (apply setup_sound; exact (ma_d _ _ _ A)).
  assert (DR : distinct_points R) by exact (ma_rp _ _ _ A). assert (DD : distinct_points D) by exact (ma_dp _ _ _ A). assert (NO : no_overlap R D) by exact (ma_apart _ _ _ A).
  split; [exact (glue_sound R D M g Rin Rout Din Dout FD ID IE BD SR SD DR DD NO GL)|].
  split; [exact (glue_covered R D M g Rin Rout Din Dout FD ID IE BD SR SD GL)|].
  split; [|split; [|split; [|split; [|exact (mg_col _ _ _ _ _ _ _ _ _ _ _ _ G)]]]].
  - destruct (map_bare r) as [BI BB]. destruct (map_bare d) as [BI' BB'].
    set (Rin0 := filter (fun e => is_interface D (connect_bdry r e)) (mh_bdry r)). set (BR0 := filter (fun e => negb (is_interface D (connect_bdry r e))) (mh_bdry r)).
    set (Dout0 := filter (fun t => negb (to_R R (connect_bdry d t))) (mh_bdry d)).
    assert (SB := side_by_side_setup r d oth (ma_side _ _ _ A)). fold R D in SB.
    assert (RS := gl_rsplit _ _ _ _ _ _ _ _ _ _ _ _ GL). assert (DS := gl_dsplit _ _ _ _ _ _ _ _ _ _ _ _ GL).
    exists g, FD.
    assert (NR : NoDup (mh_bdry R)) by (apply bdry_nodup; exact (sd_conf _ SR)). assert (ND : NoDup (mh_bdry D)) by (apply bdry_nodup; exact (sd_conf _ SD)).
    (* Rin and Dout as images of edges of r and d *)
    assert (IR : forall l, incl l (mh_bdry R) -> exists l0, l = map (connect_bdry r) l0 /\ incl l0 (mh_bdry r)).
    { induction l as [|x l IH]; intros H; [exists []; split; [reflexivity|intros ? []]|]. destruct IH as [l0 [E1 E2]]; [intros y Hy; apply H; right; exact Hy|].
      destruct (proj1 (setup_bdry_in r x) (H x (or_introl eq_refl))) as [x0 [Hx0 E0]]. exists (x0 :: l0). split; [cbn; congruence|]. intros y [<-|Hy]; [exact Hx0|exact (E2 y Hy)]. }
    assert (IDD : forall l, incl l (mh_bdry D) -> exists l0, l = map (connect_bdry d) l0 /\ incl l0 (mh_bdry d)).
    { induction l as [|x l IH]; intros H; [exists []; split; [reflexivity|intros ? []]|]. destruct IH as [l0 [E1 E2]]; [intros y Hy; apply H; right; exact Hy|].
      destruct (proj1 (setup_bdry_in d x) (H x (or_introl eq_refl))) as [x0 [Hx0 E0]]. exists (x0 :: l0). split; [cbn; congruence|]. intros y [<-|Hy]; [exact Hx0|exact (E2 y Hy)]. }
    destruct (IR Rin) as [rin [ER1 ER2]]. { intros x Hx. apply (Permutation_in _ (Permutation_sym RS)). apply in_or_app. auto. }
    destruct (IDD Dout) as [dout [ED1 ED2]]. { intros x Hx. apply (Permutation_in _ (Permutation_sym DS)). apply in_or_app. auto. }
    exists ID, IE, Rout, BD, rin, dout.
    assert (INJ : forall m x y, conforming m -> In x (mh_bdry m) -> In y (mh_bdry m) -> connect_bdry m x = connect_bdry m y -> x = y).
    { intros m x y C Hx Hy E0. apply (nodup_map_inj' ed_id (mh_bdry m) x y); [apply (nodup_ids_app ed_id _ _ (cf_eids _ C))|exact Hx|exact Hy|].
      destruct (connect_bdry_fields m x) as [X1 _]. destruct (connect_bdry_fields m y) as [Y1 _]. congruence. }
    split; [exact (gl_posD _ _ _ _ _ _ _ _ _ _ _ _ GL)|]. split; [exact (gl_posR _ _ _ _ _ _ _ _ _ _ _ _ GL)|].
    split; [exact (gl_facets _ _ _ _ _ _ _ _ _ _ _ _ GL)|]. split; [exact (mg_copies _ _ _ _ _ _ _ _ _ _ _ _ G)|].
    split; [rewrite (Permutation_map bare (gl_intr _ _ _ _ _ _ _ _ _ _ _ _ GL)), !map_app; apply Permutation_app; [unfold R; cbn [setup_facet_connectivity mh_intr]; rewrite BI; reflexivity|reflexivity]|].
    split. { assert (F := mg_intr _ _ _ _ _ _ _ _ _ _ _ _ G). clear - F BI'. unfold D in F. cbn [setup_facet_connectivity mh_intr] in F. revert F. generalize ID.
      assert (X : forall e, connect_intr d e = connect_intr d e) by reflexivity. induction (mh_intr d) as [|e l IH]; intros k F; inversion F as [|? ? ? ? H1 H2]; subst; constructor.
      - assert (B := connect_intr_bare d e). unfold bare in B. injection B as B1 B2 B3 B4 B5 B6. destruct H1 as [H1 [H3 H4]]. split; [congruence|]. split; congruence.
      - apply IH; [|exact H2]. cbn in BI'. injection BI'. auto. }
    assert (BRIN : map bare Rin = map bare rin) by (rewrite ER1, map_map; apply map_ext; intros; apply connect_bdry_bare).
    split. { rewrite map_app, <- BRIN, <- map_app, <- RS. unfold R. cbn [setup_facet_connectivity mh_bdry]. rewrite BB. reflexivity. }
    split. { intros e. split.
      - intros He. apply (interface_setup r d e (ER2 e He)). fold R D. assert (X : In (connect_bdry r e) Rin) by (rewrite ER1; apply in_map; exact He).
        split; [apply setup_bdry_in; exists e; split; [exact (ER2 e He)|reflexivity]|exact (gl_rin _ _ _ _ _ _ _ _ _ _ _ _ GL _ X)].
      - intros He. assert (Hb := proj1 He). apply (interface_setup r d e Hb) in He. fold R D in He. destruct He as [H1 [t [Ht O]]].
        apply (Permutation_in _ RS) in H1. apply in_app_or in H1. destruct H1 as [H1|H1]; [|destruct (gl_rout _ _ _ _ _ _ _ _ _ _ _ _ GL _ t H1 Ht O)].
        rewrite ER1 in H1. apply in_map_iff in H1. destruct H1 as [y [Ey Hy]]. rewrite <- (INJ r y e (sd_conf _ (ma_r _ _ _ A)) (ER2 y Hy) Hb Ey). exact Hy. }
    split. { assert (F := gl_ie _ _ _ _ _ _ _ _ _ _ _ _ GL). rewrite ER1 in F. clear - F. revert F. generalize IE. induction rin as [|e l IH]; intros k F; inversion F as [|? ? ? ? H1 H2]; subst; constructor; [|exact (IH _ H2)].
      destruct (connect_bdry_fields r e) as [_ [X1 [X2 _]]]. destruct H1 as [H1 H3]. split; congruence. }
    split; [rewrite (Permutation_map bare (gl_bdry _ _ _ _ _ _ _ _ _ _ _ _ GL)); reflexivity|].
    split. { assert (F := mg_bdry _ _ _ _ _ _ _ _ _ _ _ _ G). rewrite ED1 in F. clear - F. revert F. generalize BD. induction dout as [|e l IH]; intros k F; inversion F as [|? ? ? ? H1 H2]; subst; constructor; [|exact (IH _ H2)].
      destruct (connect_bdry_fields d e) as [_ [X1 [X2 [X3 [X4 X5]]]]]. destruct H1 as [H1 [H3 [H4 [H5 H6]]]]. split; [congruence|]. split; [congruence|]. split; [congruence|]. split; congruence. }
    intros t. split.
    + intros Ht. split; [exact (ED2 t Ht)|]. intros e He O. assert (X : In (connect_bdry d t) Dout) by (rewrite ED1; apply in_map; exact Ht).
      apply (gl_dout _ _ _ _ _ _ _ _ _ _ _ _ GL (connect_bdry r e) _ X); [apply setup_bdry_in; exists e; auto|]. apply (proj2 (opposite_setup r d _ _)). exact O.
    + intros [Ht N]. assert (H1 : In (connect_bdry d t) (mh_bdry D)) by (apply setup_bdry_in; exists t; auto). apply (Permutation_in _ DS) in H1. apply in_app_or in H1. destruct H1 as [H1|H1].
      * destruct (gl_din _ _ _ _ _ _ _ _ _ _ _ _ GL _ H1) as [e [He O]]. apply setup_bdry_in in He. destruct He as [x [Hx ->]]. apply (proj1 (opposite_setup r d _ _)) in O. destruct (N x Hx O).
      * rewrite ED1 in H1. apply in_map_iff in H1. destruct H1 as [y [Ey Hy]]. rewrite <- (INJ d y t (sd_conf _ (ma_d _ _ _ A)) (ED2 y Hy) Ht Ey). exact Hy.
  - destruct (mg_news _ _ _ _ _ _ _ _ _ _ _ _ G) as [news [shared [V [ND [L S]]]]]. exists shared. split; [exact ND|]. split.
    + rewrite V, app_length. change (mh_verts R) with (mh_verts r). change (mh_verts D) with (mh_verts d) in L. lia.
    + intros v. rewrite S. split; intros [Hv [e [t [He [Ht [O C]]]]]]; (split; [exact Hv|]).
      * apply setup_bdry_in in He, Ht. destruct He as [x [Hx ->]], Ht as [y [Hy ->]]. exists x, y. apply (proj1 (opposite_setup r d _ _)) in O. destruct (connect_bdry_fields d y) as [_ [X1 [X2 _]]].
        rewrite X1, X2 in C. auto.
      * exists (connect_bdry r e), (connect_bdry d t). destruct (connect_bdry_fields d t) as [_ [X1 [X2 _]]]. rewrite X1, X2.
        split; [apply setup_bdry_in; exists e; auto|]. split; [apply setup_bdry_in; exists t; auto|]. split; [apply (proj2 (opposite_setup r d _ _)); exact O|exact C].
  - destruct (mg_quads _ _ _ _ _ _ _ _ _ _ _ _ G) as [qs [-> L]]. rewrite app_length, L. reflexivity.
  - destruct (mg_tris _ _ _ _ _ _ _ _ _ _ _ _ G) as [qs [-> L]]. rewrite app_length, L. reflexivity.
Qed.

(* Colours: the area of every colour is kept *)
Theorem C34_colour_partial r d oth w : mergeable r d oth -> merge_pair (WD r d oth) = Ok (true, w) ->
  (forall f, In f (facets d) -> (0 <= fa_col f)%Z) -> forall c, covered_by c (w_rec w) == covered_by c r + covered_by c d.
Proof.
  intros A EW CP c. destruct (C34_merge_partial r d oth w A EW) as [_ [_ [[g [FD [ID [IE [BR [BD [Rin [Dout [PD [PR [PF [FC _]]]]]]]]]]]] _]]].
  unfold covered_by. rewrite (sumQ_perm _ _ (Permutation_map (fa_area (mh_pos (w_rec w))) (perm_filter _ _ _ PF))), filter_app, map_app, sumQ_app.
  assert (AR := ad_corner _ (sd_addr _ (ma_r _ _ _ A))). assert (AD := ad_corner _ (sd_addr _ (ma_d _ _ _ A))).
  assert (E1 : map (fa_area (mh_pos (w_rec w))) (filter (fun f => Z.eqb (fa_col f) c) (facets r)) = map (fa_area (mh_pos r)) (filter (fun f => Z.eqb (fa_col f) c) (facets r))).
  { apply map_ext_in. intros f Hf. apply filter_In in Hf. destruct Hf as [Hf _]. unfold fa_area. assert (P : forall v, In v (corners (fa_sh f)) -> mh_pos (w_rec w) v = mh_pos r v) by (intros v Hv; apply PR; exact (AR f v Hf Hv)).
    destruct (fa_sh f); cbn [corners] in P; rewrite !P by (cbn; auto 10); reflexivity. }
  rewrite E1. assert (E2 : map (fa_area (mh_pos (w_rec w))) (filter (fun f => Z.eqb (fa_col f) c) FD) = map (fa_area (mh_pos d)) (filter (fun f => Z.eqb (fa_col f) c) (facets d))).
  { clear - AD CP FC PD. induction FC as [|f f' l l' [H1 H2] F IH]; [reflexivity|]. cbn [filter].
    assert (E : fa_col f' = fa_col f). { rewrite H2. destruct (Z.ltb_spec (fa_col f) 0); [specialize (CP f (or_introl eq_refl)); lia|reflexivity]. }
    assert (IH' : map (fa_area (mh_pos (w_rec w))) (filter (fun f => Z.eqb (fa_col f) c) l') = map (fa_area (mh_pos d)) (filter (fun f => Z.eqb (fa_col f) c) l)).
    { apply IH; [intros x Hx; apply CP; right; exact Hx|intros x v Hx; apply AD; right; exact Hx]. }
    rewrite E. destruct (Z.eqb (fa_col f) c); [|exact IH']. cbn [map]. rewrite IH'. f_equal. apply (image_area g _ _ f f' H1). intros v Hv. apply PD. exact (AD f v (or_introl eq_refl) Hv). }
  rewrite E2. reflexivity.
Qed.

(* Boundary marks stay exact; the ends of the former interface are fixed *)
Theorem C34_marks r d oth w : mergeable r d oth -> merge_pair (WD r d oth) = Ok (true, w) ->
  boundary_marked (w_rec w) /\ (marked_exactly r -> marked_exactly d -> marked_exactly (w_rec w)) /\
  forall e, interface r d e -> has_property (mh_prop (w_rec w) (ed_1 e)) v_is_fixed = true /\ has_property (mh_prop (w_rec w) (ed_2 e)) v_is_fixed = true.
Proof.
  intros A EW.
  destruct (merge_pair_result r d oth (ma_r _ _ _ A) (ma_d _ _ _ A) (ma_rc _ _ _ A) (ma_dc _ _ _ A) (ma_rp _ _ _ A) (ma_dp _ _ _ A) (ma_side _ _ _ A) (ma_fits _ _ _ A))
    as [[N E]|[I [M [g [Rin [Rout [Din [Dout [FD [ID [IE [BD [E [G _]]]]]]]]]]]]]]; rewrite E in EW; [discriminate|]. injection EW as <-. cbn [w_rec].
  assert (MS : forall m, marked_exactly m -> marked_exactly (setup_facet_connectivity m)).
  { intros m H v Hv. rewrite (H v Hv). unfold at_boundary. split; intros [e [He C]].
    - exists (connect_bdry m e). split; [apply setup_bdry_in; exists e; auto|]. destruct (connect_bdry_fields m e) as [_ [-> [-> _]]]. exact C.
    - apply setup_bdry_in in He. destruct He as [x [Hx ->]]. exists x. split; [exact Hx|]. destruct (connect_bdry_fields m x) as [_ [X [Y _]]]. rewrite X, Y in C. exact C. }
  split; [exact (mg_marked _ _ _ _ _ _ _ _ _ _ _ _ G)|]. split; [intros MR MD; apply (mg_marks _ _ _ _ _ _ _ _ _ _ _ _ G); apply MS; assumption|].
  intros e He. assert (X := proj2 (interface_setup r d e (proj1 He)) He). apply (mg_fixed _ _ _ _ _ _ _ _ _ _ _ _ G) in X.
  destruct (connect_bdry_fields r e) as [_ [X1 [X2 _]]]. rewrite X1, X2 in X. exact X.
Qed.

(* Other meshes: only twin pointers change; an edge whose twin lay in the donor is
   afterwards the twin of the copy of that edge *)
Lemma rp_spec cps o : ed_twin (rp cps o) = match find (fun p => Nat.eqb (fst p) (ed_id o)) (rev cps) with Some p => Some (snd p) | None => ed_twin o end.
Proof.
  revert o. induction cps as [|p cps IH]; intros o; [reflexivity|]. cbn [rp fold_left]. fold (rp cps (retwin (fst p) (snd p) o)). rewrite IH.
  destruct (retwin_fields (fst p) (snd p) o) as [-> _]. cbn [rev]. assert (FA : forall (q : nat * nat -> bool) l l', find q (l ++ l') = match find q l with Some x => Some x | None => find q l' end).
  { clear. intros q l l'. induction l as [|a l IH]; [reflexivity|]. cbn. destruct (q a); [reflexivity|exact IH]. }
  rewrite FA. destruct (find _ (rev cps)); [reflexivity|]. cbn [find]. unfold retwin. rewrite (Nat.eqb_sym (fst p)). destruct (Nat.eqb (ed_id o) (fst p)); reflexivity.
Qed.
Definition twins_once (d : mesh) : Prop := forall t t' i, In t (mh_bdry d) -> In t' (mh_bdry d) -> ed_twin t = Some i -> ed_twin t' = Some i -> t = t'.
Theorem C34_neighbours r d oth w : mergeable r d oth -> merge_pair (WD r d oth) = Ok (true, w) ->
  exists fix_edge, w_oth w = map (fun m => set_bdry m (map fix_edge (mh_bdry m))) oth /\
  forall m o, In m oth -> In o (mh_bdry m) -> bare (fix_edge o) = bare (ED (ed_id o) (ed_1 o) (ed_2 o) (ed_col o) (ed_prop o) (ed_l o) (ed_r o) (ed_twin (fix_edge o))) /\
    ((forall t, In t (mh_bdry d) -> ed_twin t <> Some (ed_id o)) -> fix_edge o = o) /\
    (forall t, In t (mh_bdry d) -> ed_twin t = Some (ed_id o) -> twins_once d ->
       exists b, In b (mh_bdry (w_rec w)) /\ ed_twin (fix_edge o) = Some (ed_id b) /\ ed_twin b = Some (ed_id o) /\ ed_col b = ed_col t /\
         mh_pos (w_rec w) (ed_1 b) = mh_pos d (ed_1 t) /\ mh_pos (w_rec w) (ed_2 b) = mh_pos d (ed_2 t)).
Proof.
  intros A EW. set (R := setup_facet_connectivity r). set (D := setup_facet_connectivity d).
  destruct (merge_pair_result r d oth (ma_r _ _ _ A) (ma_d _ _ _ A) (ma_rc _ _ _ A) (ma_dc _ _ _ A) (ma_rp _ _ _ A) (ma_dp _ _ _ A) (ma_side _ _ _ A) (ma_fits _ _ _ A))
    as [[N E]|[I [M [g [Rin [Rout [Din [Dout [FD [ID [IE [BD [E [G _]]]]]]]]]]]]]]; rewrite E in EW; [discriminate|]. injection EW as <-. cbn [w_rec w_oth].
  fold R D in G. assert (GL := mg_glued _ _ _ _ _ _ _ _ _ _ _ _ G). assert (SD : sound D) by (apply setup_sound; exact (ma_d _ _ _ A)).
  set (cps := links (combine Dout BD)). exists (rp cps). split; [reflexivity|]. intros m o Hm Ho.
  assert (SB := side_by_side_setup r d oth (ma_side _ _ _ A)). fold R D in SB.
  assert (LK : forall p, In p cps -> exists t b, In (t, b) (combine Dout BD) /\ ed_twin t = Some (fst p) /\ ed_id b = snd p).
  { intros p Hp. unfold cps, links in Hp. apply in_flat_map in Hp. destruct Hp as [[t b] [Htb Hp]]. cbn [fst snd] in Hp. destruct (ed_twin t) as [i|] eqn:Et; [|destruct Hp].
    destruct Hp as [<-|[]]. exists t, b. auto. }
  assert (DI : forall t, In t Dout -> In t (mh_bdry D)) by (intros t Ht; apply (Permutation_in _ (Permutation_sym (gl_dsplit _ _ _ _ _ _ _ _ _ _ _ _ GL))); apply in_or_app; auto).
  split; [|split].
  - destruct (rp_fields cps o) as [F1 [F2 [F3 [F4 [F5 F6]]]]]. unfold bare. cbn [ed_id ed_1 ed_2 ed_col ed_prop ed_twin]. rewrite F1, F2, F3, F5, F6. reflexivity.
  - intros NT. assert (NP : forall p, In p cps -> fst p <> ed_id o).
    { intros p Hp Ep. destruct (LK p Hp) as [t [b [Htb [Et _]]]]. apply in_combine_l in Htb. apply DI in Htb. apply setup_bdry_in in Htb. destruct Htb as [x [Hx ->]].
      destruct (connect_bdry_fields d x) as [_ [_ [_ [_ [_ X]]]]]. apply (NT x Hx). congruence. }
    clear - NP. revert NP. generalize cps. intros l. revert o. induction l as [|p l IH]; intros o NP; [reflexivity|]. cbn [rp fold_left]. fold (rp l (retwin (fst p) (snd p) o)).
    rewrite retwin_other by (intros X; apply (NP p (or_introl eq_refl)); congruence). apply IH. intros q Hq. apply NP. right. exact Hq.
  - intros t Ht Et TO. set (t' := connect_bdry d t). assert (Ht' : In t' (mh_bdry D)) by (apply setup_bdry_in; exists t; auto).
    destruct (connect_bdry_fields d t) as [Y1 [Y2 [Y3 [Y4 [Y5 Y6]]]]]. fold t' in Y1, Y2, Y3, Y4, Y5, Y6.
    assert (TO' : In t' Dout).
    { assert (X := Permutation_in _ (gl_dsplit _ _ _ _ _ _ _ _ _ _ _ _ GL) Ht'). apply in_app_or in X. destruct X as [X|X]; [|exact X]. exfalso.
      destruct (gl_din _ _ _ _ _ _ _ _ _ _ _ _ GL t' X) as [e [He O]]. apply (sb_dr _ _ _ SB e t' He Ht') in O. apply (ro_ids R D oth SB m e o He Hm Ho). congruence. }
    assert (FB := mg_bdry _ _ _ _ _ _ _ _ _ _ _ _ G).
    destruct (In_nth_error _ _ TO') as [k Nk].
    assert (FN : forall (l : list medge) l' i x, Forall2 (bcopy g) l l' -> nth_error l i = Some x -> exists y, nth_error l' i = Some y /\ bcopy g x y).
    { clear. intros l l' i x F. revert i. induction F as [|a b l l' H F IH]; intros [|i] H0; cbn in *; try discriminate; [injection H0 as <-; eauto|exact (IH i H0)]. }
    destruct (FN _ _ _ _ FB Nk) as [b [Nb [B1 [B2 [B3 [B4 B5]]]]]].
    assert (CMB : In (t', b) (combine Dout BD)).
    { clear - Nk Nb. revert k BD Nk Nb. induction Dout as [|x l IH]; intros [|k] BD Nk Nb; destruct BD as [|y l']; cbn in *; try discriminate; [left; congruence|right; exact (IH k l' Nk Nb)]. }
    assert (HP : In (ed_id o, ed_id b) cps).
    { unfold cps, links. apply in_flat_map. exists (t', b). split; [exact CMB|]. cbn [fst snd]. rewrite Y6, Et. left. reflexivity. }
    assert (NDout : NoDup Dout). { assert (ND := bdry_nodup D (sd_conf _ SD)). apply (Permutation_NoDup (gl_dsplit _ _ _ _ _ _ _ _ _ _ _ _ GL)) in ND. exact (nodup_app_r _ _ ND). }
    exists b. split; [|split; [|split; [|split; [congruence|]]]].
    + apply (Permutation_in _ (Permutation_sym (gl_bdry _ _ _ _ _ _ _ _ _ _ _ _ GL))). apply in_or_app. right. eapply nth_error_In. exact Nb.
    + rewrite rp_spec. destruct (find _ (rev cps)) as [p|] eqn:FP.
      * apply find_some in FP. destruct FP as [Hp Ep]. apply Nat.eqb_eq in Ep. apply in_rev in Hp. destruct (LK p Hp) as [t2 [b2 [H2 [E2 E3]]]].
        assert (Ht2 := in_combine_l _ _ _ _ H2). assert (Hd2 := DI t2 Ht2). apply setup_bdry_in in Hd2. destruct Hd2 as [x2 [Hx2 Ex2]].
        destruct (connect_bdry_fields d x2) as [_ [_ [_ [_ [_ X6]]]]]. rewrite Ex2, X6, Ep in E2. assert (x2 = t) by (exact (TO x2 t _ Hx2 Ht E2 Et)). subst x2.
        fold t' in Ex2. subst t2. rewrite <- E3. do 2 f_equal.
        assert (UQ : forall (l l' : list medge) a y z, NoDup l -> In (a, y) (combine l l') -> In (a, z) (combine l l') -> y = z).
        { clear. induction l as [|a l IH]; intros l' x y z N H1 H2; [destruct H1|]. destruct l' as [|c l']; [destruct H1|]. inversion N; subst. cbn in H1, H2.
          destruct H1 as [H1|H1], H2 as [H2|H2].
          - congruence.
          - injection H1 as <- <-. apply in_combine_l in H2. contradiction.
          - injection H2 as <- <-. apply in_combine_l in H1. contradiction.
          - exact (IH l' x y z H4 H1 H2). }
        exact (UQ _ _ _ _ _ NDout H2 CMB).
      * exfalso. assert (X := find_none _ _ FP (ed_id o, ed_id b)). cbn [fst] in X. rewrite Nat.eqb_refl in X. rewrite <- in_rev in X. specialize (X HP). discriminate.
    + rewrite B5, Y6. exact Et.
    + rewrite B1, B2, Y2, Y3. destruct (bdry_verts D t' SD (in_or_app _ _ _ (or_intror Ht'))) as [V1 V2]. rewrite Y2 in V1. rewrite Y3 in V2.
      split; apply (gl_posD _ _ _ _ _ _ _ _ _ _ _ _ GL); assumption.
Qed.

(* ---------- the generator ---------- *)
Lemma put_keys g k m : map fst (put g k m) = map fst g.
Proof. unfold put. rewrite map_map. apply map_ext. intros [a b]. cbn. destruct (Nat.eqb_spec a k); cbn; congruence. Qed.
Lemma gfind_cons a b g k : gfind ((a, b) :: g) k = if Nat.eqb a k then Some b else gfind g k.
Proof. unfold gfind. cbn [find fst]. destruct (Nat.eqb a k); reflexivity. Qed.
Lemma gfind_put g k m j : gfind (put g k m) j = if Nat.eqb j k then option_map (fun _ => m) (gfind g k) else gfind g j.
Proof.
  induction g as [|[a b] g IH]; [unfold gfind; cbn; destruct (Nat.eqb j k); reflexivity|]. cbn [put map fst]. fold (put g k m).
  destruct (Nat.eqb_spec a k) as [Ea|N].
  - rewrite !gfind_cons, IH, Ea, Nat.eqb_refl. destruct (Nat.eqb_spec k j) as [Ek|N2].
    + rewrite Ek, Nat.eqb_refl. reflexivity.
    + destruct (Nat.eqb_spec j k); [congruence|reflexivity].
  - rewrite !gfind_cons, IH. destruct (Nat.eqb_spec a j) as [Ej|N2].
    + destruct (Nat.eqb_spec j k); [congruence|reflexivity].
    + destruct (Nat.eqb_spec j k) as [Ek|N3]; [|reflexivity]. destruct (Nat.eqb_spec a k); [congruence|reflexivity].
Qed.
Lemma gfind_put_all kms : forall g j, NoDup (map fst kms) ->
  gfind (put_all g kms) j = match gfind g j with None => None | Some m => match gfind kms j with Some m' => Some m' | None => Some m end end.
Proof.
  induction kms as [|[k m] kms IH]; intros g j N; [change (put_all g []) with g; destruct (gfind g j); reflexivity|]. inversion N as [|? ? N1 N2]. subst. cbn [put_all fold_left fst snd]. fold (put_all (put g k m) kms).
  rewrite IH by exact N2. rewrite gfind_put, gfind_cons. cbn [fst] in N1. destruct (Nat.eqb_spec j k) as [->|N3].
  - rewrite Nat.eqb_refl. destruct (gfind g k); cbn [option_map]; [|reflexivity]. destruct (gfind kms k) as [x|] eqn:F; [|reflexivity]. exfalso. apply N1.
    unfold gfind in F. destruct (find _ kms) as [[a b]|] eqn:FF; [|discriminate]. apply find_some in FF. destruct FF as [HH EE]. cbn in EE. apply Nat.eqb_eq in EE. subst a. apply in_map_iff. exists (k, b). auto.
  - destruct (Nat.eqb_spec k j); [congruence|reflexivity].
Qed.
Lemma gfind_erase g k j : gfind (erase g k) j = if Nat.eqb j k then None else gfind g j.
Proof.
  induction g as [|[a b] g IH]; [unfold gfind; cbn; destruct (Nat.eqb j k); reflexivity|]. cbn [erase filter fst]. fold (erase g k). destruct (Nat.eqb_spec a k) as [Ea|N]; cbn [negb].
  - rewrite IH, gfind_cons. destruct (Nat.eqb_spec j k) as [Ej|N2]; [reflexivity|]. destruct (Nat.eqb_spec a j); [congruence|reflexivity].
  - rewrite !gfind_cons, IH. destruct (Nat.eqb_spec a j) as [Ej|N2]; [|reflexivity]. destruct (Nat.eqb_spec j k); [congruence|reflexivity].
Qed.
Lemma gfind_in g k m : NoDup (map fst g) -> (gfind g k = Some m <-> In (k, m) g).
Proof.
  intros N. induction g as [|[a b] g IH]; [split; [discriminate|intros []]|]. inversion N as [|? ? N1 N2]. subst. rewrite gfind_cons. cbn [In fst] in *. destruct (Nat.eqb_spec a k) as [->|N3].
  - split; [intros E; injection E as ->; auto|]. intros [E|E]; [congruence|]. exfalso. apply N1. apply in_map_iff. exists (k, m). auto.
  - rewrite (IH N2). split; [auto|]. intros [E|E]; [congruence|exact E].
Qed.
(* the donor disappears from the generator, the receiver becomes the merged mesh
   and the others are the meshes of C34_neighbours *)
Theorem C34_generator g r d mr md : NoDup (map fst g) -> r <> d -> gfind g r = Some mr -> gfind g d = Some md ->
  mergeable mr md (map snd (others g r d)) ->
  exists b w g', merge_pair (WD mr md (map snd (others g r d))) = Ok (b, w) /\ merge_meshes g r d = Ok (true, g') /\
    gfind g' r = Some (w_rec w) /\ gfind g' d = (if b then None else Some (setup_facet_connectivity md)) /\
    (forall k, k <> r -> k <> d -> gfind g' k = gfind (combine (map fst (others g r d)) (w_oth w)) k) /\
    map fst g' = (if b then filter (fun k => negb (Nat.eqb k d)) (map fst g) else map fst g).
Proof.
  intros N RD FR FD A. destruct (C34_merge_reports mr md _ A) as [b [w [E [_ [WDn WF]]]]].
  assert (WO : length (w_oth w) = length (others g r d)).
  { destruct b; [|rewrite (WF eq_refl); cbn; apply map_length]. destruct (C34_neighbours mr md _ w A E) as [fx [-> _]]. rewrite !map_length. reflexivity. }
  set (kms := (r, w_rec w) :: (d, w_don w) :: combine (map fst (others g r d)) (w_oth w)).
  assert (NO : NoDup (map fst (others g r d))).
  { unfold others. clear - N. induction g as [|[a m] g IH]; [constructor|]. inversion N as [|? ? N1 N2]. subst. cbn [filter fst]. destruct (negb _ && negb _); [|exact (IH N2)].
    cbn [map fst]. constructor; [|exact (IH N2)]. intros H. apply N1. apply in_map_iff in H. destruct H as [p [E Hp]]. apply filter_In in Hp. apply in_map_iff. exists p. split; [exact E|apply Hp]. }
  assert (KF : map fst (combine (map fst (others g r d)) (w_oth w)) = map fst (others g r d)).
  { assert (L : length (map fst (others g r d)) = length (w_oth w)) by (rewrite map_length; congruence). clear - L. revert L. generalize (map fst (others g r d)) (w_oth w).
    induction l as [|x l IH]; intros [|y l'] L; try discriminate; [reflexivity|]. cbn. f_equal. apply IH. injection L. auto. }
  assert (OK : forall k, In k (map fst (others g r d)) -> k <> r /\ k <> d).
  { intros k Hk. apply in_map_iff in Hk. destruct Hk as [p [<- Hp]]. apply filter_In in Hp. destruct Hp as [_ Hp]. apply andb_true_iff in Hp. destruct Hp as [H1 H2].
    apply negb_true_iff in H1, H2. apply Nat.eqb_neq in H1, H2. auto. }
  assert (NK : NoDup (map fst kms)).
  { unfold kms. cbn [map fst]. rewrite KF. constructor; [|constructor; [|exact NO]].
    - intros [H|H]; [congruence|]. apply OK in H. tauto.
    - intros H. apply OK in H. tauto. }
  assert (MM : merge_meshes g r d = Ok (true, if b then erase (put_all g kms) d else put_all g kms)).
  { unfold merge_meshes. rewrite FR, FD. destruct (Nat.eqb_spec r d); [contradiction|]. rewrite E. cbn [obind fst snd]. reflexivity. }
  exists b, w, (if b then erase (put_all g kms) d else put_all g kms). split; [exact E|]. split; [exact MM|].
  assert (ALL : forall k, gfind (put_all g kms) k = match gfind g k with None => None | Some m => match gfind kms k with Some m' => Some m' | None => Some m end end) by (intros k; apply gfind_put_all; exact NK).
  assert (AR : gfind (put_all g kms) r = Some (w_rec w)) by (rewrite ALL, FR; unfold kms; rewrite gfind_cons, Nat.eqb_refl; reflexivity).
  assert (AD : gfind (put_all g kms) d = Some (w_don w)).
  { rewrite ALL, FD. unfold kms. rewrite !gfind_cons. destruct (Nat.eqb_spec r d); [contradiction|]. rewrite Nat.eqb_refl. reflexivity. }
  assert (AO : forall k, k <> r -> k <> d -> gfind (put_all g kms) k = gfind (combine (map fst (others g r d)) (w_oth w)) k).
  { intros k K1 K2. rewrite ALL. unfold kms. rewrite !gfind_cons. destruct (Nat.eqb_spec r k); [congruence|]. destruct (Nat.eqb_spec d k); [congruence|].
    destruct (gfind (combine (map fst (others g r d)) (w_oth w)) k) as [m'|] eqn:F.
    - destruct (gfind g k) eqn:GK; [reflexivity|]. exfalso.
      assert (In k (map fst (others g r d))). { rewrite <- KF. unfold gfind in F. destruct (find _ (combine _ _)) as [[a c]|] eqn:FF; [|discriminate]. apply find_some in FF. destruct FF as [HH EE]. cbn in EE. apply Nat.eqb_eq in EE. subst a. apply in_map_iff. exists (k, c). auto. }
      apply in_map_iff in H. destruct H as [[a m] [<- Hp]]. apply filter_In in Hp. destruct Hp as [Hp _]. cbn [fst] in *. apply (gfind_in g a m N) in Hp. congruence.
    - destruct (gfind g k) as [m|] eqn:GK; [|reflexivity]. exfalso. apply (gfind_in g k m N) in GK.
      assert (IO : In k (map fst (combine (map fst (others g r d)) (w_oth w)))).
      { rewrite KF. apply in_map_iff. exists (k, m). split; [reflexivity|]. apply filter_In. split; [exact GK|]. cbn [fst]. destruct (Nat.eqb_spec k r); [contradiction|]. destruct (Nat.eqb_spec k d); [contradiction|reflexivity]. }
      apply in_map_iff in IO. destruct IO as [[a c] [EA Hc]]. cbn in EA. subst a. assert (NKK : NoDup (map fst (combine (map fst (others g r d)) (w_oth w)))) by (rewrite KF; exact NO).
      apply (gfind_in _ k c NKK) in Hc. congruence. }
  assert (KA : forall l g0, map fst (put_all g0 l) = map fst g0).
  { induction l as [|[k m] l IH]; intros g0; [reflexivity|]. cbn [put_all fold_left fst snd]. fold (put_all (put g0 k m) l). rewrite IH. apply put_keys. }
  destruct b.
  - rewrite !gfind_erase, Nat.eqb_refl. destruct (Nat.eqb_spec r d); [contradiction|]. split; [exact AR|]. split; [reflexivity|]. split.
    + intros k K1 K2. rewrite gfind_erase. destruct (Nat.eqb_spec k d); [contradiction|]. exact (AO k K1 K2).
    + unfold erase. rewrite <- (KA kms g). generalize (put_all g kms). clear. induction g as [|[a m] g IH]; [reflexivity|]. cbn [filter map fst]. destruct (Nat.eqb a d); cbn [negb map fst]; rewrite IH; reflexivity.
  - split; [exact AR|]. split; [rewrite AD, WDn; reflexivity|]. split; [exact AO|apply KA].
Qed.

(* ---------- cases ---------- *)
(* three squares in a row: a quad, two triangles, a quad *)
Definition tw_edge (i a b : nat) (c : Z) (t : nat) : medge := ED i a b c 0%N None None (Some t).
Definition sq_left : mesh :=
  MH (ptl [V2 0 0; V2 2 0; V2 2 2; V2 0 2]) (fun _ => 8%N) [0;1;2;3]%nat [FA 4 (Quad4 0 1 2 3) 1 true] [] []
     [fresh_edge 5 0 1 1; tw_edge 6 1 2 2 26; fresh_edge 7 2 3 3; fresh_edge 8 3 0 4] (fun _ _ => None) 9 4 1 100.
Definition sq_mid : mesh :=
  MH (ptl [V2 2 0; V2 4 0; V2 4 2; V2 2 2]) (fun _ => 8%N) [0;1;2;3]%nat [] [FA 20 (Tri3 0 1 2) 5 true; FA 21 (Tri3 0 2 3) 6 true] [fresh_edge 22 0 2 (-1)]
     [fresh_edge 23 0 1 1; tw_edge 24 1 2 2 44; fresh_edge 25 2 3 3; tw_edge 26 3 0 4 6] (fun _ _ => None) 27 4 2 100.
Definition sq_right : mesh :=
  MH (ptl [V2 4 0; V2 6 0; V2 6 2; V2 4 2]) (fun _ => 8%N) [0;1;2;3]%nat [FA 40 (Quad4 0 1 2 3) 3 true] [] []
     [fresh_edge 41 0 1 1; fresh_edge 42 1 2 2; fresh_edge 43 2 3 3; tw_edge 44 3 0 4 24] (fun _ _ => None) 45 4 3 100.
Ltac enum H := cbn in H; or_destruct H; try contradiction.
Lemma centred_by m : forallb (fun f => forallb (fun s => is_left (mh_pos m (fst s)) (mh_pos m (snd s)) (fa_xy (mh_pos m) f) &&
    negb (is_left (mh_pos m (snd s)) (mh_pos m (fst s)) (fa_xy (mh_pos m) f))) (sides f)) (facets m) = true -> all_centred m.
Proof.
  intros H f Hf a b Hs. rewrite forallb_forall in H. specialize (H f Hf). rewrite forallb_forall in H. specialize (H (a, b) Hs). cbn [fst snd] in H.
  apply andb_true_iff in H. destruct H as [H1 H2]. apply negb_true_iff in H2. auto.
Qed.
Lemma row_mergeable : mergeable sq_left sq_mid [sq_right].
Proof.
  constructor.
  - apply soundb_sound. vm_compute. reflexivity.
  - apply soundb_sound. vm_compute. reflexivity.
  - apply centred_by. vm_compute. reflexivity.
  - apply centred_by. vm_compute. reflexivity.
  - intros v w Hv Hw E. enum Hv; enum Hw; subst; try reflexivity; discriminate.
  - intros v w Hv Hw E. enum Hv; enum Hw; subst; try reflexivity; discriminate.
  - intros a b c e H1 H2 [E1 E2]. enum H1; enum H2; injection H1 as <- <-; injection H2 as <- <-; discriminate.
  - constructor.
    + cbn. repeat (constructor; [cbn; lia|]). constructor.
    + cbn. repeat (constructor; [cbn; lia|]). constructor.
    + intros e i He Ei. enum He; subst e; try discriminate; injection Ei as <-; [exists (tw_edge 26 3 0 4 6)|exists (tw_edge 44 3 0 4 24)|exists (tw_edge 6 1 2 2 26)|exists (tw_edge 24 1 2 2 44)]; cbn; auto 20.
    + intros m e i Hm He Ei. enum Hm. subst m. enum He; subst e; discriminate.
    + intros m Hm. enum Hm. subst m. split; intros x Hx; enum Hx; subst x; cbn; lia.
    + intros e t He Ht. enum He; enum Ht; subst e t; unfold opposite; cbn; split; intros H; try (split; reflexivity); try reflexivity; try discriminate; destruct H; discriminate.
    + intros e t He Ht. enum He; enum Ht; subst e t; unfold opposite; cbn; split; intros H; try (split; reflexivity); try reflexivity; try discriminate; destruct H; discriminate.
    + intros e t He Ht. enum He; enum Ht; subst e t; discriminate.
  - intros v Hv. enum Hv; subst v; vm_compute; reflexivity.
Qed.
(* reading the results off without normalising the meshes *)
Definition summary (o : outcome (bool * world)) : option (bool * (list Z * (nat * (nat * (nat * (list (option nat) * (Q * Q))))))) :=
  match o with
  | Ok (b, w) => Some (b, (map fa_col (facets (w_rec w)), (length (mh_bdry (w_rec w)), (length (mh_intr (w_rec w)), (length (mh_verts (w_rec w)),
                   (map ed_twin (flat_map mh_bdry (w_oth w)), (mh_area (w_rec w), Qred (covered (w_rec w)))))))))
  | _ => None
  end.
Lemma row_result : exists w, merge_pair (WD sq_left sq_mid [sq_right]) = Ok (true, w) /\ map fa_col (facets (w_rec w)) = [1; 5; 6]%Z /\
  length (mh_bdry (w_rec w)) = 6%nat /\ length (mh_intr (w_rec w)) = 2%nat /\ length (mh_verts (w_rec w)) = 6%nat /\
  map ed_twin (flat_map mh_bdry (w_oth w)) = [None; None; None; Some 51%nat] /\ mh_area (w_rec w) = 4 /\ covered (w_rec w) == 8.
Proof.
  assert (S : summary (merge_pair (WD sq_left sq_mid [sq_right])) = Some (true, ([1; 5; 6]%Z, (6, (2, (6, ([None; None; None; Some 51], (4#1, 8#1)%Q)))))%nat)) by (vm_compute; reflexivity).
  destruct (merge_pair (WD sq_left sq_mid [sq_right])) as [[b w]| |]; cbn [summary] in S; try discriminate. injection S as E0 E1 E2 E3 E4 E5 E6 E7. exists w. rewrite E0.
  repeat (split; [assumption || reflexivity|]). rewrite <- (Qred_correct (covered (w_rec w))), E7. reflexivity.
Qed.
Lemma row_twins : [None; None; None; Some 51%nat] <> map ed_twin (mh_bdry sq_right).
Proof. discriminate. Qed.
Example C34_row_case : mergeable sq_left sq_mid [sq_right] /\ marked_exactly sq_left /\ marked_exactly sq_mid /\ twins_once sq_mid /\
  exists w, merge_pair (WD sq_left sq_mid [sq_right]) = Ok (true, w) /\ map fa_col (facets (w_rec w)) = [1; 5; 6]%Z /\
    length (mh_bdry (w_rec w)) = 6%nat /\ length (mh_intr (w_rec w)) = 2%nat /\ length (mh_verts (w_rec w)) = 6%nat /\
    map ed_twin (flat_map mh_bdry (w_oth w)) <> map ed_twin (mh_bdry sq_right).
Proof.
  split; [exact row_mergeable|]. split; [|split; [|split]].
  - intros v Hv. enum Hv; subst v; (split; [intros _|reflexivity]); [exists (fresh_edge 5 0 1 1)|exists (tw_edge 6 1 2 2 26)|exists (fresh_edge 7 2 3 3)|exists (fresh_edge 8 3 0 4)]; cbn; auto 10.
  - intros v Hv. enum Hv; subst v; (split; [intros _|reflexivity]); [exists (fresh_edge 23 0 1 1)|exists (tw_edge 24 1 2 2 44)|exists (fresh_edge 25 2 3 3)|exists (tw_edge 26 3 0 4 6)]; cbn; auto 10.
  - intros t t' i Ht Ht'. enum Ht; enum Ht'; subst t t'; cbn; intros; try reflexivity; congruence.
  - destruct row_result as [w [E [E1 [E2 [E3 [E4 [E5 _]]]]]]]. exists w. rewrite E5. auto 10 using row_twins.
Qed.
Definition gkeys (o : outcome (bool * generator)) : option (bool * list nat) := match o with Ok (b, g) => Some (b, map fst g) | _ => None end.
Example C34_generator_case : exists g', merge_meshes [(1, sq_left); (2, sq_mid); (3, sq_right)]%nat 1 2 = Ok (true, g') /\ map fst g' = [1; 3]%nat.
Proof.
  assert (S : gkeys (merge_meshes [(1, sq_left); (2, sq_mid); (3, sq_right)]%nat 1 2) = Some (true, [1; 3]%nat)) by (vm_compute; reflexivity).
  destruct (merge_meshes _ _ _) as [[b g']| |]; cbn [gkeys] in S; try discriminate. injection S as -> E. exists g'. auto.
Qed.

(* As stated C34 is FALSE: (a) true is returned though nothing was merged *)
Theorem C34_returns_refuted : exists g r d mr md g', gfind g r = Some mr /\ gfind g d = Some md /\ r <> d /\ (forall e, ~ interface mr md e) /\
  merge_meshes g r d = Ok (true, g') /\ map fst g' = map fst g.
Proof.
  assert (S : gkeys (merge_meshes [(1, sq_left); (2, sq_mid); (3, sq_right)]%nat 1 3) = Some (true, [1; 2; 3]%nat)) by (vm_compute; reflexivity).
  destruct (merge_meshes _ _ _) as [[b g']| |] eqn:E; cbn [gkeys] in S; try discriminate. injection S as -> EK.
  exists [(1, sq_left); (2, sq_mid); (3, sq_right)]%nat, 1%nat, 3%nat, sq_left, sq_right, g'.
  split; [reflexivity|]. split; [reflexivity|]. split; [lia|]. split; [|split; [exact E|exact EK]].
  intros e [He [t [Ht [O1 O2]]]]. enum He; enum Ht; subst e t; discriminate.
Qed.
(* (b) the area a merged mesh reports is the area of the receiver alone *)
Theorem C34_area_refuted : exists r d oth w, mergeable r d oth /\ mh_area r == covered r /\ mh_area d == covered d /\
  merge_pair (WD r d oth) = Ok (true, w) /\ ~ mh_area (w_rec w) == covered (w_rec w).
Proof.
  destruct row_result as [w [E [_ [_ [_ [_ [_ [E6 E7]]]]]]]].
  exists sq_left, sq_mid, [sq_right], w. split; [exact row_mergeable|]. split; [vm_compute; reflexivity|]. split; [vm_compute; reflexivity|].
  split; [exact E|]. rewrite E6, E7. vm_compute. discriminate.
Qed.

Print Assumptions C34_merge_reports.
Print Assumptions C34_merge_partial.
Print Assumptions C34_colour_partial.
Print Assumptions C34_marks.
Print Assumptions C34_neighbours.
Print Assumptions C34_generator.
Print Assumptions C34_returns_refuted.
Print Assumptions C34_area_refuted.
