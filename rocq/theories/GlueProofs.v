(* Gluing two conforming meshes along coinciding boundary edges. *)
From Coq Require Import Lia Permutation Lqa Setoid Relations.
From Verif Require Import Base GeomModel FacetModel UtilModel AdvanceModel Chain AdvanceProofs BdryProofs MeshModel MeshSpec MeshProofs
  QRefineModel QRefineSpec QRefineShape QRefineConf QRefineProps MeshProps CleanSpec MergeProofs CleanProofs MergerSpec.

Record glued (R D M : mesh) (g : nat -> nat) (Rin Rout Din Dout : list medge) (FD : list facet) (ID IE BD : list medge) : Prop := {
  gl_posR : forall v, In v (mh_verts R) -> mh_pos M v = mh_pos R v;
  gl_posD : forall v, In v (mh_verts D) -> mh_pos M (g v) = mh_pos D v;
  gl_verts : forall x, In x (mh_verts M) <-> In x (mh_verts R) \/ exists v, In v (mh_verts D) /\ x = g v;
  gl_nodup : NoDup (mh_verts M);
  gl_map : forall e t, In e (mh_bdry R) -> In t (mh_bdry D) -> opposite R D e t -> g (ed_1 t) = ed_2 e /\ g (ed_2 t) = ed_1 e;
  gl_shared : forall v, In v (mh_verts D) -> In (g v) (mh_verts R) ->
    exists e t, In e (mh_bdry R) /\ In t (mh_bdry D) /\ opposite R D e t /\ (v = ed_1 t \/ v = ed_2 t);
  gl_rsplit : Permutation (mh_bdry R) (Rin ++ Rout);
  gl_rin : forall e, In e Rin -> exists t, In t (mh_bdry D) /\ opposite R D e t;
  gl_rout : forall e t, In e Rout -> In t (mh_bdry D) -> ~ opposite R D e t;
  gl_dsplit : Permutation (mh_bdry D) (Din ++ Dout);
  gl_din : forall t, In t Din -> exists e, In e (mh_bdry R) /\ opposite R D e t;
  gl_dout : forall e t, In t Dout -> In e (mh_bdry R) -> ~ opposite R D e t;
  gl_facets : Permutation (facets M) (facets R ++ FD);
  gl_image : Forall2 (image g) (facets D) FD;
  gl_quads : forall f, In f (mh_quads M) -> exists a b c d, fa_sh f = Quad4 a b c d;
  gl_tris : forall f, In f (mh_tris M) -> exists a b c, fa_sh f = Tri3 a b c;
  gl_ids : NoDup (map fa_id (facets M));
  gl_intr : Permutation (mh_intr M) (mh_intr R ++ ID ++ IE);
  gl_id : Forall2 (eimage g) (mh_intr D) ID;
  gl_ie : Forall2 (eimage (fun v => v)) Rin IE;
  gl_bdry : Permutation (mh_bdry M) (Rout ++ BD);
  gl_bd : Forall2 (eimage g) Dout BD;
  gl_eids : NoDup (map ed_id (all_edges M));
  gl_vnext : forall v, In v (mh_verts M) -> (v < mh_next M)%nat;
  gl_fnext : forall f, In f (facets M) -> (fa_id f < mh_next M)%nat;
  gl_enext : forall e, In e (all_edges M) -> (ed_id e < mh_next M)%nat;
  gl_fits : fits M;
  gl_nbrR : forall f i, In f (facets R) -> mh_nbr M (fa_id f) i = mh_nbr R (fa_id f) i;
  gl_nbrD : forall f i, In f FD -> mh_nbr M (fa_id f) i = None
}.

Lemma forall2_in_r {A B} (P : A -> B -> Prop) l l' y : Forall2 P l l' -> In y l' -> exists x, In x l /\ P x y.
Proof. intros F. induction F as [|a b l l' H F IH]; intros Hy; [destruct Hy|]. destruct Hy as [<-|Hy]; [exists a; cbn; auto|]. destruct (IH Hy) as [x [Hx Px]]. exists x. cbn. auto. Qed.
Lemma forall2_in_l {A B} (P : A -> B -> Prop) l l' x : Forall2 P l l' -> In x l -> exists y, In y l' /\ P x y.
Proof. intros F. induction F as [|a b l l' H F IH]; intros Hx; [destruct Hx|]. destruct Hx as [<-|Hx]; [exists b; cbn; auto|]. destruct (IH Hx) as [y [Hy Py]]. exists y. cbn. auto. Qed.
Lemma forall2_nth_r {A B} (P : A -> B -> Prop) l l' y : Forall2 P l l' -> In y l' -> exists i x, nth_error l i = Some x /\ nth_error l' i = Some y /\ P x y.
Proof.
  intros F. induction F as [|a b l l' H F IH]; intros Hy; [destruct Hy|]. destruct Hy as [<-|Hy]; [exists 0%nat, a; cbn; auto|].
  destruct (IH Hy) as [i [x Hx]]. exists (S i), x. cbn. exact Hx.
Qed.
Lemma forall2_once {A B} (P : A -> B -> Prop) l l' y y' : Forall2 P l l' -> NoDup l -> In y l' -> In y' l' ->
  (forall x x', In x l -> In x' l -> P x y -> P x' y' -> x = x') -> y = y'.
Proof.
  intros F N Hy Hy' U. destruct (forall2_nth_r P l l' y F Hy) as [i [x [Nx [Ny Px]]]]. destruct (forall2_nth_r P l l' y' F Hy') as [j [x' [Nx' [Ny' Px']]]].
  assert (x = x') by (apply U; try assumption; eapply nth_error_In; eassumption). subst x'.
  assert (i = j). { apply (proj1 (NoDup_nth_error l) N); [apply nth_error_Some; congruence|congruence]. } subst j. congruence.
Qed.
Lemma map_shape_corners g s : corners (map_shape g s) = map g (corners s).
Proof. destruct s; reflexivity. Qed.
Definition gg (g : nat -> nat) (p : nat * nat) : nat * nat := (g (fst p), g (snd p)).
Lemma image_sides g f f' : image g f f' -> sides f' = map (gg g) (sides f).
Proof. unfold image, sides. intros ->. destruct (fa_sh f); reflexivity. Qed.
Lemma image_area g posM pos f f' : image g f f' -> (forall v, In v (corners (fa_sh f)) -> posM (g v) = pos v) -> fa_area posM f' = fa_area pos f.
Proof. unfold image, fa_area. intros -> H. destruct (fa_sh f); cbn [map_shape corners] in *; rewrite !H by (cbn; auto 10); reflexivity. Qed.
Lemma flat_sides_image g fs fs' : Forall2 (image g) fs fs' -> flat_map sides fs' = map (gg g) (flat_map sides fs).
Proof. intros F. induction F as [|f f' fs fs' H F IH]; [reflexivity|]. cbn [flat_map]. rewrite map_app, IH, (image_sides g f f' H). reflexivity. Qed.
Lemma nodup_map_on {A B} (h : A -> B) l : NoDup l -> (forall x y, In x l -> In y l -> h x = h y -> x = y) -> NoDup (map h l).
Proof.
  induction l as [|a l IH]; intros N I; [constructor|]. inversion N; subst. cbn [map]. constructor.
  - intros H. apply in_map_iff in H. destruct H as [y [E Hy]]. apply I in E; [subst; contradiction|right; exact Hy|left; reflexivity].
  - apply IH; [assumption|]. intros x y Hx Hy. apply I; right; assumption.
Qed.
Lemma meet_sym m v f g : meet_at m v f g -> meet_at m v g f.
Proof. intros [Hf [Hg [a [b [H1 [H2 H3]]]]]]. split; [exact Hg|]. split; [exact Hf|]. exists b, a. tauto. Qed.
Lemma fan_sym m v f g : clos_refl_trans facet (meet_at m v) f g -> clos_refl_trans facet (meet_at m v) g f.
Proof. intros H. induction H; [apply rt_step, meet_sym; assumption|apply rt_refl|eapply rt_trans; eassumption]. Qed.

Section Glue.
Variables R D M : mesh.
Variable g : nat -> nat.
Variables Rin Rout Din Dout : list medge.
Variable FD : list facet.
Variables ID IE BD : list medge.
Hypothesis SR : sound R.
Hypothesis SD : sound D.
Hypothesis DR : distinct_points R.
Hypothesis DD : distinct_points D.
Hypothesis NO : no_overlap R D.
Hypothesis G : glued R D M g Rin Rout Din Dout FD ID IE BD.
Let CR := sd_conf _ SR.
Let CD := sd_conf _ SD.

Lemma gl_inj v w : In v (mh_verts D) -> In w (mh_verts D) -> g v = g w -> v = w.
Proof. intros Hv Hw E. apply (DD v w Hv Hw). rewrite <- (gl_posD _ _ _ _ _ _ _ _ _ _ _ _ G v Hv), E. apply (gl_posD _ _ _ _ _ _ _ _ _ _ _ _ G w Hw). Qed.
Lemma side_verts m a b : addressed m -> In (a, b) (all_sides m) -> In a (mh_verts m) /\ In b (mh_verts m).
Proof. intros A H. apply all_sides_in in H. destruct H as [f [Hf H]]. destruct (side_corners f a b H). split; eapply (ad_corner _ A); eassumption. Qed.
Lemma bdry_verts m e : sound m -> In e (all_edges m) -> In (ed_1 e) (mh_verts m) /\ In (ed_2 e) (mh_verts m).
Proof. intros S He. exact (edge_corners m e (sd_conf _ S) (sd_addr _ S) He). Qed.

Lemma gl_all_sides : Permutation (all_sides M) (all_sides R ++ map (gg g) (all_sides D)).
Proof.
  unfold all_sides. rewrite (Permutation_flat_map sides (gl_facets _ _ _ _ _ _ _ _ _ _ _ _ G)), flat_map_app.
  rewrite (flat_sides_image g _ _ (gl_image _ _ _ _ _ _ _ _ _ _ _ _ G)). reflexivity.
Qed.
(* a side of R is never a side of D *)
Lemma gl_disjoint a b c d : In (a, b) (all_sides R) -> In (c, d) (all_sides D) -> a = g c -> b = g d -> False.
Proof.
  intros H1 H2 E1 E2. destruct (side_verts R a b (sd_addr _ SR) H1) as [Ra Rb]. destruct (side_verts D c d (sd_addr _ SD) H2) as [Dc Dd].
  apply (NO a b c d H1 H2). rewrite <- (gl_posR _ _ _ _ _ _ _ _ _ _ _ _ G a Ra), <- (gl_posR _ _ _ _ _ _ _ _ _ _ _ _ G b Rb).
  rewrite <- (gl_posD _ _ _ _ _ _ _ _ _ _ _ _ G c Dc), <- (gl_posD _ _ _ _ _ _ _ _ _ _ _ _ G d Dd). split; congruence.
Qed.
(* a side of R opposite to a side of D: both are boundary edges *)
Lemma gl_cross a b c d : In (a, b) (all_sides R) -> In (c, d) (all_sides D) -> a = g d -> b = g c ->
  exists e t, In e (mh_bdry R) /\ In t (mh_bdry D) /\ ed_1 e = a /\ ed_2 e = b /\ ed_1 t = c /\ ed_2 t = d /\ opposite R D e t.
Proof.
  intros H1 H2 E1 E2. destruct (side_verts R a b (sd_addr _ SR) H1) as [Ra Rb]. destruct (side_verts D c d (sd_addr _ SD) H2) as [Dc Dd].
  assert (NR : ~ In (b, a) (all_sides R)) by (intros H; exact (gl_disjoint b a c d H H2 E2 E1)).
  assert (ND : ~ In (d, c) (all_sides D)) by (intros H; exact (gl_disjoint a b d c H1 H E1 E2)).
  destruct (cf_cover _ CR a b H1) as [e [He De]]. destruct (cf_cover _ CD c d H2) as [t [Ht Dt]].
  apply in_app_or in He, Ht.
  assert (He' : In e (mh_bdry R) /\ ed_1 e = a /\ ed_2 e = b).
  { destruct He as [He|He]; [destruct (cf_intr _ CR e He) as [X Y]|destruct (cf_bdry _ CR e He) as [X _]]; destruct De as [[E3 E4]|[E3 E4]]; rewrite E3, E4 in *; try contradiction; auto. }
  assert (Ht' : In t (mh_bdry D) /\ ed_1 t = c /\ ed_2 t = d).
  { destruct Ht as [Ht|Ht]; [destruct (cf_intr _ CD t Ht) as [X Y]|destruct (cf_bdry _ CD t Ht) as [X _]]; destruct Dt as [[E3 E4]|[E3 E4]]; rewrite E3, E4 in *; try contradiction; auto. }
  destruct He' as [Be [F1 F2]], Ht' as [Bt [F3 F4]]. exists e, t. repeat (split; [assumption|]). unfold opposite. rewrite F1, F2, F3, F4.
  rewrite <- (gl_posR _ _ _ _ _ _ _ _ _ _ _ _ G a Ra), <- (gl_posR _ _ _ _ _ _ _ _ _ _ _ _ G b Rb).
  rewrite <- (gl_posD _ _ _ _ _ _ _ _ _ _ _ _ G c Dc), <- (gl_posD _ _ _ _ _ _ _ _ _ _ _ _ G d Dd). split; congruence.
Qed.
Lemma edge_side m e : conforming m -> In e (all_edges m) -> In (ed_1 e, ed_2 e) (all_sides m).
Proof. intros C He. apply in_app_or in He. destruct He as [He|He]; [apply (cf_intr _ C e He)|apply (cf_bdry _ C e He)]. Qed.
(* edges of R and D with the same ends *)
Lemma gl_cross_edge e t : In e (all_edges R) -> In t (all_edges D) ->
  (ed_1 e = g (ed_1 t) /\ ed_2 e = g (ed_2 t)) \/ (ed_1 e = g (ed_2 t) /\ ed_2 e = g (ed_1 t)) ->
  In e (mh_bdry R) /\ In t (mh_bdry D) /\ opposite R D e t.
Proof.
  intros He Ht [[E1 E2]|[E1 E2]].
  - destruct (gl_disjoint _ _ _ _ (edge_side R e CR He) (edge_side D t CD Ht) E1 E2).
  - destruct (gl_cross _ _ _ _ (edge_side R e CR He) (edge_side D t CD Ht) E1 E2) as [e' [t' [He' [Ht' [F1 [F2 [F3 [F4 O]]]]]]]].
    assert (e' = e) by (apply (cf_single _ CR); [apply in_or_app; auto|exact He|left; auto]).
    assert (t' = t) by (apply (cf_single _ CD); [apply in_or_app; auto|exact Ht|left; auto]). subst. auto.
Qed.

Lemma rin_bdry e : In e Rin -> In e (mh_bdry R).
Proof. intros H. apply (Permutation_in _ (Permutation_sym (gl_rsplit _ _ _ _ _ _ _ _ _ _ _ _ G))). apply in_or_app. auto. Qed.
Lemma rout_bdry e : In e Rout -> In e (mh_bdry R).
Proof. intros H. apply (Permutation_in _ (Permutation_sym (gl_rsplit _ _ _ _ _ _ _ _ _ _ _ _ G))). apply in_or_app. auto. Qed.
Lemma dout_bdry e : In e Dout -> In e (mh_bdry D).
Proof. intros H. apply (Permutation_in _ (Permutation_sym (gl_dsplit _ _ _ _ _ _ _ _ _ _ _ _ G))). apply in_or_app. auto. Qed.
Lemma bdry_nodup m : conforming m -> NoDup (mh_bdry m).
Proof. intros C. apply (NoDup_map_inv' ed_id). apply (nodup_ids_app ed_id (mh_intr m) _ (cf_eids _ C)). Qed.
Lemma all_edges_nodup m : conforming m -> NoDup (all_edges m).
Proof. intros C. exact (NoDup_map_inv' ed_id _ (cf_eids _ C)). Qed.
Lemma dpart_nodup : NoDup (mh_intr D ++ Dout).
Proof.
  assert (N := all_edges_nodup D CD). unfold all_edges in N.
  assert (P : Permutation (mh_intr D ++ mh_bdry D) (Din ++ mh_intr D ++ Dout)).
  { rewrite (gl_dsplit _ _ _ _ _ _ _ _ _ _ _ _ G). apply Permutation_app_swap_app. }
  apply (Permutation_NoDup P) in N. exact (nodup_app_r _ _ N).
Qed.
Lemma rin_nodup : NoDup Rin.
Proof. assert (N := Permutation_NoDup (gl_rsplit _ _ _ _ _ _ _ _ _ _ _ _ G) (bdry_nodup R CR)). exact (proj1 (nodup_app_l' _ _ N)). Qed.

(* where an edge comes from *)
Inductive origin (y : medge) : Prop :=
  | or_r : In y (mh_intr R ++ Rout) -> origin y
  | or_d x : In y (ID ++ BD) -> In x (mh_intr D ++ Dout) -> eimage g x y -> origin y
  | or_i x : In y IE -> In x Rin -> ed_1 y = ed_1 x -> ed_2 y = ed_2 x -> origin y.
Lemma gl_dpart : Forall2 (eimage g) (mh_intr D ++ Dout) (ID ++ BD).
Proof. apply Forall2_app; [exact (gl_id _ _ _ _ _ _ _ _ _ _ _ _ G)|exact (gl_bd _ _ _ _ _ _ _ _ _ _ _ _ G)]. Qed.
Lemma gl_origin y : In y (all_edges M) -> origin y.
Proof.
  intros H. apply in_app_or in H. destruct H as [H|H].
  - apply (Permutation_in _ (gl_intr _ _ _ _ _ _ _ _ _ _ _ _ G)) in H. apply in_app_or in H. destruct H as [H|H]; [apply or_r; apply in_or_app; auto|].
    apply in_app_or in H. destruct H as [H|H].
    + destruct (forall2_in_r _ _ _ y (gl_id _ _ _ _ _ _ _ _ _ _ _ _ G) H) as [x [Hx Px]]. apply (or_d y x); [apply in_or_app; auto|apply in_or_app; auto|exact Px].
    + destruct (forall2_in_r _ _ _ y (gl_ie _ _ _ _ _ _ _ _ _ _ _ _ G) H) as [x [Hx [P1 P2]]]. exact (or_i y x H Hx P1 P2).
  - apply (Permutation_in _ (gl_bdry _ _ _ _ _ _ _ _ _ _ _ _ G)) in H. apply in_app_or in H. destruct H as [H|H]; [apply or_r; apply in_or_app; auto|].
    destruct (forall2_in_r _ _ _ y (gl_bd _ _ _ _ _ _ _ _ _ _ _ _ G) H) as [x [Hx Px]]. apply (or_d y x); [apply in_or_app; auto|apply in_or_app; auto|exact Px].
Qed.
Lemma rpart_edge y : In y (mh_intr R ++ Rout) -> In y (all_edges R).
Proof. intros H. apply in_app_or in H. apply in_or_app. destruct H; [auto|right; apply rout_bdry; assumption]. Qed.
Lemma dpart_edge y : In y (mh_intr D ++ Dout) -> In y (all_edges D).
Proof. intros H. apply in_app_or in H. apply in_or_app. destruct H; [auto|right; apply dout_bdry; assumption]. Qed.
Lemma intr_not_bdry m e : conforming m -> In e (mh_intr m) -> In e (mh_bdry m) -> False.
Proof. intros C H1 H2. destruct (cf_intr _ C e H1) as [_ X]. destruct (cf_bdry _ C e H2) as [_ Y]. contradiction. Qed.
Lemma rin_not_rpart e : In e Rin -> In e (mh_intr R ++ Rout) -> False.
Proof.
  intros H1 H2. apply in_app_or in H2. destruct H2 as [H2|H2]; [exact (intr_not_bdry R e CR H2 (rin_bdry e H1))|].
  assert (N := Permutation_NoDup (gl_rsplit _ _ _ _ _ _ _ _ _ _ _ _ G) (bdry_nodup R CR)). exact (NoDup_app_in _ _ e N H1 H2).
Qed.
Lemma cross_rd e t : In e (mh_intr R ++ Rout) -> In t (all_edges D) ->
  (ed_1 e = g (ed_1 t) /\ ed_2 e = g (ed_2 t)) \/ (ed_1 e = g (ed_2 t) /\ ed_2 e = g (ed_1 t)) -> False.
Proof.
  intros He Ht E. destruct (gl_cross_edge e t (rpart_edge e He) Ht E) as [Be [Bt O]]. apply in_app_or in He. destruct He as [He|He].
  - exact (intr_not_bdry R e CR He Be).
  - exact (gl_rout _ _ _ _ _ _ _ _ _ _ _ _ G e t He Bt O).
Qed.
Lemma cross_dr e t : In e (all_edges R) -> In t (mh_intr D ++ Dout) ->
  (ed_1 e = g (ed_1 t) /\ ed_2 e = g (ed_2 t)) \/ (ed_1 e = g (ed_2 t) /\ ed_2 e = g (ed_1 t)) -> False.
Proof.
  intros He Ht E. destruct (gl_cross_edge e t He (dpart_edge t Ht) E) as [Be [Bt O]]. apply in_app_or in Ht. destruct Ht as [Ht|Ht].
  - exact (intr_not_bdry D t CD Ht Bt).
  - exact (gl_dout _ _ _ _ _ _ _ _ _ _ _ _ G e t Ht Be O).
Qed.
Lemma gl_single e f : In e (all_edges M) -> In f (all_edges M) -> same_pair e f -> e = f.
Proof.
  assert (RI : forall y x x', In x (mh_intr R ++ Rout) -> In x' Rin -> ed_1 y = ed_1 x' -> ed_2 y = ed_2 x' -> same_pair x y -> False).
  { intros y x x' Hx Hx' E1 E2 P. assert (x = x').
    { apply (cf_single _ CR); [exact (rpart_edge x Hx)|apply in_or_app; right; exact (rin_bdry x' Hx')|]. unfold same_pair in *. rewrite E1, E2 in P. exact P. }
    subst x'. exact (rin_not_rpart x Hx' Hx). }
  assert (RDc : forall y x x', In x (mh_intr R ++ Rout) -> In x' (mh_intr D ++ Dout) -> eimage g x' y -> same_pair x y -> False).
  { intros y x x' Hx Hx' [E1 E2] P. apply (cross_rd x x' Hx (dpart_edge x' Hx')). unfold same_pair in P. rewrite E1, E2 in P. exact P. }
  assert (IDc : forall z y x x', In x Rin -> ed_1 z = ed_1 x -> ed_2 z = ed_2 x -> In x' (mh_intr D ++ Dout) -> eimage g x' y -> same_pair z y -> False).
  { intros z y x x' Hx F1 F2 Hx' [E1 E2] P. apply (cross_dr x x'); [apply in_or_app; right; exact (rin_bdry x Hx)|exact Hx'|]. unfold same_pair in P. rewrite E1, E2, F1, F2 in P. exact P. }
  intros He Hf P. assert (P' : same_pair f e) by (unfold same_pair in *; destruct P as [[? ?]|[? ?]]; auto).
  destruct (gl_origin e He) as [Oe|xe Ye Oe Pe|xe Ye Oe Pe1 Pe2]; destruct (gl_origin f Hf) as [Of|xf Yf Of Pf|xf Yf Of Pf1 Pf2].
  - apply (cf_single _ CR); [exact (rpart_edge e Oe)|exact (rpart_edge f Of)|exact P].
  - destruct (RDc f e xf Oe Of Pf P).
  - destruct (RI f e xf Oe Of Pf1 Pf2 P).
  - destruct (RDc e f xe Of Oe Pe P').
  - apply (forall2_once (eimage g) (mh_intr D ++ Dout) (ID ++ BD) e f gl_dpart dpart_nodup Ye Yf).
    intros x x' Hx Hx' [E1 E2] [F1 F2]. apply (cf_single _ CD); [exact (dpart_edge x Hx)|exact (dpart_edge x' Hx')|].
    destruct (bdry_verts D x SD (dpart_edge x Hx)) as [V1 V2]. destruct (bdry_verts D x' SD (dpart_edge x' Hx')) as [W1 W2].
    unfold same_pair in *. rewrite E1, E2, F1, F2 in P. destruct P as [[A B]|[A B]]; [left|right]; split; apply gl_inj; assumption.
  - destruct (IDc f e xf xe Of Pf1 Pf2 Oe Pe P').
  - destruct (RI e f xe Of Oe Pe1 Pe2 P').
  - destruct (IDc e f xe xf Oe Pe1 Pe2 Of Pf P).
  - apply (forall2_once (eimage (fun v => v)) Rin IE e f (gl_ie _ _ _ _ _ _ _ _ _ _ _ _ G) rin_nodup Ye Yf).
    intros x x' Hx Hx' [E1 E2] [F1 F2]. apply (cf_single _ CR); [apply in_or_app; right; exact (rin_bdry x Hx)|apply in_or_app; right; exact (rin_bdry x' Hx')|].
    unfold same_pair in *. rewrite E1, E2, F1, F2 in P. exact P.
Qed.

Lemma sideM_r a b : In (a, b) (all_sides R) -> In (a, b) (all_sides M).
Proof. intros H. apply (Permutation_in _ (Permutation_sym gl_all_sides)). apply in_or_app. auto. Qed.
Lemma sideM_d a b : In (a, b) (all_sides D) -> In (g a, g b) (all_sides M).
Proof. intros H. apply (Permutation_in _ (Permutation_sym gl_all_sides)). apply in_or_app. right. apply in_map_iff. exists (a, b). auto. Qed.
Lemma sideM_inv a b : In (a, b) (all_sides M) -> In (a, b) (all_sides R) \/ exists c d, In (c, d) (all_sides D) /\ a = g c /\ b = g d.
Proof.
  intros H. apply (Permutation_in _ gl_all_sides) in H. apply in_app_or in H. destruct H as [H|H]; [auto|right].
  apply in_map_iff in H. destruct H as [[c d] [E H]]. unfold gg in E. cbn in E. injection E as <- <-. exists c, d. auto.
Qed.
Lemma side_inj a b c d : In (a, b) (all_sides D) -> In (c, d) (all_sides D) -> g a = g c -> g b = g d -> a = c /\ b = d.
Proof.
  intros H1 H2 E1 E2. destruct (side_verts D a b (sd_addr _ SD) H1). destruct (side_verts D c d (sd_addr _ SD) H2). split; apply gl_inj; assumption.
Qed.
Theorem glue_conforming : conforming M.
Proof.
  constructor.
  - exact (gl_ids _ _ _ _ _ _ _ _ _ _ _ _ G).
  - intros f Hf. apply (Permutation_in _ (gl_facets _ _ _ _ _ _ _ _ _ _ _ _ G)) in Hf. apply in_app_or in Hf. destruct Hf as [Hf|Hf]; [exact (cf_corners _ CR f Hf)|].
    destruct (forall2_in_r _ _ _ f (gl_image _ _ _ _ _ _ _ _ _ _ _ _ G) Hf) as [x [Hx Px]]. rewrite Px, map_shape_corners.
    apply nodup_map_on; [exact (cf_corners _ CD x Hx)|]. intros v w Hv Hw. apply gl_inj; eapply (ad_corner _ (sd_addr _ SD)); eassumption.
  - exact (gl_quads _ _ _ _ _ _ _ _ _ _ _ _ G).
  - exact (gl_tris _ _ _ _ _ _ _ _ _ _ _ _ G).
  - apply (Permutation_NoDup (Permutation_sym gl_all_sides)). apply nodup_app.
    + exact (cf_sides _ CR).
    + apply nodup_map_on; [exact (cf_sides _ CD)|]. intros [a b] [c d] H1 H2 E. unfold gg in E. cbn in E. injection E as E1 E2.
      destruct (side_inj a b c d H1 H2 E1 E2). subst. reflexivity.
    + intros [a b] H1 H2. apply in_map_iff in H2. destruct H2 as [[c d] [E H2]]. unfold gg in E. cbn in E. injection E as E1 E2.
      exact (gl_disjoint a b c d H1 H2 (eq_sym E1) (eq_sym E2)).
  - intros e He. apply (Permutation_in _ (gl_intr _ _ _ _ _ _ _ _ _ _ _ _ G)) in He. apply in_app_or in He. destruct He as [He|He].
    + destruct (cf_intr _ CR e He). split; apply sideM_r; assumption.
    + apply in_app_or in He. destruct He as [He|He].
      * destruct (forall2_in_r _ _ _ e (gl_id _ _ _ _ _ _ _ _ _ _ _ _ G) He) as [x [Hx [E1 E2]]]. rewrite E1, E2. destruct (cf_intr _ CD x Hx). split; apply sideM_d; assumption.
      * destruct (forall2_in_r _ _ _ e (gl_ie _ _ _ _ _ _ _ _ _ _ _ _ G) He) as [x [Hx [E1 E2]]]. rewrite E1, E2.
        destruct (gl_rin _ _ _ _ _ _ _ _ _ _ _ _ G x Hx) as [t [Ht O]]. destruct (gl_map _ _ _ _ _ _ _ _ _ _ _ _ G x t (rin_bdry x Hx) Ht O) as [M1 M2].
        split; [apply sideM_r; apply (cf_bdry _ CR x (rin_bdry x Hx))|]. rewrite <- M1, <- M2. apply sideM_d. apply (cf_bdry _ CD t Ht).
  - intros e He. apply (Permutation_in _ (gl_bdry _ _ _ _ _ _ _ _ _ _ _ _ G)) in He. apply in_app_or in He. destruct He as [He|He].
    + destruct (cf_bdry _ CR e (rout_bdry e He)) as [X Y]. split; [exact (sideM_r _ _ X)|]. intros Z. destruct (sideM_inv _ _ Z) as [Z'|[c [d [Z' [E1 E2]]]]]; [contradiction|].
      destruct (gl_cross _ _ c d X Z' E2 E1) as [e' [t [He' [Ht [F1 [F2 [_ [_ O]]]]]]]].
      assert (e' = e) by (apply (cf_single _ CR); [apply in_or_app; auto|apply in_or_app; right; exact (rout_bdry e He)|left; auto]). subst e'.
      exact (gl_rout _ _ _ _ _ _ _ _ _ _ _ _ G e t He Ht O).
    + destruct (forall2_in_r _ _ _ e (gl_bd _ _ _ _ _ _ _ _ _ _ _ _ G) He) as [x [Hx [E1 E2]]]. rewrite E1, E2. destruct (cf_bdry _ CD x (dout_bdry x Hx)) as [X Y].
      split; [exact (sideM_d _ _ X)|]. intros Z. destruct (sideM_inv _ _ Z) as [Z'|[c [d [Z' [F1 F2]]]]].
      * destruct (gl_cross _ _ _ _ Z' X eq_refl eq_refl) as [e' [t [He' [Ht [_ [_ [F3 [F4 O]]]]]]]].
        assert (t = x) by (apply (cf_single _ CD); [apply in_or_app; auto|apply in_or_app; right; exact (dout_bdry x Hx)|left; auto]). subst t.
        exact (gl_dout _ _ _ _ _ _ _ _ _ _ _ _ G e' x Hx He' O).
      * destruct (bdry_verts D x SD (in_or_app _ _ _ (or_intror (dout_bdry x Hx)))) as [V1 V2]. destruct (side_verts D c d (sd_addr _ SD) Z') as [W1 W2].
        apply Y. rewrite (gl_inj _ _ V2 W1 F1), (gl_inj _ _ V1 W2 F2). exact Z'.
  - assert (ICov : forall x, In x (mh_bdry R) -> exists e, In e (all_edges M) /\ ed_1 e = ed_1 x /\ ed_2 e = ed_2 x).
    { intros x Hx. apply (Permutation_in _ (gl_rsplit _ _ _ _ _ _ _ _ _ _ _ _ G)) in Hx. apply in_app_or in Hx. destruct Hx as [Hx|Hx].
      - destruct (forall2_in_l _ _ _ x (gl_ie _ _ _ _ _ _ _ _ _ _ _ _ G) Hx) as [y [Hy [E1 E2]]]. exists y. split; [|auto].
        apply in_or_app. left. apply (Permutation_in _ (Permutation_sym (gl_intr _ _ _ _ _ _ _ _ _ _ _ _ G))). apply in_or_app. right. apply in_or_app. auto.
      - exists x. split; [|auto]. apply in_or_app. right. apply (Permutation_in _ (Permutation_sym (gl_bdry _ _ _ _ _ _ _ _ _ _ _ _ G))). apply in_or_app. auto. }
    intros a b H. destruct (sideM_inv a b H) as [H'|[c [d [H' [E1 E2]]]]].
    + destruct (cf_cover _ CR a b H') as [x [Hx Dx]]. apply in_app_or in Hx. destruct Hx as [Hx|Hx].
      * exists x. split; [|exact Dx]. apply in_or_app. left. apply (Permutation_in _ (Permutation_sym (gl_intr _ _ _ _ _ _ _ _ _ _ _ _ G))). apply in_or_app. auto.
      * destruct (ICov x Hx) as [y [Hy [F1 F2]]]. exists y. rewrite F1, F2. auto.
    + destruct (cf_cover _ CD c d H') as [x [Hx Dx]]. apply in_app_or in Hx. destruct Hx as [Hx|Hx].
      * destruct (forall2_in_l _ _ _ x (gl_id _ _ _ _ _ _ _ _ _ _ _ _ G) Hx) as [y [Hy [F1 F2]]]. exists y. split.
        { apply in_or_app. left. apply (Permutation_in _ (Permutation_sym (gl_intr _ _ _ _ _ _ _ _ _ _ _ _ G))). apply in_or_app. right. apply in_or_app. auto. }
        rewrite F1, F2, E1, E2. destruct Dx as [[-> ->]|[-> ->]]; auto.
      * assert (Hx' := Hx). apply (Permutation_in _ (gl_dsplit _ _ _ _ _ _ _ _ _ _ _ _ G)) in Hx. apply in_app_or in Hx. destruct Hx as [Hx|Hx].
        { destruct (gl_din _ _ _ _ _ _ _ _ _ _ _ _ G x Hx) as [e [He O]]. destruct (gl_map _ _ _ _ _ _ _ _ _ _ _ _ G e x He Hx' O) as [M1 M2].
          destruct (ICov e He) as [y [Hy [F1 F2]]]. exists y. split; [exact Hy|]. rewrite F1, F2, <- M1, <- M2, E1, E2. destruct Dx as [[-> ->]|[-> ->]]; auto. }
        { destruct (forall2_in_l _ _ _ x (gl_bd _ _ _ _ _ _ _ _ _ _ _ _ G) Hx) as [y [Hy [F1 F2]]]. exists y. split.
          { apply in_or_app. right. apply (Permutation_in _ (Permutation_sym (gl_bdry _ _ _ _ _ _ _ _ _ _ _ _ G))). apply in_or_app. auto. }
          rewrite F1, F2, E1, E2. destruct Dx as [[-> ->]|[-> ->]]; auto. }
  - exact (gl_eids _ _ _ _ _ _ _ _ _ _ _ _ G).
  - exact gl_single.
Qed.

Lemma facet_m f : In f (facets M) <-> In f (facets R) \/ In f FD.
Proof. rewrite <- in_app_iff. split; apply Permutation_in; [|symmetry]; exact (gl_facets _ _ _ _ _ _ _ _ _ _ _ _ G). Qed.
Theorem glue_covered : covered M == covered R + covered D.
Proof.
  unfold covered. rewrite (sumQ_perm _ _ (Permutation_map (fa_area (mh_pos M)) (gl_facets _ _ _ _ _ _ _ _ _ _ _ _ G))), map_app, sumQ_app.
  assert (E1 : map (fa_area (mh_pos M)) (facets R) = map (fa_area (mh_pos R)) (facets R)).
  { apply map_ext_in. intros f Hf. unfold fa_area. assert (P : forall v, In v (corners (fa_sh f)) -> mh_pos M v = mh_pos R v).
    { intros v Hv. apply (gl_posR _ _ _ _ _ _ _ _ _ _ _ _ G). exact (ad_corner _ (sd_addr _ SR) f v Hf Hv). }
    destruct (fa_sh f); cbn [corners] in P; rewrite !P by (cbn; auto 10); reflexivity. }
  assert (E2 : map (fa_area (mh_pos M)) FD = map (fa_area (mh_pos D)) (facets D)).
  { assert (A := ad_corner _ (sd_addr _ SD)). assert (P := gl_posD _ _ _ _ _ _ _ _ _ _ _ _ G). assert (F := gl_image _ _ _ _ _ _ _ _ _ _ _ _ G). clear - A P F.
    induction F as [|f f' fs fs' H F IH]; [reflexivity|]. cbn [map]. rewrite IH by (intros x v Hx; apply A; right; exact Hx). f_equal.
    apply (image_area g _ _ f f' H). intros v Hv. apply P. exact (A f v (or_introl eq_refl) Hv). }
  rewrite E1, E2. reflexivity.
Qed.
Theorem glue_positive : positive M.
Proof.
  intros f Hf. apply facet_m in Hf. destruct Hf as [Hf|Hf].
  - assert (P : fa_area (mh_pos M) f = fa_area (mh_pos R) f).
    { unfold fa_area. assert (P : forall v, In v (corners (fa_sh f)) -> mh_pos M v = mh_pos R v).
      { intros v Hv. apply (gl_posR _ _ _ _ _ _ _ _ _ _ _ _ G). exact (ad_corner _ (sd_addr _ SR) f v Hf Hv). }
      destruct (fa_sh f); cbn [corners] in P; rewrite !P by (cbn; auto 10); reflexivity. }
    rewrite P. exact (sd_pos _ SR f Hf).
  - destruct (forall2_in_r _ _ _ f (gl_image _ _ _ _ _ _ _ _ _ _ _ _ G) Hf) as [x [Hx Px]].
    rewrite (image_area g (mh_pos M) (mh_pos D) x f Px); [exact (sd_pos _ SD x Hx)|].
    intros v Hv. apply (gl_posD _ _ _ _ _ _ _ _ _ _ _ _ G). exact (ad_corner _ (sd_addr _ SD) x v Hx Hv).
Qed.
Lemma facet_verts f v : In f (facets M) -> In v (corners (fa_sh f)) -> In v (mh_verts M).
Proof.
  intros Hf Hv. apply (gl_verts _ _ _ _ _ _ _ _ _ _ _ _ G). apply facet_m in Hf. destruct Hf as [Hf|Hf]; [left; exact (ad_corner _ (sd_addr _ SR) f v Hf Hv)|].
  destruct (forall2_in_r _ _ _ f (gl_image _ _ _ _ _ _ _ _ _ _ _ _ G) Hf) as [x [Hx Px]]. rewrite Px, map_shape_corners in Hv.
  apply in_map_iff in Hv. destruct Hv as [w [<- Hw]]. right. exists w. split; [exact (ad_corner _ (sd_addr _ SD) x w Hx Hw)|reflexivity].
Qed.
Theorem glue_addressed : addressed M.
Proof.
  constructor.
  - exact (gl_nodup _ _ _ _ _ _ _ _ _ _ _ _ G).
  - exact facet_verts.
  - exact (gl_vnext _ _ _ _ _ _ _ _ _ _ _ _ G).
  - exact (gl_fnext _ _ _ _ _ _ _ _ _ _ _ _ G).
  - exact (gl_enext _ _ _ _ _ _ _ _ _ _ _ _ G).
Qed.
Theorem glue_unset : boundary_unset M.
Proof.
  intros f i a b Hf E N. apply facet_m in Hf. destruct Hf as [Hf|Hf]; [|exact (gl_nbrD _ _ _ _ _ _ _ _ _ _ _ _ G f i Hf)].
  rewrite (gl_nbrR _ _ _ _ _ _ _ _ _ _ _ _ G f i Hf). apply (sd_unset _ SR f i a b Hf E). intros H. apply N. exact (sideM_r _ _ H).
Qed.

(* fans *)
Lemma fan_r v f h : clos_refl_trans facet (meet_at R v) f h -> clos_refl_trans facet (meet_at M v) f h.
Proof.
  intros H. induction H as [x y H| |x y z H1 IH1 H2 IH2]; [|apply rt_refl|eapply rt_trans; eassumption].
  apply rt_step. destruct H as [Hx [Hy H]]. split; [apply facet_m; auto|]. split; [apply facet_m; auto|exact H].
Qed.
Lemma image_once f f1 f2 : In f (facets D) -> In f1 FD -> In f2 FD -> image g f f1 -> image g f f2 -> f1 = f2.
Proof.
  intros Hf H1 H2 I1 I2. destruct (sides f) as [|[a b] l] eqn:E; [unfold sides in E; destruct (fa_sh f); discriminate|].
  apply (side_owner M f1 f2 (g a, g b) glue_conforming); [apply facet_m; auto|apply facet_m; auto| |].
  - rewrite (image_sides g f f1 I1), E. left. reflexivity.
  - rewrite (image_sides g f f2 I2), E. left. reflexivity.
Qed.
Lemma fan_d v f h : clos_refl_trans facet (meet_at D v) f h -> forall f', In f (facets D) -> In f' FD -> image g f f' ->
  exists h', In h' FD /\ image g h h' /\ clos_refl_trans facet (meet_at M (g v)) f' h'.
Proof.
  intros H. apply clos_rt_rt1n in H. induction H as [f|f x h H1 H2 IH]; intros f' Hf Hf' I.
  - exists f'. split; [exact Hf'|]. split; [exact I|apply rt_refl].
  - destruct H1 as [_ [Hx [a [b [S1 [S2 V]]]]]]. destruct (forall2_in_l _ _ _ x (gl_image _ _ _ _ _ _ _ _ _ _ _ _ G) Hx) as [x' [Hx' Ix]].
    destruct (IH x' Hx Hx' Ix) as [h' [Hh' [Ih P]]]. exists h'. split; [exact Hh'|]. split; [exact Ih|].
    eapply rt_trans; [|exact P]. apply rt_step. split; [apply facet_m; auto|]. split; [apply facet_m; auto|].
    exists (g a), (g b). rewrite (image_sides g f f' I), (image_sides g x x' Ix).
    split; [apply in_map_iff; exists (a, b); auto|]. split; [apply in_map_iff; exists (b, a); auto|]. destruct V as [-> | ->]; auto.
Qed.
Lemma fan_dd v f h f' h' : In f (facets D) -> In h (facets D) -> In v (corners (fa_sh f)) -> In v (corners (fa_sh h)) ->
  In f' FD -> In h' FD -> image g f f' -> image g h h' -> clos_refl_trans facet (meet_at M (g v)) f' h'.
Proof.
  intros Hf Hh Vf Vh Hf' Hh' If Ih. destruct (fan_d v f h (sd_fans _ SD v f h Hf Hh Vf Vh) f' Hf Hf' If) as [h'' [Hh'' [Ih'' P]]].
  rewrite (image_once h h' h'' Hh Hh' Hh'' Ih Ih''). exact P.
Qed.
Lemma fan_cross v f h h' : In f (facets R) -> In (g v) (corners (fa_sh f)) -> In h (facets D) -> In v (corners (fa_sh h)) -> In h' FD -> image g h h' ->
  clos_refl_trans facet (meet_at M (g v)) f h'.
Proof.
  intros Hf Vf Hh Vh Hh' Ih. assert (Dv := ad_corner _ (sd_addr _ SD) h v Hh Vh). assert (Rv := ad_corner _ (sd_addr _ SR) f _ Hf Vf).
  destruct (gl_shared _ _ _ _ _ _ _ _ _ _ _ _ G v Dv Rv) as [e [t [He [Ht [O Vt]]]]].
  destruct (gl_map _ _ _ _ _ _ _ _ _ _ _ _ G e t He Ht O) as [M1 M2].
  destruct (cf_bdry _ CR e He) as [Se _]. destruct (cf_bdry _ CD t Ht) as [St _]. apply all_sides_in in Se, St.
  destruct Se as [f0 [Hf0 Sf0]], St as [h0 [Hh0 Sh0]]. destruct (forall2_in_l _ _ _ h0 (gl_image _ _ _ _ _ _ _ _ _ _ _ _ G) Hh0) as [h0' [Hh0' I0]].
  destruct (side_corners f0 _ _ Sf0) as [C1 C2]. destruct (side_corners h0 _ _ Sh0) as [D1 D2].
  assert (V0 : In (g v) (corners (fa_sh f0))) by (destruct Vt as [-> | ->]; rewrite ?M1, ?M2; assumption).
  assert (W0 : In v (corners (fa_sh h0))) by (destruct Vt as [-> | ->]; assumption).
  eapply rt_trans; [apply fan_r; exact (sd_fans _ SR (g v) f f0 Hf Hf0 Vf V0)|].
  eapply rt_trans; [|exact (fan_dd v h0 h h0' h' Hh0 Hh W0 Vh Hh0' Hh' I0 Ih)].
  apply rt_step. split; [apply facet_m; auto|]. split; [apply facet_m; auto|]. exists (ed_1 e), (ed_2 e). split; [exact Sf0|]. split.
  - rewrite (image_sides g h0 h0' I0). apply in_map_iff. exists (ed_1 t, ed_2 t). split; [unfold gg; cbn; congruence|exact Sh0].
  - destruct Vt as [-> | ->]; rewrite ?M1, ?M2; auto.
Qed.
Theorem glue_fans : fans M.
Proof.
  intros v f h Hf Hh Vf Vh. apply facet_m in Hf, Hh.
  assert (IMG : forall x, In x FD -> In v (corners (fa_sh x)) -> exists y w, In y (facets D) /\ image g y x /\ In w (corners (fa_sh y)) /\ v = g w).
  { intros x Hx Vx. destruct (forall2_in_r _ _ _ x (gl_image _ _ _ _ _ _ _ _ _ _ _ _ G) Hx) as [y [Hy Py]]. exists y. rewrite Py, map_shape_corners in Vx.
    apply in_map_iff in Vx. destruct Vx as [w [E Hw]]. exists w. auto. }
  destruct Hf as [Hf|Hf], Hh as [Hh|Hh].
  - apply fan_r. exact (sd_fans _ SR v f h Hf Hh Vf Vh).
  - destruct (IMG h Hh Vh) as [y [w [Hy [Iy [Wy E]]]]]. subst v. exact (fan_cross w f y h Hf Vf Hy Wy Hh Iy).
  - destruct (IMG f Hf Vf) as [y [w [Hy [Iy [Wy E]]]]]. subst v. apply fan_sym. exact (fan_cross w h y f Hh Vh Hy Wy Hf Iy).
  - destruct (IMG f Hf Vf) as [y [w [Hy [Iy [Wy E]]]]]. destruct (IMG h Hh Vh) as [z [u [Hz [Iz [Uz E']]]]].
    assert (w = u) by (apply gl_inj; [exact (ad_corner _ (sd_addr _ SD) y w Hy Wy)|exact (ad_corner _ (sd_addr _ SD) z u Hz Uz)|congruence]). subst u v.
    exact (fan_dd w y z f h Hy Hz Wy Uz Hf Hh Iy Iz).
Qed.
Theorem glue_sound : sound M.
Proof.
  constructor; [exact glue_conforming|exact glue_addressed|exact (gl_fits _ _ _ _ _ _ _ _ _ _ _ _ G)|exact glue_fans|exact glue_positive|exact glue_unset].
Qed.
End Glue.
