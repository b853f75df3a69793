(* C64: the application builds the domain that the input file describes. *)
From Coq Require Import Reals Qreals Lra Lia Lqa Permutation.
From Verif Require Import Base Chain GeomModel GeomSpec UtilModel BdryModel BdrySpec BdryProofs BdryProps WindSpec WindProofs InsideProofs WindInside WindInsideProps PolySpec PolyProofs PolyMain PolyProps
  ClearSpec ClearStart ClearDomain FrontSpec AdvanceModel ParaModel CsvModel AppModel ShapeModel ShapeSpec ConvexProofs CircProofs ShapeProofs ShapeProps DomCheckModel DomCheckSpec DomCheckProps DomInModel DomInSpec DomInProofs DomInBuild PlateSpec PlateProofs.
From Verif Require ClearProps.
Open Scope Q_scope.

Lemma fop_forall2 {A B} (P : A -> B -> Prop) (R : A -> A -> Prop) (S : B -> B -> Prop) l m : Forall2 P l m ->
  (forall a b x y, P a x -> P b y -> S x y -> R a b) -> ForallOrdPairs S m -> ForallOrdPairs R l.
Proof.
  intros F H. induction F as [|a x l m PA F IH]; intros O; [constructor|]. inversion O as [|? ? O1 O2]; subst. constructor; [|apply IH, O2].
  rewrite Forall_forall in *. intros b I. apply In_nth_error in I. destruct I as (i & I).
  assert (X : exists y, nth_error m i = Some y /\ P b y).
  { clear - F I. revert i I. induction F as [|a x l m PA F IH]; intros [|i] I; try discriminate; cbn in *; [injection I as <-; exists x; split; [reflexivity|exact PA]|apply IH, I]. }
  destruct X as (y & Y & PB). exact (H a b x y PA PB (O1 y (nth_error_In _ _ Y))).
Qed.
Lemma f2_in {A B} (P : A -> B -> Prop) l m a : Forall2 P l m -> In a l -> exists b, In b m /\ P a b.
Proof. intros F. induction F as [|x y l m H F IH]; intros I; [destruct I|]. destruct I as [->|I]; [exists y; split; [left; reflexivity|exact H]|]. destruct (IH I) as (b & B1 & B2). exists b. split; [right; exact B1|exact B2]. Qed.
Lemma f2_in2 {A B} (P : A -> B -> Prop) l m b : Forall2 P l m -> In b m -> exists a, In a l /\ P a b.
Proof. intros F. induction F as [|x y l m H F IH]; intros I; [destruct I|]. destruct I as [->|I]; [exists x; split; [left; reflexivity|exact H]|]. destruct (IH I) as (a & B1 & B2). exists a. split; [right; exact B1|exact B2]. Qed.
Lemma fop_map_iff {A B} (f : A -> B) (R : B -> B -> Prop) l : ForallOrdPairs (fun x y => R (f x) (f y)) l -> ForallOrdPairs R (map f l).
Proof. induction 1 as [|a l F P IH]; cbn [map]; constructor; [|exact IH]. rewrite Forall_forall in *. intros y I. apply in_map_iff in I. destruct I as (x & <- & I). exact (F x I). Qed.

Section Domain.
Variable store : list vinfo.
Variable b0 : elist.
Variable bs : list (bdry_type * elist).
Variable c0 : list corner_data.
Variable css : list (list corner_data).
Hypothesis F0 : fits_def store (EXTERIOR, b0) c0.
Hypothesis FS : Forall2 (fun b cs => fst b = INTERIOR /\ fits_def store b cs) bs css.
Hypothesis NE : nested (places c0) (map places css).
Let all := (EXTERIOR, b0) :: bs.
Let bd (b : bdry_type * elist) := Bd (fst b) (created store (snd b)) (el_area (snd b)).

Lemma all_fit : Forall2 (fun b cs => fits_def store b cs) all (c0 :: css).
Proof. constructor; [exact F0|]. generalize FS. clear. intros FS'. induction FS' as [|b cs l m [_ H] F IH]; constructor; assumption. Qed.
Lemma built_proper : proper_domain (domain_of store all).
Proof.
  assert (AF := all_fit). assert (TI : forall b, In b bs -> fst b = INTERIOR) by (intros b I; destruct (f2_in _ _ _ _ FS I) as (cs & _ & T & _); exact T).
  constructor.
  - exists [], (bd (EXTERIOR, b0)), (map bd bs). split; [reflexivity|]. split; [reflexivity|]. cbn [app]. intros b I. apply in_map_iff in I. destruct I as (x & <- & I). exact (TI x I).
  - intros b I. apply in_map_iff in I. destruct I as (x & <- & I). destruct (f2_in _ _ _ _ AF I) as (cs & _ & H & _). exact (ar_simple _ _ _ _ H).
  - unfold domain_of. apply fop_map_iff. cbn [bd_edges].
    apply (fop_forall2 (fun b cs => fits_def store b cs) _ (fun x y => separate (ring_edges (places x)) (ring_edges (places y))) all (c0 :: css) AF).
    + intros a b x y [H1 _] [H2 _] S. exact (around_separate _ _ _ _ _ _ _ H1 H2 S).
    + assert (A := ne_apart _ _ NE). change (places c0 :: map places css) with (map places (c0 :: css)) in A. clear - A.
      induction (c0 :: css) as [|c l IH]; [constructor|]. cbn [map] in A. inversion A as [|? ? A1 A2]; subst. constructor; [|apply IH, A2].
      rewrite Forall_forall in *. intros x I. apply A1, in_map, I.
  - intros b c I J TB TC. apply in_map_iff in I, J. destruct I as (x & <- & I), J as (y & <- & J). cbn [bd_type] in TB, TC.
    destruct J as [<-|J]; [|rewrite (TI y J) in TC; discriminate]. destruct I as [<-|I]; [discriminate|].
    destruct (f2_in _ _ _ _ FS I) as (cs & IC & _ & H & _). destruct (ne_within _ _ NE (places cs) (in_map _ _ _ IC)) as (p & Ip & W).
    destruct (around_corner _ _ _ _ _ H Ip) as (e & Ie & Ee). exists e. split; [exact Ie|]. cbn [bd_edges snd]. rewrite (winding_point _ _ _ Ee).
    destruct (around_winding _ _ _ _ p (proj1 F0)) as [[X _]|[_ X]]; [contradiction|]. cbn [snd] in X. rewrite X. discriminate.
  - unfold domain_of. apply fop_map_iff. unfold all. constructor.
    + apply Forall_forall. intros b _ T. discriminate.
    + assert (G : ForallOrdPairs (fun x y => (exists p, In p (places x) /\ winding p (ring_edges (places y)) == 0) /\ (exists p, In p (places y) /\ winding p (ring_edges (places x)) == 0)) css).
      { assert (A := ne_beside _ _ NE). clear - A. induction css as [|c l IH]; [constructor|]. cbn [map] in A. inversion A as [|? ? A1 A2]; subst. constructor; [|apply IH, A2].
        rewrite Forall_forall in *. intros x I. apply A1, in_map, I. }
      refine (fop_forall2 _ _ _ bs css FS _ G). intros a b x y [_ [H1 _]] [_ [H2 _]] [(p & Ip & Wp) (q & Iq & Wq)] _ _. split.
      * destruct (around_corner _ _ _ _ _ H1 Ip) as (e & Ie & Ee). exists e. split; [exact Ie|]. cbn [bd_edges]. rewrite (winding_point _ _ _ Ee).
        destruct (around_winding _ _ _ _ p H2) as [[_ X]|[X _]]; [exact X|contradiction].
      * destruct (around_corner _ _ _ _ _ H2 Iq) as (e & Ie & Ee). exists e. split; [exact Ie|]. cbn [bd_edges]. rewrite (winding_point _ _ _ Ee).
        destruct (around_winding _ _ _ _ q H1) as [[_ X]|[X _]]; [exact X|contradiction].
Qed.
Lemma holes_count p : (winding p (domain_segments (map bd bs)) == 0 /\ forall cs, In cs css -> winding p (ring_edges (places cs)) == 0) \/
  (winding p (domain_segments (map bd bs)) <= - (1) /\ exists cs, In cs css /\ ~ winding p (ring_edges (places cs)) == 0).
Proof.
  generalize FS. clear FS NE F0. subst all. intros FS'. induction FS' as [|b cs l m [T [H _]] F IH]; [left; split; [reflexivity|intros cs []]|].
  cbn [map domain_segments flat_map]. fold (domain_segments (map bd l)). assert (E := winding_app p (bd_edges (bd b)) (domain_segments (map bd l))).
  destruct (around_winding _ _ _ _ p H) as [[W1 W2]|[W1 W2]]; rewrite ?T in W2; cbn [turning] in W2; change (created store (snd b)) with (bd_edges (bd b)) in W2; destruct IH as [[I1 I2]|[I1 (x & X1 & X2)]].
  - left. split; [rewrite E; Lqa.lra|]. intros y [<-|I]; [exact W1|exact (I2 y I)].
  - right. split; [rewrite E; Lqa.lra|]. exists x. split; [right; exact X1|exact X2].
  - right. split; [rewrite E; Lqa.lra|]. exists cs. split; [left; reflexivity|exact W1].
  - right. split; [rewrite E; Lqa.lra|]. exists cs. split; [left; reflexivity|exact W1].
Qed.
Lemma built_winding p :
  (winding p (domain_segments (domain_of store all)) == 1 /\ ~ winding p (ring_edges (places c0)) == 0 /\ forall cs, In cs css -> winding p (ring_edges (places cs)) == 0) \/
  (winding p (domain_segments (domain_of store all)) == 0 /\ (winding p (ring_edges (places c0)) == 0 \/ exists cs, In cs css /\ ~ winding p (ring_edges (places cs)) == 0)).
Proof.
  assert (PW := proper_winding _ p built_proper). assert (D : domain_segments (domain_of store all) = created store b0 ++ domain_segments (map bd bs)) by reflexivity. rewrite D in *.
  assert (E := winding_app p (created store b0) (domain_segments (map bd bs))). destruct (around_winding _ _ _ _ p (proj1 F0)) as [[W1 W2]|[W1 W2]]; cbn [snd fst turning] in W2;
    destruct (holes_count p) as [[H1 H2]|[H1 H2]].
  - right. split; [rewrite E; Lqa.lra|left; exact W1].
  - right. split; [|left; exact W1]. rewrite E in *. destruct PW; Lqa.lra.
  - left. split; [rewrite E; Lqa.lra|]. split; [exact W1|exact H2].
  - right. split; [|right; exact H2]. rewrite E in *. destruct PW; Lqa.lra.
Qed.
End Domain.

(* The domain that is built from the definitions: for polygons that are nested properly it
   is the region inside the outer one and outside the others; this is the region that the
   boundaries wind around and that the inside test finds, its area is that of the outer
   polygon without the holes, the check of the domain accepts it, and it is one of the
   domains for which C57, C60 and C62 prove the mesh sound. *)
Lemma area_from l : forall a, fold_left (fun x (b : boundary) => x + bd_area b) l a == a + fold_left (fun x b => x + bd_area b) l 0.
Proof. induction l as [|b l IH]; intros a; cbn [fold_left]; [ring|]. rewrite (IH (a + bd_area b)), (IH (0 + bd_area b)). ring. Qed.
Definition total (css : list (list corner_data)) : Q := fold_right (fun cs a => Qabs.Qabs (signed_area (places cs)) + a) 0 css.
Theorem C64_domain : forall nearest cosn sinn sqrt3 stod store ext int d0 c0 css, answers nearest ->
  chosen kinds ext = Some d0 -> gives cosn sinn sqrt3 stod store EXTERIOR d0 c0 ->
  Forall2 (gives cosn sinn sqrt3 stod store INTERIOR) (interior_definitions int) css -> nested (places c0) (map places css) ->
  exists new b bs, init_boundaries nearest cosn sinn sqrt3 stod store ext int = Ok (store ++ new, (EXTERIOR, b) :: bs) /\
    let all := (EXTERIOR, b) :: bs in let dom := domain_of (store ++ new) all in
    Forall2 (fun b cs => forall e, In e (el_edges (snd b)) -> In (be_col e) (colours cs) /\ be_prop e = e_on_boundary) all (c0 :: css) /\
    map fst bs = repeat INTERIOR (length css) /\
    proper_domain dom /\
    (forall p, (winding p (domain_segments dom) == 1 /\ ~ winding p (ring_edges (places c0)) == 0 /\ forall cs, In cs css -> winding p (ring_edges (places cs)) == 0) \/
       (winding p (domain_segments dom) == 0 /\ (winding p (ring_edges (places c0)) == 0 \/ exists cs, In cs css /\ ~ winding p (ring_edges (places cs)) == 0))) /\
    (forall p, (forall b, In b dom -> clear_of p (bd_edges b)) -> domain_inside dom p = true <->
       ~ winding p (ring_edges (places c0)) == 0 /\ forall cs, In cs css -> winding p (ring_edges (places cs)) == 0) /\
    domain_area dom == Qabs.Qabs (signed_area (places c0)) - total css /\
    ((forall e f, In e (flat_map (fun b => el_edges (snd b)) all) -> In f (flat_map (fun b => el_edges (snd b)) all) ->
        let pos := store_pos (store ++ new) in
        sharp (det (pos (be_v1 e)) (pos (be_v2 e)) (pos (be_v1 f))) /\ sharp (det (pos (be_v1 e)) (pos (be_v2 e)) (pos (be_v2 f)))) ->
     check_domain_validity (store_pos (store ++ new)) (map (fun b => VB (fst b) (el_edges (snd b))) all) = Ok true).
Proof.
  intros nearest cosn sinn sqrt3 stod store ext int d0 c0 css A C D F NE.
  destruct (boundaries_described nearest cosn sinn sqrt3 stod A store ext int d0 c0 css C D (ne_outer _ _ NE) F) as (new & b & bs & E & F0 & FS).
  { intros cs I. apply (ne_holes _ _ NE), in_map, I. }
  exists new, b, bs. split; [exact E|]. cbv zeta. assert (AF := all_fit _ _ _ _ _ F0 FS).
  split; [clear - AF; induction AF as [|x y l m [_ H] G IH]; constructor; assumption|].
  split; [clear - FS; induction FS as [|x y l m [T _] G IH]; [reflexivity|]; cbn [map length repeat]; rewrite T, IH; reflexivity|].
  assert (PD := built_proper _ _ _ _ _ F0 FS NE). split; [exact PD|].
  assert (W := built_winding _ _ _ _ _ F0 FS NE). split; [exact W|].
  split.
  { intros p CL. destruct (C56_domain _ (pd_exterior _ PD) (pd_simple _ PD)) as [_ T]. rewrite (T p CL).
    destruct (W p) as [(X & Y)|(X & Y)]; rewrite X.
    - split; [intros _; exact Y|reflexivity].
    - split; [discriminate|]. intros [Z1 Z2]. exfalso. destruct Y as [Y|(cs & Y1 & Y2)]; [contradiction|exact (Y2 (Z2 cs Y1))]. }
  split.
  { unfold domain_area, domain_of. cbn [map fold_left fst snd bd_area]. rewrite area_from, (ar_area _ _ _ _ (proj1 F0)).
    assert (G : fold_left (fun x b => x + bd_area b) (map (fun b => Bd (fst b) (created (store ++ new) (snd b)) (el_area (snd b))) bs) 0 == - total css).
    { clear - FS. induction FS as [|x y l m [T [H _]] G IH]; [reflexivity|]. cbn [map fold_left bd_area]. rewrite area_from, IH, (ar_area _ _ _ _ H), T. cbn [total fold_right]. fold (total m). ring. }
    rewrite G. cbn [fst]. ring. }
  intros SH. apply (C58_proper _ _ (map (fun x => el_area (snd x)) ((EXTERIOR, b) :: bs))).
  - rewrite !map_length. reflexivity.
  - assert (X : map (fun x => coords (store_pos (store ++ new)) (fst x) (snd x)) (combine (map (fun b => VB (fst b) (el_edges (snd b))) ((EXTERIOR, b) :: bs)) (map (fun x => el_area (snd x)) ((EXTERIOR, b) :: bs))) = domain_of (store ++ new) ((EXTERIOR, b) :: bs)).
    { generalize ((EXTERIOR, b) :: bs). intros l. induction l as [|x l IH]; [reflexivity|]. cbn [map combine]. rewrite IH. reflexivity. }
    rewrite X. exact PD.
  - intros v I. apply in_map_iff in I. destruct I as (x & <- & I). destruct (f2_in _ _ _ _ AF I) as (cs & _ & H & _). cbn [vb_edges]. rewrite (ar_ids _ _ _ _ H). apply seq_NoDup.
  - intros v I. apply in_map_iff in I. destruct I as (x & <- & I). destruct (f2_in _ _ _ _ AF I) as (cs & _ & H & _). cbn [vb_edges].
    destruct (ar_ring _ _ _ _ H) as (vs & V1 & _ & (_ & V3 & _)).
    assert (ON : forall u, on_front (el_edges (snd x)) u -> In u vs).
    { intros u (e & I1 & I2). assert (I3 : In (be_v1 e, be_v2 e) (ring_edges vs)) by (rewrite <- V1; unfold ends; apply in_map_iff; exists e; split; [reflexivity|exact I1]).
      destruct (DomCheckProps.ring_in _ _ _ I3). destruct I2 as [<-|<-]; assumption. }
    intros u w U0 W0 EQ. apply ON in U0, W0. clear - V3 U0 W0 EQ. induction vs as [|y vs IH]; [destruct U0|]. cbn [map] in V3. inversion V3 as [|? ? V4 V5]; subst. rewrite Forall_forall in V4.
    assert (R : forall z, veq z z) by (intros z; split; reflexivity).
    destruct U0 as [->|U0], W0 as [->|W0]; [reflexivity| | |exact (IH V5 U0 W0)]; exfalso.
    + apply (V4 (store_pos (store ++ new) w)); [apply in_map, W0|rewrite EQ; apply R].
    + apply (V4 (store_pos (store ++ new) u)); [apply in_map, U0|rewrite EQ; apply R].
  - assert (WH : whole (map (fun b => VB (fst b) (el_edges (snd b))) ((EXTERIOR, b) :: bs)) = flat_map (fun b => el_edges (snd b)) ((EXTERIOR, b) :: bs)).
    { unfold whole. generalize ((EXTERIOR, b) :: bs). intros l. induction l as [|x l IH]; [reflexivity|]. cbn [map flat_map vb_edges]. rewrite IH. reflexivity. }
    rewrite WH. exact SH.
Qed.

Lemma all_shapes cosn sinn sqrt3 stod store bt ds css : Forall2 (describes cosn sinn sqrt3 stod) ds css -> Forall2 (gives cosn sinn sqrt3 stod store bt) ds css.
Proof. intros F. induction F as [|d cs ds css D F IH]; constructor; [apply gv_shape, D|exact IH]. Qed.
(* A rectangular plate with round holes: what the file describes is properly nested if
   the discs are in the rectangle and do not touch, with a margin for the errors of the
   cosines and sines.  The domain is the plate without the holes up to the polygons that
   stand for the circles. *)
Theorem C64_plate : forall nearest cosn sinn sqrt3 stod store ext int d0 c0 css xy w h os (e : R), answers nearest ->
  chosen kinds ext = Some d0 -> describes cosn sinn sqrt3 stod d0 c0 -> places c0 = rect_shape xy w h -> 0 < w -> 0 < h ->
  Forall2 (describes cosn sinn sqrt3 stod) (interior_definitions int) css ->
  map places css = map (fun o => circle_shape cosn sinn (ho_xy o) (ho_r o) (ho_n o)) os ->
  (0 <= e)%R -> (forall o, In o os -> in_plate cosn sinn e xy w h o) -> ForallOrdPairs (holes_apart e) os ->
  exists new bs, init_boundaries nearest cosn sinn sqrt3 stod store ext int = Ok (store ++ new, bs) /\
    let dom := domain_of (store ++ new) bs in
    length bs = S (length os) /\ proper_domain dom /\
    (forall p, vx xy - (1 # 2) * w < vx p < vx xy + (1 # 2) * w -> vy xy - (1 # 2) * h < vy p < vy xy + (1 # 2) * h ->
       (forall o, In o os -> (reach e o ^ 2 < sq_distance p (ho_xy o))%R) -> winding p (domain_segments dom) == 1) /\
    (forall p o rho, In o os -> (0 <= rho < 1 - 8 / INR (ho_n o) ^ 2 - 4 * INR (ho_n o) * e)%R -> (sq_distance p (ho_xy o) <= (rho * radius o) ^ 2)%R ->
       winding p (domain_segments dom) == 0) /\
    (Rabs (Q2R (domain_area dom) - (Q2R w * Q2R h - discs_area os)) <= polygon_error e os)%R.
Proof.
  intros nearest cosn sinn sqrt3 stod store ext int d0 c0 css xy w h os e A C D PC W H F PS E0 IP AP.
  assert (NE := circles_nested cosn sinn e xy w h os E0 W H IP AP). rewrite <- PS, <- PC in NE.
  destruct (C64_domain nearest cosn sinn sqrt3 stod store ext int d0 c0 css A C (gv_shape _ _ _ _ _ _ _ _ D) (all_shapes _ _ _ _ _ _ _ _ F) NE) as (new & b & bs & E & R). cbv zeta in R. destruct R as (_ & R2 & R3 & R4 & _ & R6 & _).
  exists new, ((EXTERIOR, b) :: bs). split; [exact E|]. cbv zeta.
  split; [cbn [length]; f_equal; assert (X : length (map fst bs) = length css) by (rewrite R2; apply repeat_length); rewrite map_length in X; rewrite X, <- (map_length places css), PS; apply map_length|].
  split; [exact R3|].
  assert (PL : forall cs, In cs css -> exists o, In o os /\ places cs = circle_shape cosn sinn (ho_xy o) (ho_r o) (ho_n o)).
  { intros cs I. assert (J := in_map places _ _ I). rewrite PS in J. apply in_map_iff in J. destruct J as (o & J1 & J2). exists o. split; [exact J2|symmetry; exact J1]. }
  assert (RC := rect_convex xy w h W H).
  split.
  { intros p PX PY PO. destruct (R4 p) as [(Z & _)|(_ & [Z|(cs & I & Z)])]; [exact Z| |]; exfalso.
    - rewrite PC, (inside_convex _ RC ltac:(cbn; lia) p (rect_left xy w h p W H PX PY)) in Z. discriminate.
    - destruct (PL cs I) as (o & J & K). apply Z. rewrite K. exact (circle_outside cosn sinn o e p (ip_corners _ _ _ _ _ _ _ (IP o J)) (ip_radius _ _ _ _ _ _ _ (IP o J)) (ip_circle _ _ _ _ _ _ _ (IP o J)) (PO o J)). }
  split.
  { intros p o rho I [P0 P1] P2. destruct (R4 p) as [(_ & _ & Z)|(Z & _)]; [exfalso|exact Z]. destruct (IP o I) as [N R0 E3 T _ _].
    assert (J := in_map (fun o => circle_shape cosn sinn (ho_xy o) (ho_r o) (ho_n o)) _ _ I). rewrite <- PS in J. apply in_map_iff in J. destruct J as (cs & K & J). specialize (Z cs J). rewrite K in Z.
    rewrite inside_convex in Z; [discriminate| | |].
    - apply (circle_convex cosn sinn _ _ _ e N E0 E3 T). intros X. rewrite X in R0. discriminate.
    - rewrite shape_length. exact N.
    - intros e0 I0. assert (AX := apothem (ho_n o) N). apply (circle_left cosn sinn (ho_xy o) (ho_r o) (ho_n o) e N E0 E3 T p rho R0 P0); [Lra.lra|exact P2|exact I0]. }
  rewrite (Qeq_eqR _ _ R6), Q2R_minus, PC. destruct (C56_rectangle xy w h W H) as [_ AR].
  assert (AQ : Qabs.Qabs (signed_area (rect_shape xy w h)) == w * h) by (rewrite AR; apply Qabs.Qabs_pos, Qlt_le_weak, Qmult_lt_0_compat; assumption).
  rewrite (Qeq_eqR _ _ AQ), Q2R_mult.
  assert (TT : (discs_area os - polygon_error e os <= Q2R (total css) <= discs_area os + polygon_error e os)%R).
  { clear - PS IP E0. revert os PS IP. induction css as [|cs css IH]; intros [|o os] PS IP; try discriminate; cbn [total fold_right discs_area polygon_error].
    - replace (Q2R 0) with 0%R by (unfold Q2R; cbn; Lra.lra). Lra.lra.
    - cbn [map] in PS. injection PS as P1 P2. specialize (IH os P2 (fun x I => IP x (or_intror I))). fold (total css). fold (discs_area os). fold (polygon_error e os).
      rewrite Q2R_plus, P1. assert (HA := hole_area cosn sinn e xy w h o E0 (IP o (or_introl eq_refl))). Lra.lra. }
  apply abs_le. Lra.lra.
Qed.

(* ---------------- what is built in any case ---------------- *)
Lemma shape_extends nearest bt store b shape props colors store' l : set_shape nearest bt store b shape props colors = Ok (store', l) -> exists new, store' = store ++ new.
Proof.
  unfold set_shape. destruct (el_edges b); [|intros E; injection E as <- _; exists []; rewrite app_nil_r; reflexivity].
  intros E. exact (proj1 (create_ok _ _ _ _ _ _ _ _ E)).
Qed.
Lemma circle_extends nearest bt cosn sinn store b m xy r n s t store' l : set_shape_circle nearest bt cosn sinn store b m xy r n s t = Ok (store', l) -> exists new, store' = store ++ new.
Proof. unfold set_shape_circle. destruct (Nat.ltb n 3); [intros E; injection E as <- _; exists []; rewrite app_nil_r; reflexivity|apply shape_extends]. Qed.
Lemma bind_ok {A B} (x : outcome A) (f : A -> outcome B) y : obind x f = Ok y -> exists a, x = Ok a /\ f a = Ok y.
Proof. destruct x as [a| |]; cbn [obind]; try discriminate. intros E. exists a. split; [reflexivity|exact E]. Qed.
Lemma make_extends nearest cosn sinn sqrt3 stod bt store b d store' l : make nearest cosn sinn sqrt3 stod bt store b d = Ok (store', l) -> exists new, store' = store ++ new.
Proof.
  destruct d; cbn [make]; intros E; repeat (apply bind_ok in E; destruct E as (? & _ & E)); first [injection E as <- _; exists []; rewrite app_nil_r; reflexivity|eapply circle_extends; exact E|eapply shape_extends; exact E].
Qed.
Lemma add_extends nearest cosn sinn sqrt3 stod bt d store bds store' bds' : add nearest cosn sinn sqrt3 stod bt d (store, bds) = Ok (store', bds') ->
  exists new b, store' = store ++ new /\ bds' = bds ++ [(bt, b)].
Proof.
  unfold add. cbn [fst snd]. intros E. apply bind_ok in E. destruct E as ((s & l) & M & E). cbn [fst snd] in E. injection E as <- <-. destruct (make_extends _ _ _ _ _ _ _ _ _ _ _ M) as (new & ->). exists new, l. split; reflexivity.
Qed.
Lemma adds_extend nearest cosn sinn sqrt3 stod ds : forall store bds store' bds', add_all nearest cosn sinn sqrt3 stod ds (store, bds) = Ok (store', bds') ->
  exists new bs, store' = store ++ new /\ bds' = bds ++ bs /\ map fst bs = repeat INTERIOR (length ds).
Proof.
  induction ds as [|d ds IH]; intros store bds store' bds' E; cbn [add_all] in E; [injection E as <- <-; exists [], []; rewrite !app_nil_r; repeat split|].
  apply bind_ok in E. destruct E as ((s & l) & A & E). destruct (add_extends _ _ _ _ _ _ _ _ _ _ _ A) as (n1 & b & -> & ->). destruct (IH _ _ _ _ E) as (n2 & bs & -> & -> & M).
  exists (n1 ++ n2), ((INTERIOR, b) :: bs). rewrite <- !app_assoc. split; [reflexivity|]. split; [reflexivity|]. cbn [map fst length repeat]. rewrite M. reflexivity.
Qed.
(* the vertices of the file stay in front, at the most one exterior boundary, then one
   boundary for each interior definition that is taken *)
Theorem C64_built : forall nearest cosn sinn sqrt3 stod store ext int store' bds, init_boundaries nearest cosn sinn sqrt3 stod store ext int = Ok (store', bds) ->
  (exists new, store' = store ++ new) /\
  map fst bds = match chosen kinds ext with Some _ => [EXTERIOR] | None => [] end ++ repeat INTERIOR (length (interior_definitions int)).
Proof.
  intros nearest cosn sinn sqrt3 stod store ext int store' bds E. unfold init_boundaries, init_exterior in E. apply bind_ok in E. destruct E as ((s & l) & A & E).
  destruct (chosen kinds ext) as [d|].
  - destruct (add_extends _ _ _ _ _ _ _ _ _ _ _ A) as (n1 & b & -> & ->). destruct (adds_extend _ _ _ _ _ _ _ _ _ _ E) as (n2 & bs & -> & -> & M). split; [exists (n1 ++ n2); rewrite app_assoc; reflexivity|]. cbn [app map fst]. rewrite M. reflexivity.
  - injection A as <- <-. destruct (adds_extend _ _ _ _ _ _ _ _ _ _ E) as (n2 & bs & -> & -> & M). split; [exists n2; reflexivity|]. exact M.
Qed.

(* every interior definition is taken if the reader accepts all of them; those of one
   kind stay in the order of the file *)
Lemma accepted_all gs : (forall g, In g gs -> gv_ok g = true) -> accepted gs = map gv_def gs.
Proof. induction gs as [|[d ok] gs IH]; intros H; [reflexivity|]. cbn [accepted map gv_def]. assert (X := H _ (or_introl eq_refl)). cbn [gv_ok] in X. rewrite X, IH; [reflexivity|]. intros g I. apply H. right. exact I. Qed.
Lemma kind_refl k : kind_eqb k k = true. Proof. destruct k; reflexivity. Qed.
Lemma kind_same a b : kind_eqb a b = true -> a = b. Proof. destruct a, b; cbn; congruence. Qed.
Lemma flat_perm g gs ks : NoDup ks -> In (kind_of (gv_def g)) ks ->
  Permutation (flat_map (fun k => of_kind k (g :: gs)) ks) (g :: flat_map (fun k => of_kind k gs) ks).
Proof.
  induction ks as [|k ks IH]; intros N I; [destruct I|]. inversion N as [|? ? N1 N2]; subst. cbn [flat_map]. unfold of_kind at 1. cbn [filter]. fold (of_kind k gs).
  destruct (kind_eqb (kind_of (gv_def g)) k) eqn:K.
  - apply kind_same in K. subst k. cbn [app]. constructor. apply Permutation_app_head. assert (X : flat_map (fun k => of_kind k (g :: gs)) ks = flat_map (fun k => of_kind k gs) ks); [|rewrite X; reflexivity].
    clear - N1. induction ks as [|k ks IH]; [reflexivity|]. cbn [flat_map]. rewrite IH by (intros J; apply N1; right; exact J). f_equal. unfold of_kind. cbn [filter].
    destruct (kind_eqb (kind_of (gv_def g)) k) eqn:K; [apply kind_same in K; subst; exfalso; apply N1; left; reflexivity|reflexivity].
  - destruct I as [I|I]; [subst k; rewrite kind_refl in K; discriminate|]. rewrite (IH N2 I). symmetry. apply Permutation_middle.
Qed.
Lemma kinds_nodup : NoDup kinds.
Proof. unfold kinds. repeat constructor; cbn; intuition discriminate. Qed.
Theorem C64_taken : forall gs, (forall g, In g gs -> gv_ok g = true) ->
  Permutation (interior_definitions gs) (map gv_def gs) /\
  (forall k, filter (fun d => kind_eqb (kind_of d) k) (interior_definitions gs) = filter (fun d => kind_eqb (kind_of d) k) (map gv_def gs)).
Proof.
  intros gs H.
  assert (E : interior_definitions gs = map gv_def (flat_map (fun k => of_kind k gs) kinds)).
  { unfold interior_definitions. rewrite !flat_map_concat_map, concat_map, map_map. f_equal. apply map_ext. intros k. apply accepted_all. intros g I. apply H. unfold of_kind in I. apply filter_In in I. apply I. }
  split.
  - rewrite E. apply Permutation_map. clear. induction gs as [|g gs IH]; [cbn; constructor|]. rewrite flat_perm; [constructor; exact IH|exact kinds_nodup|]. destruct g as [[] ?]; cbn; tauto.
  - intros k. rewrite E. generalize kinds_nodup. assert (IK : In k kinds) by (destruct k; cbn; tauto). revert IK. generalize kinds. clear.
    assert (FM : forall f (l : list given), filter f (map gv_def l) = map gv_def (filter (fun g => f (gv_def g)) l)).
    { intros f l. induction l as [|g l IH]; [reflexivity|]. cbn [map filter]. destruct (f (gv_def g)); cbn [map]; rewrite IH; reflexivity. }
    intros ks I N. rewrite !FM. f_equal.
    assert (FF : forall k', filter (fun g => kind_eqb (kind_of (gv_def g)) k) (of_kind k' gs) = if kind_eqb k' k then of_kind k gs else []).
    { intros k'. unfold of_kind. induction gs as [|g gs IH]; [destruct (kind_eqb k' k); reflexivity|]. cbn [filter].
      destruct (kind_eqb (kind_of (gv_def g)) k') eqn:A.
      - apply kind_same in A. subst k'. cbn [filter]. rewrite IH. destruct (kind_eqb (kind_of (gv_def g)) k); reflexivity.
      - rewrite IH. destruct (kind_eqb k' k) eqn:B; [|reflexivity]. apply kind_same in B. subst k'. rewrite A. reflexivity. }
    induction ks as [|k' ks IH]; [destruct I|]. inversion N as [|? ? N1 N2]; subst. cbn [flat_map]. rewrite filter_app, FF.
    destruct (kind_eqb k' k) eqn:B.
    + apply kind_same in B. subst k'. assert (X : filter (fun g => kind_eqb (kind_of (gv_def g)) k) (flat_map (fun k' => of_kind k' gs) ks) = []); [|rewrite X, app_nil_r; reflexivity].
      clear - N1 FF. induction ks as [|k' ks IH]; [reflexivity|]. cbn [flat_map]. rewrite filter_app, FF, IH by (intros J; apply N1; right; exact J). destruct (kind_eqb k' k) eqn:B; [apply kind_same in B; subst; exfalso; apply N1; left; reflexivity|reflexivity].
    + destruct I as [I|I]; [subst k'; rewrite kind_refl in B; discriminate|]. cbn [app]. exact (IH I N2).
Qed.

(* coordinates with a negative colour are refused *)
Theorem C64_colour : forall nearest cosn sinn sqrt3 stod bt store b p (cs : list corner_data), length cs = pr_nrow p ->
  (forall j x y s r m, nth_error cs j = Some (V2 x y, (s, r), m) -> exists c, row_is p j [x; y; c; s; r] /\ int_of c m) ->
  (exists m, In m (colours cs) /\ (m < 0)%Z) -> make nearest cosn sinn sqrt3 stod bt store b (DCoords p) = Throw.
Proof.
  intros nearest cosn sinn sqrt3 stod bt store b p cs L H (m & I & N). cbn [make].
  assert (R : forall cs j, (forall i x y s r m, nth_error cs i = Some (V2 x y, (s, r), m) -> exists c, row_is p (j + i)%nat [x; y; c; s; r] /\ int_of c m) -> In m (colours cs) -> read_corners p (length cs) j = Throw).
  { clear - N. induction cs as [|[[[x y] [s r]] m'] cs IH]; intros j H I; [destruct I|]. cbn [length read_corners].
    destruct (H 0%nat x y s r m' eq_refl) as (c & RO & IO). rewrite Nat.add_0_r in RO.
    rewrite (entry_row p j _ 0 x RO eq_refl), (entry_row p j _ 1 y RO eq_refl), (entry_row p j _ 2 c RO eq_refl), (entry_row p j _ 3 s RO eq_refl), (entry_row p j _ 4 r RO eq_refl). cbn [obind]. rewrite (int_read c m' IO). cbn [obind].
    destruct (m' <? 0)%Z eqn:M; [reflexivity|]. destruct I as [I|I]; [cbn in I; subst m'; apply Z.ltb_ge in M; lia|].
    rewrite (IH (S j)); [reflexivity| |exact I]. intros i x0 y0 s0 r0 m0 G. replace (S j + i)%nat with (j + S i)%nat by lia. exact (H (S i) x0 y0 s0 r0 m0 G). }
  assert (X : read_corners p (pr_nrow p) 0 = Throw) by (rewrite <- L; apply (R cs 0%nat); [intros i x y s r m0 G; exact (H i x y s r m0 G)|exact I]).
  rewrite X. reflexivity.
Qed.

(* the quad layers of the file, in its order *)
Theorem C64_layers : forall ps ls, Forall2 (fun p l => exists x1 y1 x2 y2 c h g n, snd p = true /\ row_is (fst p) 0 [x1; y1; x2; y2; c; h; g] /\ int_of c n /\ l = LY (V2 x1 y1) (V2 x2 y2) n h g) ps ls ->
  init_quad_layers ps = Ok ls.
Proof.
  induction 1 as [|[p ok] l ps ls (x1 & y1 & x2 & y2 & c & h & g & n & O & R & I & ->) F IH]; [reflexivity|]. cbn [fst snd] in O, R. subst ok. cbn [init_quad_layers]. unfold read_layer.
  rewrite (entry_row p 0 _ 0 x1 R eq_refl), (entry_row p 0 _ 1 y1 R eq_refl), (entry_row p 0 _ 2 x2 R eq_refl), (entry_row p 0 _ 3 y2 R eq_refl), (entry_row p 0 _ 4 c R eq_refl), (entry_row p 0 _ 5 h R eq_refl), (entry_row p 0 _ 6 g R eq_refl).
  cbn [obind]. rewrite (int_read c n I). cbn [obind]. rewrite IH. reflexivity.
Qed.

(* ---------------- where the file and the domain differ ---------------- *)
From Coq Require Import Ascii String List.
From Verif Require Import Base CsvModel ParaProps.
Open Scope list_scope.
Open Scope Q_scope.
Definition whole_number (t : text) : option Q := option_map inject_Z (stoi t).
Definition fresh (ncol : nat) (content : list text) : para Q := PR (BO 0 (length content) 0) false ncol 1 (repeat 0 ncol).
Definition at_origin (n i : nat) : Q := 0.
(* values that are missing or are no numbers become -1: a rectangle without height is one of
   height 1, a colour that is no number is the colour -1; a circle without its number of
   corners has -1 of them, which is undefined outside and no memory inside *)
Definition rect_line : list text := [txt "Define interior rectangular boundary: red, 0, 0, 2"%string].
Definition circ_line : list text := [txt "Define exterior circular boundary: 1, 0, 0, 1"%string].
Theorem C64_missing_refuted :
  (exists p' store' l, query_vector Q whole_number (txt "Define interior rectangular boundary:"%string) (Some (- (1))) rect_line (fresh 7 rect_line) = Ok (p', true) /\
     make scan at_origin at_origin 1 whole_number INTERIOR [] (EL (bdry_orient INTERIOR) [] 0) (DRect p') = Ok (store', l) /\
     el_area l == - (2) /\ map be_col (el_edges l) = [-1; -1; -1; -1]%Z) /\
  (exists p', query_vector Q whole_number (txt "Define exterior circular boundary:"%string) (Some (- (1))) circ_line (fresh 7 circ_line) = Ok (p', true) /\
     forall nearest cosn sinn sqrt3 stod store b, make nearest cosn sinn sqrt3 stod EXTERIOR store b (DCirc p') = UB /\ make nearest cosn sinn sqrt3 stod INTERIOR store b (DCirc p') = Throw).
Proof.
  split; [do 3 eexists; split; [vm_compute; reflexivity|]; split; [vm_compute; reflexivity|]; split; vm_compute; reflexivity|].
  eexists. split; [vm_compute; reflexivity|]. intros. split; reflexivity.
Qed.
(* a definition that the reader does not accept: it and all of its kind behind it are left
   out without an error; the same for the lines of the quad layers *)
Definition two_holes : list text := map txt ["Define interior boundary:"; "0, 0, 1"; "1, 0, 1"; "0, 1, 1, 5, 5, 5"; "End interior boundary";
  "Define interior boundary:"; "4, 4, 1"; "5, 4, 1"; "4, 5, 1"; "End interior boundary"]%string.
Definition two_layers : list text := map txt ["Add quad layers: 0, 0, 0, 0, 3"; "Add quad layers: 0, 0, 0, 0, 3, 1, 1"]%string.
Theorem C64_dropped_refuted :
  (exists p1 p2, query_matrix Q whole_number 0 (txt "Define interior boundary:"%string) (txt "End interior boundary"%string) (Some (- (1))) two_holes (fresh 5 two_holes) = Ok (p1, false) /\
     query_matrix Q whole_number 0 (txt "Define interior boundary:"%string) (txt "End interior boundary"%string) (Some (- (1))) two_holes p1 = Ok (p2, true) /\
     pr_nrow p2 = 3%nat /\ interior_definitions [GV (DCoords p1) false; GV (DCoords p2) true] = []) /\
  (exists p1 p2, query_vector Q whole_number (txt "Add quad layers:"%string) None two_layers (fresh 7 two_layers) = Ok (p1, false) /\
     query_vector Q whole_number (txt "Add quad layers:"%string) None two_layers p1 = Ok (p2, true) /\
     (exists l, read_layer p2 = Ok l) /\ init_quad_layers [(p1, false); (p2, true)] = Ok []).
Proof.
  split; do 2 eexists; (split; [vm_compute; reflexivity|]); (split; [vm_compute; reflexivity|]).
  - split; vm_compute; reflexivity.
  - split; [eexists; vm_compute; reflexivity|reflexivity].
Qed.
Definition shape_of (vs : list Q) : para Q := PR (BO 0 1 0) true (length vs) 1 vs.
(* without an exterior definition that is accepted there is no exterior boundary; the
   check of the domain refuses it *)
Theorem C64_no_exterior : forall nearest cosn sinn sqrt3 stod store ext int store' bds pos, chosen kinds ext = None ->
  init_boundaries nearest cosn sinn sqrt3 stod store ext int = Ok (store', bds) ->
  check_domain_validity pos (map (fun b => VB (fst b) (el_edges (snd b))) bds) = Ok false.
Proof.
  intros nearest cosn sinn sqrt3 stod store ext int store' bds pos C E. destruct (C64_built _ _ _ _ _ _ _ _ _ _ E) as [_ M]. rewrite C in M. cbn [app] in M.
  assert (X : existsb vb_exterior (map (fun b : bdry_type * elist => VB (fst b) (el_edges (snd b))) bds) = false).
  { clear - M. revert M. generalize (length (interior_definitions int)). induction bds as [|b bds IH]; intros [|n] M; try discriminate; [reflexivity|]. cbn [map repeat] in M. injection M as T M. cbn [map existsb vb_exterior]. unfold vb_exterior at 1. cbn [vb_type]. rewrite T. cbn [orb]. exact (IH n M). }
  destruct bds as [|b bds]; [reflexivity|]. unfold check_domain_validity. cbn [map] in X |- *. rewrite X. reflexivity.
Qed.
Example C64_no_exterior_case : chosen kinds [GV (DCoords (shape_of [0])) false] = None /\ exists store' b,
  init_boundaries scan cos4 sin4 1 whole_number [] [GV (DCoords (shape_of [0])) false] [GV (DSquare (shape_of [1; 0; 0; 2; 1; 1])) true] = Ok (store', [(INTERIOR, b)]).
Proof. split; [reflexivity|]. do 2 eexists. vm_compute. reflexivity. Qed.
(* of several exterior definitions one is taken, by the order of the kinds; the others are
   left out without an error *)
Theorem C64_second_refuted : exists ext d, In d ext /\ gv_ok d = true /\ hd_error ext = Some d /\
  forall nearest cosn sinn sqrt3 stod store int, exists d', d' <> gv_def d /\
    init_boundaries nearest cosn sinn sqrt3 stod store ext int = init_boundaries nearest cosn sinn sqrt3 stod store [GV d' true] int.
Proof.
  exists [GV (DSquare (shape_of [1; 0; 0; 2; 1; 1])) true; GV (DRect (shape_of [1; 0; 0; 4; 4; 1; 1])) true], (GV (DSquare (shape_of [1; 0; 0; 2; 1; 1])) true).
  split; [left; reflexivity|]. split; [reflexivity|]. split; [reflexivity|]. intros. exists (DRect (shape_of [1; 0; 0; 4; 4; 1; 1])). split; [discriminate|reflexivity].
Qed.
(* a circle with less than three corners: a boundary without edges, and the check of the
   domain dereferences the end of its list *)
Theorem C64_few_refuted : exists ext, forall nearest cosn sinn sqrt3 stod store,
  init_boundaries nearest cosn sinn sqrt3 stod store ext [] = Ok (store, [(EXTERIOR, EL (bdry_orient EXTERIOR) [] 0)]) /\
  check_domain_validity (store_pos store) [VB EXTERIOR []] = UB.
Proof. exists [GV (DCirc (shape_of [1; 0; 0; 1; 2; 1; 1])) true]. intros. split; reflexivity. Qed.

(* ---------------- cases for the hypotheses ---------------- *)
Definition plate_file : list given := [GV (DRect (shape_of [1; 0; 0; 10; 10; 1; 1])) true].
Definition hole_file : list given := [GV (DCirc (shape_of [2; 3; 3; 1; 4; 1; 1])) true; GV (DCirc (shape_of [2; - (2); 0; 2; 4; 1; 1])) true].
Definition plate_holes : list hole := [HO (V2 3 3) 1 4; HO (V2 (- (2)) 0) 2 4].
Lemma row_of_shape vs : vs <> [] -> row_is (shape_of vs) 0 vs.
Proof.
  intros N i v E. unfold get_value, shape_of. cbn [pr_ncol pr_nrow pr_vals]. rewrite Nat.mul_0_l, Nat.mul_1_r. cbn [Nat.add].
  assert (L : (i < length vs)%nat) by (apply nth_error_Some; congruence). destruct (Nat.leb_spec (length vs) i); [lia|exact E].
Qed.
Example C64_plate_case : exists c0 css, answers scan /\ chosen kinds plate_file = Some (DRect (shape_of [1; 0; 0; 10; 10; 1; 1])) /\
  describes cos4 sin4 1 whole_number (DRect (shape_of [1; 0; 0; 10; 10; 1; 1])) c0 /\ places c0 = rect_shape (V2 0 0) 10 10 /\
  Forall2 (describes cos4 sin4 1 whole_number) (interior_definitions hole_file) css /\
  map places css = map (fun o => circle_shape cos4 sin4 (ho_xy o) (ho_r o) (ho_n o)) plate_holes /\
  (forall o, In o plate_holes -> in_plate cos4 sin4 0 (V2 0 0) 10 10 o) /\ ForallOrdPairs (holes_apart 0) plate_holes.
Proof.
  assert (NN : forall (x : Q) l, x :: l <> []) by (intros; discriminate).
  assert (A : answers scan) by exact (proj1 C63_circle_case). assert (NC := proj2 (proj2 C63_circle_case)).
  assert (I1 : int_of 1 1) by (repeat split; try lia; intros; try Lqa.lra; discriminate). assert (I2 : int_of 2 2) by (repeat split; try lia; intros; try Lqa.lra; discriminate). assert (I4 : int_of 4 (Z.of_nat 4)) by (repeat split; cbn; try lia; intros; try Lqa.lra; discriminate).
  assert (D0 := DomInSpec.ds_rect cos4 sin4 1 whole_number (shape_of [1; 0; 0; 10; 10; 1; 1]) 1 1 0 0 10 10 1 1 (row_of_shape _ (NN _ _)) I1).
  assert (D1 := DomInSpec.ds_circ cos4 sin4 1 whole_number (shape_of [2; 3; 3; 1; 4; 1; 1]) 2 2 3 3 1 4 4 1 1 (row_of_shape _ (NN _ _)) I2 I4 ltac:(lia)).
  assert (D2 := DomInSpec.ds_circ cos4 sin4 1 whole_number (shape_of [2; - (2); 0; 2; 4; 1; 1]) 2 2 (- (2)) 0 2 4 4 1 1 (row_of_shape _ (NN _ _)) I2 I4 ltac:(lia)).
  eexists. eexists. split; [exact A|]. split; [reflexivity|]. split; [exact D0|]. split; [reflexivity|]. split; [constructor; [exact D1|constructor; [exact D2|constructor]]|]. split; [reflexivity|].
  assert (Q : forall z, Q2R (inject_Z z) = IZR z) by (intros z; unfold Q2R, inject_Z; cbn; field).
  assert (Q0 := Q 0%Z). assert (Q1 := Q 1%Z). assert (Q2 := Q 2%Z). assert (Q3 := Q 3%Z). assert (Q10 := Q 10%Z). assert (Qm := Q (-2)%Z). unfold inject_Z in *.
  split.
  - intros o [<-|[<-|[]]]; constructor; cbn [ho_n ho_r ho_xy vx vy]; unfold reach, radius; cbn [ho_n ho_r ho_xy vx vy]; try lia; try reflexivity; try exact NC; try (cbn; Lra.lra);
      change (- (2)) with (-2 # 1); rewrite ?Q0, ?Q1, ?Q2, ?Q3, ?Q10, ?Qm; split; Lra.lra.
  - constructor; [constructor; [|constructor]|repeat constructor]. unfold holes_apart, reach, radius, sq_distance. cbn [ho_n ho_r ho_xy vx vy]. change (- (2)) with (-2 # 1). rewrite ?Q0, ?Q1, ?Q2, ?Q3, ?Q10, ?Qm. Lra.lra.
Qed.
(* a square hole whose corner is a vertex of the file, and the run on it *)
Example C64_domain_case : exists store' bds, init_boundaries scan cos4 sin4 1 whole_number [VI (V2 1 1) 7 7 0%N] plate_file
    [GV (DSquare (shape_of [3; 0; 0; 2; 1; 1])) true] = Ok (store', bds) /\
  length store' = 8%nat /\ map fst bds = [EXTERIOR; INTERIOR] /\ domain_area (domain_of store' bds) == 96 /\
  domain_inside (domain_of store' bds) (V2 3 2) = true /\ domain_inside (domain_of store' bds) (V2 0 (1 # 2)) = false.
Proof. do 2 eexists. split; [vm_compute; reflexivity|]. repeat split; vm_compute; reflexivity. Qed.
Example C64_layers_case : init_quad_layers [(shape_of [0; 0; 1; 0; 3; 1 # 2; 2], true)] = Ok [LY (V2 0 0) (V2 1 0) 3 (1 # 2) 2].
Proof. reflexivity. Qed.

(* ---------------- numbers and lists of edges ---------------- *)
(* a number in the file becomes an integer by leaving out what is behind the point; beyond
   the range of the integers the conversion is undefined *)
Theorem C64_conversion : forall q, (forall z, to_int q = Ok z <-> int_of q z) /\ (to_int q = UB <-> forall z, ~ int_of q z).
Proof.
  intros q. assert (T := truncated q). assert (X : (exists z, to_int q = Ok z /\ int_of q z) \/ (to_int q = UB /\ forall z, ~ int_of q z)).
  { unfold to_int. cbv zeta. destruct (((truncate q <? -2147483648) || (2147483647 <? truncate q))%Z) eqn:B; [right|left].
    - split; [reflexivity|]. intros z (I1 & I2 & I3). assert (E := int_one q _ z T (conj I1 I2)). rewrite E in B. apply orb_true_iff in B. destruct B as [B|B]; apply Z.ltb_lt in B; lia.
    - exists (truncate q). split; [reflexivity|]. apply orb_false_iff in B. destruct B as [B1 B2]. apply Z.ltb_ge in B1, B2. split; [apply T|]. split; [apply T|]. lia. }
  split.
  - intros z. split; [|apply int_read]. intros E. destruct X as [(z' & E' & I)|(E' & _)]; rewrite E in E'; [injection E' as ->; exact I|discriminate].
  - split.
    + intros E. destruct X as [(z & E' & _)|(_ & N)]; [rewrite E in E'; discriminate|exact N].
    + intros N. destruct X as [(z & _ & I)|(E & _)]; [destruct (N z I)|exact E].
Qed.
Example C64_conversion_case : int_of (- (1 # 2)) 0 /\ int_of (7 # 2) 3 /\ forall z, ~ int_of 4294967296 z.
Proof.
  split; [split; [|split]; [intros; exfalso; Lqa.lra|intros; unfold inject_Z; split; vm_compute; first [reflexivity|discriminate]|lia]|]. split; [split; [|split]; [intros; unfold inject_Z; split; vm_compute; first [reflexivity|discriminate]|intros; exfalso; Lqa.lra|lia]|].
  intros z (H & _ & B). destruct H as [_ H]; [discriminate|]. unfold Qlt, Qplus, inject_Z in H. cbn in H. lia.
Qed.

Definition edges_of (rows : list (Z * Z * Z)) : para Z := PR (BO 0 1 0) true 3 (length rows) (flat_map (fun r => [fst (fst r); snd (fst r); snd r]) rows).
Definition four : list vinfo := [VI (V2 0 0) 1 1 0%N; VI (V2 2 0) 1 1 0%N; VI (V2 2 2) 1 1 0%N; VI (V2 0 2) 1 1 0%N].
(* a list of edges is not turned: an exterior boundary that is listed clockwise is accepted
   by the check of the domain and has a negative area; shapes and coordinates are turned
   (C15_oriented) *)
Theorem C64_turned_refuted : exists store p, forall nearest cosn sinn sqrt3 stod, exists b,
  init_boundaries nearest cosn sinn sqrt3 stod store [GV (DEdges p) true] [] = Ok (store, [(EXTERIOR, b)]) /\
  check_domain_validity (store_pos store) [VB EXTERIOR (el_edges b)] = Ok true /\ domain_area (domain_of store [(EXTERIOR, b)]) == - (4) /\
  domain_inside (domain_of store [(EXTERIOR, b)]) (V2 1 1) = true /\ winding (V2 1 1) (domain_segments (domain_of store [(EXTERIOR, b)])) == - (1).
Proof.
  exists four, (edges_of [(0, 3, 1); (3, 2, 1); (2, 1, 1); (1, 0, 1)]%Z). intros. eexists. split; [vm_compute; reflexivity|]. repeat split; vm_compute; reflexivity.
Qed.
(* the vertex behind the last one: undefined for the exterior boundary, an error for an
   interior one *)
Theorem C64_edges_refuted : exists store p, forall nearest cosn sinn sqrt3 stod,
  init_boundaries nearest cosn sinn sqrt3 stod store [GV (DEdges p) true] [] = UB /\ init_boundaries nearest cosn sinn sqrt3 stod store [] [GV (DEdges p) true] = Throw.
Proof. exists four, (edges_of [(0, 1, 1); (1, 4, 1); (4, 0, 1)]%Z). intros. split; vm_compute; reflexivity. Qed.
(* the square of the vertices of the file around a hole that is given as a shape *)
Example C64_edges_case : exists c0 css, gives cos4 sin4 1 whole_number four EXTERIOR (DEdges (edges_of [(0, 1, 1); (1, 2, 5); (2, 3, 1); (3, 0, 1)]%Z)) c0 /\
  Forall2 (gives cos4 sin4 1 whole_number four INTERIOR) (interior_definitions [GV (DSquare (shape_of [2; 1; 1; 1; 1; 1])) true]) css /\ DomInSpec.nested (places c0) (map places css).
Proof.
  assert (NN : forall (x : Q) l, x :: l <> []) by (intros; discriminate).
  assert (I2 : int_of 2 2) by (repeat split; try lia; intros; try Lqa.lra; discriminate).
  assert (D1 := DomInSpec.ds_square cos4 sin4 1 whole_number (shape_of [2; 1; 1; 1; 1; 1]) 2 2 1 1 1 1 1 (row_of_shape _ (NN _ _)) I2).
  exists [(V2 0 0, (1, 1), 1%Z); (V2 2 0, (1, 1), 5%Z); (V2 2 2, (1, 1), 1%Z); (V2 0 2, (1, 1), 1%Z)]. eexists. split; [|split; [constructor; [apply gv_shape; exact D1|constructor]|]].
  - apply (gv_edges _ _ _ _ _ _ _ [0; 1; 2; 3]%nat); [reflexivity|reflexivity| | |vm_compute; reflexivity].
    + intros j v w c H1 H2. do 4 (destruct j as [|j]; [cbn in H1, H2; injection H1 as <- <-; injection H2 as <-; repeat split|]). destruct j; discriminate.
    + intros j v c H1 H2. do 4 (destruct j as [|j]; [cbn in H1, H2; injection H1 as <-; injection H2 as <-; split; [reflexivity|eexists; split; reflexivity]|]). destruct j; discriminate.
  - constructor.
    + apply simpleb_sound. vm_compute. reflexivity.
    + intros l [<-|[]]. apply simpleb_sound. vm_compute. reflexivity.
    + repeat constructor. apply ClearProps.separateb_sound. vm_compute. reflexivity.
    + intros l [<-|[]]. eexists. split; [left; reflexivity|]. vm_compute. discriminate.
    + repeat constructor.
Qed.

Print Assumptions C64_domain.
Print Assumptions C64_plate.
Print Assumptions C64_built.
Print Assumptions C64_taken.
Print Assumptions C64_colour.
Print Assumptions C64_layers.
Print Assumptions C64_missing_refuted.
Print Assumptions C64_dropped_refuted.
Print Assumptions C64_no_exterior.
Print Assumptions C64_second_refuted.
Print Assumptions C64_few_refuted.
Print Assumptions C64_conversion.
Print Assumptions C64_turned_refuted.
Print Assumptions C64_edges_refuted.
