(* C58: the check of a domain before meshing. *)
From Coq Require Import Lia Lqa Permutation.
From Verif Require Import Base Chain GeomModel GeomSpec UtilModel BdryModel BdrySpec AdvanceModel FrontSpec FrontProofs WindSpec WindProofs PolySpec PolyMain PolyProps ClearSpec ClearGeom
  ClearNest ClearStart ClearDomain ClearProps DomCheckModel DomCheckSpec DomCheckProofs.
Open Scope Q_scope.

(* Boundaries that are simple polygons without common points, with their edges in any
   order and any orientation, pass the check. *)
Theorem C58_accepts : forall pos bs, sound_domain pos bs -> check_domain_validity pos bs = Ok true.
Proof. exact sound_accepted. Qed.

(* In particular the domains for which C56 and C57 speak about the mesh. *)
Definition coords (pos : nat -> vec2) (b : vboundary) (area : Q) : boundary := Bd (vb_type b) (map (seg pos) (vb_edges b)) area.
Lemma map_inj_in {A B} (f : A -> B) l : forall m, (forall x y, In x l -> In y m -> f x = f y -> x = y) -> map f l = map f m -> l = m.
Proof.
  induction l as [|a l IH]; intros [|b m] H E; try discriminate; [reflexivity|]. cbn [map] in E. injection E as E1 E2. f_equal.
  - apply H; [left; reflexivity|left; reflexivity|exact E1].
  - apply IH; [|exact E2]. intros x y I J. apply H; right; assumption.
Qed.
Lemma ring_in {A} (l : list A) a b : In (a, b) (ring_edges l) -> In a l /\ In b l.
Proof.
  destruct l as [|x l]; [intros []|]. cbn [ring_edges]. intros I.
  assert (P : forall l x, In (a, b) (path_edges x l) -> In a (x :: l) /\ In b l).
  { clear. induction l as [|y l IH]; intros x I; [destruct I|]. cbn [path_edges] in I. destruct I as [I|I].
    - injection I as <- <-. split; left; reflexivity.
    - destruct (IH y I) as [X Y]. split; right; assumption. }
  destruct (P _ _ I) as [X Y]. rewrite in_app_iff in Y. split.
  - destruct X as [X|X]; [left; exact X|]. rewrite in_app_iff in X. destruct X as [X|[X|[]]]; [right; exact X|left; exact X].
  - destruct Y as [Y|[Y|[]]]; [right; exact Y|left; exact Y].
Qed.
Lemma coords_polygon pos es l : map (seg pos) es = ring_edges l -> simple_polygon l ->
  (forall u v, on_front es u -> on_front es v -> pos u = pos v -> u = v) -> polygon_of pos es (map be_v1 es).
Proof.
  intros E S INJ. assert (V : map pos (map be_v1 es) = l).
  { rewrite map_map, <- (ring_starts l), <- E, map_map. reflexivity. }
  split; [|rewrite V; exact S].
  assert (X : ends es = ring_edges (map be_v1 es)); [|rewrite X; apply Permutation_refl].
  apply (map_inj_in (fun p => (pos (fst p), pos (snd p)))).
  - intros [a b] [c d] I J Z. cbn [fst snd] in Z. injection Z as Z1 Z2. unfold ends in I. apply in_map_iff in I. destruct I as (e & I & Ie). injection I as <- <-.
    apply ring_in in J. destruct J as [Jc Jd]. apply in_map_iff in Jc, Jd. destruct Jc as (f & <- & If_), Jd as (g & <- & Ig).
    f_equal; apply INJ; try assumption; [exists e|exists f|exists e|exists g]; split; try assumption; tauto.
  - rewrite <- ring_map, V, <- E. unfold ends. rewrite map_map. reflexivity.
Qed.
Theorem C58_proper : forall pos bs areas, length areas = length bs ->
  proper_domain (map (fun x => coords pos (fst x) (snd x)) (combine bs areas)) ->
  (forall b, In b bs -> NoDup (map be_id (vb_edges b))) ->
  (forall b, In b bs -> forall u v, on_front (vb_edges b) u -> on_front (vb_edges b) v -> pos u = pos v -> u = v) ->
  (forall e f, In e (whole bs) -> In f (whole bs) ->
    sharp (det (pos (be_v1 e)) (pos (be_v2 e)) (pos (be_v1 f))) /\ sharp (det (pos (be_v1 e)) (pos (be_v2 e)) (pos (be_v2 f)))) ->
  check_domain_validity pos bs = Ok true.
Proof.
  intros pos bs areas LEN PD IDS INJ SH.
  assert (AT : forall b, In b bs -> exists a, In (coords pos b a) (map (fun x => coords pos (fst x) (snd x)) (combine bs areas))).
  { clear - LEN. revert areas LEN. induction bs as [|c bs IH]; intros [|a areas] LEN b I; try discriminate; [destruct I|]. cbn [combine map fst snd].
    destruct I as [->|I]; [exists a; left; reflexivity|]. destruct (IH areas ltac:(cbn in LEN; lia) b I) as (x & X). exists x. right; exact X. }
  apply C58_accepts. constructor; [| | | |exact SH].
  - destruct (pd_exterior _ PD) as (l1 & e & l2 & E & T & _).
    assert (I : In e (map (fun x => coords pos (fst x) (snd x)) (combine bs areas))) by (rewrite E; apply in_or_app; right; left; reflexivity).
    apply in_map_iff in I. destruct I as ([b a] & <- & I). exists b. split; [apply in_combine_l in I; exact I|exact T].
  - exact IDS.
  - intros b I. destruct (AT b I) as (a & Ia). destruct (pd_simple _ PD _ Ia) as (l & E & S & _). exists (map be_v1 (vb_edges b)).
    apply (coords_polygon pos _ l E S), INJ, I.
  - assert (F := pd_separate _ PD). clear - F LEN. revert areas F LEN. induction bs as [|c bs IH]; intros [|a areas] F LEN; try discriminate; [constructor|].
    cbn [combine map fst snd] in F. inversion F as [|? ? F1 F2]; subst. constructor; [|apply (IH areas); [exact F2|cbn in LEN; lia]].
    rewrite Forall_forall in *. intros b I.
    assert (X : exists x, In (b, x) (combine bs areas)).
    { clear - I LEN. cbn in LEN. injection LEN as LEN. revert areas LEN. induction bs as [|d bs IH]; intros [|y areas] LEN; try discriminate; [destruct I|].
      destruct I as [->|I]; [exists y; left; reflexivity|]. destruct (IH I areas ltac:(cbn in LEN; lia)) as (x & X). exists x. right; exact X. }
    destruct X as (x & X). apply (F1 (coords pos b x)). apply (in_map (fun x => coords pos (fst x) (snd x)) _ (b, x) X).
Qed.

(* Acceptance means: there is an exterior boundary, every boundary contains a closed
   walk through its first edge, and edges whose midpoints are within reach of each
   other touch at ends only or are the same segment. *)
Lemma linked_route e l stop : linked e l stop -> route (be_v1 e) (be_v1 stop) (e :: l).
Proof. revert e. induction l as [|f l IH]; intros e H; cbn [linked] in H; cbn [route]; [tauto|]. destruct H as [H1 H2]. split; [reflexivity|]. rewrite H1. exact (IH f H2). Qed.
Theorem C58_accepted_partial : forall pos bs, check_domain_validity pos bs = Ok true ->
  (forall b, In b bs -> NoDup (map be_id (vb_edges b))) ->
  (exists b, In b bs /\ vb_type b = EXTERIOR) /\
  (forall b, In b bs -> exists e l, hd_error (vb_edges b) = Some e /\ route (be_v1 e) (be_v1 e) (e :: l) /\ (forall f, In f l -> In f (vb_edges b)) /\
     (length l < length (vb_edges b))%nat) /\
  (forall i j b c e f, nth_error bs i = Some b -> nth_error bs j = Some c -> In e (vb_edges b) -> In f (vb_edges c) ->
     i <> j \/ (i = j /\ be_id e <> be_id f /\ ~ consecutive e f) ->
     ~ veq (pos (be_v1 e)) (pos (be_v2 e)) -> ~ veq (pos (be_v1 f)) (pos (be_v2 f)) ->
     sharp (det (pos (be_v1 e)) (pos (be_v2 e)) (pos (be_v1 f))) -> sharp (det (pos (be_v1 e)) (pos (be_v2 e)) (pos (be_v2 f))) ->
     sharp (det (pos (be_v1 f)) (pos (be_v2 f)) (pos (be_v1 e))) -> sharp (det (pos (be_v1 f)) (pos (be_v2 f)) (pos (be_v2 e))) ->
     reached (pos (be_v1 e)) (pos (be_v2 e)) (pos (be_v1 f)) (pos (be_v2 f)) ->
     ends_only (pos (be_v1 e)) (pos (be_v2 e)) (pos (be_v1 f)) (pos (be_v2 f)) \/
     (veq (pos (be_v1 e)) (pos (be_v1 f)) /\ veq (pos (be_v2 e)) (pos (be_v2 f))) \/
     (veq (pos (be_v1 e)) (pos (be_v2 f)) /\ veq (pos (be_v2 e)) (pos (be_v1 f)))).
Proof.
  intros pos bs H D. destruct (accepted_parts pos bs H) as (X & T & C). split; [exact X|]. split.
  - intros b I. destruct (traversable_all bs T b I) as (e & r & E & R). unfold QLayerModel.is_traversable in R.
    destruct (reaches_path (vb_edges b) e _ e R) as (l & L1 & L2 & L3); [rewrite E; left; reflexivity|apply D, I|].
    exists e, l. split; [rewrite E; reflexivity|]. split; [exact (linked_route _ _ _ L1)|]. split; [exact L2|]. rewrite E in *. cbn [length] in *. lia.
  - assert (NC : forall k i b, nth_error bs i = Some b -> In (k + i, b)%nat (combine (seq k (length bs)) bs)).
    { clear. induction bs as [|c bs IH]; intros k [|i] b H; try discriminate; cbn [nth_error length seq combine] in *.
      - injection H as <-. left. f_equal. lia.
      - right. replace (k + S i)%nat with (S k + i)%nat by lia. apply IH, H. }
    intros i j b c e f Hi Hj Ie If_ N P1 P2 S1 S2 S3 S4 R.
    apply (accepted_pairs pos bs i j b c e f C D (NC 0%nat i b Hi) (NC 0%nat j c Hj) Ie If_); try assumption.
    destruct N as [N|(E & N & K)]; [left; exact N|right]. subst j. split; [congruence|]. split; assumption.
Qed.

(* The check never throws; it reads from an empty container exactly when a boundary
   without edges comes before any boundary that fails. *)
Theorem C58_outcome : forall pos bs, check_domain_validity pos bs <> Throw /\
  (check_domain_validity pos bs = UB <->
   (exists b, In b bs /\ vb_type b = EXTERIOR) /\ exists l1 b l2, bs = l1 ++ b :: l2 /\ all_traversable l1 = Ok true /\ vb_edges b = []) /\
  ((forall b, In b bs -> vb_edges b <> []) -> exists r, check_domain_validity pos bs = Ok r).
Proof.
  intros pos bs. assert (NT := traversable_no_throw bs).
  assert (EX : existsb vb_exterior bs = true <-> exists b, In b bs /\ vb_type b = EXTERIOR).
  { rewrite existsb_exists. split; intros (b & I & T); exists b; (split; [exact I|]); unfold vb_exterior in *; destruct (vb_type b); congruence. }
  assert (U : check_domain_validity pos bs = UB <-> existsb vb_exterior bs = true /\ all_traversable bs = UB).
  { unfold check_domain_validity. destruct bs as [|c r]; [split; [discriminate|intros [Z _]; discriminate]|]. destruct (existsb vb_exterior (c :: r)); cbn [negb].
    - destruct (all_traversable (c :: r)) as [t| |]; cbn [obind]; [destruct t; split; intros Z; try discriminate; destruct Z; discriminate|tauto|exfalso; apply NT; reflexivity].
    - split; [discriminate|intros [Z _]; discriminate]. }
  assert (NTH : check_domain_validity pos bs <> Throw).
  { unfold check_domain_validity. destruct bs as [|c r]; [discriminate|]. destruct (negb _); [discriminate|].
    destruct (all_traversable (c :: r)) as [t| |]; cbn [obind]; [destruct (negb t); discriminate|discriminate|contradiction]. }
  split; [exact NTH|]. split; [rewrite U, EX, traversable_ub; reflexivity|].
  intros NE. destruct (check_domain_validity pos bs) as [r| |] eqn:Q; [exists r; reflexivity| |contradiction].
  exfalso. destruct (proj1 U eq_refl) as [_ Z]. apply traversable_ub in Z. destruct Z as (l1 & b & l2 & -> & _ & Z). apply (NE b); [apply in_or_app; right; left; reflexivity|exact Z].
Qed.

(* ---------------- what the check lets through ---------------- *)
Definition place (l : list vec2) (i : nat) : vec2 := nth i l (V2 0 0).
Definition loop_edges (k : nat) (vs : list nat) : list bedge :=
  map (fun x => BE (fst x) (fst (snd x)) (snd (snd x)) 0%Z 0%N) (combine (seq k (length vs)) (ring_edges vs)).

(* 1: boundaries that cross each other *)
Definition cross_pos : nat -> vec2 := place [V2 0 (-9); V2 10 (-9); V2 10 0; V2 0 0; V2 1 (-1); V2 (-9) (-1); V2 (-9) 9; V2 1 9].
Definition cross_domain : list vboundary := [VB EXTERIOR (loop_edges 0 [0; 1; 2; 3]%nat); VB INTERIOR (loop_edges 4 [4; 5; 6; 7]%nat)].
Theorem C58_crossing_refuted : exists pos bs b c e f s t, check_domain_validity pos bs = Ok true /\
  nth_error bs 0 = Some b /\ nth_error bs 1 = Some c /\ In e (vb_edges b) /\ In f (vb_edges c) /\ 0 < s < 1 /\ 0 < t < 1 /\
  veq (on_seg (pos (be_v1 e)) (pos (be_v2 e)) s) (on_seg (pos (be_v1 f)) (pos (be_v2 f)) t).
Proof.
  exists cross_pos, cross_domain. do 2 eexists. exists (BE 2 2 3 0 0), (BE 7 7 4 0 0), (9 # 10), (9 # 10).
  split; [vm_compute; reflexivity|]. split; [reflexivity|]. split; [reflexivity|]. split; [vm_compute; tauto|]. split; [vm_compute; tauto|].
  split; [split; reflexivity|]. split; [split; reflexivity|]. split; vm_compute; reflexivity.
Qed.
(* 2: a boundary that is not closed; only the walk from its first edge is checked *)
Definition tail_pos : nat -> vec2 := place [V2 0 0; V2 4 0; V2 0 4; V2 (-1) 7].
Definition tail_domain : list vboundary := [VB EXTERIOR (loop_edges 0 [0; 1; 2]%nat ++ [BE 3 2 3 0 0])].
Theorem C58_closed_refuted : exists pos bs, check_domain_validity pos bs = Ok true /\
  ~ closed_curves (map (seg pos) (whole bs)).
Proof.
  exists tail_pos, tail_domain. split; [vm_compute; reflexivity|]. intros H. specialize (H (V2 (-1) 7)). vm_compute in H. discriminate.
Qed.
(* 3: one boundary of two closed curves, the second of which is not walked *)
Definition two_pos : nat -> vec2 := place [V2 0 0; V2 4 0; V2 0 4; V2 5 5; V2 9 5; V2 5 9].
Definition two_domain : list vboundary := [VB EXTERIOR (loop_edges 0 [0; 1; 2]%nat ++ loop_edges 3 [3; 4; 5]%nat)].
Theorem C58_connected_refuted : exists pos bs b e f, check_domain_validity pos bs = Ok true /\ bs = [b] /\ In e (vb_edges b) /\ In f (vb_edges b) /\
  forall l, (forall g, In g l -> In g (vb_edges b)) -> ~ route (be_v1 e) (be_v1 f) l.
Proof.
  exists two_pos, two_domain. eexists. exists (BE 0 0 1 0 0), (BE 3 3 4 0 0). split; [vm_compute; reflexivity|]. split; [reflexivity|].
  split; [vm_compute; tauto|]. split; [vm_compute; tauto|]. cbn [be_v1].
  assert (X : forall l a, (forall g, In g l -> In g (loop_edges 0 [0; 1; 2]%nat ++ loop_edges 3 [3; 4; 5]%nat)) -> (a < 3)%nat -> ~ route a 3 l).
  { induction l as [|g l IH]; intros a H A R; cbn [route] in R; [lia|]. destruct R as [R1 R2].
    apply (IH (be_v2 g)); [intros h J; apply H; right; exact J| |exact R2].
    assert (J := H g (or_introl eq_refl)). cbn in J. repeat (destruct J as [<-|J]; [cbn in *; lia|]). destruct J. }
  intros l H. apply X; [exact H|lia].
Qed.
(* 4: consecutive edges that overlap *)
Definition fold_pos : nat -> vec2 := place [V2 0 0; V2 4 0; V2 1 0; V2 1 4].
Definition fold_domain : list vboundary := [VB EXTERIOR (loop_edges 0 [0; 1; 2; 3]%nat)].
Theorem C58_overlap_refuted : exists pos bs b e f s t, check_domain_validity pos bs = Ok true /\ bs = [b] /\ In e (vb_edges b) /\ In f (vb_edges b) /\
  be_id e <> be_id f /\ 0 < s < 1 /\ 0 < t < 1 /\ veq (on_seg (pos (be_v1 e)) (pos (be_v2 e)) s) (on_seg (pos (be_v1 f)) (pos (be_v2 f)) t).
Proof.
  exists fold_pos, fold_domain. eexists. exists (BE 0 0 1 0 0), (BE 1 1 2 0 0), (1 # 2), (2 # 3).
  split; [vm_compute; reflexivity|]. split; [reflexivity|]. split; [vm_compute; tauto|]. split; [vm_compute; tauto|]. split; [discriminate|].
  split; [split; reflexivity|]. split; [split; reflexivity|]. split; vm_compute; reflexivity.
Qed.
(* 5: the exterior boundary once more as a hole: nothing is left to mesh *)
Definition twice_pos : nat -> vec2 := place [V2 0 0; V2 4 0; V2 0 4; V2 0 0; V2 0 4; V2 4 0].
Definition twice_domain : list vboundary := [VB EXTERIOR (loop_edges 0 [0; 1; 2]%nat); VB INTERIOR (loop_edges 3 [3; 4; 5]%nat)].
Theorem C58_empty_refuted : exists pos bs, check_domain_validity pos bs = Ok true /\ bs <> [] /\ forall z, winding z (map (seg pos) (whole bs)) == 0.
Proof.
  exists twice_pos, twice_domain. split; [vm_compute; reflexivity|]. split; [discriminate|]. intros z.
  unfold winding, whole, twice_domain, twice_pos, place, loop_edges, seg. cbn [flat_map vb_edges app length seq ring_edges path_edges combine map fst snd be_v1 be_v2 nth esum].
  rewrite (crossing_antisym z (V2 0 4) (V2 4 0)), (crossing_antisym z (V2 0 0) (V2 0 4)), (crossing_antisym z (V2 4 0) (V2 0 0)). ring.
Qed.
(* 6: a hole outside of the exterior boundary; 7: an exterior boundary with the wrong
   orientation *)
Definition out_pos : nat -> vec2 := place [V2 0 0; V2 4 0; V2 0 4; V2 5 5; V2 5 9; V2 9 5].
Definition out_domain : list vboundary := [VB EXTERIOR (loop_edges 0 [0; 1; 2]%nat); VB INTERIOR (loop_edges 3 [3; 4; 5]%nat)].
Theorem C58_nesting_refuted : (exists pos bs z, check_domain_validity pos bs = Ok true /\ sound_domain pos bs /\ winding z (map (seg pos) (whole bs)) == - (1)) /\
  (exists pos bs b, check_domain_validity pos bs = Ok true /\ bs = [b] /\ vb_type b = EXTERIOR /\ enclosed pos (vb_edges b) < 0).
Proof.
  split.
  - exists out_pos, out_domain, (V2 6 6). split; [vm_compute; reflexivity|]. split; [|vm_compute; reflexivity].
    constructor.
    + eexists. split; [left; reflexivity|reflexivity].
    + intros b [<-|[<-|[]]]; repeat constructor; cbn; lia.
    + intros b [<-|[<-|[]]]; [exists [0; 1; 2]%nat|exists [3; 4; 5]%nat]; (split; [apply Permutation_refl|apply simpleb_sound; vm_compute; reflexivity]).
    + repeat constructor. apply separateb_sound. vm_compute. reflexivity.
    + intros e f I J. cbn in I, J. repeat (destruct I as [<-|I]; [|]); try contradiction; repeat (destruct J as [<-|J]; [split; apply sharpb_sound; vm_compute; reflexivity|]); contradiction.
  - exists (place [V2 0 0; V2 0 4; V2 4 0]), [VB EXTERIOR (loop_edges 0 [0; 1; 2]%nat)]. eexists. split; [vm_compute; reflexivity|]. split; [reflexivity|]. split; [reflexivity|vm_compute; reflexivity].
Qed.
(* 8: a boundary without edges *)
Theorem C58_empty_boundary_refuted : exists pos bs, check_domain_validity pos bs = UB.
Proof. exists (place []), [VB EXTERIOR []]. reflexivity. Qed.

(* ---------------- a case for the hypotheses ---------------- *)
(* a square frame; the edges of the outer square are not in the order of the walk *)
Definition ring_pos : nat -> vec2 := place (frame_out ++ frame_in).
Definition ring_domain : list vboundary :=
  [VB INTERIOR (loop_edges 4 [4; 5; 6; 7]%nat); VB EXTERIOR [BE 2 2 3 0 0; BE 0 0 1 0 0; BE 3 3 0 0 0; BE 1 1 2 0 0]].
Example C58_ring_case : sound_domain ring_pos ring_domain /\ length (whole ring_domain) = 8%nat /\
  (forall e f, In e (whole ring_domain) -> In f (whole ring_domain) -> be_id e <> be_id f ->
    reached (ring_pos (be_v1 e)) (ring_pos (be_v2 e)) (ring_pos (be_v1 f)) (ring_pos (be_v2 f))) /\
  check_domain_validity ring_pos [VB INTERIOR (loop_edges 4 [4; 5; 6; 7]%nat)] = Ok false /\
  check_domain_validity (place [V2 0 0; V2 4 4; V2 4 0; V2 0 4]) [VB EXTERIOR (loop_edges 0 [0; 1; 2; 3]%nat)] = Ok false /\
  check_domain_validity ring_pos [VB EXTERIOR [BE 0 0 1 0 0; BE 1 1 2 0 0]] = Ok false.
Proof.
  assert (SD : sound_domain ring_pos ring_domain).
  { constructor.
    - eexists. split; [right; left; reflexivity|reflexivity].
    - intros b [<-|[<-|[]]]; cbn; repeat constructor; cbn; lia.
    - intros b [<-|[<-|[]]]; [exists [4; 5; 6; 7]%nat; split; [apply Permutation_refl|apply simpleb_sound; vm_compute; reflexivity]|].
      exists [0; 1; 2; 3]%nat. split; [|apply simpleb_sound; vm_compute; reflexivity]. cbn.
      apply (Permutation_trans (l' := [(0, 1); (2, 3); (3, 0); (1, 2)]%nat)); [apply perm_swap|]. constructor.
      apply Permutation_sym, (Permutation_cons_app [(2, 3); (3, 0)]%nat []). apply Permutation_refl.
    - repeat constructor. apply separateb_sound. vm_compute. reflexivity.
    - intros e f I J. cbn in I, J. repeat (destruct I as [<-|I]; [|]); try contradiction; repeat (destruct J as [<-|J]; [split; apply sharpb_sound; vm_compute; reflexivity|]); contradiction. }
  split; [exact SD|]. split; [reflexivity|]. split.
  - intros e f I J N. left. unfold whole, ring_domain in I, J. cbn [flat_map] in I, J. rewrite app_nil_r in I, J. apply in_app_iff in I, J.
    set (b := VB INTERIOR (loop_edges 4 [4; 5; 6; 7]%nat)) in *. set (c := VB EXTERIOR [BE 2 2 3 0 0; BE 0 0 1 0 0; BE 3 3 0 0 0; BE 1 1 2 0 0]) in *.
    assert (SEP := sd_separate _ _ SD). inversion SEP as [|? ? F _]; subst. inversion F as [|? ? F1 _]; subst.
    destruct (sd_polygon _ _ SD b (or_introl eq_refl)) as (vs & PB). destruct (sd_polygon _ _ SD c (or_intror (or_introl eq_refl))) as (ws & PC).
    destruct I as [I|I], J as [J|J].
    + exact (ring_apart ring_pos (vb_edges b) vs PB e f I J N).
    + intros s t S T E. exfalso. exact (F1 (seg ring_pos e) (seg ring_pos f) s t (in_map _ _ _ I) (in_map _ _ _ J) S T E).
    + intros s t S T E. exfalso. exact (F1 (seg ring_pos f) (seg ring_pos e) t s (in_map _ _ _ J) (in_map _ _ _ I) T S (veq_sym _ _ E)).
    + exact (ring_apart ring_pos (vb_edges c) ws PC e f I J N).
  - split; [|split]; vm_compute; reflexivity.
Qed.
Definition frame_vb : list vboundary := [VB EXTERIOR (loop_edges 0 [0; 1; 2; 3]%nat); VB INTERIOR (loop_edges 4 [4; 5; 6; 7]%nat)].
Example C58_proper_case : proper_domain (map (fun x => coords ring_pos (fst x) (snd x)) (combine frame_vb [1; 1])) /\
  (forall b, In b frame_vb -> NoDup (map be_id (vb_edges b))) /\
  (forall b, In b frame_vb -> forall u v, on_front (vb_edges b) u -> on_front (vb_edges b) v -> ring_pos u = ring_pos v -> u = v) /\
  (forall e f, In e (whole frame_vb) -> In f (whole frame_vb) ->
    sharp (det (ring_pos (be_v1 e)) (ring_pos (be_v2 e)) (ring_pos (be_v1 f))) /\ sharp (det (ring_pos (be_v1 e)) (ring_pos (be_v2 e)) (ring_pos (be_v2 f)))).
Proof.
  split; [exact frame_proper|]. split; [intros b [<-|[<-|[]]]; cbn; repeat constructor; cbn; lia|]. split.
  - assert (X : forall u v, (u < 8)%nat -> (v < 8)%nat -> ring_pos u = ring_pos v -> u = v).
    { intros u v U V. do 8 (destruct u as [|u]; [do 8 (destruct v as [|v]; [cbn; try reflexivity; intros Z; discriminate|]); lia|]). lia. }
    intros b I u v (e & Ie & U) (f & If_ & V). apply X.
    + destruct I as [<-|[<-|[]]]; cbn in Ie; repeat (destruct Ie as [<-|Ie]; [cbn in U; lia|]); contradiction.
    + destruct I as [<-|[<-|[]]]; cbn in If_; repeat (destruct If_ as [<-|If_]; [cbn in V; lia|]); contradiction.
  - intros e f I J. cbn in I, J. repeat (destruct I as [<-|I]; [|]); try contradiction; repeat (destruct J as [<-|J]; [split; apply sharpb_sound; vm_compute; reflexivity|]); contradiction.
Qed.

Print Assumptions C58_accepts.
Print Assumptions C58_proper.
Print Assumptions C58_accepted_partial.
Print Assumptions C58_outcome.
Print Assumptions C58_crossing_refuted.
Print Assumptions C58_closed_refuted.
Print Assumptions C58_connected_refuted.
Print Assumptions C58_overlap_refuted.
Print Assumptions C58_empty_refuted.
Print Assumptions C58_nesting_refuted.
Print Assumptions C58_empty_boundary_refuted.
