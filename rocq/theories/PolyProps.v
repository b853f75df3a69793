(* C56: the inside test for simple polygons and for domains bounded by them, and the
   meshes of such domains. *)
From Coq Require Import Lqa Lia Permutation.
From Verif Require Import Base Chain GeomModel GeomSpec GeomProofs BdryModel BdrySpec BdryProofs InsideSpec InsideProofs BdryProps
  MeshModel MeshSpec WindSpec WindProofs WindInside WindInsideProps PolySpec PolyMain.
From Verif Require FacetModel UtilModel AdvanceModel AdvanceSpec AdvanceGeom LoopModel FrontModel FrontSpec FrontProofs FrontProps AdvanceProps LoopProps WindProps.
Open Scope Q_scope.

Lemma area_signed l : polygon_area l == signed_area l.
Proof. rewrite polygon_area_loop, loop_shoelace_cross. unfold signed_area. rewrite esum_ring. ring. Qed.

(* a simple polygon has an inside and an outside: it winds once around the points of
   the one and not around those of the other, in the direction that the sign of its
   area tells; in particular the area is not zero *)
Theorem C56_polygon l : simple_polygon l ->
  (0 < signed_area l /\ (forall p, winding p (ring_edges l) == 0 \/ winding p (ring_edges l) == 1) /\ exists p, winding p (ring_edges l) == 1) \/
  (signed_area l < 0 /\ (forall p, winding p (ring_edges l) == 0 \/ winding p (ring_edges l) == - (1)) /\ exists p, winding p (ring_edges l) == - (1)).
Proof. intros S. rewrite <- area_signed. exact (polygon_winding l S). Qed.

(* the inside test of the code tells the one from the other *)
Theorem C56_inside l o : simple_polygon l -> clear_of o (ring_edges l) ->
  is_inside (ring_edges l) o = true <-> ~ winding o (ring_edges l) == 0.
Proof.
  intros S C. apply C17_simple; [apply S|exact C|].
  destruct (C56_polygon l S) as [(_ & W & _)|(_ & W & _)]; destruct (W o); lra.
Qed.

(* ---------- boundaries that create_boundary_shape makes ---------- *)
Definition created (store : list vinfo) (l : elist) : list (vec2 * vec2) :=
  map (fun e => (store_pos store (be_v1 e), store_pos store (be_v2 e))) (el_edges l).
Lemma same_winding p es fs : same_points es fs -> winding p es == winding p fs.
Proof.
  intros H. unfold winding. induction H as [|[a b] [c d] es fs [E1 E2] H IH]; [reflexivity|]. cbn [esum fst snd] in *.
  rewrite IH, (crossing_eq p a b c d E1 E2). reflexivity.
Qed.
Lemma reversed_winding p es : winding p (reverse_edges es) == - winding p es.
Proof.
  unfold reverse_edges. rewrite <- (flipped_winding p es). apply esum_perm. apply Permutation_sym, Permutation_rev.
Qed.
Lemma balanced_map (pos : nat -> vec2) es : balanced (ends es) -> balanced (map (fun e => (pos (be_v1 e), pos (be_v2 e))) es).
Proof.
  intros B f. rewrite <- (B (fun v => f (pos v))). clear B. unfold ends. induction es as [|e es IH]; [reflexivity|]. cbn [map esum]. rewrite IH. reflexivity.
Qed.

Definition turning (bt : bdry_type) : Q := match bt with EXTERIOR => 1 | INTERIOR => - (1) end.
(* whatever the direction in which the points of the shape were given: an exterior
   boundary goes around its points counter-clockwise, an interior one clockwise,
   and the inside test finds the points that the shape winds around *)
Theorem C56_created nearest bt store shape props colors store' l :
  create_boundary_shape nearest bt store shape props colors = Ok (store', l) -> simple_polygon shape ->
  (forall p, (winding p (ring_edges shape) == 0 /\ winding p (created store' l) == 0) \/
             (~ winding p (ring_edges shape) == 0 /\ winding p (created store' l) == turning bt)) /\
  (exists p, winding p (created store' l) == turning bt) /\
  (forall o, clear_of o (created store' l) -> is_inside (created store' l) o = true <-> ~ winding o (ring_edges shape) == 0).
Proof.
  intros E S. destruct (create_ok _ _ _ _ _ _ _ _ E) as (_ & L & P & _ & B & _). cbv zeta in P. fold (created store' l) in P.
  assert (W : forall p, winding p (created store' l) == (if is_forward bt (Qltb 0 (polygon_area shape)) then 1 else - (1)) * winding p (ring_edges shape)).
  { intros p. rewrite (same_winding p _ _ P). destruct (is_forward _ _); [ring|]. rewrite reversed_winding. ring. }
  assert (K : (forall p, (winding p (ring_edges shape) == 0 /\ winding p (created store' l) == 0) \/
             (~ winding p (ring_edges shape) == 0 /\ winding p (created store' l) == turning bt)) /\
    (exists p, winding p (created store' l) == turning bt)).
  { destruct (polygon_winding shape S) as [(A & H & x & X)|(A & H & x & X)].
    - rewrite (proj2 (Qltb_true _ _) A) in W. split.
      + intros p. specialize (W p). destruct (H p) as [Z|Z]; [left|right]; destruct bt; cbn [is_forward negb turning] in *; lra.
      + exists x. specialize (W x). destruct bt; cbn [is_forward negb turning] in *; lra.
    - assert (A' : Qltb 0 (polygon_area shape) = false) by (apply not_true_is_false; rewrite Qltb_true; lra). rewrite A' in W. split.
      + intros p. specialize (W p). destruct (H p) as [Z|Z]; [left|right]; destruct bt; cbn [is_forward negb turning] in *; lra.
      + exists x. specialize (W x). destruct bt; cbn [is_forward negb turning] in *; lra. }
  destruct K as [K1 K2]. split; [exact K1|]. split; [exact K2|]. intros o C.
  assert (T : - (1) <= turning bt <= 1 /\ ~ turning bt == 0) by (destruct bt; cbn [turning]; lra).
  destruct (inside_once o (created store' l)) as [I _].
  - unfold created. rewrite map_length, L. apply S.
  - apply balanced_map. exact B.
  - exact C.
  - destruct (K1 o); lra.
  - destruct (K1 o); lra.
  - rewrite I. destruct (K1 o) as [[Z1 Z2]|[Z1 Z2]]; rewrite Z2; [split; intros N; exfalso; apply N; [reflexivity|exact Z1]|]. split; intros _; [exact Z1|apply T].
Qed.

(* ---------- domains ---------- *)
(* an exterior boundary with positive area, an interior one with negative area: what
   create_boundary_shape leaves (C15_oriented) *)
Definition simple_boundary (b : boundary) : Prop := exists l, bd_edges b = ring_edges l /\ simple_polygon l /\
  match bd_type b with EXTERIOR => 0 < signed_area l | INTERIOR => signed_area l < 0 end.
Lemma simple_boundary_winding b p : simple_boundary b -> winding p (bd_edges b) == 0 \/ winding p (bd_edges b) == turning (bd_type b).
Proof.
  intros (l & E & S & A). rewrite E. destruct (C56_polygon l S) as [(A' & W & _)|(A' & W & _)], (bd_type b); cbn [turning]; try lra; exact (W p).
Qed.
Lemma simple_boundary_curve b : simple_boundary b -> curve b.
Proof. intros (l & E & S & _). exists l. split; [exact E|apply S]. Qed.
Lemma simple_boundary_oriented b p : simple_boundary b -> oriented p b.
Proof. intros H. unfold oriented. destruct (simple_boundary_winding b p H) as [W|W]; destruct (bd_type b); cbn [turning] in W; lra. Qed.
Lemma holes_winding bs p : (forall b, In b bs -> bd_type b = INTERIOR /\ simple_boundary b) ->
  winding p (domain_segments bs) == 0 \/ winding p (domain_segments bs) <= - (1).
Proof.
  induction bs as [|b bs IH]; intros H; [left; reflexivity|]. cbn [domain_segments flat_map]. fold (domain_segments bs).
  assert (E := winding_app p (bd_edges b) (domain_segments bs)). destruct (H b (or_introl eq_refl)) as [T S].
  destruct (simple_boundary_winding b p S) as [W|W]; rewrite ?T in W; cbn [turning] in W;
    destruct (IH (fun c Hc => H c (or_intror Hc))) as [Z|Z]; rewrite E; [left|right|right|right]; lra.
Qed.
Lemma domain_winding bs p : one_exterior bs -> (forall b, In b bs -> simple_boundary b) ->
  winding p (domain_segments bs) == 1 \/ winding p (domain_segments bs) <= 0.
Proof.
  intros (l1 & e & l2 & -> & T & N) H.
  assert (P : Permutation (l1 ++ e :: l2) (e :: l1 ++ l2)) by (apply Permutation_sym, Permutation_middle).
  assert (E := segments_perm _ _ p P). cbn [domain_segments flat_map] in E. fold (domain_segments (l1 ++ l2)) in E. rewrite winding_app in E.
  assert (S : simple_boundary e) by (apply H; rewrite in_app_iff; right; left; reflexivity).
  assert (W := simple_boundary_winding e p S). rewrite T in W. cbn [turning] in W.
  assert (Z : winding p (domain_segments (l1 ++ l2)) == 0 \/ winding p (domain_segments (l1 ++ l2)) <= - (1)).
  { apply holes_winding. intros b Hb. split; [exact (N b Hb)|]. apply H. apply in_app_iff in Hb. rewrite in_app_iff. cbn [In]. tauto. }
  unfold domain_segments in *. rewrite E. destruct W as [W|W], Z as [Z|Z]; [right|right|left|right]; lra.
Qed.
(* the boundaries of a domain wind at most once around any point; the domain calls a
   point inside if they do *)
Theorem C56_domain bs : one_exterior bs -> (forall b, In b bs -> simple_boundary b) ->
  simple_region (fun p => winding p (domain_segments bs)) /\
  (forall o, (forall b, In b bs -> clear_of o (bd_edges b)) ->
     domain_inside bs o = true <-> winding o (domain_segments bs) == 1).
Proof.
  intros X H. split.
  - intros p. destruct (domain_winding bs p X H) as [W|W]; lra.
  - intros o C. rewrite (C17_domain bs o X).
    + destruct (domain_winding bs o X H) as [W|W]; split; intros; lra.
    + intros b Hb. split; [exact (simple_boundary_curve b (H b Hb))|]. split; [exact (C b Hb)|]. apply simple_boundary_oriented, H, Hb.
Qed.

(* ---------- meshes ---------- *)
Lemma closed_balanced es : balanced es -> FrontSpec.closed_curves es.
Proof.
  intros B x. assert (H := B (fun v => if veqb v x then 1 else 0)).
  assert (K : esum (fun a b => (if veqb b x then 1 else 0) - (if veqb a x then 1 else 0)) es ==
    inject_Z (Z.of_nat (FrontSpec.ending x es)) - inject_Z (Z.of_nat (FrontSpec.starting x es))).
  { clear. unfold FrontSpec.ending, FrontSpec.starting. induction es as [|[a b] es IH]; [reflexivity|]. cbn [esum filter fst snd]. rewrite IH.
    destruct (veqb a x), (veqb b x); cbn [length]; rewrite ?Nat2Z.inj_succ, <- ?Z.add_1_r, ?inject_Z_plus; change (inject_Z 1) with 1; ring. }
  rewrite K in H. assert (E : inject_Z (Z.of_nat (FrontSpec.ending x es)) == inject_Z (Z.of_nat (FrontSpec.starting x es))) by lra.
  rewrite inject_Z_injective in E. lia.
Qed.
Lemma domain_balanced bs : (forall b, In b bs -> simple_boundary b) -> balanced (domain_segments bs).
Proof.
  intros H. induction bs as [|b bs IH]; [intros f; reflexivity|]. cbn [domain_segments flat_map]. apply balanced_app.
  - destruct (H b (or_introl eq_refl)) as (l & E & _). rewrite E. apply ring_balanced.
  - apply IH. intros c Hc. apply H. right. exact Hc.
Qed.
(* a region that is covered exactly is the domain *)
Theorem C56_covered pos ss bs : tiles pos ss (fun p => winding p (domain_segments bs)) -> one_exterior bs ->
  (forall b, In b bs -> simple_boundary b) ->
  (forall i j s t p, nth_error ss i = Some s -> nth_error ss j = Some t -> inside_shape pos s p -> inside_shape pos t p -> i = j) /\
  (forall o, (forall b, In b bs -> clear_of o (bd_edges b)) ->
     (domain_inside bs o = true -> exists s, In s ss /\ in_closure pos s o) /\
     (forall s, In s ss -> inside_shape pos s o -> domain_inside bs o = true)).
Proof.
  intros T X H. destruct (C56_domain bs X H) as [R D]. split.
  - exact (tiles_disjoint pos ss _ T R).
  - intros o C. specialize (D o C). split.
    + intros I. apply (tiles_cover _ _ _ o T). rewrite (proj1 D I). lra.
    + intros s Hs J. apply D. assert (G := tiles_only _ _ _ o s T Hs J). specialize (R o). cbn beta in *. lra.
Qed.

Import FacetModel UtilModel AdvanceModel AdvanceSpec AdvanceGeom LoopModel FrontModel FrontSpec FrontProofs FrontProps AdvanceProps LoopProps WindProps.
(* a run of the triangulation on the front of such a domain that succeeds and leaves
   no front: no two triangles overlap and they cover the points that the domain calls
   inside.  Partial as C50_domain_partial: the runs in which the additional test of
   `strict` has no effect. *)
Theorem C56_mesh_partial : forall bs bounds fixed sub loose col rho shape_ok dom mesh_scale inside qual newpos query fuel n st' c,
  one_exterior bs -> (forall b, In b bs -> simple_boundary b) -> map de_ends bounds = domain_segments bs ->
  (forall e, In e bounds -> de_fix e = false) -> (forall e, In e fixed -> de_fix e = true) ->
  (forall e, In e (bounds ++ fixed) -> veqb (de_a e) (de_b e) = false /\
     in_square front_scale (de_a e) = true /\ in_square front_scale (de_b e) = true) ->
  (forall a b, Forall (on_line a b) (sub a b)) ->
  (forall a b p, In p (sub a b) -> in_square front_scale a = true -> in_square front_scale b = true ->
     in_square front_scale p = true) ->
  (forall p, In p loose -> in_square front_scale p = true) ->
  (forall s e, in_square front_scale (newpos s e) = true) -> (0 < n < 2 ^ 31)%Z ->
  let st := prepared sub (collect_front_edges bounds fixed []) loose col in
  let tri_ok := triangle_is_valid rho shape_ok dom in
  let vtx_ok := vertex_is_valid rho inside in
  generate mesh_scale tri_ok vtx_ok qual newpos query fuel n st = Some (Ok (st', true, c)) ->
  generate mesh_scale (strict tri_ok) vtx_ok qual newpos query fuel n st = Some (Ok (st', true, c)) ->
  ms_front st <> [] -> ms_front st' = [] ->
  let ss := map tri_shape (generated st') in
  (forall i j s t p, nth_error ss i = Some s -> nth_error ss j = Some t ->
     inside_shape (ms_pos st') s p -> inside_shape (ms_pos st') t p -> i = j) /\
  (forall o, (forall b, In b bs -> clear_of o (bd_edges b)) ->
     (domain_inside bs o = true -> exists s, In s ss /\ in_closure (ms_pos st') s o) /\
     (forall s, In s ss -> inside_shape (ms_pos st') s o -> domain_inside bs o = true)).
Proof.
  intros bs bounds fixed sub loose col rho shape_ok dom mesh_scale inside qual newpos query fuel n st' c X H E HB HF HE HL HS HO NP Hn st tri_ok vtx_ok G1 G2 NE F ss.
  apply (C56_covered (ms_pos st') ss bs); [|exact X|exact H].
  assert (T : tiles (ms_pos st') ss (domain_region bounds [])).
  { apply (C50_domain_partial bounds fixed [] sub loose col rho shape_ok dom mesh_scale inside qual newpos query fuel n st' c); try assumption.
    - rewrite E. apply closed_balanced, domain_balanced, H.
    - intros e _ N. exfalso. apply N. reflexivity.
    - intros e [].
    - intros e. cbn [concat]. rewrite app_nil_r. apply HE. }
  intros p. destruct (T p) as (b & O & C). exists b. split; [exact O|]. rewrite C, domain_region_alone, E. reflexivity.
Qed.

(* ---------- cases ---------- *)
(* the rectangles of set_shape_rectangle *)
Lemma ordpair4 {A} (R : A -> A -> Prop) a b c d : R a b -> R a c -> R a d -> R b c -> R b d -> R c d -> ForallOrdPairs R [a; b; c; d].
Proof. intros. repeat constructor; assumption. Qed.
Theorem C56_rectangle xy w h : 0 < w -> 0 < h -> simple_polygon (rect_shape xy w h) /\ signed_area (rect_shape xy w h) == w * h.
Proof.
  intros W H. assert (A : 0 < w * h) by (apply Qmult_lt_0_compat; assumption). split.
  - apply simple_check; [cbn; lia| |].
    + apply ordpair4; intros [E1 E2]; cbn [vx vy] in *; lra.
    + destruct xy as [x y]. cbn [rect_shape ring_edges combine tl app hd vx vy].
      apply ordpair4; unfold pair_ok, strictly_apart, det; cbn [fst snd vx vy].
      * right. left. split; [reflexivity|]. intros E. ring_simplify in E. lra.
      * left. right. right. left. split; ring_simplify; lra.
      * right. right. split; [reflexivity|]. intros E. ring_simplify in E. lra.
      * right. left. split; [reflexivity|]. intros E. ring_simplify in E. lra.
      * left. right. right. left. split; ring_simplify; lra.
      * right. left. split; [reflexivity|]. intros E. ring_simplify in E. lra.
  - unfold signed_area, vcross. cbn. ring.
Qed.
(* a spiral and a square in it *)
Definition spiral : list vec2 := [V2 0 0; V2 7 0; V2 7 7; V2 0 7; V2 0 2; V2 4 2; V2 4 4; V2 3 4; V2 3 3; V2 1 3; V2 1 6; V2 6 6; V2 6 1; V2 0 1].
Definition spot : list vec2 := [V2 5 (1#4); V2 5 (3#4); V2 (11#2) (3#4); V2 (11#2) (1#4)].
Definition coil : list boundary := [Bd INTERIOR (ring_edges spot) (-(1#4)); Bd EXTERIOR (ring_edges spiral) 1].
Example C56_spiral_case : simple_polygon spiral /\ 0 < signed_area spiral /\ simple_polygon spot /\ signed_area spot < 0 /\
  one_exterior coil /\ (forall b, In b coil -> simple_boundary b) /\
  (forall b, In b coil -> clear_of (V2 (7#2) (5#2)) (bd_edges b)) /\ domain_inside coil (V2 (7#2) (5#2)) = true /\
  (forall b, In b coil -> clear_of (V2 5 5) (bd_edges b)) /\ domain_inside coil (V2 5 5) = false /\
  (forall b, In b coil -> clear_of (V2 (21#4) (1#2)) (bd_edges b)) /\ domain_inside coil (V2 (21#4) (1#2)) = false.
Proof.
  assert (S1 : simple_polygon spiral) by (apply simpleb_sound; vm_compute; reflexivity).
  assert (S2 : simple_polygon spot) by (apply simpleb_sound; vm_compute; reflexivity).
  assert (A1 : 0 < signed_area spiral) by (vm_compute; reflexivity).
  assert (A2 : signed_area spot < 0) by (vm_compute; reflexivity).
  split; [exact S1|]. split; [exact A1|]. split; [exact S2|]. split; [exact A2|]. split; [|split; [|split; [|split; [|split; [|split; [|split]]]]]].
  - exists [Bd INTERIOR (ring_edges spot) (-(1#4))], (Bd EXTERIOR (ring_edges spiral) 1), []. split; [reflexivity|]. split; [reflexivity|]. intros b [<-|[]]. reflexivity.
  - intros b [<-|[<-|[]]]; [exists spot|exists spiral]; (split; [reflexivity|split; assumption]).
  - intros b [<-|[<-|[]]]; apply clearb_sound; vm_compute; reflexivity.
  - vm_compute. reflexivity.
  - intros b [<-|[<-|[]]]; apply clearb_sound; vm_compute; reflexivity.
  - vm_compute. reflexivity.
  - intros b [<-|[<-|[]]]; apply clearb_sound; vm_compute; reflexivity.
  - vm_compute. reflexivity.
Qed.
(* the spiral given clockwise as an exterior boundary: turned around *)
Example C56_created_case : exists store l,
  create_boundary_shape scan EXTERIOR [] (rev spiral) (map (fun _ => (1, 1)) spiral) (map (fun _ => 7%Z) spiral) = Ok (store, l) /\
  simple_polygon (rev spiral) /\ winding (V2 (7#2) (5#2)) (ring_edges (rev spiral)) == - (1) /\
  winding (V2 (7#2) (5#2)) (created store l) == 1 /\ clear_of (V2 (7#2) (5#2)) (created store l) /\
  is_inside (created store l) (V2 (7#2) (5#2)) = true /\
  winding (V2 5 5) (created store l) == 0 /\ clear_of (V2 5 5) (created store l) /\ is_inside (created store l) (V2 5 5) = false.
Proof.
  do 2 eexists. split; [vm_compute; reflexivity|]. split; [apply simpleb_sound; vm_compute; reflexivity|].
  split; [vm_compute; reflexivity|]. split; [vm_compute; reflexivity|]. split; [apply clearb_sound; vm_compute; reflexivity|].
  split; [vm_compute; reflexivity|]. split; [vm_compute; reflexivity|]. split; [apply clearb_sound; vm_compute; reflexivity|]. vm_compute; reflexivity.
Qed.
(* the box of C50_box_case *)
Definition box_domain : list boundary := [Bd EXTERIOR (map de_ends box2) 4].
Example C56_box_case : one_exterior box_domain /\ (forall b, In b box_domain -> simple_boundary b) /\ map de_ends box2 = domain_segments box_domain /\
  (exists st', generate (21 # 5) sq_valid sq_vertex (fun _ _ => 0) (fun _ _ => V2 1 1) (fun _ _ _ => [0; 1; 2; 3]%nat) 100 10 box_start = Some (Ok (st', true, 2%nat)) /\
    generate (21 # 5) (strict sq_valid) sq_vertex (fun _ _ => 0) (fun _ _ => V2 1 1) (fun _ _ _ => [0; 1; 2; 3]%nat) 100 10 box_start = Some (Ok (st', true, 2%nat)) /\
    ms_front st' = [] /\
    (forall i j s t p, nth_error (map tri_shape (generated st')) i = Some s -> nth_error (map tri_shape (generated st')) j = Some t ->
       inside_shape (ms_pos st') s p -> inside_shape (ms_pos st') t p -> i = j)) /\
  (forall b, In b box_domain -> clear_of (V2 1 (1 # 2)) (bd_edges b)) /\ domain_inside box_domain (V2 1 (1 # 2)) = true.
Proof.
  assert (X : one_exterior box_domain) by (exists [], (Bd EXTERIOR (map de_ends box2) 4), []; split; [reflexivity|split; [reflexivity|intros c []]]).
  assert (H : forall b, In b box_domain -> simple_boundary b).
  { intros b [<-|[]]. exists [V2 0 0; V2 2 0; V2 2 2; V2 0 2]. split; [reflexivity|]. split; [apply simpleb_sound; vm_compute; reflexivity|vm_compute; reflexivity]. }
  split; [exact X|]. split; [exact H|]. split; [reflexivity|]. split; [|split].
  - destruct C50_box_case as (_ & (st & G1 & G2 & F & T) & _). exists st. split; [exact G1|]. split; [exact G2|]. split; [exact F|].
    assert (T' : tiles (ms_pos st) (map tri_shape (generated st)) (fun p => winding p (domain_segments box_domain))) by exact T.
    exact (proj1 (C56_covered _ _ _ T' X H)).
  - intros b [<-|[]]. apply clearb_sound. vm_compute. reflexivity.
  - vm_compute. reflexivity.
Qed.

Print Assumptions C56_polygon.
Print Assumptions C56_inside.
Print Assumptions C56_created.
Print Assumptions C56_domain.
Print Assumptions C56_covered.
Print Assumptions C56_mesh_partial.
Print Assumptions C56_rectangle.
