(* Property C63: predefined boundary shapes. *)
From Coq Require Import Reals Qreals Lra Lia Psatz Lqa.
From Verif Require Import Base Chain GeomModel GeomSpec UtilModel BdryModel BdrySpec BdryProofs BdryProps PolySpec PolyMain PolyProps WindSpec WindInside ShapeModel ShapeSpec ConvexProofs CircProofs ShapeProofs.
Open Scope Q_scope.

(* the search among the vertices of the domain gives an answer *)
Definition answers (nearest : list vinfo -> vec2 -> outcome (option nat)) : Prop := forall store xy, exists o, nearest store xy = Ok o.
Definition no_edges (bt : bdry_type) : elist := EL (bdry_orient bt) [] 0.

Lemma vertices_made nearest size range shape : answers nearest -> forall store,
  exists ext vs, shape_vertices nearest store shape (repeat (size, range) (length shape)) = Ok (store ++ ext, vs) /\
    length vs = length shape /\ (forall v, In v ext -> vi_size v = size /\ vi_range v = range /\ exists p, In p shape /\ vi_xy v = p).
Proof.
  intros A. induction shape as [|p shape IH]; intros store; [exists [], []; rewrite app_nil_r; split; [reflexivity|]; split; [reflexivity|intros v []]|].
  cbn [length repeat shape_vertices]. destruct (A store p) as (o & ->). cbn [obind].
  set (reuse := match o with Some i => match nth_error store i with Some v => if veqb (vi_xy v) p then Some i else None | None => None end | None => None end).
  destruct reuse as [i|].
  - destruct (IH store) as (ext & vs & E & LV & P). rewrite E. exists ext, (i :: vs). cbn [obind fst snd length]. split; [reflexivity|]. split; [lia|].
    intros v I. destruct (P v I) as (P1 & P2 & q & P3 & P4). repeat (split; [assumption|]). exists q. split; [right; exact P3|exact P4].
  - destruct (IH (store ++ [VI p size range 0%N])) as (ext & vs & E & LV & P). rewrite E. exists ([VI p size range 0%N] ++ ext), (length store :: vs). cbn [obind fst snd length]. rewrite app_assoc. split; [reflexivity|]. split; [lia|].
    intros v [<-|I]; [cbn; repeat (split; [reflexivity|]); exists p; split; [left; reflexivity|reflexivity]|].
    destruct (P v I) as (P1 & P2 & q & P3 & P4). repeat (split; [assumption|]). exists q. split; [right; exact P3|exact P4].
Qed.
Lemma all_made (step : nat -> outcome (nat * nat * Z)) is_ : (forall i, In i is_ -> exists e, step i = Ok e) ->
  exists es, fold_right (fun i acc => obind (step i) (fun e => obind acc (fun r => Ok (e :: r)))) (Ok []) is_ = Ok es.
Proof.
  induction is_ as [|i is_ IH]; intros H; [exists []; reflexivity|]. cbn [fold_right]. destruct (IH (fun j J => H j (or_intror J))) as (es & ->).
  destruct (H i (or_introl eq_refl)) as (x & ->). exists (x :: es). reflexivity.
Qed.
Lemma edges_made fwd vs m : exists es, shape_edges fwd vs (repeat m (length vs)) = Ok es.
Proof.
  unfold shape_edges. cbv zeta. apply all_made. intros i I0. set (N0 := length vs) in *.
  assert (I : (i < N0)%nat) by (destruct fwd; [|apply in_rev in I0]; apply in_seq in I0; lia). clear I0.
  assert (J : (mod_succ i N0 < N0)%nat) by (apply Nat.mod_upper_bound; lia).
  rewrite (nth_error_nth' vs 0%nat) by exact I. rewrite (nth_error_nth' vs 0%nat) by exact J.
  assert (R : forall k, (k < N0)%nat -> nth_error (repeat m N0) k = Some m).
  { intros k K. rewrite (nth_error_nth' _ m) by (rewrite repeat_length; exact K). f_equal. apply nth_repeat. }
  destruct fwd; rewrite R by assumption; eexists; reflexivity.
Qed.

(* one colour, size and range: the boundary is made whatever vertices there are; new
   vertices have the size and range that were asked for *)
Theorem C63_made : forall nearest bt store shape m size range, answers nearest ->
  exists store' l ext, set_shape nearest bt store (no_edges bt) shape (repeat (size, range) (length shape)) (repeat m (length shape)) = Ok (store', l) /\
    create_boundary_shape nearest bt store shape (repeat (size, range) (length shape)) (repeat m (length shape)) = Ok (store', l) /\
    store' = store ++ ext /\ (forall v, In v ext -> vi_size v = size /\ vi_range v = range /\ exists p, In p shape /\ vi_xy v = p) /\
    length (el_edges l) = length shape /\ (forall e, In e (el_edges l) -> be_col e = m /\ be_prop e = e_on_boundary).
Proof.
  intros nearest bt store shape m size range A. cbn [set_shape no_edges el_edges].
  destruct (vertices_made nearest size range shape A store) as (ext & vs & E & LV & P).
  destruct (edges_made (is_forward bt (Qltb 0 (polygon_area shape))) vs m) as (es & F). rewrite LV in F.
  assert (C : exists l, create_boundary_shape nearest bt store shape (repeat (size, range) (length shape)) (repeat m (length shape)) = Ok (store ++ ext, l)).
  { unfold create_boundary_shape. rewrite E. cbn [obind fst snd]. rewrite F. cbn [obind]. eexists. reflexivity. }
  destruct C as (l & C). exists (store ++ ext), l, ext. split; [exact C|]. split; [exact C|]. split; [reflexivity|]. split; [exact P|].
  destruct (create_ok _ _ _ _ _ _ _ _ C) as (_ & H2 & _ & _ & _ & _ & H7 & _ & H9). split; [exact H2|]. intros e I. rewrite Forall_forall in H7. split; [|exact (H7 e I)].
  apply In_nth_error in I. destruct I as (k & K). assert (KL : (k < length shape)%nat) by (rewrite <- H2; apply nth_error_Some; congruence).
  set (fwd := is_forward bt (Qltb 0 (polygon_area shape))) in H9.
  assert (R : forall j, (j < length shape)%nat -> nth_error (repeat m (length shape)) j = Some m).
  { intros j J. rewrite (nth_error_nth' _ m) by (rewrite repeat_length; exact J). f_equal. apply nth_repeat. }
  destruct fwd.
  - specialize (H9 k KL). rewrite R, K in H9 by exact KL. cbn in H9. congruence.
  - specialize (H9 (length shape - 1 - k)%nat ltac:(lia)). replace (length shape - 1 - (length shape - 1 - k))%nat with k in H9 by lia.
    rewrite R, K in H9 by (apply Nat.mod_upper_bound; lia). cbn in H9. congruence.
Qed.

(* what the boundary of a convex shape goes around *)
Lemma region_made nearest bt store shape props colors store' l : create_boundary_shape nearest bt store shape props colors = Ok (store', l) ->
  convex_position shape -> (3 <= length shape)%nat ->
  (forall p, winding p (ring_edges shape) == 1 -> winding p (created store' l) == turning bt) /\
  (forall p, winding p (ring_edges shape) == 0 -> winding p (created store' l) == 0).
Proof.
  intros E C L. destruct (C56_created _ _ _ _ _ _ _ _ E (convex_simple_polygon shape C L)) as (W & _ & _). split; intros p H; destruct (W p) as [[A B]|[A B]]; try exact B; exfalso; lra.
Qed.

Theorem C63_circle : forall nearest bt cosn sinn store m xy r n size range (e : R), answers nearest -> (3 <= n)%nat -> 0 < r ->
  (0 <= e)%R -> (e * INR n ^ 3 <= 1)%R -> near_circle e n (cosn n) (sinn n) ->
  exists store' l, set_shape_circle nearest bt cosn sinn store (no_edges bt) m xy r n size range = Ok (store', l) /\
    length (el_edges l) = n /\ (forall e, In e (el_edges l) -> be_col e = m /\ be_prop e = e_on_boundary) /\
    simple_polygon (circle_shape cosn sinn xy r n) /\
    (forall p, winding p (created store' l) == 0 \/ winding p (created store' l) == turning bt) /\
    (* inside and outside *)
    (forall p rho, (0 <= rho)%R -> (rho < 1 - 8 / INR n ^ 2 - 4 * INR n * e)%R -> (sq_distance p xy <= (rho * Q2R r) ^ 2)%R -> winding p (created store' l) == turning bt) /\
    (forall p, ((Q2R r * (1 + 2 * e)) ^ 2 < sq_distance p xy)%R -> winding p (created store' l) == 0) /\
    (forall o, clear_of o (created store' l) -> is_inside (created store' l) o = true <-> ~ winding o (created store' l) == 0) /\
    (* area *)
    (PI * Q2R r ^ 2 * (1 - 11 / INR n ^ 2) - 3 * INR n * e * Q2R r ^ 2 <= Q2R (signed_area (circle_shape cosn sinn xy r n)) <= PI * Q2R r ^ 2 + 3 * INR n * e * Q2R r ^ 2)%R.
Proof.
  intros nearest bt cosn sinn store m xy r n size range e A L R0 E0 E3 T.
  set (shape := circle_shape cosn sinn xy r n). assert (SL : length shape = n) by apply shape_length.
  assert (NZ : ~ r == 0) by (intros Z; rewrite Z in R0; discriminate).
  assert (C : convex_position shape) by exact (circle_convex cosn sinn xy r n e L E0 E3 T NZ).
  destruct (small_error n e L E0 E3) as [_ S1].
  destruct (C63_made nearest bt store shape m size range A) as (store' & l & ext & M1 & M2 & _ & _ & M3 & M4). rewrite SL in M1, M2, M3.
  exists store', l. split; [unfold set_shape_circle; assert (Z : Nat.ltb n 3 = false) by (apply Nat.ltb_ge; exact L); rewrite Z; exact M1|].
  split; [exact M3|]. split; [exact M4|]. assert (SP := convex_simple_polygon shape C ltac:(lia)). split; [exact SP|].
  destruct (C56_created _ _ _ _ _ _ _ _ M2 SP) as (W & _ & I). destruct (region_made _ _ _ _ _ _ _ _ M2 C ltac:(lia)) as [W1 W0].
  split; [intros p; destruct (W p) as [[X Y]|[X Y]]; [left|right]; exact Y|].
  split.
  { intros p rho P0 P1 P2. apply W1. apply inside_convex; [exact C|lia|].
    assert (AP := apothem n L). intros e0 I0. apply (circle_left cosn sinn xy r n e L E0 E3 T p rho R0 P0); [Lra.lra|exact P2|exact I0]. }
  split.
  { intros p P. apply W0. assert (Q := circle_right cosn sinn xy r n e T p R0 P).
    assert (F : forall es : list (vec2 * vec2), (forall e0, In e0 es -> exists i j, (i < n)%nat /\ (j < n)%nat /\ e0 = (point xy r (cosn n) (sinn n) i, point xy r (cosn n) (sinn n) j)) ->
      exists c, - (vx p - vx xy) * vx p + - (vy p - vy xy) * vy p < c /\ forall e0, In e0 es ->
        c <= - (vx p - vx xy) * vx (fst e0) + - (vy p - vy xy) * vy (fst e0) /\ c <= - (vx p - vx xy) * vx (snd e0) + - (vy p - vy xy) * vy (snd e0)).
    { induction es as [|e0 es IH]; intros H.
      - exists (- (vx p - vx xy) * vx p + - (vy p - vy xy) * vy p + 1). split; [Lqa.lra|intros e0 []].
      - destruct (IH (fun x J => H x (or_intror J))) as (c & C1 & C2). destruct (H e0 (or_introl eq_refl)) as (i & j & Hi & Hj & ->). assert (Qi := Q i Hi). assert (Qj := Q j Hj).
        set (vi := - (vx p - vx xy) * vx (point xy r (cosn n) (sinn n) i) + - (vy p - vy xy) * vy (point xy r (cosn n) (sinn n) i)) in *.
        set (vj := - (vx p - vx xy) * vx (point xy r (cosn n) (sinn n) j) + - (vy p - vy xy) * vy (point xy r (cosn n) (sinn n) j)) in *.
        destruct (Qlt_le_dec vi vj) as [K|K]; [destruct (Qlt_le_dec vi c) as [K2|K2]; [exists vi|exists c]|destruct (Qlt_le_dec vj c) as [K2|K2]; [exists vj|exists c]]; (split; [Lqa.lra|]);
          intros e1 [<-|I1]; cbn [fst snd]; fold vi vj; (split; Lqa.lra) || (destruct (C2 e1 I1); split; Lqa.lra). }
    destruct (F (ring_edges shape)) as (c & C1 & C2).
    { intros e0 I0. destruct (sides_of cosn sinn xy r n L e0 I0) as (i & I1 & ->). exists i, ((i + 1) mod n)%nat. split; [exact I1|]. split; [apply Nat.mod_upper_bound; lia|reflexivity]. }
    exact (separated _ _ c p _ (ring_balanced shape) C1 C2). }
  split.
  { intros o CL. rewrite (I o CL). destruct (W o) as [[X Y]|[X Y]]; [rewrite X, Y; tauto|rewrite Y]. split; [intros _; destruct bt; discriminate|intros _; exact X]. }
  assert (AR := circle_area cosn sinn xy r n e L E0 T S1). apply abs_le in AR. fold shape in AR. destruct (polygon_and_circle n L) as [B1 B2].
  assert (RP : (0 <= Q2R r ^ 2)%R) by apply pow2_ge_0.
  assert (B3 := Rmult_le_compat_r _ _ _ RP B1). assert (B4 := Rmult_le_compat_r _ _ _ RP B2). Lra.lra.
Qed.

(* a boundary that has edges is not changed *)
Theorem C63_again : forall nearest bt cosn sinn store b m xy size range, el_edges b <> [] ->
  (forall w h, set_shape_rectangle nearest bt store b m xy w h size range = Ok (store, b)) /\
  (forall r n, set_shape_circle nearest bt cosn sinn store b m xy r n size range = Ok (store, b)).
Proof.
  intros nearest bt cosn sinn store b m xy size range H. split; intros; unfold set_shape_rectangle, set_shape_circle, set_shape; destruct (el_edges b); [contradiction H; reflexivity| |contradiction H; reflexivity|]; try reflexivity.
  destruct (Nat.ltb n 3); reflexivity.
Qed.

(* the equilateral triangle *)
Theorem C63_triangle : forall nearest bt cosn sinn sq store m xy a size range (e : R), answers nearest -> 0 < a -> 0 < sq ->
  (0 <= e)%R -> (e * 200 <= 1)%R -> near_circle e 3 (cosn 3%nat) (sinn 3%nat) ->
  exists store' l, set_shape_triangle nearest bt cosn sinn sq store (no_edges bt) m xy a size range = Ok (store', l) /\
    length (el_edges l) = 3%nat /\ (forall e, In e (el_edges l) -> be_col e = m /\ be_prop e = e_on_boundary) /\
    (forall e0, In e0 (created store' l) -> (Rabs (Q2R sq ^ 2 * sq_distance (fst e0) (snd e0) - 3 * Q2R a ^ 2) <= 24 * e * Q2R a ^ 2)%R) /\
    (forall p, winding p (created store' l) == 0 \/ winding p (created store' l) == turning bt) /\
    winding xy (created store' l) == turning bt.
Proof.
  intros nearest bt cosn sinn sq store m xy a size range e A PA PS E0 E1 T.
  assert (PR : 0 < a / sq) by (apply Qlt_shift_div_l; [exact PS|rewrite Qmult_0_l; exact PA]).
  assert (N3 : (INR 3 ^ 3 = 27)%R) by (cbn; ring).
  assert (L : (3 <= 3)%nat) by lia.
  destruct (C63_circle nearest bt cosn sinn store m xy (a / sq) 3 size range e A L PR E0 ltac:(rewrite N3; Lra.lra) T) as (store' & l & M & LN & CO & SP & W & IN & _).
  exists store', l. split; [exact M|]. split; [exact LN|]. split; [exact CO|].
  unfold set_shape_circle in M. change (Nat.ltb 3 3) with false in M. cbv iota in M. unfold set_shape in M. cbn [no_edges el_edges] in M.
  destruct (create_ok _ _ _ _ _ _ _ _ M) as (_ & _ & SPts & _). cbv zeta in SPts. fold (created store' l) in SPts.
  assert (SD : forall p q p' q', veq p p' -> veq q q' -> sq_distance p q = sq_distance p' q').
  { intros p q p' q' [X1 X2] [Y1 Y2]. unfold sq_distance. rewrite (Qeq_eqR _ _ X1), (Qeq_eqR _ _ X2), (Qeq_eqR _ _ Y1), (Qeq_eqR _ _ Y2). reflexivity. }
  set (shape := circle_shape cosn sinn xy (a / sq) 3) in *.
  assert (SIDE : forall e0, In e0 (ring_edges shape) -> (Rabs (Q2R sq ^ 2 * sq_distance (fst e0) (snd e0) - 3 * Q2R a ^ 2) <= 24 * e * Q2R a ^ 2)%R).
  { intros e0 I. destruct (sides_of cosn sinn xy (a / sq) 3 L e0 I) as (i & H & ->). cbn [fst snd].
    assert (Mj : ((i + 1) mod 3 < 3)%nat) by (apply Nat.mod_upper_bound; lia).
    destruct (T i H) as [T1 T2], (T _ Mj) as [T3 T4]. destruct (next_angle 3 L i H) as [A1 A2]. rewrite A1 in T3. rewrite A2 in T4.
    set (j := ((i + 1) mod 3)%nat) in *. set (al := angle 3 i) in *. set (be := (al + 2 * PI / INR 3)%R) in *.
    assert (D1 := difference_moved _ _ _ _ _ _ T3 T1). assert (D2 := difference_moved _ _ _ _ _ _ T4 T2). destruct (unit_difference be al) as [U1 U2].
    assert (P1 := product_moved _ _ _ _ _ _ _ _ D1 D1 U1 U1). assert (P2 := product_moved _ _ _ _ _ _ _ _ D2 D2 U2 U2).
    assert (X : ((cos be - cos al) * (cos be - cos al) + (sin be - sin al) * (sin be - sin al) = 3)%R).
    { assert (S1 := sin2_cos2 al). assert (S2 := sin2_cos2 be). unfold Rsqr in S1, S2.
      assert (CD : (cos be * cos al + sin be * sin al = - (1 / 2))%R).
      { rewrite <- cos_minus. replace (be - al)%R with (2 * (PI / 3))%R by (unfold be; cbn [INR]; field). rewrite cos_2PI3; Lra.lra. }
      Lra.lra. }
    unfold sq_distance. destruct (Q2R_point xy (a / sq) (cosn 3%nat) (sinn 3%nat) i) as [-> ->], (Q2R_point xy (a / sq) (cosn 3%nat) (sinn 3%nat) j) as [-> ->].
    assert (NZ : ~ sq == 0) by (intros Z; rewrite Z in PS; discriminate). assert (PSR : (0 < Q2R sq)%R) by (rewrite <- Q2R_zero; apply Qlt_Rlt; exact PS).
    unfold Qdiv. rewrite Q2R_mult, Q2R_inv by exact NZ.
    match goal with |- (Rabs ?g <= _)%R => replace g with (Q2R a ^ 2 * (((Q2R (cosn 3%nat j) - Q2R (cosn 3%nat i)) * (Q2R (cosn 3%nat j) - Q2R (cosn 3%nat i)) - (cos be - cos al) * (cos be - cos al)) + ((Q2R (sinn 3%nat j) - Q2R (sinn 3%nat i)) * (Q2R (sinn 3%nat j) - Q2R (sinn 3%nat i)) - (sin be - sin al) * (sin be - sin al))))%R end.
    2: { match goal with |- (_ * ?u = _)%R => replace u with ((Q2R (cosn 3%nat j) - Q2R (cosn 3%nat i)) * (Q2R (cosn 3%nat j) - Q2R (cosn 3%nat i)) + (Q2R (sinn 3%nat j) - Q2R (sinn 3%nat i)) * (Q2R (sinn 3%nat j) - Q2R (sinn 3%nat i)) - 3)%R by Lra.lra end. field. Lra.lra. }
    assert (AA : (0 <= Q2R a ^ 2)%R) by apply pow2_ge_0. rewrite Rabs_mult, (Rabs_pos_eq _ AA).
    match goal with |- (_ * Rabs (?u + ?v) <= _)%R => assert (TR := Rabs_triang u v) end.
    apply Rle_trans with (Q2R a ^ 2 * (24 * e))%R; [apply Rmult_le_compat_l; [exact AA|]|Lra.lra]. assert ((e * e <= e)%R) by Lra.nra. Lra.lra. }
  split; [|split; [exact W|]].
  - assert (G : forall es fs, same_points es fs -> (forall f, In f fs -> (Rabs (Q2R sq ^ 2 * sq_distance (fst f) (snd f) - 3 * Q2R a ^ 2) <= 24 * e * Q2R a ^ 2)%R) ->
      forall f, In f es -> (Rabs (Q2R sq ^ 2 * sq_distance (fst f) (snd f) - 3 * Q2R a ^ 2) <= 24 * e * Q2R a ^ 2)%R).
    { intros es fs H. induction H as [|x y es fs [X1 X2] H IH]; intros K f I; [destruct I|]. destruct I as [<-|I].
      - rewrite (SD _ _ _ _ X1 X2). apply K. left. reflexivity.
      - apply IH; [intros z Z; apply K; right; exact Z|exact I]. }
    apply (G _ _ SPts). destruct (is_forward _ _); [exact SIDE|]. intros f F. unfold reverse_edges in F. apply in_rev, in_map_iff in F. destruct F as ([u v] & <- & F).
    specialize (SIDE _ F). cbn [fst snd swap_edge] in *. assert (SS : sq_distance v u = sq_distance u v) by (unfold sq_distance; ring). rewrite SS. exact SIDE.
  - apply (IN xy 0%R); [Lra.lra| |unfold sq_distance; Lra.nra]. cbn [INR]. Lra.nra.
Qed.

(* rectangles and squares *)
Theorem C63_rectangle : forall nearest bt store m xy w h size range, answers nearest -> 0 < w -> 0 < h ->
  exists store' l, set_shape_rectangle nearest bt store (no_edges bt) m xy w h size range = Ok (store', l) /\
    length (el_edges l) = 4%nat /\ (forall e, In e (el_edges l) -> be_col e = m /\ be_prop e = e_on_boundary) /\
    (forall p, vx xy - (1 # 2) * w < vx p < vx xy + (1 # 2) * w -> vy xy - (1 # 2) * h < vy p < vy xy + (1 # 2) * h -> winding p (created store' l) == turning bt) /\
    (forall p, vx p < vx xy - (1 # 2) * w \/ vx xy + (1 # 2) * w < vx p \/ vy p < vy xy - (1 # 2) * h \/ vy xy + (1 # 2) * h < vy p -> winding p (created store' l) == 0) /\
    signed_area (rect_shape xy w h) == w * h.
Proof.
  intros nearest bt store m xy w h size range A W H. set (shape := rect_shape xy w h).
  destruct (C56_rectangle xy w h W H) as [SP AR]. fold shape in SP, AR.
  assert (WH : 0 < w * h) by (apply Qmult_lt_0_compat; assumption).
  assert (C : convex_position shape).
  { intros i j k a b c [I J] X Y Z. unfold shape, rect_shape in *.
    assert (K : (k < 4)%nat) by (change 4%nat with (length (rect_shape xy w h)); apply nth_error_Some; unfold rect_shape; congruence).
    destruct i as [|[|i]]; [destruct j as [|[|[|j]]]|destruct j as [|[|[|j]]]|]; try lia; destruct k as [|[|[|[|k]]]]; try lia; cbn in X, Y, Z; injection X as <-; injection Y as <-; injection Z as <-; unfold det; cbn [vx vy]; Lqa.lra. }
  assert (S4 : length shape = 4%nat) by reflexivity.
  destruct (C63_made nearest bt store shape m size range A) as (store' & l & ext & M1 & M2 & _ & _ & M3 & M4). rewrite S4 in M1, M2, M3.
  exists store', l. split; [exact M1|]. split; [exact M3|]. split; [exact M4|].
  destruct (region_made _ _ _ _ _ _ _ _ M2 C ltac:(rewrite S4; lia)) as [W1 W0].
  split; [|split; [|exact AR]].
  - intros p P1 P2. apply W1. apply inside_convex; [exact C|rewrite S4; lia|]. intros e I.
    unfold shape, rect_shape in I. cbn [ring_edges combine tl app hd] in I.
    assert (Q1 := proj1 P1). assert (Q2 := proj2 P1). assert (Q3 := proj1 P2). assert (Q4 := proj2 P2). 
    destruct I as [<-|[<-|[<-|[<-|[]]]]]; unfold det; cbn [fst snd vx vy].
    + assert (0 < w * (vy p - (vy xy - (1 # 2) * h))) by (apply Qmult_lt_0_compat; Lqa.lra). Lqa.lra.
    + assert (0 < h * (vx xy + (1 # 2) * w - vx p)) by (apply Qmult_lt_0_compat; Lqa.lra). Lqa.lra.
    + assert (0 < w * (vy xy + (1 # 2) * h - vy p)) by (apply Qmult_lt_0_compat; Lqa.lra). Lqa.lra.
    + assert (0 < h * (vx p - (vx xy - (1 # 2) * w))) by (apply Qmult_lt_0_compat; Lqa.lra). Lqa.lra.
  - intros p P. apply W0. assert (B := ring_balanced shape).
    assert (BX : forall e, In e (ring_edges shape) -> vx xy - (1 # 2) * w <= vx (fst e) <= vx xy + (1 # 2) * w /\ vx xy - (1 # 2) * w <= vx (snd e) <= vx xy + (1 # 2) * w /\
        vy xy - (1 # 2) * h <= vy (fst e) <= vy xy + (1 # 2) * h /\ vy xy - (1 # 2) * h <= vy (snd e) <= vy xy + (1 # 2) * h).
    { intros e I. unfold shape, rect_shape in I. cbn [ring_edges combine tl app hd] in I. destruct I as [<-|[<-|[<-|[<-|[]]]]]; cbn [fst snd vx vy]; repeat split; Lqa.lra. }
    destruct P as [P|[P|[P|P]]].
    + apply (separated 1 0 (vx xy - (1 # 2) * w) p _ B); [Lqa.lra|]. intros e I. destruct (BX e I) as (X1 & X2 & X3 & X4). split; Lqa.lra.
    + apply (separated (- (1)) 0 (- (vx xy + (1 # 2) * w)) p _ B); [Lqa.lra|]. intros e I. destruct (BX e I) as (X1 & X2 & X3 & X4). split; Lqa.lra.
    + apply (separated 0 1 (vy xy - (1 # 2) * h) p _ B); [Lqa.lra|]. intros e I. destruct (BX e I) as (X1 & X2 & X3 & X4). split; Lqa.lra.
    + apply (separated 0 (- (1)) (- (vy xy + (1 # 2) * h)) p _ B); [Lqa.lra|]. intros e I. destruct (BX e I) as (X1 & X2 & X3 & X4). split; Lqa.lra.
Qed.

(* fewer than three corners: no boundary, no error *)
Theorem C63_few_refuted : exists nearest bt store m xy r n, answers nearest /\ 0 < r /\
  forall cosn sinn size range, set_shape_circle nearest bt cosn sinn store (no_edges bt) m xy r n size range = Ok (store, no_edges bt).
Proof. exists scan, EXTERIOR, [], 1%Z, (V2 0 0), 1, 2%nat. split; [intros s p; eexists; reflexivity|]. split; [reflexivity|]. intros. reflexivity. Qed.
(* a circle of radius zero: edges from a vertex to itself; a rectangle without height:
   edges on top of each other *)
Theorem C63_zero_refuted : exists cosn sinn store' l store2 l2,
  set_shape_circle scan EXTERIOR cosn sinn [] (no_edges EXTERIOR) 1%Z (V2 0 0) 0 3 1 1 = Ok (store', l) /\
  (exists e, In e (el_edges l) /\ be_v1 e = be_v2 e) /\
  set_shape_rectangle scan EXTERIOR [] (no_edges EXTERIOR) 1%Z (V2 0 0) 1 0 1 1 = Ok (store2, l2) /\
  (exists e f, In e (el_edges l2) /\ In f (el_edges l2) /\ be_v1 e = be_v2 f /\ be_v2 e = be_v1 f /\ be_v1 e <> be_v2 e).
Proof.
  exists (fun _ _ => 1), (fun _ _ => 0). do 4 eexists. split; [vm_compute; reflexivity|]. split; [eexists; split; [left; reflexivity|reflexivity]|].
  split; [vm_compute; reflexivity|]. do 2 eexists. split; [right; left; reflexivity|]. split; [right; right; right; left; reflexivity|]. split; [reflexivity|]. split; [reflexivity|]. cbn. discriminate.
Qed.
(* negative colours are taken over, the check for them is empty in a release build *)
Theorem C63_colour_refuted : exists store' l, set_shape_rectangle scan EXTERIOR [] (no_edges EXTERIOR) (-1)%Z (V2 0 0) 2 2 1 1 = Ok (store', l) /\
  forall e, In e (el_edges l) -> (be_col e < 0)%Z.
Proof. do 2 eexists. split; [vm_compute; reflexivity|]. intros e I. cbn in I. repeat (destruct I as [<-|I]; [reflexivity|]). destruct I. Qed.

(* the hypotheses hold: four corners without any error *)
Definition cos4 (n i : nat) : Q := nth i [1; 0; - (1); 0] 0.
Definition sin4 (n i : nat) : Q := nth i [0; 1; 0; - (1)] 0.
Example C63_circle_case : answers scan /\ (3 <= 4)%nat /\ near_circle 0 4 (cos4 4) (sin4 4).
Proof.
  split; [intros s p; eexists; reflexivity|]. split; [lia|].
  assert (Z0 : Q2R 0 = 0%R) by (unfold Q2R; cbn; Lra.lra). assert (Z1 : Q2R 1 = 1%R) by (unfold Q2R; cbn; field). assert (Z2 : Q2R (- (1)) = (-1)%R) by (unfold Q2R; cbn; field).
  assert (A : forall i, angle 4 i = (INR i * (PI / 2))%R) by (intros i; unfold angle; cbn [INR]; field).
  intros i I. destruct i as [|[|[|[|i]]]]; [| | | |lia]; unfold cos4, sin4; cbn [nth]; rewrite A, ?Z0, ?Z1, ?Z2; cbn [INR].
  - replace (0 * (PI / 2))%R with 0%R by ring. rewrite cos_0, sin_0, !Rminus_diag_eq, Rabs_R0 by reflexivity. split; Lra.lra.
  - replace (1 * (PI / 2))%R with (PI / 2)%R by ring. rewrite cos_PI2, sin_PI2, !Rminus_diag_eq, Rabs_R0 by reflexivity. split; Lra.lra.
  - replace ((1 + 1) * (PI / 2))%R with PI by field. rewrite cos_PI, sin_PI, !Rminus_diag_eq, Rabs_R0 by reflexivity. split; Lra.lra.
  - replace ((1 + 1 + 1) * (PI / 2))%R with (3 * (PI / 2))%R by field. rewrite cos_3PI2, sin_3PI2, !Rminus_diag_eq, Rabs_R0 by reflexivity. split; Lra.lra.
Qed.
(* three corners, the root of three rounded to three digits *)
Definition cos3 (n i : nat) : Q := nth i [1; - (1 # 2); - (1 # 2)] 0.
Definition sin3 (n i : nat) : Q := nth i [0; 433 # 500; - (433 # 500)] 0.
Example C63_triangle_case : (1 / 200 * 200 <= 1)%R /\ near_circle (1 / 200) 3 (cos3 3) (sin3 3).
Proof.
  split; [Lra.lra|].
  assert (Z0 : Q2R 0 = 0%R) by (unfold Q2R; cbn; Lra.lra). assert (Z1 : Q2R 1 = 1%R) by (unfold Q2R; cbn; field). assert (Z2 : Q2R (- (1 # 2)) = (- (1 / 2))%R) by (unfold Q2R; cbn; field).
  assert (Z3 : Q2R (433 # 500) = (433 / 500)%R) by (unfold Q2R; cbn; field). assert (Z4 : Q2R (- (433 # 500)) = (- (433 / 500))%R) by (unfold Q2R; cbn; field).
  assert (S : (1731 / 1000 <= sqrt 3 <= 1733 / 1000)%R).
  { split; [apply Rsqr_incr_0_var; [|apply sqrt_pos]|apply Rsqr_incr_0_var; [|Lra.lra]]; rewrite Rsqr_sqrt by Lra.lra; unfold Rsqr; Lra.lra. }
  assert (A : forall i, angle 3 i = (INR i * (2 * (PI / 3)))%R) by (intros i; unfold angle; cbn [INR]; field).
  intros i I. destruct i as [|[|[|i]]]; [| | |lia]; unfold cos3, sin3; cbn [nth]; rewrite A, ?Z0, ?Z1, ?Z2, ?Z3, ?Z4; cbn [INR].
  - replace (0 * (2 * (PI / 3)))%R with 0%R by ring. rewrite cos_0, sin_0. split; apply Rabs_le; Lra.lra.
  - replace (1 * (2 * (PI / 3)))%R with (2 * (PI / 3))%R by ring. rewrite cos_2PI3, sin_2PI3. split; apply Rabs_le; Lra.lra.
  - replace ((1 + 1) * (2 * (PI / 3)))%R with (PI / 3 + PI)%R by field. rewrite neg_cos, neg_sin, cos_PI3, sin_PI3. split; apply Rabs_le; Lra.lra.
Qed.
(* a boundary that is made over vertices that are already there *)
Example C63_rectangle_case : exists store' l, set_shape_square scan INTERIOR [VI (V2 1 1) 5 5 0%N] (no_edges INTERIOR) 7%Z (V2 0 0) 2 1 1 = Ok (store', l) /\
  length store' = 4%nat /\ map be_v1 (el_edges l) = [1; 3; 0; 2]%nat /\ winding (V2 0 0) (created store' l) == - (1).
Proof. do 2 eexists. split; [vm_compute; reflexivity|]. repeat split; vm_compute; reflexivity. Qed.
Theorem C63_square : forall nearest bt store m xy w size range, answers nearest -> 0 < w ->
  exists store' l, set_shape_square nearest bt store (no_edges bt) m xy w size range = Ok (store', l) /\
    length (el_edges l) = 4%nat /\
    (forall p, vx xy - (1 # 2) * w < vx p < vx xy + (1 # 2) * w -> vy xy - (1 # 2) * w < vy p < vy xy + (1 # 2) * w -> winding p (created store' l) == turning bt) /\
    signed_area (rect_shape xy w w) == w * w.
Proof.
  intros nearest bt store m xy w size range A W. destruct (C63_rectangle nearest bt store m xy w w size range A W W) as (store' & l & H1 & H2 & _ & H3 & _ & H4).
  exists store', l. split; [exact H1|]. split; [exact H2|]. split; [exact H3|exact H4].
Qed.

Print Assumptions C63_made.
Print Assumptions C63_circle.
Print Assumptions C63_again.
Print Assumptions C63_triangle.
Print Assumptions C63_rectangle.
Print Assumptions C63_few_refuted.
Print Assumptions C63_zero_refuted.
Print Assumptions C63_colour_refuted.
Print Assumptions C63_square.
