(* Convex holes in a convex plate: proofs for DomInProps. *)
From Coq Require Import Reals Qreals Lra Lia Psatz Lqa.
From Verif Require Import Base Chain GeomModel GeomSpec UtilModel BdryModel BdrySpec BdryProofs WindSpec WindProofs InsideProofs WindInside PolySpec PolyProofs PolyMain PolyProps ClearSpec ShapeModel ShapeSpec ConvexProofs CircProofs ShapeProofs DomInSpec DomInProofs PlateSpec.
Open Scope Q_scope.

(* a line with the one set of points on its one side and the other set on its other side *)
Definition line_between (l m : list vec2) : Prop := exists u v, forall p q, In p l -> In q m -> u * vx p + v * vy p < u * vx q + v * vy q.

Lemma mix_between a b c d s t : a < c -> a < d -> b < c -> b < d -> 0 <= s <= 1 -> 0 <= t <= 1 -> (1 - s) * a + s * b < (1 - t) * c + t * d.
Proof.
  intros H1 H2 H3 H4 S T.
  assert (X : exists m, a < m /\ b < m /\ m < c /\ m < d).
  { assert (E : forall x y, x < y -> x < (1 # 2) * (x + y) < y) by (intros; split; Lqa.lra).
    destruct (Qlt_le_dec a b), (Qlt_le_dec c d); [exists ((1 # 2) * (b + c)); specialize (E b c)|exists ((1 # 2) * (b + d)); specialize (E b d)|exists ((1 # 2) * (a + c)); specialize (E a c)|exists ((1 # 2) * (a + d)); specialize (E a d)]; repeat split; Lqa.lra. }
  destruct X as (m & X1 & X2 & X3 & X4).
  assert (Y : (1 - s) * a + s * b < m) by (destruct (Qlt_le_dec s (1 # 2)); Lqa.nra). assert (Z : m < (1 - t) * c + t * d) by (destruct (Qlt_le_dec t (1 # 2)); Lqa.nra). Lqa.lra.
Qed.
Lemma line_separate l m : line_between l m -> separate (ring_edges l) (ring_edges m).
Proof.
  intros (u & v & H) e f s t I J S T [E1 E2]. destruct (ring_members l e I) as [A B]. destruct (ring_members m f J) as [C D].
  assert (X := mix_between _ _ _ _ s t (H _ _ A C) (H _ _ A D) (H _ _ B C) (H _ _ B D) S T). unfold on_seg in E1, E2. cbn [vx vy] in E1, E2.
  assert (Y : u * (vx (fst e) + s * (vx (snd e) - vx (fst e))) + v * (vy (fst e) + s * (vy (snd e) - vy (fst e))) == u * (vx (fst f) + t * (vx (snd f) - vx (fst f))) + v * (vy (fst f) + t * (vy (snd f) - vy (fst f)))).
  { first [rewrite E1, E2; reflexivity|idtac]. }
  Lqa.lra.
Qed.
Lemma line_outside l m p : line_between l m -> In p l -> winding p (ring_edges m) == 0.
Proof.
  intros (u & v & H) I.
  assert (F : forall es : list (vec2 * vec2), (forall e, In e es -> In (fst e) m /\ In (snd e) m) -> exists c, u * vx p + v * vy p < c /\ forall e, In e es -> c <= u * vx (fst e) + v * vy (fst e) /\ c <= u * vx (snd e) + v * vy (snd e)).
  { induction es as [|e es IH]; intros K; [exists (u * vx p + v * vy p + 1); split; [Lqa.lra|intros e []]|].
    destruct (IH (fun x J => K x (or_intror J))) as (c & C1 & C2). destruct (K e (or_introl eq_refl)) as [K1 K2]. assert (P1 := H _ _ I K1). assert (P2 := H _ _ I K2).
    set (vi := u * vx (fst e) + v * vy (fst e)) in *. set (vj := u * vx (snd e) + v * vy (snd e)) in *.
    destruct (Qlt_le_dec vi vj) as [G|G]; [destruct (Qlt_le_dec vi c) as [G2|G2]; [exists vi|exists c]|destruct (Qlt_le_dec vj c) as [G2|G2]; [exists vj|exists c]]; (split; [Lqa.lra|]);
      intros e1 [<-|I1]; fold vi vj; (split; Lqa.lra) || (destruct (C2 e1 I1); split; Lqa.lra). }
  destruct (F (ring_edges m) (fun e J => ring_members m e J)) as (c & C1 & C2). exact (separated u v c p _ (ring_balanced m) C1 C2).
Qed.
Lemma line_back l m : line_between l m -> line_between m l.
Proof. intros (u & v & H). exists (- u), (- v). intros p q I J. specialize (H q p J I). Lqa.lra. Qed.

Lemma inner_separate l m : (forall p, In p m -> left_of_all l p) -> separate (ring_edges l) (ring_edges m).
Proof.
  intros H e f s t I J S T [E1 E2]. destruct (ring_members m f J) as [C D]. assert (P := H _ C e I). assert (Q := H _ D e I).
  assert (X : det (fst e) (snd e) (on_seg (fst f) (snd f) t) == (1 - t) * det (fst e) (snd e) (fst f) + t * det (fst e) (snd e) (snd f)) by (unfold det, on_seg; cbn [vx vy]; ring).
  assert (Y : det (fst e) (snd e) (on_seg (fst e) (snd e) s) == 0) by (unfold det, on_seg; cbn [vx vy]; ring).
  assert (Z : det (fst e) (snd e) (on_seg (fst e) (snd e) s) == det (fst e) (snd e) (on_seg (fst f) (snd f) t)) by (unfold det; rewrite E1, E2; reflexivity).
  destruct (Qlt_le_dec t (1 # 2)); Lqa.nra.
Qed.
Lemma nested_convex outer holes : convex_position outer -> (3 <= length outer)%nat -> (forall l, In l holes -> convex_position l /\ (3 <= length l)%nat /\ forall p, In p l -> left_of_all outer p) ->
  ForallOrdPairs line_between holes -> nested outer holes.
Proof.
  intros CO LO H F. constructor.
  - exact (convex_simple_polygon outer CO LO).
  - intros l I. destruct (H l I) as (C & L & _). exact (convex_simple_polygon l C L).
  - constructor; [apply Forall_forall; intros l I; apply inner_separate, (H l I)|]. clear - F. induction F as [|l m A F IH]; constructor; [|exact IH]. rewrite Forall_forall in *. intros x I. apply line_separate, A, I.
  - intros l I. destruct (H l I) as (C & L & P). destruct l as [|p l]; [cbn in L; lia|]. exists p. split; [left; reflexivity|]. rewrite (inside_convex outer CO LO p (P p (or_introl eq_refl))). discriminate.
  - assert (NE : forall l, In l holes -> exists p, In p l) by (intros l I; destruct (H l I) as (_ & L & _); destruct l as [|p l]; [cbn in L; lia|exists p; left; reflexivity]).
    clear - F NE. induction F as [|l m A F IH]; constructor; [|apply IH; intros x I; apply NE; right; exact I]. rewrite Forall_forall in *. intros x I.
    destruct (NE l (or_introl eq_refl)) as (p & Ip), (NE x (or_intror I)) as (q & Iq). assert (LB := A x I). split; [exists p|exists q]; (split; [assumption|]).
    + exact (line_outside l x p LB Ip).
    + exact (line_outside x l q (line_back _ _ LB) Iq).
Qed.

(* ---------- rectangles ---------- *)
Lemma rect_convex xy w h : 0 < w -> 0 < h -> convex_position (rect_shape xy w h).
Proof.
  intros W H. assert (WH : 0 < w * h) by (apply Qmult_lt_0_compat; assumption). intros i j k a b c [I J] X Y Z. unfold rect_shape in *.
  assert (K : (k < 4)%nat) by (change 4%nat with (length (rect_shape xy w h)); apply nth_error_Some; unfold rect_shape; congruence).
  destruct i as [|[|i]]; [destruct j as [|[|[|j]]]|destruct j as [|[|[|j]]]|]; try lia; destruct k as [|[|[|[|k]]]]; try lia; cbn in X, Y, Z; injection X as <-; injection Y as <-; injection Z as <-; unfold det; cbn [vx vy]; Lqa.lra.
Qed.
Lemma rect_left xy w h p : 0 < w -> 0 < h -> vx xy - (1 # 2) * w < vx p < vx xy + (1 # 2) * w -> vy xy - (1 # 2) * h < vy p < vy xy + (1 # 2) * h -> left_of_all (rect_shape xy w h) p.
Proof.
  intros W H [P1 P2] [P3 P4] e I. unfold rect_shape in I. cbn [ring_edges combine tl app hd] in I.
  destruct I as [<-|[<-|[<-|[<-|[]]]]]; unfold det; cbn [fst snd vx vy].
  + assert (0 < w * (vy p - (vy xy - (1 # 2) * h))) by (apply Qmult_lt_0_compat; Lqa.lra). Lqa.lra.
  + assert (0 < h * (vx xy + (1 # 2) * w - vx p)) by (apply Qmult_lt_0_compat; Lqa.lra). Lqa.lra.
  + assert (0 < w * (vy xy + (1 # 2) * h - vy p)) by (apply Qmult_lt_0_compat; Lqa.lra). Lqa.lra.
  + assert (0 < h * (vx p - (vx xy - (1 # 2) * w))) by (apply Qmult_lt_0_compat; Lqa.lra). Lqa.lra.
Qed.

(* ---------- discs ---------- *)
Open Scope R_scope.
Lemma corner_near cosn sinn xy r n e p : 0 <= e -> near_circle e n (cosn n) (sinn n) -> In p (circle_shape cosn sinn xy r n) -> sq_distance p xy <= (Q2R r * (1 + 2 * e)) ^ 2.
Proof.
  intros E0 T I. unfold circle_shape in I. apply in_map_iff in I. destruct I as (i & <- & I). apply in_seq in I. destruct (T i ltac:(lia)) as [T1 T2]. apply abs_le in T1, T2.
  unfold sq_distance. destruct (Q2R_point xy r (cosn n) (sinn n) i) as [P1 P2]. unfold point in P1, P2. rewrite P1, P2.
  set (a := angle n i) in *. assert (S := sin2_cos2 a). unfold Rsqr in S. assert (Ca := COS_bound a). assert (Sa := SIN_bound a).
  set (c := Q2R (cosn n i)) in *. set (s := Q2R (sinn n i)) in *. set (R := Q2R r) in *.
  assert (N2 : c ^ 2 + s ^ 2 <= (1 + 2 * e) ^ 2).
  { set (dc := c - cos a) in *. set (ds := s - sin a) in *. replace c with (cos a + dc) by (unfold dc; ring). replace s with (sin a + ds) by (unfold ds; ring).
    clearbody dc ds. set (ca := cos a) in *. set (sa := sin a) in *. clearbody ca sa. clear - T1 T2 S Ca Sa E0.
    assert (X1 : ca * dc <= e) by Lra.nra. assert (X2 : sa * ds <= e) by Lra.nra. assert (X3 : dc ^ 2 <= e ^ 2) by Lra.nra. assert (X4 : ds ^ 2 <= e ^ 2) by Lra.nra. Lra.nra. }
  replace ((Q2R (vx xy) + R * c - Q2R (vx xy)) ^ 2 + (Q2R (vy xy) + R * s - Q2R (vy xy)) ^ 2) with (R ^ 2 * (c ^ 2 + s ^ 2)) by ring.
  rewrite Rpow_mult_distr. apply Rmult_le_compat_l; [apply pow2_ge_0|exact N2].
Qed.
Lemma dot_le u v x y d a : 0 <= d -> 0 <= a -> u ^ 2 + v ^ 2 = d ^ 2 -> x ^ 2 + y ^ 2 <= a ^ 2 -> u * x + v * y <= d * a.
Proof.
  intros D A H K. assert (C : (u * x + v * y) ^ 2 <= (d * a) ^ 2).
  { assert (Z := pow2_ge_0 (u * y - v * x)). assert (X : (u * x + v * y) ^ 2 + (u * y - v * x) ^ 2 = d ^ 2 * (x ^ 2 + y ^ 2)) by (rewrite <- H; ring).
    assert (d ^ 2 * (x ^ 2 + y ^ 2) <= d ^ 2 * a ^ 2) by (apply Rmult_le_compat_l; [apply pow2_ge_0|exact K]). rewrite Rpow_mult_distr. Lra.lra. }
  assert (DA : 0 <= d * a) by (apply Rmult_le_pos; assumption). set (w := u * x + v * y) in *. set (z := d * a) in *. clearbody w z. clear - C DA. destruct (Rle_lt_dec w z) as [G|G]; [exact G|Lra.nra].
Qed.
Lemma discs_apart a b A B p q : 0 <= A -> 0 <= B -> (A + B) ^ 2 < sq_distance a b -> sq_distance p a <= A ^ 2 -> sq_distance q b <= B ^ 2 ->
  ((vx b - vx a) * vx p + (vy b - vy a) * vy p < (vx b - vx a) * vx q + (vy b - vy a) * vy q)%Q.
Proof.
  intros HA HB D PA QB. apply Rlt_Qlt. rewrite !Q2R_plus, !Q2R_mult, !Q2R_minus. unfold sq_distance in *.
  set (ax := Q2R (vx a)) in *. set (ay := Q2R (vy a)) in *. set (bx := Q2R (vx b)) in *. set (by_ := Q2R (vy b)) in *. set (px := Q2R (vx p)) in *. set (py := Q2R (vy p)) in *. set (qx := Q2R (vx q)) in *. set (qy := Q2R (vy q)) in *.
  set (d := sqrt ((bx - ax) ^ 2 + (by_ - ay) ^ 2)).
  assert (D0 : 0 <= (bx - ax) ^ 2 + (by_ - ay) ^ 2) by (assert (X := pow2_ge_0 (bx - ax)); assert (Y := pow2_ge_0 (by_ - ay)); Lra.lra).
  assert (DD : (bx - ax) ^ 2 + (by_ - ay) ^ 2 = d ^ 2) by (unfold d; rewrite pow2_sqrt; [reflexivity|exact D0]). assert (DP : 0 <= d) by apply sqrt_pos.
  assert (K1 := dot_le (bx - ax) (by_ - ay) (px - ax) (py - ay) d A DP HA DD PA).
  assert (K2 := dot_le (bx - ax) (by_ - ay) (bx - qx) (by_ - qy) d B DP HB DD ltac:(Lra.nra)).
  assert (K3 : A + B < d) by (assert ((A + B) ^ 2 < d ^ 2) by (rewrite <- DD; replace ((bx - ax) ^ 2 + (by_ - ay) ^ 2) with ((ax - bx) ^ 2 + (ay - by_) ^ 2) by ring; exact D); Lra.nra).
  assert (K4 : d * (A + B) < d * d) by (apply Rmult_lt_compat_l; Lra.lra).
  assert (K5 : (bx - ax) * (bx - ax) + (by_ - ay) * (by_ - ay) = d * d) by (rewrite <- (Rmult_1_r (d * d)); replace (d * d * 1) with (d ^ 2) by ring; rewrite <- DD; ring).
  clearbody d. clear - K1 K2 K4 K5. Lra.lra.
Qed.
Lemma near_box p a A x y w h : 0 <= A -> sq_distance p a <= A ^ 2 ->
  Q2R x - Q2R w / 2 + A < Q2R (vx a) < Q2R x + Q2R w / 2 - A -> Q2R y - Q2R h / 2 + A < Q2R (vy a) < Q2R y + Q2R h / 2 - A ->
  (x - (1 # 2) * w < vx p < x + (1 # 2) * w /\ y - (1 # 2) * h < vy p < y + (1 # 2) * h)%Q.
Proof.
  intros HA D [X1 X2] [Y1 Y2]. unfold sq_distance in D. set (u := Q2R (vx p) - Q2R (vx a)) in *. set (v := Q2R (vy p) - Q2R (vy a)) in *.
  assert (U : - A <= u <= A) by (assert (0 <= v ^ 2) by apply pow2_ge_0; clearbody u v; clear - D H HA; split; Lra.nra).
  assert (V : - A <= v <= A) by (assert (0 <= u ^ 2) by apply pow2_ge_0; clearbody u v; clear - D H HA; split; Lra.nra).
  assert (HF : Q2R (1 # 2) = 1 / 2) by (unfold Q2R; cbn; Lra.lra).
  repeat split; apply Rlt_Qlt; rewrite ?Q2R_plus, ?Q2R_minus, ?Q2R_mult, HF; unfold u, v in *; Lra.lra.
Qed.

Lemma circle_outside cosn sinn o e p : (3 <= ho_n o)%nat -> (0 < ho_r o)%Q -> near_circle e (ho_n o) (cosn (ho_n o)) (sinn (ho_n o)) ->
  reach e o ^ 2 < sq_distance p (ho_xy o) -> (winding p (ring_edges (circle_shape cosn sinn (ho_xy o) (ho_r o) (ho_n o))) == 0)%Q.
Proof.
  intros L R0 T P. assert (Q := circle_right cosn sinn (ho_xy o) (ho_r o) (ho_n o) e T p R0 P). apply (line_outside [p]); [|left; reflexivity].
  exists (- (vx p - vx (ho_xy o)))%Q, (- (vy p - vy (ho_xy o)))%Q. intros a b [<-|[]] I. unfold circle_shape in I. apply in_map_iff in I. destruct I as (i & <- & I). apply in_seq in I. exact (Q i ltac:(lia)).
Qed.
Lemma radius_pos o : (0 < ho_r o)%Q -> 0 < radius o.
Proof. intros R0. unfold radius. replace 0 with (Q2R 0) by (unfold Q2R; cbn; Lra.lra). apply Qlt_Rlt, R0. Qed.
Lemma circles_nested cosn sinn e xy w h os : 0 <= e -> (0 < w)%Q -> (0 < h)%Q -> (forall o, In o os -> in_plate cosn sinn e xy w h o) -> ForallOrdPairs (holes_apart e) os ->
  nested (rect_shape xy w h) (map (fun o => circle_shape cosn sinn (ho_xy o) (ho_r o) (ho_n o)) os).
Proof.
  intros E0 W H IP AP.
  assert (RE : forall o, In o os -> 0 <= reach e o) by (intros o I; assert (X := radius_pos o (ip_radius _ _ _ _ _ _ _ (IP o I))); unfold reach; apply Rmult_le_pos; Lra.lra).
  assert (CN : forall o p, In o os -> In p (circle_shape cosn sinn (ho_xy o) (ho_r o) (ho_n o)) -> sq_distance p (ho_xy o) <= reach e o ^ 2).
  { intros o p I J. exact (corner_near cosn sinn _ _ _ e p E0 (ip_circle _ _ _ _ _ _ _ (IP o I)) J). }
  apply nested_convex; [apply rect_convex; assumption|cbn; lia| |].
  - intros l I. apply in_map_iff in I. destruct I as (o & <- & I). destruct (IP o I) as [N R0 E3 T X Y].
    split; [apply (circle_convex cosn sinn _ _ _ e N E0 E3 T); intros Z; rewrite Z in R0; discriminate|]. split; [rewrite shape_length; exact N|].
    intros p J. destruct (near_box p (ho_xy o) (reach e o) (vx xy) (vy xy) w h (RE o I) (CN o p I J) X Y). apply rect_left; assumption.
  - clear IP. induction AP as [|o l A F IH]; cbn [map]; constructor.
    + rewrite Forall_forall in *. intros m I. apply in_map_iff in I. destruct I as (o2 & <- & I). exists (vx (ho_xy o2) - vx (ho_xy o))%Q, (vy (ho_xy o2) - vy (ho_xy o))%Q.
      intros p q Ip Iq. refine (discs_apart (ho_xy o) (ho_xy o2) (reach e o) (reach e o2) p q _ _ (A o2 I) _ _); [apply RE|apply RE|apply CN; [|exact Ip]|apply CN; [|exact Iq]]; (left; reflexivity) || (right; exact I).
    + apply IH; intros; [apply RE|apply CN]; try (right; assumption); assumption.
Qed.
Lemma convex_area_pos l : convex_position l -> (3 <= length l)%nat -> (0 < signed_area l)%Q.
Proof.
  intros C L. destruct (C56_polygon l (convex_simple_polygon l C L)) as [(A & _)|(_ & _ & p & P)]; [exact A|exfalso]. destruct (convex_winding l C L p) as [X|X]; rewrite X in P; discriminate.
Qed.
Lemma hole_area cosn sinn e xy w h o : 0 <= e -> in_plate cosn sinn e xy w h o ->
  PI * radius o ^ 2 - (11 * PI / INR (ho_n o) ^ 2 + 3 * INR (ho_n o) * e) * radius o ^ 2 <= Q2R (Qabs.Qabs (signed_area (circle_shape cosn sinn (ho_xy o) (ho_r o) (ho_n o)))) <=
  PI * radius o ^ 2 + (11 * PI / INR (ho_n o) ^ 2 + 3 * INR (ho_n o) * e) * radius o ^ 2.
Proof.
  intros E0 [N R0 E3 T X Y]. set (shape := circle_shape cosn sinn (ho_xy o) (ho_r o) (ho_n o)). set (n := ho_n o) in *.
  assert (C : convex_position shape) by (apply (circle_convex cosn sinn _ _ _ e N E0 E3 T); intros Z; rewrite Z in R0; discriminate).
  assert (AP := convex_area_pos shape C ltac:(unfold shape; rewrite shape_length; exact N)).
  rewrite (Qeq_eqR _ _ (Qabs.Qabs_pos _ (Qlt_le_weak _ _ AP))). destruct (small_error n e N E0 E3) as [_ S1].
  assert (AR := circle_area cosn sinn (ho_xy o) (ho_r o) n e N E0 T S1). apply abs_le in AR. fold shape in AR. destruct (polygon_and_circle n N) as [B1 B2]. fold (radius o) in AR.
  assert (RP : 0 <= radius o ^ 2) by apply pow2_ge_0. assert (B3 := Rmult_le_compat_r _ _ _ RP B1). assert (B4 := Rmult_le_compat_r _ _ _ RP B2).
  assert (NP := nat_ge3 n N). assert (K : 0 <= 11 * PI / INR n ^ 2 * radius o ^ 2).
  { apply Rmult_le_pos; [|exact RP]. apply Rlt_le, Rdiv_lt_0_compat; [assert (P := pi_gt3); Lra.lra|apply pow_lt; Lra.lra]. }
  replace (PI * (1 - 11 / INR n ^ 2) * radius o ^ 2) with (PI * radius o ^ 2 - 11 * PI / INR n ^ 2 * radius o ^ 2) in B3 by (field; Lra.lra).
  set (q := 11 * PI / INR n ^ 2) in *. clearbody q. clear - AR B3 B4 K. set (k := INR n / 2 * radius o ^ 2 * sin (2 * PI / INR n)) in *. replace (INR n / 2 * sin (2 * PI / INR n) * radius o ^ 2) with k in * by (unfold k; ring). clearbody k.
  replace ((q + 3 * INR n * e) * radius o ^ 2) with (q * radius o ^ 2 + 3 * INR n * e * radius o ^ 2) by ring. Lra.lra.
Qed.
