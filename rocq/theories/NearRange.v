(* Segments that touch an element are in the range of the search around its centroid if the
   edges are short against the size function. *)
From Coq Require Import Lqa.
From Verif Require Import Base GeomModel GeomSpec FacetModel UtilModel BdryModel BdrySpec AdvanceModel AdvanceSpec AdvanceGeom WindSpec WindProofs PolySpec ClearSpec.
Open Scope Q_scope.

Lemma sqr_pos (a : Q) : 0 <= a * a.
Proof. nra. Qed.
Lemma sq_pos (a b : Q) : 0 <= a * a + b * b.
Proof. nra. Qed.
(* triangle inequality for bounds on squares *)
Lemma sq_sum (a b c d p q : Q) : 0 <= p -> 0 <= q -> a * a + b * b <= p * p -> c * c + d * d <= q * q -> (a + c) * (a + c) + (b + d) * (b + d) <= (p + q) * (p + q).
Proof.
  intros P Q A B. assert (C : a * c + b * d <= p * q).
  { destruct (Qlt_le_dec (p * q) (a * c + b * d)) as [H|H]; [exfalso|exact H].
    assert (X : (a * c + b * d) * (a * c + b * d) <= (a * a + b * b) * (c * c + d * d)) by (assert (Y := sqr_pos (a * d - b * c)); lra).
    assert (Y : (a * a + b * b) * (c * c + d * d) <= (p * p) * (q * q)).
    { apply Qle_trans with ((p * p) * (c * c + d * d)); [apply Qmult_le_compat_r; [exact A|apply sq_pos]|].
      rewrite !(Qmult_comm (p * p)). apply Qmult_le_compat_r; [exact B|apply sqr_pos]. }
    assert (Z : 0 <= p * q) by (apply Qmult_le_0_compat; assumption). clear A B. assert (T : (p * q) * (p * q) < (a * c + b * d) * (a * c + b * d)) by (clear X Y; revert H Z; generalize (a * c + b * d) (p * q); clear; intros u v H Z; nra). lra. }
  lra.
Qed.
(* the square of a mean is at most the mean of the squares *)
Lemma mean_sq (w1 w2 w3 u1 u2 u3 : Q) : 0 <= w1 -> 0 <= w2 -> 0 <= w3 ->
  (w1 * u1 + w2 * u2 + w3 * u3) * (w1 * u1 + w2 * u2 + w3 * u3) <= (w1 + w2 + w3) * (w1 * (u1 * u1) + w2 * (u2 * u2) + w3 * (u3 * u3)).
Proof.
  intros A B C. assert (X : 0 <= (w1 * w2) * ((u1 - u2) * (u1 - u2)) + (w1 * w3) * ((u1 - u3) * (u1 - u3)) + (w2 * w3) * ((u2 - u3) * (u2 - u3))).
  { assert (P : forall x y z, 0 <= x -> 0 <= y -> 0 <= (x * y) * (z * z)) by (intros; apply Qmult_le_0_compat; [apply Qmult_le_0_compat; assumption|apply sqr_pos]).
    assert (P1 := P w1 w2 (u1 - u2) A B). assert (P2 := P w1 w3 (u1 - u3) A C). assert (P3 := P w2 w3 (u2 - u3) B C). lra. }
  lra.
Qed.

Section Triangle.
Variables a b c : vec2.
Let g := tri_centroid a b c.
(* three times the distance from the centroid to a corner *)
Lemma from_corner (u v w : vec2) L : (forall k : vec2 -> Q, k = vx \/ k = vy -> 3 * k (tri_centroid a b c) == k u + k v + k w) ->
  edge_len2 u v <= L * L -> edge_len2 u w <= L * L -> vnorm2 (vsub u (tri_centroid a b c)) <= (4 # 9) * (L * L).
Proof.
  intros G A B. assert (GX := G vx (or_introl eq_refl)). assert (GY := G vy (or_intror eq_refl)). clear G. unfold edge_len2, vnorm2, vdot, vsub in *. cbn [vx vy] in *.
  set (gx := vx (tri_centroid a b c)) in *. set (gy := vy (tri_centroid a b c)) in *. clearbody gx gy.
  assert (EX : vx u - gx == (1 # 3) * ((vx u - vx v) + (vx u - vx w))) by lra. assert (EY : vy u - gy == (1 # 3) * ((vy u - vy v) + (vy u - vy w))) by lra.
  rewrite EX, EY. assert (S1 := sqr_pos ((vx u - vx v) - (vx u - vx w))). assert (S2 := sqr_pos ((vy u - vy v) - (vy u - vy w))). lra.
Qed.
Lemma from_centroid x L : 0 < det a b c -> touching x a b c ->
  edge_len2 a b <= L * L -> edge_len2 b c <= L * L -> edge_len2 c a <= L * L -> vnorm2 (vsub x (tri_centroid a b c)) <= (4 # 9) * (L * L).
Proof.
  intros D (W3 & W1 & W2) A B C.
  assert (sym : forall p q, edge_len2 p q == edge_len2 q p) by (intros p q; unfold edge_len2, vnorm2, vdot, vsub; cbn [vx vy]; ring).
  assert (T : forall k : vec2 -> Q, k = vx \/ k = vy -> 3 * k (tri_centroid a b c) == k a + k b + k c) by (intros k [-> | ->]; unfold tri_centroid; cbn [vx vy]; field).
  assert (NA := from_corner a b c L T A ltac:(rewrite sym; exact C)).
  assert (NB := from_corner b c a L ltac:(intros k K; rewrite (T k K); ring) B ltac:(rewrite sym; exact A)).
  assert (NC := from_corner c a b L ltac:(intros k K; rewrite (T k K); ring) C ltac:(rewrite sym; exact B)).
  set (G := tri_centroid a b c) in *. clearbody G. clear T A B C.
  set (w1 := det b c x) in *. set (w2 := det c a x) in *. set (w3 := det a b x) in *.
  assert (SW : w1 + w2 + w3 == det a b c) by (unfold w1, w2, w3, det; ring).
  assert (EX : det a b c * (vx x - vx G) == w1 * (vx a - vx G) + w2 * (vx b - vx G) + w3 * (vx c - vx G)) by (unfold w1, w2, w3, det; ring).
  assert (EY : det a b c * (vy x - vy G) == w1 * (vy a - vy G) + w2 * (vy b - vy G) + w3 * (vy c - vy G)) by (unfold w1, w2, w3, det; ring).
  assert (M1 := mean_sq w1 w2 w3 (vx a - vx G) (vx b - vx G) (vx c - vx G) W1 W2 W3). assert (M2 := mean_sq w1 w2 w3 (vy a - vy G) (vy b - vy G) (vy c - vy G) W1 W2 W3).
  rewrite <- EX in M1. rewrite <- EY in M2. rewrite SW in M1, M2. clear EX EY. clearbody w1 w2 w3. set (d := det a b c) in *. clearbody d.
  unfold vnorm2, vdot, vsub in *. cbn [vx vy] in *. set (R := (4 # 9) * (L * L)) in *. clearbody R.
  assert (K : forall w n, 0 <= w -> n <= R -> w * n <= w * R) by (intros w n P H; rewrite !(Qmult_comm w); apply Qmult_le_compat_r; assumption).
  assert (K1 := K w1 _ W1 NA). assert (K2 := K w2 _ W2 NB). assert (K3 := K w3 _ W3 NC). clear K NA NB NC.
  set (X := (vx x - vx G) * (vx x - vx G) + (vy x - vy G) * (vy x - vy G)).
  assert (F : d * (d * X) <= d * (d * R)).
  { apply Qle_trans with (d * (w1 * ((vx a - vx G) * (vx a - vx G) + (vy a - vy G) * (vy a - vy G)) + w2 * ((vx b - vx G) * (vx b - vx G) + (vy b - vy G) * (vy b - vy G)) + w3 * ((vx c - vx G) * (vx c - vx G) + (vy c - vy G) * (vy c - vy G)))).
    - unfold X. lra.
    - rewrite !(Qmult_comm d). apply Qmult_le_compat_r; [|lra]. rewrite <- SW. lra. }
  destruct (Qlt_le_dec R X) as [H|H]; [exfalso|exact H]. clear M1 M2 K1 K2 K3. clearbody X. apply (Qlt_not_le (d * (d * R)) (d * (d * X))); [|exact F]. apply Qmult_lt_l; [exact D|]. apply Qmult_lt_l; [exact D|exact H].
Qed.
End Triangle.

Lemma len_sym p q : edge_len2 p q == edge_len2 q p.
Proof. unfold edge_len2, vnorm2, vdot, vsub. cbn [vx vy]. ring. Qed.
Lemma mid_near p q s L : 0 <= s <= 1 -> edge_len2 p q <= L * L ->
  vnorm2 (vsub (vscale (1 # 2) (vadd p q)) (on_seg p q s)) <= ((1 # 2) * L) * ((1 # 2) * L).
Proof.
  intros S E. unfold edge_len2, vnorm2, vdot, vsub, vscale, vadd, on_seg in *. cbn [vx vy] in *.
  set (x := vx q - vx p) in *. set (y := vy q - vy p) in *.
  assert (X1 : (1 # 2) * (vx p + vx q) - (vx p + s * x) == ((1 # 2) - s) * x) by (unfold x; ring). assert (Y1 : (1 # 2) * (vy p + vy q) - (vy p + s * y) == ((1 # 2) - s) * y) by (unfold y; ring).
  rewrite X1, Y1. clear X1 Y1. clearbody x y. assert (B : ((1 # 2) - s) * ((1 # 2) - s) <= (1 # 4)) by nra.
  assert (N := sq_pos x y). assert (K := Qmult_le_compat_r _ _ (x * x + y * y) B N). lra.
Qed.

(* Around every point where a segment and an element meet the edges are not longer than
   12/7 of the size function at the centroid of the element. *)
Definition graded (rho : vec2 -> Q) (f0 : list bedge) (st : mstate) : Prop :=
  forall t a b, In t (generated st) -> known f0 (generated st) a b ->
    (exists s, 0 <= s <= 1 /\ touching (on_seg (ms_pos st a) (ms_pos st b) s) (ms_pos st (tr_v1 t)) (ms_pos st (tr_v2 t)) (ms_pos st (tr_v3 t))) ->
    exists L, 0 <= L /\ 7 * L <= 12 * rho (tri_loc (ms_pos st) t) /\ edge_len2 (ms_pos st a) (ms_pos st b) <= L * L /\
      edge_len2 (ms_pos st (tr_v1 t)) (ms_pos st (tr_v2 t)) <= L * L /\ edge_len2 (ms_pos st (tr_v2 t)) (ms_pos st (tr_v3 t)) <= L * L /\
      edge_len2 (ms_pos st (tr_v3 t)) (ms_pos st (tr_v1 t)) <= L * L.
Lemma graded_found rho f0 st : (forall t, In t (generated st) -> 0 < det (ms_pos st (tr_v1 t)) (ms_pos st (tr_v2 t)) (ms_pos st (tr_v3 t))) ->
  graded rho f0 st -> found (AdvanceGeom.near rho) f0 st.
Proof.
  intros P G t a b T K HS. destruct (G t a b T K HS) as (L & L0 & LR & LE & L1 & L2 & L3). destruct HS as (s & S & W).
  assert (C := from_centroid _ _ _ _ L (P t T) W L1 L2 L3). assert (M := mid_near _ _ s L S LE).
  unfold near, AdvanceModel.within. apply Qleb_true. unfold search2. fold (tri_loc (ms_pos st) t) in C. set (g := tri_loc (ms_pos st) t) in *. set (r := rho g) in *.
  assert (B : vnorm2 (vsub (vscale (1 # 2) (vadd (ms_pos st a) (ms_pos st b))) g) <= 4 * r * r).
  { set (m := vscale (1 # 2) (vadd (ms_pos st a) (ms_pos st b))) in *. set (x := on_seg (ms_pos st a) (ms_pos st b) s) in *. clearbody m x g r. clear - C M L0 LR.
    unfold vnorm2, vdot, vsub in *. cbn [vx vy] in *.
    assert (X := sq_sum (vx m - vx x) (vy m - vy x) (vx x - vx g) (vy x - vy g) ((1 # 2) * L) ((2 # 3) * L) ltac:(lra) ltac:(lra) M ltac:(lra)).
    assert (E : (vx m - vx g) * (vx m - vx g) + (vy m - vy g) * (vy m - vy g) == (vx m - vx x + (vx x - vx g)) * (vx m - vx x + (vx x - vx g)) + (vy m - vy x + (vy x - vy g)) * (vy m - vy x + (vy x - vy g))) by ring.
    rewrite E. clear E. eapply Qle_trans; [exact X|]. clear - L0 LR. nra. }
  eapply Qle_trans; [exact B|]. unfold Qmaxb. match goal with |- context [Qltb ?u ?v] => destruct (Qltb u v) eqn:Q end; [apply Qle_refl|]. apply Qltb_false in Q. exact Q.
Qed.
