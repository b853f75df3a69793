(* Elements that do not overlap use every side once; short edges are found: proofs for
   ClearProps. *)
From Coq Require Import Lqa Lia Permutation.
From Verif Require Import Base Chain GeomModel GeomSpec GeomProofs FacetModel FacetProofs UtilModel BdryModel BdrySpec
  AdvanceModel AdvanceSpec AdvanceMore AdvanceGeom MeshModel WindSpec WindProofs PolyProofs WindProps
  ClearSpec ClearGeom ClearRun.
Open Scope Q_scope.

(* ---- elements on the same side of a segment overlap ---- *)
Lemma small_step f g : 0 < f -> exists e, 0 < e /\ e <= 1 /\ forall x, 0 < x -> x <= e -> 0 < f + x * g.
Proof.
  intros F. destruct (Qlt_le_dec g 0) as [G|G].
  - exists (f / (f - g)). assert (P : 0 < f - g) by lra.
    assert (E : f / (f - g) * (f - g) == f) by (field; lra).
    assert (E0 : 0 < f / (f - g)) by (apply Qlt_shift_div_l; lra).
    split; [exact E0|]. split; [apply Qle_shift_div_r; lra|].
    intros x X L. set (e := f / (f - g)) in *. assert (Q : 0 <= (e - x) * (f - g)) by (apply Qmult_le_0_compat; lra).
    assert (R : 0 < x * f) by (apply Qmult_lt_0_compat; assumption). lra.
  - exists 1. split; [lra|]. split; [lra|]. intros x X _. assert (0 <= x * g) by (apply Qmult_le_0_compat; lra). lra.
Qed.
Lemma same_side a b c d : 0 < det a b c -> 0 < det a b d -> exists z, WindSpec.within z a b c /\ WindSpec.within z a b d.
Proof.
  intros C D. set (m := on_seg a b (1 # 2)).
  assert (I : forall z, det a b (on_seg m c z) == z * det a b c) by (intros z; unfold m, det, on_seg; cbn [vx vy]; ring).
  assert (I1 : forall z, det b c (on_seg m c z) == (1 - z) * ((1 # 2) * det a b c)) by (intros z; unfold m, det, on_seg; cbn [vx vy]; ring).
  assert (I2 : forall z, det c a (on_seg m c z) == (1 - z) * ((1 # 2) * det a b c)) by (intros z; unfold m, det, on_seg; cbn [vx vy]; ring).
  destruct (small_step ((1 # 2) * det a b d) (det b d c - (1 # 2) * det a b d)) as (e1 & A1 & B1 & C1); [lra|].
  destruct (small_step ((1 # 2) * det a b d) (det d a c - (1 # 2) * det a b d)) as (e2 & A2 & B2 & C2); [lra|].
  assert (J1 : forall z, det b d (on_seg m c z) == (1 # 2) * det a b d + z * (det b d c - (1 # 2) * det a b d)) by (intros z; unfold m, det, on_seg; cbn [vx vy]; ring).
  assert (J2 : forall z, det d a (on_seg m c z) == (1 # 2) * det a b d + z * (det d a c - (1 # 2) * det a b d)) by (intros z; unfold m, det, on_seg; cbn [vx vy]; ring).
  assert (X : exists z, 0 < z /\ z < 1 /\ z <= e1 /\ z <= e2).
  { destruct (Qlt_le_dec e1 e2); [exists ((1 # 2) * e1)|exists ((1 # 2) * e2)]; repeat split; lra. }
  destruct X as (z & Z0 & Z1 & L1 & L2). exists (on_seg m c z). specialize (C1 z Z0 L1). specialize (C2 z Z0 L2).
  assert (P : 0 < z * det a b c) by (apply Qmult_lt_0_compat; assumption).
  assert (P1 : 0 < (1 - z) * ((1 # 2) * det a b c)) by (apply Qmult_lt_0_compat; lra).
  unfold WindSpec.within. rewrite I, I1, I2, J1, J2. repeat split; lra.
Qed.
Lemma within_turn z a b c : WindSpec.within z a b c -> WindSpec.within z b c a.
Proof. unfold WindSpec.within. tauto. Qed.
Lemma area_pos a b c : 0 < tri_area a b c -> 0 < det a b c.
Proof. intros A. assert (D := WindMesh.tri_area_det a b c). lra. Qed.
(* an element with the given directed side *)
Lemma side_of pos t p q : In (p, q) (tri_sides t) -> 0 < tri_area (pos (tr_v1 t)) (pos (tr_v2 t)) (pos (tr_v3 t)) ->
  exists r, 0 < det (pos p) (pos q) (pos r) /\ forall z, WindSpec.within z (pos p) (pos q) (pos r) -> inside_shape pos (tri_shape t) z.
Proof.
  intros I A. apply area_pos in A. cbn [tri_shape inside_shape].
  assert (E : det (pos (tr_v2 t)) (pos (tr_v3 t)) (pos (tr_v1 t)) == det (pos (tr_v1 t)) (pos (tr_v2 t)) (pos (tr_v3 t))) by (unfold det; ring).
  assert (E' : det (pos (tr_v3 t)) (pos (tr_v1 t)) (pos (tr_v2 t)) == det (pos (tr_v1 t)) (pos (tr_v2 t)) (pos (tr_v3 t))) by (unfold det; ring).
  destruct I as [I|[I|[I|[]]]]; injection I as <- <-.
  - exists (tr_v3 t). split; [lra|]. intros z H. exact H.
  - exists (tr_v1 t). split; [lra|]. intros z H. apply within_turn, within_turn. exact H.
  - exists (tr_v2 t). split; [lra|]. intros z H. apply within_turn. exact H.
Qed.
Lemma sides_shared pos t u p q : In (p, q) (tri_sides t) -> In (p, q) (tri_sides u) ->
  0 < tri_area (pos (tr_v1 t)) (pos (tr_v2 t)) (pos (tr_v3 t)) -> 0 < tri_area (pos (tr_v1 u)) (pos (tr_v2 u)) (pos (tr_v3 u)) ->
  exists z, inside_shape pos (tri_shape t) z /\ inside_shape pos (tri_shape u) z.
Proof.
  intros I J A B. destruct (side_of pos t p q I A) as (r & D & R). destruct (side_of pos u p q J B) as (s & E & S).
  destruct (same_side _ _ _ _ D E) as (z & Z1 & Z2). exists z. auto.
Qed.
Lemma uses_in a b l : In (a, b) l -> (1 <= uses a b l)%nat.
Proof.
  intros H. unfold uses. apply in_split in H. destruct H as (l1 & l2 & ->). rewrite filter_app, app_length. cbn [filter fst snd].
  rewrite !Nat.eqb_refl. cbn. lia.
Qed.
Lemma uses_some p q l : uses p q l <> 0%nat -> In (p, q) l.
Proof. intros N. destruct (in_dec (fun x y : nat * nat => ltac:(decide equality; apply Nat.eq_dec)) (p, q) l) as [I|I]; [exact I|]. exfalso. apply N, uses_zero, I. Qed.
Lemma uses_sides t p q pos : 0 < tri_area (pos (tr_v1 t)) (pos (tr_v2 t)) (pos (tr_v3 t)) -> (uses p q (tri_sides t) <= 1)%nat.
Proof.
  intros A. apply area_pos in A. unfold tri_sides. rewrite !uses_cons. cbn [uses filter length].
  assert (N1 : tr_v1 t <> tr_v2 t) by (intros E; rewrite E in A; unfold det in A; lra).
  assert (N2 : tr_v2 t <> tr_v3 t) by (intros E; rewrite E in A; unfold det in A; lra).
  assert (N3 : tr_v3 t <> tr_v1 t) by (intros E; rewrite E in A; unfold det in A; lra).
  destruct (Nat.eqb_spec (tr_v1 t) p), (Nat.eqb_spec (tr_v2 t) p), (Nat.eqb_spec (tr_v3 t) p); cbn [andb];
    try (exfalso; congruence); repeat (match goal with |- context [Nat.eqb ?a ?b] => destruct (Nat.eqb a b) end); cbn; lia.
Qed.
Lemma side_once pos ts p q : (forall t, In t ts -> 0 < tri_area (pos (tr_v1 t)) (pos (tr_v2 t)) (pos (tr_v3 t))) ->
  (forall i j t u z, nth_error ts i = Some t -> nth_error ts j = Some u -> inside_shape pos (tri_shape t) z -> inside_shape pos (tri_shape u) z -> i = j) ->
  (uses p q (sides ts) <= 1)%nat.
Proof.
  induction ts as [|t ts IH]; intros A D; [cbn; lia|]. cbn [sides flat_map]. fold (sides ts). rewrite uses_app.
  assert (U := uses_sides t p q pos (A t (or_introl eq_refl))).
  assert (IH' : (uses p q (sides ts) <= 1)%nat).
  { apply IH; [intros u I; apply A; right; exact I|]. intros i j u v z Hi Hj Z1 Z2. specialize (D (S i) (S j) u v z Hi Hj Z1 Z2). lia. }
  destruct (Nat.eq_dec (uses p q (tri_sides t)) 0) as [Z|Z]; [lia|]. destruct (Nat.eq_dec (uses p q (sides ts)) 0) as [Y|Y]; [lia|]. exfalso.
  apply uses_some in Z. apply uses_some in Y. unfold sides in Y. apply in_flat_map in Y. destruct Y as (u & Iu & Su).
  destruct (sides_shared pos t u p q Z Su (A t (or_introl eq_refl)) (A u (or_intror Iu))) as (z & Z1 & Z2).
  destruct (In_nth_error _ _ Iu) as (j & J). specialize (D 0%nat (S j) t u z eq_refl J Z1 Z2). discriminate.
Qed.

(* ---- edges that are short against the size function are found ---- *)
Lemma cauchy a b c d h k : 0 < h -> 0 < k -> a * a + b * b <= h * h -> c * c + d * d <= k * k ->
  (a + c) * (a + c) + (b + d) * (b + d) <= (h + k) * (h + k).
Proof.
  intros H K A B.
  assert (HK : 0 < h * k) by (apply Qmult_lt_0_compat; assumption).
  (* k/h (a,b) and h/k (c,d) *)
  assert (S1 := square_nonneg (k * a - h * c)). assert (S2 := square_nonneg (k * b - h * d)).
  assert (M1 : 0 <= (k * k) * (h * h - (a * a + b * b))) by (apply Qmult_le_0_compat; [apply square_nonneg|lra]).
  assert (M2 : 0 <= (h * h) * (k * k - (c * c + d * d))) by (apply Qmult_le_0_compat; [apply square_nonneg|lra]).
  assert (M : (h * k) * (a * c + b * d) <= (h * k) * (h * k)) by lra.
  assert (N : a * c + b * d <= h * k) by (apply (Qmult_le_l _ _ (h * k)); [exact HK|lra]).
  lra.
Qed.
Lemma half_way a b s : 0 <= s <= 1 -> vnorm2 (vsub (vscale (1 # 2) (vadd a b)) (on_seg a b s)) <= (1 # 4) * vnorm2 (vsub b a).
Proof.
  intros S. unfold vnorm2, vdot, vsub, vscale, vadd, on_seg. cbn [vx vy].
  set (x := vx b - vx a). set (y := vy b - vy a).
  assert (E : ((1 # 2) * (vx a + vx b) - (vx a + s * x)) * ((1 # 2) * (vx a + vx b) - (vx a + s * x)) +
    ((1 # 2) * (vy a + vy b) - (vy a + s * y)) * ((1 # 2) * (vy a + vy b) - (vy a + s * y)) == (1 # 4) * (x * x + y * y) - (s * (1 - s)) * (x * x + y * y)) by (unfold x, y; ring).
  rewrite E. assert (0 <= (s * (1 - s)) * (x * x + y * y)); [|lra].
  apply Qmult_le_0_compat; [apply Qmult_le_0_compat; lra|]. assert (X := square_nonneg x). assert (Y := square_nonneg y). lra.
Qed.
Lemma short_found rho f0 st : (forall x, 0 < rho x) ->
  (forall t, In t (generated st) -> 0 < tri_area (ms_pos st (tr_v1 t)) (ms_pos st (tr_v2 t)) (ms_pos st (tr_v3 t))) ->
  (forall t a b, In t (generated st) -> known f0 (generated st) a b ->
    (exists s, 0 <= s <= 1 /\ touching (on_seg (ms_pos st a) (ms_pos st b) s) (ms_pos st (tr_v1 t)) (ms_pos st (tr_v2 t)) (ms_pos st (tr_v3 t))) ->
    vnorm2 (vsub (ms_pos st b) (ms_pos st a)) <= ((12 # 7) * rho (tri_loc (ms_pos st) t)) * ((12 # 7) * rho (tri_loc (ms_pos st) t))) ->
  found (near rho) f0 st.
Proof.
  intros R A H t a b T K X. pose proof (H t a b T K X) as L. destruct X as (s & S & TO).
  set (pos := ms_pos st) in *. specialize (A t T). apply area_pos in A.
  set (c := tri_loc pos t) in *. set (h := rho c) in *. specialize (R c). fold h in R.
  assert (ML : max_len2 (pos (tr_v1 t)) (pos (tr_v2 t)) (pos (tr_v3 t)) <= ((12 # 7) * h) * ((12 # 7) * h)).
  { assert (SD : forall x y z, In (x, y) (tri_sides t) -> touching (pos x) (pos (tr_v1 t)) (pos (tr_v2 t)) (pos (tr_v3 t)) -> z == vnorm2 (vsub (pos y) (pos x)) -> z <= ((12 # 7) * h) * ((12 # 7) * h)).
    { intros x y z I TX Z. rewrite Z. apply (H t x y T).
      - right. left. unfold sides. apply in_flat_map. exists t. split; assumption.
      - exists 0. split; [lra|]. apply (tri_side_pos (pos x)); [exact TX|]. unfold veq, on_seg; cbn [vx vy]; split; ring. }
    unfold max_len2.
    assert (TP : touching (pos (tr_v1 t)) (pos (tr_v1 t)) (pos (tr_v2 t)) (pos (tr_v3 t))) by (unfold touching; assert (E1 : det (pos (tr_v2 t)) (pos (tr_v3 t)) (pos (tr_v1 t)) == det (pos (tr_v1 t)) (pos (tr_v2 t)) (pos (tr_v3 t))) by (unfold det; ring); rewrite det_same_l, det_same_r, E1; lra).
    assert (TQ : touching (pos (tr_v2 t)) (pos (tr_v1 t)) (pos (tr_v2 t)) (pos (tr_v3 t))) by (unfold touching; assert (E1 : det (pos (tr_v3 t)) (pos (tr_v1 t)) (pos (tr_v2 t)) == det (pos (tr_v1 t)) (pos (tr_v2 t)) (pos (tr_v3 t))) by (unfold det; ring); rewrite det_same_l, det_same_r, E1; lra).
    assert (TR : touching (pos (tr_v3 t)) (pos (tr_v1 t)) (pos (tr_v2 t)) (pos (tr_v3 t))) by (unfold touching; rewrite det_same_l, det_same_r; lra).
    assert (MX : forall x y m, x <= m -> y <= m -> Qmaxb x y <= m) by (intros x y m Hx Hy; unfold Qmaxb; destruct (Qltb _ _); assumption).
    apply MX; [|apply MX].
    - apply (SD (tr_v1 t) (tr_v2 t)); [left; reflexivity|exact TP|]. unfold edge_len2, vnorm2, vdot, vsub. cbn [vx vy]. ring.
    - apply (SD (tr_v2 t) (tr_v3 t)); [right; left; reflexivity|exact TQ|]. unfold edge_len2, vnorm2, vdot, vsub. cbn [vx vy]. ring.
    - apply (SD (tr_v3 t) (tr_v1 t)); [right; right; left; reflexivity|exact TR|]. unfold edge_len2, vnorm2, vdot, vsub. cbn [vx vy]. ring. }
  assert (RE := touching_reach _ _ _ _ A TO). fold (tri_loc pos t) in RE. fold c in RE.
  assert (HW := half_way (pos a) (pos b) s S). set (z := on_seg (pos a) (pos b) s) in *. set (m := vscale (1 # 2) (vadd (pos a) (pos b))) in *.
  unfold near, AdvanceModel.within, search2. fold c. fold h. apply Qle_bool_iff.
  eapply Qle_trans; [|apply qmax_l].
  assert (CA := cauchy (vx m - vx z) (vy m - vy z) (vx z - vx c) (vy z - vy c) ((6 # 7) * h) ((8 # 7) * h)).
  unfold vnorm2, vdot, vsub in *. cbn [vx vy] in *.
  assert (CB : (vx m - vx z + (vx z - vx c)) * (vx m - vx z + (vx z - vx c)) + (vy m - vy z + (vy z - vy c)) * (vy m - vy z + (vy z - vy c)) <= ((6 # 7) * h + (8 # 7) * h) * ((6 # 7) * h + (8 # 7) * h)).
  { apply CA; lra. }
  lra.
Qed.
