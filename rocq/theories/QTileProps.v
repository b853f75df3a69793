(* Property C55: quad layers cover the region between the old and the new front. *)
From Coq Require Import Lia Lqa Permutation Qabs.
From Verif Require Import Base Chain GeomModel GeomSpec FacetModel UtilModel BdryModel BdrySpec BdryProofs
  AdvanceModel AdvanceSpec AdvanceProofs AdvanceInv AdvanceMore LoopModel MeshModel WindSpec WindProofs WindMesh
  QLayerModel QLayerSpec QLayerProofs QLayerProps QTileSpec QTileProofs QTileSetup.
Open Scope Q_scope.

Lemma guarded_fits tri_ok s t : guarded tri_ok s t = true -> fits s t.
Proof.
  unfold guarded. rewrite !andb_true_iff. intros ((_ & H) & _) a b I. unfold fits_b in H. rewrite forallb_forall in H. specialize (H (a, b) I).
  apply andb_true_iff in H. cbn [fst snd] in H. rewrite Nat.eqb_eq, Nat.leb_le in H. exact H.
Qed.
Lemma guarded_positive tri_ok s t : guarded tri_ok s t = true -> 0 < det (ms_pos s (tr_v1 t)) (ms_pos s (tr_v2 t)) (ms_pos s (tr_v3 t)).
Proof. unfold guarded. rewrite !andb_true_iff. intros (_ & H). apply Qltb_true in H. exact H. Qed.
Lemma meshed_base m : meshed m <-> base_ok m /\ simple_elements m.
Proof.
  unfold meshed, base_ok, quads_lt, simple_elements. split.
  - intros (W & Q & S). split; [split; [exact W|]|exact S]. intros q Hq v Hv. exact (Q q v Hq Hv).
  - intros ((W & Q) & S). split; [exact W|]. split; [|exact S]. intros q v Hq Hv. exact (Q q Hq v Hv).
Qed.

Lemma winding_flat p pos ss : winding p (flat_map (fun s => map (fun e => (pos (fst e), pos (snd e))) (ring_edges (corners s))) ss) ==
  esum (at_pos pos p) (flat_map shape_sides ss).
Proof.
  unfold winding. induction ss as [|s ss IH]; [reflexivity|]. cbn [flat_map]. rewrite !esum_app, IH. apply Qplus_comp; [|reflexivity].
  unfold shape_sides. induction (ring_edges (corners s)) as [|[a b] l IHl]; [reflexivity|]. cbn [map esum fst snd]. rewrite IHl. reflexivity.
Qed.
Lemma winding_front m p : front_winding m p == esum (at_pos (ms_pos m) p) (ends (ms_front m)).
Proof.
  unfold front_winding, winding, front_lines, ends. induction (ms_front m) as [|e l IH]; [reflexivity|]. cbn [map esum]. rewrite IH. reflexivity.
Qed.
Lemma crossing_total p m : gtotal (crossing p) m == covered m p + front_winding m p.
Proof. unfold covered. rewrite winding_flat, winding_front. reflexivity. Qed.
Lemma sides_shape_area pos s : esum (w_area pos) (shape_sides s) == shape_area pos s.
Proof. destruct s; unfold shape_sides, w_area, shape_area, tri_area, vcross, vsub; cbn; ring. Qed.
Lemma area_total m : gtotal (fun a b => vx a * vy b - vx b * vy a) m == 2 * (element_area m + enclosed (ms_pos m) (ms_front m)).
Proof.
  unfold gtotal, total. rewrite enclosed_area. unfold element_area.
  assert (A : forall l, esum (of_pos (fun a b => vx a * vy b - vx b * vy a) (ms_pos m)) l == 2 * esum (w_area (ms_pos m)) l).
  { induction l as [|[a b] l IH]; [reflexivity|]. cbn [esum]. rewrite IH. unfold of_pos, w_area, vcross. ring. }
  rewrite !A. assert (B : esum (w_area (ms_pos m)) (flat_map shape_sides (elements m)) == sumQ (map (shape_area (ms_pos m)) (elements m))).
  { induction (elements m) as [|s l IH]; [reflexivity|]. cbn [flat_map map sumQ]. rewrite esum_app, IH, sides_shape_area. reflexivity. }
  rewrite B. ring.
Qed.

(* ---- any number of layers ---- *)
(* The elements own every point as often as the elements and the front before the
   layers wind around it, less the front that is left.  Missing: layers that move a
   vertex (C55_refuted) and triangles that overlap the front.  The latter are excluded
   by the added test of [guarded]: the theorem applies to a run of the code whenever
   that test never decides, so that both runs are the same. *)
Theorem C55_layers_partial : forall norm sin_half cos_ang sharp rho mesh_scale tri_ok vtx_ok qual query n st height rate xs xe st' ok hs,
  meshed (q_m st) ->
  layers norm sin_half cos_ang sharp rho mesh_scale (guarded tri_ok) vtx_ok qual query n st height rate xs xe = Ok (st', ok, hs) ->
  layers_still norm sin_half cos_ang sharp rho mesh_scale (guarded tri_ok) vtx_ok qual query n st height rate xs xe ->
  vertices_in front_scale (q_m st') -> vertices_in mesh_scale (q_m st') ->
  meshed (q_m st') /\ still (q_m st) (q_m st') /\
  tiles (ms_pos (q_m st')) (elements (q_m st'))
        (fun p => covered (q_m st) p + front_winding (q_m st) p - front_winding (q_m st') p) /\
  element_area (q_m st') + enclosed (ms_pos (q_m st')) (ms_front (q_m st')) ==
  element_area (q_m st) + enclosed (ms_pos (q_m st)) (ms_front (q_m st)) /\
  (closed (ms_front (q_m st)) -> closed (ms_front (q_m st'))).
Proof.
  intros norm sin_half cos_ang sharp rho mesh_scale tri_ok vtx_ok qual query n st height rate xs xe st' ok hs M H T VF VM.
  apply meshed_base in M. destruct M as [B S].
  destruct (layers_spec norm sin_half cos_ang sharp rho mesh_scale (guarded tri_ok) vtx_ok qual query (guarded_fits tri_ok) (guarded_positive tri_ok)
              n st height rate xs xe st' ok hs B H) as (B' & N & _ & _ & _ & L).
  destruct (L T) as [K R]. destruct (R (conj VF VM)) as (S' & C & G). specialize (S' S).
  split; [apply meshed_base; split; assumption|]. split; [exact K|]. split; [|split; [|exact C]].
  - intros p. destruct (all_owned (ms_pos (q_m st')) p (elements (q_m st')) S') as [bs [O E]]. exists bs. split; [exact O|].
    rewrite E. pose proof (G _ (crossing_straight p)) as X. rewrite !crossing_total in X. unfold covered at 1 in X. rewrite winding_flat in X. lra.
  - pose proof (G _ area_straight) as X. rewrite !area_total in X. lra.
Qed.

Lemma fresh_meshed m : wf m -> generated m = [] -> ms_quads m = [] -> meshed m.
Proof.
  intros W G Q. apply meshed_base. split; [split; [exact W|intros q Hq; rewrite Q in Hq; destruct Hq]|].
  intros s Hs. unfold elements in Hs. rewrite G, Q in Hs. destruct Hs.
Qed.
Lemma fresh_covered m p : generated m = [] -> ms_quads m = [] -> covered m p = 0.
Proof. intros G Q. unfold covered, elements. rewrite G, Q. reflexivity. Qed.

(* on a new front: elements and remaining front together are the initial front;
   no two elements overlap if the initial front is a simple curve and the one that
   is left winds nowhere negatively *)
Theorem C55_domain_partial : forall norm sin_half cos_ang sharp rho mesh_scale tri_ok vtx_ok qual query n st height rate xs xe st' ok hs,
  wf (q_m st) -> generated (q_m st) = [] -> ms_quads (q_m st) = [] ->
  layers norm sin_half cos_ang sharp rho mesh_scale (guarded tri_ok) vtx_ok qual query n st height rate xs xe = Ok (st', ok, hs) ->
  layers_still norm sin_half cos_ang sharp rho mesh_scale (guarded tri_ok) vtx_ok qual query n st height rate xs xe ->
  vertices_in front_scale (q_m st') -> vertices_in mesh_scale (q_m st') ->
  tiles (ms_pos (q_m st')) (elements (q_m st')) (fun p => front_winding (q_m st) p - front_winding (q_m st') p) /\
  (simple_region (front_winding (q_m st)) -> (forall p, 0 <= front_winding (q_m st') p) ->
   forall i j s t p, i <> j -> nth_error (elements (q_m st')) i = Some s -> nth_error (elements (q_m st')) j = Some t ->
     ~ (inside_shape (ms_pos (q_m st')) s p /\ inside_shape (ms_pos (q_m st')) t p)).
Proof.
  intros norm sin_half cos_ang sharp rho mesh_scale tri_ok vtx_ok qual query n st height rate xs xe st' ok hs W G Q H T VF VM.
  destruct (C55_layers_partial norm sin_half cos_ang sharp rho mesh_scale tri_ok vtx_ok qual query n st height rate xs xe st' ok hs
              (fresh_meshed _ W G Q) H T VF VM) as (_ & _ & X & _).
  assert (Y : tiles (ms_pos (q_m st')) (elements (q_m st')) (fun p => front_winding (q_m st) p - front_winding (q_m st') p)).
  { eapply tiles_eq; [|exact X]. intros p. cbv beta. rewrite (fresh_covered _ _ G Q). ring. }
  split; [exact Y|]. intros R P i j s t p N Hi Hj [Is It]. apply N.
  apply (tiles_disjoint _ _ _ Y) with (s := s) (t := t) (p := p); try assumption.
  intros q. specialize (R q). specialize (P q). lra.
Qed.

(* around a closed loop no vertex is moved: the assumption is not needed *)
Theorem C55_closed_partial : forall norm sin_half cos_ang sharp rho mesh_scale tri_ok vtx_ok qual query n st height rate x st' ok hs,
  meshed (q_m st) ->
  layers norm sin_half cos_ang sharp rho mesh_scale (guarded tri_ok) vtx_ok qual query n st height rate x x = Ok (st', ok, hs) ->
  (forall v, (v < ms_nv (q_m st))%nat -> ms_pos (q_m st') v = ms_pos (q_m st) v) /\
  (vertices_in front_scale (q_m st') -> vertices_in mesh_scale (q_m st') ->
   tiles (ms_pos (q_m st')) (elements (q_m st'))
         (fun p => covered (q_m st) p + front_winding (q_m st) p - front_winding (q_m st') p) /\
   (closed (ms_front (q_m st)) -> closed (ms_front (q_m st')))).
Proof.
  intros norm sin_half cos_ang sharp rho mesh_scale tri_ok vtx_ok qual query n st height rate x st' ok hs M H.
  destruct (proj1 (meshed_base _) M) as [B S].
  destruct (layers_spec norm sin_half cos_ang sharp rho mesh_scale (guarded tri_ok) vtx_ok qual query (guarded_fits tri_ok) (guarded_positive tri_ok)
              n st height rate x x st' ok hs B H) as (_ & _ & _ & _ & K & _).
  destruct (K eq_refl) as [K1 K2]. split; [exact K1|]. intros VF VM.
  destruct (C55_layers_partial _ _ _ _ _ _ _ _ _ _ _ _ _ _ _ _ _ _ _ M H K2 VF VM) as (_ & _ & X & _ & Y). split; assumption.
Qed.

(* the corners of every new quad are marked *)
Theorem C55_marked : forall norm sin_half cos_ang sharp rho mesh_scale tri_ok vtx_ok qual query n st height rate xs xe st' ok hs,
  meshed (q_m st) ->
  layers norm sin_half cos_ang sharp rho mesh_scale (guarded tri_ok) vtx_ok qual query n st height rate xs xe = Ok (st', ok, hs) ->
  forall q, In q (ms_quads (q_m st')) -> In q (ms_quads (q_m st)) \/ forall v, In v (corners (quad_element q)) -> q_in st' v = true.
Proof.
  intros norm sin_half cos_ang sharp rho mesh_scale tri_ok vtx_ok qual query n st height rate xs xe st' ok hs M H.
  apply meshed_base in M. destruct M as [B _].
  exact (proj1 (proj2 (proj2 (proj2 (layers_spec norm sin_half cos_ang sharp rho mesh_scale (guarded tri_ok) vtx_ok qual query (guarded_fits tri_ok) (guarded_positive tri_ok)
              n st height rate xs xe st' ok hs B H))))).
Qed.

(* only the far vertices of the neighbouring edges can move, and only at an open layer *)
Theorem C55_moves : forall norm sin_half cos_ang sharp rho mesh_scale tri_ok vtx_ok qual query st height xs xe st' o,
  meshed (q_m st) ->
  generate_layer norm sin_half cos_ang sharp rho mesh_scale (guarded tri_ok) vtx_ok qual query st height xs xe = Ok (st', o) ->
  forall v, (v < ms_nv (q_m st))%nat -> ms_pos (q_m st') v <> ms_pos (q_m st) v ->
  exists e f, find_ends sharp (q_m st) xs xe = Ok (Some (e, f, false)) /\ beside (q_m st) e f v.
Proof.
  intros norm sin_half cos_ang sharp rho mesh_scale tri_ok vtx_ok qual query st height xs xe st' o M H v Hv D.
  apply meshed_base in M. destruct M as [B _].
  destruct (generate_spec norm sin_half cos_ang sharp rho mesh_scale (guarded tri_ok) vtx_ok qual query (guarded_fits tri_ok) (guarded_positive tri_ok)
              st height xs xe st' o B H) as (_ & _ & _ & _ & _ & [K|(e & f & F & K)] & _); [destruct (D (K v Hv))|].
  exists e, f. split; [exact F|]. destruct (K v Hv) as [E|X]; [destruct (D E)|exact X].
Qed.

(* ---- splitting a neighbouring edge ---- *)
Lemma sq_same a b : 0 <= a -> 0 <= b -> a * a == b * b -> a == b.
Proof. intros. nra. Qed.
Lemma foot_bounds (d1x d1y d2x d2y L h c : Q) : 0 < h -> h < L -> L * L == d1x * d1x + d1y * d1y -> h * h == d2x * d2x + d2y * d2y ->
  0 < d1x * d2x + d1y * d2y -> c * (L * h) == d1x * d2x + d1y * d2y -> 0 < h * c / L < 1 /\ h * c / L == (d1x * d2x + d1y * d2y) / (L * L).
Proof.
  intros Hh HL EL Eh D C. assert (PL : 0 < L) by lra.
  assert (Cp : 0 < c).
  { destruct (Qlt_le_dec 0 c) as [|N]; [assumption|]. exfalso. assert (0 < L * h) by nra. nra. }
  assert (C1 : c <= 1).
  { destruct (Qlt_le_dec 1 c) as [N|]; [|assumption]. exfalso.
    assert (CS : (d1x * d2x + d1y * d2y) * (d1x * d2x + d1y * d2y) <= (L * L) * (h * h)).
    { rewrite EL, Eh. assert (0 <= (d1x * d2y - d1y * d2x) * (d1x * d2y - d1y * d2x)) by (generalize (d1x * d2y - d1y * d2x); intros z; nra). lra. }
    rewrite <- C in CS. assert (P : 0 < L * h) by nra.
    assert (X : (L * L) * (h * h) == (L * h) * (L * h)) by ring. rewrite X in CS. assert (P2 : 0 < (L * h) * (L * h)) by nra. assert (C2 : 1 < c * c) by nra.
    assert (Y : c * (L * h) * (c * (L * h)) == (c * c) * ((L * h) * (L * h))) by ring. rewrite Y in CS.
    revert CS P2 C2. generalize (c * c) ((L * h) * (L * h)). clear. intros a b D B A. nra. }
  assert (E : h * c / L == (d1x * d2x + d1y * d2y) / (L * L)).
  { rewrite <- C. field. lra. }
  split; [|exact E]. split.
  - apply Qlt_shift_div_l; [exact PL|]. nra.
  - apply Qlt_shift_div_r; [exact PL|]. nra.
Qed.

(* With exact lengths and cosines Scenario 2 always finds a point inside the edge:
   the foot of the perpendicular from the projected coordinate.  [start]: the edge
   runs from the far vertex to the layer. *)
Theorem C55_split : forall (norm : vec2 -> Q) (cos_ang : vec2 -> vec2 -> Q) mesh_scale st b e w v (h : Q) p (start : bool),
  (if start then be_v1 e = w /\ be_v2 e = v else be_v1 e = v /\ be_v2 e = w) ->
  let m := q_m st in let pos := ms_pos m in
  let d1 := vsub (pos w) (pos v) in let d2 := vsub p (pos v) in
  0 < h -> veq p (vadd (pos v) (vscale h (enormal norm pos b))) ->
  is_left (pos (be_v1 b)) (pos (be_v2 b)) (pos w) = true -> (v = be_v1 b \/ v = be_v2 b) ->
  is_norm norm (vsub (pos (be_v2 b)) (pos (be_v1 b))) -> is_norm norm (vsub (pos (be_v2 e)) (pos (be_v1 e))) ->
  is_norm norm d1 -> is_norm norm d2 -> cos_ang d1 d2 * (norm d1 * norm d2) == vdot d1 d2 ->
  h < elen norm pos e -> h * h <= vnorm2 (vsub (pos w) p) ->
  (forall g, get_edge_nodir (q_bdry st) (be_v1 e) (be_v2 e) = Some g -> get_next_edge (q_bdry st) g <> None) ->
  exists st' x, place norm cos_ang mesh_scale st e w v true h p start = Ok (st', x) /\
    veq x (vadd (pos v) (vscale (vdot d1 d2 / vnorm2 d1) d1)) /\
    ms_nv (q_m st') = S (ms_nv m) /\ ms_pos (q_m st') (ms_nv m) = x /\ (forall j, j <> ms_nv m -> ms_pos (q_m st') j = pos j).
Proof.
  intros norm cos_ang mesh_scale st b e w v h p start HE m pos d1 d2 Hh [P1 P2] HL HV [B1 B2] [E1 E2] [N1 N2] [M1 M2] HC HE2 HF HB.
  set (sf := h * cos_ang d1 d2 / elen norm pos e).
  assert (EL : elen norm pos e == norm d1).
  { apply sq_same; [exact E1|exact N1|]. unfold elen. rewrite E2, N2. unfold d1, vnorm2, vdot, vsub. cbn [vx vy].
    destruct start; destruct HE as [-> ->]; ring. }
  set (dx := vx (pos (be_v2 b)) - vx (pos (be_v1 b))). set (dy := vy (pos (be_v2 b)) - vy (pos (be_v1 b))).
  set (N := norm (vsub (pos (be_v2 b)) (pos (be_v1 b)))) in *.
  assert (BB : N * N == dx * dx + dy * dy) by (rewrite B2; reflexivity).
  assert (AR : 0 < dx * (vy (pos w) - vy (pos (be_v1 b))) - dy * (vx (pos w) - vx (pos (be_v1 b)))).
  { unfold is_left, orientation in HL. destruct (Qltb _ small); [discriminate|]. destruct (Qltb 0 _) eqn:Z; [|discriminate].
    apply Qltb_true in Z. unfold area2 in Z. unfold dx, dy. lra. }
  assert (NP : 0 < N).
  { destruct (Qlt_le_dec 0 N) as [|Z]; [assumption|]. exfalso. assert (N0 : N == 0) by lra.
    assert (X : dx * dx + dy * dy == 0) by (rewrite <- BB, N0; reflexivity).
    assert (dx == 0) by nra. assert (dy == 0) by nra. nra. }
  assert (D2x : vx d2 == - (h * (dy / N))).
  { unfold d2, vsub. cbn [vx]. rewrite P1. unfold enormal. cbn [vx vy vadd vscale vsub]. fold N dx dy. ring. }
  assert (D2y : vy d2 == h * (dx / N)).
  { unfold d2, vsub. cbn [vy]. rewrite P2. unfold enormal. cbn [vx vy vadd vscale vsub]. fold N dx dy. ring. }
  assert (SH : h * h == vx d2 * vx d2 + vy d2 * vy d2).
  { rewrite D2x, D2y. transitivity (h * h * ((dx * dx + dy * dy) / (N * N))); [rewrite <- BB; field; lra|field; lra]. }
  assert (NH : norm d2 == h) by (apply sq_same; [exact M1|lra|rewrite M2, SH; reflexivity]).
  assert (DP : 0 < vx d1 * vx d2 + vy d1 * vy d2).
  { rewrite D2x, D2y.
    assert (Y : vx d1 * - (h * (dy / N)) + vy d1 * (h * (dx / N)) ==
                (dx * (vy (pos w) - vy (pos (be_v1 b))) - dy * (vx (pos w) - vx (pos (be_v1 b)))) * (h / N)).
    { unfold d1, vsub. cbn [vx vy]. destruct HV as [-> | ->].
      - field. lra.
      - assert (Y2 : vy (pos (be_v2 b)) == vy (pos (be_v1 b)) + dy) by (unfold dy; ring).
        assert (X2 : vx (pos (be_v2 b)) == vx (pos (be_v1 b)) + dx) by (unfold dx; ring). rewrite X2, Y2. field. lra. }
    rewrite Y. apply Qmult_lt_0_compat; [exact AR|]. apply Qlt_shift_div_l; [exact NP|]. lra. }
  pose proof HE2 as HE3. rewrite NH in HC. rewrite EL in HE2.
  destruct (foot_bounds (vx d1) (vy d1) (vx d2) (vy d2) (norm d1) h (cos_ang d1 d2) Hh HE2) as [[F1 F2] F3]; auto.
  assert (SF : sf == h * cos_ang d1 d2 / norm d1) by (unfold sf; rewrite EL; reflexivity).
  rewrite <- SF in F1, F2, F3.
  assert (ND : norm d1 * norm d1 == vnorm2 d1) by exact N2.
  assert (FF : vdot d1 d2 / vnorm2 d1 == sf) by (rewrite F3, ND; reflexivity).
  unfold place. cbn [negb]. fold m pos. fold d1 d2. fold sf.
  assert (Z1 : Qltb (vnorm2 (vsub (pos w) p)) (h * h) = false) by (apply Qltb_false; exact HF). rewrite Z1.
  rewrite (proj2 (Qltb_true _ _) HE3). unfold split_both, split_front. fold m.
  assert (Q0 : Qleb 1 (if start then sf else 1 - sf) = false /\ Qleb (if start then sf else 1 - sf) 0 = false).
  { split; apply Qleb_false; destruct start; lra. }
  destruct Q0 as [-> ->]. cbn [orb].
  match goal with |- context [split_bdry ?f ?k ?bs ?e ?v] => assert (SB : exists l, split_bdry f k bs e v = Ok l) end.
  { unfold split_bdry. destruct (get_edge_nodir (q_bdry st) (be_v1 e) (be_v2 e)) as [g|] eqn:G; [|eexists; reflexivity].
    specialize (HB g eq_refl). destruct (get_next_edge (q_bdry st) g); [eexists; reflexivity|destruct (HB eq_refl)]. }
  destruct SB as [l SB]. cbn [ms_pos ms_ne] in *. rewrite SB. cbn [obind]. eexists. eexists. split; [reflexivity|].
  cbn [q_m ms_pos ms_nv]. rewrite Nat.eqb_refl. fold pos.
  split; [|split; [reflexivity|split; [reflexivity|intros j Nj; apply Nat.eqb_neq in Nj; rewrite Nj; reflexivity]]].
  split; cbn [vadd vscale vx vy]; rewrite FF; clearbody sf; unfold d1, vsub; cbn [vx vy]; destruct start; destruct HE as [-> ->]; ring.
Qed.

(* ---- witnesses ---- *)
Definition vertices_in_b (scale : Q) (m : mstate) : bool := forallb (fun v => in_square scale (ms_pos m v)) (seq 0 (ms_nv m)).
Lemma vertices_in_check scale m : vertices_in_b scale m = true -> vertices_in scale m.
Proof. unfold vertices_in_b. rewrite forallb_forall. intros H v Hv. apply H. apply in_seq. lia. Qed.
Definition still_b (m m' : mstate) : bool :=
  forallb (fun v => Qeq_bool (vx (ms_pos m' v)) (vx (ms_pos m v)) && Qeq_bool (vy (ms_pos m' v)) (vy (ms_pos m v))) (seq 0 (ms_nv m)).
Lemma still_check m m' : still_b m m' = true -> still m m'.
Proof.
  unfold still_b. rewrite forallb_forall. intros H v Hv. specialize (H v). rewrite in_seq in H. specialize (H ltac:(lia)).
  apply andb_true_iff in H. destruct H as [A B]. split; apply Qeq_bool_iff; assumption.
Qed.
Lemma ok_some {A B C} (r : outcome (A * B * C)) (P : A -> Prop) : match r with Ok (a, _, _) => P a | _ => False end -> exists a b c, r = Ok (a, b, c) /\ P a.
Proof. destruct r as [[[a b] c]| |]; intros H; try destruct H. exists a, b, c. split; [reflexivity|exact H]. Qed.

Definition yes (m : mstate) (t : tri) : bool := true.
Definition low_pos (v : nat) : vec2 :=
  match v with O => V2 0 0 | 1%nat => V2 2 0 | 2%nat => V2 4 0 | 3%nat => V2 4 (9 # 10) | _ => V2 0 (9 # 10) end.
Definition tall_pos (v : nat) : vec2 :=
  match v with O => V2 0 0 | 1%nat => V2 2 0 | 2%nat => V2 4 0 | 3%nat => V2 4 4 | _ => V2 0 4 end.
Definition five_front : list bedge := [BE 0 0 1 1 1; BE 1 1 2 1 1; BE 2 2 3 1 1; BE 3 3 4 1 1; BE 4 4 0 1 1].
Definition five (pos : nat -> vec2) : qstate :=
  QS (MS pos (fun _ => true) [0%nat; 1%nat; 2%nat; 3%nat; 4%nat] 5 five_front 5 [] [] 0 [] 0 0) five_front (fun _ => false).
Notation run tri_ok n st xs xe :=
  (layers box_norm (fun _ _ => 1) (fun _ _ => 1) never (fun _ => 1) 100 tri_ok (fun _ _ => true) (fun _ _ => 0) near n st 1 1 xs xe).
Lemma five_wf pos : wf (q_m (five pos)).
Proof.
  constructor; cbn [five q_m ms_front ms_ne ms_nv ms_tris ms_nt ms_verts].
  - cbn. repeat constructor; cbn; intuition lia.
  - intros e He. repeat (destruct He as [<-|He]; [cbn; lia|]). destruct He.
  - intros e He. repeat (destruct He as [<-|He]; [cbn; lia|]). destruct He.
  - constructor.
  - intros t [].
  - intros t [].
  - repeat constructor; cbn; intuition lia.
  - intros v Hv. cbn in Hv. lia.
Qed.
Lemma five_closed pos : closed (ms_front (q_m (five pos))).
Proof. intros v. do 5 (destruct v as [|v]; [reflexivity|]). reflexivity. Qed.

(* A channel of height 9/10 and a layer of height 1 along its floor: both corners of
   the lid are lifted to height 1.  The domain had area 18/5, the two quads have 4. *)
Theorem C55_refuted : exists norm sin_half cos_ang sharp rho mesh_scale tri_ok vtx_ok qual query n st height rate xs xe st' ok hs v,
  (forall e, In e (ms_front (q_m st)) -> is_norm norm (vsub (ms_pos (q_m st) (be_v2 e)) (ms_pos (q_m st) (be_v1 e)))) /\
  wf (q_m st) /\ closed (ms_front (q_m st)) /\ generated (q_m st) = [] /\ ms_quads (q_m st) = [] /\
  (forall m t, tri_ok m t = true -> fits m t /\ 0 < det (ms_pos m (tr_v1 t)) (ms_pos m (tr_v2 t)) (ms_pos m (tr_v3 t))) /\
  layers norm sin_half cos_ang sharp rho mesh_scale tri_ok vtx_ok qual query n st height rate xs xe = Ok (st', ok, hs) /\
  vertices_in front_scale (q_m st') /\ vertices_in mesh_scale (q_m st') /\
  (v < ms_nv (q_m st))%nat /\ ~ veq (ms_pos (q_m st') v) (ms_pos (q_m st) v) /\
  enclosed (ms_pos (q_m st)) (ms_front (q_m st)) == 18 # 5 /\ element_area (q_m st') == 4 /\ enclosed (ms_pos (q_m st')) (ms_front (q_m st')) == 0.
Proof.
  exists box_norm, (fun _ _ => 1), (fun _ _ => 1), never, (fun _ => 1), 100, (guarded yes), (fun _ _ => true), (fun _ _ => 0), near, 1%nat, (five low_pos),
    1, 1, (V2 0 0), (V2 4 0).
  destruct (ok_some (run (guarded yes) 1 (five low_pos) (V2 0 0) (V2 4 0)) (fun s =>
     vertices_in_b front_scale (q_m s) && vertices_in_b 100 (q_m s) && negb (Qeq_bool (vy (ms_pos (q_m s) 4)) (9 # 10)) &&
     Qeq_bool (element_area (q_m s)) 4 && Qeq_bool (enclosed (ms_pos (q_m s)) (ms_front (q_m s))) 0 = true)) as (s & ok & hs & E & X); [vm_compute; reflexivity|].
  exists s, ok, hs, 4%nat. rewrite !andb_true_iff, negb_true_iff in X. destruct X as ((((X1 & X2) & X3) & X4) & X5).
  split. { intros e He. repeat (destruct He as [<-|He]; [vm_compute; split; [discriminate|reflexivity]|]). destruct He. }
  split; [apply five_wf|]. split; [apply five_closed|]. split; [reflexivity|]. split; [reflexivity|].
  split. { intros m t G. split; [exact (guarded_fits _ _ _ G)|exact (guarded_positive _ _ _ G)]. }
  split; [exact E|]. split; [apply vertices_in_check; exact X1|]. split; [apply vertices_in_check; exact X2|].
  split; [clear; cbn; lia|]. split.
  { intros [_ Y]. apply Qeq_bool_neq in X3. apply X3. exact Y. }
  split; [vm_compute; reflexivity|]. split; [apply Qeq_bool_iff; exact X4|apply Qeq_bool_iff; exact X5].
Qed.


Fixpoint layers_still_b norm sin_half cos_ang sharp rho mesh_scale tri_ok vtx_ok qual query
    (n : nat) (st : qstate) (height rate : Q) (xs xe : vec2) : bool :=
  match n with
  | O => true
  | S n' =>
      match generate_layer norm sin_half cos_ang sharp rho mesh_scale tri_ok vtx_ok qual query st height xs xe with
      | Ok (st1, o) => still_b (q_m st) (q_m st1) &&
          match o with
          | Some (a, b) => layers_still_b norm sin_half cos_ang sharp rho mesh_scale tri_ok vtx_ok qual query n' st1 (height * rate) rate a b
          | None => true
          end
      | _ => true
      end
  end.
Lemma layers_still_check norm sin_half cos_ang sharp rho mesh_scale tri_ok vtx_ok qual query : forall n st height rate xs xe,
  layers_still_b norm sin_half cos_ang sharp rho mesh_scale tri_ok vtx_ok qual query n st height rate xs xe = true ->
  layers_still norm sin_half cos_ang sharp rho mesh_scale tri_ok vtx_ok qual query n st height rate xs xe.
Proof.
  induction n as [|n IH]; intros st height rate xs xe H; cbn [layers_still layers_still_b] in *; [exact I|].
  destruct (generate_layer norm sin_half cos_ang sharp rho mesh_scale tri_ok vtx_ok qual query st height xs xe) as [[st1 o]| |]; [|exact I|exact I].
  apply andb_true_iff in H. destruct H as [A B]. split; [apply still_check; exact A|]. destruct o as [[a b]|]; [apply IH; exact B|exact I].
Qed.

(* two layers in a channel of height 4: four quads of area 8, a front of area 8 *)
Example C55_layers_case :
  wf (q_m (five tall_pos)) /\ meshed (q_m (five tall_pos)) /\ closed (ms_front (q_m (five tall_pos))) /\
  layers_still box_norm (fun _ _ => 1) (fun _ _ => 1) never (fun _ => 1) 100 (guarded yes) (fun _ _ => true) (fun _ _ => 0) near
    2 (five tall_pos) 1 1 (V2 0 0) (V2 4 0) /\
  exists st' ok hs, run (guarded yes) 2 (five tall_pos) (V2 0 0) (V2 4 0) = Ok (st', ok, hs) /\
    vertices_in front_scale (q_m st') /\ vertices_in 100 (q_m st') /\
    length (ms_quads (q_m st')) = 4%nat /\ element_area (q_m st') == 8 /\ enclosed (ms_pos (q_m st')) (ms_front (q_m st')) == 8 /\
    map pair_of (ms_front (q_m st')) <> [].
Proof.
  split; [apply five_wf|]. split; [apply fresh_meshed; [apply five_wf|reflexivity|reflexivity]|]. split; [apply five_closed|].
  split; [apply layers_still_check; vm_compute; reflexivity|].
  destruct (ok_some (run (guarded yes) 2 (five tall_pos) (V2 0 0) (V2 4 0)) (fun s =>
     vertices_in_b front_scale (q_m s) && vertices_in_b 100 (q_m s) && Nat.eqb (length (ms_quads (q_m s))) 4 &&
     Qeq_bool (element_area (q_m s)) 8 && Qeq_bool (enclosed (ms_pos (q_m s)) (ms_front (q_m s))) 8 &&
     negb (Nat.eqb (length (map pair_of (ms_front (q_m s)))) 0) = true)) as (s & ok & hs & E & X); [vm_compute; reflexivity|].
  rewrite !andb_true_iff, negb_true_iff in X. destruct X as (((((X1 & X2) & X3) & X4) & X5) & X6).
  exists s, ok, hs. split; [exact E|]. split; [apply vertices_in_check; exact X1|]. split; [apply vertices_in_check; exact X2|].
  split; [apply Nat.eqb_eq; exact X3|]. split; [apply Qeq_bool_iff; exact X4|]. split; [apply Qeq_bool_iff; exact X5|].
  intros Y. rewrite Y in X6. discriminate X6.
Qed.

(* a layer around a square of side 4 with the sine of the half angle taken as 1: four
   quads of area 7, a front of area 9 *)
Definition ringed : outcome (qstate * bool * list Q) :=
  layers box_norm (fun _ _ => 1) (fun _ _ => 0) never (fun _ => 1) 100 (guarded yes) (fun _ _ => true) (fun _ _ => 0) near
    1 (QS sq_state sq_front (fun _ => false)) 1 1 (V2 0 0) (V2 0 0).
Example C55_closed_case : wf sq_state /\ generated sq_state = [] /\ ms_quads sq_state = [] /\ closed (ms_front sq_state) /\
  match ringed with
  | Ok (s, _, _) => vertices_in_b front_scale (q_m s) = true /\ vertices_in_b 100 (q_m s) = true /\ length (ms_quads (q_m s)) = 4%nat /\
      Qeq_bool (element_area (q_m s)) 7 = true /\ Qeq_bool (enclosed (ms_pos (q_m s)) (ms_front (q_m s))) 9 = true /\
      forallb (fun q => forallb (q_in s) (corners (quad_element q))) (ms_quads (q_m s)) = true
  | _ => False
  end.
Proof.
  split.
  { constructor; cbn [sq_state ms_front ms_ne ms_nv ms_tris ms_nt ms_verts].
    - cbn. repeat constructor; cbn; intuition lia.
    - intros e He. repeat (destruct He as [<-|He]; [cbn; lia|]). destruct He.
    - intros e He. repeat (destruct He as [<-|He]; [cbn; lia|]). destruct He.
    - constructor.
    - intros t [].
    - intros t [].
    - repeat constructor; cbn; intuition lia.
    - intros v Hv. cbn in Hv. lia. }
  split; [reflexivity|]. split; [reflexivity|]. split; [intros v; do 4 (destruct v as [|v]; [reflexivity|]); reflexivity|].
  vm_compute. repeat split; reflexivity.
Qed.

(* the floor of the high channel and its left wall: the wall is split at height 1 *)
Example C55_split_case : let m := q_m (five tall_pos) in let p := V2 0 1 in
  veq p (vadd (ms_pos m 0) (vscale 1 (enormal box_norm (ms_pos m) (BE 0 0 1 1 1)))) /\
  is_left (ms_pos m 0) (ms_pos m 1) (ms_pos m 4) = true /\
  is_norm box_norm (vsub (ms_pos m 1) (ms_pos m 0)) /\ is_norm box_norm (vsub (ms_pos m 0) (ms_pos m 4)) /\
  is_norm box_norm (vsub (ms_pos m 4) (ms_pos m 0)) /\ is_norm box_norm (vsub p (ms_pos m 0)) /\
  1 * (box_norm (vsub (ms_pos m 4) (ms_pos m 0)) * box_norm (vsub p (ms_pos m 0))) == vdot (vsub (ms_pos m 4) (ms_pos m 0)) (vsub p (ms_pos m 0)) /\
  1 < elen box_norm (ms_pos m) (BE 4 4 0 1 1) /\ 1 * 1 <= vnorm2 (vsub (ms_pos m 4) p) /\
  (forall g, get_edge_nodir (q_bdry (five tall_pos)) 4 0 = Some g -> get_next_edge (q_bdry (five tall_pos)) g <> None) /\
  match place box_norm (fun _ _ => 1) 100 (five tall_pos) (BE 4 4 0 1 1) 4 0 true 1 p true with
  | Ok (st', x) => vx x == 0 /\ vy x == 1 /\ map pair_of (q_bdry st') = [(4, 5); (5, 0); (0, 1); (1, 2); (2, 3); (3, 4)]%nat
  | _ => False
  end.
Proof. 
  cbv zeta. do 9 (split; [vm_compute; repeat split; try reflexivity; try discriminate|]).
  split; [intros g G; vm_compute in G; injection G as <-; discriminate|]. vm_compute. repeat split; reflexivity.
Qed.

(* the lid of the low channel: its corner 4 lies beside the layer along the floor *)
Example C55_moves_case : let m := q_m (five low_pos) in
  find_ends never m (V2 0 0) (V2 4 0) = Ok (Some (BE 0 0 1 1 1, BE 1 1 2 1 1, false)) /\
  beside m (BE 0 0 1 1 1) (BE 1 1 2 1 1) 4 /\ beside m (BE 0 0 1 1 1) (BE 1 1 2 1 1) 3 /\
  match generate_layer box_norm (fun _ _ => 1) (fun _ _ => 1) never (fun _ => 1) 100 (guarded yes) (fun _ _ => true) (fun _ _ => 0) near
          (five low_pos) 1 (V2 0 0) (V2 4 0) with
  | Ok (st', _) => vy (ms_pos (q_m st') 4) == 1
  | _ => False
  end.
Proof.
  split; [vm_compute; reflexivity|]. split; [exists (BE 4 4 0 1 1); split; [cbn; auto 6|left; split; reflexivity]|].
  split; [exists (BE 2 2 3 1 1); split; [cbn; auto 6|right; split; reflexivity]|]. vm_compute. reflexivity.
Qed.

Print Assumptions C55_layers_partial.
Print Assumptions C55_domain_partial.
Print Assumptions C55_closed_partial.
Print Assumptions C55_marked.
Print Assumptions C55_moves.
Print Assumptions C55_split.
Print Assumptions C55_refuted.
