(* C66: the rules of the smoothing algorithms. *)
From Coq Require Import Lqa Lia Permutation Sorted.
From Verif Require Import Base Chain GeomModel GeomSpec FacetModel UtilModel BdryModel AdvanceModel MeshModel MeshSpec MeshProofs MeshProps QRefineModel QRefineSpec CleanSpec CleanCheck CleanPass
  SmoothModel SmoothSpec SmoothProofs SmoothProps SpringSpec SpringProofs.
Open Scope Q_scope.

(* ---------- the neighbours of a vertex ---------- *)
(* sorted by direction; the other end of an edge counts twice, the opposite corner of
   a quad once for each such quad *)
Theorem C66_neighbours : forall s m v ns, conforming m -> interior m v -> In (v, ns) (connectivity s m) ->
  StronglySorted (fun a b => sm_atan2 s (vsub (mh_pos m a) (mh_pos m v)) <= sm_atan2 s (vsub (mh_pos m b) (mh_pos m v))) ns /\ ~ In v ns /\
  forall w, w <> v -> (joined m v w -> count_occ Nat.eq_dec ns w = 2 + length (filter (opposite v w) (facets m)))%nat /\
                      (~ joined m v w -> count_occ Nat.eq_dec ns w = length (filter (opposite v w) (facets m)))%nat.
Proof.
  intros s m v ns C Iv I. unfold connectivity in I. apply in_map_iff in I. destruct I as (x & E & _). injection E as -> <-.
  assert (P := sort_perm (direction_key s m v) (neighbours_of m v)). split; [exact (sort_sorted (direction_key s m v) _)|].
  split; [intros H; apply (Permutation_in _ P) in H; exact (neighbours_not_self m v H)|].
  intros w N. rewrite (proj1 (Permutation_count_occ Nat.eq_dec _ _) P w).
  destruct (interior_count m v w C Iv N) as [[J O]|[J O]]; split; intros K; try contradiction; exact O.
Qed.

(* ---------- Laplace smoothing ---------- *)
(* in a mesh of triangles the displacement leads to the mean of the vertices at the
   other ends of the edges, each counted once *)
Theorem C66_laplace : forall s m v ns, conforming m -> mh_quads m = [] -> interior m v -> In (v, ns) (connectivity s m) ->
  exists l, NoDup l /\ (forall w, In w l <-> w <> v /\ joined m v w) /\
    forall d, laplace (mh_pos m) v ns = Some d -> is_mean (map (mh_pos m) l) (vadd (mh_pos m v) d).
Proof.
  intros s m v ns C Q Iv I. unfold connectivity in I. apply in_map_iff in I. destruct I as (x & E & _). injection E as -> <-.
  destruct (tri_neighbours m v C Q Iv) as (l & N & J & P). exists l. split; [exact N|]. split; [exact J|]. intros d D. apply laplace_mean in D.
  apply mean_twice. rewrite <- map_twice. apply (mean_permuted _ _ _ (Permutation_map _ P)).
  exact (mean_permuted _ _ _ (Permutation_map _ (sort_perm _ _)) D).
Qed.
(* with step sizes from 0 to 1 no vertex leaves the convex hull of the mesh *)
Theorem C66_hull : forall s m ks m', sound m -> (forall k, In k ks -> fst k = laplace /\ 0 <= snd k <= 1) -> run s m ks = Ok m' ->
  forall v, In v (mh_verts m) -> in_hull (map (mh_pos m) (mh_verts m)) (mh_pos m' v).
Proof.
  intros s m ks m' S HK R v Iv. unfold run in R. destruct (directions s (setup_facet_connectivity m)) as [dirs| |] eqn:ED; cbn [obind] in R; try discriminate.
  set (m0 := setup_facet_connectivity m) in *. assert (S0 : sound m0) by exact (CleanPass.setup_sound m S).
  assert (H : held (map (mh_pos m) (mh_verts m)) (mh_verts m) (mh_prop m) m').
  { apply (loops_held s _ dirs (mh_verts m) (mh_prop m) (connectivity s m0) ks HK) with (m := m0); [|split; [reflexivity|split; [reflexivity|]]; intros w I; apply hull_in; apply in_map; exact I|exact R].
    intros i w ns I. apply numbered_in in I. destruct I as [I LI]. unfold connectivity in I, LI. rewrite map_length in LI. apply in_map_iff in I. destruct I as (x & E & Ix). injection E as -> <-.
    split; [exact Ix|]. split.
    - intros u J. apply (Permutation_in _ (sort_perm _ _)) in J. exact (neighbours_in m0 w u (sd_addr _ S0) J).
    - intros _. apply (C36_directions_zero s m0 dirs ED i). exact LI. }
  apply (proj2 (proj2 H)). exact Iv.
Qed.
(* one step: the distance to the mean of the neighbours is multiplied by |1 - eps| *)
Theorem C66_step : forall s dirs e m i v ns m' c, has_property (mh_prop m v) v_in_quad_layer = false -> is_mean (map (mh_pos m) ns) c ->
  smooth_vertex s dirs laplace e m (i, (v, ns)) = Ok m' ->
  mh_pos m' v = mh_pos m v \/ vnorm2 (vsub c (mh_pos m' v)) == (1 - e) * (1 - e) * vnorm2 (vsub c (mh_pos m v)).
Proof.
  intros s dirs e m i v ns m' c L M R. apply laplace_step in R; [|rewrite L; discriminate].
  destruct R as [->|[(R & _)|(c' & new & M' & N & ->)]]; [left; reflexivity|left; apply R|]. right. cbn [set_pos mh_pos]. unfold put_at. rewrite Nat.eqb_refl.
  destruct (mean_unique _ _ _ M' M) as [X Y]. apply (off_step c (mh_pos m v) e new). destruct N as [N1 N2]. unfold veq, vadd, vscale, vsub in *. cbn [vx vy] in *. rewrite N1, N2, X, Y. split; reflexivity.
Qed.
(* two accepted steps of smoothing_loop with decay 1: the factors 1-e and 1+e *)
Theorem C66_pair : forall c p q r e, veq q (vadd p (vscale e (vsub c p))) -> veq r (vadd q (vscale (e * - (1)) (vsub c q))) ->
  vnorm2 (vsub c r) == (1 - e * e) * (1 - e * e) * vnorm2 (vsub c p).
Proof.
  intros c p q r e H1 H2. assert (X := off_step c p e q H1). assert (Y := off_step c q (e * - (1)) r H2). unfold off in *. rewrite Y, X. ring.
Qed.
(* As stated C66 is FALSE for smoothing_loop: every second iteration goes away from the mean, at any positive step size *)
Theorem C66_away_refuted : exists s m v m1 m2 c, sound m /\ mh_quads m = [] /\ interior m v /\ joined m v 0 /\ joined m v 1 /\ joined m v 2 /\ joined m v 3 /\
  is_mean (map (mh_pos m) [0; 1; 2; 3]%nat) c /\
  smooth_with s laplace (3 # 4) 1 1 m = Ok m1 /\ smooth_with s laplace (3 # 4) 1 2 m = Ok m2 /\
  (forall w, w <> v -> mh_pos m2 w = mh_pos m w) /\
  vnorm2 (vsub c (mh_pos m1 v)) < vnorm2 (vsub c (mh_pos m2 v)).
Proof.
  destruct (read_such (smooth_with (plain square4 false) laplace (3 # 4) 1 1 (fan_mesh 0)) 4 (V2 2 (7 # 4))) as [m1 [E1 [X1 Y1]]]; [vm_compute; reflexivity|].
  destruct (read_such (smooth_with (plain square4 false) laplace (3 # 4) 1 2 (fan_mesh 0)) 4 (V2 2 (25 # 16))) as [m2 [E2 [X2 Y2]]]; [vm_compute; reflexivity|].
  exists (plain square4 false), (fan_mesh 0), 4%nat, m1, m2, (V2 2 2). split; [exact fan_sound|]. split; [reflexivity|].
  split; [intros e He; cbn [fan_mesh mh_bdry In] in He; repeat destruct He as [He|He]; try contradiction; subst e; split; discriminate|].
  split; [exists (fresh_edge 9 0 4 (-1)); cbn; auto 9|]. split; [exists (fresh_edge 10 1 4 (-1)); cbn; auto 9|]. split; [exists (fresh_edge 11 2 4 (-1)); cbn; auto 9|]. split; [exists (fresh_edge 12 3 4 (-1)); cbn; auto 9|].
  split; [split; [discriminate|split; vm_compute; reflexivity]|]. split; [exact E1|]. split; [exact E2|]. split.
  - intros w N. destruct (C35_moves (plain square4 false) (fan_mesh 0) _ m2 E2) as (_ & H & _). apply H. left.
    right. left. cbn [fan_mesh mh_prop]. apply Nat.eqb_neq in N. rewrite N. reflexivity.
  - unfold vnorm2, vdot, vsub. cbn [vx vy]. cbn [vx vy] in X1, Y1, X2, Y2. rewrite X1, Y1, X2, Y2. vm_compute. reflexivity.
Qed.

(* ---------- torsion springs ---------- *)
(* what TorsionSmoothing does with a neighbour wj: the vertex is turned about wj, to the left, by a fraction of
   the difference of the angles between wj and its two neighbours; the distance to wj stays *)
Theorem C66_turn : forall t f v wi wj wk, (forall x, tg_cos t x * tg_cos t x + tg_sin t x * tg_sin t x == 1) ->
  let p := vsub v wj in let q := vsub (turned t f v wi wj wk) wj in let b := f * (tg_angle t p (vsub v wi) - tg_angle t p (vsub v wk)) in
  vnorm2 q == vnorm2 p /\ vdot p q == tg_cos t b * vnorm2 p /\ vcross p q == tg_sin t b * vnorm2 p.
Proof.
  intros t f v wi wj wk L p q b. assert (X := L b). set (c := tg_cos t b) in *. set (s := tg_sin t b) in *.
  assert (Q1 : vx q == c * vx p - s * vy p) by (unfold q, c, s, b, p, turned, vsub; cbn [vx vy]; ring).
  assert (Q2 : vy q == s * vx p + c * vy p) by (unfold q, c, s, b, p, turned, vsub; cbn [vx vy]; ring).
  clearbody p q c s. clear L. unfold vnorm2, vdot, vcross. rewrite Q1, Q2. split; [|split; ring].
  transitivity ((c * c + s * s) * (vx p * vx p + vy p * vy p)); [ring|rewrite X; ring].
Qed.
Example C66_turn_case : exists t, (forall x, tg_cos t x * tg_cos t x + tg_sin t x * tg_sin t x == 1) /\
  veq (turned t 1 (V2 1 0) (V2 5 0) (V2 0 0) (V2 0 5)) (V2 (3 # 5) (4 # 5)).
Proof. exists (TG (fun _ _ => 0) (fun _ => 3 # 5) (fun _ => 4 # 5)). split; [intros x; reflexivity|split; reflexivity]. Qed.
(* The rule itself, for a list with every neighbour once: a vertex whose edges make
   equal angles stays. *)
Theorem C66_torsion_once : forall t f pos v l a, trig_laws t -> l <> [] -> even_around (tg_angle t) (pos v) (map pos l) a ->
  exists d, torsion t f pos v l = Some d /\ veq d (V2 0 0).
Proof. exact torsion_even_list. Qed.
(* The code gives it a list with every neighbour twice: it moves such a vertex
   towards the mean of its neighbours, like Laplace smoothing with another factor. *)
Theorem C66_torsion : forall s t f m v ns, conforming m -> mh_quads m = [] -> interior m v -> In (v, ns) (connectivity s m) -> trig_laws t ->
  (forall x y, joined m v x -> joined m v y -> sm_atan2 s (vsub (mh_pos m x) (mh_pos m v)) == sm_atan2 s (vsub (mh_pos m y) (mh_pos m v)) -> x = y) ->
  (forall w, joined m v w -> ~ veq (mh_pos m v) (mh_pos m w)) ->
  exists l, NoDup l /\ (forall w, In w l <-> w <> v /\ joined m v w) /\
    StronglySorted (fun a b => sm_atan2 s (vsub (mh_pos m a) (mh_pos m v)) <= sm_atan2 s (vsub (mh_pos m b) (mh_pos m v))) l /\ ns = twice l /\
    forall a c, even_around (tg_angle t) (mh_pos m v) (map (mh_pos m) l) a -> is_mean (map (mh_pos m) l) c ->
      exists d, torsion t f (mh_pos m) v ns = Some d /\ veq d (vscale (1 - tg_cos t (f * a)) (vsub c (mh_pos m v))).
Proof.
  intros s t f m v ns C Q Iv I TL KD NV. unfold connectivity in I. apply in_map_iff in I. destruct I as (x & E & _). injection E as -> <-.
  destruct (tri_neighbours m v C Q Iv) as (l & N & J & P). set (key := direction_key s m v).
  assert (PS := sort_perm key l). exists (sort_by key l).
  assert (JS : forall w, In w (sort_by key l) <-> w <> v /\ joined m v w).
  { intros w. rewrite <- J. split; apply Permutation_in; [exact PS|exact (Permutation_sym PS)]. }
  split; [exact (Permutation_NoDup (Permutation_sym PS) N)|]. split; [exact JS|]. split; [exact (sort_sorted key l)|].
  assert (ET : sort_by key (neighbours_of m v) = twice (sort_by key l)).
  { apply sorted_twice; [exact P|]. intros a b Ia Ib K. apply J in Ia. apply J in Ib. exact (KD a b (proj2 Ia) (proj2 Ib) K). }
  split; [exact ET|]. intros a c EV M. rewrite ET. set (ls := sort_by key l) in *. clearbody ls. assert (NE : twice ls <> []) by (intros X; destruct ls; [apply (proj1 M); reflexivity|discriminate]).
  destruct (torsion_twice t f (mh_pos m) v ls a _ TL ltac:(intros w Iw; apply NV; apply JS in Iw; exact (proj2 Iw)) EV (laplace_some _ _ _ NE)) as (d & D & V).
  exists d. split; [exact D|]. assert (LM := laplace_mean _ _ _ _ (laplace_some (mh_pos m) v _ NE)). rewrite (map_twice _ ls) in V, LM. apply (proj1 (mean_twice (map (mh_pos m) ls) _)) in LM.
  destruct (mean_unique _ _ _ LM M) as [X Y]. destruct V as [V1 V2]. cbn [vadd vx vy] in X, Y. unfold veq in *. cbn [vscale vsub vx vy] in *. rewrite V1, V2. rewrite <- X, <- Y. split; ring.
Qed.
(* an angle that grows with the direction, like atan2 from -pi to pi *)
Definition diamond (d : vec2) : Q :=
  let r := Qabs.Qabs (vx d) + Qabs.Qabs (vy d) in if Qltb (vy d) 0 then vx d / r - 1 else 1 - vx d / r.
Definition cross_mesh : mesh :=
  MH (ptl [V2 2 0; V2 0 1; V2 (-1) 0; V2 0 (-1); V2 0 0]) (fun v => if Nat.eqb v 4 then 0%N else 8%N) [0;1;2;3;4]%nat []
     [FA 5 (Tri3 0 1 4) 1 true; FA 6 (Tri3 1 2 4) 1 true; FA 7 (Tri3 2 3 4) 1 true; FA 8 (Tri3 3 0 4) 1 true]
     [fresh_edge 9 0 4 (-1); fresh_edge 10 1 4 (-1); fresh_edge 11 2 4 (-1); fresh_edge 12 3 4 (-1)]
     [fresh_edge 13 0 1 1; fresh_edge 14 1 2 1; fresh_edge 15 2 3 1; fresh_edge 16 3 0 1] (fun _ _ => None) 17 16 1 100.
Definition cross_smoother : smoother := SM (domain_inside [Bd EXTERIOR (loop_of [V2 2 0; V2 0 1; V2 (-1) 0; V2 0 (-1)]) 0]) false (fun es _ => hd_error es) (fun d => d) diamond.
Lemma cross_interior : interior cross_mesh 4.
Proof. intros e He. cbn [cross_mesh mh_bdry In] in He. repeat destruct He as [He|He]; try contradiction; subst e; split; discriminate. Qed.
Lemma cross_sound : sound cross_mesh.
Proof. apply soundb_sound. vm_compute. reflexivity. Qed.
Lemma cross_conn : In (4%nat, twice [3; 0; 1; 2]%nat) (connectivity cross_smoother cross_mesh).
Proof.
  assert (E : connectivity cross_smoother cross_mesh = map (fun v => (v, sort_by (direction_key cross_smoother cross_mesh v) (neighbours_of cross_mesh v))) [0; 1; 2; 3; 4]%nat) by reflexivity.
  rewrite E. clear E. apply in_map_iff. exists 4%nat. split; [vm_compute; reflexivity|cbn; auto 6].
Qed.
Lemma right_even t a : (forall u w, ~ veq u (V2 0 0) -> ~ veq w (V2 0 0) -> vdot u w == 0 -> tg_angle t u w == a) ->
  even_around (tg_angle t) (mh_pos cross_mesh 4) (map (mh_pos cross_mesh) [3; 0; 1; 2]%nat) a.
Proof.
  intros R x y I. cbn in I. repeat destruct I as [I|I]; try contradiction; injection I as <- <-; split; apply R; try (intros [Q1 Q2]; cbn in Q1, Q2; lra); vm_compute; reflexivity.
Qed.
Theorem C66_torsion_refuted : forall t f a, trig_laws t -> (forall u w, ~ veq u (V2 0 0) -> ~ veq w (V2 0 0) -> vdot u w == 0 -> tg_angle t u w == a) -> ~ tg_cos t (f * a) == 1 ->
  exists s m v ns d, sound m /\ mh_quads m = [] /\ interior m v /\ In (v, twice ns) (connectivity s m) /\ (forall w, In w ns <-> w <> v /\ joined m v w) /\
    even_around (tg_angle t) (mh_pos m v) (map (mh_pos m) ns) a /\
    torsion t f (mh_pos m) v (twice ns) = Some d /\ ~ veq d (V2 0 0).
Proof.
  intros t f a TL R NC. exists cross_smoother, cross_mesh, 4%nat, [3; 0; 1; 2]%nat.
  assert (C := sd_conf _ cross_sound).
  assert (NV : forall w, In w [3; 0; 1; 2]%nat -> ~ veq (mh_pos cross_mesh 4) (mh_pos cross_mesh w)).
  { intros w I [Q1 Q2]. cbn in I. repeat destruct I as [I|I]; try contradiction; subst w; cbn in Q1, Q2; lra. }
  destruct (torsion_twice t f (mh_pos cross_mesh) 4 [3; 0; 1; 2]%nat a _ TL NV (right_even t a R) (laplace_some (mh_pos cross_mesh) 4 (twice [3; 0; 1; 2]%nat) ltac:(discriminate))) as (d & D & V).
  exists d. split; [exact cross_sound|]. split; [reflexivity|]. split; [exact cross_interior|]. split; [exact cross_conn|]. split.
  { destruct (tri_neighbours cross_mesh 4 C eq_refl cross_interior) as (l & _ & J & P). intros w. rewrite <- J. rewrite <- (in_twice l w), <- (in_twice [3; 0; 1; 2]%nat w).
    assert (E : Permutation (twice l) (neighbours_of cross_mesh 4)) by (symmetry; exact P).
    assert (E' : Permutation (neighbours_of cross_mesh 4) (twice [3; 0; 1; 2]%nat)).
    { rewrite <- (sort_perm (direction_key cross_smoother cross_mesh 4) (neighbours_of cross_mesh 4)). apply Permutation_refl'. vm_compute. reflexivity. }
    split; apply Permutation_in; [symmetry; rewrite E; exact E'|rewrite E; exact E']. }
  split; [exact (right_even t a R)|]. split; [exact D|]. intros [Q1 _]. destruct V as [V1 _]. rewrite Q1 in V1.
  assert (X : vx (vscale (1 - tg_cos t (f * a)) (vsub (vscale (/ inject_Z (Z.of_nat (length (twice [3; 0; 1; 2]%nat)))) (vsum (map (mh_pos cross_mesh) (twice [3; 0; 1; 2]%nat)))) (mh_pos cross_mesh 4))) == (1 - tg_cos t (f * a)) * (1 # 4)).
  { cbn [vscale vx]. apply Qmult_comp; [reflexivity|]. vm_compute. reflexivity. }
  rewrite X in V1. cbn [vx] in V1. apply NC. lra.
Qed.

(* ---------- cases ---------- *)
(* rational stand-ins for angle, cosine and sine with the laws above; perpendicular
   vectors have the angle 1 *)
Definition stand_in : trig :=
  TG (fun u w => 1 - vdot u w * Qabs.Qabs (vdot u w) / (vnorm2 u * vnorm2 w)) (fun b => 1 - b * b / 2) (fun b => b).
Lemma stand_in_laws : trig_laws stand_in.
Proof.
  constructor; cbn [stand_in tg_angle tg_cos tg_sin].
  - intros u N. assert (P : 0 < vnorm2 u).
    { unfold vnorm2, vdot, veq in *. cbn [vx vy] in N. destruct (Qeq_dec (vx u) 0) as [X|X]; [destruct (Qeq_dec (vy u) 0) as [Y|Y]; [tauto|]|].
      - assert (0 < vy u * vy u) by (destruct (Qlt_le_dec 0 (vy u)); nra). rewrite X. lra.
      - assert (0 < vx u * vx u) by (destruct (Qlt_le_dec 0 (vx u)); nra). nra. }
    fold (vnorm2 u). rewrite Qabs.Qabs_pos by lra. generalize dependent (vnorm2 u). intros n Pn. field. lra.
  - intros x y ->. reflexivity.
  - intros x y H. exact H.
  - vm_compute. reflexivity.
  - intros x. field.
  - intros x. reflexivity.
Qed.
Lemma stand_in_right u w : ~ veq u (V2 0 0) -> ~ veq w (V2 0 0) -> vdot u w == 0 -> tg_angle stand_in u w == 1.
Proof. intros _ _ E. cbn [stand_in tg_angle]. unfold Qdiv. rewrite E. ring. Qed.
Example C66_torsion_case : trig_laws stand_in /\ (forall u w, ~ veq u (V2 0 0) -> ~ veq w (V2 0 0) -> vdot u w == 0 -> tg_angle stand_in u w == 1) /\ ~ tg_cos stand_in ((1 # 2) * 1) == 1 /\
  conforming cross_mesh /\ interior cross_mesh 4 /\ In (4%nat, twice [3; 0; 1; 2]%nat) (connectivity cross_smoother cross_mesh) /\
  read (smooth_with cross_smoother (torsion stand_in (1 # 2)) (3 # 4) 1 1 cross_mesh) 4 = Some (V2 (3 # 128) 0) /\
  read (smooth_mixed cross_smoother (torsion stand_in (1 # 2)) (3 # 4) 1 1 cross_mesh) 4 = Some (V2 (99 # 512) 0).
Proof.
  split; [exact stand_in_laws|]. split; [exact stand_in_right|]. split; [vm_compute; discriminate|]. split; [exact (sd_conf _ cross_sound)|]. split; [exact cross_interior|]. split; [exact cross_conn|].
  split; vm_compute; reflexivity.
Qed.
(* one Laplace step, and the neighbours of the corner of a quad *)
Example C66_hull_case : sound (fan_mesh 0) /\ (forall k, In k (loop_schedule laplace (3 # 4) 1 1) -> fst k = laplace /\ 0 <= snd k <= 1) /\
  (exists m', run (plain square4 false) (fan_mesh 0) (loop_schedule laplace (3 # 4) 1 1) = Ok m' /\ veq (mh_pos m' 4%nat) (V2 2 (7 # 4))) /\
  has_property (mh_prop (fan_mesh 0) 4) v_in_quad_layer = false /\ is_mean (map (mh_pos (fan_mesh 0)) [0; 1; 2; 3]%nat) (V2 2 2).
Proof.
  split; [exact fan_sound|]. split; [intros k [<-|[]]; split; [reflexivity|cbn [snd]; lra]|]. split.
  - destruct (read_such (smooth_with (plain square4 false) laplace (3 # 4) 1 1 (fan_mesh 0)) 4 (V2 2 (7 # 4))) as [m' [E [X Y]]]; [vm_compute; reflexivity|]. exists m'. split; [exact E|split; [exact X|exact Y]].
  - split; [reflexivity|]. split; [discriminate|split; vm_compute; reflexivity].
Qed.
Example C66_neighbours_case : conforming kite_mesh /\ interior kite_mesh 4 /\ In (4%nat, sort_by (direction_key (plain kite false) kite_mesh 4) (neighbours_of kite_mesh 4)) (connectivity (plain kite false) kite_mesh) /\
  joined kite_mesh 4 1 /\ ~ joined kite_mesh 4 0 /\ length (filter (opposite 4 0) (facets kite_mesh)) = 1%nat.
Proof.
  assert (S : sound kite_mesh) by (apply soundb_sound; vm_compute; reflexivity). split; [exact (sd_conf _ S)|].
  split; [intros e He; cbn [kite_mesh mh_bdry In] in He; repeat destruct He as [He|He]; try contradiction; subst e; split; discriminate|].
  split; [apply (in_map (fun v => (v, sort_by (direction_key (plain kite false) kite_mesh v) (neighbours_of kite_mesh v)))); cbn; auto 9|].
  split; [exists (fresh_edge 9 1 4 (-1)); cbn; auto 9|]. split; [|reflexivity].
  intros (e & I & H). cbn in I. repeat destruct I as [I|I]; try contradiction; subst e; cbn in H; destruct H as [[? ?]|[? ?]]; discriminate.
Qed.

Print Assumptions C66_neighbours.
Print Assumptions C66_laplace.
Print Assumptions C66_hull.
Print Assumptions C66_step.
Print Assumptions C66_pair.
Print Assumptions C66_away_refuted.
Print Assumptions C66_turn.
Print Assumptions C66_torsion_once.
Print Assumptions C66_torsion.
Print Assumptions C66_torsion_refuted.
