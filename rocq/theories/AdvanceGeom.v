(* What the geometric tests of FrontUpdate.h give for an accepted triangle. *)
From Coq Require Import Lia Lqa Permutation Setoid.
From Verif Require Import Base Chain GeomModel GeomSpec GeomProofs FacetModel FacetProofs UtilModel BdryModel BdrySpec
  AdvanceModel AdvanceSpec AdvanceProofs AdvanceInv AdvanceMore.
Open Scope Q_scope.

(* an edge that leaves a corner of a triangle into its angle ends in the
   triangle or crosses the opposite side *)
Lemma angle_hit p q r x : orientation p q r = CCW -> orientation p q x = CCW -> orientation p x r = CCW ->
  in_on_triangle x p q r = true \/ line_line_crossing x p q r = true.
Proof.
  rewrite !orientation_ccw. pose proof tol_pos. intros A B C.
  destruct (Qlt_le_dec (- tol26) (det q r x)) as [L|L].
  - left. unfold in_on_triangle. rewrite !andb_true_iff, !is_lefton_iff.
    assert (E : det r p x == det p x r) by (unfold det; ring). rewrite E. repeat split; lra.
  - right. apply crossing_iff.
    assert (E1 : det x p q == det p q x) by (unfold det; ring).
    assert (E2 : det x p r == - det p x r) by (unfold det; ring).
    assert (E3 : det q r p == det p q r) by (unfold det; ring).
    rewrite E1, E2, E3. split; [left|right]; lra.
Qed.

(* ---- two triangles on the same side of a common edge conflict ---- *)
Definition tsides (a b c : vec2) : list (vec2 * vec2) := [(a, b); (b, c); (c, a)].

Lemma cross_conflict p1 q1 r1 p2 q2 r2 s1 s2 : In s1 (tsides p1 q1 r1) -> In s2 (tsides p2 q2 r2) ->
  line_line_crossing (fst s1) (snd s1) (fst s2) (snd s2) = true -> tri_tri_conflict p1 q1 r1 p2 q2 r2 = true.
Proof.
  intros I1 I2 X. apply intersection_of_crossing in X.
  unfold tri_tri_conflict. apply orb_true_iff. left. apply orb_true_iff. left.
  unfold tri_tri_intersection, line_tri_intersection.
  destruct I1 as [<-|[<-|[<-|[]]]], I2 as [<-|[<-|[<-|[]]]]; cbn [fst snd] in X; rewrite X, ?orb_true_r; reflexivity.
Qed.

Lemma centroid_conflict1 p1 q1 r1 p2 q2 r2 : in_triangle (tri_centroid p1 q1 r1) p2 q2 r2 = true ->
  tri_tri_conflict p1 q1 r1 p2 q2 r2 = true.
Proof. intros H. unfold tri_tri_conflict. rewrite H, ?orb_true_r. reflexivity. Qed.
Lemma centroid_conflict2 p1 q1 r1 p2 q2 r2 : in_triangle (tri_centroid p2 q2 r2) p1 q1 r1 = true ->
  tri_tri_conflict p1 q1 r1 p2 q2 r2 = true.
Proof. intros H. unfold tri_tri_conflict. rewrite H, ?orb_true_r. reflexivity. Qed.

(* a rotation of the corners *)
Definition rot_of (p q r a b c : vec2) : Prop :=
  (p = a /\ q = b /\ r = c) \/ (p = b /\ q = c /\ r = a) \/ (p = c /\ q = a /\ r = b).

Lemma rot_sides p q r a b c : rot_of p q r a b c -> forall s, In s (tsides a b c) -> In s (tsides p q r).
Proof.
  intros R s H. unfold tsides in *. destruct R as [(-> & -> & ->)|[(-> & -> & ->)|(-> & -> & ->)]];
    destruct H as [<-|[<-|[<-|[]]]]; cbn; tauto.
Qed.
Lemma rot_centroid_in p q r a b c p' q' r' a' b' c' : rot_of p q r a b c -> rot_of p' q' r' a' b' c' ->
  in_triangle (tri_centroid a b c) a' b' c' = true -> in_triangle (tri_centroid p q r) p' q' r' = true.
Proof.
  intros R R'. unfold in_triangle. rewrite !andb_true_iff, !is_left_iff. unfold tri_centroid, det. cbn [vx vy].
  destruct R as [(-> & -> & ->)|[(-> & -> & ->)|(-> & -> & ->)]];
  destruct R' as [(-> & -> & ->)|[(-> & -> & ->)|(-> & -> & ->)]]; intros [[H1 H2] H3]; repeat split; qlra.
Qed.

Lemma shared_side_conflict a b x y p1 q1 r1 p2 q2 r2 : rot_of p1 q1 r1 a b x -> rot_of p2 q2 r2 a b y ->
  4 * tol26 <= det a b x -> 4 * tol26 <= det a b y -> tri_tri_conflict p1 q1 r1 p2 q2 r2 = true.
Proof.
  intros R1 R2 D1 D2. pose proof tol_pos as TP.
  set (s := det b x y). set (u := det x a y).
  assert (Es : s == det b x y) by reflexivity. assert (Eu : u == det x a y) by reflexivity. clearbody s u.
  assert (C2 : - tol26 < s -> - tol26 < u -> tri_tri_conflict p1 q1 r1 p2 q2 r2 = true).
  { intros L1 L2. apply centroid_conflict2. apply (rot_centroid_in _ _ _ _ _ _ _ _ _ _ _ _ R2 R1).
    unfold in_triangle. rewrite !andb_true_iff, !is_left_iff.
    assert (E1 : det a b (tri_centroid a b y) == det a b y * (1 # 3)) by (unfold det, tri_centroid; cbn [vx vy]; field).
    assert (E2 : det b x (tri_centroid a b y) == (det a b x + det b x y) * (1 # 3)) by (unfold det, tri_centroid; cbn [vx vy]; field).
    assert (E3 : det x a (tri_centroid a b y) == (det a b x + det x a y) * (1 # 3)) by (unfold det, tri_centroid; cbn [vx vy]; field).
    rewrite E1, E2, E3. repeat split; lra. }
  assert (C1 : s < tol26 -> u < tol26 -> tri_tri_conflict p1 q1 r1 p2 q2 r2 = true).
  { intros L1 L2. apply centroid_conflict1. apply (rot_centroid_in _ _ _ _ _ _ _ _ _ _ _ _ R1 R2).
    unfold in_triangle. rewrite !andb_true_iff, !is_left_iff.
    assert (E1 : det a b (tri_centroid a b x) == det a b x * (1 # 3)) by (unfold det, tri_centroid; cbn [vx vy]; field).
    assert (E2 : det b y (tri_centroid a b x) == (det a b y - det b x y) * (1 # 3)) by (unfold det, tri_centroid; cbn [vx vy]; field).
    assert (E3 : det y a (tri_centroid a b x) == (det a b y - det x a y) * (1 # 3)) by (unfold det, tri_centroid; cbn [vx vy]; field).
    rewrite E1, E2, E3. repeat split; lra. }
  destruct (Qlt_le_dec (- tol26) s) as [S1|S1], (Qlt_le_dec (- tol26) u) as [U1|U1]; auto.
  - (* y beyond x-a *)
    destruct (Qlt_le_dec s tol26) as [S2|S2]; [apply C1; lra|].
    apply (cross_conflict p1 q1 r1 p2 q2 r2 (x, a) (b, y));
      [apply (rot_sides _ _ _ _ _ _ R1); cbn; tauto|apply (rot_sides _ _ _ _ _ _ R2); cbn; tauto|].
    cbn [fst snd]. apply crossing_iff.
    assert (E1 : det x a b == det a b x) by (unfold det; ring).
    assert (E2 : det b y x == - det b x y) by (unfold det; ring).
    assert (E3 : det b y a == det a b y) by (unfold det; ring).
    rewrite E1, E2, E3. split; [left|right]; lra.
  - destruct (Qlt_le_dec u tol26) as [U2|U2]; [apply C1; lra|].
    apply (cross_conflict p1 q1 r1 p2 q2 r2 (b, x) (y, a));
      [apply (rot_sides _ _ _ _ _ _ R1); cbn; tauto|apply (rot_sides _ _ _ _ _ _ R2); cbn; tauto|].
    cbn [fst snd]. apply crossing_iff.
    assert (E1 : det b x a == det a b x) by (unfold det; ring).
    assert (E2 : det y a b == det a b y) by (unfold det; ring).
    assert (E3 : det y a x == - det x a y) by (unfold det; ring).
    rewrite E1, E2, E3. split; [right|left]; lra.
  - apply C1; lra.
Qed.

(* ---- reading the acceptance test ---- *)
Section Valid.
Variable rho : vec2 -> Q.
Variable shape_ok : vec2 -> vec2 -> vec2 -> bool.
Variable dom : list (vec2 * vec2).
Notation valid := (triangle_is_valid rho shape_ok dom).

Definition corner1 (pos : nat -> vec2) (t : tri) := pos (tr_v1 t).
Definition corner2 (pos : nat -> vec2) (t : tri) := pos (tr_v2 t).
Definition corner3 (pos : nat -> vec2) (t : tri) := pos (tr_v3 t).
(* squared search radius around the centroid *)
Definition search2 (pos : nat -> vec2) (t : tri) : Q :=
  Qmaxb (4 * rho (tri_loc pos t) * rho (tri_loc pos t)) (max_len2 (corner1 pos t) (corner2 pos t) (corner3 pos t)).
Definition near (pos : nat -> vec2) (t : tri) (x : vec2) : Prop := within (tri_loc pos t) (search2 pos t) x = true.

Definition conflict (pos : nat -> vec2) (s t : tri) : bool :=
  tri_tri_conflict (corner1 pos s) (corner2 pos s) (corner3 pos s) (corner1 pos t) (corner2 pos t) (corner3 pos t).

Lemma existsb_false {A} (f : A -> bool) l : existsb f l = false -> forall x, In x l -> f x = false.
Proof.
  intros H x Hx. destruct (f x) eqn:E; [|reflexivity].
  assert (existsb f l = true) by (apply existsb_exists; exists x; auto). congruence.
Qed.

Lemma valid_facts st t : valid st t = true ->
  0 < tri_area (corner1 (ms_pos st) t) (corner2 (ms_pos st) t) (corner3 (ms_pos st) t) /\
  (forall e, In e (ms_front st) -> near (ms_pos st) t (mid (ms_pos st) e) ->
     line_tri_intersection (ms_pos st (be_v1 e)) (ms_pos st (be_v2 e))
       (corner1 (ms_pos st) t) (corner2 (ms_pos st) t) (corner3 (ms_pos st) t) = false) /\
  (forall v, In v (ms_verts st) -> near (ms_pos st) t (ms_pos st v) ->
     v <> tr_v1 t -> v <> tr_v2 t -> v <> tr_v3 t ->
     in_on_triangle (ms_pos st v) (corner1 (ms_pos st) t) (corner2 (ms_pos st) t) (corner3 (ms_pos st) t) = false) /\
  (forall s, In s (generated st) -> tr_id s <> tr_id t -> near (ms_pos st) t (tri_loc (ms_pos st) s) ->
     conflict (ms_pos st) s t = false) /\
  (forall d, In d dom -> within (tri_loc (ms_pos st) t)
       (max_len2 (corner1 (ms_pos st) t) (corner2 (ms_pos st) t) (corner3 (ms_pos st) t))
       (vscale (1 # 2) (vadd (fst d) (snd d))) = true ->
     line_tri_crossing (fst d) (snd d) (corner1 (ms_pos st) t) (corner2 (ms_pos st) t) (corner3 (ms_pos st) t) = false) /\
  shape_ok (corner1 (ms_pos st) t) (corner2 (ms_pos st) t) (corner3 (ms_pos st) t) = true.
Proof.
  unfold triangle_is_valid. rewrite !andb_true_iff, !negb_true_iff.
  intros ((((((H1 & H2) & H3) & H4) & H5) & H6) & H7).
  split; [apply tri_valid_iff; exact H1|]. split; [|split; [|split; [|split]]].
  - intros e He N. pose proof (existsb_false _ _ H2 e He) as E. cbv beta in E.
    unfold near, search2 in N. unfold corner1, corner2, corner3, tri_loc in N. rewrite N in E. exact E.
  - intros v Hv N N1 N2 N3. pose proof (existsb_false _ _ H4 v Hv) as E. cbv beta in E.
    unfold near, search2 in N. unfold corner1, corner2, corner3, tri_loc in N. rewrite N in E.
    rewrite (proj2 (Nat.eqb_neq _ _) N1), (proj2 (Nat.eqb_neq _ _) N2), (proj2 (Nat.eqb_neq _ _) N3) in E. exact E.
  - intros s Hs Nid N. unfold generated in Hs. apply filter_In in Hs. destruct Hs as [Hs As].
    pose proof (existsb_false _ _ H5 s Hs) as E. cbv beta in E.
    unfold near, search2 in N. unfold corner1, corner2, corner3 in N. unfold tri_loc at 1 2 3 in N.
    rewrite (proj2 (Nat.eqb_neq _ _) Nid), As, N in E. exact E.
  - intros d Hd N. pose proof (existsb_false _ _ H3 d Hd) as E. cbv beta in E.
    unfold corner1, corner2, corner3, tri_loc in N. rewrite N in E. exact E.
  - exact H7.
Qed.

(* ---- history ---- *)
Section Run.
Variable mesh_scale : Q.
Variable inside : vec2 -> bool.
Variable qual : mstate -> tri -> Q.
Notation fstep := (fstep mesh_scale valid (vertex_is_valid rho inside) qual).
Notation frun := (frun mesh_scale valid (vertex_is_valid rho inside) qual).
Notation accepted := (accepted mesh_scale valid (vertex_is_valid rho inside) qual).

Definition positive (st : mstate) : Prop := forall t, In t (generated st) ->
  0 < tri_area (corner1 (ms_pos st) t) (corner2 (ms_pos st) t) (corner3 (ms_pos st) t).
(* elements within the search radius of one another do not conflict *)
Definition apart (st : mstate) : Prop := forall s t, In s (generated st) -> In t (generated st) -> tr_id s <> tr_id t ->
  (near (ms_pos st) t (tri_loc (ms_pos st) s) -> conflict (ms_pos st) s t = false) \/
  (near (ms_pos st) s (tri_loc (ms_pos st) t) -> conflict (ms_pos st) t s = false).

Lemma step_clean st o st' r : wf st -> positive st -> apart st -> fstep st o = Ok (st', r) ->
  positive st' /\ apart st'.
Proof.
  intros W P A H. pose proof (step_pos _ _ _ _ _ _ _ _ W H) as [_ PP].
  assert (SAME : forall t, In t (generated st) -> corner1 (ms_pos st') t = corner1 (ms_pos st) t /\
    corner2 (ms_pos st') t = corner2 (ms_pos st) t /\ corner3 (ms_pos st') t = corner3 (ms_pos st) t).
  { intros t Ht. apply gen_in in Ht. destruct (wf_tv _ W t Ht) as (X & Y & Z).
    unfold corner1, corner2, corner3. rewrite !PP by assumption. auto. }
  assert (LOC : forall t, In t (generated st) -> tri_loc (ms_pos st') t = tri_loc (ms_pos st) t).
  { intros t Ht. destruct (SAME t Ht) as (X & Y & Z). unfold corner1, corner2, corner3 in X, Y, Z.
    unfold tri_loc. rewrite X, Y, Z. reflexivity. }
  assert (OLDP : forall t, In t (generated st) ->
    0 < tri_area (corner1 (ms_pos st') t) (corner2 (ms_pos st') t) (corner3 (ms_pos st') t)).
  { intros t Ht. destruct (SAME t Ht) as (-> & -> & ->). apply P. exact Ht. }
  assert (OLDA : forall s t, In s (generated st) -> In t (generated st) -> tr_id s <> tr_id t ->
    (near (ms_pos st') t (tri_loc (ms_pos st') s) -> conflict (ms_pos st') s t = false) \/
    (near (ms_pos st') s (tri_loc (ms_pos st') t) -> conflict (ms_pos st') t s = false)).
  { intros s t Hs Ht N. unfold near, search2, conflict.
    destruct (SAME s Hs) as (-> & -> & ->), (SAME t Ht) as (-> & -> & ->). rewrite (LOC s Hs), (LOC t Ht).
    apply (A s t Hs Ht N). }
  apply fstep_spec in H; [|exact W]. destruct r as [t|].
  2:{ destruct H as (G & _). pose proof (q_gen _ _ G) as EG. split.
      - intros t Ht. rewrite EG in Ht. apply OLDP. exact Ht.
      - intros s t Hs Ht. rewrite EG in Hs, Ht. apply OLDA; assumption. }
  destruct H as (st2 & base & T & E & _).
  pose proof (tk_grown _ _ _ _ _ T) as G. pose proof (tk_wf _ _ _ _ _ T) as W2.
  destruct (tk_ok _ _ _ _ _ T) as (stx & Gx & OK & PX & _).
  pose proof (advance_generated st2 base (tr_v3 t) t W2 (tk_in _ _ _ _ _ T) (tk_act _ _ _ _ _ T)) as PG.
  rewrite <- E, (g_gen _ _ G) in PG.
  assert (E2 : ms_pos st' = ms_pos st2) by (rewrite E; reflexivity).
  destruct (wf_tv _ W2 t (tk_in _ _ _ _ _ T)) as (B1 & B2 & B3).
  assert (PT : ms_pos stx (tr_v1 t) = ms_pos st' (tr_v1 t) /\ ms_pos stx (tr_v2 t) = ms_pos st' (tr_v2 t) /\
               ms_pos stx (tr_v3 t) = ms_pos st' (tr_v3 t)).
  { rewrite E2. rewrite !PX by assumption. auto. }
  destruct PT as (PT1 & PT2 & PT3).
  destruct (valid_facts _ _ OK) as (V1 & _ & _ & V4 & _).
  unfold corner1, corner2, corner3 in V1. rewrite PT1, PT2, PT3 in V1.
  assert (NA : forall s, In s (generated st) -> tr_id s <> tr_id t ->
    near (ms_pos st') (activated t) (tri_loc (ms_pos st') s) -> conflict (ms_pos st') s (activated t) = false).
  { intros s Hs N NE. rewrite <- (g_gen _ _ Gx) in Hs. specialize (V4 s Hs N).
    assert (Hs' : In s (generated st)) by (rewrite (g_gen _ _ Gx) in Hs; exact Hs).
    pose proof (wf_tv _ W s (gen_in _ _ Hs')) as (S1 & S2 & S3).
    pose proof (g_nv _ _ G) as LE.
    assert (PS : forall v, (v < ms_nv st)%nat -> ms_pos stx v = ms_pos st' v).
    { intros v Hv. rewrite E2. apply PX. lia. }
    unfold near, search2, conflict, corner1, corner2, corner3, tri_loc in V4, NE |- *. cbn [activated tr_v1 tr_v2 tr_v3] in NE |- *.
    rewrite PT1, PT2, PT3, !PS in V4 by assumption. apply V4. exact NE. }
  split.
  - intros s Hs. apply (Permutation_in _ PG) in Hs. destruct Hs as [<-|Hs]; [exact V1|]. apply OLDP. exact Hs.
  - intros s u Hs Hu N. apply (Permutation_in _ PG) in Hs. apply (Permutation_in _ PG) in Hu.
    destruct Hs as [<-|Hs], Hu as [<-|Hu].
    + exfalso. apply N. reflexivity.
    + right. apply NA; [exact Hu|]. cbn in N. congruence.
    + left. apply NA; [exact Hs|]. cbn in N. congruence.
    + apply OLDA; assumption.
Qed.

Lemma run_clean os st st' : wf st -> positive st -> apart st -> frun st os = Ok st' -> positive st' /\ apart st'.
Proof.
  intros W P A H.
  pose proof (run_ind mesh_scale valid (vertex_is_valid rho inside) qual
    (fun s => wf s /\ positive s /\ apart s) (fun _ => True) (fun _ _ => True)) as R.
  refine (proj2 (R _ os st st' _ _ (accepted_true _ _ _ _ os st) H)).
  - intros s o s' r (W1 & P1 & A1) _ E _. split; [exact (step_wf _ _ _ _ _ _ _ _ W1 E)|].
    exact (step_clean s o s' r W1 P1 A1 E).
  - auto.
  - apply Forall_forall. auto.
Qed.
End Run.

(* ---- the expected edges are found ---- *)
(* between two front edges that leave a vertex there is one that enters it, and
   the other way round: the front keeps the domain on its left *)
Definition alternating (pos : nat -> vec2) (es : list bedge) : Prop :=
  (forall e f, In e es -> In f es -> be_v1 e = be_v1 f ->
     orientation (pos (be_v1 e)) (pos (be_v2 e)) (pos (be_v2 f)) = CCW ->
     exists g, In g es /\ be_v2 g = be_v1 e /\
       orientation (pos (be_v1 e)) (pos (be_v2 e)) (pos (be_v1 g)) = CCW /\
       orientation (pos (be_v1 e)) (pos (be_v1 g)) (pos (be_v2 f)) = CCW) /\
  (forall e f, In e es -> In f es -> be_v2 e = be_v2 f ->
     orientation (pos (be_v2 e)) (pos (be_v1 e)) (pos (be_v1 f)) = CCW ->
     exists g, In g es /\ be_v1 g = be_v2 e /\
       orientation (pos (be_v2 e)) (pos (be_v1 e)) (pos (be_v2 g)) = CCW /\
       orientation (pos (be_v2 e)) (pos (be_v2 g)) (pos (be_v1 f)) = CCW).

(* the search radius reaches the front edges at the base and their end points *)
Definition in_reach (st : mstate) (t : tri) : Prop :=
  forall g, In g (ms_front st) -> (incident (tr_v1 t) g = true \/ incident (tr_v2 t) g = true) ->
    near (ms_pos st) t (mid (ms_pos st) g) /\
    near (ms_pos st) t (ms_pos st (be_v1 g)) /\ near (ms_pos st) t (ms_pos st (be_v2 g)) /\
    In (be_v1 g) (ms_verts st) /\ In (be_v2 g) (ms_verts st).

Lemma line_tri_crossing_hit a b p q r : line_line_crossing a b q r = true -> line_tri_intersection a b p q r = true.
Proof. intros H. apply intersection_of_crossing in H. unfold line_tri_intersection. rewrite H, orb_true_r. reflexivity. Qed.

Lemma valid_sides_expected st t base : valid st t = true -> In base (ms_front st) ->
  tr_v1 t = be_v1 base -> tr_v2 t = be_v2 base ->
  orientation (ms_pos st (tr_v1 t)) (ms_pos st (tr_v2 t)) (ms_pos st (tr_v3 t)) = CCW ->
  alternating (ms_pos st) (ms_front st) -> in_reach st t -> sides_expected st t.
Proof.
  intros OK Hb T1 T2 OR [AO AI] RE.
  destruct (valid_facts _ _ OK) as (_ & F & VV & _). unfold corner1, corner2, corner3 in F, VV.
  set (p := ms_pos st (tr_v1 t)) in *. set (q := ms_pos st (tr_v2 t)) in *. set (r := ms_pos st (tr_v3 t)) in *.
  assert (DIST : forall a b c d, orientation a b c = CCW -> d = a \/ d = b -> c <> d).
  { intros a b c d H [->| ->] ->; [rewrite orientation_self_l in H|rewrite orientation_self_r in H]; discriminate. }
  split; intros e He; apply get_edge_in in He; destruct He as [He [J|J]].
  - exact J.
  - (* an edge v1 -> v3 leaves the base vertex *)
    exfalso. destruct J as [J1 J2].
    destruct (AO base e Hb He) as (g & Hg & Eg & G1 & G2).
    { congruence. } { rewrite <- T1, <- T2, J2. exact OR. }
    rewrite <- T1 in Eg. rewrite <- T1, <- T2 in G1. rewrite <- T1, J2 in G2. fold p q in G1. fold p r in G2.
    set (x := ms_pos st (be_v1 g)) in *.
    destruct (RE g Hg) as (R1 & R2 & _ & R3 & _).
    { left. unfold incident. rewrite Eg, Nat.eqb_refl, orb_true_r. reflexivity. }
    pose proof (F g Hg R1) as NX. rewrite Eg in NX. fold p x in NX.
    destruct (angle_hit p q r x OR G1 G2) as [A|A].
    + assert (in_on_triangle x p q r = false); [|congruence].
      apply VV; [exact R3|exact R2| | |].
      * intros E. unfold x in G1. rewrite E in G1. fold p in G1. rewrite orientation_self_l in G1. discriminate.
      * intros E. unfold x in G1. rewrite E in G1. fold q in G1. rewrite orientation_self_r in G1. discriminate.
      * intros E. unfold x in G2. rewrite E in G2. fold r in G2. rewrite orientation_self_r in G2. discriminate.
    + apply line_tri_crossing_hit with (p := p) in A. congruence.
  - (* an edge v3 -> v2 enters the base vertex *)
    exfalso. destruct J as [J1 J2].
    assert (OR2 : orientation q r p = CCW) by (rewrite <- (orientation_rot p q r); exact OR).
    destruct (AI e base He Hb) as (g & Hg & Eg & G1 & G2).
    { congruence. } { rewrite J1, J2, <- T1. exact OR2. }
    rewrite J2 in Eg. rewrite J1, J2 in G1. rewrite J2, <- T1 in G2. fold q r in G1. fold p q in G2.
    set (x := ms_pos st (be_v2 g)) in *.
    destruct (RE g Hg) as (R1 & _ & R2 & _ & R3).
    { right. unfold incident. rewrite Eg, Nat.eqb_refl. reflexivity. }
    pose proof (F g Hg R1) as NX. rewrite Eg in NX. fold q x in NX.
    destruct (angle_hit q r p x OR2 G1 G2) as [A|A].
    + assert (A' : in_on_triangle x p q r = true).
      { unfold in_on_triangle in *. rewrite !andb_true_iff in *. tauto. }
      assert (in_on_triangle x p q r = false); [|congruence].
      apply VV; [exact R3|exact R2| | |].
      * intros E. unfold x in G2. rewrite E in G2. fold p in G2. rewrite orientation_self_r in G2. discriminate.
      * intros E. unfold x in G1. rewrite E in G1. fold q in G1. rewrite orientation_self_l in G1. discriminate.
      * intros E. unfold x in G1. rewrite E in G1. fold r in G1. rewrite orientation_self_r in G1. discriminate.
    + rewrite <- crossing_rev1 in A. apply intersection_of_crossing in A.
      unfold line_tri_intersection in NX. rewrite A, orb_true_r in NX. discriminate.
  - exact J.
Qed.

(* no element lies on the same side of a side of the new one *)
Lemma valid_side_free st t : valid st t = true ->
  (forall s, In s (generated st) -> tr_id s <> tr_id t /\ near (ms_pos st) t (tri_loc (ms_pos st) s) /\
     4 * tol26 <= det (corner1 (ms_pos st) s) (corner2 (ms_pos st) s) (corner3 (ms_pos st) s)) ->
  4 * tol26 <= det (corner1 (ms_pos st) t) (corner2 (ms_pos st) t) (corner3 (ms_pos st) t) ->
  forall a b, In (a, b) (tri_sides t) -> uses a b (sides (generated st)) = 0%nat.
Proof.
  intros OK R D a b I. apply uses_zero. intros J. unfold sides in J. apply in_flat_map in J. destruct J as [s [Hs J]].
  destruct (R s Hs) as (N & NE & Ds).
  destruct (valid_facts _ _ OK) as (_ & _ & _ & C & _). specialize (C s Hs N NE). unfold conflict in C.
  assert (RT : exists y, rot_of (corner1 (ms_pos st) t) (corner2 (ms_pos st) t) (corner3 (ms_pos st) t)
     (ms_pos st a) (ms_pos st b) y).
  { unfold rot_of, corner1, corner2, corner3, tri_sides in *.
    destruct I as [I|[I|[I|[]]]]; injection I as <- <-; eexists; [left|right; right|right; left]; repeat split. }
  assert (RS : exists x, rot_of (corner1 (ms_pos st) s) (corner2 (ms_pos st) s) (corner3 (ms_pos st) s)
     (ms_pos st a) (ms_pos st b) x).
  { unfold rot_of, corner1, corner2, corner3, tri_sides in *.
    destruct J as [J|[J|[J|[]]]]; injection J as <- <-; eexists; [left|right; right|right; left]; repeat split. }
  destruct RT as [y RT], RS as [x RS].
  assert (DR : forall p q r u v w, rot_of p q r u v w -> det p q r == det u v w).
  { intros p q r u v w [(-> & -> & ->)|[(-> & -> & ->)|(-> & -> & ->)]]; unfold det; ring. }
  rewrite (DR _ _ _ _ _ _ RT) in D. rewrite (DR _ _ _ _ _ _ RS) in Ds.
  rewrite (shared_side_conflict _ _ _ _ _ _ _ _ _ _ RS RT Ds D) in C. discriminate.
Qed.
End Valid.
