(* The boundaries of a mesh block one after the other: proofs for DomInProps. *)
From Coq Require Import Lia Lqa Permutation.
From Verif Require Import Base Chain GeomModel GeomSpec UtilModel BdryModel BdrySpec BdryProofs BdryProps WindSpec WindProofs InsideProofs WindInside WindInsideProps PolySpec PolyProofs PolyMain PolyProps
  ClearSpec ClearStart ClearDomain ParaModel CsvModel AppModel ShapeModel ShapeProps DomCheckProps DomInModel DomInSpec DomInProofs.
Open Scope Q_scope.

Lemma vertices_any nearest shape : answers nearest -> forall props store, length props = length shape ->
  exists ext vs, shape_vertices nearest store shape props = Ok (store ++ ext, vs) /\ length vs = length shape.
Proof.
  intros A. induction shape as [|p shape IH]; intros props store L; [exists [], []; rewrite app_nil_r; split; reflexivity|].
  destruct props as [|[s r] props]; [discriminate|]. cbn [shape_vertices]. destruct (A store p) as (o & ->). cbn [obind].
  set (reuse := match o with Some i => match nth_error store i with Some v => if veqb (vi_xy v) p then Some i else None | None => None end | None => None end).
  cbn [length] in L. destruct reuse as [i|].
  - destruct (IH props store ltac:(lia)) as (ext & vs & E & LV). rewrite E. exists ext, (i :: vs). cbn [obind fst snd length]. split; [reflexivity|lia].
  - destruct (IH props (store ++ [VI p s r 0%N]) ltac:(lia)) as (ext & vs & E & LV). rewrite E. exists ([VI p s r 0%N] ++ ext), (length store :: vs). cbn [obind fst snd length]. rewrite app_assoc. split; [reflexivity|lia].
Qed.
Lemma edges_any fwd vs colors : length colors = length vs -> exists es, shape_edges fwd vs colors = Ok es.
Proof.
  intros L. unfold shape_edges. cbv zeta. apply all_made. intros i I0. set (N0 := length vs) in *.
  assert (I : (i < N0)%nat) by (destruct fwd; [|apply in_rev in I0]; apply in_seq in I0; lia). clear I0.
  assert (J : (mod_succ i N0 < N0)%nat) by (apply Nat.mod_upper_bound; lia).
  rewrite (nth_error_nth' vs 0%nat) by exact I. rewrite (nth_error_nth' vs 0%nat) by exact J.
  destruct fwd; rewrite (nth_error_nth' colors 0%Z) by (rewrite L; assumption); eexists; reflexivity.
Qed.
Lemma creates nearest bt store shape props colors : answers nearest -> length props = length shape -> length colors = length shape ->
  exists ext l, create_boundary_shape nearest bt store shape props colors = Ok (store ++ ext, l).
Proof.
  intros A L1 L2. destruct (vertices_any nearest shape A props store L1) as (ext & vs & E & LV).
  destruct (edges_any (is_forward bt (Qltb 0 (polygon_area shape))) vs colors ltac:(lia)) as (es & F).
  exists ext. unfold create_boundary_shape. rewrite E. cbn [obind fst snd]. rewrite F. cbn [obind]. eexists. reflexivity.
Qed.
Lemma made_colours nearest bt store shape props colors store' l e : create_boundary_shape nearest bt store shape props colors = Ok (store', l) ->
  In e (el_edges l) -> In (be_col e) colors /\ be_prop e = e_on_boundary.
Proof.
  intros C I. destruct (create_ok _ _ _ _ _ _ _ _ C) as (_ & H2 & _ & _ & _ & _ & H7 & _ & H9). rewrite Forall_forall in H7. split; [|exact (H7 e I)].
  apply In_nth_error in I. destruct I as (k & K). assert (KL : (k < length shape)%nat) by (rewrite <- H2; apply nth_error_Some; congruence).
  set (fwd := is_forward bt (Qltb 0 (polygon_area shape))) in H9. destruct fwd.
  - specialize (H9 k KL). rewrite K in H9. exact (nth_error_In _ _ H9).
  - specialize (H9 (length shape - 1 - k)%nat ltac:(lia)). replace (length shape - 1 - (length shape - 1 - k))%nat with k in H9 by lia. rewrite K in H9. exact (nth_error_In _ _ H9).
Qed.

Lemma truncated q : (0 <= q -> inject_Z (truncate q) <= q < inject_Z (truncate q) + 1) /\ (q < 0 -> inject_Z (truncate q) - 1 < q <= inject_Z (truncate q)).
Proof.
  destruct q as [a b]. unfold truncate. cbn [Qnum Qden]. set (z := Z.quot a (Zpos b)).
  assert (E := Z.quot_rem' a (Zpos b)). fold z in E. set (r := Z.rem a (Zpos b)) in *. unfold Qle, Qlt, Qminus, Qplus, Qopp, inject_Z. cbn [Qnum Qden]. rewrite ?Z.mul_1_r, ?Z.mul_0_l, ?Pos.mul_1_r. clearbody z. split; intros H.
  - assert (B := Z.rem_bound_pos a (Zpos b) ltac:(lia) ltac:(lia)). fold r in B. clearbody r. split; nia.
  - assert (B := Z.rem_bound_pos_neg a (Zpos b) ltac:(lia) ltac:(lia)). fold r in B. clearbody r. split; nia.
Qed.
Lemma int_one q z z' : (0 <= q -> inject_Z z <= q < inject_Z z + 1) /\ (q < 0 -> inject_Z z - 1 < q <= inject_Z z) ->
  (0 <= q -> inject_Z z' <= q < inject_Z z' + 1) /\ (q < 0 -> inject_Z z' - 1 < q <= inject_Z z') -> z = z'.
Proof.
  intros [A1 A2] [B1 B2]. assert (X : inject_Z z < inject_Z z' + 1 /\ inject_Z z' < inject_Z z + 1).
  { destruct (Qlt_le_dec q 0) as [H|H]; [destruct (A2 H), (B2 H)|destruct (A1 H), (B1 H)]; split; lra. }
  destruct X as [X Y]. unfold Qlt, Qplus, inject_Z in X, Y. cbn [Qnum Qden] in X, Y. lia.
Qed.
Lemma int_read q z : int_of q z -> to_int q = Ok z.
Proof.
  intros (E1 & E2 & R). unfold to_int. rewrite (int_one q (truncate q) z (truncated q) (conj E1 E2)). cbv zeta. replace (z <? -2147483648)%Z with false by (symmetry; apply Z.ltb_ge; lia).
  replace (2147483647 <? z)%Z with false by (symmetry; apply Z.ltb_ge; lia). reflexivity.
Qed.
Lemma entry_row p j vs i v : row_is p j vs -> nth_error vs i = Some v -> entry p i j = Ok v.
Proof. intros H N. unfold entry. rewrite (H i v N). reflexivity. Qed.
Lemma corners_read p cs : forall j, (forall i x y s r m, nth_error cs i = Some (V2 x y, (s, r), m) -> exists c, row_is p (j + i)%nat [x; y; c; s; r] /\ int_of c m /\ (0 <= m)%Z) ->
  read_corners p (length cs) j = Ok (map (fun c => CN (fst (fst c)) (snd (fst c)) (snd c)) cs).
Proof.
  induction cs as [|[[[x y] [s r]] m] cs IH]; intros j H; [reflexivity|]. cbn [length read_corners map fst snd].
  destruct (H 0%nat x y s r m eq_refl) as (c & R & IO & M0). rewrite Nat.add_0_r in R.
  rewrite (entry_row p j _ 0 x R eq_refl), (entry_row p j _ 1 y R eq_refl), (entry_row p j _ 2 c R eq_refl). cbn [obind]. rewrite (int_read _ _ IO). cbn [obind].
  rewrite (entry_row p j _ 3 s R eq_refl), (entry_row p j _ 4 r R eq_refl). cbn [obind].
  replace (m <? 0)%Z with false by (symmetry; apply Z.ltb_ge; exact M0).
  rewrite (IH (S j)); [reflexivity|]. intros i x' y' s' r' m' N. specialize (H (S i) x' y' s' r' m' N). replace (j + S i)%nat with (S j + i)%nat in H by lia. exact H.
Qed.
Lemma alike_parts s r m l : places (alike s r m l) = l /\ sizes (alike s r m l) = repeat (s, r) (length l) /\ colours (alike s r m l) = repeat m (length l).
Proof.
  unfold places, sizes, colours, alike. rewrite !map_map. cbn [fst snd]. rewrite map_id. split; [reflexivity|].
  split; induction l as [|a l IH]; [reflexivity|cbn [map length repeat]; rewrite IH; reflexivity|reflexivity|cbn [map length repeat]; rewrite IH; reflexivity].
Qed.

Section Build.
Variable nearest : list vinfo -> vec2 -> outcome (option nat).
Variables cosn sinn : nat -> nat -> Q.
Variable sqrt3 : Q.
Variable stod : text -> option Q.
Hypothesis ANS : answers nearest.

Lemma make_described bt store d cs : describes cosn sinn sqrt3 stod d cs ->
  make nearest cosn sinn sqrt3 stod bt store (EL (bdry_orient bt) [] 0) d = create_boundary_shape nearest bt store (places cs) (sizes cs) (colours cs).
Proof.
  intros D. destruct D as [p cs L R|p c m x y w h s r R IO|p c m x y rad k n s r R IO IK N|p c m x y w s r R IO|p c m x y a s r R IO|file xs ps ms cs R E1 E2 E3]; cbn [make].
  - rewrite <- L, (corners_read p cs 0 R). cbn [obind]. unfold set_shape. cbn [el_edges]. unfold places, sizes, colours. rewrite !map_map. cbn [cn_xy cn_props cn_col]. reflexivity.
  - rewrite (entry_row p 0 _ 0 c R eq_refl), (entry_row p 0 _ 1 x R eq_refl), (entry_row p 0 _ 2 y R eq_refl), (entry_row p 0 _ 3 w R eq_refl), (entry_row p 0 _ 4 h R eq_refl), (entry_row p 0 _ 5 s R eq_refl), (entry_row p 0 _ 6 r R eq_refl).
    cbn [obind]. rewrite (int_read _ _ IO). cbn [obind]. unfold set_shape_rectangle, set_shape. cbn [el_edges]. destruct (alike_parts s r m (rect_shape (V2 x y) w h)) as (P1 & P2 & P3).
    cbv zeta in P1, P2, P3. unfold rect_shape in *. cbn [vx vy] in *. cbv zeta in *. rewrite P1, P2, P3. reflexivity.
  - rewrite (entry_row p 0 _ 0 c R eq_refl), (entry_row p 0 _ 1 x R eq_refl), (entry_row p 0 _ 2 y R eq_refl), (entry_row p 0 _ 3 rad R eq_refl), (entry_row p 0 _ 4 k R eq_refl), (entry_row p 0 _ 5 s R eq_refl), (entry_row p 0 _ 6 r R eq_refl).
    cbn [obind]. rewrite (int_read _ _ IO). cbn [obind]. rewrite (int_read _ _ IK). cbn [obind]. unfold corner_number.
    replace (Z.of_nat n <? 0)%Z with false by (symmetry; apply Z.ltb_ge; lia). cbn [obind]. rewrite Nat2Z.id. unfold set_shape_circle.
    replace (Nat.ltb n 3) with false by (symmetry; apply Nat.ltb_ge; exact N). unfold set_shape. cbn [el_edges].
    destruct (alike_parts s r m (map (fun i => V2 (x + rad * cosn n i) (y + rad * sinn n i)) (seq 0 n))) as (-> & -> & ->). rewrite map_length, seq_length. reflexivity.
  - rewrite (entry_row p 0 _ 0 c R eq_refl), (entry_row p 0 _ 1 x R eq_refl), (entry_row p 0 _ 2 y R eq_refl), (entry_row p 0 _ 3 w R eq_refl), (entry_row p 0 _ 4 s R eq_refl), (entry_row p 0 _ 5 r R eq_refl).
    cbn [obind]. rewrite (int_read _ _ IO). cbn [obind]. unfold set_shape_square, set_shape_rectangle, set_shape. cbn [el_edges]. destruct (alike_parts s r m (rect_shape (V2 x y) w w)) as (P1 & P2 & P3).
    cbv zeta in P1, P2, P3. unfold rect_shape in *. cbn [vx vy] in *. cbv zeta in *. rewrite P1, P2, P3. reflexivity.
  - rewrite (entry_row p 0 _ 0 c R eq_refl), (entry_row p 0 _ 1 x R eq_refl), (entry_row p 0 _ 2 y R eq_refl), (entry_row p 0 _ 3 a R eq_refl), (entry_row p 0 _ 4 s R eq_refl), (entry_row p 0 _ 5 r R eq_refl).
    cbn [obind]. rewrite (int_read _ _ IO). cbn [obind]. unfold set_shape_triangle, set_shape_circle. change (Nat.ltb 3 3) with false. cbv iota. unfold set_shape. cbn [el_edges].
    destruct (alike_parts s r m (map (fun i => V2 (x + a / sqrt3 * cosn 3%nat i) (y + a / sqrt3 * sinn 3%nat i)) (seq 0 3))) as (-> & -> & ->). reflexivity.
  - rewrite R. cbn [obind fst snd]. unfold set_shape. cbn [el_edges]. rewrite E1, E2, E3. reflexivity.
Qed.
Lemma parts_length (cs : list corner_data) : length (sizes cs) = length (places cs) /\ length (colours cs) = length (places cs).
Proof. unfold places, sizes, colours. rewrite !map_length. split; reflexivity. Qed.

(* a boundary for each definition *)
Definition fits_def (store : list vinfo) (b : bdry_type * elist) (cs : list corner_data) : Prop :=
  around_shape store (fst b) (snd b) (places cs) /\ (forall e, In e (el_edges (snd b)) -> In (be_col e) (colours cs) /\ be_prop e = e_on_boundary).
Lemma fits_later store ext b cs : fits_def store b cs -> fits_def (store ++ ext) b cs.
Proof. intros [A C]. split; [apply around_later, A|exact C]. Qed.
Lemma rows_read strict N p (vs : list (nat * nat)) (ms : list Z) : length ms = length vs -> forall j,
  (forall i v w m, nth_error vs i = Some (v, w) -> nth_error ms i = Some m ->
     get_value p 0 (j + i) = Some (Z.of_nat v) /\ get_value p 1 (j + i) = Some (Z.of_nat w) /\ get_value p 2 (j + i) = Some m) ->
  (forall v w, In (v, w) vs -> (v < N /\ w < N)%nat /\ (Z.of_nat v < 2147483648)%Z /\ (Z.of_nat w < 2147483648)%Z) ->
  boundary_edges strict (seq 0 N) p (length vs) j = Ok (combine vs ms).
Proof.
  revert ms. induction vs as [|[v w] vs IH]; intros [|m ms] L j G B; try discriminate; [reflexivity|]. cbn [length boundary_edges combine].
  destruct (G 0%nat v w m eq_refl eq_refl) as (G0 & G1 & G2). rewrite Nat.add_0_r in G0, G1, G2. unfold entry. rewrite G0, G1, G2. cbn [obind].
  destruct (B v w (or_introl eq_refl)) as ([B1 B2] & B3 & B4). unfold read_edge.
  assert (TS : forall x, (Z.of_nat x < 2147483648)%Z -> to_size (Z.of_nat x) = Z.of_nat x) by (intros x X; unfold to_size; apply Z.mod_small; lia).
  rewrite (TS v B3), (TS w B4). rewrite !seq_length.
  assert (RJ : forall x, (x < N)%nat -> rejects strict N (Z.of_nat x) = false) by (intros x X; unfold rejects; destruct strict; [apply Z.leb_gt|apply Z.ltb_ge]; lia).
  rewrite (RJ v B1), (RJ w B2). cbn [orb].
  assert (VA : forall x, (x < N)%nat -> vertex_at (seq 0 N) (Z.of_nat x) = Ok x).
  { intros x X. unfold vertex_at. rewrite Nat2Z.id. assert (E : nth_error (seq 0 N) x = Some x) by (rewrite (nth_error_nth' _ 0%nat) by (rewrite seq_length; exact X); rewrite seq_nth by exact X; reflexivity). rewrite E. reflexivity. }
  rewrite (VA v B1), (VA w B2). cbn [obind fst snd]. rewrite (IH ms); [reflexivity|cbn in L; lia| |intros v' w' I; apply B; right; exact I].
  intros i v' w' m' N1 N2. specialize (G (S i) v' w' m' N1 N2). replace (j + S i)%nat with (S j + i)%nat in G by lia. exact G.
Qed.
Lemma ring_length {A} (l : list A) : length (ring_edges l) = length l.
Proof.
  assert (X : forall (l : list A) a, length (path_edges a l) = length l) by (induction l0 as [|x l0 IH]; intros a; cbn [path_edges length]; [reflexivity|rewrite IH; reflexivity]).
  destruct l as [|a l]; [reflexivity|]. cbn [ring_edges]. rewrite X, app_length. cbn. lia.
Qed.
(* the edges of such a list are taken over as they are *)
Lemma edges_around store bt p vs cs : pr_nrow p = length vs -> length cs = length vs ->
  (forall j v w c, nth_error (ring_edges vs) j = Some (v, w) -> nth_error cs j = Some c ->
     get_value p 0 j = Some (Z.of_nat v) /\ get_value p 1 j = Some (Z.of_nat w) /\ get_value p 2 j = Some (snd c)) ->
  (forall j v c, nth_error vs j = Some v -> nth_error cs j = Some c -> (Z.of_nat v < 2147483648)%Z /\ exists x, nth_error store v = Some x /\ vi_xy x = fst (fst c)) ->
  match bt with EXTERIOR => 0 < signed_area (places cs) | INTERIOR => signed_area (places cs) < 0 end -> simple_polygon (places cs) ->
  exists b, make nearest cosn sinn sqrt3 stod bt store (EL (bdry_orient bt) [] 0) (DEdges p) = Ok (store, b) /\ fits_def store (bt, b) cs.
Proof.
  intros N L R V O S. cbn [make].
  assert (VS : forall v, In v vs -> (v < length store)%nat /\ (Z.of_nat v < 2147483648)%Z).
  { intros v I. apply In_nth_error in I. destruct I as (j & J). assert (X : (j < length cs)%nat) by (rewrite L; apply nth_error_Some; congruence).
    destruct (nth_error cs j) as [c|] eqn:C; [|apply nth_error_None in C; lia]. destruct (V j v c J C) as (V1 & x & V2 & _). split; [apply nth_error_Some; congruence|exact V1]. }
  rewrite N, <- (ring_length vs), (rows_read _ (length store) p (ring_edges vs) (colours cs)).
  2: { unfold colours. rewrite map_length, ring_length. exact L. }
  2: { intros i v w m H1 H2. unfold colours in H2. rewrite nth_error_map in H2. destruct (nth_error cs i) as [c|] eqn:C; [|discriminate]. injection H2 as <-. exact (R i v w c H1 C). }
  2: { intros v w I. destruct (DomCheckProps.ring_in _ _ _ I) as [I1 I2]. destruct (VS v I1), (VS w I2). tauto. }
  cbn [obind]. change (fun v => match nth_error store v with Some x => vi_xy x | None => V2 0 0 end) with (store_pos store).
  eexists. split; [reflexivity|]. match goal with |- fits_def _ (_, ?x) _ => set (b := x) end.
  destruct (push_all (store_pos store) (combine (ring_edges vs) (colours cs)) (EL (bdry_orient bt) [] 0)) as (_ & P2 & P3); [destruct bt; reflexivity|].
  assert (ID := push_ids (store_pos store) (combine (ring_edges vs) (colours cs)) (EL (bdry_orient bt) [] 0) eq_refl). cbv zeta in ID, P2, P3. fold b in ID, P2, P3. cbn [el_edges map app] in P2.
  assert (LC : length (colours cs) = length (ring_edges vs)) by (unfold colours; rewrite map_length, ring_length; exact L).
  assert (Hends : ends (el_edges b) = ring_edges vs).
  { assert (X : map (fun x => (fst (fst (fst x)), snd (fst (fst x)))) (map payload (el_edges b)) =
       map (fun x => (fst (fst (fst x)), snd (fst (fst x)))) (map (fun e => (fst (fst e), snd (fst e), snd e, e_on_boundary)) (combine (ring_edges vs) (colours cs)))) by (rewrite P2; reflexivity).
    rewrite !map_map in X. unfold ends, payload in *. cbn in X. rewrite X. clear - LC. revert LC. generalize (colours cs) as ms. generalize (ring_edges vs) as es.
    induction es as [|[u v] es IH]; intros [|m ms] E; try discriminate; [reflexivity|]. cbn [combine map fst snd]. rewrite IH by (cbn in E; lia). reflexivity. }
  assert (PS : map (store_pos store) vs = places cs).
  { apply (nth_ext _ _ (V2 0 0) (V2 0 0)); unfold places; rewrite !map_length; [symmetry; exact L|]. intros j J.
    destruct (nth_error vs j) as [v|] eqn:E1; [|apply nth_error_None in E1; lia]. destruct (nth_error cs j) as [c|] eqn:E2; [|apply nth_error_None in E2; lia].
    destruct (V j v c E1 E2) as (_ & x & X1 & X2). apply nth_error_nth. rewrite nth_error_map, E1. cbn [option_map]. unfold store_pos. rewrite X1. f_equal. rewrite X2. symmetry. apply nth_error_nth. rewrite nth_error_map, E2. reflexivity. }
  assert (CR : created store b = ring_edges (places cs)) by (rewrite (created_ring _ _ vs Hends), PS; reflexivity).
  assert (LE : length (el_edges b) = length vs) by (rewrite <- (ring_length vs), <- Hends; unfold ends; symmetry; apply map_length).
  assert (L3 : (3 <= length vs)%nat) by (rewrite <- L; unfold simple_polygon in S; destruct S as [S _]; unfold places in S; rewrite map_length in S; exact S).
  assert (AE : el_area b == signed_area (places cs)).
  { rewrite P3; [|intros E; apply (f_equal (@length _)) in E; rewrite combine_length, LC, ring_length in E; cbn in E; lia|lia].
    rewrite compute_area_enclosed; [|lia|rewrite Hends; apply ring_balanced]. unfold enclosed. rewrite Hends, <- signed_ring, PS. reflexivity. }
  split.
  - constructor; cbn [fst snd].
    + exists vs. split; [exact Hends|]. split; [apply Forall_forall; intros v I; apply VS, I|]. rewrite PS. exact S.
    + exact ID.
    + exists true. rewrite CR. unfold same_points. generalize (ring_edges (places cs)). induction l as [|x l IH]; constructor; [split; split; reflexivity|exact IH].
    + rewrite AE. destruct bt; apply Qabs.Qabs_case; intros; lra.
    + exists (places cs). cbn [bd_edges bd_type]. split; [exact CR|]. split; [exact S|exact O].
  - cbn [snd]. intros e I. assert (J := in_map payload _ _ I). rewrite P2 in J. apply in_map_iff in J. destruct J as ([[u v] m] & J1 & J2). apply in_combine_r in J2. unfold payload in J1. cbn [fst snd] in J1. injection J1 as J3 J4 J5 J6. rewrite <- J5, <- J6. split; [exact J2|reflexivity].
Qed.
Lemma gives_later store ext bt d cs : gives cosn sinn sqrt3 stod store bt d cs -> gives cosn sinn sqrt3 stod (store ++ ext) bt d cs.
Proof.
  intros [d' cs' D|p vs cs' N L R V O]; [apply gv_shape, D|]. apply (gv_edges _ _ _ _ _ _ p vs cs' N L R); [|exact O]. intros j v c H1 H2. destruct (V j v c H1 H2) as (V1 & x & V2 & V3). split; [exact V1|].
  exists x. split; [|exact V3]. rewrite nth_error_app1; [exact V2|]. apply nth_error_Some. congruence.
Qed.
Lemma add_described bt d cs store bds : gives cosn sinn sqrt3 stod store bt d cs -> simple_polygon (places cs) ->
  exists ext b, add nearest cosn sinn sqrt3 stod bt d (store, bds) = Ok (store ++ ext, bds ++ [(bt, b)]) /\ fits_def (store ++ ext) (bt, b) cs.
Proof.
  intros [d' cs' D|p vs cs' N L R V O] S.
  2: { destruct (edges_around store bt p vs cs' N L R V O S) as (b & E & F). exists [], b. unfold add. cbn [fst snd]. rewrite E, app_nil_r. cbn [obind fst snd]. split; [reflexivity|exact F]. }
  clear d cs. rename d' into d, cs' into cs. destruct (parts_length cs) as [L1 L2]. destruct (creates nearest bt store (places cs) (sizes cs) (colours cs) ANS L1 L2) as (ext & b & C).
  exists ext, b. unfold add. cbn [fst snd]. rewrite (make_described bt store d cs D), C. cbn [obind fst snd]. split; [reflexivity|].
  split; [exact (create_around _ _ _ _ _ _ _ _ C S)|]. intros e I. exact (made_colours _ _ _ _ _ _ _ _ e C I).
Qed.
Lemma add_all_described ds css store0 : Forall2 (gives cosn sinn sqrt3 stod store0 INTERIOR) ds css -> (forall cs, In cs css -> simple_polygon (places cs)) -> forall ext0 bds, let store := store0 ++ ext0 in
  exists ext bs, add_all nearest cosn sinn sqrt3 stod ds (store, bds) = Ok (store ++ ext, bds ++ bs) /\ Forall2 (fun b cs => fst b = INTERIOR /\ fits_def (store ++ ext) b cs) bs css.
Proof.
  intros F. induction F as [|d cs ds css D F IH]; intros S ext0 bds; cbv zeta; [exists [], []; rewrite !app_nil_r; split; [reflexivity|constructor]|].
  cbn [add_all]. destruct (add_described INTERIOR d cs (store0 ++ ext0) bds (gives_later _ ext0 _ _ _ D) (S cs (or_introl eq_refl))) as (e1 & b & E & FB). rewrite E. cbn [obind].
  destruct (IH (fun x I => S x (or_intror I)) (ext0 ++ e1) (bds ++ [(INTERIOR, b)])) as (e2 & bs & E2 & FBS). cbv zeta in E2, FBS. rewrite app_assoc in E2, FBS. rewrite E2.
  exists (e1 ++ e2), ((INTERIOR, b) :: bs). rewrite <- (app_assoc bds), (app_assoc (store0 ++ ext0)). split; [reflexivity|]. constructor; [|exact FBS]. split; [reflexivity|]. apply fits_later, FB.
Qed.
Lemma boundaries_described store ext int d0 c0 css : chosen kinds ext = Some d0 -> gives cosn sinn sqrt3 stod store EXTERIOR d0 c0 -> simple_polygon (places c0) ->
  Forall2 (gives cosn sinn sqrt3 stod store INTERIOR) (interior_definitions int) css -> (forall cs, In cs css -> simple_polygon (places cs)) ->
  exists new b bs, init_boundaries nearest cosn sinn sqrt3 stod store ext int = Ok (store ++ new, (EXTERIOR, b) :: bs) /\
    fits_def (store ++ new) (EXTERIOR, b) c0 /\ Forall2 (fun b cs => fst b = INTERIOR /\ fits_def (store ++ new) b cs) bs css.
Proof.
  intros C D S F SS. unfold init_boundaries, init_exterior. rewrite C. destruct (add_described EXTERIOR d0 c0 store [] D S) as (e1 & b & E & FB). rewrite E. cbn [obind app].
  destruct (add_all_described _ css store F SS e1 [(EXTERIOR, b)]) as (e2 & bs & E2 & FBS). cbv zeta in E2, FBS. exists (e1 ++ e2), b, bs. rewrite E2, <- app_assoc. split; [reflexivity|].
  rewrite app_assoc. split; [apply fits_later, FB|exact FBS].
Qed.
End Build.
