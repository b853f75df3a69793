(* Searches by midpoints: proofs for NearProps. *)
From Coq Require Import Lia Lqa Setoid Permutation.
From Verif Require Import Base GeomModel GeomSpec GeomProofs FacetModel NearModel NearSpec.
From Verif Require AdvanceModel WindSpec ClearRun.
Open Scope Q_scope.

Lemma sqn (y : Q) : 0 <= y * y. Proof. nra. Qed.
Lemma sq_le a b : 0 <= b -> a * a <= b * b -> a <= b.
Proof. intros B H. destruct (Qlt_le_dec b a) as [L|L]; auto. exfalso. nra. Qed.

Lemma apart_trans a b c r k : 0 <= r -> 0 <= k -> apart a b r -> apart b c k -> apart a c (r + k).
Proof.
  unfold apart, vnorm2, vdot, vsub. cbn [vx vy]. intros R K A B.
  set (x := vx a - vx b) in *. set (y := vy a - vy b) in *. set (u := vx b - vx c) in *. set (w := vy b - vy c) in *.
  assert (E1 : vx a - vx c == x + u) by (unfold x, u; ring). assert (E2 : vy a - vy c == y + w) by (unfold y, w; ring).
  rewrite E1, E2. clearbody x y u w. clear E1 E2.
  assert (C : x * u + y * w <= r * k).
  { apply sq_le; [apply Qmult_le_0_compat; auto|].
    assert (S := sqn (x * w - y * u)).
    assert (I : (x * u + y * w) * (x * u + y * w) + (x * w - y * u) * (x * w - y * u) == (x * x + y * y) * (u * u + w * w)) by ring.
    assert (P1 : (x * x + y * y) * (u * u + w * w) <= (r * r) * (u * u + w * w)).
    { apply Qmult_le_compat_r; auto. assert (H1 := sqn u). assert (H2 := sqn w). lra. }
    assert (P2 : (u * u + w * w) * (r * r) <= (k * k) * (r * r)) by (apply Qmult_le_compat_r; auto; apply sqn).
    assert (E3 : r * k * (r * k) == (k * k) * (r * r)) by ring. lra. }
  assert (E : (x + u) * (x + u) + (y + w) * (y + w) == (x * x + y * y) + (u * u + w * w) + 2 * (x * u + y * w)) by ring.
  assert (F : (r + k) * (r + k) == r * r + k * k + 2 * (r * k)) by ring. lra.
Qed.
Lemma apart_sym a b r : apart a b r -> apart b a r.
Proof. unfold apart, vnorm2, vdot, vsub. cbn [vx vy]. intros H. lra. Qed.
Lemma apart_ext a a' b b' r : veq a a' -> veq b b' -> apart a b r -> apart a' b' r.
Proof. intros [A B] [C D]. unfold apart, vnorm2, vdot, vsub. cbn [vx vy]. rewrite A, B, C, D. auto. Qed.

(* points of an edge are at most half its length from the midpoint *)
Lemma half_way e t k : 0 <= t -> t <= 1 -> len2 e <= 4 * (k * k) -> apart (on_seg (fst e) (snd e) t) (mid e) k.
Proof.
  intros T0 T1 L. unfold apart.
  assert (E : vnorm2 (vsub (on_seg (fst e) (snd e) t) (mid e)) == ((t - (1 # 2)) * (t - (1 # 2))) * len2 e).
  { unfold len2, edge_len2, vnorm2, vdot, vsub, mid, on_seg, vscale, vadd. cbn [vx vy]. ring. }
  rewrite E.
  assert (N : 0 <= len2 e).
  { unfold len2, edge_len2, vnorm2, vdot. assert (A := sqn (vx (vsub (snd e) (fst e)))). assert (B := sqn (vy (vsub (snd e) (fst e)))). lra. }
  assert (Q : (t - (1 # 2)) * (t - (1 # 2)) <= 1 # 4) by nra.
  assert (P : ((t - (1 # 2)) * (t - (1 # 2))) * len2 e <= (1 # 4) * len2 e) by (apply Qmult_le_compat_r; auto). lra.
Qed.

Lemma near_true c r2 x : near c r2 x = true <-> vnorm2 (vsub x c) <= r2.
Proof. apply Qleb_true. Qed.
Lemma get_edges_in c r2 l e : In e (get_edges c r2 l) <-> In e l /\ vnorm2 (vsub (mid e) c) <= r2.
Proof. unfold get_edges. rewrite filter_In, near_true. reflexivity. Qed.

(* an edge that comes near is found *)
Lemma edge_found x e t s k : 0 <= t -> t <= 1 -> 0 <= s -> 0 <= k -> apart x (on_seg (fst e) (snd e) t) s ->
  len2 e <= 4 * (k * k) -> vnorm2 (vsub (mid e) x) <= (s + k) * (s + k).
Proof. intros T0 T1 S K A L. apply apart_sym. exact (apart_trans _ _ _ _ _ S K A (half_way e t k T0 T1 L)). Qed.

Lemma mesh_edges_iff x intr bdry s l : intersects_mesh_edges x intr bdry s l = true <->
  exists e, (In e intr \/ In e bdry) /\ apart (mid e) x s /\ distance_point_edge_sqr x (fst e) (snd e) <= l * l.
Proof.
  unfold intersects_mesh_edges. rewrite orb_true_iff, !existsb_exists. unfold apart. split.
  - intros [(e & I & H)|(e & I & H)]; apply get_edges_in in I; rewrite Qleb_true in H; exists e; tauto.
  - intros (e & [I|I] & A & H); [left|right]; exists e; rewrite get_edges_in, Qleb_true; auto.
Qed.

(* ---------- elements ---------- *)
(* a point of a triangle is not farther from c than the corners are *)
Lemma jensen p q r x c m : 0 < det p q r -> 0 <= det p q x -> 0 <= det q r x -> 0 <= det r p x ->
  vnorm2 (vsub p c) <= m -> vnorm2 (vsub q c) <= m -> vnorm2 (vsub r c) <= m -> vnorm2 (vsub x c) <= m.
Proof.
  intros D C A B P Q R.
  assert (E : det p q r == det q r x + det r p x + det p q x) by (unfold det; ring).
  assert (X : det p q r * (vx x - vx c) == det q r x * (vx p - vx c) + det r p x * (vx q - vx c) + det p q x * (vx r - vx c)) by (unfold det; ring).
  assert (Y : det p q r * (vy x - vy c) == det q r x * (vy p - vy c) + det r p x * (vy q - vy c) + det p q x * (vy r - vy c)) by (unfold det; ring).
  unfold vnorm2, vdot, vsub in *. cbn [vx vy] in *.
  generalize dependent (det p q r). generalize dependent (det q r x). generalize dependent (det r p x). generalize dependent (det p q x).
  intros w W v V u U d D E. generalize dependent (vx p - vx c). generalize dependent (vy p - vy c).
  generalize dependent (vx q - vx c). generalize dependent (vy q - vy c). generalize dependent (vx r - vx c). generalize dependent (vy r - vy c).
  generalize (vx x - vx c). generalize (vy x - vy c). clear p q r x c.
  intros y x ry rx R qy qx Q py px P X Y.
  assert (J : d * (u * (px * px + py * py) + v * (qx * qx + qy * qy) + w * (rx * rx + ry * ry)) ==
     d * d * (x * x + y * y) + u * v * ((px - qx) * (px - qx) + (py - qy) * (py - qy)) +
     u * w * ((px - rx) * (px - rx) + (py - ry) * (py - ry)) + v * w * ((qx - rx) * (qx - rx) + (qy - ry) * (qy - ry))).
  { assert (XX : d * d * (x * x + y * y) == (d * x) * (d * x) + (d * y) * (d * y)) by ring. rewrite XX, X, Y, E. ring. }
  assert (NN : forall a b, 0 <= a * a + b * b) by (intros a b; assert (H1 := sqn a); assert (H2 := sqn b); lra).
  assert (S1 : 0 <= u * v * ((px - qx) * (px - qx) + (py - qy) * (py - qy))) by (apply Qmult_le_0_compat; [apply Qmult_le_0_compat; auto|apply NN]).
  assert (S2 : 0 <= u * w * ((px - rx) * (px - rx) + (py - ry) * (py - ry))) by (apply Qmult_le_0_compat; [apply Qmult_le_0_compat; auto|apply NN]).
  assert (S3 : 0 <= v * w * ((qx - rx) * (qx - rx) + (qy - ry) * (qy - ry))) by (apply Qmult_le_0_compat; [apply Qmult_le_0_compat; auto|apply NN]).
  assert (T1 : (px * px + py * py) * u <= m * u) by (apply Qmult_le_compat_r; auto).
  assert (T2 : (qx * qx + qy * qy) * v <= m * v) by (apply Qmult_le_compat_r; auto).
  assert (T3 : (rx * rx + ry * ry) * w <= m * w) by (apply Qmult_le_compat_r; auto).
  assert (T : u * (px * px + py * py) + v * (qx * qx + qy * qy) + w * (rx * rx + ry * ry) <= m * d) by (rewrite E; lra).
  assert (T' : (u * (px * px + py * py) + v * (qx * qx + qy * qy) + w * (rx * rx + ry * ry)) * d <= (m * d) * d) by (apply Qmult_le_compat_r; lra).
  destruct (Qlt_le_dec m (x * x + y * y)) as [L|L]; auto. exfalso.
  assert (DD : 0 < d * d) by (apply Qmult_lt_0_compat; auto).
  assert (G : 0 < (d * d) * (x * x + y * y - m)) by (apply Qmult_lt_0_compat; lra). lra.
Qed.

(* ---------- common edges ---------- *)
Lemma veqb_iff a b : veqb a b = true <-> veq a b.
Proof. unfold veqb, veq. rewrite andb_true_iff, !Qeq_bool_iff. reflexivity. Qed.
Lemma same_endsb_iff e f : same_endsb e f = true <-> same_ends e f.
Proof. unfold same_endsb, same_ends. rewrite orb_true_iff, !andb_true_iff, !veqb_iff. reflexivity. Qed.
Lemma overlap_same e f : segment_overlap (fst e) (snd e) (fst f) (snd f) = same_endsb e f.
Proof.
  unfold segment_overlap, same_endsb. destruct (veqb (fst e) (fst f) && veqb (snd e) (snd f)); [reflexivity|].
  destruct (veqb (fst e) (snd f) && veqb (snd e) (fst f)); reflexivity.
Qed.
Lemma same_mid e f : same_ends e f -> vnorm2 (vsub (mid f) (mid e)) == 0.
Proof.
  unfold mid, vnorm2, vdot, vsub, vscale, vadd. cbn [vx vy]. intros [[[A B] [C D]]|[[A B] [C D]]]; rewrite A, B, C, D; ring.
Qed.
Lemma len2_nonneg e : 0 <= len2 e.
Proof. unfold len2, edge_len2, vnorm2, vdot. assert (A := sqn (vx (vsub (snd e) (fst e)))). assert (B := sqn (vy (vsub (snd e) (fst e)))). lra. Qed.

Open Scope nat_scope.
Lemma count_from {A} (p : A -> bool) l n : fold_left (fun n f => if p f then S n else n) l n = n + length (filter p l).
Proof. revert n. induction l as [|a l IH]; intros n; cbn; [lia|]. rewrite IH. destruct (p a); cbn; lia. Qed.
Lemma sum_from {A} (g : A -> nat) (h : nat -> A -> nat) l n : (forall n a, h n a = n + g a) ->
  fold_left h l n = n + list_sum (map g l).
Proof. intros H. revert n. induction l as [|a l IH]; intros n; cbn; [lia|]. rewrite IH, H. unfold list_sum. lia. Qed.
Lemma filter_sub {A} (p q : A -> bool) l : (forall a, p a = true -> q a = true) -> filter p (filter q l) = filter p l.
Proof.
  intros H. induction l as [|a l IH]; cbn; [reflexivity|]. destruct (q a) eqn:Q; cbn.
  - destruct (p a); rewrite IH; reflexivity.
  - destruct (p a) eqn:P; [apply H in P; congruence|exact IH].
Qed.
Lemma flat_filter {A} (q : A -> bool) d : flat_map (filter q) d = filter q (concat d).
Proof. induction d as [|l d IH]; cbn; [reflexivity|]. rewrite IH, filter_app. reflexivity. Qed.

Definition mates (nbr : list (list seg)) (e : seg) : nat := length (filter (same_endsb e) (concat nbr)).
Lemma edge_count nbr e n :
  fold_left (fun n f => if segment_overlap (fst e) (snd e) (fst f) (snd f) then S n else n)
    (boundary_edges nbr (mid e) ((9 # 4) * len2 e)%Q) n = n + mates nbr e.
Proof.
  rewrite count_from. f_equal. unfold boundary_edges, get_edges, mates. rewrite flat_filter.
  rewrite (filter_ext _ (same_endsb e)) by (intros f; apply overlap_same).
  rewrite filter_sub; [reflexivity|]. intros f F. apply same_endsb_iff in F. apply near_true.
  rewrite (same_mid e f F). assert (L := len2_nonneg e). lra.
Qed.
Lemma sum_app l m : list_sum (l ++ m) = list_sum l + list_sum m.
Proof. unfold list_sum. induction l as [|a l IH]; cbn; [reflexivity|]. lia. Qed.
Lemma count_sum d nbr : count_edge_overlaps d nbr = list_sum (map (mates nbr) (concat d)).
Proof.
  unfold count_edge_overlaps.
  rewrite (sum_from (fun b => list_sum (map (mates nbr) b))).
  - cbn [Nat.add]. induction d as [|b d IH]; cbn [map concat]; [reflexivity|]. rewrite map_app, sum_app, <- IH. reflexivity.
  - intros n b. apply (sum_from (mates nbr)). intros m e. apply edge_count.
Qed.
Lemma prod_sum (l m : list seg) :
  length (filter (fun p => same_endsb (fst p) (snd p)) (list_prod l m)) = list_sum (map (fun e => length (filter (same_endsb e) m)) l).
Proof.
  induction l as [|e l IH]; [reflexivity|]. change (list_prod (e :: l) m) with (map (fun y => (e, y)) m ++ list_prod l m).
  cbn [map]. rewrite filter_app, app_length.
  change (list_sum (?a :: ?b)) with (a + list_sum b). f_equal; [|exact IH]. clear. induction m as [|f m IH]; cbn; [reflexivity|].
  destruct (same_endsb e f); cbn; rewrite IH; reflexivity.
Qed.
Lemma count_common d nbr : count_edge_overlaps d nbr = common d nbr.
Proof. rewrite count_sum. unfold common. rewrite prod_sum. reflexivity. Qed.

Lemma same_endsb_sym e f : same_endsb e f = same_endsb f e.
Proof.
  apply eq_true_iff_eq. rewrite !same_endsb_iff. unfold same_ends, veq.
  split; (intros [[[A B] [C D]]|[[A B] [C D]]]; [left|right]; repeat split; symmetry; assumption).
Qed.
Lemma col_sum (l m : list seg) : list_sum (map (fun e => length (filter (same_endsb e) m)) l) =
  list_sum (map (fun f => length (filter (same_endsb f) l)) m).
Proof.
  revert l. induction m as [|f m IH]; intros l.
  - cbn. induction l as [|e l IHl]; cbn; auto.
  - cbn [map]. change (list_sum (?a :: ?b)) with (a + list_sum b). rewrite <- IH. clear IH.
    induction l as [|e l IHl]; [reflexivity|]. cbn [map filter] in IHl |- *.
    rewrite (same_endsb_sym f e). destruct (same_endsb e f); cbn [length list_sum fold_right] in IHl |- *; unfold list_sum in *; cbn [fold_right]; lia.
Qed.
