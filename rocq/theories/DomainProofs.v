From Coq Require Import Lqa Lia Permutation.
From Verif Require Import Base Chain GeomModel GeomSpec GeomProofs UtilModel BdryModel BdrySpec BdryProofs.
Open Scope Q_scope.

(* ---------------- is_inside ---------------- *)
Lemma domain_inside_acc o bs : forall acc, fold_left (fun acc b =>
    acc && match bd_type b with
           | EXTERIOR => is_inside (bd_edges b) o
           | INTERIOR => negb (is_inside (bd_edges b) o) end) bs acc = true <->
  acc = true /\ forall b, In b bs -> (bd_type b = EXTERIOR -> is_inside (bd_edges b) o = true) /\
                       (bd_type b = INTERIOR -> is_inside (bd_edges b) o = false).
Proof.
  induction bs as [|b bs IH]; intros acc; cbn [fold_left].
  - intuition. destruct H0.
  - rewrite IH, andb_true_iff. split.
    + intros [[H1 H2] H3]. split; [exact H1|]. intros c [<-|Hc]; [|exact (H3 c Hc)].
      destruct (bd_type b); split; intros; try discriminate; try exact H2. apply negb_true_iff. exact H2.
    + intros [H1 H2]. split; [split; [exact H1|]|intros c Hc; apply H2; right; exact Hc].
      destruct (H2 b (or_introl eq_refl)) as [A B]. destruct (bd_type b); [auto|]. rewrite B; reflexivity.
Qed.
Lemma domain_inside_iff bs o : domain_inside bs o = true <->
  forall b, In b bs -> (bd_type b = EXTERIOR -> is_inside (bd_edges b) o = true) /\
                       (bd_type b = INTERIOR -> is_inside (bd_edges b) o = false).
Proof. unfold domain_inside. rewrite domain_inside_acc. tauto. Qed.

(* ---------------- area ---------------- *)
Definition Qabs' (x : Q) : Q := if Qltb x 0 then - x else x.

(* the signed area a boundary of the given kind contributes *)
Definition created (b : boundary) (A : Q) : Prop :=
  exists nearest store shape props colors store' l,
    create_boundary_shape nearest (bd_type b) store shape props colors = Ok (store', l) /\
    (3 <= length shape)%nat /\ bd_area b = el_area l /\ A = polygon_area shape.

Lemma created_area b A : created b A ->
  bd_area b == match bd_type b with EXTERIOR => Qabs' A | INTERIOR => - Qabs' A end.
Proof.
  intros (nearest & store & shape & props & colors & store' & l & E & H3 & HA & ->).
  destruct (create_ok _ _ _ _ _ _ _ _ E) as (_ & _ & _ & _ & _ & En & _ & Ha & _).
  rewrite HA, (Ha H3), En. unfold is_forward, Qabs'.
  destruct (bd_type b), (Qltb 0 (polygon_area shape)) eqn:X, (Qltb (polygon_area shape) 0) eqn:Y; cbn [negb]; qbool; lra.
Qed.

Lemma domain_area_sum bs : domain_area bs == sumQ (map bd_area bs).
Proof. unfold domain_area. rewrite fold_sumQ. ring. Qed.

Lemma domain_area_created bs As : Forall2 created bs As ->
  domain_area bs ==
    sumQ (map (fun p => match bd_type (fst p) with EXTERIOR => Qabs' (snd p) | INTERIOR => 0 end) (combine bs As)) -
    sumQ (map (fun p => match bd_type (fst p) with EXTERIOR => 0 | INTERIOR => Qabs' (snd p) end) (combine bs As)).
Proof.
  intros H. rewrite domain_area_sum. induction H as [|b A bs As Hb _ IH]; cbn [map combine sumQ fst snd]; [ring|].
  rewrite IH, (created_area _ _ Hb). destruct (bd_type b); ring.
Qed.

(* ---------------- extent ---------------- *)
Lemma Qminb_spec a b : Qminb a b <= a /\ Qminb a b <= b /\ (Qminb a b = a \/ Qminb a b = b).
Proof. unfold Qminb. destruct (Qltb a b) eqn:E; qbool; repeat split; auto; lra. Qed.
Lemma Qmaxb_spec a b : a <= Qmaxb a b /\ b <= Qmaxb a b /\ (Qmaxb a b = a \/ Qmaxb a b = b).
Proof. unfold Qmaxb. destruct (Qltb b a) eqn:E; qbool; repeat split; auto; lra. Qed.

(* the result is the bounding box of the points and the start box *)
Lemma extent_acc vs : forall acc, let r := fold_left (fun acc v =>
    (V2 (Qminb (vx (fst acc)) (vx v)) (Qmaxb (vy (fst acc)) (vx v)),
     V2 (Qminb (vx (snd acc)) (vy v)) (Qmaxb (vy (snd acc)) (vy v)))) vs acc in
  vx (fst r) <= vx (fst acc) /\ vy (fst acc) <= vy (fst r) /\
  vx (snd r) <= vx (snd acc) /\ vy (snd acc) <= vy (snd r) /\
  (forall v, In v vs -> vx (fst r) <= vx v /\ vx v <= vy (fst r) /\ vx (snd r) <= vy v /\ vy v <= vy (snd r)) /\
  (vx (fst r) = vx (fst acc) \/ exists v, In v vs /\ vx (fst r) = vx v) /\
  (vy (fst r) = vy (fst acc) \/ exists v, In v vs /\ vy (fst r) = vx v) /\
  (vx (snd r) = vx (snd acc) \/ exists v, In v vs /\ vx (snd r) = vy v) /\
  (vy (snd r) = vy (snd acc) \/ exists v, In v vs /\ vy (snd r) = vy v).
Proof.
  induction vs as [|v vs IH]; intros acc; cbn [fold_left].
  - cbv zeta. do 4 (split; [lra|]). split; [intros v []|]. tauto.
  - set (acc1 := (V2 (Qminb (vx (fst acc)) (vx v)) (Qmaxb (vy (fst acc)) (vx v)),
     V2 (Qminb (vx (snd acc)) (vy v)) (Qmaxb (vy (snd acc)) (vy v)))).
    destruct (IH acc1) as (I1 & I2 & I3 & I4 & I5 & I6 & I7 & I8 & I9). cbv zeta in *.
    set (r := fold_left _ vs acc1) in *. cbn [acc1 fst snd vx vy] in I1, I2, I3, I4, I6, I7, I8, I9.
    destruct (Qminb_spec (vx (fst acc)) (vx v)) as (A1 & A2 & A3).
    destruct (Qmaxb_spec (vy (fst acc)) (vx v)) as (B1 & B2 & B3).
    destruct (Qminb_spec (vx (snd acc)) (vy v)) as (C1 & C2 & C3).
    destruct (Qmaxb_spec (vy (snd acc)) (vy v)) as (D1 & D2 & D3).
    split; [lra|]. split; [lra|]. split; [lra|]. split; [lra|]. split.
    { intros u [<-|Hu]; [repeat split; lra|exact (I5 u Hu)]. }
    split; [|split; [|split]].
    + destruct I6 as [E|(u & Hu & E)]; [|right; exists u; split; [right; exact Hu|exact E]].
      rewrite E. destruct A3 as [->| ->]; [left; reflexivity|right; exists v; split; [left|]; reflexivity].
    + destruct I7 as [E|(u & Hu & E)]; [|right; exists u; split; [right; exact Hu|exact E]].
      rewrite E. destruct B3 as [->| ->]; [left; reflexivity|right; exists v; split; [left|]; reflexivity].
    + destruct I8 as [E|(u & Hu & E)]; [|right; exists u; split; [right; exact Hu|exact E]].
      rewrite E. destruct C3 as [->| ->]; [left; reflexivity|right; exists v; split; [left|]; reflexivity].
    + destruct I9 as [E|(u & Hu & E)]; [|right; exists u; split; [right; exact Hu|exact E]].
      rewrite E. destruct D3 as [->| ->]; [left; reflexivity|right; exists v; split; [left|]; reflexivity].
Qed.

(* tight in x and y, given that the points surround the origin *)
Definition tight_box (vs : list vec2) (r : vec2 * vec2) : Prop :=
  (forall v, In v vs -> vx (fst r) <= vx v /\ vx v <= vy (fst r) /\ vx (snd r) <= vy v /\ vy v <= vy (snd r)) /\
  (exists v, In v vs /\ vx (fst r) == vx v) /\ (exists v, In v vs /\ vy (fst r) == vx v) /\
  (exists v, In v vs /\ vx (snd r) == vy v) /\ (exists v, In v vs /\ vy (snd r) == vy v).

Lemma extent_around_origin vs : (exists v, In v vs /\ vx v <= 0) -> (exists v, In v vs /\ 0 <= vx v) ->
  (exists v, In v vs /\ vy v <= 0) -> (exists v, In v vs /\ 0 <= vy v) -> tight_box vs (domain_extent vs).
Proof.
  intros (a & Ha & Pa) (b & Hb & Pb) (c & Hc & Pc) (d & Hd & Pd). unfold domain_extent.
  destruct (extent_acc vs (V2 0 0, V2 0 0)) as (I1 & I2 & I3 & I4 & I5 & I6 & I7 & I8 & I9). cbv zeta in *.
  set (r := fold_left _ vs _) in *. cbn [fst snd vx vy] in *.
  destruct (I5 a Ha) as (A1 & A2 & A3 & A4). destruct (I5 b Hb) as (B1 & B2 & B3 & B4).
  destruct (I5 c Hc) as (C1 & C2 & C3 & C4). destruct (I5 d Hd) as (D1 & D2 & D3 & D4).
  split; [exact I5|]. repeat split.
  - destruct I6 as [E|(u & Hu & E)]; [exists a; split; [exact Ha|]; rewrite E in *; lra|exists u; rewrite E; split; [exact Hu|reflexivity]].
  - destruct I7 as [E|(u & Hu & E)]; [exists b; split; [exact Hb|]; rewrite E in *; lra|exists u; rewrite E; split; [exact Hu|reflexivity]].
  - destruct I8 as [E|(u & Hu & E)]; [exists c; split; [exact Hc|]; rewrite E in *; lra|exists u; rewrite E; split; [exact Hu|reflexivity]].
  - destruct I9 as [E|(u & Hu & E)]; [exists d; split; [exact Hd|]; rewrite E in *; lra|exists u; rewrite E; split; [exact Hu|reflexivity]].
Qed.

(* ---------------- export ---------------- *)
Lemma skipn_nth {A} (l : list A) : forall n v, nth_error l n = Some v -> skipn n l = v :: skipn (S n) l.
Proof.
  induction l as [|a l IH]; intros [|n] v H; try discriminate H; cbn in H.
  - injection H as ->. reflexivity.
  - cbn [skipn]. rewrite (IH _ _ H). reflexivity.
Qed.
Lemma skipn_skipn' {A} n m : forall l : list A, skipn n (skipn m l) = skipn (n + m) l.
Proof.
  induction m as [|m IH]; intros l; [rewrite Nat.add_0_r; reflexivity|].
  rewrite Nat.add_succ_r. destruct l; cbn [skipn]; [apply skipn_nil|apply IH].
Qed.
Lemma line_ok {A} (values : list A) from n : (from + n <= length values)%nat ->
  fold_right (fun i acc => match nth_error values i with Some v => obind acc (fun r => Ok (v :: r)) | None => UB end)
      (Ok []) (seq from n) = Ok (firstn n (skipn from values)).
Proof.
  revert from. induction n as [|n IH]; intros from H; cbn [seq fold_right]; [reflexivity|].
  rewrite IH by lia.
  assert (X : exists v, nth_error values from = Some v) by (destruct (nth_error values from) eqn:E; [eauto|apply nth_error_None in E; lia]).
  destruct X as [v Hv]. rewrite Hv. cbn [obind]. f_equal. rewrite (skipn_nth _ _ _ Hv). reflexivity.
Qed.

Lemma lines_concat {A} (values : list A) nx ny m : (m + ny * nx <= length values)%nat -> forall tail,
  exists ls, fold_right (fun j acc => obind (fold_right (fun i acc => match nth_error values i with Some v => obind acc (fun r => Ok (v :: r)) | None => UB end)
      (Ok []) (seq (m + j * nx) nx)) (fun l => obind acc (fun r => Ok (l :: r)))) (Ok tail) (seq 0 ny) = Ok (ls ++ tail) /\
   concat ls = firstn (ny * nx) (skipn m values) /\ length ls = ny /\ Forall (fun l => length l = nx) ls.
Proof.
  revert m. induction ny as [|ny IH]; intros m H tail; cbn [seq fold_right].
  - exists []. rewrite Nat.mul_0_l. repeat split. constructor.
  - rewrite <- seq_shift. 
    assert (X : forall acc, fold_right (fun j acc => obind (fold_right (fun i acc => match nth_error values i with Some v => obind acc (fun r => Ok (v :: r)) | None => UB end)
      (Ok []) (seq (m + j * nx) nx)) (fun l => obind acc (fun r => Ok (l :: r)))) acc (map S (seq 0 ny)) =
       fold_right (fun j acc => obind (fold_right (fun i acc => match nth_error values i with Some v => obind acc (fun r => Ok (v :: r)) | None => UB end)
      (Ok []) (seq ((m + nx) + j * nx) nx)) (fun l => obind acc (fun r => Ok (l :: r)))) acc (seq 0 ny)).
    { intros acc. generalize (seq 0 ny). intros l. induction l as [|j l IHl]; cbn [map fold_right]; [reflexivity|].
      rewrite IHl. replace (m + S j * nx)%nat with ((m + nx) + j * nx)%nat by lia. reflexivity. }
    rewrite X. destruct (IH (m + nx)%nat) with (tail := tail) as (ls & E & C & L & F); [lia|].
    rewrite E. rewrite line_ok by lia. cbn [obind]. exists (firstn nx (skipn (m + 0 * nx) values) :: ls).
    replace (m + 0 * nx)%nat with m by lia. split; [reflexivity|]. split; [|split].
    + cbn [concat]. rewrite C. replace (S ny * nx)%nat with (nx + ny * nx)%nat by lia.
      replace (m + nx)%nat with (nx + m)%nat by lia. rewrite <- (skipn_skipn' nx m).
      rewrite <- (firstn_skipn nx (skipn m values)) at 3.
      assert (Ln : length (firstn nx (skipn m values)) = nx) by (rewrite firstn_length, skipn_length; lia).
      rewrite firstn_app, Ln. replace (nx + ny * nx - nx)%nat with (ny * nx)%nat by lia.
      rewrite (firstn_all2 (firstn nx (skipn m values))) by lia. reflexivity.
    + cbn. lia.
    + constructor; [rewrite firstn_length, skipn_length; lia|exact F].
Qed.

Lemma export_ok {A} Nx Ny (values : list A) : length values = (Nx * Ny)%nat ->
  exists ls last, export_lines Nx Ny values = Ok (ls ++ [last]) /\ concat (ls ++ [last]) = values /\
    Forall (fun l => length l = 10%nat) ls /\ (length last < 10)%nat.
Proof.
  intros H. unfold export_lines. cbv zeta.
  assert (D := Nat.div_mod (Nx * Ny) 10 ltac:(discriminate)).
  assert (M := Nat.mod_upper_bound (Nx * Ny) 10 ltac:(discriminate)).
  set (N := (Nx * Ny)%nat) in *. set (ny := (N / 10)%nat) in *.
  rewrite line_ok by lia. cbn [obind].
  set (last := firstn (N - ny * 10) (skipn (ny * 10) values)).
  destruct (lines_concat values 10 ny 0 ltac:(lia) [last]) as (ls & E & C & L & F).
  cbn [Nat.add] in E. exists ls, last. split; [exact E|]. split; [|split; [exact F|]].
  - rewrite concat_app, C. cbn [concat skipn]. rewrite app_nil_r. unfold last.
    rewrite (firstn_all2 (skipn (ny * 10) values)) by (rewrite skipn_length; lia).
    apply firstn_skipn.
  - unfold last. rewrite firstn_length, skipn_length. lia.
Qed.

Lemma sample_nth ll ur Nx Ny i j : (i < Nx)%nat -> (j < Ny)%nat ->
  nth_error (sample_points ll ur Nx Ny) (j * Nx + i) =
  Some (V2 (vx ll + inject_Z (Z.of_nat i) * ((vx ur - vx ll) / inject_Z (Z.of_nat Nx)))
           (vy ll + inject_Z (Z.of_nat j) * ((vy ur - vy ll) / inject_Z (Z.of_nat Ny)))).
Proof.
  intros Hi Hj. unfold sample_points. cbv zeta.
  set (g := fun j0 => map (fun i0 => V2 (vx ll + inject_Z (Z.of_nat i0) * ((vx ur - vx ll) / inject_Z (Z.of_nat Nx)))
      (vy ll + inject_Z (Z.of_nat j0) * ((vy ur - vy ll) / inject_Z (Z.of_nat Ny)))) (seq 0 Nx)).
  assert (G : forall k m j0, (j0 < m)%nat -> nth_error (flat_map g (seq k m)) (j0 * Nx + i) = nth_error (g (k + j0)%nat) i).
  { intros k m. revert k. induction m as [|m IH]; intros k j0 Hj0; [lia|]. cbn [seq flat_map].
    assert (Lg : length (g k) = Nx) by (unfold g; rewrite map_length, seq_length; reflexivity).
    destruct j0 as [|j0].
    - cbn [Nat.mul Nat.add]. rewrite nth_error_app1 by lia. rewrite Nat.add_0_r. reflexivity.
    - rewrite nth_error_app2 by lia. rewrite Lg. replace (S j0 * Nx + i - Nx)%nat with (j0 * Nx + i)%nat by lia.
      rewrite IH by lia. f_equal. f_equal. lia. }
  rewrite G by exact Hj. unfold g. rewrite nth_error_map.
  rewrite (nth_error_nth' _ 0%nat) by (rewrite seq_length; exact Hi). rewrite seq_nth by exact Hi. reflexivity.
Qed.
Lemma sample_length ll ur Nx Ny : length (sample_points ll ur Nx Ny) = (Nx * Ny)%nat.
Proof.
  unfold sample_points. cbv zeta. rewrite <- (seq_length Ny 0) at 2. generalize (seq 0 Ny). intros l.
  induction l as [|j l IH]; cbn [flat_map length]; [lia|]. rewrite app_length, map_length, seq_length, IH. lia.
Qed.

(* ---------------- intersection of boundaries ---------------- *)
(* what is reported is a real intersection *)
Lemma intersects_edgelist_sound es fs : intersects_edgelist es fs = true ->
  exists e f, In e es /\ In f fs /\ line_line_intersection (fst e) (snd e) (fst f) (snd f) = true.
Proof.
  unfold intersects_edgelist. intros H. apply existsb_exists in H. destruct H as (e & He & H).
  apply existsb_exists in H. destruct H as (f & Hf & H). apply andb_true_iff in H. exists e, f. tauto.
Qed.
(* and it is reported if the middle of the second edge is within the box of the first *)
Lemma intersects_edgelist_mid es fs e f : In e es -> In f fs -> in_box_of e f = true ->
  line_line_intersection (fst e) (snd e) (fst f) (snd f) = true -> intersects_edgelist es fs = true.
Proof.
  intros He Hf Hb Hi. unfold intersects_edgelist. apply existsb_exists. exists e. split; [exact He|].
  apply existsb_exists. exists f. rewrite Hb, Hi. auto.
Qed.
