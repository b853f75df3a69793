(* Properties of the application's input handling: C42 (vertex indices) and C49 (extent). *)
From Coq Require Import Lia Lqa Ascii String.
From Verif Require Import Base CsvModel ParaModel AdvanceModel AdvanceProofs AppModel.
Open Scope nat_scope.

(* the rows (two vertex numbers and a colour) of a matrix parameter of the file *)
Definition rows_are (p : para Z) (rows : list (Z * Z * Z)) : Prop :=
  pr_nrow p = length rows /\
  forall j a b m, nth_error rows j = Some (a, b, m) -> get_value p 0 j = Some a /\ get_value p 1 j = Some b /\ get_value p 2 j = Some m.
Definition pairs_are (p : para Z) (rows : list (Z * Z)) : Prop :=
  pr_nrow p = length rows /\
  forall j a b, nth_error rows j = Some (a, b) -> get_value p 0 j = Some a /\ get_value p 1 j = Some b.
(* a vertex number that exists *)
Definition exists_vertex (vs : list nat) (a : Z) : Prop := (0 <= a < Z.of_nat (length vs))%Z.
Definition is_int (a : Z) : Prop := (-2147483648 <= a <= 2147483647)%Z.
Definition joins_vertices (vs : list nat) (a b : Z) (e : nat * nat) : Prop :=
  nth_error vs (Z.to_nat a) = Some (fst e) /\ nth_error vs (Z.to_nat b) = Some (snd e).

Lemma to_size_neg a : is_int a -> (a < 0)%Z -> to_size a = (a + 18446744073709551616)%Z.
Proof.
  intros I N. unfold to_size, is_int in *. rewrite <- (Z.mod_small (a + 18446744073709551616) 18446744073709551616) by lia.
  rewrite <- (Z_mod_plus_full a 1 18446744073709551616). f_equal.
Qed.
Lemma to_size_pos a : is_int a -> (0 <= a)%Z -> to_size a = a.
Proof. intros I N. unfold to_size, is_int in *. apply Z.mod_small. lia. Qed.
Definition small (vs : list nat) : Prop := (Z.of_nat (length vs) < 9223372036854775808)%Z.
Lemma rejects_strict vs a : is_int a -> small vs -> rejects true (length vs) (to_size a) = false <-> exists_vertex vs a.
Proof.
  intros I S. unfold rejects, exists_vertex, small in *. destruct (Z.lt_ge_cases a 0) as [N|N].
  - rewrite to_size_neg by assumption. unfold is_int in I. destruct (Z.leb_spec (Z.of_nat (length vs)) (a + 18446744073709551616)); split; intros; try discriminate; lia.
  - rewrite to_size_pos by assumption. destruct (Z.leb_spec (Z.of_nat (length vs)) a); split; intros; try discriminate; try reflexivity; lia.
Qed.
Lemma rejects_loose vs a : is_int a -> small vs -> rejects false (length vs) (to_size a) = false <-> exists_vertex vs a \/ a = Z.of_nat (length vs).
Proof.
  intros I S. unfold rejects, exists_vertex, small in *. destruct (Z.lt_ge_cases a 0) as [N|N].
  - rewrite to_size_neg by assumption. unfold is_int in I. destruct (Z.ltb_spec (Z.of_nat (length vs)) (a + 18446744073709551616)); split; intros; try discriminate; lia.
  - rewrite to_size_pos by assumption. destruct (Z.ltb_spec (Z.of_nat (length vs)) a); split; intros; try discriminate; try reflexivity; lia.
Qed.
Lemma vertex_at_spec vs a : exists_vertex vs a -> exists v, vertex_at vs a = Ok v /\ nth_error vs (Z.to_nat a) = Some v.
Proof.
  intros (A & B). unfold vertex_at. destruct (nth_error vs (Z.to_nat a)) as [v|] eqn:E; [exists v; split; reflexivity|].
  apply nth_error_None in E. lia.
Qed.
Lemma read_edge_ok strict vs a b : is_int a -> is_int b -> small vs -> exists_vertex vs a -> exists_vertex vs b ->
  exists e, read_edge strict vs a b = Ok e /\ joins_vertices vs a b e.
Proof.
  intros IA IB S A B. unfold read_edge.
  assert (R : forall x, is_int x -> exists_vertex vs x -> rejects strict (length vs) (to_size x) = false).
  { intros x I X. destruct strict; [apply rejects_strict; assumption|apply rejects_loose; auto]. }
  rewrite (R a IA A), (R b IB B). cbn [orb]. destruct A as (A0 & A1), B as (B0 & B1). rewrite !to_size_pos by assumption.
  destruct (vertex_at_spec vs a) as (v1 & E1 & N1); [split; assumption|]. destruct (vertex_at_spec vs b) as (v2 & E2 & N2); [split; assumption|].
  rewrite E1, E2. cbn [obind]. exists (v1, v2). split; [reflexivity|split; assumption].
Qed.
Lemma read_edge_bad vs a b : is_int a -> is_int b -> small vs -> ~ (exists_vertex vs a /\ exists_vertex vs b) -> read_edge true vs a b = Throw.
Proof.
  intros IA IB S N. unfold read_edge. destruct (rejects true (length vs) (to_size a)) eqn:RA; [reflexivity|].
  destruct (rejects true (length vs) (to_size b)) eqn:RB; [reflexivity|]. exfalso. apply N.
  split; [apply (proj1 (rejects_strict vs a IA S) RA)|apply (proj1 (rejects_strict vs b IB S) RB)].
Qed.

Definition row_ints (r : Z * Z * Z) : Prop := is_int (fst (fst r)) /\ is_int (snd (fst r)).
Definition row_exists (vs : list nat) (r : Z * Z * Z) : Prop := exists_vertex vs (fst (fst r)) /\ exists_vertex vs (snd (fst r)).
Lemma boundary_edges_spec strict vs p rows : small vs -> forall j, (forall i a b m, nth_error rows i = Some (a, b, m) ->
    get_value p 0 (j + i) = Some a /\ get_value p 1 (j + i) = Some b /\ get_value p 2 (j + i) = Some m) ->
  Forall row_ints rows ->
  (Forall (row_exists vs) rows ->
     exists es, boundary_edges strict vs p (length rows) j = Ok es /\
       Forall2 (fun r e => joins_vertices vs (fst (fst r)) (snd (fst r)) (fst e) /\ snd e = snd r) rows es) /\
  (strict = true -> ~ Forall (row_exists vs) rows -> boundary_edges strict vs p (length rows) j = Throw).
Proof.
  intros S. induction rows as [|[[a b] m] rows IH]; intros j G I.
  { split; [intros _; exists []; split; [reflexivity|constructor]|]. intros _ N. exfalso. apply N. constructor. }
  inversion I as [|? ? (IA & IB) I']; subst. cbn [fst snd] in IA, IB.
  destruct (G 0 a b m eq_refl) as (G0 & G1 & G2). rewrite Nat.add_0_r in G0, G1, G2.
  assert (G' : forall i a b m, nth_error rows i = Some (a, b, m) ->
    get_value p 0 (Datatypes.S j + i) = Some a /\ get_value p 1 (Datatypes.S j + i) = Some b /\ get_value p 2 (Datatypes.S j + i) = Some m).
  { intros i a' b' m' E. destruct (G (Datatypes.S i) a' b' m' E) as (X & Y & Z). replace (j + Datatypes.S i) with (Datatypes.S j + i) in X, Y, Z by lia. auto. }
  destruct (IH (Datatypes.S j) G' I') as (IH1 & IH2). clear IH. cbn [boundary_edges length]. unfold entry. rewrite G0, G1, G2. cbn [obind]. split.
  - intros F. inversion F as [|? ? (A & B) F']; subst. cbn [fst snd] in A, B. destruct (read_edge_ok strict vs a b IA IB S A B) as (e & E & J).
    rewrite E. cbn [obind]. destruct (IH1 F') as (es & Es & F2). rewrite Es. cbn [obind]. eexists. split; [reflexivity|]. constructor; [|exact F2].
    cbn [fst snd]. split; [destruct e; exact J|reflexivity].
  - intros -> N. destruct (read_edge true vs a b) as [e| |] eqn:E; [|exfalso|reflexivity].
    + cbn [obind]. rewrite IH2; [reflexivity|reflexivity|]. intros F. apply N. constructor; [|exact F].
      destruct (rejects true (length vs) (to_size a)) eqn:RA; [unfold read_edge in E; rewrite RA in E; discriminate|].
      destruct (rejects true (length vs) (to_size b)) eqn:RB; [unfold read_edge in E; rewrite RA, RB in E; discriminate|].
      split; [apply (proj1 (rejects_strict vs a IA S) RA)|apply (proj1 (rejects_strict vs b IB S) RB)].
    + assert (D : {exists_vertex vs a /\ exists_vertex vs b} + {~ (exists_vertex vs a /\ exists_vertex vs b)}).
      { unfold exists_vertex. destruct (Z_le_dec 0 a), (Z_lt_dec a (Z.of_nat (length vs))), (Z_le_dec 0 b), (Z_lt_dec b (Z.of_nat (length vs))); (left; lia) || (right; lia). }
      destruct D as [(A & B)|D]; [destruct (read_edge_ok true vs a b IA IB S A B) as (e & E' & _); congruence|].
      rewrite (read_edge_bad vs a b IA IB S D) in E. discriminate.
Qed.

(* C42, interior boundaries: if all vertices exist the edges join them; if one does not exist
   an error is reported *)
Theorem C42_interior vs p rows : rows_are p rows -> Forall row_ints rows -> small vs ->
  (Forall (row_exists vs) rows -> exists es, interior_edges vs p = Ok es /\
     Forall2 (fun r e => joins_vertices vs (fst (fst r)) (snd (fst r)) (fst e) /\ snd e = snd r) rows es) /\
  (~ Forall (row_exists vs) rows -> interior_edges vs p = Throw).
Proof.
  intros (N & G) I S. unfold interior_edges. rewrite N. destruct (boundary_edges_spec true vs p rows S 0 G I) as (A & B).
  split; [exact A|exact (B eq_refl)].
Qed.
(* C42, exterior boundary: existing vertices are joined *)
Theorem C42_exterior_partial vs p rows : rows_are p rows -> Forall row_ints rows -> small vs ->
  Forall (row_exists vs) rows -> exists es, exterior_edges vs p = Ok es /\
     Forall2 (fun r e => joins_vertices vs (fst (fst r)) (snd (fst r)) (fst e) /\ snd e = snd r) rows es.
Proof. intros (N & G) I S. unfold exterior_edges. rewrite N. apply (boundary_edges_spec false vs p rows S 0 G I). Qed.
Lemma read_edge_one vs a b : is_int a -> is_int b -> small vs -> ~ (exists_vertex vs a /\ exists_vertex vs b) ->
  a <> Z.of_nat (length vs) -> b <> Z.of_nat (length vs) -> read_edge false vs a b = Throw.
Proof.
  intros IA IB S N NA NB. unfold read_edge. destruct (rejects false (length vs) (to_size a)) eqn:RA; [reflexivity|].
  destruct (rejects false (length vs) (to_size b)) eqn:RB; [reflexivity|]. exfalso. apply N.
  apply (proj1 (rejects_loose vs a IA S)) in RA. apply (proj1 (rejects_loose vs b IB S)) in RB. tauto.
Qed.
(* and a vertex number that does not exist is reported if it is not the number of vertices
   itself; in no case edges are returned *)
Theorem C42_exterior_reject_partial vs p rows : rows_are p rows -> Forall row_ints rows -> small vs ->
  ~ Forall (row_exists vs) rows ->
  (forall r, In r rows -> fst (fst r) <> Z.of_nat (length vs) /\ snd (fst r) <> Z.of_nat (length vs)) ->
  exterior_edges vs p = Throw.
Proof.
  intros (N & G) I S NF NE. unfold exterior_edges. rewrite N.
  enough (K : forall j, (forall i a b m, nth_error rows i = Some (a, b, m) ->
    get_value p 0 (j + i) = Some a /\ get_value p 1 (j + i) = Some b /\ get_value p 2 (j + i) = Some m) ->
    boundary_edges false vs p (length rows) j = Throw) by (apply (K 0); exact G).
  clear N G. induction rows as [|[[a b] m] rows IH]; intros j G; [exfalso; apply NF; constructor|].
  inversion I as [|? ? (IA & IB) I']; subst. cbn [fst snd] in IA, IB.
  destruct (G 0 a b m eq_refl) as (G0 & G1 & G2). rewrite Nat.add_0_r in G0, G1, G2.
  cbn [boundary_edges length]. unfold entry. rewrite G0, G1, G2. cbn [obind].
  destruct (NE (a, b, m) (or_introl eq_refl)) as (NA & NB). cbn [fst snd] in NA, NB.
  assert (D : {exists_vertex vs a /\ exists_vertex vs b} + {~ (exists_vertex vs a /\ exists_vertex vs b)}).
  { unfold exists_vertex. destruct (Z_le_dec 0 a), (Z_lt_dec a (Z.of_nat (length vs))), (Z_le_dec 0 b), (Z_lt_dec b (Z.of_nat (length vs))); (left; lia) || (right; lia). }
  destruct D as [(A & B)|D].
  - destruct (read_edge_ok false vs a b IA IB S A B) as (e & E & _). rewrite E. cbn [obind]. rewrite IH; [reflexivity|exact I'| | |].
    + intros F. apply NF. constructor; [split; assumption|exact F].
    + intros r R. apply NE. right. exact R.
    + intros i a' b' m' E'. destruct (G (Datatypes.S i) a' b' m' E') as (X & Y & Z). replace (j + Datatypes.S i) with (Datatypes.S j + i) in X, Y, Z by lia. auto.
  - rewrite read_edge_one by assumption. reflexivity.
Qed.
(* C42, fixed edges *)
Theorem C42_fixed vs p rows : pairs_are p rows -> Forall (fun r => is_int (fst r) /\ is_int (snd r)) rows -> small vs ->
  (Forall (fun r => exists_vertex vs (fst r) /\ exists_vertex vs (snd r)) rows -> exists es, fixed_edges_of vs p = Ok es /\
     Forall2 (fun r e => joins_vertices vs (fst r) (snd r) e) rows es) /\
  (~ Forall (fun r => exists_vertex vs (fst r) /\ exists_vertex vs (snd r)) rows -> fixed_edges_of vs p = Throw).
Proof.
  intros (N & G) I S. unfold fixed_edges_of. rewrite N.
  enough (K : forall j, (forall i a b, nth_error rows i = Some (a, b) -> get_value p 0 (j + i) = Some a /\ get_value p 1 (j + i) = Some b) ->
    (Forall (fun r => exists_vertex vs (fst r) /\ exists_vertex vs (snd r)) rows -> exists es, fixed_edges vs p (length rows) j = Ok es /\
       Forall2 (fun r e => joins_vertices vs (fst r) (snd r) e) rows es) /\
    (~ Forall (fun r => exists_vertex vs (fst r) /\ exists_vertex vs (snd r)) rows -> fixed_edges vs p (length rows) j = Throw)) by (apply (K 0); exact G).
  clear N G. induction rows as [|[a b] rows IH]; intros j G.
  { split; [intros _; exists []; split; [reflexivity|constructor]|]. intros N. exfalso. apply N. constructor. }
  inversion I as [|? ? (IA & IB) I']; subst. cbn [fst snd] in IA, IB. destruct (G 0 a b eq_refl) as (G0 & G1). rewrite Nat.add_0_r in G0, G1.
  destruct (IH I' (Datatypes.S j)) as (IH1 & IH2).
  { intros i a' b' E'. destruct (G (Datatypes.S i) a' b' E') as (X & Y). replace (j + Datatypes.S i) with (Datatypes.S j + i) in X, Y by lia. auto. }
  clear IH. cbn [fixed_edges length]. unfold entry. rewrite G0, G1. cbn [obind]. split.
  - intros F. inversion F as [|? ? (A & B) F']; subst. cbn [fst snd] in A, B. destruct (read_edge_ok true vs a b IA IB S A B) as (e & E & J).
    rewrite E. cbn [obind]. destruct (IH1 F') as (es & Es & F2). rewrite Es. cbn [obind]. eexists. split; [reflexivity|]. constructor; [exact J|exact F2].
  - intros NF. assert (D : {exists_vertex vs a /\ exists_vertex vs b} + {~ (exists_vertex vs a /\ exists_vertex vs b)}).
    { unfold exists_vertex. destruct (Z_le_dec 0 a), (Z_lt_dec a (Z.of_nat (length vs))), (Z_le_dec 0 b), (Z_lt_dec b (Z.of_nat (length vs))); (left; lia) || (right; lia). }
    destruct D as [(A & B)|D].
    + destruct (read_edge_ok true vs a b IA IB S A B) as (e & E & _). rewrite E. cbn [obind]. rewrite IH2; [reflexivity|].
      intros F. apply NF. constructor; [split; assumption|exact F].
    + rewrite (read_edge_bad vs a b IA IB S D). reflexivity.
Qed.
(* three vertices and rows of vertex numbers *)
Definition three : list nat := [10; 11; 12].
Definition given (vals : list Z) (r : nat) : para Z := PR (BO 0 5 0) true 3 r vals.
Example C42_ex : interior_edges three (given [0; 1; 7; 1; 2; 8]%Z 2) = Ok [(10, 11, 7%Z); (11, 12, 8%Z)] /\
  interior_edges three (given [0; 1; 7; 1; 3; 8]%Z 2) = Throw /\ interior_edges three (given [0; 1; 7; -1; 2; 8]%Z 2) = Throw /\
  exterior_edges three (given [0; 1; 7; 1; 2; 8]%Z 2) = Ok [(10, 11, 7%Z); (11, 12, 8%Z)] /\
  exterior_edges three (given [0; 1; 7; 1; 4; 8]%Z 2) = Throw /\
  fixed_edges_of three (PR (BO 0 5 0) true 2 2 [0; 2; 2; 3]%Z) = Throw /\ fixed_edges_of three (PR (BO 0 5 0) true 2 1 [0; 2]%Z) = Ok [(10, 12)].
Proof. vm_compute. repeat split. Qed.
Example C42_rows_ex : rows_are (given [0; 1; 7; 1; 2; 8]%Z 2) [(0, 1, 7); (1, 2, 8)]%Z /\ Forall row_ints [(0, 1, 7); (1, 2, 8)]%Z /\
  small three /\ Forall (row_exists three) [(0, 1, 7); (1, 2, 8)]%Z.
Proof.
  split; [split; [reflexivity|]|].
  - intros [|[|j]] a b m E; cbn in E; [injection E as <- <- <-; repeat split|injection E as <- <- <-; repeat split|destruct j; discriminate].
  - split; [repeat constructor; cbn; unfold is_int; lia|]. split; [vm_compute; reflexivity|]. repeat constructor; cbn; unfold exists_vertex; cbn; lia.
Qed.
(* C42 as stated is false: for the exterior boundary the number of vertices itself passes the
   test and the access behind the end of the vertex list is undefined *)
Theorem C42_refuted : exists vs p rows, rows_are p rows /\ Forall row_ints rows /\ small vs /\
  ~ Forall (row_exists vs) rows /\ exterior_edges vs p = UB.
Proof.
  exists three, (given [0; 1; 7; 1; 3; 8]%Z 2), [(0, 1, 7); (1, 3, 8)]%Z. split; [split; [reflexivity|]|].
  - intros [|[|j]] a b m E; cbn in E; [injection E as <- <- <-; repeat split|injection E as <- <- <-; repeat split|destruct j; discriminate].
  - split; [repeat constructor; cbn; unfold is_int; lia|]. split; [vm_compute; reflexivity|]. split; [|vm_compute; reflexivity].
    intros F. inversion F as [|? ? _ F']; subst. inversion F' as [|? ? (_ & H) _]; subst. unfold exists_vertex in H. cbn in H. lia.
Qed.
(* for every vertex list and every such row *)
Theorem C42_exterior_last vs a m : small vs -> (Z.of_nat (length vs) <= 2147483647)%Z -> exists_vertex vs a -> is_int a ->
  exterior_edges vs (PR (BO 0 0 0) true 3 1 [a; Z.of_nat (length vs); m]) = UB.
Proof.
  intros S L A I. unfold exterior_edges. cbn [pr_nrow boundary_edges]. unfold entry, get_value. cbn [pr_ncol pr_nrow pr_vals Nat.mul Nat.add Nat.leb nth_error obind].
  unfold read_edge. rewrite (proj2 (rejects_loose vs a I S) (or_introl A)).
  assert (I2 : is_int (Z.of_nat (length vs))) by (unfold is_int; lia).
  rewrite (proj2 (rejects_loose vs _ I2 S) (or_intror eq_refl)). cbn [orb]. pose proof A as (A0 & _). rewrite !to_size_pos by (assumption || lia).
  destruct (vertex_at_spec vs a A) as (v & E & _). rewrite E. cbn [obind]. unfold vertex_at.
  rewrite (proj2 (nth_error_None vs (Z.to_nat (Z.of_nat (length vs))))) by lia. reflexivity.
Qed.
Example C42_exterior_last_ex : small three /\ exists_vertex three 1 /\ is_int 1.
Proof. split; [vm_compute; reflexivity|]. split; [unfold exists_vertex; cbn; lia|unfold is_int; lia]. Qed.
(* a negative boundary colour is not rejected *)
Theorem C42_colour_refuted : exists vs p es, exterior_edges vs p = Ok es /\ exists e, In e es /\ (snd e < 0)%Z.
Proof.
  exists three, (given [0; 1; -4]%Z 1), [(10, 11, (-4)%Z)]. split; [vm_compute; reflexivity|]. exists (10, 11, (-4)%Z). split; [left; reflexivity|reflexivity].
Qed.

(* ---- C49 ---- *)
Open Scope Q_scope.
Lemma bigger_l a b : a <= Qbigger a b.
Proof. unfold Qbigger. destruct (Qle_bool b a) eqn:E; [lra|]. assert (~ b <= a) by (rewrite <- Qle_bool_iff, E; discriminate). lra. Qed.
Lemma bigger_r a b : b <= Qbigger a b.
Proof. unfold Qbigger. destruct (Qle_bool b a) eqn:E; [apply Qle_bool_iff in E; exact E|lra]. Qed.
Lemma abs_bound x b : absQ x <= b -> - b <= x /\ x <= b.
Proof.
  unfold absQ. destruct (Qle_bool 0 x) eqn:E; [apply Qle_bool_iff in E; lra|].
  assert (~ 0 <= x) by (rewrite <- Qle_bool_iff, E; discriminate). lra.
Qed.
Definition biggest (vs : list invert) : Q := fold_left (fun e v => Qbigger (Qbigger e (absQ (vx (iv_xy v)))) (absQ (vy (iv_xy v)))) vs 0.
Lemma biggest_spec vs : forall e, e <= fold_left (fun e v => Qbigger (Qbigger e (absQ (vx (iv_xy v)))) (absQ (vy (iv_xy v)))) vs e /\
  forall v, In v vs -> absQ (vx (iv_xy v)) <= fold_left (fun e v => Qbigger (Qbigger e (absQ (vx (iv_xy v)))) (absQ (vy (iv_xy v)))) vs e /\
    absQ (vy (iv_xy v)) <= fold_left (fun e v => Qbigger (Qbigger e (absQ (vx (iv_xy v)))) (absQ (vy (iv_xy v)))) vs e.
Proof.
  induction vs as [|v vs IH]; intros e; cbn [fold_left]; [split; [lra|intros v []]|].
  set (e' := Qbigger (Qbigger e (absQ (vx (iv_xy v)))) (absQ (vy (iv_xy v)))). destruct (IH e') as (A & B).
  assert (M1 : e <= e' /\ absQ (vx (iv_xy v)) <= e' /\ absQ (vy (iv_xy v)) <= e').
  { subst e'. pose proof (bigger_l (Qbigger e (absQ (vx (iv_xy v)))) (absQ (vy (iv_xy v)))). pose proof (bigger_r (Qbigger e (absQ (vx (iv_xy v)))) (absQ (vy (iv_xy v)))).
    pose proof (bigger_l e (absQ (vx (iv_xy v)))). pose proof (bigger_r e (absQ (vx (iv_xy v)))). lra. }
  destruct M1 as (M1 & M2 & M3). split; [lra|]. intros w [<-|W]; [split; lra|]. apply B. exact W.
Qed.
Lemma estimate_covers vs v : In v vs -> in_square (estimate vs) (iv_xy v) = true.
Proof.
  intros I. destruct (biggest_spec vs 0) as (Z & B). destruct (B v I) as (X & Y). fold (biggest vs) in *. unfold estimate. fold (biggest vs).
  apply abs_bound in X, Y. apply in_square_iff. assert (H : biggest vs * (21 # 10) / 2 == biggest vs * (21 # 20)) by field.
  rewrite H. repeat split; lra.
Qed.
(* C49: all boundary vertices of the file lie in the square of the domain's quadtree, whose
   side is the extent that is estimated from the file *)
Theorem C49_partial tq_max p vs ext : init_vertices tq_max (Some p) None = Ok (vs, ext) ->
  forall v, In v vs -> in_square ext (iv_xy v) = true.
Proof.
  unfold init_vertices. destruct (read_vertices false p (pr_nrow p) 0) as [ws| |]; try discriminate. cbn [obind fst snd].
  rewrite app_nil_r. intros E. injection E as <- <-. intros v. apply estimate_covers.
Qed.
Definition given_vertices (vals : list Q) (r : nat) : para Q := PR (BO 0 5 0) true 4 r vals.
Example C49_ex : match init_vertices 100 (Some (given_vertices [1; 2; 1; 1; -(3); 1; 1; 1] 2)) None with
  | Ok (vs, ext) => length vs = 2%nat /\ ext == 63 # 10 | _ => False end.
Proof. vm_compute. split; reflexivity. Qed.
(* but fixed vertices are left out of the estimate *)
Theorem C49_refuted : exists pv pf vs ext v, init_vertices 100 (Some pv) (Some pf) = Ok (vs, ext) /\ In v vs /\ in_square ext (iv_xy v) = false.
Proof.
  exists (given_vertices [0; 0; 1; 1; 1; 0; 1; 1; 0; 1; 1; 1] 3), (given_vertices [2; 2; 1; 1] 1).
  do 2 eexists. exists (IV (V2 2 2) (V2 1 1) true). split; [vm_compute; reflexivity|]. split; [do 3 right; left; reflexivity|vm_compute; reflexivity].
Qed.

Print Assumptions C42_interior.
Print Assumptions C42_exterior_partial.
Print Assumptions C42_exterior_reject_partial.
Print Assumptions C42_fixed.
Print Assumptions C42_refuted.
Print Assumptions C42_exterior_last.
Print Assumptions C42_colour_refuted.
Print Assumptions C49_partial.
Print Assumptions C49_refuted.
