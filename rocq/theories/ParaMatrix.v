(* Proofs about vector and matrix parameters (C40, C41). *)
From Coq Require Import Ascii String Lia.
From Verif Require Import Base BdryProofs CsvModel CsvProofs ParaModel ParaSpec ParaProofs.
Open Scope nat_scope.

Section M.
Variable T : Type.
Variable conv : text -> option T.
Variable init : T.

Lemma put_spec (l : list T) : forall i v, i < length l -> put i v l = firstn i l ++ v :: skipn (S i) l.
Proof.
  induction l as [|x l IH]; intros i v L; [cbn in L; lia|]. destruct i as [|i]; [reflexivity|].
  cbn [put firstn skipn app]. rewrite IH by (cbn in L; lia). reflexivity.
Qed.
Lemma put_length (l : list T) : forall i v, length (put i v l) = length l.
Proof. induction l as [|x l IH]; intros [|i] v; cbn [put length]; try reflexivity. rewrite IH. reflexivity. Qed.
Definition shaped (p : para T) : Prop := length (pr_vals p) = pr_ncol p * pr_nrow p.
Lemma set_values_spec vs : forall (p : para T) i, shaped p -> i + length vs <= pr_ncol p * pr_nrow p ->
  set_values p i vs = PR (pr_b p) (pr_found p) (pr_ncol p) (pr_nrow p) (firstn i (pr_vals p) ++ vs ++ skipn (i + length vs) (pr_vals p)).
Proof.
  induction vs as [|v vs IH]; intros p i S L; cbn [set_values length app].
  - rewrite Nat.add_0_r, firstn_skipn. destruct p; reflexivity.
  - cbn [length] in L. unfold shaped in S. assert (E : set_value p i v = PR (pr_b p) (pr_found p) (pr_ncol p) (pr_nrow p) (put i v (pr_vals p))).
    { unfold set_value. destruct (Nat.leb_spec (pr_ncol p * pr_nrow p) i); [lia|reflexivity]. }
    rewrite E, IH; cbn [pr_vals pr_ncol pr_nrow pr_b pr_found]; [|unfold shaped; cbn [pr_vals pr_ncol pr_nrow]; rewrite put_length; exact S|lia].
    f_equal. assert (Lf : length (firstn i (pr_vals p)) = i) by (rewrite firstn_length; lia).
    assert (W : put i v (pr_vals p) = (firstn i (pr_vals p) ++ [v]) ++ skipn (Datatypes.S i) (pr_vals p)).
    { rewrite put_spec by lia. rewrite <- app_assoc. reflexivity. }
    assert (Lg : length (firstn i (pr_vals p) ++ [v]) = Datatypes.S i) by (rewrite app_length, Lf; cbn; lia).
    rewrite W. rewrite firstn_app, Lg, Nat.sub_diag, firstn_O. rewrite app_nil_r, (firstn_all2 (firstn i (pr_vals p) ++ [v])) by lia.
    rewrite skipn_app, Lg. rewrite (skipn_all2 (firstn i (pr_vals p) ++ [v])) by lia. cbn [app].
    replace (Datatypes.S i + length vs - Datatypes.S i) with (length vs) by lia. rewrite <- app_assoc. cbn [app]. do 3 f_equal.
    clear. assert (K : forall (b a : nat) (l : list T), skipn a (skipn b l) = skipn (b + a) l).
    { induction b as [|b IH]; intros a l; [reflexivity|]. destruct l as [|x l]; cbn [skipn Nat.add]; [destruct a; reflexivity|apply IH]. }
    rewrite K. f_equal. lia.
Qed.

Lemma resize_shaped (p : para T) : shaped (resize T init p).
Proof. unfold shaped, resize. cbn. rewrite app_length, firstn_length, repeat_length. lia. Qed.
Lemma firstn_step (n j : nat) (out : list T) : firstn (j * n) out ++ firstn n (skipn (j * n) out) = firstn (S j * n) out.
Proof.
  revert out. induction (j * n) as [|m IH] eqn:E; intros out.
  - assert (Z : S j * n = n) by (cbn; lia). rewrite Z. reflexivity.
  - clear IH. assert (K : forall (a b : nat) (l : list T), firstn a l ++ firstn b (skipn a l) = firstn (a + b) l).
    { clear. induction a as [|a IH]; intros b l; [reflexivity|]. destruct l as [|x l]; cbn [firstn skipn app Nat.add]; [destruct b; reflexivity|]. rewrite IH. reflexivity. }
    rewrite K. f_equal. cbn. lia.
Qed.
Lemma fill_rows_spec (out : list T) : forall m (p : para T) j, shaped p -> pr_nrow p = S j -> m <> 0 ->
  length out = (j + m) * pr_ncol p -> firstn (j * pr_ncol p) (pr_vals p) = firstn (j * pr_ncol p) out ->
  fill_rows T init m p j out = PR (pr_b p) (pr_found p) (pr_ncol p) (j + m) out.
Proof.
  induction m as [|m IH]; intros p j S R NZ L F; [contradiction|]. cbn [fill_rows].
  set (n := pr_ncol p) in *. assert (LV : length (firstn n (skipn (j * n) out)) = n).
  { rewrite firstn_length, skipn_length, L. cbn. nia. }
  assert (SV : length (pr_vals p) = Datatypes.S j * n) by (unfold shaped in S; rewrite S, R; fold n; lia).
  rewrite set_values_spec; [|exact S|rewrite LV, R; fold n; cbn; nia]. rewrite LV.
  rewrite (skipn_all2 (pr_vals p)) by (rewrite SV; cbn; lia). rewrite app_nil_r, F, firstn_step. fold n.
  destruct m as [|m].
  - cbn [fill_rows]. rewrite R. f_equal; [lia|]. apply firstn_all2. rewrite L. cbn. nia.
  - rewrite IH; [|..].
    + unfold add_row. cbn [pr_b pr_found pr_ncol]. f_equal. lia.
    + unfold shaped, add_row. cbn [pr_vals pr_ncol pr_nrow]. rewrite app_length, firstn_length, repeat_length, L, R. cbn. nia.
    + cbn. rewrite R. reflexivity.
    + discriminate.
    + cbn [add_row pr_ncol]. rewrite L. f_equal. lia.
    + unfold add_row. cbn [pr_vals pr_ncol]. rewrite firstn_app, firstn_firstn.
      assert (Z : length (firstn (Datatypes.S j * n) out) = Datatypes.S j * n) by (rewrite firstn_length, L; nia).
      rewrite Z, Nat.sub_diag. cbn [firstn]. rewrite app_nil_r, Nat.min_id. reflexivity.
Qed.
Lemma filled (p : para T) out r : pr_ncol p <> 0 -> r <> 0 -> length out = pr_ncol p * r ->
  fill_rows T init r (resize T init p) 0 out = PR (pr_b p) (pr_found p) (pr_ncol p) r out.
Proof.
  intros N R L. rewrite fill_rows_spec; [reflexivity|apply resize_shaped|reflexivity|exact R| |reflexivity].
  cbn [resize pr_ncol]. rewrite L. cbn. lia.
Qed.
Lemma nth_rows (n : nat) (rows : list (list T)) : Forall (fun r => length r = n) rows ->
  forall i j r, i < n -> nth_error rows j = Some r -> nth_error (concat rows) (j * n + i) = nth_error r i.
Proof.
  intros F. induction F as [|x rows Lx _ IH]; intros i j r I J; [destruct j; discriminate|].
  cbn [concat]. destruct j as [|j]; cbn [nth_error] in J.
  - injection J as ->. cbn [Nat.mul Nat.add]. apply nth_error_app1. lia.
  - rewrite nth_error_app2 by (cbn; nia). rewrite Lx. replace (S j * n + i - n) with (j * n + i) by (cbn; lia). apply IH; assumption.
Qed.
Lemma length_rows (n : nat) (rows : list (list T)) : Forall (fun r => length r = n) rows -> length (concat rows) = n * length rows.
Proof. intros F. induction F as [|x rows Lx _ IH]; cbn [concat length]; [lia|]. rewrite app_length, Lx, IH. lia. Qed.

(* ---- the cells of a row ---- *)
Lemma cells_separated cells : cells <> [] -> last cells [] <> [] -> (forall c, In c cells -> ~ In ","%char c) -> cells_of (separated cells) = cells.
Proof.
  unfold cells_of. induction cells as [|c cells IH]; intros N L F; [contradiction|]. destruct cells as [|c' cells].
  - cbn [separated]. rewrite getlines_last; [reflexivity|apply F; left; reflexivity|left; exact L].
  - change (separated (c :: c' :: cells)) with (c ++ ","%char :: separated (c' :: cells)).
    rewrite getlines_app by (apply F; left; reflexivity). cbn [rev app]. f_equal. apply IH; [discriminate|exact L|].
    intros x X. apply F. right. exact X.
Qed.
Lemma row_values line vs d n : row_of conv line vs -> n <= length vs -> line_values T conv d n line = vs.
Proof.
  intros (cells & -> & N & L & F & R) E. unfold line_values. rewrite cells_separated by assumption.
  assert (V : flat_map (cell_values T conv d) cells = vs).
  { clear N L F E. induction R as [|c v cells vs (t & U & C) _ IH]; [reflexivity|]. cbn [flat_map].
    unfold cell_values at 1. apply unbracketed_iff in U as ->. rewrite C. cbn [app]. f_equal. exact IH. }
  rewrite V. destruct d as [x|]; [|reflexivity]. replace (n - length vs) with 0 by lia. cbn [repeat]. apply app_nil_r.
Qed.
Lemma padded_values line vs d n : padded_row conv d n line vs -> line_values T conv (Some d) n line = vs /\ length vs = n.
Proof.
  intros (cells & us & -> & N & L & F & LE & R & ->). unfold line_values. rewrite cells_separated by assumption.
  assert (V : flat_map (cell_values T conv (Some d)) cells = us).
  { clear N L F LE. induction R as [|c v cells vs (t & U & C) _ IH]; [reflexivity|]. cbn [flat_map].
    unfold cell_values at 1. apply unbracketed_iff in U as ->. destruct C as [C|(C & ->)]; rewrite C; cbn [app]; f_equal; exact IH. }
  assert (LL : length cells = length us) by (eapply Forall2_len; exact R).
  rewrite V. split; [reflexivity|]. rewrite app_length, repeat_length. lia.
Qed.
Lemma between_lines content l1 l2 ls : between content l1 l2 ls -> firstn (l2 - (l1 + 1)) (skipn (l1 + 1) content) = ls.
Proof.
  intros (A & s & e & B & -> & L1 & L2). replace (l2 - (l1 + 1)) with (length ls) by lia.
  change (A ++ s :: ls ++ e :: B) with (A ++ [s] ++ (ls ++ e :: B)). rewrite app_assoc.
  replace (l1 + 1) with (length (A ++ [s])) by (rewrite app_length; cbn; lia). rewrite skip_app.
  rewrite firstn_app, Nat.sub_diag. cbn [firstn]. rewrite app_nil_r. apply firstn_all.
Qed.
(* what a matrix query does once both keys are found *)
Lemma matrix_found k1 k2 d content (p : para T) l1 l2 : bo_end (pr_b p) <= length content ->
  first_with k1 content (from (pr_b p)) (bo_end (pr_b p)) l1 -> first_with k2 content (S l1) (bo_end (pr_b p)) l2 ->
  exists b', bo_start b' = bo_start (pr_b p) /\ bo_end b' = bo_end (pr_b p) /\ from b' = S l2 /\
  query_matrix T conv init k1 k2 d content p =
    let out := flat_map (line_values T conv d (pr_ncol p)) (firstn (l2 - (l1 + 1)) (skipn (l1 + 1) content)) in
    if Nat.eqb (pr_ncol p) 0 then UB else
    let n := Nat.div (length out) (pr_ncol p) in
    if negb (Nat.eqb (length out) (pr_ncol p * n)) then Ok (with_bounds p b', false)
    else Ok (is_found (fill_rows T init n (resize T init (with_bounds p b')) 0 out), true).
Proof.
  intros L F1 F2. unfold query_matrix.
  destruct (query_data_spec k1 content (pr_b p) L) as (b1 & r1 & Q1 & S1 & N1 & R1). rewrite Q1. cbn [obind fst snd].
  destruct r1 as [[x1 p1]|]; [|destruct R1 as (_ & R1); destruct F1 as (A & B & _); exfalso; exact (R1 _ A B)].
  destruct R1 as (G1 & H1 & I1). pose proof (first_unique _ _ _ _ _ _ F1 G1) as <-. cbn [with_bounds pr_b].
  destruct (query_data_spec k2 content b1) as (b2 & r2 & Q2 & S2 & N2 & R2); [lia|]. rewrite Q2. cbn [obind fst snd].
  destruct r2 as [[x2 p2]|]; [|destruct R2 as (_ & R2); destruct F2 as (A & B & _); exfalso; rewrite I1, N1 in R2; exact (R2 _ A B)].
  destruct R2 as (G2 & H2 & I2). rewrite I1, N1 in G2. pose proof (first_unique _ _ _ _ _ _ F2 G2) as <-.
  exists b2. split; [congruence|]. split; [congruence|]. split; [exact I2|]. reflexivity.
Qed.
Lemma rows_values (vals : text -> list T) ls rows : Forall2 (fun l r => vals l = r) ls rows -> flat_map vals ls = concat rows.
Proof. intros F. induction F as [|l r ls rows E _ IH]; [reflexivity|]. cbn [flat_map concat]. rewrite E, IH. reflexivity. Qed.
Lemma matrix_rows k1 k2 d content (p : para T) l1 l2 ls rows : bo_end (pr_b p) <= length content ->
  first_with k1 content (from (pr_b p)) (bo_end (pr_b p)) l1 -> first_with k2 content (S l1) (bo_end (pr_b p)) l2 ->
  between content l1 l2 ls -> rows <> [] -> pr_ncol p <> 0 ->
  Forall2 (fun l r => line_values T conv d (pr_ncol p) l = r) ls rows -> Forall (fun r => length r = pr_ncol p) rows ->
  exists p', query_matrix T conv init k1 k2 d content p = Ok (p', true) /\ pr_found p' = true /\
    pr_ncol p' = pr_ncol p /\ pr_nrow p' = length rows /\
    forall i j r, i < pr_ncol p -> nth_error rows j = Some r -> get_value p' i j = nth_error r i.
Proof.
  intros L F1 F2 B NR NC V LR. destruct (matrix_found k1 k2 d content p l1 l2 L F1 F2) as (b' & _ & _ & _ & ->).
  rewrite (between_lines _ _ _ _ B), (rows_values _ _ _ V). cbv zeta. rewrite (length_rows _ _ LR).
  destruct (Nat.eqb_spec (pr_ncol p) 0) as [Z|_]; [contradiction|].
  rewrite (Nat.mul_comm (pr_ncol p) (length rows)), Nat.div_mul by exact NC. rewrite (Nat.mul_comm (pr_ncol p)), Nat.eqb_refl. cbn [negb].
  assert (R0 : length rows <> 0) by (destruct rows; [contradiction|discriminate]).
  rewrite (filled (with_bounds p b') (concat rows) (length rows)); [|exact NC|exact R0|apply length_rows, LR].
  eexists. split; [reflexivity|]. split; [reflexivity|]. split; [reflexivity|]. split; [reflexivity|].
  intros i j r I J. unfold get_value. cbn [is_found with_bounds pr_ncol pr_nrow pr_vals].
  assert (JL : j < length rows) by (apply nth_error_Some; rewrite J; discriminate).
  destruct (Nat.leb_spec (pr_ncol p * length rows) (j * pr_ncol p + i)) as [Z|_]; [nia|]. apply (nth_rows (pr_ncol p)); assumption.
Qed.
End M.
