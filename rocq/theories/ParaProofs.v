(* Proofs about the parameter file reader (C40, C41). *)
From Coq Require Import Ascii String Sorted Lia.
From Verif Require Import Base CsvModel CsvProofs ParaModel ParaSpec.
Open Scope nat_scope.

(* ---- searching a key in a line ---- *)
Lemma is_prefix_iff k s : is_prefix k s = true <-> exists b, s = k ++ b.
Proof.
  revert s. induction k as [|a k IH]; intros s; cbn [is_prefix].
  - split; [intros _; exists s; reflexivity|reflexivity].
  - destruct s as [|b s]; [split; [discriminate|intros (b & H); discriminate]|].
    rewrite andb_true_iff, IH. split.
    + intros (E & r & ->). apply Ascii.eqb_eq in E as ->. exists r. reflexivity.
    + intros (r & H). cbn in H. injection H as -> ->. split; [apply Ascii.eqb_refl|exists r; reflexivity].
Qed.
Lemma occurs_cons k c s i : occurs k s i -> occurs k (c :: s) (S i).
Proof. intros (a & b & -> & L). exists (c :: a), b. split; [reflexivity|cbn; lia]. Qed.
Lemma occurs_uncons k c s i : occurs k (c :: s) (S i) -> occurs k s i.
Proof. intros (a & b & E & L). destruct a as [|x a]; [discriminate|]. injection E as -> ->. exists a, b. split; [reflexivity|cbn in L; lia]. Qed.
Lemma occurs_O k s : occurs k s 0 <-> is_prefix k s = true.
Proof.
  rewrite is_prefix_iff. split.
  - intros (a & b & E & L). destruct a; [|discriminate]. exists b. exact E.
  - intros (b & ->). exists [], b. split; reflexivity.
Qed.
Lemma occurs_le k s i : occurs k s i -> i <= length s.
Proof. intros (a & b & -> & <-). rewrite app_length. lia. Qed.
Lemma find_here_spec k s : forall i,
  match find_here k s i with
  | Some j => i <= j /\ occurs k s (j - i) /\ forall m, occurs k s m -> j - i <= m
  | None => forall m, ~ occurs k s m
  end.
Proof.
  induction s as [|c s IH]; intros i; cbn [find_here].
  - destruct (is_prefix k []) eqn:E.
    + rewrite Nat.sub_diag. split; [lia|]. split; [apply occurs_O, E|lia].
    + intros m H. pose proof (occurs_le _ _ _ H) as L. cbn in L. assert (m = 0) by lia. subst m. apply occurs_O in H. congruence.
  - destruct (is_prefix k (c :: s)) eqn:E.
    + rewrite Nat.sub_diag. split; [lia|]. split; [apply occurs_O, E|lia].
    + specialize (IH (S i)). destruct (find_here k s (S i)) as [j|].
      * destruct IH as (A & B & C). split; [lia|]. replace (j - i) with (S (j - S i)) by lia. split; [apply occurs_cons, B|].
        intros [|m] H; [apply occurs_O in H; congruence|]. apply occurs_uncons, C in H. lia.
      * intros [|m] H; [apply occurs_O in H; congruence|]. apply occurs_uncons in H. exact (IH _ H).
Qed.
Lemma occurs_skip k s pos m : pos <= length s -> occurs k (skipn pos s) m <-> occurs k s (pos + m).
Proof.
  revert s. induction pos as [|pos IH]; intros s L; [reflexivity|].
  destruct s as [|c s]; [cbn in L; lia|]. cbn [skipn length Nat.add] in *. rewrite IH by lia.
  split; [apply occurs_cons|apply occurs_uncons].
Qed.
Lemma str_find_spec k s pos :
  match str_find k s pos with
  | Some j => pos <= j /\ occurs k s j /\ forall m, pos <= m -> occurs k s m -> j <= m
  | None => forall m, pos <= m -> ~ occurs k s m
  end.
Proof.
  unfold str_find. destruct (Nat.leb_spec pos (length s)) as [L|L].
  - pose proof (find_here_spec k (skipn pos s) pos) as F. destruct (find_here k (skipn pos s) pos) as [j|].
    + destruct F as (A & B & C). split; [exact A|]. apply occurs_skip in B; [|exact L].
      replace (pos + (j - pos)) with j in B by lia. split; [exact B|]. intros m H O.
      assert (O' : occurs k (skipn pos s) (m - pos)) by (apply occurs_skip; [exact L|]; replace (pos + (m - pos)) with m by lia; exact O).
      apply C in O'. lia.
    + intros m H O. apply (F (m - pos)). apply occurs_skip; [exact L|]. replace (pos + (m - pos)) with m by lia. exact O.
  - intros m H O. apply occurs_le in O. lia.
Qed.
Lemma last_occurrence_spec k s : forall n pos f, length s + 2 <= n + pos -> n <> 0 ->
  exists r, last_occurrence n k s pos f = Ok r /\
    ((r = f /\ forall m, pos <= m -> ~ occurs k s m) \/ (exists i, r = Some i /\ pos <= i /\ last_at k s i)).
Proof.
  induction n as [|n IH]; intros pos f L NZ; [lia|]. cbn [last_occurrence].
  pose proof (str_find_spec k s pos) as F. destruct (str_find k s pos) as [i|].
  - destruct F as (A & B & C). pose proof (occurs_le _ _ _ B) as D. destruct n as [|n].
    { exfalso. lia. }
    destruct (IH (i + 1) (Some i)) as (r & E & H); [lia|lia|]. exists r. split; [exact E|]. right.
    destruct H as [(-> & H)|(j & -> & G & H)].
    + exists i. split; [reflexivity|]. split; [exact A|]. split; [exact B|]. intros j O.
      destruct (Nat.le_gt_cases j i) as [Z|Z]; [exact Z|]. exfalso. apply (H j); [lia|exact O].
    + exists j. split; [reflexivity|]. split; [lia|exact H].
  - exists f. split; [reflexivity|]. left. split; [reflexivity|exact F].
Qed.
Lemma last_in_line k s :
  exists r, last_occurrence (S (S (length s))) k s 0 None = Ok r /\
    match r with Some i => last_at k s i | None => forall m, ~ occurs k s m end.
Proof.
  destruct (last_occurrence_spec k s (S (S (length s))) 0 None) as (r & E & H); [lia|lia|]. exists r. split; [exact E|].
  destruct H as [(-> & H)|(i & -> & _ & H)]; [|exact H]. intros m. apply H. lia.
Qed.
Lemma last_unique k s i j : last_at k s i -> last_at k s j -> i = j.
Proof. intros (A & B) (C & D). pose proof (B _ C). pose proof (D _ A). lia. Qed.

(* ---- searching the lines ---- *)
Lemma search_spec k content : forall n cur, cur + n <= length content ->
  exists r, search_lines n cur k content = Ok r /\
    match r with
    | Some (l, p) => first_with k content cur (cur + n) l /\ hit k content l (l, p)
    | None => forall m, cur <= m < cur + n -> ~ has k content m
    end.
Proof.
  induction n as [|n IH]; intros cur L; cbn [search_lines].
  - exists None. split; [reflexivity|]. intros m H. lia.
  - destruct (nth_error content cur) as [line|] eqn:E; [|apply nth_error_None in E; lia].
    destruct (last_in_line k line) as (r & R & H). rewrite R. cbn [obind]. destruct r as [p|].
    + exists (Some (cur, p)). split; [reflexivity|]. split.
      * split; [lia|]. split; [exists line, p; split; [exact E|exact (proj1 H)]|]. intros m M. lia.
      * split; [reflexivity|]. exists line. split; [exact E|exact H].
    + assert (N : ~ has k content cur).
      { intros (line' & i & E' & O). rewrite E in E'. injection E' as <-. exact (H _ O). }
      destruct (IH (S cur)) as (r & R' & H'); [lia|]. exists r. split; [exact R'|]. destruct r as [[l p]|].
      * destruct H' as ((A & B & C) & D). split; [|exact D]. split; [lia|]. split; [exact B|]. intros m M.
        destruct (Nat.eq_dec m cur) as [->|M']; [exact N|]. apply C. lia.
      * intros m M. destruct (Nat.eq_dec m cur) as [->|M']; [exact N|]. apply H'. lia.
Qed.
Definition from (b : bounds) : nat := bo_start b + bo_index b.
Lemma query_data_spec k content b : bo_end b <= length content ->
  exists b' r, get_query_data k content b = Ok (b', r) /\ bo_start b' = bo_start b /\ bo_end b' = bo_end b /\
    match r with
    | Some (l, p) => first_with k content (from b) (bo_end b) l /\ hit k content l (l, p) /\ from b' = S l
    | None => b' = b /\ forall m, from b <= m < bo_end b -> ~ has k content m
    end.
Proof.
  intros L. unfold get_query_data, from. destruct (Nat.leb_spec (bo_end b) (bo_index b)) as [Z|Z].
  { exists b, None. split; [reflexivity|]. split; [reflexivity|]. split; [reflexivity|]. split; [reflexivity|]. intros m M. lia. }
  destruct (Nat.le_gt_cases (bo_end b) (bo_start b + bo_index b)) as [G|G].
  - replace (bo_end b - (bo_start b + bo_index b)) with 0 by lia. cbn [search_lines obind].
    exists b, None. split; [reflexivity|]. split; [reflexivity|]. split; [reflexivity|]. split; [reflexivity|]. intros m M. lia.
  - destruct (search_spec k content (bo_end b - (bo_start b + bo_index b)) (bo_start b + bo_index b)) as (r & R & H); [lia|].
    rewrite R. cbn [obind]. replace (bo_start b + bo_index b + (bo_end b - (bo_start b + bo_index b))) with (bo_end b) in H by lia.
    destruct r as [[l p]|].
    + destruct H as (A & B). exists (BO (bo_start b) (bo_end b) (l + 1 - bo_start b)), (Some (l, p)).
      split; [reflexivity|]. split; [reflexivity|]. split; [reflexivity|]. split; [exact A|]. split; [exact B|]. cbn.
      destruct A as (A & _). lia.
    + exists b, None. split; [reflexivity|]. split; [reflexivity|]. split; [reflexivity|]. split; [reflexivity|exact H].
Qed.
Lemma hit_unique k content n r1 r2 : hit k content n r1 -> hit k content n r2 -> r1 = r2.
Proof.
  destruct r1 as [a b], r2 as [c d]. intros (A & l1 & B & C) (D & l2 & E & F). cbn in *. subst a c.
  rewrite B in E. injection E as <-. f_equal. eapply last_unique; eauto.
Qed.

(* ---- repeated queries ---- *)
Fixpoint queries (n : nat) (k : text) (content : list text) (b : bounds) : outcome (list (option (nat * nat))) :=
  match n with
  | O => Ok []
  | S n' => obind (get_query_data k content b) (fun x => obind (queries n' k content (fst x)) (fun rs => Ok (snd x :: rs)))
  end.
Lemma lines_nil k content lo hi : lines_with k content lo hi [] -> forall m, lo <= m < hi -> ~ has k content m.
Proof. intros (_ & H) m M K. apply (proj2 (H m)). split; assumption. Qed.
Lemma lines_cons k content lo hi n l : lines_with k content lo hi (n :: l) ->
  first_with k content lo hi n /\ lines_with k content (S n) hi l.
Proof.
  intros (S & H). inversion S as [|? ? S' F]; subst. rewrite Forall_forall in F. split.
  - destruct (proj1 (H n)) as (A & B); [left; reflexivity|]. split; [exact A|]. split; [exact B|]. intros m M K.
    destruct (proj2 (H m)) as [E|E]; [split; [lia|exact K]|lia|]. apply F in E. lia.
  - split; [exact S'|]. intros m. split.
    + intros I. pose proof (F _ I). destruct (proj1 (H m)) as (A & B); [right; exact I|]. split; [lia|exact B].
    + intros (A & B). destruct (proj1 (H n)) as (C & _); [left; reflexivity|].
      destruct (proj2 (H m)) as [E|E]; [split; [lia|exact B]|lia|exact E].
Qed.
Lemma first_unique k content lo hi a b : first_with k content lo hi a -> first_with k content lo hi b -> a = b.
Proof.
  intros (A & B & C) (D & E & F). destruct (Nat.lt_trichotomy a b) as [G|[G|G]]; [|exact G|].
  - exfalso. apply (F a); [lia|exact B].
  - exfalso. apply (C b); [lia|exact E].
Qed.
Lemma queries_none k content b : bo_end b <= length content -> (forall m, from b <= m < bo_end b -> ~ has k content m) ->
  forall n, queries n k content b = Ok (repeat None n).
Proof.
  intros L H. induction n as [|n IH]; [reflexivity|]. cbn [queries].
  destruct (query_data_spec k content b L) as (b' & r & E & _ & _ & R). rewrite E. cbn [obind fst snd].
  destruct r as [[l p]|]; [destruct R as ((A & B & _) & _); exfalso; exact (H _ A B)|]. destruct R as (-> & _). rewrite IH. reflexivity.
Qed.
Lemma queries_spec k content l : forall b, bo_end b <= length content -> lines_with k content (from b) (bo_end b) l ->
  exists rs, Forall2 (hit k content) l rs /\ forall n, queries n k content b = Ok (map Some (firstn n rs) ++ repeat None (n - length rs)).
Proof.
  induction l as [|a l IH]; intros b L H.
  - exists []. split; [constructor|]. intros n. rewrite (queries_none k content b L (lines_nil _ _ _ _ H)), firstn_nil. cbn. rewrite Nat.sub_0_r. reflexivity.
  - apply lines_cons in H as (F & H). destruct (query_data_spec k content b L) as (b' & r & E & B1 & B2 & R).
    destruct r as [[m p]|]; [|destruct R as (_ & R); destruct F as (A & B & _); exfalso; exact (R _ A B)].
    destruct R as (G & I & J). pose proof (first_unique _ _ _ _ _ _ F G) as <-.
    destruct (IH b') as (rs & F2 & K); [lia|rewrite J, B2; exact H|].
    exists ((a, p) :: rs). split; [constructor; assumption|]. intros [|n]; [reflexivity|].
    cbn [queries]. rewrite E. cbn [obind fst snd]. rewrite K. reflexivity.
Qed.

(* ---- the text of a value ---- *)
Lemma dropped_iff c s t : dropped c s t <-> t = without c s.
Proof.
  split.
  - intros H. induction H as [|s t _ IH|a s t N _ IH]; [reflexivity| |]; cbn [without filter].
    + rewrite Ascii.eqb_refl. exact IH.
    + destruct (Ascii.eqb_spec a c); [contradiction|]. cbn [negb]. rewrite IH. reflexivity.
  - intros ->. induction s as [|a s IH]; [constructor|]. cbn [without filter]. destruct (Ascii.eqb_spec a c) as [->|N]; cbn [negb].
    + constructor. exact IH.
    + constructor; assumption.
Qed.
Lemma upto_iff c s t : upto c s t <-> t = before c s.
Proof.
  split.
  - intros (N & H). revert s H. induction t as [|a t IH]; intros s [->|(r & ->)].
    + reflexivity.
    + cbn [app before]. rewrite Ascii.eqb_refl. reflexivity.
    + cbn [before]. destruct (Ascii.eqb_spec a c) as [->|N']; [exfalso; apply N; left; reflexivity|]. f_equal.
      apply IH; [intros I; apply N; right; exact I|left; reflexivity].
    + cbn [app before]. destruct (Ascii.eqb_spec a c) as [->|N']; [exfalso; apply N; left; reflexivity|]. f_equal.
      apply IH; [intros I; apply N; right; exact I|right; exists r; reflexivity].
  - intros ->. induction s as [|a s IH]; cbn [before]; [split; [intros []|left; reflexivity]|].
    destruct (Ascii.eqb_spec a c) as [->|N]; [split; [intros []|right; exists s; reflexivity]|].
    destruct IH as (A & B). split; [intros [E|E]; [subst; exact (N eq_refl)|exact (A E)]|].
    destruct B as [B|(r & B)]; [left; f_equal; exact B|right; exists r; cbn [app]; f_equal; exact B].
Qed.
Lemma skip_app {A} (a b : list A) : skipn (length a) (a ++ b) = b.
Proof. induction a; [reflexivity|assumption]. Qed.
Lemma value_text_spec k line p : last_at k line p -> forall t, value_of k line t <-> t = value_text k line p.
Proof.
  intros L t. unfold value_text. pose proof L as ((a & b & E & F) & _). split.
  - intros (a' & rest & u & E' & L' & U & D). pose proof (last_unique _ _ _ _ L L') as Z.
    apply dropped_iff in D. apply upto_iff in U. subst t u. rewrite Z, E'. do 2 f_equal. rewrite app_assoc, <- app_length, skip_app. reflexivity.
  - intros ->. exists a, b, (before comment (skipn (p + length k) line)). split; [exact E|]. split; [rewrite F; exact L|]. split.
    + apply upto_iff. f_equal. rewrite E, <- F, <- app_length, app_assoc, skip_app. reflexivity.
    + apply dropped_iff. reflexivity.
Qed.
Lemma unbracketed_iff c t : unbracketed c t <-> t = clean_cell c.
Proof.
  split.
  - intros (t1 & t2 & t3 & A & B & C & D). apply dropped_iff in A, B, C, D. subst. reflexivity.
  - intros ->. do 3 eexists. split; [apply dropped_iff; reflexivity|]. split; [apply dropped_iff; reflexivity|].
    split; [apply dropped_iff; reflexivity|apply dropped_iff; reflexivity].
Qed.

(* ---- blocks ---- *)
Fixpoint block_queries (n : nat) (k1 k2 : text) (content : list text) (b : block) : outcome (list (option (nat * nat))) :=
  match n with
  | O => Ok []
  | S n' => obind (query_block k1 k2 content b) (fun x =>
            obind (block_queries n' k1 k2 content (fst x)) (fun rs =>
            Ok ((if snd x then Some (bo_start (bk_b (fst x)), bo_end (bk_b (fst x))) else None) :: rs)))
  end.
Definition restart (content : list text) (b : bounds) : bounds :=
  if Nat.ltb (bo_end b) (length content) then BO (bo_end b) (length content) 0 else b.
Lemma restart_end content b : bo_end b <= length content -> bo_end (restart content b) = length content.
Proof. intros L. unfold restart. destruct (Nat.ltb_spec (bo_end b) (length content)); [reflexivity|lia]. Qed.
Lemma restart_id content b : bo_end b = length content -> restart content b = b.
Proof. intros L. unfold restart. rewrite L, Nat.ltb_irrefl. reflexivity. Qed.
(* one query of a block *)
Lemma query_block_spec k1 k2 content b : bo_end (bk_b b) <= length content ->
  let lo := from (restart content (bk_b b)) in
  exists b' r, query_block k1 k2 content b = Ok (b', r) /\
    if r then exists l1 l2, first_with k1 content lo (length content) l1 /\ first_with k2 content (S l1) (length content) l2 /\
                bo_start (bk_b b') = l1 /\ bo_end (bk_b b') = l2 /\ bk_paras b' = map (fun _ => BO l1 l2 0) (bk_paras b)
    else (forall x y, lo <= x < y -> has k1 content x -> has k2 content y -> False) /\
         bo_end (bk_b b') = length content /\ lo <= from (bk_b b') /\ bk_paras b' = bk_paras b.
Proof.
  intros L lo. unfold query_block. fold (restart content (bk_b b)). subst lo. set (b0 := restart content (bk_b b)).
  assert (E0 : bo_end b0 = length content) by (apply restart_end, L). clearbody b0.
  destruct (query_data_spec k1 content b0) as (b1 & r1 & Q1 & S1 & N1 & R1); [lia|]. rewrite Q1. cbn [obind fst snd].
  assert (IN : forall k m, has k content m -> m < length content).
  { intros k m (line & i & X & _). apply nth_error_Some. rewrite X. discriminate. }
  destruct r1 as [[l1 p1]|].
  - destruct R1 as (F1 & H1 & I1). destruct (query_data_spec k2 content b1) as (b2 & r2 & Q2 & S2 & N2 & R2); [lia|].
    rewrite Q2. cbn [obind fst snd]. destruct r2 as [[l2 p2]|].
    + destruct R2 as (F2 & H2 & I2). eexists; exists true. split; [reflexivity|]. exists l1, l2.
      rewrite E0 in F1. rewrite N1, E0, I1 in F2. split; [exact F1|]. split; [exact F2|]. cbn. repeat split.
    + destruct R2 as (-> & R2). eexists; exists false. split; [reflexivity|]. split; [|cbn [bk_b bk_paras]; split; [lia|]].
      * intros x y XY X Y. destruct F1 as (A & B & C). destruct (Nat.lt_ge_cases x l1) as [Z|Z]; [apply (C x); [lia|exact X]|].
        apply (R2 y); [|exact Y]. rewrite I1, N1, E0. pose proof (IN _ _ Y). lia.
      * split; [|reflexivity]. destruct F1 as (A & _). lia.
  - destruct R1 as (-> & R1). eexists; exists false. split; [reflexivity|]. split; [|cbn [bk_b bk_paras]; split; [exact E0|split; [lia|reflexivity]]].
    intros x y XY X Y. apply (R1 x); [|exact X]. rewrite E0. pose proof (IN _ _ X). lia.
Qed.
Lemma block_queries_none k1 k2 content n : forall b, bo_end (bk_b b) <= length content ->
  (forall x y, from (restart content (bk_b b)) <= x < y -> has k1 content x -> has k2 content y -> False) ->
  block_queries n k1 k2 content b = Ok (repeat None n).
Proof.
  induction n as [|n IH]; intros b L H; [reflexivity|]. cbn [block_queries].
  destruct (query_block_spec k1 k2 content b L) as (b' & r & Q & R). rewrite Q. cbn [obind fst snd]. destruct r.
  - destruct R as (l1 & l2 & (A & B & _) & (C & D & _) & _). exfalso. apply (H l1 l2); [lia|exact B|exact D].
  - destruct R as (_ & E & F & _). rewrite IH; [reflexivity|lia|]. rewrite restart_id by exact E. intros x y XY. apply H. lia.
Qed.
Lemma block_queries_spec k1 k2 content lo l : blocks k1 k2 content lo l ->
  forall b, bo_end (bk_b b) <= length content -> from (restart content (bk_b b)) = lo ->
  forall n, block_queries n k1 k2 content b = Ok (map Some (firstn n l) ++ repeat None (n - length l)).
Proof.
  intros H. induction H as [lo H|lo l1 l2 rest F1 F2 _ IH]; intros b L E n.
  - rewrite firstn_nil. cbn [map app length]. rewrite Nat.sub_0_r. apply block_queries_none; [exact L|]. rewrite E. exact H.
  - destruct n as [|n]; [reflexivity|]. cbn [block_queries]. destruct (query_block_spec k1 k2 content b L) as (b' & r & Q & R).
    rewrite Q. cbn [obind fst snd]. rewrite E in R. destruct r.
    + destruct R as (x1 & x2 & G1 & G2 & A & B & _). pose proof (first_unique _ _ _ _ _ _ F1 G1) as <-.
      pose proof (first_unique _ _ _ _ _ _ F2 G2) as <-. destruct F2 as ((_ & F2) & _).
      rewrite IH; [rewrite A, B; reflexivity|lia|]. unfold restart. rewrite B. destruct (Nat.ltb_spec l2 (length content)) as [Z|Z]; [|exfalso; lia].
      unfold from. cbn [bo_start bo_index]. lia.
    + destruct R as (R & _). destruct F1 as (A & B & _), F2 as (C & D & _). exfalso. apply (R l1 l2); [lia|exact B|exact D].
Qed.

(* ---- only the lines of the block matter ---- *)
Lemma search_agree k c1 c2 : forall n cur, agree cur (cur + n) c1 c2 -> search_lines n cur k c1 = search_lines n cur k c2.
Proof.
  induction n as [|n IH]; intros cur A; [reflexivity|]. cbn [search_lines]. rewrite (A cur) by lia.
  rewrite (IH (S cur)); [reflexivity|]. intros m M. apply A. lia.
Qed.
Lemma query_agree k c1 c2 b : agree (bo_start b) (bo_end b) c1 c2 -> get_query_data k c1 b = get_query_data k c2 b.
Proof.
  intros A. unfold get_query_data. rewrite (search_agree k c1 c2); [reflexivity|]. intros m M. apply A. lia.
Qed.
Lemma search_range k c : forall n cur l p, search_lines n cur k c = Ok (Some (l, p)) -> cur <= l < cur + n.
Proof.
  induction n as [|n IH]; intros cur l p H; [discriminate|]. cbn [search_lines] in H. destruct (nth_error c cur) as [line|]; [|discriminate].
  destruct (last_occurrence _ k line 0 None) as [[i|]| |]; try discriminate; cbn [obind] in H.
  - injection H as <- _. lia.
  - apply IH in H. lia.
Qed.
Lemma query_range k c b b' l p : get_query_data k c b = Ok (b', Some (l, p)) ->
  bo_start b <= l < bo_end b /\ bo_start b' = bo_start b /\ bo_end b' = bo_end b.
Proof.
  unfold get_query_data. destruct (Nat.leb (bo_end b) (bo_index b)); [discriminate|].
  destruct (search_lines _ _ k c) as [[[l' p']|]| |] eqn:E; try discriminate. cbn [obind].
  apply search_range in E. intros H. injection H as <- -> ->. cbn. split; [lia|split; reflexivity].
Qed.
Lemma rows_agree lo hi a n c1 c2 : agree lo hi c1 c2 -> lo <= a -> a + n <= hi -> firstn n (skipn a c1) = firstn n (skipn a c2).
Proof.
  intros A L1 L2. revert a L1 L2. induction n as [|n IH]; intros a L1 L2; [reflexivity|].
  assert (SK : forall c : list text, firstn (S n) (skipn a c) = match nth_error c a with Some x => x :: firstn n (skipn (S a) c) | None => [] end).
  { clear. intros c. revert a. induction c as [|y c IHc]; intros [|a]; try reflexivity. cbn [skipn nth_error].
    rewrite IHc. destruct (nth_error c a); reflexivity. }
  rewrite !SK, (A a) by lia. destruct (nth_error c2 a); [|reflexivity]. f_equal. apply IH; lia.
Qed.
