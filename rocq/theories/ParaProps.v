(* Properties of the parameter file reader: C40 (queries) and C41 (matrices). *)
From Coq Require Import Ascii String Sorted Lia.
From Verif Require Import Base BdryProofs CsvModel CsvProofs ParaModel ParaSpec ParaProofs ParaMatrix.
Open Scope nat_scope.
Definition txt (s : string) : text := list_ascii_of_string s.
Definition a_file : list text :=
  map txt ["size: 1"; "name: a"; "size: 2 # size: 7"; "other"; "size: x"; "size : 9"; "size: 1 2"]%string.
Definition key : text := txt "size:"%string.

(* C40: n queries in a row give the lines of the block that contain the key, in file
   order and each once, with the position of the last key of the line; after that every
   query fails. *)
Theorem C40_enumeration k content b l :
  bo_end b <= length content -> lines_with k content (bo_start b + bo_index b) (bo_end b) l ->
  exists rs, Forall2 (hit k content) l rs /\
    forall n, queries n k content b = Ok (map Some (firstn n rs) ++ repeat None (n - length rs)).
Proof. intros L H. apply (queries_spec k content l b L H). Qed.
(* the list of lines exists for every file, key and range *)
Lemma lines_exist k content lo hi : exists l, lines_with k content lo hi l.
Proof.
  assert (dec : forall m, {has k content m} + {~ has k content m}).
  { intros m. destruct (nth_error content m) as [line|] eqn:E.
    - pose proof (str_find_spec k line 0) as F. destruct (str_find k line 0) as [j|].
      + left. exists line, j. split; [exact E|apply F].
      + right. intros (line' & i & E' & O). rewrite E in E'. injection E' as <-. exact (F i (Nat.le_0_l _) O).
    - right. intros (line & i & E' & _). rewrite E in E'. discriminate. }
  exists (filter (fun m => if dec m then true else false) (seq lo (hi - lo))). split.
  - assert (G : forall n s, StronglySorted lt (filter (fun m => if dec m then true else false) (seq s n))).
    { induction n as [|n IH]; intros s; [constructor|]. cbn [seq filter]. destruct (dec s); [|apply IH]. constructor; [apply IH|].
      apply Forall_forall. intros x X. apply filter_In in X as (X & _). apply in_seq in X. lia. }
    apply G.
  - intros m. rewrite filter_In, in_seq. destruct (dec m) as [Y|Y]; split.
    + intros (A & _). split; [lia|exact Y].
    + intros (A & _). split; [lia|reflexivity].
    + intros (_ & A). discriminate.
    + intros (_ & A). contradiction.
Qed.
Example C40_enumeration_ex : exists l rs, lines_with key a_file 0 7 l /\ Forall2 (hit key a_file) l rs /\ rs = [(0, 0); (2, 10); (4, 0); (6, 0)] /\
  queries 6 key a_file (BO 0 7 0) = Ok (map Some rs ++ [None; None]).
Proof.
  destruct (lines_exist key a_file 0 7) as (l & H). destruct (C40_enumeration key a_file (BO 0 7 0) l) as (rs & F & Q); [cbn; lia|exact H|].
  exists l, rs. split; [exact H|]. split; [exact F|].
  assert (E : queries 6 key a_file (BO 0 7 0) = Ok (map Some [(0, 0); (2, 10); (4, 0); (6, 0)] ++ [None; None])) by (vm_compute; reflexivity).
  rewrite Q in E. assert (R : rs = [(0, 0); (2, 10); (4, 0); (6, 0)]); [|split; [exact R|rewrite Q, R; reflexivity]].
  clear - E. injection E as E. destruct rs as [|r0 [|r1 [|r2 [|r3 [|r4 rs]]]]]; cbn in E; try discriminate. injection E as -> -> -> ->. reflexivity.
Qed.

(* C40: the value of a scalar parameter: from the next line with the key, the text behind
   its last key up to a comment and without blanks.  If it cannot be converted the query
   fails, but the line is used up. *)
Theorem C40_scalar T conv k content (p : para T) n line t :
  bo_end (pr_b p) <= length content -> 0 < pr_ncol p * pr_nrow p -> length (pr_vals p) = pr_ncol p * pr_nrow p ->
  first_with k content (bo_start (pr_b p) + bo_index (pr_b p)) (bo_end (pr_b p)) n ->
  nth_error content n = Some line -> value_of k line t ->
  exists p' r, query_scalar T conv k content p = Ok (p', r) /\
    bo_start (pr_b p') = bo_start (pr_b p) /\ bo_end (pr_b p') = bo_end (pr_b p) /\ bo_start (pr_b p') + bo_index (pr_b p') = S n /\
    match conv t with
    | Some v => r = true /\ pr_found p' = true /\ get_value p' 0 0 = Some v
    | None => r = false /\ pr_found p' = pr_found p /\ pr_vals p' = pr_vals p
    end.
Proof.
  intros L NZ S F E V. unfold query_scalar.
  destruct (query_data_spec k content (pr_b p) L) as (b' & r & Q & B1 & B2 & R). rewrite Q. cbn [obind fst snd].
  destruct r as [[m q]|]; [|destruct R as (_ & R); destruct F as (A & B & _); exfalso; exact (R _ A B)].
  destruct R as (G & (_ & line' & E' & H) & I). pose proof (first_unique _ _ _ _ _ _ F G) as <-. cbn [snd] in H. rewrite E in E'. injection E' as <-.
  rewrite E. apply (value_text_spec k line q H) in V as <-. destruct (conv t) as [v|].
  - eexists; exists true. split; [reflexivity|]. cbn [is_found pr_b]. unfold set_value, with_bounds. cbn [pr_ncol pr_nrow pr_vals pr_b pr_found].
    destruct (Nat.leb_spec (pr_ncol p * pr_nrow p) 0) as [Z|_]; [lia|]. cbn [is_found pr_b pr_found]. split; [exact B1|]. split; [exact B2|].
    split; [exact I|]. split; [reflexivity|]. split; [reflexivity|]. unfold get_value. cbn [is_found pr_ncol pr_nrow pr_vals Nat.mul Nat.add].
    destruct (Nat.leb_spec (pr_ncol p * pr_nrow p) 0) as [Z|_]; [lia|]. destruct (pr_vals p); [cbn in S; lia|]. reflexivity.
  - eexists; exists false. split; [reflexivity|]. cbn [with_bounds pr_b pr_found pr_vals].
    split; [exact B1|]. split; [exact B2|]. split; [exact I|]. split; [reflexivity|]. split; reflexivity.
Qed.
(* without a further line with the key the query fails and nothing changes *)
Theorem C40_scalar_end T conv k content (p : para T) :
  bo_end (pr_b p) <= length content -> (forall m, bo_start (pr_b p) + bo_index (pr_b p) <= m < bo_end (pr_b p) -> ~ has k content m) ->
  query_scalar T conv k content p = Ok (p, false).
Proof.
  intros L H. unfold query_scalar. destruct (query_data_spec k content (pr_b p) L) as (b' & r & Q & _ & _ & R). rewrite Q. cbn [obind fst snd].
  destruct r as [[m q]|]; [destruct R as ((A & B & _) & _); exfalso; exact (H _ A B)|]. destruct R as (-> & _). destruct p; reflexivity.
Qed.
Example C40_scalar_ex : match query_scalar Z stoi key a_file (PR (BO 0 7 3) false 1 1 [0%Z]) with
  | Ok (p, r) => r = false /\ bo_index (pr_b p) = 5 | _ => False end /\
  match query_scalar Z stoi key a_file (PR (BO 0 7 5) false 1 1 [0%Z]) with
  | Ok (p, r) => r = true /\ get_value p 0 0 = Some 12%Z /\ bo_index (pr_b p) = 7 | _ => False end.
Proof. vm_compute. repeat split. Qed.
Example C40_value_ex : value_of key (txt "size: 2 3 # rest"%string) (txt "23"%string).
Proof.
  exists [], (txt " 2 3 # rest"%string), (txt " 2 3 "%string). split; [reflexivity|]. split.
  - pose proof (last_in_line key (txt "size: 2 3 # rest"%string)) as (r & E & H). vm_compute in E. injection E as <-. exact H.
  - split; [apply upto_iff; reflexivity|apply dropped_iff; reflexivity].
Qed.

(* C40 as stated is false: a query can fail although a later line gives a value; the
   value comes from a key inside a comment; keys in longer words count *)
Theorem C40_refuted : exists (content : list text) (k : text) (p0 p1 : para Z),
  query_scalar Z stoi k content p0 = Ok (p1, false) /\
  match query_scalar Z stoi k content p1 with Ok (p2, r) => r = true /\ get_value p2 0 0 = Some 5%Z | _ => False end.
Proof.
  exists (map txt ["size: small"; "size: 5"]%string), key, (PR (BO 0 2 0) false 1 1 [0%Z]), (PR (BO 0 2 1) false 1 1 [0%Z]).
  vm_compute. repeat split.
Qed.
Theorem C40_comment_refuted : exists (content : list text) (k line : text),
  nth_error content 0 = Some line /\ line = txt "size: 2 # before: size: 7"%string /\
  match query_scalar Z stoi k content (PR (BO 0 1 0) false 1 1 [0%Z]) with Ok (p, r) => r = true /\ get_value p 0 0 = Some 7%Z | _ => False end.
Proof.
  exists [txt "size: 2 # before: size: 7"%string], key, (txt "size: 2 # before: size: 7"%string). vm_compute. repeat split.
Qed.
Theorem C40_substring_refuted : exists content : list text,
  content = [txt "oversize: 3"%string] /\
  match query_scalar Z stoi key content (PR (BO 0 1 0) false 1 1 [0%Z]) with Ok (p, r) => r = true /\ get_value p 0 0 = Some 3%Z | _ => False end.
Proof. exists [txt "oversize: 3"%string]. vm_compute. repeat split. Qed.

(* C40: vectors: the first values of the line, one for each column *)
Theorem C40_vector T conv k d content (p : para T) n line t vs :
  bo_end (pr_b p) <= length content -> pr_nrow p = 1 -> length (pr_vals p) = pr_ncol p ->
  first_with k content (bo_start (pr_b p) + bo_index (pr_b p)) (bo_end (pr_b p)) n ->
  nth_error content n = Some line -> value_of k line t -> row_of conv t vs -> pr_ncol p <= length vs ->
  exists p', query_vector T conv k d content p = Ok (p', true) /\ pr_found p' = true /\
    forall i, i < pr_ncol p -> get_value p' i 0 = nth_error vs i.
Proof.
  intros L R1 S F E V W LE. unfold query_vector.
  destruct (query_data_spec k content (pr_b p) L) as (b' & r & Q & B1 & B2 & R). rewrite Q. cbn [obind fst snd].
  destruct r as [[m q]|]; [|destruct R as (_ & R); destruct F as (A & B & _); exfalso; exact (R _ A B)].
  destruct R as (G & (_ & line' & E' & H) & I). pose proof (first_unique _ _ _ _ _ _ F G) as <-. cbn [snd] in H. rewrite E in E'. injection E' as <-.
  rewrite E. apply (value_text_spec k line q H) in V as <-. cbn [with_bounds pr_ncol].
  assert (O : line_values T conv d (pr_ncol p) t = vs).
  { apply row_values; assumption. }
  rewrite O. destruct (Nat.ltb_spec (length vs) (pr_ncol p)) as [Z|_]; [lia|]. eexists. split; [reflexivity|]. split; [reflexivity|].
  assert (LF : length (firstn (pr_ncol p) vs) = pr_ncol p) by (rewrite firstn_length; lia).
  rewrite set_values_spec; [|unfold shaped; cbn; rewrite R1; lia|cbn; rewrite R1; lia].
  intros i Hi. unfold get_value. cbn [is_found with_bounds pr_ncol pr_nrow pr_vals firstn app Nat.mul Nat.add]. rewrite R1.
  destruct (Nat.leb_spec (pr_ncol p * 1) i) as [Z|_]; [lia|]. rewrite nth_error_app1 by lia.
  clear - Hi. revert i Hi vs. induction (pr_ncol p) as [|c IH]; intros i Hi vs; [lia|]. destruct vs as [|v vs]; [destruct i; reflexivity|].
  destruct i as [|i]; [reflexivity|]. cbn [firstn nth_error]. apply IH. lia.
Qed.
(* a line with fewer values is not accepted, the stored values stay *)
Theorem C40_vector_short T conv k content (p : para T) n line t vs :
  bo_end (pr_b p) <= length content ->
  first_with k content (bo_start (pr_b p) + bo_index (pr_b p)) (bo_end (pr_b p)) n ->
  nth_error content n = Some line -> value_of k line t -> row_of conv t vs -> length vs < pr_ncol p ->
  exists p', query_vector T conv k None content p = Ok (p', false) /\ pr_found p' = pr_found p /\ pr_vals p' = pr_vals p.
Proof.
  intros L F E V W LT. unfold query_vector.
  destruct (query_data_spec k content (pr_b p) L) as (b' & r & Q & B1 & B2 & R). rewrite Q. cbn [obind fst snd].
  destruct r as [[m q]|]; [|destruct R as (_ & R); destruct F as (A & B & _); exfalso; exact (R _ A B)].
  destruct R as (G & (_ & line' & E' & H) & I). pose proof (first_unique _ _ _ _ _ _ F G) as <-. cbn [snd] in H. rewrite E in E'. injection E' as <-.
  rewrite E. apply (value_text_spec k line q H) in V as <-. cbn [with_bounds pr_ncol].
  assert (O : line_values T conv None (pr_ncol p) t = vs).
  { change (line_values T conv None 0 t = vs). apply row_values; [exact W|lia]. }
  rewrite O. destruct (Nat.ltb_spec (length vs) (pr_ncol p)) as [_|Z]; [|lia]. eexists. split; [reflexivity|]. split; reflexivity.
Qed.
Example C40_vector_ex : match query_vector Z stoi (txt "v:"%string) None (map txt ["v: (1, 2), [3]"]%string) (PR (BO 0 1 0) false 2 1 [0%Z; 0%Z]) with
  | Ok (p, r) => r = true /\ get_value p 0 0 = Some 1%Z /\ get_value p 1 0 = Some 2%Z | _ => False end.
Proof. vm_compute. repeat split. Qed.

Example C40_short_ex : match query_vector Z stoi (txt "v:"%string) None (map txt ["v: 1, 2"]%string) (PR (BO 0 1 0) false 3 1 [7; 8; 9]%Z) with
  | Ok (p, r) => r = false /\ pr_vals p = [7; 8; 9]%Z | _ => False end.
Proof. vm_compute. repeat split. Qed.

(* C40: nothing outside the block of a parameter is read *)
Theorem C40_local T conv init k k2 d c1 c2 (p : para T) : agree (bo_start (pr_b p)) (bo_end (pr_b p)) c1 c2 ->
  query_scalar T conv k c1 p = query_scalar T conv k c2 p /\
  query_vector T conv k d c1 p = query_vector T conv k d c2 p /\
  query_matrix T conv init k k2 d c1 p = query_matrix T conv init k k2 d c2 p.
Proof.
  intros A. split; [|split].
  - unfold query_scalar. rewrite (query_agree k c1 c2 _ A). destruct (get_query_data k c2 (pr_b p)) as [[b [[l q]|]]| |] eqn:E; try reflexivity.
    cbn [obind fst snd]. apply query_range in E as (E & _). rewrite (A l E). reflexivity.
  - unfold query_vector. rewrite (query_agree k c1 c2 _ A). destruct (get_query_data k c2 (pr_b p)) as [[b [[l q]|]]| |] eqn:E; try reflexivity.
    cbn [obind fst snd]. apply query_range in E as (E & _). rewrite (A l E). reflexivity.
  - unfold query_matrix. rewrite (query_agree k c1 c2 _ A). destruct (get_query_data k c2 (pr_b p)) as [[b [[l q]|]]| |] eqn:E; try reflexivity.
    cbn [obind fst snd with_bounds pr_b]. apply query_range in E as (E & B1 & B2).
    rewrite (query_agree k2 c1 c2 b) by (rewrite B1, B2; exact A).
    destruct (get_query_data k2 c2 b) as [[b' [[l' q']|]]| |] eqn:E'; try reflexivity. cbn [obind fst snd].
    apply query_range in E' as (E' & _). rewrite B1, B2 in E'.
    assert (RW : firstn (l' - (l + 1)) (skipn (l + 1) c1) = firstn (l' - (l + 1)) (skipn (l + 1) c2)).
    { destruct (Nat.le_gt_cases l' (l + 1)) as [Z|Z]; [replace (l' - (l + 1)) with 0 by lia; reflexivity|].
      apply (rows_agree (bo_start (pr_b p)) (bo_end (pr_b p))); [exact A|lia|lia]. }
    rewrite RW. reflexivity.
Qed.
Example C40_local_ex : agree 1 3 a_file (map txt ["changed"; "name: a"; "size: 2 # size: 7"]%string) /\
  a_file <> map txt ["changed"; "name: a"; "size: 2 # size: 7"]%string.
Proof. split; [|discriminate]. intros n H. destruct n as [|[|[|n]]]; try lia; reflexivity. Qed.

(* C40: queries of a block of the file give its occurrences one after the other *)
Theorem C40_blocks k1 k2 content l b : blocks k1 k2 content 0 l -> bk_b b = BO 0 (length content) 0 ->
  forall n, block_queries n k1 k2 content b = Ok (map Some (firstn n l) ++ repeat None (n - length l)).
Proof.
  intros H E n. apply (block_queries_spec k1 k2 content 0 l H); rewrite E; [cbn; lia|].
  rewrite restart_id; reflexivity.
Qed.
(* and set the lines in which its parameters are looked for *)
Theorem C40_block_parameters k1 k2 content b b' : bo_end (bk_b b) <= length content -> query_block k1 k2 content b = Ok (b', true) ->
  exists l1 l2, l1 < l2 < length content /\ has k1 content l1 /\ has k2 content l2 /\ (forall m, l1 < m < l2 -> ~ has k2 content m) /\
    bo_start (bk_b b') = l1 /\ bo_end (bk_b b') = l2 /\ bk_paras b' = map (fun _ => BO l1 l2 0) (bk_paras b).
Proof.
  intros L Q. destruct (query_block_spec k1 k2 content b L) as (b1 & r & Q' & R). rewrite Q in Q'. injection Q' as <- <-.
  destruct R as (l1 & l2 & (A & B & _) & (C & D & E) & F & G & H). exists l1, l2. split; [lia|]. split; [exact B|]. split; [exact D|].
  split; [intros m M; apply E; lia|]. split; [exact F|]. split; [exact G|exact H].
Qed.
Definition two_blocks : list text := map txt ["begin"; "size: 1"; "end"; "size: 4"; "begin"; "end"; "begin"]%string.
Example C40_blocks_ex : block_queries 3 (txt "begin"%string) (txt "end"%string) two_blocks (BK (BO 0 7 0) [BO 0 7 0]) = Ok [Some (0, 2); Some (4, 5); None].
Proof. vm_compute. reflexivity. Qed.
Lemma has_here k content n line i : nth_error content n = Some line -> str_find k line 0 = Some i -> has k content n.
Proof. intros E F. exists line, i. split; [exact E|]. pose proof (str_find_spec k line 0) as H. rewrite F in H. apply H. Qed.
Lemma has_not k content n : match nth_error content n with Some line => str_find k line 0 = None | None => True end -> ~ has k content n.
Proof.
  intros H (line & i & E & O). rewrite E in H. pose proof (str_find_spec k line 0) as F. rewrite H in F. exact (F i (Nat.le_0_l _) O).
Qed.
Example C40_blocks_ex' : blocks (txt "begin"%string) (txt "end"%string) two_blocks 0 [(0, 2); (4, 5)].
Proof.
  apply bl_next; [| |apply bl_next; [| |apply bl_none]].
  - split; [cbn; lia|]. split; [eapply has_here; vm_compute; reflexivity|]. intros m M. lia.
  - split; [cbn; lia|]. split; [eapply has_here; vm_compute; reflexivity|]. intros m M. assert (m = 1) as -> by lia. apply has_not. vm_compute. reflexivity.
  - split; [cbn; lia|]. split; [eapply has_here; vm_compute; reflexivity|]. intros m M. assert (m = 2 \/ m = 3) as [ -> | -> ] by lia; apply has_not; vm_compute; reflexivity.
  - split; [cbn; lia|]. split; [eapply has_here; vm_compute; reflexivity|]. intros m M. lia.
  - intros a b AB A B. assert (BL : b < 7) by (destruct B as (line & i & B & _); change 7 with (length two_blocks); apply nth_error_Some; rewrite B; discriminate).
    assert (b = 6) as -> by (destruct (Nat.eq_dec b 6); [assumption|]; exfalso; assert (a = 5 -> False) by lia; assert (a < 5 -> False) by lia; lia).
    exact (has_not (txt "end"%string) two_blocks 6 eq_refl B).
Qed.
(* C40 fails for blocks in blocks: after the outer block has been found, a query of the
   inner block passes over the one inside and finds one behind the outer block *)
Definition nested : list text := map txt ["outer"; "begin"; "end"; "outend"; "begin"; "end"; "last"]%string.
Theorem C40_nested_refuted : exists content outer inner b' i',
  outer = BK (BO 0 (length content) 0) [inner] /\
  query_block (txt "outer"%string) (txt "outend"%string) content outer = Ok (b', true) /\
  query_block (txt "begin"%string) (txt "end"%string) content (BK (hd inner (bk_paras b')) []) = Ok (i', true) /\
  (bo_end (bk_b b') < bo_start (bk_b i')) /\
  exists l1 l2, bo_start (bk_b b') < l1 < l2 /\ l2 < bo_end (bk_b b') /\
    has (txt "begin"%string) content l1 /\ has (txt "end"%string) content l2.
Proof.
  exists nested, (BK (BO 0 7 0) [BO 0 7 0]), (BO 0 7 0), (BK (BO 0 3 4) [BO 0 3 0]), (BK (BO 4 5 3) []).
  split; [reflexivity|]. split; [vm_compute; reflexivity|]. split; [vm_compute; reflexivity|]. split; [cbn; lia|].
  exists 1, 2. split; [cbn; lia|]. split; [cbn; lia|].
  split; eapply has_here; vm_compute; reflexivity.
Qed.
(* the parameters of a block that has not been queried yet are looked for in the whole file *)
Theorem C40_unqueried_refuted : exists content p', content = map txt ["size: 3"; "begin"; "end"]%string /\
  query_scalar Z stoi key content (PR (BO 0 (length content) 0) false 1 1 [0%Z]) = Ok (p', true) /\
  match query_block (txt "begin"%string) (txt "end"%string) content (BK (BO 0 (length content) 0) [BO 0 (length content) 0]) with
  | Ok (b, r) => r = true /\ bo_index (pr_b p') <= bo_start (bk_b b) | _ => False end.
Proof. eexists. eexists. split; [reflexivity|]. split; [vm_compute; reflexivity|]. vm_compute. repeat split. constructor. Qed.

(* C41: a matrix each of whose rows gives one value for each column is accepted; it has as
   many rows as there are lines and get_value(i,j) is value i of row j *)
Theorem C41_partial T conv init k1 k2 d content (p : para T) l1 l2 ls rows :
  bo_end (pr_b p) <= length content ->
  first_with k1 content (bo_start (pr_b p) + bo_index (pr_b p)) (bo_end (pr_b p)) l1 -> first_with k2 content (S l1) (bo_end (pr_b p)) l2 ->
  between content l1 l2 ls -> Forall2 (row_of conv) ls rows -> ls <> [] -> 0 < pr_ncol p -> Forall (fun r => length r = pr_ncol p) rows ->
  exists p', query_matrix T conv init k1 k2 d content p = Ok (p', true) /\ pr_found p' = true /\
    pr_ncol p' = pr_ncol p /\ pr_nrow p' = length ls /\
    forall i j r, i < pr_ncol p -> nth_error rows j = Some r -> get_value p' i j = nth_error r i.
Proof.
  intros L F1 F2 B R N C LR. rewrite (Forall2_len _ _ _ R).
  apply (matrix_rows T conv init k1 k2 d content p l1 l2 ls rows); try assumption; [|lia|].
  - intros ->. apply Forall2_len in R. destruct ls; [contradiction|discriminate].
  - clear - R LR. induction R as [|l r ls rows H _ IH]; [constructor|]. inversion LR as [|? ? E LR']; subst. constructor; [|apply IH, LR'].
    apply row_values; [exact H|lia].
Qed.
(* with a default value rows may lack values; they are padded *)
Theorem C41_default T conv init k1 k2 d content (p : para T) l1 l2 ls rows :
  bo_end (pr_b p) <= length content ->
  first_with k1 content (bo_start (pr_b p) + bo_index (pr_b p)) (bo_end (pr_b p)) l1 -> first_with k2 content (S l1) (bo_end (pr_b p)) l2 ->
  between content l1 l2 ls -> Forall2 (padded_row conv d (pr_ncol p)) ls rows -> ls <> [] -> 0 < pr_ncol p ->
  exists p', query_matrix T conv init k1 k2 (Some d) content p = Ok (p', true) /\ pr_found p' = true /\
    pr_ncol p' = pr_ncol p /\ pr_nrow p' = length ls /\
    forall i j r, i < pr_ncol p -> nth_error rows j = Some r -> get_value p' i j = nth_error r i.
Proof.
  intros L F1 F2 B R N C. rewrite (Forall2_len _ _ _ R).
  apply (matrix_rows T conv init k1 k2 (Some d) content p l1 l2 ls rows); try assumption; [|lia| |].
  - intros ->. apply Forall2_len in R. destruct ls; [contradiction|discriminate].
  - clear - R. induction R as [|l r ls rows H _ IH]; [constructor|]. constructor; [|exact IH]. apply padded_values. exact H.
  - clear - R. induction R as [|l r ls rows H _ IH]; [constructor|]. constructor; [|exact IH]. apply (padded_values _ _ _ _ _ _ H).
Qed.
(* an accepted matrix without default value: the number of values in all its rows together
   is a multiple of the column count, and they are stored in file order *)
Theorem C41_total T conv init k1 k2 content (p p' : para T) l1 l2 ls rows :
  bo_end (pr_b p) <= length content ->
  first_with k1 content (bo_start (pr_b p) + bo_index (pr_b p)) (bo_end (pr_b p)) l1 -> first_with k2 content (S l1) (bo_end (pr_b p)) l2 ->
  between content l1 l2 ls -> Forall2 (row_of conv) ls rows -> ls <> [] -> 
  query_matrix T conv init k1 k2 None content p = Ok (p', true) -> pr_vals p' = concat rows /\ length (concat rows) = pr_ncol p * pr_nrow p'.
Proof.
  intros L F1 F2 B R N Q. destruct (matrix_found T conv init k1 k2 None content p l1 l2 L F1 F2) as (b' & _ & _ & _ & E). rewrite E in Q. clear E.
  rewrite (between_lines _ _ _ _ B) in Q. rewrite (rows_values T (line_values T conv None (pr_ncol p)) ls rows) in Q.
  2:{ clear - R. induction R as [|l r ls rows H _ IH]; [constructor|]. constructor; [|exact IH]. unfold line_values. exact (row_values T conv l r None (length r) H (le_n _)). }
  cbv zeta in Q. destruct (Nat.eqb_spec (pr_ncol p) 0) as [Z|C]; [discriminate|].
  destruct (Nat.eqb_spec (length (concat rows)) (pr_ncol p * (length (concat rows) / pr_ncol p))) as [E|E]; [|discriminate]. cbn [negb] in Q.
  assert (NE : length (concat rows) <> 0).
  { destruct R as [|l r ls rows H R]; [contradiction|]. destruct H as (cells & -> & X & _ & _ & H). apply Forall2_len in H.
    cbn [concat]. rewrite app_length. destruct cells; [contradiction|]. cbn in H. lia. }
  rewrite (filled T init (with_bounds p b')) in Q; [|exact C|intros Z; rewrite Z in E; lia|exact E].
  injection Q as <-. split; [reflexivity|exact E].
Qed.
Definition a_matrix : list text := map txt ["begin"; "1, 2"; "(3, [4])"; "end"]%string.
Example C41_ex : match query_matrix Z stoi 0%Z (txt "begin"%string) (txt "end"%string) None a_matrix (PR (BO 0 4 0) false 2 1 [0%Z; 0%Z]) with
  | Ok (p, r) => r = true /\ pr_nrow p = 2 /\ pr_vals p = [1; 2; 3; 4]%Z /\ get_value p 1 0 = Some 2%Z /\ get_value p 0 1 = Some 3%Z | _ => False end.
Proof. vm_compute. repeat split. Qed.
Lemma in_text (a : ascii) (c : text) : existsb (Ascii.eqb a) c = false -> ~ In a c.
Proof. intros H I. assert (existsb (Ascii.eqb a) c = true); [|congruence]. apply existsb_exists. exists a. split; [exact I|apply Ascii.eqb_refl]. Qed.
Example C41_ex' : between a_matrix 0 3 (map txt ["1, 2"; "(3, [4])"]%string) /\
  Forall2 (row_of stoi) (map txt ["1, 2"; "(3, [4])"]%string) [[1; 2]; [3; 4]]%Z.
Proof.
  split; [exists [], (txt "begin"%string), (txt "end"%string), []; repeat split|].
  repeat constructor.
  - exists (map txt ["1"; " 2"]%string). split; [reflexivity|]. split; [discriminate|]. split; [discriminate|]. split.
    + intros c [<-|[<-|[]]]; apply in_text; reflexivity.
    + constructor; [|constructor; [|constructor]]; eexists; (split; [apply unbracketed_iff; reflexivity|vm_compute; reflexivity]).
  - exists (map txt ["(3"; " [4])"]%string). split; [reflexivity|]. split; [discriminate|]. split; [discriminate|]. split.
    + intros c [<-|[<-|[]]]; apply in_text; reflexivity.
    + constructor; [|constructor; [|constructor]]; eexists; (split; [apply unbracketed_iff; reflexivity|vm_compute; reflexivity]).
Qed.
Example C41_default_ex : match query_matrix Z stoi 0%Z (txt "begin"%string) (txt "end"%string) (Some 9%Z) (map txt ["begin"; "1, x"; "3"; "end"]%string) (PR (BO 0 4 0) false 2 1 [0%Z; 0%Z]) with
  | Ok (p, r) => r = true /\ pr_nrow p = 2 /\ pr_vals p = [1; 9; 3; 9]%Z | _ => False end.
Proof. vm_compute. repeat split. Qed.

(* C41 as stated is false: a matrix with two columns and rows of three and one values is
   accepted and gets another shape *)
Theorem C41_refuted : exists (content : list text) (p : para Z),
  content = map txt ["begin"; "1, 2, 3"; "4"; "end"]%string /\
  match query_matrix Z stoi 0%Z (txt "begin"%string) (txt "end"%string) None content p with
  | Ok (p', r) => r = true /\ pr_ncol p' = 2 /\ pr_nrow p' = 2 /\ get_value p' 0 1 = Some 3%Z | _ => False end.
Proof. exists (map txt ["begin"; "1, 2, 3"; "4"; "end"]%string), (PR (BO 0 4 0) false 2 1 [0%Z; 0%Z]). vm_compute. repeat split. Qed.
(* an entry that is no number is passed over, the values behind it move *)
Theorem C41_entry_refuted : exists (content : list text) (p : para Z),
  content = map txt ["begin"; "1, x, 3"; "4, 5, 6, 7"; "end"]%string /\
  match query_matrix Z stoi 0%Z (txt "begin"%string) (txt "end"%string) None content p with
  | Ok (p', r) => r = true /\ pr_nrow p' = 2 /\ get_value p' 2 0 = Some 4%Z | _ => False end.
Proof. exists (map txt ["begin"; "1, x, 3"; "4, 5, 6, 7"; "end"]%string), (PR (BO 0 4 0) false 3 1 [0%Z; 0%Z; 0%Z]). vm_compute. repeat split. Qed.
(* a matrix without any row is accepted and has a row: the first of the matrix before it *)
Theorem C41_empty_refuted : exists (content : list text) (p p1 : para Z),
  content = map txt ["begin"; "1, 2"; "end"; "begin"; "end"]%string /\
  query_matrix Z stoi 0%Z (txt "begin"%string) (txt "end"%string) None content p = Ok (p1, true) /\
  match query_matrix Z stoi 0%Z (txt "begin"%string) (txt "end"%string) None content p1 with
  | Ok (p2, r) => r = true /\ pr_nrow p2 = 1 /\ get_value p2 0 0 = Some 1%Z /\ get_value p2 1 0 = Some 2%Z | _ => False end.
Proof. eexists. exists (PR (BO 0 5 0) false 2 1 [0%Z; 0%Z]). eexists. split; [reflexivity|]. split; [vm_compute; reflexivity|]. vm_compute. repeat split. Qed.
(* get_value does not report a row or column that does not exist *)
Theorem C41_range_refuted : exists p : para Z, pr_ncol p = 2 /\ pr_nrow p = 2 /\ pr_vals p = [1; 2; 3; 4]%Z /\
  get_value p 2 0 = Some 3%Z /\ get_value p 0 2 = Some 1%Z.
Proof. exists (PR (BO 0 4 0) true 2 2 [1; 2; 3; 4]%Z). repeat split. Qed.

(* C40: the lines that are searched are the lines of the file, without those whose first
   character that is no white space is the comment sign *)
Definition commented (l : text) : Prop := exists w r, l = w ++ "#"%char :: r /\ forall c, In c w -> is_space c = true.
Lemma is_comment_iff l : is_comment l = true <-> commented l.
Proof.
  unfold is_comment. induction l as [|c l IH]; cbn [filter].
  - split; [discriminate|]. intros (w & r & E & _). destruct w; discriminate.
  - destruct (is_space c) eqn:S; cbn [negb].
    + rewrite IH. split.
      * intros (w & r & -> & H). exists (c :: w), r. split; [reflexivity|]. intros x [<-|X]; [exact S|exact (H x X)].
      * intros (w & r & E & H). destruct w as [|x w].
        -- injection E as -> _. discriminate.
        -- injection E as -> ->. exists w, r. split; [reflexivity|]. intros x' X. apply H. right. exact X.
    + split.
      * intros E. apply Ascii.eqb_eq in E as ->. exists [], l. split; [reflexivity|]. intros x [].
      * intros (w & r & E & H). destruct w as [|x w].
        -- injection E as -> _. reflexivity.
        -- injection E as -> _. rewrite (H x (or_introl eq_refl)) in S. discriminate.
Qed.
Theorem C40_content ls : Forall (free newline) ls ->
  exists keep, read_content (joined newline ls) = filter keep ls /\ forall l, keep l = false <-> commented l.
Proof.
  intros H. exists (fun l => negb (is_comment l)). split.
  - unfold read_content, lines_of. rewrite getlines_joined by exact H. reflexivity.
  - intros l. rewrite <- is_comment_iff. destruct (is_comment l); cbn; split; congruence.
Qed.
Example C40_content_ex : read_content (joined newline (map txt ["size: 1"; "  # a comment"; ""; "x # y"]%string)) = map txt ["size: 1"; ""; "x # y"]%string.
Proof. vm_compute. reflexivity. Qed.

Print Assumptions C40_enumeration.
Print Assumptions C40_scalar.
Print Assumptions C40_scalar_end.
Print Assumptions C40_refuted.
Print Assumptions C40_comment_refuted.
Print Assumptions C40_substring_refuted.
Print Assumptions C40_vector.
Print Assumptions C40_vector_short.
Print Assumptions C40_local.
Print Assumptions C40_blocks.
Print Assumptions C40_block_parameters.
Print Assumptions C40_nested_refuted.
Print Assumptions C40_unqueried_refuted.
Print Assumptions C41_partial.
Print Assumptions C41_default.
Print Assumptions C41_total.
Print Assumptions C41_refuted.
Print Assumptions C41_entry_refuted.
Print Assumptions C41_empty_refuted.
Print Assumptions C41_range_refuted.
Print Assumptions C40_content.
