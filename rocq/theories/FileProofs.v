(* Proofs about the reading of parameter files (C67). *)
From Coq Require Import Ascii String Lia.
From Verif Require Import Base CsvModel CsvProofs ParaModel ParaSpec ParaProofs ParaMatrix UtilModel BdryModel AppModel DomInModel DomInSpec FileModel FileSpec.
Open Scope list_scope.
Open Scope nat_scope.

(* ---- the words of the model and of the specification ---- *)
Lemma key_word n : key_of n = letters (keyword n).
Proof. destruct n as [| | | | | | | | | | | |[] []]; reflexivity. Qed.
Lemma end_word n : end_of n = option_map letters (ending n).
Proof. destruct n as [| | | | | | | | | | | |[] []]; reflexivity. Qed.
Lemma column_width n : columns n = width n.
Proof. destruct n as [| | | | | | | | | | | |[] []]; reflexivity. Qed.
Lemma name_eqb n m : pname_eqb n m = true <-> n = m.
Proof.
  split.
  - destruct n as [| | | | | | | | | | | |[] []], m as [| | | | | | | | | | | |[] []]; cbn; intros H; try discriminate; reflexivity.
  - intros <-. destruct n as [| | | | | | | | | | | |[] []]; reflexivity.
Qed.
Lemma is_named_iff n i : is_named n i = true <-> match i with Value m _ | Table m _ _ _ => m = n | Plain _ => False end.
Proof.
  destruct i as [m l|m a rows b|l]; cbn [is_named]; [destruct (name_dec n m) as [->|N]; split; congruence..|].
  split; [discriminate|tauto].
Qed.

(* ---- lines and keys ---- *)
Lemma has_in k content pre ls post m : content = pre ++ ls ++ post -> length pre <= m < length pre + length ls ->
  has k content m -> exists l, nth_error ls (m - length pre) = Some l /\ exists i, occurs k l i.
Proof.
  intros -> B (line & i & E & O). rewrite nth_error_app2 in E by lia. rewrite nth_error_app1 in E by lia. eauto.
Qed.
Lemma has_at k pre l post : (exists i, occurs k l i) -> has k (pre ++ l :: post) (length pre).
Proof. intros (i & O). exists l, i. split; [|exact O]. rewrite nth_error_app2 by lia. rewrite Nat.sub_diag. reflexivity. Qed.

(* [content] from the end of [pre] on: the items [rest], then [post] *)
Definition laid (content pre : list text) (rest : list item) (post : list text) : Prop := content = pre ++ flat_map lines rest ++ post.
Definition reach (pre : list text) (rest : list item) : nat := length pre + length (flat_map lines rest).

Lemma silent content pre rest post n : laid content pre rest post -> Forall placed rest -> named n rest = [] ->
  forall m, length pre <= m < reach pre rest -> ~ has (key_of n) content m.
Proof.
  unfold laid, reach. intros E P N m B H. rewrite key_word in H. apply (has_in _ _ pre (flat_map lines rest) post) in H as (l & A & O); [|exact E|exact B].
  apply nth_error_In in A. apply in_flat_map in A. destruct A as (i & I & L). rewrite Forall_forall in P. specialize (P i I).
  assert (X : is_named n i = false). { destruct (is_named n i) eqn:Y; [|reflexivity]. exfalso. assert (Z : In i (named n rest)) by (apply filter_In; auto). rewrite N in Z. exact Z. }
  assert (Y : is_named n i <> true) by congruence. apply Y. apply is_named_iff. destruct i as [k l'|k a rows b|l']; cbn [lines] in L.
  - destruct L as [<-|[]]. symmetry. apply P. exact O.
  - destruct P as (e & _ & _ & P1 & _ & _ & P2). destruct L as [<-|L]; [symmetry; apply P1; exact O|]. destruct (P2 l n L O).
  - destruct L as [<-|[]]. exact (P n O).
Qed.
Lemma named_cons n i is : named n (i :: is) = if is_named n i then i :: named n is else named n is.
Proof. reflexivity. Qed.
(* the next item of a name *)
Lemma found content n : forall rest pre post i more, laid content pre rest post -> Forall placed rest -> named n rest = i :: more ->
  exists mid tail, rest = mid ++ i :: tail /\ is_named n i = true /\ named n tail = more /\ named n mid = [].
Proof.
  induction rest as [|j rest IH]; intros pre post i more E P N; [discriminate|]. rewrite named_cons in N. destruct (is_named n j) eqn:J.
  - injection N as -> N. exists [], rest. auto.
  - inversion P as [|? ? _ P']; subst. destruct (IH (pre ++ lines j) post i more) as (mid & tail & -> & A & B & C); [|exact P'|exact N|].
    + unfold laid in *. rewrite E. cbn [flat_map]. rewrite !app_assoc. reflexivity.
    + exists (j :: mid), tail. rewrite named_cons, J. auto.
Qed.
Lemma placed_mid mid i tail : Forall placed (mid ++ i :: tail) -> Forall placed mid /\ placed i /\ Forall placed tail.
Proof. intros P. apply Forall_app in P. destruct P as [A B]. inversion B; subst. auto. Qed.
Lemma lines_pos i : 0 < length (lines i).
Proof. destruct i; cbn; lia. Qed.
Lemma first_line content pre mid i tail post n : laid content pre (mid ++ i :: tail) post -> Forall placed (mid ++ i :: tail) ->
  named n mid = [] -> is_named n i = true ->
  first_with (key_of n) content (length pre) (reach pre (mid ++ i :: tail)) (reach pre mid).
Proof.
  intros E P N I. apply placed_mid in P. destruct P as (P1 & P2 & _).
  assert (R : reach pre (mid ++ i :: tail) = reach pre mid + length (lines i) + length (flat_map lines tail)).
  { unfold reach. rewrite flat_map_app. cbn [flat_map]. rewrite !app_length. lia. }
  assert (Z := lines_pos i). split; [rewrite R; unfold reach; lia|]. split.
  - unfold laid in E. rewrite flat_map_app in E. cbn [flat_map] in E. rewrite E, key_word.
    replace (reach pre mid) with (length (pre ++ flat_map lines mid)) by (unfold reach; rewrite app_length; reflexivity).
    rewrite !app_assoc. rewrite <- (app_assoc (pre ++ flat_map lines mid)). rewrite <- (app_assoc (pre ++ flat_map lines mid)). apply is_named_iff in I.
    destruct i as [k l|k a rows b|l]; cbn [lines app]; [..|destruct I]; subst k; apply has_at; [apply P2|]. destruct P2 as (e & _ & P2 & _). exact P2.
  - intros m B. assert (E' : laid content pre mid (flat_map lines (i :: tail) ++ post)).
    { unfold laid in *. rewrite E, flat_map_app, !app_assoc. reflexivity. }
    apply (silent content pre mid _ n E' P1 N). exact B.
Qed.

(* ---- one query ---- *)
Section Query.
Context {T : Type}.
Variables (conv : text -> option T) (init : T) (d : option T) (content : list text).

(* where a parameter will go on *)
Definition at_rest (b : bounds) (rest : list item) (post : list text) : Prop :=
  exists pre, laid content pre rest post /\ from b = length pre /\ bo_end b = reach pre rest.
Lemma rest_end b rest post : at_rest b rest post -> bo_end b <= length content.
Proof. intros (pre & E & _ & ->). unfold laid in E. rewrite E. unfold reach. rewrite !app_length. lia. Qed.
(* the shape of a parameter *)
Definition fits (n : pname) (p : para T) : Prop := pr_ncol p = columns n /\ (end_of n = None -> pr_nrow p = 1 /\ length (pr_vals p) = pr_ncol p).
(* the rows that the code reads from an item *)
Definition reads (n : pname) (i : item) (rows : list (list T)) : Prop :=
  match i with
  | Value _ l => exists t vs, value_of (key_of n) l t /\ rows = [vs] /\ length vs = columns n /\
      (if Nat.eqb (columns n) 1 then exists v, conv t = Some v /\ vs = [v] else line_values T conv d (columns n) t = vs)
  | Table _ _ ls _ => rows <> [] /\ Forall2 (fun l r => line_values T conv d (columns n) l = r) ls rows /\ Forall (fun r => length r = columns n) rows
  | Plain _ => False
  end.
Definition filled_with (n : pname) (b : bounds) (rows : list (list T)) : para T := PR b true (columns n) (length rows) (concat rows).
Lemma columns_some n : columns n <> 0.
Proof. destruct n as [| | | | | | | | | | | |[] []]; discriminate. Qed.
Lemma same_bounds (p : para T) : with_bounds p (pr_b p) = p.
Proof. destruct p; reflexivity. Qed.

Lemma query_none n p rest post : Forall placed rest -> at_rest (pr_b p) rest post -> named n rest = [] ->
  query content conv init d n p = Ok (p, false).
Proof.
  intros P A N. assert (L := rest_end _ _ _ A). destruct A as (pre & E & F & B).
  assert (S : forall m, from (pr_b p) <= m < bo_end (pr_b p) -> ~ has (key_of n) content m).
  { rewrite F, B. apply (silent content pre rest post n E P N). }
  destruct (query_data_spec (key_of n) content (pr_b p) L) as (b' & r & Q & _ & _ & R).
  destruct r as [[l q]|]; [destruct R as ((A & H & _) & _); destruct (S l A H)|]. destruct R as [-> _].
  unfold query. destruct (end_of n) as [e|].
  - unfold query_matrix. rewrite Q. cbn [obind fst snd]. rewrite same_bounds. reflexivity.
  - unfold query_scalar, query_vector. rewrite Q. cbn [obind fst snd]. rewrite same_bounds. destruct (columns n) as [|[|]]; reflexivity.
Qed.

Lemma firstn_self {A} (l : list A) n : length l = n -> firstn n l = l.
Proof. intros <-. apply firstn_all. Qed.
Lemma query_some n p rest post i more rows : Forall placed rest -> at_rest (pr_b p) rest post -> named n rest = i :: more -> fits n p -> reads n i rows ->
  exists b tail, query content conv init d n p = Ok (filled_with n b rows, true) /\ at_rest b tail post /\ named n tail = more /\ Forall placed tail /\
    length (flat_map lines tail) < length (flat_map lines rest).
Proof.
  intros P A N [F1 F2] R. assert (L := rest_end _ _ _ A). destruct A as (pre & E & F & B).
  destruct (found content n rest pre post i more E P N) as (mid & tail & -> & I & M & Z).
  assert (G := first_line content pre mid i tail post n E P Z I). rewrite <- F, <- B in G.
  destruct (placed_mid _ _ _ P) as (_ & PI & PT).
  assert (LT : length (flat_map lines tail) < length (flat_map lines (mid ++ i :: tail))).
  { rewrite flat_map_app. cbn [flat_map]. rewrite !app_length. assert (X := lines_pos i). lia. }
  assert (X := proj1 (is_named_iff n i) I). destruct i as [k l|k a ls b|l]; [..|destruct X]; subst k.
  - (* one line *)
    destruct PI as (NE & _ & _). destruct R as (t & vs & V & -> & LV & W).
    destruct (query_data_spec (key_of n) content (pr_b p) L) as (b' & r & Q & B1 & B2 & R').
    destruct r as [[m q]|]; [|destruct R' as (_ & R'); destruct G as (A & H & _); destruct (R' _ A H)].
    destruct R' as (G' & (_ & line & E' & H) & J). assert (Y := first_unique _ _ _ _ _ _ G G'). subst m. cbn [snd] in H.
    assert (EL : nth_error content (reach pre mid) = Some l).
    { unfold laid in E. rewrite E, flat_map_app. cbn [flat_map lines]. unfold reach. rewrite nth_error_app2 by lia.
      replace (length pre + length (flat_map lines mid) - length pre) with (length (flat_map lines mid)) by lia.
      rewrite <- app_assoc, nth_error_app2 by lia. rewrite Nat.sub_diag. reflexivity. }
    rewrite EL in E'. injection E' as <-. apply (value_text_spec (key_of n) l q H) in V.
    assert (EN : end_of n = None) by (rewrite end_word, NE; reflexivity). destruct (F2 EN) as [F3 F4].
    assert (AT : at_rest b' tail post).
    { exists (pre ++ flat_map lines mid ++ [l]). split; [|split].
      - unfold laid in *. rewrite E, flat_map_app. cbn [flat_map lines]. rewrite <- !app_assoc. reflexivity.
      - rewrite J. unfold reach. rewrite !app_length. cbn [length]. lia.
      - rewrite B2, B. unfold reach. rewrite flat_map_app. cbn [flat_map lines]. rewrite !app_length. cbn [length]. lia. }
    exists b', tail. split; [|auto]. unfold query. rewrite EN. destruct (Nat.eqb_spec (columns n) 1) as [C|C].
    + rewrite C. destruct W as (v & W & ->). unfold query_scalar. rewrite Q. cbn [obind fst snd]. rewrite EL, <- V, W. unfold set_value. cbn [with_bounds pr_ncol pr_nrow pr_vals pr_b pr_found].
      rewrite F1, F3, C in *. cbn [Nat.mul Nat.leb]. unfold filled_with. rewrite C. cbn [length concat app]. destruct (pr_vals p) as [|x [|y r]]; try discriminate. reflexivity.
    + assert (C' : exists c, columns n = S (S c)) by (assert (K := columns_some n); destruct (columns n) as [|[|c]]; [lia|lia|eauto]).
      destruct C' as (c & C'). assert (QV : query_vector T conv (key_of n) d content p = Ok (filled_with n b' [vs], true)); [|rewrite C'; exact QV].
      unfold query_vector. rewrite Q. cbn [obind fst snd]. rewrite EL, <- V. cbn [with_bounds pr_ncol]. rewrite F1, W, LV. rewrite Nat.ltb_irrefl.
      rewrite firstn_self by exact LV. rewrite set_values_spec; cbn [with_bounds pr_ncol pr_nrow pr_vals pr_b pr_found]; [|unfold shaped; cbn; lia|lia].
      cbn [firstn app Nat.add]. rewrite skipn_all2 by lia. unfold filled_with. cbn [length concat is_found pr_b pr_ncol pr_nrow pr_vals app]. unfold is_found. cbn [pr_b pr_ncol pr_nrow pr_vals]. rewrite F1, F3. reflexivity.
  - (* a table *)
    destruct PI as (e & NE & _ & _ & PR1 & PR2 & _). destruct R as (NR & V & LR).
    set (l2 := reach pre mid + 1 + length ls).
    assert (EC : content = (pre ++ flat_map lines mid) ++ a :: ls ++ b :: (flat_map lines tail ++ post)).
    { unfold laid in E. rewrite E, flat_map_app. cbn [flat_map lines]. rewrite <- !app_assoc. cbn [app]. rewrite <- !app_assoc. reflexivity. }
    assert (LP : length (pre ++ flat_map lines mid) = reach pre mid) by (rewrite app_length; reflexivity).
    assert (HI : bo_end (pr_b p) = l2 + 1 + length (flat_map lines tail)).
    { rewrite B. unfold reach, l2. rewrite flat_map_app. cbn [flat_map lines]. unfold reach. rewrite !app_length. cbn [length]. rewrite !app_length. cbn [length]. lia. }
    assert (G2 : first_with (letters e) content (S (reach pre mid)) (bo_end (pr_b p)) l2).
    { split; [unfold l2 in *; lia|]. split.
      - replace l2 with (length ((pre ++ flat_map lines mid) ++ a :: ls)) by (unfold l2; rewrite app_length, LP; cbn [length]; lia).
        rewrite EC. change (a :: ls ++ b :: flat_map lines tail ++ post) with ((a :: ls) ++ b :: flat_map lines tail ++ post). rewrite app_assoc. apply has_at. exact PR2.
      - intros m Hm H. apply (has_in _ _ ((pre ++ flat_map lines mid) ++ [a]) ls (b :: flat_map lines tail ++ post)) in H.
        + destruct H as (l & H1 & H2). apply nth_error_In in H1. exact (PR1 l H1 H2).
        + rewrite EC, <- !app_assoc. reflexivity.
        + rewrite app_length, LP. cbn [length]. unfold l2 in Hm. lia. }
    assert (EN : end_of n = Some (letters e)) by (rewrite end_word, NE; reflexivity).
    destruct (matrix_found T conv init (key_of n) (letters e) d content p (reach pre mid) l2 L G G2) as (b' & B1 & B2 & B3 & Q).
    assert (BT : between content (reach pre mid) l2 ls).
    { exists (pre ++ flat_map lines mid), a, b, (flat_map lines tail ++ post). split; [exact EC|]. split; [exact LP|]. unfold l2. lia. }
    rewrite F1, (between_lines _ _ _ _ BT), (rows_values _ _ _ _ V) in Q. cbv zeta in Q. rewrite (length_rows _ _ _ LR) in Q.
    assert (NC := columns_some n). destruct (Nat.eqb_spec (columns n) 0) as [Z0|_]; [contradiction|].
    rewrite (Nat.mul_comm (columns n) (length rows)), Nat.div_mul in Q by exact NC. rewrite (Nat.mul_comm (columns n)), Nat.eqb_refl in Q. cbn [negb] in Q.
    assert (R0 : length rows <> 0) by (destruct rows; [contradiction|discriminate]).
    rewrite (filled T init (with_bounds p b') (concat rows) (length rows)) in Q; [|cbn; rewrite F1; exact NC|exact R0|cbn; rewrite F1; apply length_rows, LR].
    cbn [with_bounds pr_b pr_found pr_ncol] in Q. rewrite F1 in Q.
    exists b', tail. split; [unfold query; rewrite EN; exact Q|]. split; [|auto].
    exists ((pre ++ flat_map lines mid) ++ a :: ls ++ [b]). split; [|split].
    + unfold laid. rewrite EC, <- !app_assoc. cbn [app]. rewrite <- !app_assoc. reflexivity.
    + rewrite B3. unfold l2. rewrite app_length, LP. cbn [length]. rewrite app_length. cbn [length]. lia.
    + rewrite B2, HI. unfold l2. unfold reach at 2. rewrite app_length, LP. cbn [length]. rewrite app_length. cbn [length]. lia.
Qed.
Lemma filled_fits n b i rows : reads n i rows -> placed i -> is_named n i = true -> fits n (filled_with n b rows).
Proof.
  intros R P I. split; [reflexivity|]. intros E. apply is_named_iff in I. destruct i as [k l|k a ls e|l]; [..|destruct I]; subst k.
  - destruct R as (t & vs & _ & -> & L & _). cbn. rewrite app_nil_r. auto.
  - destruct P as (e' & P & _). rewrite end_word, P in E. discriminate.
Qed.
Lemma filled_holds n b i rows : reads n i rows -> holds (filled_with n b rows) rows.
Proof.
  intros R. assert (LR : Forall (fun r => length r = columns n) rows).
  { destruct i as [k l|k a ls e|l]; [|apply R|destruct R]. destruct R as (t & vs & _ & -> & L & _). constructor; auto. }
  split; [reflexivity|]. intros i' j r v J V. assert (JL : j < length rows) by (apply nth_error_Some; rewrite J; discriminate).
  assert (IL : i' < columns n). { rewrite Forall_forall in LR. rewrite <- (LR r (nth_error_In _ _ J)). apply nth_error_Some. rewrite V. discriminate. }
  unfold get_value, filled_with. cbn [pr_ncol pr_nrow pr_vals]. destruct (Nat.leb_spec (columns n * length rows) (j * columns n + i')) as [Z|_]; [nia|].
  rewrite (nth_rows T (columns n) rows LR i' j r IL J). exact V.
Qed.

(* a loop of queries *)
Lemma query_loop n : forall fuel p rest post rowss, Forall placed rest -> at_rest (pr_b p) rest post -> fits n p -> Forall2 (reads n) (named n rest) rowss ->
  length (flat_map lines rest) < fuel ->
  exists p' ps, query_all (query content conv init d n) fuel p = Ok (p', ps) /\ fits n p' /\ Forall2 (fun rows q => exists b, q = filled_with n b rows) rowss ps.
Proof.
  induction fuel as [|fuel IH]; intros p rest post rowss P A F R L; [lia|]. cbn [query_all].
  destruct (named n rest) as [|i more] eqn:N.
  - inversion R; subst. rewrite (query_none n p rest post P A N). cbn [obind fst snd]. exists p, []. auto.
  - inversion R as [|? rows ? rowss' R1 R2]; subst. destruct (query_some n p rest post i more rows P A N F R1) as (b & tail & Q & A' & N' & P' & L').
    assert (I : In i (named n rest)) by (rewrite N; left; reflexivity). apply filter_In in I. destruct I as [I J]. rewrite Forall_forall in P.
    rewrite Q. cbn [obind fst snd]. destruct (IH (filled_with n b rows) tail post rowss' P' A') as (p' & ps & E & F' & H).
    + apply (filled_fits n b i rows R1 (P i I) J).
    + rewrite N'. exact R2.
    + lia.
    + rewrite E. cbn [obind fst snd]. exists p', (filled_with n b rows :: ps). split; [reflexivity|]. split; [exact F'|]. constructor; [eauto|exact H].
Qed.
End Query.

(* ---- the readers ---- *)
Definition fit_all (r : reader) : Prop := forall n, fits n (rd_text r n) /\ fits n (rd_num r n) /\ fits n (rd_int r n) /\ fits n (rd_bool r n).
Definition fresh_at (b : bounds) (r : reader) (n : pname) : Prop :=
  pr_b (rd_text r n) = b /\ pr_b (rd_num r n) = b /\ pr_b (rd_int r n) = b /\ pr_b (rd_bool r n) = b.
(* only the parameters in the list have been looked for *)
Definition untouched (b : bounds) (asked : list pname) (r : reader) : Prop := forall n, ~ In n asked -> fresh_at b r n.

(* a component of a reader *)
Record part {T} (get : reader -> pname -> para T) (set : pname -> para T -> reader -> reader) : Prop := {
  pa_get : forall r n p m, pname_eqb n m = true -> get (set n p r) m = p;
  pa_fit : forall r n p, fit_all r -> fits n p -> fit_all (set n p r);
  pa_fits : forall r n, fit_all r -> fits n (get r n);
  pa_bound : forall b r n, fresh_at b r n -> pr_b (get r n) = b;
  pa_other : forall r n p m b, m <> n -> fresh_at b r m -> fresh_at b (set n p r) m
}.
Ltac part_tac := constructor;
  [ intros r n p m E; cbn; unfold replace; rewrite E; reflexivity
  | intros r n p F G m; specialize (F m); cbn; unfold replace; destruct (pname_eqb n m) eqn:E; [apply name_eqb in E; subst m|]; tauto
  | intros r n F; apply F
  | intros b r n F; apply F
  | intros r n p m b N F; unfold fresh_at in *; cbn; unfold replace; destruct (pname_eqb n m) eqn:E; [apply name_eqb in E; congruence|]; exact F ].
Lemma part_text : part rd_text set_text. Proof. part_tac. Qed.
Lemma part_num : part rd_num set_num. Proof. part_tac. Qed.
Lemma part_int : part rd_int set_int. Proof. part_tac. Qed.
Lemma part_bool : part rd_bool set_bool. Proof. part_tac. Qed.

Section Steps.
Variable content : list text.
Variables (b : bounds) (is : list item) (post : list text).
Hypothesis PL : Forall placed is.
Hypothesis AT : at_rest content b is post.

Lemma untouched_set {T} (get : reader -> pname -> para T) set n p r asked : part get set -> untouched b asked r -> untouched b (n :: asked) (set n p r).
Proof. intros PA U m M. apply (pa_other _ _ PA). { intros ->. apply M. left. reflexivity. } apply U. intros I. apply M. right. exact I. Qed.

Lemma ask_none {T A} (get : reader -> pname -> para T) set conv init d n (f : para T -> outcome A) r asked : part get set ->
  fit_all r -> untouched b asked r -> ~ In n asked -> named n is = [] ->
  exists r', ask content get set conv init d n f r = Ok (r', None) /\ fit_all r' /\ untouched b (n :: asked) r'.
Proof.
  intros PA F U NI N. assert (E := pa_bound _ _ PA b r n (U n NI)).
  assert (Q : query content conv init d n (get r n) = Ok (get r n, false)) by (apply (query_none conv init d content n (get r n) is post PL); [rewrite E; exact AT|exact N]).
  unfold ask. rewrite Q. cbn [obind fst snd]. eexists. split; [reflexivity|]. split; [apply (pa_fit _ _ PA); [exact F|apply (pa_fits _ _ PA), F]|apply (untouched_set get set n _ r asked PA U)].
Qed.
Lemma ask_some {T A} (get : reader -> pname -> para T) set conv init d n (f : para T -> outcome A) r asked i more rows : part get set ->
  fit_all r -> untouched b asked r -> ~ In n asked -> named n is = i :: more -> reads conv d n i rows ->
  exists r' bb, (forall a, f (filled_with n bb rows) = Ok a -> ask content get set conv init d n f r = Ok (r', Some a)) /\ fit_all r' /\ untouched b (n :: asked) r'.
Proof.
  intros PA F U NI N R. assert (E := pa_bound _ _ PA b r n (U n NI)). assert (FN := pa_fits _ _ PA r n F).
  assert (AT' : at_rest content (pr_b (get r n)) is post) by (rewrite E; exact AT).
  destruct (query_some conv init d content n (get r n) is post i more rows PL AT' N FN R) as (bb & tail & Q & _).
  assert (I : In i (named n is)) by (rewrite N; left; reflexivity). apply filter_In in I. destruct I as [I J]. assert (PI := proj1 (Forall_forall _ _) PL i I).
  exists (set n (filled_with n bb rows) r), bb. split; [|split].
  - intros a H. unfold ask. rewrite Q. cbn [obind fst snd]. rewrite H. reflexivity.
  - apply (pa_fit _ _ PA); [exact F|]. apply (filled_fits conv d n bb i rows R PI J).
  - apply (untouched_set get set n _ r asked PA U).
Qed.
Lemma loop_all {T A} (get : reader -> pname -> para T) set conv init d n (f : para T -> outcome A) r asked rowss (D : list (list T) -> A -> Prop) : part get set ->
  fit_all r -> untouched b asked r -> ~ In n asked -> Forall2 (reads conv d n) (named n is) rowss ->
  (forall rows bb, In rows rowss -> exists a, f (filled_with n bb rows) = Ok a /\ D rows a) ->
  exists r' l, loop content get set conv init d n f r = Ok (r', l) /\ fit_all r' /\ untouched b (n :: asked) r' /\ Forall2 D rowss l.
Proof.
  intros PA F U NI R H. assert (E := pa_bound _ _ PA b r n (U n NI)). assert (FN := pa_fits _ _ PA r n F).
  assert (AT' : at_rest content (pr_b (get r n)) is post) by (rewrite E; exact AT).
  assert (LE : length (flat_map lines is) < S (length content)).
  { destruct AT as (pre & L & _). unfold laid in L. apply (f_equal (@length text)) in L. rewrite !app_length in L. lia. }
  destruct (query_loop conv init d content n (S (length content)) (get r n) is post rowss PL AT' FN R LE) as (p' & ps & Q & FP & PS).
  assert (AL : exists l, all_of f ps = Ok l /\ Forall2 D rowss l).
  { clear - PS H. induction PS as [|rows q rowss ps (bb & ->) PS IH]; [exists []; split; [reflexivity|constructor]|].
    destruct (H rows bb (or_introl eq_refl)) as (a & E & DA). destruct IH as (l & EL & DL); [intros x y I; apply H; right; exact I|].
    exists (a :: l). cbn [all_of]. rewrite E. cbn [obind]. rewrite EL. cbn [obind]. split; [reflexivity|constructor; assumption]. }
  destruct AL as (l & AL & DL). exists (set n p' r), l. unfold loop. rewrite Q. cbn [obind fst snd]. rewrite AL. cbn [obind].
  split; [reflexivity|]. split; [apply (pa_fit _ _ PA); assumption|]. split; [apply (untouched_set get set n _ r asked PA U)|exact DL].
Qed.
End Steps.

(* ---- from the specification to what the code reads ---- *)
Section Readable.
Variable to_double : text -> option Q.
Lemma says_reads {T} (conv : text -> option T) d n i v : is_named n i = true -> width n = 1 -> says conv i v -> reads conv d n i [[v]].
Proof.
  intros I W S. apply is_named_iff in I. destruct i as [k l|k a ls e|l]; [|destruct S|destruct S]. subst k. destruct S as (t & V & C).
  exists t, [v]. rewrite key_word, column_width, W. cbn [length Nat.eqb]. split; [exact V|]. split; [reflexivity|]. split; [reflexivity|]. eauto.
Qed.
Lemma rows_reads {T} (R : nat -> text -> list T -> Prop) conv d n i rows : is_named n i = true -> width n <> 1 -> 
  (forall t vs, R (width n) t vs -> line_values T conv d (width n) t = vs /\ length vs = width n) -> gives_rows R i rows -> reads conv d n i rows.
Proof.
  intros I W H G. apply is_named_iff in I. destruct i as [k l|k a ls e|l]; [..|destruct G]; subst k.
  - destruct G as (t & vs & V & G & ->). destruct (H t vs G) as [H1 H2]. exists t, vs. rewrite key_word, column_width. split; [exact V|]. split; [reflexivity|]. split; [exact H2|].
    destruct (Nat.eqb_spec (width n) 1) as [C|_]; [contradiction|exact H1].
  - destruct G as [NE G]. cbn [reads]. rewrite column_width. split; [intros ->; inversion G; subst; apply NE; reflexivity|]. clear NE. split.
    + induction G as [|t vs ls rows X G IH]; [constructor|]. constructor; [exact (proj1 (H t vs X))|exact IH].
    + induction G as [|t vs ls rows X G IH]; [constructor|]. constructor; [exact (proj2 (H t vs X))|exact IH].
Qed.
Lemma last_comma cells : cells <> [] -> separated cells ++ [","%char] = joined ","%char cells.
Proof.
  induction cells as [|c cells IH]; intros N; [contradiction|]. destruct cells as [|c' cells]; [reflexivity|].
  change (separated (c :: c' :: cells)) with (c ++ ","%char :: separated (c' :: cells)). rewrite <- app_assoc. cbn [app]. rewrite IH by discriminate. reflexivity.
Qed.
Lemma closed_cells cells line : closed (separated cells) line -> cells <> [] -> last cells [] <> [] -> (forall c, In c cells -> ~ In ","%char c) -> cells_of line = cells_of (separated cells).
Proof.
  intros [->| ->] N L F; [reflexivity|]. rewrite cells_separated by assumption. rewrite last_comma by exact N. unfold cells_of. apply getlines_joined. apply Forall_forall. exact F.
Qed.
Lemma full_read {T} (conv : text -> option T) n t vs : full_row conv n t vs -> line_values T conv None n t = vs /\ length vs = n.
Proof.
  intros (core & C & R & L). split; [|exact L]. rewrite <- (row_values T conv core vs None n R) by lia.
  destruct R as (cells & -> & N & LA & F & _). unfold line_values. rewrite (closed_cells cells t C N LA F). reflexivity.
Qed.
Lemma filled_read n t vs : filled_row to_double n t vs -> line_values Q to_double (Some (-(1))%Q) n t = vs /\ length vs = n.
Proof.
  intros (core & C & R). destruct (padded_values Q to_double core vs (-(1))%Q n R) as [V L]. split; [|exact L]. rewrite <- V.
  destruct R as (cells & us & -> & N & LA & F & _). unfold line_values. rewrite (closed_cells cells t C N LA F). reflexivity.
Qed.
End Readable.

(* ---- a block ---- *)
Lemma value_filled {T} n b (v : T) : width n = 1 -> value (filled_with n b [[v]]) = Ok v.
Proof. intros W. unfold value, entry, get_value, filled_with. rewrite column_width, W. reflexivity. Qed.
Lemma untouched_more b asked asked' r : incl asked asked' -> untouched b asked r -> untouched b asked' r.
Proof. intros I U n N. apply U. intros X. apply N, I, X. Qed.
Lemma Forall2_trans_r {A B C} (R : A -> B -> Prop) (D : B -> C -> Prop) (S : A -> C -> Prop) : forall l m k, Forall2 R l m -> Forall2 D m k ->
  (forall a b c, In a l -> R a b -> D b c -> S a c) -> Forall2 S l k.
Proof.
  intros l m k F. revert k. induction F as [|a b l m X F IH]; intros k G H; inversion G; subst; constructor; eauto using in_eq, in_cons.
Qed.
Lemma pick_rows {A B} (R : A -> B -> Prop) : forall l, (forall a, In a l -> exists b, R a b) -> exists m, Forall2 R l m.
Proof.
  induction l as [|a l IH]; intros H; [exists []; constructor|]. destruct (H a (or_introl eq_refl)) as (x & X). destruct IH as (m & M); [intros y Y; apply H; right; exact Y|].
  exists (x :: m). constructor; assumption.
Qed.

Section Block.
Variable to_double : text -> option Q.
Variable files : text -> option text.
Variable content : list text.
Variables (b : bounds) (is : list item) (post : list text).
Hypothesis PL : Forall placed is.
Hypothesis AT : at_rest content b is post.
Hypothesis RE : Forall (readable to_double) is.

Definition good (asked : list pname) (r : reader) : Prop := fit_all r /\ untouched b asked r.
Lemma of_name n i : In i (named n is) -> is_named n i = true /\ readable to_double i.
Proof. intros I. apply filter_In in I. destruct I as [I N]. split; [exact N|]. rewrite Forall_forall in RE. apply RE, I. Qed.

Lemma step_value {T} (get : reader -> pname -> para T) set conv init d n r asked : part get set -> width n = 1 -> good asked r -> ~ In n asked ->
  (forall i, In i (named n is) -> exists v, says conv i v) ->
  exists r' o, ask content get set conv init d n value r = Ok (r', o) /\ good (n :: asked) r' /\
    match named n is with [] => o = None | i :: _ => exists v, o = Some v /\ says conv i v end.
Proof.
  intros PA W (F & U) NI H. destruct (named n is) as [|i more] eqn:N.
  - destruct (ask_none content b is post PL AT get set conv init d n value r asked PA F U NI N) as (r' & E & G1 & G2). exists r', None. split; [exact E|split; [split; assumption|reflexivity]].
  - destruct (H i (or_introl eq_refl)) as (v & S). assert (I : In i (named n is)) by (rewrite N; left; reflexivity). destruct (of_name n i I) as [NM _].
    assert (R := says_reads conv d n i v NM W S).
    destruct (ask_some content b is post PL AT get set conv init d n value r asked i more _ PA F U NI N R) as (r' & bb & E & G1 & G2).
    exists r', (Some v). split; [apply E, value_filled, W|]. split; [split; assumption|]. exists v. auto.
Qed.
Lemma step_rows {T A} (R : nat -> text -> list T -> Prop) (get : reader -> pname -> para T) set conv init d n (f : para T -> A) r asked : part get set -> width n <> 1 -> good asked r -> ~ In n asked ->
  (forall t vs, R (width n) t vs -> line_values T conv d (width n) t = vs /\ length vs = width n) ->
  (forall i, In i (named n is) -> exists rows, gives_rows R i rows) ->
  exists r' o, ask content get set conv init d n (fun p => Ok (f p)) r = Ok (r', o) /\ good (n :: asked) r' /\
    match named n is with [] => o = None | i :: _ => exists q rows, o = Some (f q) /\ gives_rows R i rows /\ holds q rows end.
Proof.
  intros PA W (F & U) NI HR H. destruct (named n is) as [|i more] eqn:N.
  - destruct (ask_none content b is post PL AT get set conv init d n (fun p => Ok (f p)) r asked PA F U NI N) as (r' & E & G1 & G2). exists r', None. split; [exact E|split; [split; assumption|reflexivity]].
  - destruct (H i (or_introl eq_refl)) as (rows & S). assert (I : In i (named n is)) by (rewrite N; left; reflexivity). destruct (of_name n i I) as [NM _].
    assert (RD := rows_reads R conv d n i rows NM W HR S).
    destruct (ask_some content b is post PL AT get set conv init d n (fun p => Ok (f p)) r asked i more _ PA F U NI N RD) as (r' & bb & E & G1 & G2).
    exists r', (Some (f (filled_with n bb rows))). split; [apply E; reflexivity|]. split; [split; assumption|]. exists (filled_with n bb rows), rows. split; [reflexivity|]. split; [exact S|].
    exact (filled_holds conv d n bb i rows RD).
Qed.
Lemma loop_rows {T A} (R : nat -> text -> list T -> Prop) (get : reader -> pname -> para T) set conv init d n (f : para T -> A) r asked : part get set -> width n <> 1 -> good asked r -> ~ In n asked ->
  (forall t vs, R (width n) t vs -> line_values T conv d (width n) t = vs /\ length vs = width n) ->
  (forall i, In i (named n is) -> exists rows, gives_rows R i rows) ->
  exists r' l, loop content get set conv init d n (fun p => Ok (f p)) r = Ok (r', l) /\ good (n :: asked) r' /\
    Forall2 (fun i a => exists q rows, a = f q /\ gives_rows R i rows /\ holds q rows) (named n is) l.
Proof.
  intros PA W (F & U) NI HR H. destruct (pick_rows (gives_rows R) _ H) as (rowss & M).
  assert (RD : Forall2 (reads conv d n) (named n is) rowss).
  { assert (X : Forall (fun i => is_named n i = true) (named n is)) by (apply Forall_forall; intros i I; apply of_name, I).
    clear - M X W HR. induction M as [|i rows l m A M IH]; [constructor|]. inversion X; subst. constructor; [apply (rows_reads R); assumption|auto]. }
  destruct (loop_all content b is post PL AT get set conv init d n (fun p => Ok (f p)) r asked rowss (fun rows a => exists bb, a = f (filled_with n bb rows)) PA F U NI RD) as (r' & l & E & G1 & G2 & D).
  { intros rows bb _. eexists. split; [reflexivity|]. exists bb. reflexivity. }
  exists r', l. split; [exact E|]. split; [split; assumption|].
  assert (Z : Forall2 (fun i rows => gives_rows R i rows /\ reads conv d n i rows) (named n is) rowss).
  { clear - M RD. induction M as [|i rows l m A M IH]; [constructor|]. inversion RD; subst. constructor; auto. }
  refine (Forall2_trans_r _ _ _ _ _ _ Z D _). intros i rows a _ [X Y] (bb & ->). exists (filled_with n bb rows), rows. split; [reflexivity|]. split; [exact X|]. exact (filled_holds conv d n bb i rows Y).
Qed.
(* the files *)
Lemma csv_filled n bb w : width n = 1 -> csv_of files (filled_with n bb [[w]]) = Ok (DCsv (files w)).
Proof. intros W. unfold csv_of. rewrite value_filled by exact W. reflexivity. Qed.

(* how the boundaries are read *)
Lemma bdry_named e k i d : is_named (Bdry e k) i = true -> kind_of d = k -> exists e', is_named (Bdry e' (kind_of d)) i = true.
Proof. intros I <-. exists e. exact I. Qed.
Lemma bdry_values e k : k <> KEdges -> k <> KCsv -> forall i, In i (named (Bdry e k) is) -> exists rows, gives_rows (filled_row to_double) i rows.
Proof.
  intros K1 K2 i I. apply of_name in I. destruct I as [N R]. apply is_named_iff in N. destruct i as [m l|m a rows c|l]; [..|destruct N]; subst m; destruct k; try contradiction; exact R.
Qed.
Lemma bdry_edges e : forall i, In i (named (Bdry e KEdges) is) -> exists rows, gives_rows (full_row to_integer) i rows.
Proof. intros i I. apply of_name in I. destruct I as [N R]. apply is_named_iff in N. destruct i as [m l|m a rows c|l]; [..|destruct N]; subst m; exact R. Qed.
Lemma bdry_csv e : forall i, In i (named (Bdry e KCsv) is) -> exists v, says to_text i v.
Proof. intros i I. apply of_name in I. destruct I as [N R]. apply is_named_iff in N. destruct i as [m l|m a rows c|l]; [..|destruct N]; subst m; exact R. Qed.
Lemma bdry_width e k : k <> KCsv -> width (Bdry e k) <> 1.
Proof. destruct e, k; try contradiction; discriminate. Qed.
Lemma kind_def k q : k <> KEdges -> k <> KCsv -> kind_of (as_definition k q) = k.
Proof. destruct k; try contradiction; reflexivity. Qed.
Lemma defines_values e k i q rows : k <> KEdges -> k <> KCsv -> is_named (Bdry e k) i = true -> gives_rows (filled_row to_double) i rows -> holds q rows ->
  defines to_double files i (as_definition k q).
Proof.
  intros K1 K2 N G H. split; [exists e; rewrite kind_def by assumption; exact N|]. destruct k; try contradiction; exists rows; auto.
Qed.
Lemma name_in {i more n} : named n is = i :: more -> is_named n i = true.
Proof. intros N. apply of_name. rewrite N. left. reflexivity. Qed.
Lemma ask_bdry_spec k r asked : good asked r -> ~ In (Bdry true k) asked ->
  exists r' o, ask_bdry to_double files content k r = Ok (r', o) /\ good (Bdry true k :: asked) r' /\
    match named (Bdry true k) is with [] => o = None | i :: _ => exists d, o = Some d /\ defines to_double files i d end.
Proof.
  intros G NI. assert (V : k <> KEdges -> k <> KCsv -> 
    exists r' o, ask_num to_double content (Bdry true k) (fun p => Ok (as_definition k p)) r = Ok (r', o) /\ good (Bdry true k :: asked) r' /\
      match named (Bdry true k) is with [] => o = None | i :: _ => exists d, o = Some d /\ defines to_double files i d end).
  { intros K1 K2. destruct (step_rows (filled_row to_double) rd_num set_num to_double 0%Q padding (Bdry true k) (as_definition k) r asked part_num (bdry_width true k K2) G NI
      (fun t vs => filled_read to_double _ t vs) (bdry_values true k K1 K2)) as (r' & o & E & G' & M).
    exists r', o. split; [exact E|]. split; [exact G'|]. destruct (named (Bdry true k) is) as [|i more] eqn:N; [exact M|]. destruct M as (q & rows & -> & M1 & M2).
    eexists. split; [reflexivity|]. exact (defines_values true k i q rows K1 K2 (name_in N) M1 M2). }
  destruct k; try (apply V; discriminate); clear V.
  - destruct (step_rows (full_row to_integer) rd_int set_int to_integer 0%Z None (Bdry true KEdges) DEdges r asked part_int (bdry_width true KEdges ltac:(discriminate)) G NI
      (fun t vs => full_read to_integer _ t vs) (bdry_edges true)) as (r' & o & E & G' & M).
    exists r', o. split; [exact E|]. split; [exact G'|]. destruct (named (Bdry true KEdges) is) as [|i more] eqn:N; [exact M|]. destruct M as (q & rows & -> & M1 & M2).
    eexists. split; [reflexivity|]. split; [exists true; exact (name_in N)|exists rows; auto].
  - destruct G as (F & U). cbn [ask_bdry]. destruct (named (Bdry true KCsv) is) as [|i more] eqn:N.
    + destruct (ask_none content b is post PL AT rd_text set_text to_text [] None (Bdry true KCsv) (csv_of files) r asked part_text F U NI N) as (r' & E & G1 & G2).
      exists r', None. split; [exact E|split; [split; assumption|reflexivity]].
    + destruct (bdry_csv true i) as (v & S); [rewrite N; left; reflexivity|].
      assert (R := says_reads to_text None (Bdry true KCsv) i v (name_in N) eq_refl S).
      destruct (ask_some content b is post PL AT rd_text set_text to_text [] None (Bdry true KCsv) (csv_of files) r asked i more _ part_text F U NI N R) as (r' & bb & E & G1 & G2).
      exists r', (Some (DCsv (files v))). split; [apply E, csv_filled; reflexivity|]. split; [split; assumption|]. eexists. split; [reflexivity|].
      split; [exists true; exact (name_in N)|exists v; auto].
Qed.
Lemma loop_bdry_spec k r asked : good asked r -> ~ In (Bdry false k) asked ->
  exists r' l, loop_bdry to_double files content k r = Ok (r', l) /\ good (Bdry false k :: asked) r' /\ Forall2 (defines to_double files) (named (Bdry false k) is) l.
Proof.
  intros G NI. assert (V : k <> KEdges -> k <> KCsv -> 
    exists r' l, loop content rd_num set_num to_double 0%Q padding (Bdry false k) (fun p => Ok (as_definition k p)) r = Ok (r', l) /\ good (Bdry false k :: asked) r' /\
      Forall2 (defines to_double files) (named (Bdry false k) is) l).
  { intros K1 K2. destruct (loop_rows (filled_row to_double) rd_num set_num to_double 0%Q padding (Bdry false k) (as_definition k) r asked part_num (bdry_width false k K2) G NI
      (fun t vs => filled_read to_double _ t vs) (bdry_values false k K1 K2)) as (r' & l & E & G' & M).
    exists r', l. split; [exact E|]. split; [exact G'|]. assert (X : forall i, In i (named (Bdry false k) is) -> is_named (Bdry false k) i = true) by (intros i I; apply of_name, I).
    clear - M X K1 K2. induction M as [|i d is' l (q & rows & -> & M1 & M2) M IH]; [constructor|]. constructor; [|apply IH; intros j J; apply X; right; exact J].
    exact (defines_values false k i q rows K1 K2 (X i (or_introl eq_refl)) M1 M2). }
  destruct k; try (apply V; discriminate); clear V.
  - destruct (loop_rows (full_row to_integer) rd_int set_int to_integer 0%Z None (Bdry false KEdges) DEdges r asked part_int (bdry_width false KEdges ltac:(discriminate)) G NI
      (fun t vs => full_read to_integer _ t vs) (bdry_edges false)) as (r' & l & E & G' & M).
    exists r', l. split; [exact E|]. split; [exact G'|]. assert (X : forall i, In i (named (Bdry false KEdges) is) -> is_named (Bdry false KEdges) i = true) by (intros i I; apply of_name, I).
    clear - M X. induction M as [|i d is' l (q & rows & -> & M1 & M2) M IH]; [constructor|]. constructor; [|apply IH; intros j J; apply X; right; exact J].
    split; [exists false; apply X; left; reflexivity|exists rows; auto].
  - destruct G as (F & U). cbn [loop_bdry]. destruct (pick_rows (says to_text) _ (bdry_csv false)) as (vs & M).
    assert (X : forall i, In i (named (Bdry false KCsv) is) -> is_named (Bdry false KCsv) i = true) by (intros i I; apply of_name, I).
    assert (RD : Forall2 (reads to_text None (Bdry false KCsv)) (named (Bdry false KCsv) is) (map (fun v => [[v]]) vs)).
    { clear - M X. induction M as [|i v l vs A M IH]; [constructor|]. cbn [map]. constructor; [apply says_reads; [apply X; left; reflexivity|reflexivity|exact A]|apply IH; intros j J; apply X; right; exact J]. }
    destruct (loop_all content b is post PL AT rd_text set_text to_text [] None (Bdry false KCsv) (csv_of files) r asked _ (fun rows a => exists v, rows = [[v]] /\ a = DCsv (files v)) part_text F U NI RD) as (r' & l & E & G1 & G2 & D).
    { intros rows bb I. apply in_map_iff in I. destruct I as (v & <- & _). eexists. split; [apply csv_filled; reflexivity|]. exists v. auto. }
    exists r', l. split; [exact E|]. split; [split; assumption|].
    clear - M X D. revert l D. induction M as [|i v is' vs A M IH]; intros l D; inversion D as [|? a ? l' (w & W & ->) D']; subst; constructor.
    + injection W as <-. split; [exists false; apply X; left; reflexivity|exists v; auto].
    + apply IH; [intros j J; apply X; right; exact J|exact D'].
Qed.
Definition of_kinds (e : bool) (ks : list kind) : list item := flat_map (fun k => named (Bdry e k) is) ks.
Lemma exterior_spec : forall ks r asked, good asked r -> NoDup ks -> (forall k, In k ks -> ~ In (Bdry true k) asked) ->
  exists r' o, read_exterior to_double files content ks r = Ok (r', o) /\ good (map (Bdry true) ks ++ asked) r' /\
    match of_kinds true ks with [] => o = None | i :: _ => exists d, o = Some d /\ defines to_double files i d end.
Proof.
  induction ks as [|k ks IH]; intros r asked G ND NI; cbn [read_exterior]; [exists r, None; split; [reflexivity|split; [exact G|reflexivity]]|]. apply NoDup_cons_iff in ND; destruct ND as [N1 N2].
  destruct (ask_bdry_spec k r asked G (NI k (or_introl eq_refl))) as (r1 & o & E & G1 & M). rewrite E. cbn [obind fst snd]. unfold of_kinds. cbn [flat_map].
  destruct (named (Bdry true k) is) as [|i more] eqn:N.
  - subst o. destruct (IH r1 (Bdry true k :: asked) G1 N2) as (r' & o & E' & G' & M').
    { intros k' I [X|X]; [injection X as <-; exact (N1 I)|exact (NI k' (or_intror I) X)]. }
    exists r', o. split; [exact E'|]. split; [|exact M']. destruct G' as (F & U). split; [exact F|]. apply (untouched_more _ _ _ _) with (2 := U).
    intros x X. apply in_app_iff in X. cbn [map]. rewrite <- app_comm_cons. destruct X as [X|[X|X]]; [right; apply in_or_app; auto|left; exact X|right; apply in_or_app; auto].
  - destruct M as (d & -> & M). exists r1, (Some d). split; [reflexivity|]. cbn [app]. split; [|eauto]. destruct G1 as (F & U). split; [exact F|].
    apply (untouched_more _ _ _ _) with (2 := U). intros x [X|X]; [left; exact X|right; apply in_or_app; auto].
Qed.
Lemma interior_spec : forall ks r asked, good asked r -> NoDup ks -> (forall k, In k ks -> ~ In (Bdry false k) asked) ->
  exists r' l, read_interior to_double files content ks r = Ok (r', l) /\ good (map (Bdry false) ks ++ asked) r' /\ Forall2 (defines to_double files) (of_kinds false ks) l.
Proof.
  induction ks as [|k ks IH]; intros r asked G ND NI; cbn [read_interior]; [exists r, []; split; [reflexivity|split; [exact G|constructor]]|]. apply NoDup_cons_iff in ND; destruct ND as [N1 N2].
  destruct (loop_bdry_spec k r asked G (NI k (or_introl eq_refl))) as (r1 & l & E & G1 & M). rewrite E. cbn [obind fst snd].
  destruct (IH r1 (Bdry false k :: asked) G1 N2) as (r' & l' & E' & G' & M').
  { intros k' I [X|X]; [injection X as <-; exact (N1 I)|exact (NI k' (or_intror I) X)]. }
  rewrite E'. cbn [obind fst snd]. exists r', (l ++ l'). split; [reflexivity|]. split.
  - destruct G' as (F & U). split; [exact F|]. apply (untouched_more _ _ _ _) with (2 := U).
    intros x X. apply in_app_iff in X. cbn [map]. rewrite <- app_comm_cons. destruct X as [X|[X|X]]; [right; apply in_or_app; auto|left; exact X|right; apply in_or_app; auto].
  - unfold of_kinds. cbn [flat_map]. apply Forall2_app; assumption.
Qed.

Lemma ready n (P : item -> Prop) : (forall i, is_named n i = true -> readable to_double i -> P i) -> forall i, In i (named n is) -> P i.
Proof. intros H i I. apply of_name in I. apply H; apply I. Qed.
Ltac ready_tac := apply ready; let i := fresh in let N := fresh in let R := fresh in intros i N R; apply is_named_iff in N; destruct i; [..|destruct N]; subst; exact R.

Lemma kinds_once : NoDup kinds.
Proof. unfold kinds. repeat (constructor; [cbn; intuition discriminate|]). constructor. Qed.
Lemma first_default {T} (conv : text -> option T) n d o : match named n is with [] => o = None | i :: _ => exists v, o = Some v /\ says conv i v end ->
  first_says conv n is (Some d) (or_default d o).
Proof. unfold first_says. destruct (named n is); [intros ->; reflexivity|intros (v & -> & S); exact S]. Qed.
Ltac not_in := cbn; intuition discriminate.

Lemma block_spec r : good [] r -> complete is -> exists r' x, read_block to_double files content r = Ok (r', x) /\ fit_all r' /\ means to_double files is x.
Proof.
  intros G C.
  destruct (step_value rd_text set_text to_text [] None Prefix r [] part_text eq_refl G ltac:(not_in)) as (r1 & o1 & E1 & G1 & M1); [ready_tac|].
  destruct (step_value rd_text set_text to_text [] None Format r1 _ part_text eq_refl G1 ltac:(not_in)) as (r2 & o2 & E2 & G2 & M2); [ready_tac|].
  destruct (step_value rd_text set_text to_text [] None Size r2 _ part_text eq_refl G2 ltac:(not_in)) as (r3 & o3 & E3 & G3 & M3); [ready_tac|].
  assert (N1 := C Prefix (or_introl eq_refl)). assert (N2 := C Format (or_intror (or_introl eq_refl))). assert (N3 := C Size (or_intror (or_intror (or_introl eq_refl)))).
  assert (X1 : exists v, o1 = Some v /\ first_says to_text Prefix is None v) by (unfold first_says; destruct (named Prefix is); [contradiction|exact M1]).
  assert (X2 : exists v, o2 = Some v /\ first_says to_text Format is None v) by (unfold first_says; destruct (named Format is); [contradiction|exact M2]).
  assert (X3 : exists v, o3 = Some v /\ first_says to_text Size is None v) by (unfold first_says; destruct (named Size is); [contradiction|exact M3]).
  destruct X1 as (v1 & -> & X1), X2 as (v2 & -> & X2), X3 as (v3 & -> & X3). clear M1 M2 M3 N1 N2 N3.
  destruct (step_rows (filled_row to_double) rd_num set_num to_double 0%Q padding Vertices (fun p => p) r3 _ part_num ltac:(discriminate) G3 ltac:(not_in) (fun t vs => filled_read to_double _ t vs)) as (r4 & o4 & E4 & G4 & M4); [ready_tac|].
  destruct (step_rows (filled_row to_double) rd_num set_num to_double 0%Q padding FixedVertices (fun p => p) r4 _ part_num ltac:(discriminate) G4 ltac:(not_in) (fun t vs => filled_read to_double _ t vs)) as (r5 & o5 & E5 & G5 & M5); [ready_tac|].
  destruct (exterior_spec kinds r5 _ G5 kinds_once) as (r6 & o6 & E6 & G6 & M6); [intros k _; not_in|].
  destruct (interior_spec kinds r6 _ G6 kinds_once) as (r7 & l7 & E7 & G7 & M7); [intros k _; not_in|].
  destruct (loop_rows (full_row to_integer) rd_int set_int to_integer 0%Z None FixedEdges (fun p => p) r7 _ part_int ltac:(discriminate) G7 ltac:(not_in) (fun t vs => full_read to_integer _ t vs)) as (r8 & l8 & E8 & G8 & M8); [ready_tac|].
  destruct (loop_rows (full_row to_double) rd_num set_num to_double 0%Q None Layers (fun p => p) r8 _ part_num ltac:(discriminate) G8 ltac:(not_in) (fun t vs => full_read to_double _ t vs)) as (r9 & l9 & E9 & G9 & M9); [ready_tac|].
  destruct (step_value rd_int set_int to_integer 0%Z None Colour r9 _ part_int eq_refl G9 ltac:(not_in)) as (r10 & o10 & E10 & G10 & M10); [ready_tac|].
  destruct (step_value rd_text set_text to_text [] None Algorithm r10 _ part_text eq_refl G10 ltac:(not_in)) as (r11 & o11 & E11 & G11 & M11); [ready_tac|].
  destruct (step_value rd_int set_int to_count 0%Z None Refinements r11 _ part_int eq_refl G11 ltac:(not_in)) as (r12 & o12 & E12 & G12 & M12); [ready_tac|].
  destruct (step_value rd_int set_int to_count 0%Z None Iterations r12 _ part_int eq_refl G12 ltac:(not_in)) as (r13 & o13 & E13 & G13 & M13); [ready_tac|].
  destruct (step_value rd_bool set_bool to_bool false None SmoothLayers r13 _ part_bool eq_refl G13 ltac:(not_in)) as (r14 & o14 & E14 & G14 & M14); [ready_tac|].
  exists r14. eexists. split; [|split; [apply G14|]].
  - unfold read_block, mandatory, ask_text, ask_num, ask_int, ask_bool, loop_edges, loop_layers, whole.
    rewrite E1. cbn [obind]. rewrite E2. cbn [obind]. rewrite E3. cbn [obind]. rewrite E4. cbn [obind]. rewrite E5. cbn [obind]. rewrite E6. cbn [obind]. rewrite E7. cbn [obind].
    rewrite E8. cbn [obind]. rewrite E9. cbn [obind]. rewrite E10. cbn [obind]. rewrite E11. cbn [obind]. rewrite E12. cbn [obind]. rewrite E13. cbn [obind]. rewrite E14. cbn [obind]. reflexivity.
  - constructor; cbn [in_prefix in_format in_size in_vertices in_fixed in_exterior in_interior in_edges in_layers in_colour in_algorithm in_refinements in_iterations in_smooth]; try assumption.
    + clear - M8. induction M8 as [|i a l m (q & rows & -> & X) _ IH]; constructor; eauto.
    + clear - M9. induction M9 as [|i a l m (q & rows & -> & X) _ IH]; constructor; eauto.
    + apply first_default, M10.
    + apply (first_default to_text Algorithm (of_string "Triangulation")), M11.
    + apply first_default, M12.
    + apply first_default, M13.
    + apply first_default, M14.
Qed.
Lemma complete_dec (l : list item) : {complete l} + {~ complete l}.
Proof.
  destruct (named Prefix l) as [|x1 la] eqn:E1; [right; intros C; exact (C Prefix (or_introl eq_refl) E1)|].
  destruct (named Format l) as [|x2 lb] eqn:E2; [right; intros C; exact (C Format (or_intror (or_introl eq_refl)) E2)|].
  destruct (named Size l) as [|x3 lc] eqn:E3; [right; intros C; exact (C Size (or_intror (or_intror (or_introl eq_refl))) E3)|].
  left. intros n [<-|[<-|[<-|[]]]]; congruence.
Qed.
Lemma block_missing r : good [] r -> ~ complete is -> read_block to_double files content r = Throw.
Proof.
  intros G C.
  destruct (step_value rd_text set_text to_text [] None Prefix r [] part_text eq_refl G ltac:(not_in)) as (r1 & o1 & E1 & G1 & M1); [ready_tac|].
  destruct (step_value rd_text set_text to_text [] None Format r1 _ part_text eq_refl G1 ltac:(not_in)) as (r2 & o2 & E2 & G2 & M2); [ready_tac|].
  destruct (step_value rd_text set_text to_text [] None Size r2 _ part_text eq_refl G2 ltac:(not_in)) as (r3 & o3 & E3 & G3 & M3); [ready_tac|].
  unfold read_block, mandatory, ask_text. rewrite E1. cbn [obind]. destruct o1 as [v1|]; [|reflexivity].
  rewrite E2. cbn [obind]. destruct o2 as [v2|]; [|reflexivity]. rewrite E3. cbn [obind]. destruct o3 as [v3|]; [|reflexivity]. exfalso. apply C.
  intros n [<-|[<-|[<-|[]]]] Z; [rewrite Z in M1|rewrite Z in M2|rewrite Z in M3]; discriminate.
Qed.
End Block.

(* ---- a file ---- *)
Section File.
Variable to_double : text -> option Q.
Variable files : text -> option text.

Lemma fit_new b : fit_all (new_reader b).
Proof. intros n. unfold new_reader, new_para, fits. cbn. rewrite !repeat_length. tauto. Qed.
Lemma fit_rebound b r : fit_all r -> fit_all (rebound b r).
Proof. intros F n. exact (F n). Qed.
Lemma fresh_rebound b r : untouched b [] (rebound b r).
Proof. intros n _. repeat split. Qed.

Lemma blocks_spec content final : (forall l, In l final -> ~ mentions "Define mesh:" l) ->
  forall ss pre lead fuel bk r,
  content = pre ++ lead ++ flat_map section_lines ss ++ final -> bo_end (bk_b bk) <= length content ->
  from (restart content (bk_b bk)) = length pre -> (forall l, In l lead -> ~ mentions "Define mesh:" l) ->
  fit_all r -> Forall well_formed ss -> Forall (fun s => Forall (readable to_double) (se_items s)) ss -> length ss < fuel ->
  (Forall (fun s => complete (se_items s)) ss /\
   exists xs, read_blocks to_double files content fuel bk r = Ok xs /\ Forall2 (fun s x => means to_double files (se_items s) x) ss xs) \/
  (~ Forall (fun s => complete (se_items s)) ss /\ read_blocks to_double files content fuel bk r = Throw).
Proof.
  intros FN. induction ss as [|s ss IH]; intros pre lead fuel bk r EC L LD LN F W R LT.
  - destruct fuel as [|fuel]; [inversion LT|]. cbn [read_blocks]. destruct (query_block_spec mesh_key mesh_end content bk L) as (b' & q & Q & S). rewrite Q. cbn [obind fst snd].
    destruct q; [|left; split; [constructor|exists []; split; [reflexivity|constructor]]]. exfalso. destruct S as (l1 & l2 & (A & H & _) & _). rewrite LD in A.
    assert (X : exists l, nth_error (lead ++ final) (l1 - length pre) = Some l /\ exists i, occurs mesh_key l i).
    { apply (has_in mesh_key content pre (lead ++ final) [] l1); [|split; [lia|]|exact H].
      - rewrite EC. cbn [flat_map app]. rewrite app_nil_r. reflexivity.
      - rewrite app_length. rewrite EC in A. cbn [flat_map app] in A. rewrite !app_length in A. lia. }
    destruct X as (l & X & O). apply nth_error_In in X. apply in_app_iff in X. destruct X as [X|X]; [exact (LN l X O)|exact (FN l X O)].
  - destruct fuel as [|fuel]; [inversion LT|]. cbn [read_blocks].
    inversion W as [|? ? W1 W2]; subst x l. inversion R as [|? ? R1 R2]; subst x l.
    destruct W1 as [WB WO WOO WI WIN WC WCO]. destruct s as [before open its close]. cbn [se_before se_open se_items se_close] in *.
    set (rest := flat_map section_lines ss ++ final) in *. set (mid := lead ++ before). set (inner := flat_map lines its).
    assert (EC' : content = pre ++ mid ++ open :: inner ++ close :: rest).
    { rewrite EC. unfold rest, mid, inner. cbn [flat_map]. unfold section_lines at 1. cbn [se_before se_open se_items se_close]. rewrite <- !app_assoc. cbn [app]. rewrite <- !app_assoc. reflexivity. }
    set (l1 := length (pre ++ mid)). set (l2 := l1 + 1 + length inner).
    assert (LC : length content = l2 + 1 + length rest) by (rewrite EC'; unfold l2, l1; rewrite !app_length; cbn [length]; rewrite app_length; cbn [length]; lia).
    assert (LP : length pre <= l1) by (unfold l1; rewrite app_length; lia).
    assert (F1 : first_with mesh_key content (length pre) (length content) l1).
    { split; [unfold l2 in *; lia|]. split.
      - rewrite EC', app_assoc. apply has_at. exact WO.
      - intros m B H. apply (has_in _ _ pre mid (open :: inner ++ close :: rest)) in H; [|exact EC'|unfold l1 in B; rewrite app_length in B; exact B].
        destruct H as (l & H & O). apply nth_error_In in H. apply in_app_iff in H. destruct H as [H|H]; [exact (LN l H O)|exact (WB l H O)]. }
    assert (F2 : first_with mesh_end content (S l1) (length content) l2).
    { split; [unfold l2 in *; lia|]. split.
      - replace l2 with (length ((pre ++ mid) ++ open :: inner)) by (unfold l2, l1; rewrite (app_length (pre ++ mid)); cbn [length]; lia).
        replace content with (((pre ++ mid) ++ open :: inner) ++ close :: rest) by (rewrite EC', <- !app_assoc; reflexivity). apply has_at. exact WC.
      - intros m B H. apply (has_in _ _ ((pre ++ mid) ++ [open]) inner (close :: rest)) in H.
        + destruct H as (l & H & O). apply nth_error_In in H. exact (WIN l H O).
        + rewrite EC', <- !app_assoc. reflexivity.
        + rewrite app_length. cbn [length]. fold l1. unfold l2 in B. lia. }
    destruct (query_block_spec mesh_key mesh_end content bk L) as (b' & q & Q & S). rewrite LD in S. rewrite Q. cbn [obind fst snd]. destruct q.
    2:{ exfalso. destruct S as (S & _). destruct F1 as (A & B & _), F2 as (A' & B' & _). apply (S l1 l2); [lia|exact B|exact B']. }
    destruct S as (x1 & x2 & G1 & G2 & S1 & S2 & _). assert (Y1 := first_unique _ _ _ _ _ _ F1 G1). rewrite <- Y1 in G2, S1. assert (Y2 := first_unique _ _ _ _ _ _ F2 G2). rewrite <- Y2 in S2. clear G1 G2 Y1 Y2 x1 x2.
    rewrite S1, S2.
    assert (WI' : Forall placed (Plain open :: its)) by (constructor; [exact WOO|exact WI]).
    assert (AT' : at_rest content (BO l1 l2 0) (Plain open :: its) (close :: rest)).
    { exists (pre ++ mid). split; [|split].
      + unfold laid. rewrite EC'. cbn [flat_map lines app]. fold inner. rewrite <- !app_assoc. reflexivity.
      + unfold from. cbn. fold l1. lia.
      + cbn [bo_end]. unfold reach. cbn [flat_map lines app length]. fold inner l1. unfold l2. lia. }
    assert (RD' : Forall (readable to_double) (Plain open :: its)) by (constructor; [exact I|exact R1]).
    assert (GD' : good (BO l1 l2 0) [] (rebound (BO l1 l2 0) r)) by (split; [apply fit_rebound, F|apply fresh_rebound]).
    destruct (complete_dec its) as [C1|C1].
    2:{ right. split; [intros X; inversion X; contradiction|].
        rewrite (block_missing to_double files content (BO l1 l2 0) (Plain open :: its) (close :: rest) WI' AT' RD' _ GD' (fun C => C1 (fun n Hn => C n Hn))). reflexivity. }
    destruct (block_spec to_double files content (BO l1 l2 0) (Plain open :: its) (close :: rest) WI' AT' RD' _ GD' (fun n Hn => C1 n Hn)) as (r' & x & BL & F' & M).
    rewrite BL. cbn [obind fst snd].
    destruct (IH ((pre ++ mid) ++ open :: inner) [close] fuel b' r') as [[C2 (xs & E & MM)]|[C2 E]]; [| | | |exact F'|exact W2|exact R2|cbn [length] in LT; lia| |].
    + rewrite EC', <- !app_assoc. reflexivity.
    + rewrite S2. lia.
    + unfold restart. rewrite S2. destruct (Nat.ltb_spec l2 (length content)) as [_|Z]; [|lia]. unfold from. cbn [bo_start bo_index]. rewrite (app_length (pre ++ mid)). cbn [length]. fold l1. unfold l2. lia.
    + intros l [<-|[]]. exact WCO.
    + left. split; [constructor; [exact C1|exact C2]|]. rewrite E. cbn [obind]. exists (x :: xs). split; [reflexivity|]. constructor; [|exact MM]. cbn [se_items].
      destruct M. constructor; assumption.
    + right. split; [intros X; inversion X; contradiction|]. rewrite E. reflexivity.
Qed.
Lemma file_cases file ss final : read_content file = flat_map section_lines ss ++ final -> (forall l, In l final -> ~ mentions "Define mesh:" l) ->
  Forall well_formed ss -> Forall (fun s => Forall (readable to_double) (se_items s)) ss ->
  (Forall (fun s => complete (se_items s)) ss /\ exists xs, read_file to_double files file = Ok xs /\ Forall2 (fun s x => means to_double files (se_items s) x) ss xs) \/
  (~ Forall (fun s => complete (se_items s)) ss /\ read_file to_double files file = Throw).
Proof.
  intros E FN W R. unfold read_file. set (content := read_content file) in *. apply (blocks_spec content final FN ss [] []); try assumption.
  - cbn [bk_b bo_end]. lia.
  - cbn [bk_b]. rewrite restart_id; reflexivity.
  - intros l [].
  - apply fit_new.
  - rewrite E, app_length. assert (X : length ss <= length (flat_map section_lines ss)).
    { clear. induction ss as [|s ss IH]; [cbn; lia|]. cbn [flat_map]. rewrite app_length. unfold section_lines at 1. rewrite app_length. cbn [length]. lia. }
    lia.
Qed.
Lemma file_spec file ss final : read_content file = flat_map section_lines ss ++ final -> (forall l, In l final -> ~ mentions "Define mesh:" l) ->
  Forall well_formed ss -> Forall (fun s => Forall (readable to_double) (se_items s)) ss -> Forall (fun s => complete (se_items s)) ss ->
  exists xs, read_file to_double files file = Ok xs /\ Forall2 (fun s x => means to_double files (se_items s) x) ss xs.
Proof. intros E FN W R C. destruct (file_cases file ss final E FN W R) as [[_ X]|[X _]]; [exact X|contradiction]. Qed.
End File.
