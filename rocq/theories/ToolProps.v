(* C75: matrices keep their shape and their entries, the bar shows each progress
   once, splitting loses no text, time differences belong to the points counted. *)
From Coq Require Import List ZArith QArith Ascii Bool Lia Sorting.Sorted.
From Verif Require Import Base ToolModel ToolSpec ToolProofs.
Import ListNotations.
Open Scope Z_scope.

(* a.swap(b) leaves b with the entries of a and its own numbers of rows and columns:
   b has no entries where it should have some *)
Theorem C75_swap_refuted : exists os a b,
  mrun [] os = Ok [a; b] /\ shaped a /\ ~ shaped b /\ inside b 2 2 /\ m_get b 2 2 = UB.
Proof.
  exists [MNew 2 2; MNew 3 3; MSwap 0 1]. do 2 eexists. split; [vm_compute; reflexivity|].
  unfold shaped, inside. simpl. repeat split; try lia.
Qed.
(* the receiver is right in any case; both are for equal rows and columns *)
Theorem C75_swap_partial : forall a b, fst (m_swap a b) = b /\
  (m_rows a = m_rows b -> m_cols a = m_cols b -> snd (m_swap a b) = a).
Proof. intros [r c l] [r' c' l']. simpl. split; auto. intros -> ->. reflexivity. Qed.
Example C75_swap_case : m_swap (Mat 1 2 [5; 6]) (Mat 1 2 [7; 8]) = (Mat 1 2 [7; 8], Mat 1 2 [5; 6]).
Proof. reflexivity. Qed.

(* the source of a move keeps its numbers without entries; assigning a matrix to
   itself is undefined *)
Theorem C75_move_refuted : exists a b, mrun [] [MNew 2 2; MMove 0] = Ok [a; b] /\
  inside a 0 0 /\ m_get a 0 0 = UB /\ mstep [b] (MAssign 0 0) = UB.
Proof. do 2 eexists. split; [vm_compute; reflexivity|]. unfold inside. simpl. repeat split; lia. Qed.

(* without swap and move all matrices of a program keep their shape *)
Theorem C75_shape_partial : forall os st st', Forall shaped st -> Forall plain os -> mrun st os = Ok st' -> Forall shaped st'.
Proof. exact run_shaped. Qed.
Example C75_shape_case : exists m m', mrun [] [MNew 2 3; MSet 0 1 2 7; MCopy 0; MResize 0 3 3; MNew 1 1; MAssign 2 1] = Ok [m; m'; m'] /\
  Forall plain [MNew 2 3; MSet 0 1 2 7; MCopy 0; MResize 0 3 3; MNew 1 1; MAssign 2 1] /\
  m_get m 1 2 = Ok 7 /\ m_get m 2 2 = Ok 0 /\ m_get m' 1 2 = Ok 7.
Proof. do 2 eexists. split; [vm_compute; reflexivity|]. split; [repeat constructor; simpl; lia|]. repeat split. Qed.

(* entries of a matrix of right shape: each place can be read, a new matrix is zero,
   writing changes one place only *)
Theorem C75_new : forall r c, 0 <= r -> 0 <= c -> exists m, m_new r c = Ok m /\ shaped m /\ m_rows m = r /\ m_cols m = c /\
  forall i j, inside m i j -> m_get m i j = Ok 0.
Proof. exact new_shaped. Qed.
Theorem C75_entries : forall m, shaped m ->
  (forall i j, inside m i j -> exists x, m_get m i j = Ok x) /\
  (forall i j x, inside m i j -> exists m', m_set m i j x = Ok m' /\ shaped m' /\
     m_rows m' = m_rows m /\ m_cols m' = m_cols m /\ m_get m' i j = Ok x /\
     forall i' j', inside m i' j' -> (i', j') <> (i, j) -> m_get m' i' j' = m_get m i' j').
Proof. intros m S. split; intros; [apply get_ok|apply set_get]; auto. Qed.
Example C75_entries_case : shaped (Mat 2 3 [1; 2; 3; 4; 5; 6]) /\ inside (Mat 2 3 [1; 2; 3; 4; 5; 6]) 1 0 /\
  m_get (Mat 2 3 [1; 2; 3; 4; 5; 6]) 1 0 = Ok 4 /\
  m_set (Mat 2 3 [1; 2; 3; 4; 5; 6]) 1 0 9 = Ok (Mat 2 3 [1; 2; 3; 9; 5; 6]).
Proof. unfold shaped, inside; simpl. repeat split; lia. Qed.
(* a column beyond the last is not noticed: it is the first one of the next row *)
Theorem C75_columns_refuted : exists m, shaped m /\ ~ inside m 0 3 /\ m_get m 0 3 = m_get m 1 0 /\ m_get m 0 3 = Ok 4.
Proof. exists (Mat 2 3 [1; 2; 3; 4; 5; 6]). unfold shaped, inside; simpl. repeat split; lia. Qed.

(* another number of columns moves the entries *)
Theorem C75_resize_refuted : exists m m', shaped m /\ m_resize m 2 3 = Ok m' /\
  inside m 1 0 /\ inside m' 1 0 /\ m_get m 1 0 = Ok 3 /\ m_get m' 1 0 = Ok 4.
Proof. exists (Mat 2 2 [1; 2; 3; 4]). eexists. unfold shaped, inside; simpl. repeat split; try lia; reflexivity. Qed.
(* with the same number of columns they stay, and new rows are zero *)
Theorem C75_resize_partial : forall m r c, shaped m -> 0 <= r -> 0 <= c -> exists m', m_resize m r c = Ok m' /\ shaped m' /\
  m_rows m' = r /\ m_cols m' = c /\
  (c = m_cols m -> forall i j, inside m' i j -> m_get m' i j = if i <? m_rows m then m_get m i j else Ok 0).
Proof. exact resize_shaped. Qed.
Example C75_resize_case : m_resize (Mat 2 2 [1; 2; 3; 4]) 3 2 = Ok (Mat 3 2 [1; 2; 3; 4; 0; 0]) /\
  m_resize (Mat 2 2 [1; 2; 3; 4]) 1 2 = Ok (Mat 1 2 [1; 2]).
Proof. split; reflexivity. Qed.

(* The bar: what is written for a sequence of values are bars of the right width and
   filling, with numbers that rise up to the highest value seen, each of them one of
   the values; no value is left behind *)
Theorem C75_bar : forall w ps e out, 0 <= w -> bar_run (bar_new w) ps = (e, out) ->
  b_prog e = highest ps /\
  Forall (fun l => fst l = bar_text w (snd l) /\ 0 < snd l <= 100 /\ In (snd l) (map clamped ps)) out /\
  StronglySorted Z.lt (map snd out) /\
  (forall p, In p ps -> 0 < p -> exists l, In l out /\ clamped p <= snd l).
Proof.
  intros w ps e out Hw E.
  destruct (bar_run_inv ps (bar_new w) e out) as (A & B & C & D & F); simpl; auto; [lia|].
  split; [exact B|]. split; [exact C|]. split; [exact D|].
  intros p I Hp. destruct (F p I) as [L|L]; auto. simpl in L.
  unfold clamped in L. destruct (p <? 0) eqn:X; [apply Z.ltb_lt in X; lia|]. destruct (100 <? p); lia.
Qed.
(* the bar is as wide as it should be and full at the end *)
Theorem C75_bar_width : forall w p, 0 <= w -> 0 <= p <= 100 -> length (bar_text w p) = Z.to_nat w.
Proof.
  intros w p Hw Hp. unfold bar_text. rewrite app_length, repeat_length.
  assert (w * p / 100 <= w) by (apply Z.div_le_upper_bound; nia).
  assert (0 <= w * p / 100) by (apply Z.div_pos; nia).
  destruct (Z.to_nat w - Z.to_nat (w * p / 100))%nat eqn:E; simpl; rewrite ?repeat_length; lia.
Qed.
Theorem C75_bar_full : forall w, 0 <= w -> bar_text w 100 = repeat "="%char (Z.to_nat w).
Proof.
  intros w Hw. unfold bar_text. rewrite Z.div_mul by lia. rewrite Nat.sub_diag. apply app_nil_r.
Qed.
Example C75_bar_case : bar_run (bar_new 4) [-5; 50; 30; 120; 100] =
  (Bar 4 100 false, [(["="; "="; ">"; " "]%char, 50); (["="; "="; "="; "="]%char, 100)]).
Proof. vm_compute. reflexivity. Qed.

(* Splitting: joining the items does not give the text back if it ends with the
   delimiter *)
Theorem C75_split_refuted : exists s d l, split s d false = Some l /\ join d l <> s.
Proof. exists ["a"; ","]%char, ","%char. eexists. split; [vm_compute; reflexivity|]. vm_compute. discriminate. Qed.
(* otherwise it does; no item contains the delimiter, and the loop ends *)
Theorem C75_split_partial : forall s d, exists l, split s d false = Some l /\
  Forall (fun a => ~ In d a) l /\
  (join d l = s \/ join d l ++ [d] = s) /\
  (last s d <> d -> join d l = s).
Proof.
  intros s d. destruct (loop_keep (S (length s)) d s) as (l & A & B & _ & C); [lia|].
  exists l. split; [exact A|]. split; [exact B|]. split; [exact C|].
  intro L. destruct C as [C|C]; auto. exfalso. apply L. rewrite <- C. apply last_last.
Qed.
(* by default the same items without the empty ones *)
Theorem C75_split_default : forall s d l, split s d false = Some l -> split s d true = Some (filter nonempty l).
Proof. intros s d l. apply loop_remove. Qed.
Example C75_split_case : exists l, split ["a"; ","; ","; "b"; "c"; ","; "d"]%char ","%char false = Some l /\
  l = [["a"]; []; ["b"; "c"]; ["d"]]%char /\
  split ["a"; ","; ","; "b"; "c"; ","; "d"]%char ","%char true = Some [["a"]; ["b"; "c"]; ["d"]]%char.
Proof. eexists. split; [vm_compute; reflexivity|]. split; vm_compute; reflexivity. Qed.

(* The timer: a difference exists exactly between two points counted one after the
   other; others throw *)
Theorem C75_timer : forall tv i,
  (timer_delta tv i = Throw <-> (i < 0 \/ Z.of_nat (length tv) - 2 < i)) /\
  (0 <= i -> i + 1 < Z.of_nat (length tv) -> exists t0 t1,
     nth_error tv (Z.to_nat i) = Some t0 /\ nth_error tv (S (Z.to_nat i)) = Some t1 /\ timer_delta tv i = Ok (t1 - t0)%Q).
Proof. intros tv i. split; [apply delta_throw|apply delta_ok]. Qed.
(* counting does not change the differences there are *)
Theorem C75_timer_count : forall tv now i, 0 <= i -> i + 1 < Z.of_nat (length tv) ->
  timer_delta (timer_count tv now) i = timer_delta tv i.
Proof.
  intros tv now i H0 H1. destruct (delta_ok tv i H0 H1) as (t0 & t1 & A & B & ->).
  destruct (delta_ok (timer_count tv now) i H0) as (u0 & u1 & A' & B' & ->).
  - unfold timer_count. rewrite app_length. simpl. lia.
  - unfold timer_count in *. rewrite nth_error_app1 in A', B' by lia. congruence.
Qed.
Example C75_timer_case : timer_delta (timer_count (timer_count [] 1%Q) 3%Q) 0 = Ok (3 - 1)%Q /\ timer_delta [1%Q] 0 = Throw.
Proof. split; reflexivity. Qed.

Print Assumptions C75_swap_refuted.
Print Assumptions C75_swap_partial.
Print Assumptions C75_move_refuted.
Print Assumptions C75_shape_partial.
Print Assumptions C75_new.
Print Assumptions C75_entries.
Print Assumptions C75_columns_refuted.
Print Assumptions C75_resize_refuted.
Print Assumptions C75_resize_partial.
Print Assumptions C75_bar.
Print Assumptions C75_bar_width.
Print Assumptions C75_bar_full.
Print Assumptions C75_split_refuted.
Print Assumptions C75_split_partial.
Print Assumptions C75_split_default.
Print Assumptions C75_timer.
Print Assumptions C75_timer_count.
