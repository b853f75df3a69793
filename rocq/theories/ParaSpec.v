(* Independent vocabulary for the properties of the parameter file reader (C40, C41). *)
From Coq Require Import Ascii String Sorted.
From Verif Require Import Base CsvModel.

(* [k] stands in [s] at position [i] *)
Definition occurs (k s : text) (i : nat) : Prop := exists a b, s = a ++ k ++ b /\ length a = i.
Definition last_at (k s : text) (i : nat) : Prop := occurs k s i /\ forall j, occurs k s j -> (j <= i)%nat.
(* line [n] of the file contains the key *)
Definition has (k : text) (content : list text) (n : nat) : Prop :=
  exists line i, nth_error content n = Some line /\ occurs k line i.
(* [l]: all lines from [lo] to [hi] (exclusive) with the key, in file order *)
Definition lines_with (k : text) (content : list text) (lo hi : nat) (l : list nat) : Prop :=
  StronglySorted lt l /\ forall n, In n l <-> (lo <= n < hi)%nat /\ has k content n.
Definition first_with (k : text) (content : list text) (lo hi n : nat) : Prop :=
  (lo <= n < hi)%nat /\ has k content n /\ forall m, (lo <= m < n)%nat -> ~ has k content m.
(* a line number with the position of the last key in it *)
Definition hit (k : text) (content : list text) (n : nat) (r : nat * nat) : Prop :=
  fst r = n /\ exists line, nth_error content n = Some line /\ last_at k line (snd r).

(* [t] is [s] without the characters [c] *)
Inductive dropped (c : ascii) : text -> text -> Prop :=
| dr_nil : dropped c [] []
| dr_skip s t : dropped c s t -> dropped c (c :: s) t
| dr_keep a s t : a <> c -> dropped c s t -> dropped c (a :: s) (a :: t).
(* [t] is the part of [s] in front of the first [c] *)
Definition upto (c : ascii) (s t : text) : Prop := ~ In c t /\ (s = t \/ exists r, s = t ++ c :: r).
(* the text [t] that stands behind the last key of a line, without comment and blanks *)
Definition value_of (k line t : text) : Prop :=
  exists a rest u, line = a ++ k ++ rest /\ last_at k line (length a) /\ upto "#"%char rest u /\ dropped " "%char u t.

(* the blocks of a file from line [lo] on: a line with the start key and the next later line
   with the end key; the next block is looked for from that line on *)
Inductive blocks (k1 k2 : text) (content : list text) : nat -> list (nat * nat) -> Prop :=
| bl_none lo : (forall a b, (lo <= a < b)%nat -> has k1 content a -> has k2 content b -> False) -> blocks k1 k2 content lo []
| bl_next lo a b rest : first_with k1 content lo (length content) a -> first_with k2 content (S a) (length content) b ->
    blocks k1 k2 content b rest -> blocks k1 k2 content lo ((a, b) :: rest).

(* two files agree on the lines from [lo] to [hi] *)
Definition agree (lo hi : nat) (c1 c2 : list text) : Prop := forall n, (lo <= n < hi)%nat -> nth_error c1 n = nth_error c2 n.

(* a row of a matrix: cells separated by commas; what is left of a cell without brackets is a value *)
Definition unbracketed (c t : text) : Prop :=
  exists t1 t2 t3, dropped "("%char c t1 /\ dropped ")"%char t1 t2 /\ dropped "["%char t2 t3 /\ dropped "]"%char t3 t.
Fixpoint separated (cells : list text) : text :=
  match cells with [] => [] | [c] => c | c :: r => c ++ ","%char :: separated r end.
Definition row_of {T} (conv : text -> option T) (line : text) (vs : list T) : Prop :=
  exists cells, line = separated cells /\ cells <> [] /\ last cells [] <> [] /\
    (forall c, In c cells -> ~ In ","%char c) /\
    Forall2 (fun c v => exists t, unbracketed c t /\ conv t = Some v) cells vs.
(* the lines strictly between two lines of a file *)
Definition between (content : list text) (l1 l2 : nat) (ls : list text) : Prop :=
  exists A s e B, content = A ++ s :: ls ++ e :: B /\ length A = l1 /\ S (length A + length ls) = l2.
(* a row that may lack values: [d] stands for what is missing *)
Definition padded_row {T} (conv : text -> option T) (d : T) (n : nat) (line : text) (vs : list T) : Prop :=
  exists cells us, line = separated cells /\ cells <> [] /\ last cells [] <> [] /\
    (forall c, In c cells -> ~ In ","%char c) /\ (length cells <= n)%nat /\
    Forall2 (fun c v => exists t, unbracketed c t /\ (conv t = Some v \/ conv t = None /\ v = d)) cells us /\
    vs = us ++ repeat d (n - length us).
