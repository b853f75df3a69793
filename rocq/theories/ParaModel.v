(* Executable model of the parameter file reader (src/utils/ParaReader.h).  Lines are
   lists of characters (CsvModel). *)
From Coq Require Import Ascii String.
From Verif Require Import Base CsvModel.

(* std::string::find(key, pos): the first occurrence at or behind [pos] *)
Fixpoint is_prefix (k s : text) : bool :=
  match k, s with
  | [], _ => true
  | a :: k', b :: s' => Ascii.eqb a b && is_prefix k' s'
  | _ :: _, [] => false
  end.
Fixpoint find_here (k s : text) (i : nat) : option nat :=
  if is_prefix k s then Some i
  else match s with [] => None | _ :: s' => find_here k s' (S i) end.
Definition str_find (k s : text) (pos : nat) : option nat :=
  if Nat.leb pos (length s) then find_here k (skipn pos s) pos else None.

(* ParaReader.h:159-174: the last occurrence in a line.  Throw: more than [n]
   iterations *)
Fixpoint last_occurrence (n : nat) (k s : text) (pos : nat) (found : option nat) : outcome (option nat) :=
  match n with
  | O => Throw
  | S n' => match str_find k s pos with
            | None => Ok found
            | Some i => last_occurrence n' k s (i + 1) (Some i)
            end
  end.

(* ParaReader.h:193-203 block_start_, block_end_, block_index_; the casts between
   int and size_t are not modelled *)
Record bounds := BO { bo_start : nat; bo_end : nat; bo_index : nat }.

(* ParaReader.h:155-182 the loop over [n] lines from [cur] on *)
Fixpoint search_lines (n cur : nat) (k : text) (content : list text) : outcome (option (nat * nat)) :=
  match n with
  | O => Ok None
  | S n' => match nth_error content cur with
            | None => UB
            | Some line => obind (last_occurrence (S (S (length line))) k line 0 None) (fun r =>
                           match r with
                           | Some p => Ok (Some (cur, p))
                           | None => search_lines n' (S cur) k content
                           end)
            end
  end.
(* ParaReader.h:133-196 get_query_data: line index and position *)
Definition get_query_data (k : text) (content : list text) (b : bounds) : outcome (bounds * option (nat * nat)) :=
  if Nat.leb (bo_end b) (bo_index b) then Ok (b, None) else
  let cur := (bo_start b + bo_index b)%nat in
  obind (search_lines (bo_end b - cur) cur k content) (fun r =>
  match r with
  | Some (l, p) => Ok (BO (bo_start b) (bo_end b) (l + 1 - bo_start b), Some (l, p))
  | None => Ok (b, None)
  end).

(* ---- text behind a key ---- *)
Definition comment : ascii := "#"%char.
Definition blank : ascii := " "%char.
Fixpoint before (c : ascii) (s : text) : text :=
  match s with [] => [] | a :: r => if Ascii.eqb a c then [] else a :: before c r end.
Definition without (c : ascii) (s : text) : text := filter (fun a => negb (Ascii.eqb a c)) s.
(* ParaReader.h:660-673 and 699-712 *)
Definition value_text (k line : text) (pos : nat) : text :=
  without blank (before comment (skipn (pos + length k) line)).
(* ParaReader.h:812-816: brackets are removed *)
Definition clean_cell (s : text) : text :=
  without "]"%char (without "["%char (without ")"%char (without "("%char s))).

Section Para.
Variable T : Type.
(* string_to_single_value; None is the exception *)
Variable conv : text -> option T.
Variable init : T.                                     (* T{} *)

(* ParaReader.h:207-291 *)
Record para := PR { pr_b : bounds; pr_found : bool; pr_ncol : nat; pr_nrow : nat; pr_vals : list T }.
Definition with_bounds (p : para) (b : bounds) : para := PR b (pr_found p) (pr_ncol p) (pr_nrow p) (pr_vals p).
Definition is_found (p : para) : para := PR (pr_b p) true (pr_ncol p) (pr_nrow p) (pr_vals p).
Fixpoint put (i : nat) (v : T) (l : list T) : list T :=
  match l, i with
  | [], _ => []
  | _ :: r, O => v :: r
  | x :: r, S j => x :: put j v r
  end.
(* 258-264 *)
Definition set_value (p : para) (i : nat) (v : T) : para :=
  if Nat.leb (pr_ncol p * pr_nrow p) i then p else PR (pr_b p) (pr_found p) (pr_ncol p) (pr_nrow p) (put i v (pr_vals p)).
(* 236-242; None: values_[0] of an empty vector *)
Definition get_value (p : para) (i j : nat) : option T :=
  let k := (j * pr_ncol p + i)%nat in
  if Nat.leb (pr_ncol p * pr_nrow p) k then nth_error (pr_vals p) 0 else nth_error (pr_vals p) k.
(* 247-251: vector::resize keeps the values in front *)
Definition resize (p : para) : para :=
  PR (pr_b p) (pr_found p) (pr_ncol p) 1 (firstn (pr_ncol p) (pr_vals p) ++ repeat init (pr_ncol p - length (pr_vals p))).
(* 275-283, for a matrix *)
Definition add_row (p : para) : para :=
  PR (pr_b p) (pr_found p) (pr_ncol p) (S (pr_nrow p)) (pr_vals p ++ repeat init (pr_ncol p)).

(* 652-686 query_scalar *)
Definition query_scalar (k : text) (content : list text) (p : para) : outcome (para * bool) :=
  obind (get_query_data k content (pr_b p)) (fun x =>
  let p := with_bounds p (fst x) in
  match snd x with
  | None => Ok (p, false)
  | Some (l, pos) =>
      match nth_error content l with
      | None => UB
      | Some line => match conv (value_text k line pos) with
                     | Some v => Ok (is_found (set_value p 0 v), true)
                     | None => Ok (p, false)
                     end
      end
  end).

(* 793-833 process_vector_query and 839-887 process_matrix_query for one line; [d]
   is the default value if there is one *)
Definition cell_values (d : option T) (c : text) : list T :=
  match conv (clean_cell c) with
  | Some v => [v]
  | None => match d with Some v => [v] | None => [] end
  end.
Definition line_values (d : option T) (ncol : nat) (line : text) : list T :=
  let vs := flat_map (cell_values d) (cells_of line) in
  match d with Some v => vs ++ repeat v (ncol - length vs) | None => vs end.
Fixpoint set_values (p : para) (i : nat) (vs : list T) : para :=
  match vs with [] => p | v :: r => set_values (set_value p i v) (S i) r end.
(* 692-732 query_vector *)
Definition query_vector (k : text) (d : option T) (content : list text) (p : para) : outcome (para * bool) :=
  obind (get_query_data k content (pr_b p)) (fun x =>
  let p := with_bounds p (fst x) in
  match snd x with
  | None => Ok (p, false)
  | Some (l, pos) =>
      match nth_error content l with
      | None => UB
      | Some line =>
          let out := line_values d (pr_ncol p) (value_text k line pos) in
          if Nat.ltb (length out) (pr_ncol p) then Ok (p, false)
          else Ok (is_found (set_values p 0 (firstn (pr_ncol p) out)), true)
      end
  end).

(* 769-780: [n] rows are left *)
Fixpoint fill_rows (n : nat) (p : para) (j : nat) (out : list T) : para :=
  match n with
  | O => p
  | S n' => let p := set_values p (j * pr_ncol p) (firstn (pr_ncol p) (skipn (j * pr_ncol p) out)) in
            fill_rows n' (match n' with O => p | S _ => add_row p end) (S j) out
  end.
(* 738-788 query_matrix; with no columns the division is undefined *)
Definition query_matrix (k_start k_end : text) (d : option T) (content : list text) (p : para) : outcome (para * bool) :=
  obind (get_query_data k_start content (pr_b p)) (fun x =>
  let p := with_bounds p (fst x) in
  match snd x with
  | None => Ok (p, false)
  | Some (l1, _) =>
      obind (get_query_data k_end content (pr_b p)) (fun y =>
      let p := with_bounds p (fst y) in
      match snd y with
      | None => Ok (p, false)
      | Some (l2, _) =>
          let out := flat_map (line_values d (pr_ncol p)) (firstn (l2 - (l1 + 1)) (skipn (l1 + 1) content)) in
          if Nat.eqb (pr_ncol p) 0 then UB else
          let n := Nat.div (length out) (pr_ncol p) in
          if negb (Nat.eqb (length out) (pr_ncol p * n)) then Ok (p, false)
          else Ok (is_found (fill_rows n (resize p) 0 out), true)
      end)
  end).
End Para.
Arguments PR {T}. Arguments pr_b {T}. Arguments pr_found {T}. Arguments pr_ncol {T}. Arguments pr_nrow {T}. Arguments pr_vals {T}.
Arguments with_bounds {T}. Arguments set_value {T}. Arguments get_value {T}. Arguments is_found {T}. Arguments put {T}. Arguments set_values {T}.

(* 603-644 ParaBlock::query of a block: its bounds and those of its
   parameters *)
Record block := BK { bk_b : bounds; bk_paras : list bounds }.
Definition query_block (k_start k_end : text) (content : list text) (b : block) : outcome (block * bool) :=
  let b0 := if Nat.ltb (bo_end (bk_b b)) (length content) then BO (bo_end (bk_b b)) (length content) 0 else bk_b b in
  obind (get_query_data k_start content b0) (fun x =>
  match snd x with
  | None => Ok (BK (fst x) (bk_paras b), false)
  | Some (l1, _) =>
      obind (get_query_data k_end content (fst x)) (fun y =>
      match snd y with
      | None => Ok (BK (fst y) (bk_paras b), false)
      | Some (l2, _) => Ok (BK (BO l1 l2 (bo_index (fst y))) (map (fun _ => BO l1 l2 0) (bk_paras b)), true)
      end)
  end).

(* 918-949 read_content: lines that start with a comment are left out *)
Definition is_comment (line : text) : bool :=
  match filter (fun c => negb (is_space c)) line with c :: _ => Ascii.eqb c comment | [] => false end.
Definition read_content (file : text) : list text := filter (fun l => negb (is_comment l)) (lines_of file).
