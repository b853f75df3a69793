(* The small utility classes: src/utils/Matrix.h, ProgressBar.h, StringOps.h (split)
   and Timer.h.  Integers of type int are mathematical integers. *)
From Coq Require Import List ZArith QArith Ascii Bool.
From Verif Require Import Base.
Import ListNotations.
Open Scope Z_scope.

Fixpoint put {A} (k : nat) (x : A) (l : list A) : list A :=
  match l, k with [], _ => [] | _ :: t, O => x :: t | y :: t, S k' => y :: put k' x t end.

(* ---- Matrix.h:22-130, the entries are integers ---- *)
Record matrix := Mat { m_rows : Z; m_cols : Z; m_data : list Z }.

(* 33-37: data_(r*c, 0); a negative size converts to a size_t beyond max_size and
   the vector throws *)
Definition m_new (r c : Z) : outcome matrix :=
  if r * c <? 0 then Throw else Ok (Mat r c (repeat 0 (Z.to_nat (r * c)))).
(* 83-87: m[i][j], i.e. the entry at (data_.data() + i*cols_ + j); the pointer to the row has to
   lie in the array or one past it *)
Definition m_index (m : matrix) (i j : Z) : outcome nat :=
  let n := Z.of_nat (length (m_data m)) in
  let row := i * m_cols m in
  if (0 <=? row) && (row <=? n) && (0 <=? row + j) && (row + j <? n) then Ok (Z.to_nat (row + j)) else UB.
Definition m_get (m : matrix) (i j : Z) : outcome Z :=
  match m_index m i j with
  | Ok k => match nth_error (m_data m) k with Some x => Ok x | None => UB end
  | UB => UB | Throw => Throw
  end.
Definition m_set (m : matrix) (i j x : Z) : outcome matrix :=
  match m_index m i j with
  | Ok k => Ok (Mat (m_rows m) (m_cols m) (put k x (m_data m)))
  | UB => UB | Throw => Throw
  end.
(* 103-108: std::vector::resize keeps the leading entries and appends zeros *)
Definition m_resize (m : matrix) (r c : Z) : outcome matrix :=
  if r * c <? 0 then Throw
  else let n := Z.to_nat (r * c) in
       Ok (Mat r c (firstn n (m_data m) ++ repeat 0 (n - length (m_data m)))).
(* 92-98: a.swap(b) gives both afterwards; rows_ and cols_ of b are not written *)
Definition m_swap (a b : matrix) : matrix * matrix :=
  (Mat (m_rows b) (m_cols b) (m_data b), Mat (m_rows b) (m_cols b) (m_data a)).

(* Programs over a list of matrices.  NEW 33-37, COPY 60-64, MOVE 66-70 (the source
   keeps rows_ and cols_, its vector is empty), ASSIGN 75-81 (assign with iterators
   into the vector itself is undefined), SWAP, RESIZE, SET *)
Inductive mop :=
| MNew (r c : Z) | MCopy (i : nat) | MMove (i : nat) | MAssign (i j : nat)
| MSwap (i j : nat) | MResize (i : nat) (r c : Z) | MSet (i : nat) (a b x : Z).
Definition with_m (st : list matrix) (i : nat) (f : matrix -> outcome (list matrix)) : outcome (list matrix) :=
  match nth_error st i with Some m => f m | None => UB end.
Definition lift {A B} (o : outcome A) (f : A -> B) : outcome B :=
  match o with Ok a => Ok (f a) | UB => UB | Throw => Throw end.
Definition mstep (st : list matrix) (o : mop) : outcome (list matrix) :=
  match o with
  | MNew r c => lift (m_new r c) (fun m => st ++ [m])
  | MCopy i => with_m st i (fun m => Ok (st ++ [m]))
  | MMove i => with_m st i (fun m => Ok (put i (Mat (m_rows m) (m_cols m) []) st ++ [m]))
  | MAssign i j => with_m st j (fun m => with_m st i (fun _ => if Nat.eqb i j then UB else Ok (put i m st)))
  | MSwap i j => with_m st i (fun a => with_m st j (fun b => Ok (put j (snd (m_swap a b)) (put i (fst (m_swap a b)) st))))
  | MResize i r c => with_m st i (fun m => lift (m_resize m r c) (fun m' => put i m' st))
  | MSet i a b x => with_m st i (fun m => lift (m_set m a b x) (fun m' => put i m' st))
  end.
Fixpoint mrun (st : list matrix) (os : list mop) : outcome (list matrix) :=
  match os with
  | [] => Ok st
  | o :: t => match mstep st o with Ok st' => mrun st' t | UB => UB | Throw => Throw end
  end.

(* ---- ProgressBar.h:20-72; old_progress_ is never read and left out ---- *)
Record bar := Bar { b_width : Z; b_prog : Z; b_upd : bool }.
(* 24-26 with 67-70 *)
Definition bar_new (w : Z) : bar := Bar w 0 false.
(* 31-44 update *)
Definition bar_update (b : bar) (prog : Z) : bar :=
  let p := Z.min 100 (Z.max 0 prog) in
  if p <=? b_prog b then Bar (b_width b) (b_prog b) false else Bar (b_width b) p true.
(* 49-65 show: the characters between the brackets and the number behind them,
   None if nothing is written; the division truncates *)
Definition bar_cell (pos i : Z) : ascii :=
  if i <? pos then "="%char else if i =? pos then ">"%char else " "%char.
Definition bar_show (b : bar) : option (list ascii * Z) :=
  if b_upd b
  then let pos := Z.quot (b_width b * b_prog b) 100 in
       Some (map (fun i => bar_cell pos (Z.of_nat i)) (seq 0 (Z.to_nat (b_width b))), b_prog b)
  else None.
(* MeshingStrategy.h:114-121 update_progress_bar: an update and a show for each
   value; what is written for a sequence of values *)
Fixpoint bar_run (b : bar) (ps : list Z) : bar * list (list ascii * Z) :=
  match ps with
  | [] => (b, [])
  | p :: t =>
      let b' := bar_update b p in
      let (e, out) := bar_run b' t in
      (e, match bar_show b' with Some l => l :: out | None => out end)
  end.

(* ---- StringOps.h:23-57 split ---- *)
(* std::getline(iss, item, delim): None if no character is left; otherwise the item
   and the characters behind the delimiter *)
Fixpoint item (d : ascii) (s : list ascii) : list ascii * list ascii :=
  match s with
  | [] => ([], [])
  | c :: t => if Ascii.eqb c d then ([], t) else let (a, r) := item d t in (c :: a, r)
  end.
Definition getline (d : ascii) (s : list ascii) : option (list ascii * list ascii) :=
  match s with [] => None | _ => Some (item d s) end.
(* the loops 29-40; None when the fuel is used up *)
Fixpoint split_loop (fuel : nat) (d : ascii) (rm : bool) (s : list ascii) : option (list (list ascii)) :=
  match fuel with
  | O => None
  | S k =>
      match getline d s with
      | None => Some []
      | Some (a, r) =>
          match split_loop k d rm r with
          | None => None
          | Some l => Some (if rm then match a with [] => l | _ => a :: l end else a :: l)
          end
      end
  end.
(* 51-57 *)
Definition split (s : list ascii) (d : ascii) (rm : bool) : option (list (list ascii)) :=
  split_loop (S (length s)) d rm s.

(* ---- Timer.h:18-62, points of time in seconds ---- *)
Definition timer_count (tv : list Q) (now : Q) : list Q := tv ++ [now].
Definition timer_delta (tv : list Q) (i : Z) : outcome Q :=
  if (Z.of_nat (length tv) - 2 <? i) || (i <? 0) then Throw
  else match nth_error tv (Z.to_nat (i + 1)), nth_error tv (Z.to_nat i) with
       | Some t1, Some t0 => Ok (t1 - t0)%Q
       | _, _ => UB
       end.
