(* What the small utility classes are for. *)
From Coq Require Import List ZArith QArith Ascii Bool Sorting.Sorted.
From Verif Require Import Base ToolModel.
Import ListNotations.
Open Scope Z_scope.

(* a matrix has as many entries as its rows and columns say *)
Definition shaped (m : matrix) : Prop :=
  0 <= m_rows m /\ 0 <= m_cols m /\ Z.of_nat (length (m_data m)) = m_rows m * m_cols m.
Definition inside (m : matrix) (i j : Z) : Prop := 0 <= i < m_rows m /\ 0 <= j < m_cols m.
(* programs without swap and move, sizes not negative *)
Definition plain (o : mop) : Prop :=
  match o with
  | MNew r c | MResize _ r c => 0 <= r /\ 0 <= c
  | MMove _ | MSwap _ _ => False
  | _ => True
  end.

(* the bar for p percent of width w: a share of p percent is filled *)
Definition bar_text (w p : Z) : list ascii :=
  let n := Z.to_nat (w * p / 100) in
  repeat "="%char n ++
  match (Z.to_nat w - n)%nat with O => [] | S k => ">"%char :: repeat " "%char k end.
Definition clamped (p : Z) : Z := if p <? 0 then 0 else if 100 <? p then 100 else p.
Definition highest (ps : list Z) : Z := fold_left (fun a p => Z.max a (clamped p)) ps 0.

(* the items with the delimiter between them *)
Fixpoint join (d : ascii) (l : list (list ascii)) : list ascii :=
  match l with
  | [] => []
  | [a] => a
  | a :: t => a ++ d :: join d t
  end.

Definition nonempty (a : list ascii) : bool := match a with [] => false | _ => true end.
