(* What the point-in-boundary test of EdgeList.h is measured against:
   membership in the triangles of a triangulation. *)
From Verif Require Import Base GeomSpec BdryModel.
Open Scope Q_scope.

(* o is strictly inside the triangle a,b,c (in either orientation) *)
Definition inside_tri (o a b c : vec2) : Prop :=
  (0 < det a b o /\ 0 < det b c o /\ 0 < det c a o) \/
  (det a b o < 0 /\ det b c o < 0 /\ det c a o < 0).

(* o is on none of the three lines through the sides *)
Definition off_lines (o : vec2) (es : list (vec2 * vec2)) : Prop :=
  forall e, In e es -> ~ det (fst e) (snd e) o == 0.

(* the relative tolerance of EQ() plays no role for o: a row that is EQ to the
   row of o is the row of o *)
Definition exact_rows (o : vec2) (es : list (vec2 * vec2)) : Prop :=
  forall e, In e es ->
    (EQd (vy o) (vy (fst e)) = true -> vy o == vy (fst e)) /\
    (EQd (vy o) (vy (snd e)) = true -> vy o == vy (snd e)).

(* a polygon cut into triangles along diagonals *)
Inductive cut_up : list vec2 -> list (vec2 * vec2 * vec2) -> Prop :=
| cut_tri a b c : cut_up [a; b; c] [(a, b, c)]
| cut_diag a l1 b l2 T1 T2 :
    cut_up (a :: l1 ++ [b]) T1 -> cut_up (b :: l2 ++ [a]) T2 ->
    cut_up (a :: l1 ++ b :: l2) (T1 ++ T2)
| cut_turn l1 l2 T : cut_up (l1 ++ l2) T -> cut_up (l2 ++ l1) T.

(* the number of triangles that contain o is odd; [inside] lists for each
   triangle whether it does *)
Definition counts (o : vec2) (T : list (vec2 * vec2 * vec2)) (inside : list bool) : Prop :=
  Forall2 (fun t b => b = true <-> match t with (p, q, r) => inside_tri o p q r end) T inside.
Definition odd_number (l : list bool) : bool := fold_right xorb false l.

(* all triangle sides *)
Definition tri_sides (T : list (vec2 * vec2 * vec2)) : list (vec2 * vec2) :=
  flat_map (fun t => match t with (p, q, r) => sides3 p q r end) T.
