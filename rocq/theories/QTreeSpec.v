(* Abstract specification of a container of located items: a plain list of
   (item, location) pairs.  Independent of the quadtree. *)
From Verif Require Import Base.
From Verif Require Import QTreeModel.   (* only [id], [cop], [cret], [insert_at] *)

Record aitem := AI { ai_id : id; ai_xy : vec2 }.

Record astate := AS { as_items : list aitem; as_next : id }.

Definition a_init : astate := AS [] 0%nat.

(* the square covered by the container *)
Definition in_square (s : Q) (v : vec2) : Prop :=
  - (s / 2) <= vx v /\ vx v <= s / 2 /\ - (s / 2) <= vy v /\ vy v <= s / 2.

(* closed rectangle / open disc *)
Definition in_rectangle (ll ur v : vec2) : Prop :=
  vx ll <= vx v /\ vx v <= vx ur /\ vy ll <= vy v /\ vy v <= vy ur.
Definition dist2 (a b : vec2) : Q :=
  (vx a - vx b) * (vx a - vx b) + (vy a - vy b) * (vy a - vy b).
Definition in_disc (c : vec2) (r : Q) (v : vec2) : Prop := dist2 v c < r * r.

(* One abstract step; a relation, because the boolean results depend on
   propositions about locations. *)
Inductive astep (scale : Q) : astate -> cop -> astate -> cret -> Prop :=
| as_push s xy :
    astep scale s (CPush xy)
      (AS (as_items s ++ [AI (as_next s) xy]) (S (as_next s))) (RItem (as_next s))
| as_insert s k xy :
    astep scale s (CInsert k xy)
      (AS (insert_at k (AI (as_next s) xy) (as_items s)) (S (as_next s))) (RItem (as_next s))
| as_remove s l1 a l2 :
    as_items s = l1 ++ a :: l2 -> in_square scale (ai_xy a) ->
    astep scale s (CRemove (ai_id a)) (AS (l1 ++ l2) (as_next s)) (RBool true)
| as_remove_out s a :
    In a (as_items s) -> ~ in_square scale (ai_xy a) ->
    astep scale s (CRemove (ai_id a)) s (RBool false)
| as_move s l1 a l2 xy :
    as_items s = l1 ++ a :: l2 -> in_square scale xy ->
    astep scale s (CMove (ai_id a) xy)
      (AS (l1 ++ AI (ai_id a) xy :: l2) (as_next s)) (RBool true)
| as_move_out s l1 a l2 xy :
    as_items s = l1 ++ a :: l2 -> ~ in_square scale xy ->
    astep scale s (CMove (ai_id a) xy)
      (AS (l1 ++ AI (ai_id a) xy :: l2) (as_next s)) (RBool false)
| as_clear s : astep scale s CClear s RUnit.

Inductive aruns (scale : Q) : astate -> list cop -> astate -> list cret -> Prop :=
| ar_nil s : aruns scale s [] s []
| ar_cons s o s' r os s'' rs :
    astep scale s o s' r -> aruns scale s' os s'' rs ->
    aruns scale s (o :: os) s'' (r :: rs).
