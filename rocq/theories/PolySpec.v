(* Simple polygons.  Nothing here is code of the project. *)
From Verif Require Import Base Chain GeomSpec.
Open Scope Q_scope.

(* two different sides have a common point only where both of them end *)
Definition meet_at_ends (es : list (vec2 * vec2)) : Prop :=
  forall e f s t, In e es -> In f es -> e <> f -> 0 <= s <= 1 -> 0 <= t <= 1 ->
    veq (on_seg (fst e) (snd e) s) (on_seg (fst f) (snd f) t) ->
    (s == 0 \/ s == 1) /\ (t == 0 \/ t == 1).

(* a closed polygon whose corners are different points and whose sides meet at
   the corners only *)
Definition simple_polygon (l : list vec2) : Prop :=
  (3 <= length l)%nat /\ ForallOrdPairs (fun a b => ~ veq a b) l /\ meet_at_ends (ring_edges l).

(* Green's formula *)
Definition signed_area (l : list vec2) : Q := (1 # 2) * esum vcross (ring_edges l).
