(* Distances and common edges. *)
From Verif Require Import Base GeomSpec.
Open Scope Q_scope.

(* a and b are at most r apart *)
Definition apart (a b : vec2) (r : Q) : Prop := vnorm2 (vsub a b) <= r * r.

(* the ends of the edges are the same points, in one or the other order *)
Definition same_ends (e f : vec2 * vec2) : Prop :=
  (veq (fst e) (fst f) /\ veq (snd e) (snd f)) \/ (veq (fst e) (snd f) /\ veq (snd e) (fst f)).
Definition same_endsb (e f : vec2 * vec2) : bool :=
  (veqb (fst e) (fst f) && veqb (snd e) (snd f)) || (veqb (fst e) (snd f) && veqb (snd e) (fst f)).

(* number of pairs of an edge of d and an edge of e with the same ends *)
Definition common (d e : list (list (vec2 * vec2))) : nat :=
  length (filter (fun p => same_endsb (fst p) (snd p)) (list_prod (concat d) (concat e))).
