(* What the search of vertices is measured against. *)
From Verif Require Import Base GeomModel BdryModel.
Open Scope Q_scope.

(* no two vertices at one place *)
Definition apart (store : list vinfo) : Prop :=
  forall i j v w, nth_error store i = Some v -> nth_error store j = Some w -> veq (vi_xy v) (vi_xy w) -> i = j.
(* no coordinate is farther from zero than m *)
Definition reaches (m : Q) (vs : list vec2) : Prop :=
  forall v, In v vs -> (- m <= vx v /\ vx v <= m) /\ (- m <= vy v /\ vy v <= m).
(* the point lies between two points *)
Definition amid (a b q : vec2) : Prop :=
  exists t, 0 <= t <= 1 /\ veq q (vadd a (vscale t (vsub b a))).
