(* What boundaries and edge lists are measured against. *)
From Verif Require Import Base Chain GeomSpec BdryModel.
Open Scope Q_scope.

(* the directed pairs of vertices of an edge list *)
Definition ends (es : list bedge) : list (nat * nat) := map (fun e => (be_v1 e, be_v2 e)) es.

(* area enclosed by a set of directed edges: Green's formula *)
Definition enclosed (pos : nat -> vec2) (es : list bedge) : Q :=
  (1 # 2) * esum (fun a b => vcross (pos a) (pos b)) (ends es).

(* the list can be walked: every edge starts where the previous one ended *)
Fixpoint chained (es : list bedge) : Prop :=
  match es with
  | e :: ((f :: _) as r) => be_v2 e = be_v1 f /\ chained r
  | _ => True
  end.

(* an edge of the list without its address *)
Definition payload (e : bedge) : nat * nat * Z * N := (be_v1 e, be_v2 e, be_col e, be_prop e).

(* the two lists of point pairs agree up to equality of coordinates *)
Definition same_points (l l' : list (vec2 * vec2)) : Prop :=
  Forall2 (fun e f => veq (fst e) (fst f) /\ veq (snd e) (snd f)) l l'.

Definition reverse_edges {A} (l : list (A * A)) : list (A * A) := rev (map swap_edge l).
