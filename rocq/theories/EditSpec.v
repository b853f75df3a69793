(* What a consistent domain is, said about its objects and pointers. *)
From Verif Require Import Base EditModel.
Open Scope nat_scope.

(* [k] is an edge of the domain, [l] the list it stands in *)
Definition stands_in (s : dom) (l : elst) (k : nat) : Prop := In l (lists s) /\ In k (l_items l).
Definition listed (s : dom) (k : nat) : Prop := exists l, stands_in s l k.
(* how often the vertex [v] is an end of an edge from [a] to [b] *)
Definition at_end (v a b : nat) : nat := (if Nat.eqb a v then 1 else 0) + (if Nat.eqb b v then 1 else 0).

Record intact (s : dom) : Prop := {
  (* the edges join vertices of the domain *)
  in_ends : forall k, listed s k -> exists a b, d_ends s k = Some (a, b) /\ In a (d_verts s) /\ In b (d_verts s);
  (* a vertex knows its edges, each once for every end, and no others *)
  in_star : forall v k a b, In v (d_verts s) -> listed s k -> d_ends s k = Some (a, b) ->
    count_occ Nat.eq_dec (d_star s v) k = at_end v a b;
  in_only : forall v k, In v (d_verts s) -> In k (d_star s v) -> listed s k;
  (* an edge knows its list *)
  in_home : forall l k, stands_in s l k -> d_home s k = l_id l;
  (* fixed vertices are vertices of the domain and marked as fixed *)
  in_fixed : forall v, In v (d_fverts s) -> In v (d_verts s) /\ d_vfixed s v = true }.

Definition unused (s : dom) (v : nat) : Prop := forall k a b, listed s k -> d_ends s k = Some (a, b) -> a <> v /\ b <> v.

(* an operation only names vertices, edges and boundaries that the domain has *)
Definition named (s : dom) (o : edit) : Prop :=
  match o with
  | AddVertex _ | AddFixedVertex _ | ClearVertices => True
  | RemoveVertex v => In v (d_verts s)
  | RemoveFixedVertex v => In v (d_fverts s)
  | InsertBoundary p => p <= length (d_bdrys s)
  | RemoveBoundary p | ClearEdges p => p < length (d_bdrys s)
  | AddEdge p a b _ => p < length (d_bdrys s) /\ In a (d_verts s) /\ In b (d_verts s)
  | RemoveEdge p e => p < length (d_bdrys s) /\ listed s e
  | AddFixedEdge a b _ => In a (d_verts s) /\ In b (d_verts s)
  | RemoveFixedEdge e => listed s e
  end.
(* and does not free what is still pointed at *)
Definition gentle (s : dom) (o : edit) : Prop :=
  match o with
  | RemoveVertex v => unused s v /\ ~ In v (d_fverts s)
  | RemoveFixedVertex v => unused s v
  | RemoveBoundary p => forall l, nth_error (d_bdrys s) p = Some l -> l_items l = []
  | _ => True
  end.
Fixpoint history (ok : dom -> edit -> Prop) (s : dom) (os : list edit) : Prop :=
  match os with
  | [] => True
  | o :: r => ok s o /\ forall s', step s o = Ok s' -> history ok s' r
  end.
Definition careful (s : dom) (o : edit) : Prop := named s o /\ gentle s o.

(* ---------- what an operation does to the lists ---------- *)
Fixpoint change_nth {A} (p : nat) (f : A -> A) (l : list A) : list A :=
  match l, p with
  | [], _ => []
  | x :: r, O => f x :: r
  | x :: r, S q => x :: change_nth q f r
  end.
Fixpoint insert_nth {A} (p : nat) (x : A) (l : list A) : list A :=
  match p, l with
  | S q, y :: r => y :: insert_nth q x r
  | _, _ => x :: l
  end.
Fixpoint delete_nth {A} (p : nat) (l : list A) : list A :=
  match l, p with
  | [], _ => []
  | _ :: r, O => r
  | x :: r, S q => x :: delete_nth q r
  end.
Definition without (k : nat) (l : list nat) : list nat := remove Nat.eq_dec k l.
(* everything up to the first edge that cannot be removed *)
Fixpoint cut_while (f : nat -> bool) (l : list nat) : list nat :=
  match l with [] => [] | x :: r => if f x then cut_while f r else l end.

(* vertices, edges of the boundaries, fixed edges, fixed vertices *)
Record view := View { w_verts : list nat; w_bdrys : list (list nat); w_fedges : list nat; w_fverts : list nat }.
Definition view_of (s : dom) : view := View (d_verts s) (map l_items (d_bdrys s)) (l_items (d_fedges s)) (d_fverts s).
(* [n]: the new object; [vt], [et]: the vertices and edges that a quadtree holds *)
Definition effect (vt et : nat -> bool) (n : nat) (w : view) (o : edit) : view :=
  let (vs, bs, fe, fv) := w in
  match o with
  | AddVertex _ => View (vs ++ [n]) bs fe fv
  | AddFixedVertex _ => View (vs ++ [n]) bs fe (fv ++ [n])
  | RemoveVertex v => View (if vt v then without v vs else vs) bs fe fv
  | RemoveFixedVertex v => View (if vt v then without v vs else vs) bs fe (without v fv)
  | InsertBoundary p => View vs (insert_nth p [] bs) fe fv
  | RemoveBoundary p => View vs (delete_nth p bs) fe fv
  | AddEdge p _ _ _ => View vs (change_nth p (fun b => b ++ [n]) bs) fe fv
  | RemoveEdge p e => View vs (if et e then change_nth p (without e) bs else bs) fe fv
  | ClearEdges p => View vs (change_nth p (cut_while et) bs) fe fv
  | AddFixedEdge _ _ _ => View vs bs (fe ++ [n]) fv
  | RemoveFixedEdge e => View vs bs (if et e then without e fe else fe) fv
  | ClearVertices => w
  end.
