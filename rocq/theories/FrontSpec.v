(* What the initial front is measured against. *)
From Coq Require Import Permutation.
From Verif Require Import Base Chain GeomModel UtilModel BdryModel BdrySpec AdvanceModel AdvanceSpec FrontModel.
Open Scope Q_scope.

Definition de_ends (e : dedge) : vec2 * vec2 := (de_a e, de_b e).

(* number of edges that start / end at a point *)
Definition starting (x : vec2) (es : list (vec2 * vec2)) : nat := length (filter (fun e => veqb (fst e) x) es).
Definition ending (x : vec2) (es : list (vec2 * vec2)) : nat := length (filter (fun e => veqb (snd e) x) es).
(* a set of closed curves, given by the coordinates of directed edges *)
Definition closed_curves (es : list (vec2 * vec2)) : Prop := forall x, starting x es = ending x es.

(* the listed edges can be walked from a to b *)
Fixpoint walks (a b : vec2) (l : list (vec2 * vec2)) : Prop :=
  match l with
  | [] => veqb a b = true
  | e :: r => veqb a (fst e) = true /\ walks (snd e) b r
  end.
(* the edges of the neighbour meshes, reversed and in some order, lead from the
   start to the end of the edge *)
Definition covered (e : dedge) (ns : list dedge) : Prop :=
  exists l, Permutation l (map (fun n => swap_edge (de_ends n)) ns) /\ walks (de_a e) (de_b e) l.

(* the edges the front must consist of, with colour *)
Definition wanted (meshes : list (list dedge)) (e : dedge) : list (vec2 * vec2 * Z) :=
  match neighbours meshes e with
  | [] => [(de_ends e, de_col e)]
  | ns => map (fun n => (swap_edge (de_ends n), de_col n)) ns
  end.

(* an index stands for a point *)
Definition stands (vs : list vec2) (i : nat) (x : vec2) : Prop :=
  exists y, nth_error vs i = Some y /\ veqb x y = true.
Definition matches (vs : list vec2) (f : fedge) (w : vec2 * vec2 * Z) : Prop :=
  stands vs (fe_1 f) (fst (fst w)) /\ stands vs (fe_2 f) (snd (fst w)) /\ fe_col f = snd w.
(* no two vertices at the same place *)
Definition distinct (vs : list vec2) : Prop :=
  forall i j y z, nth_error vs i = Some y -> nth_error vs j = Some z -> veqb y z = true -> i = j.

(* the edges can be walked from vertex a to vertex b *)
Fixpoint route (a b : nat) (es : list bedge) : Prop :=
  match es with
  | [] => a = b
  | e :: r => be_v1 e = a /\ route (be_v2 e) b r
  end.
(* the edge is replaced by a chain through the given points; colour and
   properties are kept *)
Definition chain_of (pos : nat -> vec2) (f : fedge) (pts : list vec2) (cs : list bedge) : Prop :=
  route (fe_1 f) (fe_2 f) cs /\ map (fun c => pos (be_v2 c)) (removelast cs) = pts /\
  length cs = S (length pts) /\
  Forall (fun c => be_col c = fe_col f /\ be_prop c = if fe_fix f then e_is_fixed else e_on_boundary) cs.

Definition on_line (a b p : vec2) : Prop := exists t, veq p (vadd a (vscale t (vsub b a))).

(* area enclosed by the collected edges before the refinement *)
Definition area_of (d : fdata) : Q :=
  (1 # 2) * sumQ (map (fun f => vcross (nth (fe_1 f) (fd_verts d) (V2 0 0)) (nth (fe_2 f) (fd_verts d) (V2 0 0))) (fd_edges d)).

(* the indices of the edges are indices of vertices *)
Definition indices_ok (d : fdata) : Prop :=
  forall f, In f (fd_edges d) -> (fe_1 f < length (fd_verts d))%nat /\ (fe_2 f < length (fd_verts d))%nat.
(* no edge from a point to the same point *)
Definition proper (d : fdata) : Prop := forall f, In f (fd_edges d) -> fe_1 f <> fe_2 f.
Definition coords_in (scale : Q) (d : fdata) : Prop :=
  forall x, In x (fd_verts d) -> in_square scale x = true.

(* strictly between lo and hi, in ascending order *)
Fixpoint increasing (lo : Q) (l : list Q) (hi : Q) : Prop :=
  match l with
  | [] => lo < hi
  | x :: r => lo < x /\ increasing x r hi
  end.
(* the points lie strictly inside the segment from a to b, in this order *)
Definition strictly_inside (a b : vec2) (pts : list vec2) : Prop :=
  exists ss, increasing 0 ss 1 /\ Forall2 (fun s p => veq p (vadd a (vscale s (vsub b a)))) ss pts.
