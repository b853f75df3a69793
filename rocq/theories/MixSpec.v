(* What meshes of triangles and quads are measured against while parts of them are
   still missing. *)
From Verif Require Import Base Chain GeomSpec BdryModel BdrySpec AdvanceModel AdvanceSpec MeshModel WindSpec ClearSpec.
Open Scope Q_scope.

(* an element as one or two triangles: a quad is cut along the diagonal between its
   second and its fourth corner *)
Definition cut (s : shape) : list tri :=
  match s with
  | Tri3 a b c => [TR 0 a b c true 0]
  | Quad4 a b c d => [TR 0 a b d true 0; TR 0 d b c true 0]
  end.
Definition pieces (ss : list shape) : list tri := flat_map cut ss.

(* no three vertices are nearly but not exactly on one line *)
Definition exact_at (pos : nat -> vec2) (verts : list nat) : Prop := forall a b c, In a verts -> In b verts -> In c verts ->
  sharp (det (pos a) (pos b) (pos c)).
(* a segment of the initial front or of the elements with a point in an element has
   its midpoint in the given range of the element *)
Definition found_at (near : (nat -> vec2) -> tri -> vec2 -> Prop) (pos : nat -> vec2) (f0 : list bedge) (gen : list tri) : Prop :=
  forall t a b, In t gen -> known f0 gen a b ->
    (exists s, 0 <= s <= 1 /\ touching (on_seg (pos a) (pos b) s) (pos (tr_v1 t)) (pos (tr_v2 t)) (pos (tr_v3 t))) ->
    near pos t (vscale (1 # 2) (vadd (pos a) (pos b))).

(* an edge without its address *)
Definition sig (e : bedge) : nat * nat * Z * N := (be_v1 e, be_v2 e, be_col e, be_prop e).
