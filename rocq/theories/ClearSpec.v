(* Fronts that do not touch themselves. *)
From Verif Require Import Base Chain GeomSpec BdryModel BdrySpec AdvanceModel AdvanceSpec FrontSpec WindSpec.
Open Scope Q_scope.

(* a doubled area that the orientation test of the code takes for what it is: zero,
   or not below the tolerance *)
Definition sharp (x : Q) : Prop := x == 0 \/ tol26 <= x \/ x <= - tol26.

(* two segments that share only ends *)
Definition ends_only (a b c d : vec2) : Prop := forall s t, 0 <= s <= 1 -> 0 <= t <= 1 -> veq (on_seg a b s) (on_seg c d t) ->
  (s == 0 \/ s == 1) /\ (t == 0 \/ t == 1).

Definition seg (pos : nat -> vec2) (e : bedge) : vec2 * vec2 := (pos (be_v1 e), pos (be_v2 e)).
Definition on_front (es : list bedge) (v : nat) : Prop := exists e, In e es /\ (be_v1 e = v \/ be_v2 e = v).

(* closed curves that meet only in common vertices and wind around every point at
   most once *)
Record simple_front (pos : nat -> vec2) (es : list bedge) : Prop := {
  sf_ids : NoDup (map be_id es);
  sf_proper : forall e, In e es -> be_v1 e <> be_v2 e;
  sf_closed : AdvanceSpec.closed es;
  sf_pos : forall u v, on_front es u -> on_front es v -> veq (pos u) (pos v) -> u = v;
  sf_ends : forall e f, In e es -> In f es -> be_id e <> be_id f ->
    ends_only (fst (seg pos e)) (snd (seg pos e)) (fst (seg pos f)) (snd (seg pos f));
  sf_region : forall z, 0 <= winding z (map (seg pos) es) <= 1
}.

(* no three vertices are nearly but not exactly on one line *)
Definition exact_vertices (st : mstate) : Prop := forall a b c, In a (ms_verts st) -> In b (ms_verts st) -> In c (ms_verts st) ->
  sharp (det (ms_pos st a) (ms_pos st b) (ms_pos st c)).
(* the segments a front can consist of: those of the initial front and the sides of
   the elements, in either direction *)
Definition known (f0 : list bedge) (ts : list tri) (a b : nat) : Prop :=
  In (a, b) (ends f0) \/ In (a, b) (sides ts) \/ In (b, a) (sides ts).
(* such a segment with a point in an element has its midpoint in the given range of
   the element *)
Definition found (near : (nat -> vec2) -> tri -> vec2 -> Prop) (f0 : list bedge) (st : mstate) : Prop :=
  forall t a b, In t (generated st) -> known f0 (generated st) a b ->
    (exists s, 0 <= s <= 1 /\ touching (on_seg (ms_pos st a) (ms_pos st b) s)
       (ms_pos st (tr_v1 t)) (ms_pos st (tr_v2 t)) (ms_pos st (tr_v3 t))) ->
    near (ms_pos st) t (vscale (1 # 2) (vadd (ms_pos st a) (ms_pos st b))).

(* closed curves given by the coordinates of directed edges *)
Record simple_curves (es : list (vec2 * vec2)) : Prop := {
  sc_proper : forall e, In e es -> ~ veq (fst e) (snd e);
  sc_ends : ForallOrdPairs (fun e f => ends_only (fst e) (snd e) (fst f) (snd f)) es;
  sc_closed : closed_curves es;
  sc_region : forall z, 0 <= winding z es <= 1
}.

(* no common point of two sets of segments *)
Definition separate (es fs : list (vec2 * vec2)) : Prop := forall e f s t, In e es -> In f fs -> 0 <= s <= 1 -> 0 <= t <= 1 ->
  ~ veq (on_seg (fst e) (snd e) s) (on_seg (fst f) (snd f) t).
