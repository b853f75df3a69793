(* What a domain has to look like, independent of the check of the code. *)
From Coq Require Import Permutation.
From Verif Require Import Base Chain GeomSpec BdryModel BdrySpec AdvanceModel WindSpec PolySpec ClearSpec DomCheckModel.
Open Scope Q_scope.

(* the edges, in any order, are the sides of a simple polygon *)
Definition polygon_of (pos : nat -> vec2) (es : list bedge) (vs : list nat) : Prop :=
  Permutation (ends es) (ring_edges vs) /\ simple_polygon (map pos vs).
Definition whole (bs : list vboundary) : list bedge := flat_map vb_edges bs.

(* boundaries that are simple polygons without common points *)
Record sound_domain (pos : nat -> vec2) (bs : list vboundary) : Prop := {
  sd_exterior : exists b, In b bs /\ vb_type b = EXTERIOR;
  sd_ids : forall b, In b bs -> NoDup (map be_id (vb_edges b));
  sd_polygon : forall b, In b bs -> exists vs, polygon_of pos (vb_edges b) vs;
  sd_separate : ForallOrdPairs (fun b c => separate (map (seg pos) (vb_edges b)) (map (seg pos) (vb_edges c))) bs;
  (* no corner is nearly but not exactly on the line of an edge *)
  sd_sharp : forall e f, In e (whole bs) -> In f (whole bs) ->
    sharp (det (pos (be_v1 e)) (pos (be_v2 e)) (pos (be_v1 f))) /\ sharp (det (pos (be_v1 e)) (pos (be_v2 e)) (pos (be_v2 f)))
}.

(* two edges of one boundary that follow each other *)
Definition consecutive (e f : bedge) : Prop := be_v2 e = be_v1 f \/ be_v2 f = be_v1 e.
(* the midpoint of one of two edges with a common inner point lies in the box around
   the other one *)
Definition in_box (a b p : vec2) : Prop :=
  ((vx a <= vx p <= vx b) \/ (vx b <= vx p <= vx a)) /\ ((vy a <= vy p <= vy b) \/ (vy b <= vy p <= vy a)).
Definition reached (a b c d : vec2) : Prop :=
  ends_only a b c d \/ in_box a b (on_seg c d (1 # 2)) \/ in_box c d (on_seg a b (1 # 2)).
