(* What the advancing front is measured against. *)
From Verif Require Import Base Chain BdryModel BdrySpec FacetModel AdvanceModel.
Open Scope Q_scope.

(* the directed sides of a triangle, counter-clockwise *)
Definition tri_sides (t : tri) : list (nat * nat) :=
  [(tr_v1 t, tr_v2 t); (tr_v2 t, tr_v3 t); (tr_v3 t, tr_v1 t)].

(* generated elements: the active triangles of the mesh *)
Definition generated (st : mstate) : list tri := filter tr_act (ms_tris st).
Definition sides (ts : list tri) : list (nat * nat) := flat_map tri_sides ts.

(* how often a directed edge / an undirected edge occurs *)
Definition uses (p q : nat) (l : list (nat * nat)) : nat :=
  length (filter (fun e => Nat.eqb (fst e) p && Nat.eqb (snd e) q) l).
Definition uses_any (p q : nat) (l : list (nat * nat)) : nat :=
  length (filter (fun e => (Nat.eqb (fst e) p && Nat.eqb (snd e) q) ||
                           (Nat.eqb (snd e) p && Nat.eqb (fst e) q)) l).

(* closed curve: as many incoming as outgoing edges everywhere *)
Definition closed (es : list bedge) : Prop := forall v, in_deg v (ends es) = out_deg v (ends es).
(* number of edge ends at a vertex *)
Definition degree (v : nat) (es : list bedge) : nat := (in_deg v (ends es) + out_deg v (ends es))%nat.

Definition tri_areas (pos : nat -> vec2) (ts : list tri) : Q :=
  sumQ (map (fun t => tri_area (pos (tr_v1 t)) (pos (tr_v2 t)) (pos (tr_v3 t))) ts).

(* the front has no edge (k,l) twice under the same address, addresses are
   fresh, and all vertices are addresses of the mesh *)
Record wf (st : mstate) : Prop := {
  wf_eid : NoDup (map be_id (ms_front st));
  wf_elt : forall e, In e (ms_front st) -> (be_id e < ms_ne st)%nat;
  wf_ev : forall e, In e (ms_front st) ->
            (be_v1 e < ms_nv st)%nat /\ (be_v2 e < ms_nv st)%nat /\ be_v1 e <> be_v2 e;
  wf_tid : NoDup (map tr_id (ms_tris st));
  wf_tlt : forall t, In t (ms_tris st) -> (tr_id t < ms_nt st)%nat;
  wf_tv : forall t, In t (ms_tris st) ->
            (tr_v1 t < ms_nv st)%nat /\ (tr_v2 t < ms_nv st)%nat /\ (tr_v3 t < ms_nv st)%nat;
  wf_vid : NoDup (ms_verts st);
  wf_vlt : forall v, In v (ms_verts st) -> (v < ms_nv st)%nat
}.

(* all vertices lie in the square of a quadtree with the given scale, and so do
   the new vertices of the history *)
Definition vertices_in (scale : Q) (st : mstate) : Prop :=
  forall v, (v < ms_nv st)%nat -> in_square scale (ms_pos st v) = true.
Definition op_in (scale : Q) (o : fop) : Prop :=
  match o with FUpdate _ xy _ => in_square scale xy = true | _ => True end.

Definition no_ghosts (st : mstate) : Prop := forall e, In e (ms_front st) -> ghost e = false.

(* the front edges that the new triangle (base end points first) closes are
   those that run along its sides in the direction of the triangle *)
Definition sides_expected (st : mstate) (t : tri) : Prop :=
  (forall e, get_edge_nodir (ms_front st) (tr_v3 t) (tr_v1 t) = Some e ->
     be_v1 e = tr_v3 t /\ be_v2 e = tr_v1 t) /\
  (forall e, get_edge_nodir (ms_front st) (tr_v3 t) (tr_v2 t) = Some e ->
     be_v1 e = tr_v2 t /\ be_v2 e = tr_v3 t).

(* the mesh, as a client sees it *)
Definition same_mesh (st st' : mstate) : Prop :=
  ms_verts st' = ms_verts st /\ ms_front st' = ms_front st /\ ms_intr st' = ms_intr st /\
  ms_tris st' = ms_tris st /\ ms_quads st' = ms_quads st /\ ms_area st' = ms_area st /\
  ms_col st' = ms_col st /\
  (forall v, (v < ms_nv st)%nat -> ms_pos st' v = ms_pos st v /\ ms_onf st' v = ms_onf st v).
