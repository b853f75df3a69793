(* What quad layers are measured against: the elements of the mesh during the
   generation, and when a triangle fits to the front. *)
From Verif Require Import Base Chain GeomSpec BdryModel BdrySpec FacetModel AdvanceModel AdvanceSpec MeshModel WindSpec LoopModel QLayerModel.
Open Scope Q_scope.

Definition tri_element (t : tri) : shape := Tri3 (tr_v1 t) (tr_v2 t) (tr_v3 t).
Definition quad_element (q : quad) : shape := Quad4 (qu_v1 q) (qu_v2 q) (qu_v3 q) (qu_v4 q).
(* the triangles that were accepted and the quads *)
Definition elements (m : mstate) : list shape := map tri_element (generated m) ++ map quad_element (ms_quads m).

(* no front edge runs against a side of the triangle and at most one runs along it *)
Definition fits (m : mstate) (t : tri) : Prop :=
  forall a b, In (a, b) (tri_sides t) -> uses b a (ends (ms_front m)) = 0%nat /\ (uses a b (ends (ms_front m)) <= 1)%nat.

(* vertices that exist in the first state stay where they are *)
Definition still (m m' : mstate) : Prop := forall v, (v < ms_nv m)%nat -> veq (ms_pos m' v) (ms_pos m v).

(* the front as directed segments, and its winding number *)
Definition front_lines (m : mstate) : list (vec2 * vec2) :=
  map (fun e => (ms_pos m (be_v1 e), ms_pos m (be_v2 e))) (ms_front m).
Definition front_winding (m : mstate) (p : vec2) : Q := winding p (front_lines m).

(* areas of the elements *)
Definition shape_area (pos : nat -> vec2) (s : shape) : Q :=
  match s with
  | Tri3 a b c => tri_area (pos a) (pos b) (pos c)
  | Quad4 a b c d => tri_area (pos a) (pos b) (pos c) + tri_area (pos a) (pos c) (pos d)
  end.
Definition element_area (m : mstate) : Q := sumQ (map (shape_area (ms_pos m)) (elements m)).

(* the sides of the elements as directed segments, and their winding number *)
Definition covered (m : mstate) (p : vec2) : Q :=
  winding p (flat_map (fun s => map (fun e => (ms_pos m (fst e), ms_pos m (snd e))) (ring_edges (corners s))) (elements m)).
(* a mesh with a front: indices exist, elements are simple *)
Definition meshed (m : mstate) : Prop :=
  wf m /\ (forall q v, In q (ms_quads m) -> In v (corners (quad_element q)) -> (v < ms_nv m)%nat) /\
  (forall s, In s (elements m) -> simple_shape (ms_pos m) s).

(* a test of triangles with the assumption of C23 and C24 and a positive area added *)
Definition fits_b (m : mstate) (t : tri) : bool :=
  forallb (fun e => Nat.eqb (uses (snd e) (fst e) (ends (ms_front m))) 0 && Nat.leb (uses (fst e) (snd e) (ends (ms_front m))) 1) (tri_sides t).
Definition guarded (tri_ok : mstate -> tri -> bool) (m : mstate) (t : tri) : bool :=
  tri_ok m t && fits_b m t && Qltb 0 (det (ms_pos m (tr_v1 t)) (ms_pos m (tr_v2 t)) (ms_pos m (tr_v3 t))).

(* no layer of a run moves a vertex *)
Fixpoint layers_still norm sin_half cos_ang sharp rho mesh_scale tri_ok vtx_ok qual query
    (n : nat) (st : qstate) (height rate : Q) (xs xe : vec2) : Prop :=
  match n with
  | O => True
  | S n' =>
      match generate_layer norm sin_half cos_ang sharp rho mesh_scale tri_ok vtx_ok qual query st height xs xe with
      | Ok (st1, o) => still (q_m st) (q_m st1) /\
          match o with
          | Some (a, b) => layers_still norm sin_half cos_ang sharp rho mesh_scale tri_ok vtx_ok qual query n' st1 (height * rate) rate a b
          | None => True
          end
      | _ => True
      end
  end.

(* a vertex of the front next to the ends of the layer from [e] to [f]: the far
   vertex of an edge that ends where [e] starts or starts where [f] ends *)
Definition beside (m : mstate) (e f : bedge) (v : nat) : Prop :=
  exists d, In d (ms_front m) /\ ((be_v2 d = be_v1 e /\ v = be_v1 d) \/ (be_v1 d = be_v2 f /\ v = be_v2 d)).
