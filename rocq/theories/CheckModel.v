(* Executable model of the completeness check (src/algorithm/MeshChecker.h,
   EntityChecks.h, Domain.h extent). *)
From Coq Require Import Qabs.
From Verif Require Import Base GeomModel UtilModel FacetModel MeshModel.
Open Scope Q_scope.

(* Domain.h:220-235 extent: the loops start with the range [0,0] *)
Definition grow_range (get : vec2 -> Q) (vs : list vec2) : Q * Q :=
  fold_left (fun r v => (Qminb (fst r) (get v), Qmaxb (snd r) (get v))) vs (0, 0).
Definition extent (vs : list vec2) : (Q * Q) * (Q * Q) := (grow_range vx vs, grow_range vy vs).

(* EntityChecks.h:109-128 and 147-165 for one edge: some element of v1.facets()
   and some element of v2.facets() has the edge.  The ASSERTs are void in a
   release build. *)
Definition edge_has_facet (m : mesh) (e : medge) : bool :=
  existsb (fun f => is_some (side_index (fa_sh f) (ed_1 e) (ed_2 e))) (facets_at m (ed_1 e)) &&
  existsb (fun f => is_some (side_index (fa_sh f) (ed_1 e) (ed_2 e))) (facets_at m (ed_2 e)).
(* EntityChecks.h:99-172 check_mesh_validity *)
Definition check_mesh_validity (m : mesh) : bool :=
  forallb (edge_has_facet m) (mh_intr m) && forallb (edge_has_facet m) (mh_bdry m).

(* MeshChecker.h:62-70.  A division by zero gives NaN or infinity, which is not
   less than the threshold. *)
Definition area_threshold : Q := 1 # 10000000000.
Definition check_area (mesh_area domain_area : Q) (vs : list vec2) : bool :=
  let (ex, ey) := extent vs in
  let s := (snd ex - fst ex) * (snd ey - fst ey) in
  if Qeq_bool s 0 then false else Qltb (Qabs (mesh_area - domain_area) / s) area_threshold.

(* MeshChecker.h:49-73 check_completeness; assign_mesh_indices only writes
   indices (MeshModel) *)
Definition check_completeness (cleanup : bool) (m : mesh) (domain_area : Q) (vs : list vec2) : mesh * bool :=
  let m := if cleanup then setup_facet_connectivity m else m in
  (m, Nat.eqb (length (front_edges m)) 0 && check_mesh_validity m && check_area (mh_area m) domain_area vs).
