(* Executable model of quad layers as a stage of a mesh
   (src/algorithm/QuadLayering.h:584-618): the front is built from the mesh as it is
   for a triangulation (ContModel.v), the layers are generated (QLayerModel.v), and
   what remains of the front is put back into the mesh. *)
From Verif Require Import Base GeomModel FacetModel UtilModel BdryModel AdvanceModel MeshModel QRefineModel FinModel QLayerModel ContModel.
Open Scope Q_scope.

(* one call of generate_elements: what the layers depend on *)
Record layering := LAY {
  la_norm : vec2 -> Q;
  la_sin : vec2 -> vec2 -> Q;
  la_cos : vec2 -> vec2 -> Q;
  la_sharp : vec2 -> vec2 -> bool;            (* angle_factor_ *)
  la_rho : vec2 -> Q;                         (* Domain::size_function *)
  la_ok : mstate -> tri -> bool;              (* TriangleChecks *)
  la_vok : mstate -> nat -> bool;
  la_qual : mstate -> tri -> Q;
  la_query : mstate -> vec2 -> Q -> list nat;
  la_n : nat;                                 (* n_layers_ *)
  la_height : Q;                              (* first_height_ *)
  la_rate : Q;                                (* growth_rate_ *)
  la_start : vec2;
  la_end : vec2
}.
(* QuadLayering.h:590-596: the front is not sorted; the boundary edges of the mesh as
   records with the ids 0, 1, ... *)
Definition ready (m1 : mesh) : qstate :=
  QS (opened m1) (front_from 0 (mh_bdry m1)) (fun v => Nat.ltb v (ms_nv (opened m1)) && has_property (mh_prop m1 v) v_in_quad_layer).
(* QuadLayering.h:599-608; the start and the end are overwritten by
   find_next_layer_endings *)
Definition run_layers (a : layering) (m1 : mesh) : outcome (qstate * bool * list Q) :=
  layers (la_norm a) (la_sin a) (la_cos a) (la_sharp a) (la_rho a) (mh_scale m1) (la_ok a) (la_vok a) (la_qual a) (la_query a)
    (la_n a) (ready m1) (la_height a) (la_rate a) (la_start a) (la_end a).

(* the boundary edges of the mesh: edges that were there keep their record, those of a
   split edge are new (QuadLayering.h:311-337 / 445-466; their ids are not below
   mh_next, which is above the number of boundary edges if the ids differ) *)
Definition bdry_back (m : mesh) (bs : list bedge) : list medge :=
  map (fun b => match nth_error (mh_bdry m) (be_id b) with
                | Some e => e
                | None => ED (be_id b) (be_v1 b) (be_v2 b) (be_col b) (be_prop b) None None None
                end) bs.
Definition with_bdry (m : mesh) (bd : list medge) : mesh :=
  MH (mh_pos m) (mh_prop m) (mh_verts m) (mh_quads m) (mh_tris m) (mh_intr m) bd (mh_nbr m) (mh_next m) (mh_area m) (mh_col m) (mh_scale m).
(* QuadLayering.h:833-843: VertexProperty::in_quad_layer *)
Definition mark (inq : nat -> bool) (m : mesh) : mesh :=
  MH (mh_pos m) (fun v => if inq v then N.lor (mh_prop m v) v_in_quad_layer else mh_prop m v) (mh_verts m) (mh_quads m) (mh_tris m)
     (mh_intr m) (mh_bdry m) (mh_nbr m) (mh_next m) (mh_area m) (mh_col m) (mh_scale m).
(* QuadLayering.h:611-614.  A vertex that splits an edge takes the properties of the
   ends of the edge (EdgeList.h:205-213); only on_front is modelled. *)
Definition layer_back (m1 : mesh) (st' : qstate) : mesh :=
  mark (q_in st') (put_back (with_bdry m1 (bdry_back m1 (q_bdry st'))) (q_m st')).
(* QuadLayering.h:584-618 generate_elements *)
Definition layer_stage (a : layering) (m : mesh) : outcome (mesh * bool) :=
  match mh_bdry m with
  | [] => Ok (m, false)
  | _ =>
      let m1 := setup_facet_connectivity m in
      obind (run_layers a m1) (fun x => Ok (layer_back m1 (fst (fst x)), snd (fst x)))
  end.
