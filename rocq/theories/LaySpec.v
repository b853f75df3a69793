(* Meshes that are built by quad layers and by triangulations in any order. *)
From Verif Require Import Base Chain GeomSpec FacetModel UtilModel BdryModel AdvanceModel MeshModel QRefineModel ClearSpec QLayerModel ContModel ContSpec LayModel.
Open Scope Q_scope.

Section Steady.
Variable norm : vec2 -> Q.
Variable sin_half : vec2 -> vec2 -> Q.
Variable cos_ang : vec2 -> vec2 -> Q.
Variable sharp : vec2 -> vec2 -> bool.
Variable rho : vec2 -> Q.
Variable mesh_scale : Q.
Variable tri_ok : mstate -> tri -> bool.
Variable vtx_ok : mstate -> nat -> bool.
Variable qual : mstate -> tri -> Q.
Variable query : mstate -> vec2 -> Q -> list nat.
(* the preparation of a layer moves no vertex and splits no edge *)
Definition steady_layer (st : qstate) (height : Q) (xs xe : vec2) : Prop :=
  forall e f closed bs y, find_ends sharp (q_m st) xs xe = Ok (Some (e, f, closed)) ->
    base_edges (Nat.max 1 (length (ms_front (q_m st)))) (ms_front (q_m st)) e f = Ok bs ->
    setup_projection norm sin_half cos_ang sharp mesh_scale st closed e f
      (smooth_heights rho (ms_pos (q_m st)) (map (new_cell norm (ms_pos (q_m st)) height) bs)) = Ok y ->
    fst y = st.
(* all layers of a run *)
Fixpoint steady_layers (n : nat) (st : qstate) (height rate : Q) (xs xe : vec2) : Prop :=
  match n with
  | O => True
  | S n' =>
      steady_layer st height xs xe /\
      forall st1 a b, generate_layer norm sin_half cos_ang sharp rho mesh_scale tri_ok vtx_ok qual query st height xs xe = Ok (st1, Some (a, b)) ->
        steady_layers n' st1 (height * rate) rate a b
  end.
End Steady.
Definition steady (a : layering) (m1 : mesh) : Prop :=
  steady_layers (la_norm a) (la_sin a) (la_cos a) (la_sharp a) (la_rho a) (mh_scale m1) (la_ok a) (la_vok a) (la_qual a) (la_query a)
    (la_n a) (ready m1) (la_height a) (la_rate a) (la_start a) (la_end a).
(* layers with the tests of the code for the size function rho *)
Definition layering_ok (rho : vec2 -> Q) (a : layering) : Prop :=
  (exists shape_ok dom, la_ok a = triangle_is_valid rho shape_ok dom) /\ exists inside, la_vok a = vertex_is_valid rho inside.
(* the vertices lie in the squares of the quadtrees *)
Definition settled (scale : Q) (st : mstate) : Prop :=
  forall v, (v < ms_nv st)%nat -> in_square scale (ms_pos st v) = true /\ in_square front_scale (ms_pos st v) = true.

(* meshes that follow from a mesh by triangulations without clean up and by quad
   layers, with the tests of the code for the size function rho *)
Inductive built (rho : vec2 -> Q) (m : mesh) : mesh -> Prop :=
| bu_start : built rho m m
| bu_tri shape_ok dom inside qual os m1 m2 : built rho m m1 -> ops_in (mh_scale m1) os ->
    stage (triangle_is_valid rho shape_ok dom) (vertex_is_valid rho inside) qual m1 os = Ok m2 -> built rho m m2
| bu_layers a m1 st' ok hs : built rho m m1 -> layering_ok rho a -> steady a (setup_facet_connectivity m1) ->
    run_layers a (setup_facet_connectivity m1) = Ok (st', ok, hs) -> settled (mh_scale m1) (q_m st') ->
    built rho m (layer_back (setup_facet_connectivity m1) st').
