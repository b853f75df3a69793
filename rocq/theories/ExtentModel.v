(* The squares in which vertices are searched: the container of the vertices of a domain as
   it is filled by the application, and the extent of a new mesh. *)
From Verif Require Import Base GeomModel UtilModel BdryModel ParaModel CsvModel AppModel DomInModel FileModel QTreeModel.
Open Scope Q_scope.

(* ---- the vertices of the domain ---- *)
(* Container.h:141-170: the vertices are added one after the other; TQMeshApp.h:765-781 and
   Boundary.h:345 add them at the end *)
Definition vertex_container (p : cparams) (store : list vinfo) : outcome cstate :=
  obind (c_run p c_init (map (fun v => CPush (vi_xy v)) store)) (fun r => Ok (fst r)).
(* Boundary.h:337, Container.h:133-134: the search of create_boundary_shape.  The vertices
   of a container are numbered in the order in which they are added, as those of [store]. *)
Definition tree_nearest (p : cparams) (sqrt : Q -> Q) (store : list vinfo) (xy : vec2) : outcome (option nat) :=
  obind (vertex_container p store) (fun s => c_get_nearest p sqrt s xy).

(* TQMeshApp.h:794, Domain.h:204-210 and Container.h:22-24: the container of the domain.
   The check that the scale is positive (QuadTree.h:405) is compiled in debug mode only. *)
Definition domain_params (extent : Q) : cparams := CP extent 100 25.
(* TQMeshApp.h:803-850 *)
Definition file_extent (tq_max : Q) (x : input) : outcome Q :=
  obind (init_vertices tq_max (in_vertices x) (in_fixed x)) (fun y => Ok (snd y)).
(* TQMeshApp.h:99-110: as FileModel.file_domain, with the search of the container *)
Definition tree_domain (sqrt : Q -> Q) cosn sinn sqrt3 stod (tq_max : Q) (x : input) : outcome (list vinfo * list (bdry_type * elist)) :=
  obind (file_extent tq_max x) (fun s => file_domain (tree_nearest (domain_params s) sqrt) cosn sinn sqrt3 stod tq_max x).

(* ---- the square of a quadtree ---- *)
(* QuadTree.h:92-103, 398-418: what the setters of an empty tree change.  A tree that holds
   items ends the program. *)
Record tsquare := TS { ts_scale : Q; ts_centre : vec2; ts_size : nat }.
Definition update_attributes (t : tsquare) (scale : Q) (centre : vec2) : outcome tsquare :=
  match ts_size t with O => Ok (TS scale centre 0) | S _ => Throw end.
(* Domain.h:274 and 277, QuadTree.h:136-147 *)
Definition quad_tree_scale (t : tsquare) (s : Q) : outcome tsquare := update_attributes t s (ts_centre t).
Definition quad_tree_center (t : tsquare) (c : vec2) : outcome tsquare := update_attributes t (ts_scale t) c.
(* QuadTree.h:412-417 and 318-320: the square takes an item *)
Definition takes (t : tsquare) (v : vec2) : bool :=
  let h := ts_scale t / 2 in
  Qle_bool (vx (ts_centre t) - h) (vx v) && Qle_bool (vy (ts_centre t) - h) (vy v) &&
  Qle_bool (vx v) (vx (ts_centre t) + h) && Qle_bool (vy v) (vy (ts_centre t) + h).

(* ---- MeshBuilder.h ---- *)
(* MathUtility.h:78-83: EQ0(a, d) with the relative tolerance of double *)
Definition eq0 (max_diff a : Q) : bool := EQtol a 0 max_diff dbl_eps.
(* MeshBuilder.h:74-98 create_empty_mesh: the scale of the trees of the mesh; [vs] are the
   vertices of the domain, fixed vertices included *)
Definition empty_extent (given : Q) (vs : list vec2) : Q :=
  if eq0 0 given then fold_left (fun e v => Qbigger (Qbigger e (absQ (vx v))) (absQ (vy v))) vs given * (21 # 10) else given.
Definition empty_mesh_square (given : Q) (vs : list vec2) : tsquare := TS (empty_extent given vs) (V2 0 0) 0.
(* MeshBuilder.h:106-117 create_empty_mesh_ptr, Mesh.h:38-49 and Container.h:51-55: the
   scale of the tree of the domain, the centre of the constructor *)
Definition mesh_square (domain : tsquare) : tsquare := TS (ts_scale domain) (V2 0 0) 0.
