(* Executable model of how the application builds the boundaries of the domain and the
   quad layers from the definitions in a mesh block
   (src/app/TQMeshApp.h:308-341, 411-575, 580-760).
   The vertices of the domain are in the order of their creation; the indices of the
   edge definitions count them. *)
From Verif Require Import Base CsvModel ParaModel UtilModel BdryModel AppModel ShapeModel.
Open Scope Q_scope.

(* static_cast<int> of a double: towards zero, undefined outside of int *)
Definition truncate (q : Q) : Z := Z.quot (Qnum q) (Zpos (Qden q)).
Definition to_int (q : Q) : outcome Z :=
  let z := truncate q in if ((z <? -2147483648) || (2147483647 <? z))%Z then UB else Ok z.

(* the kinds of definitions, in the order in which the code asks for them *)
Inductive kind := KEdges | KCoords | KRect | KCirc | KSquare | KTriangle | KCsv.
Definition kinds : list kind := [KEdges; KCoords; KRect; KCirc; KSquare; KTriangle; KCsv].
Inductive definition :=
  | DEdges (p : para Z) | DCoords (p : para Q) | DRect (p : para Q) | DCirc (p : para Q)
  | DSquare (p : para Q) | DTriangle (p : para Q) | DCsv (file : option text).
Definition kind_of (d : definition) : kind :=
  match d with
  | DEdges _ => KEdges | DCoords _ => KCoords | DRect _ => KRect | DCirc _ => KCirc
  | DSquare _ => KSquare | DTriangle _ => KTriangle | DCsv _ => KCsv
  end.
Definition kind_eqb (a b : kind) : bool :=
  match a, b with
  | KEdges, KEdges | KCoords, KCoords | KRect, KRect | KCirc, KCirc | KSquare, KSquare
  | KTriangle, KTriangle | KCsv, KCsv => true
  | _, _ => false
  end.
(* a definition in the file and whether the reader accepts its values (C40, C41) *)
Record given := GV { gv_def : definition; gv_ok : bool }.
Definition of_kind (k : kind) (gs : list given) : list given := filter (fun g => kind_eqb (kind_of (gv_def g)) k) gs.

Section Build.
Variable nearest : list vinfo -> vec2 -> outcome (option nat).
Variables cosn sinn : nat -> nat -> Q.
Variable sqrt3 : Q.
Variable stod : text -> option Q.

(* TQMeshApp.h:464-480 and 634-650: one row of coordinates; a negative colour is an
   error *)
Record corner := CN { cn_xy : vec2; cn_props : Q * Q; cn_col : Z }.
Fixpoint read_corners (p : para Q) (n j : nat) : outcome (list corner) :=
  match n with
  | O => Ok []
  | S n' =>
      obind (entry p 0 j) (fun x => obind (entry p 1 j) (fun y =>
      obind (obind (entry p 2 j) to_int) (fun m =>
      obind (entry p 3 j) (fun s => obind (entry p 4 j) (fun r =>
      if (m <? 0)%Z then Throw else
      obind (read_corners p n' (S j)) (fun cs => Ok (CN (V2 x y) (s, r) m :: cs)))))))
  end.

(* size_t from the number of corners of a circle.  Interior (TQMeshApp.h:519): an int, a
   negative one becomes a number of corners for which there is no memory.  Exterior (696):
   a double, negative it is undefined. *)
Definition corner_number (bt : bdry_type) (z : Z) : outcome nat :=
  if (z <? 0)%Z then match bt with EXTERIOR => UB | INTERIOR => Throw end else Ok (Z.to_nat z).

(* one boundary of the domain; [b] is the boundary that was just added and has no edges *)
Definition make (bt : bdry_type) (store : list vinfo) (b : elist) (d : definition) : outcome (list vinfo * elist) :=
  match d with
  | DEdges p =>                                     (* 420-449 and 589-619 *)
      obind (boundary_edges (match bt with EXTERIOR => false | INTERIOR => true end) (seq 0 (length store)) p (pr_nrow p) 0) (fun es =>
      let pos := fun v => match nth_error store v with Some x => vi_xy x | None => V2 0 0 end in
      Ok (store, fold_left (fun l e => match e with (v1, v2, c) =>
                   push_edge pos (BE (length (el_edges l)) v1 v2 c e_on_boundary) l end) es b))
  | DCoords p =>                                    (* 452-482 and 622-655 *)
      obind (read_corners p (pr_nrow p) 0) (fun cs =>
      set_shape nearest bt store b (map cn_xy cs) (map cn_props cs) (map cn_col cs))
  | DRect p =>                                      (* 486-503 and 659-679 *)
      obind (obind (entry p 0 0) to_int) (fun m => obind (entry p 1 0) (fun x => obind (entry p 2 0) (fun y =>
      obind (entry p 3 0) (fun w => obind (entry p 4 0) (fun h => obind (entry p 5 0) (fun s => obind (entry p 6 0) (fun r =>
      set_shape_rectangle nearest bt store b m (V2 x y) w h s r)))))))
  | DCirc p =>                                      (* 507-524 and 682-702 *)
      obind (obind (entry p 0 0) to_int) (fun m => obind (entry p 1 0) (fun x => obind (entry p 2 0) (fun y =>
      obind (entry p 3 0) (fun r => obind (obind (obind (entry p 4 0) to_int) (corner_number bt)) (fun n =>
      obind (entry p 5 0) (fun ms => obind (entry p 6 0) (fun mr =>
      set_shape_circle nearest bt cosn sinn store b m (V2 x y) r n ms mr)))))))
  | DSquare p =>                                    (* 527-543 and 705-724 *)
      obind (obind (entry p 0 0) to_int) (fun m => obind (entry p 1 0) (fun x => obind (entry p 2 0) (fun y =>
      obind (entry p 3 0) (fun h => obind (entry p 4 0) (fun ms => obind (entry p 5 0) (fun mr =>
      set_shape_square nearest bt store b m (V2 x y) h ms mr))))))
  | DTriangle p =>                                  (* 546-562 and 727-746 *)
      obind (obind (entry p 0 0) to_int) (fun m => obind (entry p 1 0) (fun x => obind (entry p 2 0) (fun y =>
      obind (entry p 3 0) (fun h => obind (entry p 4 0) (fun ms => obind (entry p 5 0) (fun mr =>
      set_shape_triangle nearest bt cosn sinn sqrt3 store b m (V2 x y) h ms mr))))))
  | DCsv file =>                                    (* 565-573 and 749-758; Boundary.h:217-225 *)
      obind (read_csv stod file) (fun r =>
      set_shape nearest bt store b (fst (fst r)) (map (fun q => (vx q, vy q)) (snd (fst r))) (snd r))
  end.

(* Domain.h:312-319: a boundary is added and then filled *)
Definition add (bt : bdry_type) (d : definition) (st : list vinfo * list (bdry_type * elist)) : outcome (list vinfo * list (bdry_type * elist)) :=
  obind (make bt (fst st) (EL (bdry_orient bt) [] 0) d) (fun r => Ok (fst r, snd st ++ [(bt, snd r)])).

(* 580-760 init_exterior_boundary: the first kind for which a query succeeds; a query
   looks at the first definition of its kind *)
Fixpoint chosen (ks : list kind) (gs : list given) : option definition :=
  match ks with
  | [] => None
  | k :: ks' => match of_kind k gs with
                | GV d true :: _ => Some d
                | _ => chosen ks' gs
                end
  end.
Definition init_exterior (gs : list given) (st : list vinfo * list (bdry_type * elist)) : outcome (list vinfo * list (bdry_type * elist)) :=
  match chosen kinds gs with Some d => add EXTERIOR d st | None => Ok st end.

(* 411-575 init_interior_boundaries: kind after kind, every loop ends with the first
   query that fails *)
Fixpoint accepted (gs : list given) : list definition :=
  match gs with GV d true :: gs' => d :: accepted gs' | _ => [] end.
Definition interior_definitions (gs : list given) : list definition := flat_map (fun k => accepted (of_kind k gs)) kinds.
Fixpoint add_all (ds : list definition) (st : list vinfo * list (bdry_type * elist)) : outcome (list vinfo * list (bdry_type * elist)) :=
  match ds with [] => Ok st | d :: ds' => obind (add INTERIOR d st) (add_all ds') end.

(* 106-110: the exterior boundary, then the interior ones; [store] are the vertices of
   init_domain_vertices (765-781) *)
Definition init_boundaries (store : list vinfo) (ext int : list given) : outcome (list vinfo * list (bdry_type * elist)) :=
  obind (init_exterior ext (store, [])) (add_all (interior_definitions int)).
End Build.

(* 308-341 init_quad_layers *)
Record layer := LY { ly_from : vec2; ly_to : vec2; ly_number : Z; ly_height : Q; ly_growth : Q }.
Definition read_layer (p : para Q) : outcome layer :=
  obind (entry p 0 0) (fun x1 => obind (entry p 1 0) (fun y1 => obind (entry p 2 0) (fun x2 => obind (entry p 3 0) (fun y2 =>
  obind (obind (entry p 4 0) to_int) (fun n => obind (entry p 5 0) (fun h => obind (entry p 6 0) (fun g =>
  Ok (LY (V2 x1 y1) (V2 x2 y2) n h g)))))))).
(* the loop ends with the first line the reader does not accept *)
Fixpoint init_quad_layers (ps : list (para Q * bool)) : outcome (list layer) :=
  match ps with
  | (p, true) :: ps' => obind (read_layer p) (fun l => obind (init_quad_layers ps') (fun ls => Ok (l :: ls)))
  | _ => Ok []
  end.
