(* Executable model of how the application turns its input file into the domain
   (src/app/TQMeshApp.h).  Parameters are those of ParaModel. *)
From Verif Require Import Base CsvModel ParaModel AdvanceModel.
Open Scope nat_scope.

(* conversion of an int to size_t, 64 bit *)
Definition to_size (z : Z) : Z := (z mod 18446744073709551616)%Z.
(* Container.h:231-239 operator[]; its assertion is empty in the release build
   (CMakeLists.txt:41), behind the end the access is undefined *)
Definition vertex_at (vs : list nat) (i : Z) : outcome nat :=
  match nth_error vs (Z.to_nat i) with Some v => Ok v | None => UB end.
Definition entry {T} (p : para T) (i j : nat) : outcome T :=
  match get_value p i j with Some v => Ok v | None => UB end.

(* One row.  [strict] is the comparison i >= n_vertices of
   init_fixed_edges (TQMeshApp.h:388-404) and init_interior_boundaries
   (432-449); init_exterior_boundary (599-616) has i > n_vertices. *)
Definition rejects (strict : bool) (n : nat) (i : Z) : bool :=
  if strict then Z.leb (Z.of_nat n) i else Z.ltb (Z.of_nat n) i.
Definition read_edge (strict : bool) (vs : list nat) (r1 r2 : Z) : outcome (nat * nat) :=
  let i1 := to_size r1 in let i2 := to_size r2 in
  if rejects strict (length vs) i1 || rejects strict (length vs) i2 then Throw else
  obind (vertex_at vs i1) (fun v1 => obind (vertex_at vs i2) (fun v2 => Ok (v1, v2))).
(* the loops over the rows j, j+1, ..., j+n-1; the colour of boundary edges is the third
   column (Boundary.h:175-188; the assertion on it is empty in the release build) *)
Fixpoint boundary_edges (strict : bool) (vs : list nat) (p : para Z) (n j : nat) : outcome (list (nat * nat * Z)) :=
  match n with
  | O => Ok []
  | S n' =>
      obind (entry p 0 j) (fun r1 => obind (entry p 1 j) (fun r2 => obind (entry p 2 j) (fun m =>
      obind (read_edge strict vs r1 r2) (fun e =>
      obind (boundary_edges strict vs p n' (S j)) (fun es => Ok ((fst e, snd e, m) :: es))))))
  end.
Fixpoint fixed_edges (vs : list nat) (p : para Z) (n j : nat) : outcome (list (nat * nat)) :=
  match n with
  | O => Ok []
  | S n' =>
      obind (entry p 0 j) (fun r1 => obind (entry p 1 j) (fun r2 =>
      obind (read_edge true vs r1 r2) (fun e =>
      obind (fixed_edges vs p n' (S j)) (fun es => Ok (e :: es)))))
  end.
(* TQMeshApp.h:589-621, the part for extr_bdry_edges *)
Definition exterior_edges (vs : list nat) (p : para Z) := boundary_edges false vs p (pr_nrow p) 0.
(* TQMeshApp.h:411-450, the part for one intr_bdry_edges *)
Definition interior_edges (vs : list nat) (p : para Z) := boundary_edges true vs p (pr_nrow p) 0.
(* TQMeshApp.h:373-406 for one fixed_edges *)
Definition fixed_edges_of (vs : list nat) (p : para Z) := fixed_edges vs p (pr_nrow p) 0.

(* ---- vertices and extent ---- *)
(* TQMeshApp.h:346-367 and 803-850: position, size and range of the rows *)
Record invert := IV { iv_xy : vec2; iv_props : vec2; iv_fixed : bool }.
Fixpoint read_vertices (fixed : bool) (p : para Q) (n j : nat) : outcome (list invert) :=
  match n with
  | O => Ok []
  | S n' =>
      obind (entry p 0 j) (fun x => obind (entry p 1 j) (fun y => obind (entry p 2 j) (fun s => obind (entry p 3 j) (fun r =>
      obind (read_vertices fixed p n' (S j)) (fun l => Ok (IV (V2 x y) (V2 s r) fixed :: l))))))
  end.
(* 836-841 *)
Definition Qbigger (a b : Q) : Q := if Qle_bool b a then a else b.      (* MAX *)
Definition absQ (x : Q) : Q := if Qle_bool 0 x then x else (- x)%Q.       (* ABS *)
Definition estimate (vs : list invert) : Q :=
  (fold_left (fun e v => Qbigger (Qbigger e (absQ (vx (iv_xy v)))) (absQ (vy (iv_xy v)))) vs 0 * (21 # 10))%Q.
(* 803-850 init_mesh_vertices and 346-367 init_fixed_vertices; None: the parameter is not in
   the file.  [tq_max] is TQ_MAX. *)
Definition init_vertices (tq_max : Q) (pv pf : option (para Q)) : outcome (list invert * Q) :=
  obind (match pv with
         | Some p => obind (read_vertices false p (pr_nrow p) 0) (fun vs => Ok (vs, estimate vs))
         | None => Ok ([], tq_max)
         end) (fun x =>
  obind (match pf with Some p => read_vertices true p (pr_nrow p) 0 | None => Ok [] end) (fun fs =>
  Ok (fst x ++ fs, snd x))).
