(* Executable model of the text output: src/utils/VtkIO.h, the calls of
   src/algorithm/MeshWriter.h and operator<< of src/algorithm/Mesh.h.  A file is
   a list of characters. *)
From Coq Require Import Ascii String Decimal Qabs Qround.
From Verif Require Import Base GeomModel UtilModel FacetModel BdryModel AdvanceModel MeshModel.
Open Scope nat_scope.
Open Scope list_scope.

Definition text := list ascii.
Definition chars (s : string) : text := list_ascii_of_string s.
Definition newline : text := [ascii_of_nat 10].

(* ---- numbers ---- *)
Fixpoint digits (u : uint) : text :=
  match u with
  | Nil => []
  | D0 u => "0"%char :: digits u | D1 u => "1"%char :: digits u | D2 u => "2"%char :: digits u | D3 u => "3"%char :: digits u
  | D4 u => "4"%char :: digits u | D5 u => "5"%char :: digits u | D6 u => "6"%char :: digits u | D7 u => "7"%char :: digits u
  | D8 u => "8"%char :: digits u | D9 u => "9"%char :: digits u
  end.
(* operator<< of an unsigned and of a signed integer *)
Definition dec (n : N) : text := digits (N.to_uint n).
Definition int_text (z : Z) : text := match z with Zneg p => "-"%char :: dec (Npos p) | _ => dec (Z.to_N z) end.
(* std::setw: blanks in front *)
Definition setw (n : nat) (t : text) : text := repeat " "%char (n - List.length t) ++ t.
(* setprecision(5) << fixed: the decimal with five digits that is closest to the number, the
   even one of two; the sign is kept when the digits are zero.  Rationals have no
   negative zero. *)
Definition near_even (q : Q) : Z :=
  let f := Qfloor q in
  let r := (q - inject_Z f)%Q in
  if Qlt_le_dec r (1#2) then f
  else if Qlt_le_dec (1#2) r then (f + 1)%Z
  else if Z.even f then f else (f + 1)%Z.
(* the last [k] digits of [n] *)
Fixpoint last_digits (k : nat) (n : N) : text :=
  match k with O => [] | S k' => last_digits k' (N.div n 10) ++ [ascii_of_N (48 + N.modulo n 10)] end.
Definition fixed5 (q : Q) : text :=
  let n := Z.to_N (near_even (Qabs q * 100000)%Q) in
  (if Qlt_le_dec q 0 then ["-"%char] else []) ++ dec (N.div n (10 ^ 5)) ++ "."%char :: last_digits 5 n.

(* ---- VtkIO.h ---- *)
Definition blanks (n : nat) : text := repeat " "%char n.
(* 97-114, 318-331, 369-381, 397-410, 426-439: ten entries in a row; [j] is the loop
   counter *)
Fixpoint entries (j : nat) (ws : list text) : text :=
  match ws with
  | [] => []
  | w :: r => (if Nat.eqb (Nat.modulo j 10) 0 && negb (Nat.eqb j 0) then newline ++ blanks 10 else []) ++ w ++ " "%char :: entries (S j) r
  end.
Definition rows (ws : list text) : text := blanks 10 ++ entries 0 ws ++ newline.
Definition line (n : nat) (t : text) : text := blanks n ++ t ++ newline.
(* 230-256, 263-289: one array of point or cell data: type, name and entries *)
Record data := DA { da_type : string; da_name : string; da_words : list text }.
Definition quote : ascii := ascii_of_nat 34.
Definition quoted (t : text) : text := quote :: t ++ [quote].
Definition attribute (k : string) (t : text) : text := chars k ++ "="%char :: quoted t.
Definition array_tag (attrs : list text) : text := "<"%char :: chars "DataArray" ++ flat_map (fun a => " "%char :: a) attrs ++ [">"%char].
Definition write_array (attrs : list text) (ws : list text) : text :=
  line 8 (array_tag attrs) ++ rows ws ++ line 8 (chars "</DataArray>").
Definition write_data (d : data) : text :=
  write_array [attribute "type" (chars (da_type d)); attribute "Name" (chars (da_name d)); attribute "NumberOfComponents" (dec 1); attribute "Format" (chars "ascii")] (da_words d).
Definition group (name : string) (ds : list data) : text :=
  match ds with
  | [] => []
  | _ => line 6 ("<"%char :: chars name ++ " "%char :: attribute "Scalars" (chars "scalars") ++ [">"%char]) ++ flat_map write_data ds ++ line 6 (chars "</" ++ chars name ++ [">"%char])
  end.
(* 182-223 VtuWriter::write with 295-443; write_types reads types_ as often as there are
   offsets: [firstn] stands for it when there are enough of them *)
Definition cells_array (name : string) (l : list Z) : text :=
  write_array [attribute "type" (chars "Int32"); attribute "Name" (chars name); attribute "Format" (chars "ascii")] (map (fun z => setw 2 (int_text z)) l).
Definition vtu_body (points : list Q) (conn off types : list Z) (point_data cell_data : list data) : text :=
  line 0 ("<"%char :: chars "VTKFile " ++ attribute "type" (chars "UnstructuredGrid") ++ " "%char :: attribute "version" (chars "0.1") ++ " "%char :: attribute "byte_order" (chars "LittleEndian") ++ [">"%char]) ++
  line 2 (chars "<UnstructuredGrid>") ++
  line 4 ("<"%char :: chars "Piece " ++ attribute "NumberOfPoints" (dec (N.of_nat (Nat.div (List.length points) 3))) ++ " "%char :: attribute "NumberOfCells" (dec (N.of_nat (List.length off))) ++ [">"%char]) ++
  group "PointData" point_data ++ group "CellData" cell_data ++
  line 6 (chars "<Points>") ++
  write_array [attribute "type" (chars "Float32"); attribute "NumberOfComponents" (chars "3"); attribute "Format" (chars "ascii")] (map fixed5 points) ++
  line 6 (chars "</Points>") ++
  line 6 (chars "<Cells>") ++
  cells_array "connectivity" conn ++ cells_array "offsets" off ++ cells_array "types" (firstn (List.length off) types) ++
  line 6 (chars "</Cells>") ++
  line 4 (chars "</Piece>") ++
  line 2 (chars "</UnstructuredGrid>") ++
  line 0 (chars "</VTKFile>").
Definition vtu_text (points : list Q) (conn off types : list Z) (point_data cell_data : list data) : outcome text :=
  if Nat.ltb (List.length types) (List.length off) then UB else Ok (vtu_body points conn off types point_data cell_data).

(* ---- MeshWriter.h:97-190 write_to_vtu ---- *)
(* [plain] is operator<< of a double without manipulators, used for the size function, the
   longest edge, the largest angle in degrees and the quality *)
Section Vtu.
Variable plain : Q -> text.
Variable size_at : vec2 -> Q.
Variable longest angle quality : facet -> Q.
Definition flag_text (b : bool) : text := int_text (if b then 1 else 0)%Z.
Definition vtu_file (m : mesh) (vidx : nat -> Z) : outcome text :=
  let d := vtu_data m vidx in
  vtu_text (vt_points d) (vt_conn d) (vt_off d) (vt_types d)
    [DA "Float64" "size_function" (map (fun v => plain (size_at (mh_pos m v))) (mh_verts m));
     DA "Int32" "in_quad_layer" (map (fun v => flag_text (has_property (mh_prop m v) v_in_quad_layer)) (mh_verts m));
     DA "Int32" "fixed_vertices" (map (fun v => flag_text (has_property (mh_prop m v) v_is_fixed)) (mh_verts m))]
    [DA "Int32" "element_color" (map int_text (vt_color d));
     DA "Float64" "edge_length" (map (fun f => plain (longest f)) (facets m));
     DA "Float64" "max_angle" (map (fun f => plain (angle f)) (facets m));
     DA "Float64" "cell_quality" (map (fun f => plain (quality f)) (facets m))].
End Vtu.

(* ---- Mesh.h:380-487 operator<< ---- *)
(* fields of a row separated by commas; integers with setw(4) *)
Fixpoint fields (ws : list text) : text :=
  match ws with
  | [] => []
  | [w] => w
  | w :: r => w ++ ","%char :: fields r
  end.
Definition int_row (zs : list Z) : text := fields (map (fun z => setw 4 (int_text z)) zs) ++ newline.
Definition section (name : string) (rs : list text) : text :=
  chars name ++ " "%char :: dec (N.of_nat (List.length rs)) ++ newline ++ List.concat rs.
Section Txt.
Variable vidx fidx : nat -> Z.
(* index and colour of the left facet of an edge of another mesh *)
Variable twin : nat -> Z * Z.
Variable msize : nat -> Q.
(* NullFacet::index() is -1, Facet.h:139 *)
Definition facet_no (o : option nat) : Z := match o with Some f => fidx f | None => (-1)%Z end.
Definition shape_row (f : facet) : list Z := map vidx (corners (fa_sh f)) ++ [fa_col f].
Definition twin_row (e : medge) : list Z := match ed_twin e with Some t => [fst (twin t); snd (twin t)] | None => [] end.
Definition txt_file (id : Z) (m : mesh) : text :=
  chars "MESH " ++ int_text id ++ newline ++
  section "VERTICES" (map (fun v => fields [fixed5 (vx (mh_pos m v)); fixed5 (vy (mh_pos m v))] ++ newline) (mh_verts m)) ++
  section "INTERIOREDGES" (map (fun e => int_row [vidx (ed_1 e); vidx (ed_2 e); facet_no (ed_l e); facet_no (ed_r e)]) (valid_interior_edges m)) ++
  section "BOUNDARYEDGES" (map (fun e => int_row [vidx (ed_1 e); vidx (ed_2 e); facet_no (ed_l e); ed_col e]) (valid_boundary_edges m)) ++
  section "INTERFACEEDGES" (map (fun e => int_row ([vidx (ed_1 e); vidx (ed_2 e); facet_no (ed_l e)] ++ twin_row e)) (interface_edges m)) ++
  section "FRONT" (map (fun e => int_row [vidx (ed_1 e); vidx (ed_2 e); (-1)%Z]) (front_edges m)) ++
  section "QUADS" (map (fun f => int_row (shape_row f)) (mh_quads m)) ++
  section "TRIANGLES" (map (fun f => int_row (shape_row f)) (mh_tris m)) ++
  section "QUADNEIGHBORS" (map (fun f => int_row (map (fun i => facet_no (mh_nbr m (fa_id f) i)) [0; 1; 2; 3])) (mh_quads m)) ++
  section "TRIANGLENEIGHBORS" (map (fun f => int_row (map (fun i => facet_no (mh_nbr m (fa_id f) i)) [0; 1; 2])) (mh_tris m)) ++
  section "SIZEFUNCTION" (map (fun v => fixed5 (msize v) ++ newline) (mh_verts m)).
End Txt.

(* MeshWriter.h:73-94 and 99-105, 182-186: the result does not depend on whether the file
   could be opened *)
Definition write_to (opened : bool) (t : text) : option text * bool := (if opened then Some t else None, true).
(* MeshWriter.h:77-80, 101-104: the name after the last dot, all of it if there is none *)
Fixpoint after_dot (t last : text) : text :=
  match t with
  | [] => last
  | c :: r => after_dot r (if Ascii.eqb c "."%char then r else last)
  end.
Definition full_path (ext : string) (t : text) : text :=
  if String.eqb (string_of_list_ascii (after_dot t t)) ext then t else t ++ "."%char :: chars ext.
