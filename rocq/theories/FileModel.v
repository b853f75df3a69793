(* Executable model of how the application reads the mesh blocks of a parameter file
   (src/app/TQMeshApp.h), on the parameters of ParaModel and the definitions of
   DomInModel. *)
From Coq Require Import Ascii String.
From Verif Require Import Base CsvModel ParaModel UtilModel BdryModel AppModel DomInModel.
Open Scope nat_scope.

Definition of_string (s : string) : text := list_ascii_of_string s.

(* ---- conversions: ParaReader.h:903-913 string_to_single_value ---- *)
(* operator>> for std::string: the first word; an empty one is an error *)
Fixpoint word (s : text) : text :=
  match s with c :: r => if is_space c then [] else c :: word r | [] => [] end.
Definition to_text (s : text) : option text := match word (skip_space s) with [] => None | w => Some w end.
(* operator>> for int: like std::stoi *)
Definition to_integer (s : text) : option Z := stoi s.
(* operator>> for size_t, 64 bit: a sign is accepted, a negative number wraps around;
   more than 64 bit is an error *)
Definition to_count (s : text) : option Z :=
  let s := skip_space s in
  let '(neg, s) := match s with
                   | "-"%char :: s' => (true, s')
                   | "+"%char :: s' => (false, s')
                   | _ => (false, s) end in
  match s with
  | c :: _ => match digit c with
              | Some _ => let v := digits s 0%Z in
                          if (18446744073709551615 <? v)%Z then None
                          else Some (to_size (if neg then (- v)%Z else v))
              | None => None end
  | [] => None
  end.
(* operator>> for bool without boolalpha: the numbers 0 and 1 *)
Definition to_bool (s : text) : option bool :=
  match stoi s with Some 0%Z => Some false | Some 1%Z => Some true | _ => None end.

(* ---- TQMeshApp.h:975-1078 init_parameter_file_reader ---- *)
Inductive pname :=
  | Prefix | Format | Vertices | Size | Colour | Algorithm | Refinements | Iterations | SmoothLayers
  | Layers | FixedVertices | FixedEdges
  | Bdry (ext : bool) (k : kind).
(* the text in front of the value or of the rows *)
Definition key_of (n : pname) : text := of_string
  match n with
  | Prefix => "Output file prefix:"
  | Format => "Output file format:"
  | Vertices => "Define boundary vertices:"
  | Size => "Element size:"
  | Colour => "Element color:"
  | Algorithm => "Meshing algorithm:"
  | Refinements => "Number of quad refinements:"
  | Iterations => "Number of smoothing iterations:"
  | SmoothLayers => "Smooth quad layers:"
  | Layers => "Add quad layers:"
  | FixedVertices => "Define fixed vertices:"
  | FixedEdges => "Define fixed edges:"
  | Bdry true KCsv => "Define exterior boundary from CSV file:"
  | Bdry false KCsv => "Define interior boundary from CSV file:"
  | Bdry true KEdges => "Define exterior boundary edges:"
  | Bdry false KEdges => "Define interior boundary edges:"
  | Bdry true KCoords => "Define exterior boundary:"
  | Bdry false KCoords => "Define interior boundary:"
  | Bdry true KRect => "Define exterior rectangular boundary:"
  | Bdry false KRect => "Define interior rectangular boundary:"
  | Bdry true KCirc => "Define exterior circular boundary:"
  | Bdry false KCirc => "Define interior circular boundary:"
  | Bdry true KSquare => "Define exterior squared boundary:"
  | Bdry false KSquare => "Define interior squared boundary:"
  | Bdry true KTriangle => "Define exterior triangular boundary:"
  | Bdry false KTriangle => "Define interior triangular boundary:"
  end%string.
(* the text behind the rows of a matrix *)
Definition end_of (n : pname) : option text := option_map of_string
  match n with
  | Vertices => Some "End boundary vertices"
  | FixedVertices => Some "End fixed vertices"
  | FixedEdges => Some "End fixed edges"
  | Bdry true KEdges => Some "End exterior boundary edges"
  | Bdry false KEdges => Some "End interior boundary edges"
  | Bdry true KCoords => Some "End exterior boundary"
  | Bdry false KCoords => Some "End interior boundary"
  | _ => None
  end%string.
Definition columns (n : pname) : nat :=
  match n with
  | Vertices | FixedVertices => 4
  | FixedEdges => 2
  | Layers | Bdry _ KRect | Bdry _ KCirc => 7
  | Bdry _ KSquare | Bdry _ KTriangle => 6
  | Bdry _ KEdges => 3
  | Bdry _ KCoords => 5
  | _ => 1
  end.
Definition mesh_key : text := of_string "Define mesh:".
Definition mesh_end : text := of_string "End mesh".

(* the parameters of the block "mesh_reader", by the type of their values; a parameter is
   only looked up in the component of its type *)
Definition pname_eqb (a b : pname) : bool :=
  match a, b with
  | Prefix, Prefix | Format, Format | Vertices, Vertices | Size, Size | Colour, Colour | Algorithm, Algorithm
  | Refinements, Refinements | Iterations, Iterations | SmoothLayers, SmoothLayers | Layers, Layers
  | FixedVertices, FixedVertices | FixedEdges, FixedEdges => true
  | Bdry e k, Bdry e' k' => Bool.eqb e e' && kind_eqb k k'
  | _, _ => false
  end.
Record reader := RD { rd_text : pname -> para text; rd_num : pname -> para Q; rd_int : pname -> para Z; rd_bool : pname -> para bool }.
Definition replace {A} (n : pname) (x : A) (f : pname -> A) : pname -> A := fun m => if pname_eqb n m then x else f m.
Definition set_text n p r := RD (replace n p (rd_text r)) (rd_num r) (rd_int r) (rd_bool r).
Definition set_num n p r := RD (rd_text r) (replace n p (rd_num r)) (rd_int r) (rd_bool r).
Definition set_int n p r := RD (rd_text r) (rd_num r) (replace n p (rd_int r)) (rd_bool r).
Definition set_bool n p r := RD (rd_text r) (rd_num r) (rd_int r) (replace n p (rd_bool r)).
(* ParaReader.h:207-232 constructor of a parameter: one row, T{} in every column *)
Definition new_para {T} (init : T) (n : nat) (b : bounds) : para T := PR b false n 1 (repeat init n).
Definition new_reader (b : bounds) : reader :=
  RD (fun n => new_para [] (columns n) b) (fun n => new_para 0%Q (columns n) b) (fun n => new_para 0%Z (columns n) b) (fun n => new_para false (columns n) b).
(* ParaReader.h:635-640: a block that is found gives its bounds to its parameters *)
Definition rebound (b : bounds) (r : reader) : reader :=
  RD (fun n => with_bounds (rd_text r n) b) (fun n => with_bounds (rd_num r n) b) (fun n => with_bounds (rd_int r n) b) (fun n => with_bounds (rd_bool r n) b).

(* what construct_mesh (94-126) has read from a block before generate_mesh; boundaries,
   vertices and layers are given by the parameters they are built from (AppModel,
   DomInModel) *)
Record input := IN { in_prefix : text; in_format : text; in_size : text;
  in_vertices : option (para Q); in_fixed : option (para Q);
  in_exterior : option definition; in_interior : list definition; in_edges : list (para Z); in_layers : list (para Q);
  in_colour : Z; in_algorithm : text; in_refinements : Z; in_iterations : Z; in_smooth : bool }.

Section Read.
Variable to_double : text -> option Q.                  (* operator>> for double *)
Variable files : text -> option text.                   (* the files that can be opened *)
Variable content : list text.

(* ParaReader.h:570-598 query: by the type of the parameter; use_default_value is used
   with -1.0 by the application *)
Definition query {T} (conv : text -> option T) (init : T) (d : option T) (n : pname) (p : para T) : outcome (para T * bool) :=
  match end_of n with
  | Some e => query_matrix T conv init (key_of n) e d content p
  | None => match columns n with
            | 1 => query_scalar T conv (key_of n) content p
            | _ => query_vector T conv (key_of n) d content p
            end
  end.
Definition padding : option Q := Some (-(1))%Q.
(* while( query(...) ) ...; Throw: more than [fuel] queries *)
Fixpoint query_all {T} (q : para T -> outcome (para T * bool)) (fuel : nat) (p : para T) : outcome (para T * list (para T)) :=
  match fuel with
  | O => Throw
  | S f => obind (q p) (fun x =>
           if snd x then obind (query_all q f (fst x)) (fun y => Ok (fst y, fst x :: snd y)) else Ok (fst x, []))
  end.

Fixpoint all_of {A B} (f : A -> outcome B) (l : list A) : outcome (list B) :=
  match l with [] => Ok [] | a :: l' => obind (f a) (fun b => obind (all_of f l') (fun bs => Ok (b :: bs))) end.
(* one query and, if it succeeds, what is made of the parameter *)
Definition ask {T A} (get : reader -> pname -> para T) (set : pname -> para T -> reader -> reader)
    (conv : text -> option T) (init : T) (d : option T) (n : pname) (f : para T -> outcome A) (r : reader) : outcome (reader * option A) :=
  obind (query conv init d n (get r n)) (fun x =>
  if snd x then obind (f (fst x)) (fun a => Ok (set n (fst x) r, Some a)) else Ok (set n (fst x) r, None)).
Definition ask_text {A} := @ask text A rd_text set_text to_text [] None.
Definition ask_num {A} := @ask Q A rd_num set_num to_double 0%Q padding.
Definition ask_int {A} (conv : text -> option Z) := @ask Z A rd_int set_int conv 0%Z None.
Definition ask_bool {A} := @ask bool A rd_bool set_bool to_bool false None.
(* a loop of queries and what is made of each of the parameters *)
Definition loop {T A} (get : reader -> pname -> para T) (set : pname -> para T -> reader -> reader)
    (conv : text -> option T) (init : T) (d : option T) (n : pname) (f : para T -> outcome A) (r : reader) : outcome (reader * list A) :=
  obind (query_all (query conv init d n) (S (length content)) (get r n)) (fun x =>
  obind (all_of f (snd x)) (fun l => Ok (set n (fst x) r, l))).
Definition whole {T} (p : para T) : outcome (para T) := Ok p.
Definition value {T} (p : para T) : outcome T := entry p 0 0.

(* 856-875 query_mandatory_parameters: the three texts or an error *)
Definition mandatory (r : reader) : outcome (reader * (text * text * text)) :=
  obind (ask_text Prefix value r) (fun x => match x with (_, None) => Throw | (r, Some a) =>
  obind (ask_text Format value r) (fun x => match x with (_, None) => Throw | (r, Some b) =>
  obind (ask_text Size value r) (fun x => match x with (_, None) => Throw | (r, Some c) => Ok (r, (a, b, c)) end) end) end).

(* 580-760 init_exterior_boundary: the first query that succeeds *)
Definition csv_of (p : para text) : outcome definition := obind (value p) (fun f => Ok (DCsv (files f))).
Definition as_definition (k : kind) (p : para Q) : definition :=
  match k with KCoords => DCoords p | KRect => DRect p | KCirc => DCirc p | KSquare => DSquare p | _ => DTriangle p end.
Definition ask_bdry (k : kind) (r : reader) : outcome (reader * option definition) :=
  match k with
  | KEdges => ask_int to_integer (Bdry true k) (fun p => Ok (DEdges p)) r
  | KCsv => ask_text (Bdry true k) csv_of r
  | _ => ask_num (Bdry true k) (fun p => Ok (as_definition k p)) r
  end.
Fixpoint read_exterior (ks : list kind) (r : reader) : outcome (reader * option definition) :=
  match ks with
  | [] => Ok (r, None)
  | k :: ks' => obind (ask_bdry k r) (fun x => match snd x with Some d => Ok x | None => read_exterior ks' (fst x) end)
  end.

(* 411-575 init_interior_boundaries: a loop for each kind *)
Definition loop_bdry (k : kind) (r : reader) : outcome (reader * list definition) :=
  match k with
  | KEdges => loop rd_int set_int to_integer 0%Z None (Bdry false k) (fun p => Ok (DEdges p)) r
  | KCsv => loop rd_text set_text to_text [] None (Bdry false k) csv_of r
  | _ => loop rd_num set_num to_double 0%Q padding (Bdry false k) (fun p => Ok (as_definition k p)) r
  end.
Fixpoint read_interior (ks : list kind) (r : reader) : outcome (reader * list definition) :=
  match ks with
  | [] => Ok (r, [])
  | k :: ks' => obind (loop_bdry k r) (fun x => obind (read_interior ks' (fst x)) (fun y => Ok (fst y, snd x ++ snd y)))
  end.
(* 373-406 init_fixed_edges and 308-341 init_quad_layers; no default value *)
Definition loop_edges := loop rd_int set_int to_integer 0%Z None FixedEdges whole.
Definition loop_layers := loop rd_num set_num to_double 0%Q None Layers whole.
Definition or_default {A} (d : A) (o : option A) : A := match o with Some a => a | None => d end.

(* 94-126 construct_mesh up to generate_mesh.  In the code the domain is built in between
   (C64); an error there comes before an error of a later query. *)
Definition read_block (r : reader) : outcome (reader * input) :=
  obind (mandatory r) (fun x => let '(r, (prefix, format, size)) := x in
  obind (ask_num Vertices whole r) (fun x => let '(r, vs) := x in
  obind (ask_num FixedVertices whole r) (fun x => let '(r, fs) := x in
  obind (read_exterior kinds r) (fun x => let '(r, ext) := x in
  obind (read_interior kinds r) (fun x => let '(r, int) := x in
  obind (loop_edges r) (fun x => let '(r, es) := x in
  obind (loop_layers r) (fun x => let '(r, ls) := x in
  obind (ask_int to_integer Colour value r) (fun x => let '(r, colour) := x in           (* 293-303 *)
  obind (ask_text Algorithm value r) (fun x => let '(r, algorithm) := x in               (* 278-288 *)
  obind (ask_int to_count Refinements value r) (fun x => let '(r, refinements) := x in   (* 263-273 *)
  obind (ask_int to_count Iterations value r) (fun x => let '(r, iterations) := x in     (* 241-258 *)
  obind (ask_bool SmoothLayers value r) (fun x => let '(r, smooth) := x in
  Ok (r, IN prefix format size vs fs ext int es ls
            (or_default 0%Z colour) (or_default (of_string "Triangulation") algorithm)
            (or_default 0%Z refinements) (or_default 2%Z iterations) (or_default false smooth)))))))))))))).

(* 928-958 run: the blocks one after the other; an error ends the run.  Throw: an error or
   more than [fuel] blocks *)
Fixpoint read_blocks (fuel : nat) (b : block) (r : reader) : outcome (list input) :=
  match fuel with
  | O => Throw
  | S f => obind (query_block mesh_key mesh_end content b) (fun x =>
           if snd x then
             obind (read_block (rebound (BO (bo_start (bk_b (fst x))) (bo_end (bk_b (fst x))) 0) r)) (fun y =>
             obind (read_blocks f (fst x) (fst y)) (fun l => Ok (snd y :: l)))
           else Ok [])
  end.
End Read.

(* 919-923 constructor and run *)
Definition read_file (to_double : text -> option Q) (files : text -> option text) (file : text) : outcome (list input) :=
  let content := read_content file in
  let b := BO 0 (length content) 0 in
  read_blocks to_double files content (S (length content)) (BK b []) (new_reader b).

(* ---- the domain of a block ---- *)
(* 803-850, 346-367 and 765-781: the vertices, then the fixed vertices (Vertex.h:31) *)
Definition file_store (tq_max : Q) (x : input) : outcome (list vinfo) :=
  obind (init_vertices tq_max (in_vertices x) (in_fixed x)) (fun y =>
  Ok (map (fun v => VI (iv_xy v) (vx (iv_props v)) (vy (iv_props v)) (if iv_fixed v then 4%N else 0%N)) (fst y))).
(* 103-110: the boundaries that were read *)
Definition file_domain nearest cosn sinn sqrt3 stod (tq_max : Q) (x : input) : outcome (list vinfo * list (bdry_type * elist)) :=
  obind (file_store tq_max x) (fun store =>
  init_boundaries nearest cosn sinn sqrt3 stod store
    (match in_exterior x with Some d => [GV d true] | None => [] end) (map (fun d => GV d true) (in_interior x))).
