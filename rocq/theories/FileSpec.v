(* What the reading of a parameter file is measured against: the layout of a file and
   what stands in it. *)
From Coq Require Import Ascii String.
From Verif Require Import Base CsvModel CsvProofs ParaModel ParaSpec UtilModel BdryModel AppModel DomInModel DomInSpec FileModel.
Open Scope list_scope.
Open Scope nat_scope.

Definition letters (s : string) : text := list_ascii_of_string s.
Definition mentions (k : string) (line : text) : Prop := exists i, occurs (letters k) line i.

(* the words of a parameter file: the word in front, the word behind the rows of a table,
   the number of values in a row *)
Definition words (n : pname) : string * option string * nat :=
  match n with
  | Prefix => ("Output file prefix:", None, 1)
  | Format => ("Output file format:", None, 1)
  | Size => ("Element size:", None, 1)
  | Colour => ("Element color:", None, 1)
  | Algorithm => ("Meshing algorithm:", None, 1)
  | Refinements => ("Number of quad refinements:", None, 1)
  | Iterations => ("Number of smoothing iterations:", None, 1)
  | SmoothLayers => ("Smooth quad layers:", None, 1)
  | Layers => ("Add quad layers:", None, 7)
  | Vertices => ("Define boundary vertices:", Some "End boundary vertices", 4)
  | FixedVertices => ("Define fixed vertices:", Some "End fixed vertices", 4)
  | FixedEdges => ("Define fixed edges:", Some "End fixed edges", 2)
  | Bdry true KEdges => ("Define exterior boundary edges:", Some "End exterior boundary edges", 3)
  | Bdry true KCoords => ("Define exterior boundary:", Some "End exterior boundary", 5)
  | Bdry true KRect => ("Define exterior rectangular boundary:", None, 7)
  | Bdry true KCirc => ("Define exterior circular boundary:", None, 7)
  | Bdry true KSquare => ("Define exterior squared boundary:", None, 6)
  | Bdry true KTriangle => ("Define exterior triangular boundary:", None, 6)
  | Bdry true KCsv => ("Define exterior boundary from CSV file:", None, 1)
  | Bdry false KEdges => ("Define interior boundary edges:", Some "End interior boundary edges", 3)
  | Bdry false KCoords => ("Define interior boundary:", Some "End interior boundary", 5)
  | Bdry false KRect => ("Define interior rectangular boundary:", None, 7)
  | Bdry false KCirc => ("Define interior circular boundary:", None, 7)
  | Bdry false KSquare => ("Define interior squared boundary:", None, 6)
  | Bdry false KTriangle => ("Define interior triangular boundary:", None, 6)
  | Bdry false KCsv => ("Define interior boundary from CSV file:", None, 1)
  end%string.
Definition keyword (n : pname) : string := fst (fst (words n)).
Definition ending (n : pname) : option string := snd (fst (words n)).
Definition width (n : pname) : nat := snd (words n).
Definition name_dec (a b : pname) : {a = b} + {a <> b}.
Proof. decide equality; [decide equality|decide equality]. Defined.

(* what stands in a block: a line with a value, a table, or a line that says nothing *)
Inductive item :=
  | Value (n : pname) (line : text)
  | Table (n : pname) (first : text) (rows : list text) (final : text)
  | Plain (line : text).
Definition lines (i : item) : list text :=
  match i with Value _ l => [l] | Table _ a rows b => a :: rows ++ [b] | Plain l => [l] end.
Definition is_named (n : pname) (i : item) : bool :=
  match i with Value m _ | Table m _ _ _ => if name_dec n m then true else false | Plain _ => false end.
(* the items of one name, in the order of the file *)
Definition named (n : pname) (is : list item) : list item := filter (is_named n) is.
(* every word stands only where it belongs *)
Definition placed (i : item) : Prop :=
  match i with
  | Value n l => ending n = None /\ mentions (keyword n) l /\ forall m, mentions (keyword m) l -> m = n
  | Table n a rows b => exists e, ending n = Some e /\ mentions (keyword n) a /\ (forall m, mentions (keyword m) a -> m = n) /\
      (forall l, In l rows -> ~ mentions e l) /\ mentions e b /\ (forall l m, In l (rows ++ [b]) -> ~ mentions (keyword m) l)
  | Plain l => forall m, ~ mentions (keyword m) l
  end.

(* a mesh block and the lines in front of it *)
Record section := SE { se_before : list text; se_open : text; se_items : list item; se_close : text }.
Definition section_lines (s : section) : list text := se_before s ++ se_open s :: flat_map lines (se_items s) ++ [se_close s].
Record well_formed (s : section) : Prop := {
  wl_before : forall l, In l (se_before s) -> ~ mentions "Define mesh:" l;
  wl_open : mentions "Define mesh:" (se_open s);
  wl_open_only : forall m, ~ mentions (keyword m) (se_open s);
  wl_items : Forall placed (se_items s);
  wl_inside : forall l, In l (flat_map lines (se_items s)) -> ~ mentions "End mesh" l;
  wl_close : mentions "End mesh" (se_close s);
  wl_close_only : ~ mentions "Define mesh:" (se_close s)
}.

(* ---- values ---- *)
(* one value behind the word *)
Definition says {T} (conv : text -> option T) (i : item) (v : T) : Prop :=
  match i with Value n l => exists t, value_of (letters (keyword n)) l t /\ conv t = Some v | _ => False end.
(* rows of values: one behind the word, or those of a table *)
Definition gives_rows {T} (R : nat -> text -> list T -> Prop) (i : item) (rows : list (list T)) : Prop :=
  match i with
  | Value n l => exists t vs, value_of (letters (keyword n)) l t /\ R (width n) t vs /\ rows = [vs]
  | Table n _ ls _ => ls <> [] /\ Forall2 (R (width n)) ls rows
  | Plain _ => False
  end.
(* a row may end with a comma *)
Definition closed (core line : text) : Prop := line = core \/ line = core ++ [","%char].
(* all values of a row are there; missing values of a row are -1 *)
Definition full_row {T} (conv : text -> option T) (n : nat) (line : text) (vs : list T) : Prop :=
  exists core, closed core line /\ row_of conv core vs /\ length vs = n.
Definition filled_row (conv : text -> option Q) (n : nat) (line : text) (vs : list Q) : Prop :=
  exists core, closed core line /\ padded_row conv (-(1))%Q n core vs.
(* a parameter holds these rows *)
Definition holds {T} (p : para T) (rows : list (list T)) : Prop :=
  pr_nrow p = length rows /\ forall i j r v, nth_error rows j = Some r -> nth_error r i = Some v -> get_value p i j = Some v.

Section Meaning.
Variable to_double : text -> option Q.
Variable files : text -> option text.

(* the values of an item can be read *)
Definition readable (i : item) : Prop :=
  match i with
  | Plain _ => True
  | Value n _ | Table n _ _ _ =>
      match n with
      | Prefix | Format | Size | Algorithm | Bdry _ KCsv => exists v, says to_text i v
      | Colour => exists v, says to_integer i v
      | Refinements | Iterations => exists v, says to_count i v
      | SmoothLayers => exists v, says to_bool i v
      | FixedEdges | Bdry _ KEdges => exists rows, gives_rows (full_row to_integer) i rows
      | Layers => exists rows, gives_rows (full_row to_double) i rows
      | _ => exists rows, gives_rows (filled_row to_double) i rows
      end
  end.
(* the first value of a name, or what stands for it if there is none *)
Definition first_says {T} (conv : text -> option T) (n : pname) (is : list item) (d : option T) (v : T) : Prop :=
  match named n is with [] => d = Some v | i :: _ => says conv i v end.
Definition first_rows (n : pname) (is : list item) (p : option (para Q)) : Prop :=
  match named n is with
  | [] => p = None
  | i :: _ => exists q rows, p = Some q /\ gives_rows (filled_row to_double) i rows /\ holds q rows
  end.
(* a definition of a boundary *)
Definition defines (i : item) (d : definition) : Prop :=
  (exists e, is_named (Bdry e (kind_of d)) i = true) /\
  match d with
  | DEdges p => exists rows, gives_rows (full_row to_integer) i rows /\ holds p rows
  | DCsv f => exists w, says to_text i w /\ f = files w
  | DCoords p | DRect p | DCirc p | DSquare p | DTriangle p => exists rows, gives_rows (filled_row to_double) i rows /\ holds p rows
  end.
(* the definitions of the boundaries: sorted by the way they are given *)
Definition ways : list kind := [KEdges; KCoords; KRect; KCirc; KSquare; KTriangle; KCsv].
Definition boundaries (e : bool) (is : list item) : list item := flat_map (fun k => named (Bdry e k) is) ways.

(* what a block with these items asks for *)
Record means (is : list item) (x : input) : Prop := {
  mn_prefix : first_says to_text Prefix is None (in_prefix x);
  mn_format : first_says to_text Format is None (in_format x);
  mn_size : first_says to_text Size is None (in_size x);
  mn_vertices : first_rows Vertices is (in_vertices x);
  mn_fixed : first_rows FixedVertices is (in_fixed x);
  mn_exterior : match boundaries true is with [] => in_exterior x = None | i :: _ => exists d, in_exterior x = Some d /\ defines i d end;
  mn_interior : Forall2 defines (boundaries false is) (in_interior x);
  mn_edges : Forall2 (fun i p => exists rows, gives_rows (full_row to_integer) i rows /\ holds p rows) (named FixedEdges is) (in_edges x);
  mn_layers : Forall2 (fun i p => exists rows, gives_rows (full_row to_double) i rows /\ holds p rows) (named Layers is) (in_layers x);
  mn_colour : first_says to_integer Colour is (Some 0%Z) (in_colour x);
  mn_algorithm : first_says to_text Algorithm is (Some (letters "Triangulation")) (in_algorithm x);
  mn_refinements : first_says to_count Refinements is (Some 0%Z) (in_refinements x);
  mn_iterations : first_says to_count Iterations is (Some 2%Z) (in_iterations x);
  mn_smooth : first_says to_bool SmoothLayers is (Some false) (in_smooth x)
}.
(* the three values that a block must have *)
Definition complete (is : list item) : Prop := forall n, In n [Prefix; Format; Size] -> named n is <> [].

(* ---- the text of a file ---- *)
(* its lines; the last one may lack the end of the line *)
Definition splits (file : text) (raw : list text) : Prop :=
  Forall (free newline) raw /\ (file = joined newline raw \/ exists ls l, raw = ls ++ [l] /\ l <> [] /\ file = joined newline ls ++ l).
(* without the lines that start with a comment *)
Definition comment_line (l : text) : Prop := exists white rest, l = white ++ "#"%char :: rest /\ forall c, In c white -> is_space c = true.
Inductive stripped : list text -> list text -> Prop :=
  | st_nil : stripped [] []
  | st_comment l raw content : comment_line l -> stripped raw content -> stripped (l :: raw) content
  | st_line l raw content : ~ comment_line l -> stripped raw content -> stripped (l :: raw) (l :: content).
Definition file_of (file : text) (ss : list section) : Prop :=
  exists raw content final, splits file raw /\ stripped raw content /\ content = flat_map section_lines ss ++ final /\
    (forall l, In l final -> ~ mentions "Define mesh:" l) /\ Forall well_formed ss /\
    Forall (fun s => Forall readable (se_items s) /\ complete (se_items s)) ss.

(* a file of which blocks may lack values *)
Definition drafted (file : text) (ss : list section) : Prop :=
  exists raw content final, splits file raw /\ stripped raw content /\ content = flat_map section_lines ss ++ final /\
    (forall l, In l final -> ~ mentions "Define mesh:" l) /\ Forall well_formed ss /\ Forall (fun s => Forall readable (se_items s)) ss.

(* ---- the vertices and boundaries of a block ---- *)
Definition rows_of (n : pname) (is : list item) (rows : list (list Q)) : Prop :=
  match named n is with [] => rows = [] | i :: _ => gives_rows (filled_row to_double) i rows end.
Definition vertex_row (prop : N) (row : list Q) (v : vinfo) : Prop := exists x y s r, row = [x; y; s; r] /\ v = VI (V2 x y) s r prop.
(* the boundary vertices, then the fixed vertices *)
Definition stands (is : list item) (store : list vinfo) : Prop :=
  exists rows vs rows' vs', rows_of Vertices is rows /\ Forall2 (vertex_row 0%N) rows vs /\
    rows_of FixedVertices is rows' /\ Forall2 (vertex_row 4%N) rows' vs' /\ store = vs ++ vs'.
(* the corners of the boundary that is defined by an item *)
Definition draws cosn sinn sqrt3 stod store bt (i : item) (cs : list corner_data) : Prop :=
  exists d, defines i d /\ gives cosn sinn sqrt3 stod store bt d cs.
End Meaning.
