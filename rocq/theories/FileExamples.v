(* Two of the parameter files of the project as text (input/02_square_in_channel.para and
   input/05_merge_meshes.para), with the layout of their lines, and a reader of decimal
   numbers; used for the examples of C67. *)
From Coq Require Import Ascii String.
From Verif Require Import Base CsvModel ParaModel AppModel DomInModel FileModel FileSpec.
Open Scope list_scope.

Definition txt (s : string) : text := list_ascii_of_string s.
(* decimal numbers without exponent *)
Fixpoint fraction (s : text) (n : Z) (d : positive) : Q :=
  match s with
  | c :: r => match digit c with Some x => fraction r (10 * n + x) (10 * d)%positive | None => n # d end
  | [] => n # d
  end.
Fixpoint decimals (s : text) (n : Z) : Q :=
  match s with
  | c :: r => match digit c with
              | Some x => decimals r (10 * n + x)
              | None => if Ascii.eqb c "."%char then fraction r n 1 else inject_Z n
              end
  | [] => inject_Z n
  end.
Definition decimal (s : text) : option Q :=
  let s := skip_space s in
  let '(neg, s) := match s with "-"%char :: r => (true, r) | "+"%char :: r => (false, r) | _ => (false, s) end in
  match s with
  | c :: _ => match digit c with Some _ => Some (Qred (if neg then - decimals s 0 else decimals s 0)) | None => None end
  | [] => None
  end%Q.
Definition no_files (_ : text) : option text := None.

Definition channel_lines : list text := map txt [
  "#===========================================================";
  "#                         TQMESH     ";
  "#===========================================================";
  " ";
  "#-----------------------------------------------------------";
  "#                     MESH DEFINITION";
  "#";
  "# For this example, we will use the Tri-to-Quad meshing";
  "# algorithm and a subsequent quad-refinement of elements.";
  "# In this way, we can generate a mesh that only consists of";
  "# quadrilateral elements.";
  "#-----------------------------------------------------------";
  "Define mesh:";
  "  Element size: 0.1 ";
  "  Element color: 1";
  "  Meshing algorithm: Tri-to-Quad";
  "  Number of quad refinements: 1";
  "  Smooth quad layers: 1";
  "  Number of smoothing iterations: 3";
  "";
  "  # Output formats: COUT, TXT, VTU";
  "  Output file format: VTU";
  "  Output file prefix: ./square_in_channel";
  "";
  "  #---------------------------------------------------------";
  "  #                        BOUNDARIES     ";
  "  #";
  "  # We will build the following mesh boundaries:";
  "  #";
  "  #     v3                                             v2";
  "  #    *----------------------------------------------* ";
  "  #    |      v5    v6                                |";
  "  #    |       *---*                                  |";
  "  #    |       |   |                                  |";
  "  #    |       *---*                                  |";
  "  #    |      v4    v7                                |";
  "  #    *----------------------------------------------*";
  "  #     v0                                             v1";
  "  #";
  "  # In contrast to example 1, we can also generate boundaries";
  "  # through a separate definition of vertices and edges.";
  "  # But compared to providing the edges in terms of closed ";
  "  # polygonal chains (as in example 1), this construction ";
  "  # requires us to maintain a correct orientation of all ";
  "  # defined edges. We must ensure that:";
  "  #";
  "  # - Exterior boundaries are defined in ";
  "  #   counter-clockwise orientation";
  "  # ";
  "  # - Interior boundaries are defined in ";
  "  #   clockwise orientation";
  "  #";
  "  # To build the boundaries, we first need to defined the ";
  "  # respective boundary vertices (where a local mesh ";
  "  # refinement ins applied to the vertices v4 to v7)";
  "  #---------------------------------------------------------";
  "  Define boundary vertices:";
  "    0.00, 0.00                 # v0";
  "    4.00, 0.00                 # v1";
  "    4.00, 1.00                 # v2";
  "    0.00, 1.00                 # v3";
  "    0.35, 0.35,  0.03, 0.25    # v4 ";
  "    0.35, 0.65,  0.03, 0.25    # v5  ";
  "    0.65, 0.65,  0.03, 0.25    # v6";
  "    0.65, 0.35,  0.03, 0.25    # v7";
  "  End boundary vertices";
  "";
  "  Define exterior boundary edges:";
  "    0, 1,    2                 # 2: Color for bottom edge";
  "    1, 2,    3                 # 3: Color for right edge";
  "    2, 3,    2                 # 2: Color for top edge";
  "    3, 0,    1                 # 1: Color for left edge";
  "  End exterior boundary edges";
  "";
  "  Define interior boundary edges:";
  "    4, 5,    4                 # Color 4 for all interior edges";
  "    5, 6,    4                 # ...";
  "    6, 7,    4";
  "    7, 4,    4";
  "  End interior boundary edges";
  "";
  "  #---------------------------------------------------------";
  "  #                       QUAD-LAYERS     ";
  "  #";
  "  # Finally, we define several layers of quads next to the";
  "  # following boundary edges:";
  "  # 1) Edge (v0,v1)";
  "  # 2) Edge (v2,v3)";
  "  # 3) Edges (v4,v5), (v5,v6), (v6,v7), (v7,v4)";
  "  #";
  "  # This done via the following command, where we must ";
  "  # provide the start and ending locations of the ";
  "  # quad layer (arguments 1-4), as well as the number ";
  "  # of layers, the first layer height and the layer growth";
  "  # ratio:";
  "  # ";
  "  # Arguments: ";
  "  #   1+2) Starting vertex x-/y-coordinates";
  "  #   3+4) Ending vertex x-/y-coordinates";
  "  #   5) Number of layers";
  "  #   6) First layer height";
  "  #   7) Growth ratio";
  "  #";
  "  # A closed layer of quadrilateral elements will be";
  "  # generated if the same start and ending location is ";
  "  # defined";
  "  #---------------------------------------------------------";
  "  Add quad layers: 0.0, 0.0, 4.0, 0.0, 3, 0.01, 2.0";
  "  Add quad layers: 4.0, 1.0, 0.0, 1.0, 3, 0.01, 2.0";
  "  Add quad layers: 0.35, 0.35, 0.35, 0.35, 3, 0.01, 1.3";
  "";
  "End mesh";
  ""]%string.
Definition channel_sections : list section := [
  SE (map txt [" "]) (txt "Define mesh:") [
    Value Size (txt "  Element size: 0.1 ");
    Value Colour (txt "  Element color: 1");
    Value Algorithm (txt "  Meshing algorithm: Tri-to-Quad");
    Value Refinements (txt "  Number of quad refinements: 1");
    Value SmoothLayers (txt "  Smooth quad layers: 1");
    Value Iterations (txt "  Number of smoothing iterations: 3");
    Plain (txt "");
    Value Format (txt "  Output file format: VTU");
    Value Prefix (txt "  Output file prefix: ./square_in_channel");
    Plain (txt "");
    Table Vertices (txt "  Define boundary vertices:") (map txt ["    0.00, 0.00                 # v0"; "    4.00, 0.00                 # v1"; "    4.00, 1.00                 # v2"; "    0.00, 1.00                 # v3"; "    0.35, 0.35,  0.03, 0.25    # v4 "; "    0.35, 0.65,  0.03, 0.25    # v5  "; "    0.65, 0.65,  0.03, 0.25    # v6"; "    0.65, 0.35,  0.03, 0.25    # v7"]) (txt "  End boundary vertices");
    Plain (txt "");
    Table (Bdry true KEdges) (txt "  Define exterior boundary edges:") (map txt ["    0, 1,    2                 # 2: Color for bottom edge"; "    1, 2,    3                 # 3: Color for right edge"; "    2, 3,    2                 # 2: Color for top edge"; "    3, 0,    1                 # 1: Color for left edge"]) (txt "  End exterior boundary edges");
    Plain (txt "");
    Table (Bdry false KEdges) (txt "  Define interior boundary edges:") (map txt ["    4, 5,    4                 # Color 4 for all interior edges"; "    5, 6,    4                 # ..."; "    6, 7,    4"; "    7, 4,    4"]) (txt "  End interior boundary edges");
    Plain (txt "");
    Value Layers (txt "  Add quad layers: 0.0, 0.0, 4.0, 0.0, 3, 0.01, 2.0");
    Value Layers (txt "  Add quad layers: 4.0, 1.0, 0.0, 1.0, 3, 0.01, 2.0");
    Value Layers (txt "  Add quad layers: 0.35, 0.35, 0.35, 0.35, 3, 0.01, 1.3");
    Plain (txt "")] (txt "End mesh")]%string.
Definition channel_final : list text := map txt [""]%string.

Definition merged_lines : list text := map txt [
  "#===========================================================";
  "#                         TQMESH     ";
  "#===========================================================";
  " ";
  "#-----------------------------------------------------------";
  "#                          MESH #1 ";
  "#-----------------------------------------------------------";
  "Define mesh:";
  "  Element size: 0.35";
  "  Element color: 1";
  "  Meshing algorithm: Triangulation";
  "  Number of quad refinements: 0";
  "  Smooth quad layers: 0";
  "  Number of smoothing iterations: 2";
  "";
  "  # Output formats: COUT, TXT, VTU";
  "  Output file format: VTU";
  "  Output file prefix: ./merge_meshes";
  "";
  "  #---------------------------------------------------------";
  "  #                       BOUNDARIES";
  "  # Arguments:";
  "  #   1) X-coordinate";
  "  #   2) Y-coordinate";
  "  #   3) Edge color";
  "  #---------------------------------------------------------";
  "  Define exterior boundary:";
  "    0.0, 0.0, 1";
  "    5.0, 0.0, 1";
  "    5.0, 5.0, 1";
  "    0.0, 5.0, 1";
  "  End exterior boundary:";
  "";
  "  Define interior boundary:";
  "    1.5, 1.5, 2";
  "    3.5, 1.5, 2";
  "    3.5, 3.5, 2";
  "    1.5, 3.5, 2";
  "  End interior boundary:";
  "";
  "  #-----------------------------------------------------------";
  "  #                       QUAD-LAYERS     ";
  "  # Arguments: ";
  "  #   1) Starting vertex";
  "  #   2) Ending vertex";
  "  #   3) Number of layers";
  "  #   4) First layer height";
  "  #   5) Growth ratio";
  "  #";
  "  # > A closed layer of quadrilateral elements will be";
  "  #   generated if the same start and ending vertex is ";
  "  #   provided";
  "  #-----------------------------------------------------------";
  "  Add quad layers: 0.0, 0.0,  0.0, 0.0,   2, 0.05, 1.5,";
  "  Add quad layers: 1.5, 1.5,  1.5, 1.5,   2, 0.05, 1.5,";
  "";
  "End mesh";
  "";
  "";
  "#-----------------------------------------------------------";
  "#                          MESH #2 ";
  "#-----------------------------------------------------------";
  "Define mesh:";
  "  Element size: 0.02 + 0.2 * ( pow(x-2.5, 2) + pow(y-2.5, 2) )";
  "  Element color: 2";
  "  Meshing algorithm: Triangulation";
  "  Number of quad refinements: 0";
  "  Smooth quad layers: 0";
  "  Number of smoothing iterations: 2";
  "";
  "  # Output formats: COUT, TXT, VTU";
  "  Output file format: VTU";
  "  Output file prefix: ./merge_meshes";
  "";
  "  #---------------------------------------------------------";
  "  #                       BOUNDARIES";
  "  #---------------------------------------------------------";
  "  Define exterior boundary:";
  "    1.5, 1.5, 2";
  "    3.5, 1.5, 2";
  "    3.5, 3.5, 2";
  "    1.5, 3.5, 2";
  "  End exterior boundary:";
  "";
  "End mesh"]%string.
Definition merged_sections : list section := [
  SE (map txt [" "]) (txt "Define mesh:") [
    Value Size (txt "  Element size: 0.35");
    Value Colour (txt "  Element color: 1");
    Value Algorithm (txt "  Meshing algorithm: Triangulation");
    Value Refinements (txt "  Number of quad refinements: 0");
    Value SmoothLayers (txt "  Smooth quad layers: 0");
    Value Iterations (txt "  Number of smoothing iterations: 2");
    Plain (txt "");
    Value Format (txt "  Output file format: VTU");
    Value Prefix (txt "  Output file prefix: ./merge_meshes");
    Plain (txt "");
    Table (Bdry true KCoords) (txt "  Define exterior boundary:") (map txt ["    0.0, 0.0, 1"; "    5.0, 0.0, 1"; "    5.0, 5.0, 1"; "    0.0, 5.0, 1"]) (txt "  End exterior boundary:");
    Plain (txt "");
    Table (Bdry false KCoords) (txt "  Define interior boundary:") (map txt ["    1.5, 1.5, 2"; "    3.5, 1.5, 2"; "    3.5, 3.5, 2"; "    1.5, 3.5, 2"]) (txt "  End interior boundary:");
    Plain (txt "");
    Value Layers (txt "  Add quad layers: 0.0, 0.0,  0.0, 0.0,   2, 0.05, 1.5,");
    Value Layers (txt "  Add quad layers: 1.5, 1.5,  1.5, 1.5,   2, 0.05, 1.5,");
    Plain (txt "")] (txt "End mesh");
  SE (map txt [""; ""]) (txt "Define mesh:") [
    Value Size (txt "  Element size: 0.02 + 0.2 * ( pow(x-2.5, 2) + pow(y-2.5, 2) )");
    Value Colour (txt "  Element color: 2");
    Value Algorithm (txt "  Meshing algorithm: Triangulation");
    Value Refinements (txt "  Number of quad refinements: 0");
    Value SmoothLayers (txt "  Smooth quad layers: 0");
    Value Iterations (txt "  Number of smoothing iterations: 2");
    Plain (txt "");
    Value Format (txt "  Output file format: VTU");
    Value Prefix (txt "  Output file prefix: ./merge_meshes");
    Plain (txt "");
    Table (Bdry true KCoords) (txt "  Define exterior boundary:") (map txt ["    1.5, 1.5, 2"; "    3.5, 1.5, 2"; "    3.5, 3.5, 2"; "    1.5, 3.5, 2"]) (txt "  End exterior boundary:");
    Plain (txt "")] (txt "End mesh")]%string.
Definition merged_final : list text := map txt []%string.

