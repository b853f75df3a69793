# Design of the formal model of TQMesh

This document is written before the proofs and kept current with them.
`properties.jsonl` lists the properties (C01, C02, ...), `MANIFEST.json` maps each of
them to theorem names, `seeded/LOG.jsonl` records the mutation tests of the theorems.

## 1. What a theorem here means

The sources under `/repo` were read as text; nothing was compiled or run.  Every theorem is
about a Gallina model in `rocq/theories`.  The only link between model and code is the
reading of the code: every model definition carries a comment that names the file and the lines
it models and every simplification made.

### Trusted base

* The kernel of Coq 8.16.1 (and `coqchk`), including `vm_compute`.
* The reading of the C++ sources described above.
* Axioms: none of our own.  Every property file ends each theorem with `Print Assumptions`.
  Files over `Z`, `Q`, `list`, `nat` are closed under the global context.  Files that use the
  standard library's real numbers (size function with `exp`, shape factor with `sqrt`, circles with `cos` and `sin`, angles with `acos`) list the
  standard library's axioms (`ClassicalDedekindReals.sig_forall_dec`,
  `ClassicalDedekindReals.sig_not_dec`, `FunctionalExtensionality.functional_extensionality_dep`,
  `Classical_Prop.classic`).
  Section 6 lists the result per file.

### General simplifications

* **Floating point.**  `double` is modelled by exact rationals `Q` (real numbers `R` where `exp` or
  `sqrt` are essential).  Rounding, overflow, NaN and infinities are outside the model.  Literal
  constants (`CPPUTILS_SMALL = 2^-52`, `1.4142`, `3.4641016151377544`, ...) are the exact decimal or binary rationals.
* **Square roots** are avoided by comparing squares, or replaced by an oracle with the few
  properties that are used (and a concrete instance so that the hypotheses are satisfiable).
* **Objects and pointers.**  Object identity is a number; pointers are numbers; `nullptr` is `None`.
  Allocation never fails.  Deallocation is only modelled where a property is about it.
* **Undefined behaviour** (null dereference, out of range access, division by zero) is a
  separate outcome (`UB`), never silently totalised.
* **ASSERT** is compiled out in release builds (`NDEBUG`); the model follows the release build
  and says so where the debug build would stop.
* **Containers.**  `std::list`, `std::vector` are Coq lists in iteration order.
* Log output, timers, progress bars, `exprtk` expression parsing and file system failures are not modelled.

### Files

`XModel.v` holds executable definitions, `XSpec.v` independent specifications (where they are not a
one-liner), `XProofs.v` lemmas and `XProps.v` only property theorems
(`Proof. exact lemma. Qed.` + `Print Assumptions`) and the concrete examples that satisfy their hypotheses.

## 2. Model and proof plan per property

| Id | Modelled code | How it is proved |
|----|---------------|------------------|
| C01 C02 | `QuadTree`, `Container` with an explicit location store; tree of buckets with stored counters | invariant over all operation lists; refinement to "filter over the list of live items" (permutation) |
| C03 | `get_nearest`, square root as an oracle with a weak lower bound | exact characterisation: result is a minimum, `nullptr` iff every item is at least two leaf sizes away; the unconditional claim is refuted by a computed witness |
| C04 | counters, thresholds | same invariant |
| C05 | `update` fast path | invariant for moves that stay in the same responsible bucket or leave the bucket; refutation for a move onto a shared border followed by `remove` |
| C06 | `insert` failure path | invariant "in tree iff location in root square" |
| C07 | 8-bit masks as `Z` with explicit `mod 256` complement | bitwise extensionality |
| C08-C12 | `Geometry.h` over `Q` | algebra (`ring`/`nra`), induction for polygons |
| C13 | `FacetGeometry.h` over `Q` / `R` | algebra; the documented range of the shape factor is refuted (factor 2) |
| C14-C17 | `EdgeList`, `Boundary` | list induction; antisymmetric sums over closed chains |
| C18 | `Domain::is_inside/area/extent` | list induction; extent refuted (origin is always included) |
| C19 | `SizeFunction::evaluate` over `R` with `exp` | fold invariant |
| C20 | `export_size_function` | arithmetic on the two loops |
| C21 C22 | `FrontInitData`, `Front` | list induction |
| C23-C26 | `FrontUpdate` as a transition system on (mesh, front) in which the geometric choices are oracles | one conservation theorem: for every antisymmetric edge weight the sum over element borders plus the sum over the front is constant; area, closedness and conformity are instances |
| C27 | `Triangulation` loops against an arbitrary oracle | induction on a lexicographic measure |
| C28-C30 | `Mesh`, `MeshCleanup`, `MeshWriter` | list induction |
| C31-C34 | refinement, tri2quad, cleanup, merger | counting, conservation of antisymmetric weights |
| C35 C36 | `SmoothingStrategy` with arbitrary displacement | invariant over iterations; C36 refuted |
| C37 | `QuadLayering` path and heights | traversal lemmas; single edge case refuted |
| C38 | `MeshChecker` | decision rule |
| C39 | `MeshGenerator` accessor cache | state machine |
| C40 C41 C42 C45 | `ParaReader`, `TQMeshApp`, `CSVBoundaryReader` | string/list induction |
| C43 | colours through all operations | invariant |
| C44 | `MOD`, `argsort`, `VecND::sum` | arithmetic; sum refuted (integer accumulator) |
| C46 C47 C48 | segment intersection, `intersects_self`, `intersects_edgelist`, boundary points in `is_inside` | algebra; refuted by computed witnesses, the true part as `_partial` |
| C49 | extent estimate of the application | list induction; refuted for fixed vertices |
| C50 | front, mesh operations of C21-C35 | signed crossings of a half line are an antisymmetric edge weight, so the conservation theorems carry the winding number; one element owns a point as often as its border winds around it |
| C51, C52 | `TQMeshApp.h` main loop on the accessor cache of C39 | the calls of a run as a list, compared with a specification without algorithm objects; a replay of the list counts the refinements of each block |
| C53, C54 | `VtkIO.h`, `MeshWriter.h`, `operator<<` of `Mesh.h` as text | an independent lexer, number reader and line reader; reading what was written by induction on the text |
| C55 | quad layers as region: model of C37 | the tiling argument of C50 for the steps of a layer; vertices that move are the only exception |
| C56 | boundary shapes and inside tests of C15-C18, front of C21-C27 | the winding number does not change on a walk along the left hand side of the polygon, past sides and around corners, and every point can be reached from a side without a jump or has winding number zero |
| C57 | tests and updates of C21-C27, regions of C50, polygons of C56 | no contact with the front in the search range, hence the whole triangle on the inner side of the front; the new front has the same properties |
| C58 | boundaries as edge lists over vertices, linked by the vertices; outcome UB for an empty boundary | segments that share ends only do not intersect for the code; the walk around a ring returns |
| C59 | Python lists and numpy arrays as lists, argsort as any sorting permutation, text read by the readers of C54; exceptions are outcome Throw | sums over the outward faces of a cell of any quantity that is additive over faces: edge weights for closedness, tetrahedra with the origin for the volume |
| C60 | finished mesh made from the state of the advancing front loops (C21-C27), clean up of C33, tri2quad of C32, refinement of C31 | the hypotheses of C31-C33 are consequences of the history invariants: fans of elements around vertices from the front being a ring of edges, area of accepted triangles bounded below by the orientation tolerance |
| C61 | addresses of edges as numbers, pointers of the temporary front and of the new mesh in disjoint ranges; front of C21, finished mesh of C60, merger of C34 | pointers as a last-write map over the list of front edges; a partner of every front edge through subdivision; no self contact of the curves (C57) gives uniqueness; disjoint regions give the merger's conditions |
| C62 | state of the loops (C21-C27) built from the mesh and put back into it; facet pointers by the mesh model of C31-C33 | history invariants of C21, C57 and C60 for runs that start part way, from the invariant that the front of the mesh and its elements make up the domain; facet pointers are set exactly where there is an element |
| C63 | shapes of `Boundary.h` on the boundary model of C15; cosines and sines are oracles near the real functions | convex position: polygons in convex position are simple and wind once around the points to the left of all sides; the regular polygon stays in convex position under small errors; separation of outer points by a line; area by the shoelace formula |
| C64 | definitions of a mesh block as parameters with the verdict of the reader (C40, C41), boundaries by C15 and C63 | a created boundary is the described polygon, turned if needed; a later boundary keeps the vertices of earlier ones; winding numbers add up; convex holes in a convex plate by separating lines; discs by the Cauchy inequality |
| C65 | the models of C64, C57, C58, C60, C50, C31 and C35 one after the other | two simple quads with two common sides make a simple quad, so clean-up and tri2quad keep the tiling without an assumption on the quads; a front edge is a piece of a boundary edge; the region of the mesh is the winding number of the described polygons |
| C66 | neighbour lists, Laplace and torsion rule of `SmoothingStrategy.h`; `atan2`, angle, cosine and sine are oracles | a vertex occurs in the list once for each side at the vertex and each quad opposite to it; sorted lists with the same items are equal; sums over doubled lists |
| C67 | the queries of `TQMeshApp.h` on the `ParaReader` of C40 and C41, block by block; the conversion of decimal numbers and the CSV files are oracles | a grammar of files that is independent of the reader; the search position moves behind the items already read; induction over the items of a name; a boolean checker shows that the shipped files are in the grammar |
| C68 | the quad layers of C37 and C55 as a stage on a mesh: front from the mesh, layers, front put back (C62) | the history invariant of C62 for front updates by quads, wedges and gap triangles; a quad is two triangles in the geometric statements; layers around a closed boundary never move a vertex |
| C69 | the container of C20 and C48 as the search of `create_boundary_shape`; the extents of `TQMeshApp.h` and `MeshBuilder.h` | the search oracle of C64, C65 and C67 is replaced by the quadtree; invariant over the shapes of a file: what is searched lies in the square, no two vertices at one place |
| C70 | `VecND.h` for every number of entries, compound assignments as loops over the entries with an operand that may refer to the vector | induction over the entries; Cauchy-Schwarz from the square of a combination; the loop of an assignment by an entry of the vector itself computed exactly |
| C71 | angles of triangles and quads over the reals, acos of a number that is no cosine and 0/0 have no value | an angle is a rotation; angles between vectors add up as long as all are positively oriented; law of cosines |
| C72 | objects of a domain as addresses with the pointers between them; freed memory is what is neither item nor waste of a container | invariant over all sequences of edits; exact effect of every edit on the lists; equality of the readers with their models on plain lists |
| C73 | convex elements as lists of sides, points inside by signs of determinants | case analysis by walking along a segment until it leaves an outline; equivalence with the test for triangles, named exceptions for quads |
| C74 | containers as lists searched by midpoint or centroid and squared range | triangle inequality and convexity of the distance over the rationals; exact characterisation of each test; double counting for pairs of edges |
| C75 | matrices as rows, columns and a list; the bar as a fold over values; `split` as repeated `getline` | invariant over programs; read after write; refinement of the printed bar to its text; join after split by induction |

The table is refined in section 3 as files are added.

## 3. Files

All files are in `rocq/theories`, in the order of `rocq/_CoqProject`.

| Files | Code | Properties |
|---|---|---|
| `Base` `Chain` | outcomes (`Ok`, `UB`, `Throw`), vectors over `Q`; sums of antisymmetric weights along chains of edges | - |
| `QTreeModel` `QTreeSpec` `QTreeProofs` `QTreeCont` `QTreeMore` `QTreeProps` | `QuadTree.h`, `Container.h` | C01-C06 |
| `GeomModel` `GeomSpec` `GeomProofs` `FacetModel` `FacetProofs` `UtilModel` `UtilProofs` `GeomProps` | `Geometry.h`, metrics of `FacetGeometry.h`, flags of `Vertex.h`/`Edge.h`, `MathUtility.h`, `VecND.h` | C07-C13, C44, C46 |
| `BdryModel` `BdrySpec` `BdryProofs` `InsideSpec` `InsideProofs` `DomainProofs` `BdryProps` | `EdgeList.h`, `Boundary.h`, `Domain.h` | C14-C18, C20, C47, C48 |
| `SizeModel` `SizeProofs` `SizeProps` | size function of `Domain.h`, over the reals | C19 |
| `CsvModel` `CsvProofs` `CsvProps` | CSV reader of `Boundary.h` | C45 |
| `AdvanceModel` `AdvanceSpec` `AdvanceProofs` `AdvanceInv` `AdvanceMore` `AdvanceGeom` `AdvanceProps` | `FrontUpdate.h` with the element and edge operations of `Mesh.h`, tests of `FacetGeometry.h` | C23-C26 |
| `LoopModel` `LoopSpec` `LoopProofs` `LoopProps` | loops of `Triangulation.h`, base edge of `Front.h` | C27 |
| `FrontModel` `FrontSpec` `FrontProofs` `RefineProofs` `InitProofs` `SubProofs` `FrontProps` | `FrontInitData.h`, initialisation and refinement of `Front.h` | C21, C22 |
| `MeshModel` `MeshSpec` `MeshProofs` `MeshCheck` `MeshProps` | finished mesh of `Mesh.h`, indices and facet connectivity of `MeshCleanup.h`, arrays of `MeshWriter.h` | C28-C30 |
| `QRefineModel` `QRefineSpec` `QRefineProofs` `QRefineShape` `QRefineConf` `QRefineProps` | `RefinementStrategy.h` | C31 |
| `CleanSpec` `CleanModel` `MergeProofs` `CleanProofs` `CleanPass` `CleanScan` `DegenProofs` `DegenPass` `CleanCheck` `CleanProps` | passes of `MeshCleanup.h` that remove elements | C33 |
| `T2QModel` `T2QSpec` `T2QProofs` `T2QProps` | `ModificationStrategy.h` and the copy in `MeshCleanup.h` | C32 |
| `MergerModel` `MergerSpec` `GlueProofs` `MergerCopy` `MergerProofs` `MergerMain` `MergerProps` | `MeshMerger.h`, `MeshGenerator::merge_meshes` | C34 |
| `SmoothModel` `SmoothSpec` `SmoothProofs` `SmoothProps` | `SmoothingStrategy.h` | C35, C36 |
| `QLayerModel` `QLayerSpec` `QLayerProofs` `QLayerProps` | `QuadLayering.h` | C37 |
| `CheckModel` `CheckSpec` `CheckProps` | `MeshChecker.h`, `EntityChecks.h` | C38 |
| `GenModel` `GenSpec` `GenProps` | algorithm objects of `MeshGenerator.h` | C39 |
| `ParaModel` `ParaSpec` `ParaProofs` `ParaMatrix` `ParaProps` | `ParaReader.h` | C40, C41 |
| `AppModel` `AppProps` | input handling of `TQMeshApp.h` | C42, C49 |
| `ColourModel` `ColourProps` | colours through `Mesh.h`, `Triangulation.h`, `QuadLayering.h`, `RefinementStrategy.h`, `SmoothingStrategy.h`, `MeshMerger.h` | C43 |
| `WindSpec` `WindProofs` | winding numbers, no code | C50 |
| `WindFront` `WindProps` | tiling by the advancing front, on the models of C21-C27 | C50 |
| `WindMesh` `WindMeshProps` | tiling by finished meshes, on the models of C30-C36 | C50 |
| `WindInside` `WindInsideProps` | inside tests of `EdgeList`, `Domain` against winding numbers | C17, C50 |
| `AppRunModel` `AppRunSpec` `AppRunProps` | `TQMeshApp.h` (`construct_mesh`, `generate_mesh`, `run`) on `GenModel` | C51, C52 |
| `OutModel` `OutSpec` `OutProofs` `OutProps` | characters of the VTU and the text file | C53, C54 |
| `QTileSpec` `QTileProofs` `QTileSetup` `QTileProps` | region covered by quad layers (model: `QLayerModel`) | C55 |
| `PolySpec` `PolyCorner` `PolyProofs` `PolyArea` `PolyMain` `PolyProps` | simple polygons (no code) and the boundaries, domains and meshes made from them | C56 |
| `ClearSpec` `ClearGeom` `ClearWind` `ClearNest` `ClearStep` `ClearRun` `ClearStart` `ClearEnd` `ClearDomain` `ClearProps` | fronts without self-contacts (no new code): histories, initial fronts, nested boundaries, meshes | C57 |
| `DomCheckModel` `DomCheckSpec` `DomCheckProofs` `DomCheckProps` | `EntityChecks.h` check of the domain, `EdgeList.h` is_traversable, intersects_* | C58 |
| `FoamModel` `FoamSpec` `FoamProofs` `FoamRead` `FoamMesh` `FoamPatch` `FoamProps` | `scripts/convert2foam.py` | C59 |
| `FanProofs` `FinModel` `FinProofs` `FinMesh` `FinPipe` `FinProps` | end of `Triangulation.h` generate_elements, `EntityChecks.h` check_mesh_validity, `MeshingStrategy.h` add_remaining_front_edges_to_mesh | C60 |
| `TwinModel` `TwinSpec` `TwinProofs` `TwinMain` `TwinMesh` `TwinGen` `TwinProps` | `Front.h` mark_twin_edges, end of `MeshBuilder.h` prepare_mesh | C61 |
| `MixSpec` `MixShape` `MixRun` `ContModel` `OpenConn` `ContSpec` `ContProofs` `ContMesh` `ContStage` `ContEnd` `ContRun` `ContProps` | `Triangulation.h` generate_elements and `MeshingStrategy.h` on meshes left by earlier attempts, `Front.h` init_front from a mesh, `Mesh.h` get_front_edges | C62 |
| `ShapeModel` `ShapeSpec` `ConvexProofs` `CircProofs` `ShapeProofs` `ShapeProps` | `Boundary.h` set_shape_square, set_shape_triangle, set_shape_rectangle, set_shape_circle | C63 |
| `DomInModel` `DomInSpec` `DomInProofs` `DomInBuild` `PlateSpec` `PlateProofs` `DomInProps` | `TQMeshApp.h` init_exterior_boundary, init_interior_boundaries, init_quad_layers | C64 |
| `NearRange` `EndSpec` `EndClean` `EndProofs` `EndProps` | the steps of `TQMeshApp.h` from the boundaries to the finished mesh | C65 |
| `SpringSpec` `SpringProofs` `SpringProps` | rules of `SmoothingStrategy.h` (model: `SmoothModel`) | C66 |
| `FileModel` `FileSpec` `FileProofs` `FileBuild` `FileCheck` `FileExamples` `FileWords` `FileProps` `FileMeshProps` | `TQMeshApp.h` from the text of the parameter file to the inputs of the blocks | C67 |
| `LayRun` `LayWay` `LayGap` `LayNeat` `LayModel` `LaySpec` `LayLayers` `LayStage` `LayProps` | `QuadLayering.h` generate_elements on a mesh, between triangulations (`Triangulation.h`, `MeshingStrategy.h`) | C68 |
| `ExtentModel` `ExtentSpec` `ExtentProofs` `ExtentBuild` `ExtentProps` | `TQMeshApp.h` 765-850 with the search of `Container.h` and `QuadTree.h`; `MeshBuilder.h` 74-117; setters of the square of a tree (`Domain.h` 274-277) | C69 |
| `VecModel` `VecSpec` `VecProofs` `VecProps` | `VecND.h` | C70 |
| `AngleModel` `AngleSpec` `AngleProofs` `AngleProps` | angles of `FacetGeometry.h`, `Triangle.h`, `Quad.h`, their use in `FrontUpdate.h` and `MeshWriter.h`, over the reals | C71 |
| `EditModel` `EditSpec` `EditProofs` `EditRead` `EditEffect` `EditProps` | editing functions of `Domain.h`, `EdgeList.h`, `Boundary.h` with `Container.h`, `Edge.h` at the level of pointers | C72 |
| `OverlapModel` `OverlapSpec` `OverlapProofs` `OverlapEnd` `OverlapProps` | `check_intersection` of `FacetGeometry.h` between elements and with vertices | C73 |
| `NearModel` `NearSpec` `NearProofs` `NearProps` | searches by midpoint: `Vertex.h`, `check_coordinate` of `SmoothingStrategy.h`, `count_edge_overlaps` of `Domain.h`, front tests and `is_too_close` of `FacetGeometry.h` | C74 |
| `ToolModel` `ToolSpec` `ToolProofs` `ToolProps` | `Matrix.h`, `ProgressBar.h`, `split` of `StringOps.h`, `Timer.h` | C75 |
<!-- FILES -->

## 4. Findings

Each entry is a behaviour of the unchanged code.  Where a theorem is named, the behaviour is proved about
the model (with a computed witness or for all inputs); the others were seen while reading the
code and are part of the model without a theorem of their own.

### Containers and geometry
* An item updated onto the border of a bucket and updated again becomes invisible or cannot be removed: `C01_C02_query_after_update_refuted`, `C04_C05_remove_after_update_refuted`.
* `get_nearest` returns nothing although the container is not empty: `C03_nearest_refuted`.
* `in_on_triangle` accepts far points for tiny triangles: `C11_in_on_triangle_sound_refuted`.
* The shape factor of a triangle is at most 1/2, not 1: `C13_shape_factor_one_refuted`.
* `split_edge` places the vertex at 1-s instead of s and stores a wrong area: `C14_position_refuted`, `C14_stored_area_refuted`.
* Shapes that are turned around get shifted colours: `C16_colours_refuted`.
* A point slightly below the bounding box counts as inside: `C17_outside_box_refuted`; points of the left side count as outside: `C48_on_edge_refuted`.
* `Domain::extent` always contains the origin: `C18_extent_refuted`; the completeness check inherits this: `C38_refuted`.
* `VecND::sum` has an integer accumulator: `C44_sum_refuted`.
* `line_line_intersection` misses intersections near the tolerance: `C46_intersection_complete_refuted`.
* Overlap tests of edge lists miss proper crossings: `C47_edgelist_complete_refuted`, `C47_self_complete_refuted`.
* Text behind a number in CSV files is dropped: `C45_trailing_text_refuted`.

### Advancing front
* All edge lists use a quadtree of size 10000, whatever the size of the domain: an edge with its midpoint beyond +-5000 is never removed: `C22_stale_refuted`, `C24_refuted`, `C31_refuted`.
* Neighbour edges that cover a boundary edge in part leave a gap in the initial front: `C21_closed_refuted`.
* Sub vertices of an edge may lie outside of it: `C22_inside_refuted`.
* The look-up of a front edge ignores its direction and removes the wrong edge of a slit: `C23_refuted`.
* A rejected vertex (or triangle) outside of the square of the mesh stays in the mesh: `C26_refuted`.
* The limit of elements is truncated to int, the advancing step is not tried again after the exhaustive search, a complete mesh dereferences a null base edge: `C27_limit_refuted`, `C27_failure_refuted`, `C27_complete_mesh_refuted`.
* `update_front_state` runs before the base edge is removed and leaves stale `on_front` flags.
* Only front edges reached from the base edge are tried in the exhaustive search.
* The overlap tests only look at items whose midpoint or centroid is in range.
* Fixed edges are not enforced, only their vertices are; `check_front_validity` always returns true.
* All tests of `triangle_is_valid` look only at front and boundary edges whose *midpoint* is within max(2 rho, longest side) of the centroid. For a polygon with a deep narrow slot the triangle over an edge below the slot with its tip beyond the slot is accepted although both sides of the slot cross it; the front then crosses itself and an element lies partly outside of the domain: `C57_refuted`. `C57_*_partial` prove the property under two conditions that can be checked on the result: no three vertices are nearly but not exactly collinear (the tolerance of the orientation test), and every segment that meets an element has its midpoint in the search range. The latter holds when the segments are not longer than 12/7 of the local size (`C57_short_partial`). Under these conditions the assumption on the accepted triangles in `C23_front_closed_partial`, `C24_covered_partial`, `C25_cancel_partial`, `C50_domain_partial` and `C56_mesh_partial` is a consequence of the tests of the code.
* `check_domain_validity` walks around each boundary from its first edge and looks for crossings among edges whose midpoint is in the box of the other edge; neighbours in the walk and identical segments are never compared. It accepts crossing boundaries (`C58_crossing_refuted`), loose ends (`C58_closed_refuted`), boundaries of several curves (`C58_connected_refuted`), folded boundaries (`C58_overlap_refuted`), the same boundary as exterior and as hole (`C58_empty_refuted`), holes outside and clockwise exteriors (`C58_nesting_refuted`). A boundary without edges is read out of range (`C58_empty_boundary_refuted`). All domains of simple polygons without common points are accepted (`C58_accepts`).

### Finished mesh
* Facet pointers of the edges of concave quads are wrong: `C30_edge_facets_refuted`.
* `setup_facet_connectivity` never resets the facet pointers of edges: dangling pointer in a later tri2quad (`C32_dangling_refuted`), incomplete edges hidden from the completeness check (`C38_stale_refuted`).
* tri2quad and its copy lose colours, make concave quads, and leave adjacent triangles behind the final clean up: `C32_colour_refuted`, `C32_cleanup_colour_refuted`, `C32_concave_refuted`, `C32_apart_refuted`.
* The clean up passes lose colours, remove fixed vertices, skip everything behind the first marked element and make clockwise triangles from tiny elements: `C33_colour_refuted`, `C33_fixed_refuted`, `C33_left_refuted`, `C33_ring_left_refuted`, `C33_tiny_refuted`.
* `merge_meshes` returns true although nothing was merged, the stored area of the merged mesh is wrong: `C34_returns_refuted`, `C34_area_refuted`.
* `generate_elements` with a limit of elements reports success when the limit is reached, and `check_mesh_validity` asks only that every edge is a side of some element (`C60_check`), which is also true for the edges around a hole: a triangle with a hole left in its middle is reported as complete and valid (`C60_stopped_refuted`). When the front is empty the mesh is sound and all later steps succeed on it and keep the area of the domain (`C60_finished_partial`, `C60_cleanup_partial`, `C60_steps_partial`, `C60_generated_partial`, `C60_pipeline_partial`).
* Refinement gives the centre and mid vertices the fixed flag if any corner is fixed.
* The text export has five decimals and reports success on failure.

### Smoothing and quad layers
* Only two of the four corners of a quad are checked: a strictly convex quad becomes concave: `C35_convex_refuted`.
* The test whether the edges at a moved vertex cross other edges (`SmoothingStrategy.h` 251-290) looks only at edges whose mid point is closer than the longest edge at the vertex, and only two corners of a quad are checked: after one Laplace step two sides of a quad cross each other and two other elements overlap: `C50_smoothing_refuted`.
* `init_vertex_connectivity` enters a neighbour once for each common element, so twice at an interior vertex, and the opposite corner of a quad once (`C66_neighbours`). The Laplace rule does not suffer in meshes of triangles (`C66_laplace`), but the torsion rule takes the first copy as the successor of the second: a vertex whose edges make equal angles, which the rule by itself leaves alone (`C66_torsion_once`), is moved towards the mean of its neighbours (`C66_torsion`, `C66_torsion_refuted`).
* `smoothing_loop` turns the sign of the step size, so every second iteration of Laplace smoothing moves vertices away from the mean of their neighbours: `C66_away_refuted`; two steps with size e and decay 1 multiply the distance by 1 - e^2 (`C66_pair`), with step sizes from 0 to 1 no vertex leaves the hull of the mesh (`C66_hull`).
* Displacement directions are appended behind a list of zeros, so quad layer smoothing is not projected: `C36_refuted`, `C36_directions_zero`.
* The step size changes its sign every iteration and is kept for the next call.
* Outside of the quadtree square `Container::update` and `get_nearest` dereference a null leaf (`UB` in the model).
* A quad layer between the two ends of one edge runs around the whole boundary and has the edge twice: `C37_refuted`.
* Placing the first and last vertex of a layer may move a neighbouring vertex, also a corner of the domain or a fixed one; splitting a boundary edge leaves the twin pointer of a neighbour mesh dangling.
* Quads of a layer are made without a convexity check; a closed layer does not close the gap between last and first edge; a spike divides by zero; `close_quad_layer_gap` and `get_closest_vertex` may dereference null.
* `clear_edges` stops working at the first edge beyond +-5000.

### Generator, parameter files, application
* Algorithm objects are looked up by the address of the mesh: a new mesh at the address of a merged one gets the old object with the old domain: `C39_refuted`; a removed mesh is accepted: `C39_removed_refuted`; kinds of different categories do not reset each other: `C39_category_refuted`.
* Parameter queries: `C40_refuted`, `C40_comment_refuted`, `C40_substring_refuted`, `C40_nested_refuted`, `C40_unqueried_refuted`.
* Matrices: `C41_refuted` (ragged rows are reshaped), `C41_entry_refuted`, `C41_empty_refuted`, `C41_range_refuted`; a matrix of no columns divides by zero.
* The vertex index check of the exterior boundary is off by one: `C42_refuted`, `C42_exterior_last`; negative colours are accepted: `C42_colour_refuted`.
* The extent of the domain ignores fixed vertices and shapes: `C49_refuted`.
* `throw_error("..." + mesh_id_)` is pointer arithmetic on a literal; a missing value of a shape parameter becomes -1.0; an input file without a mesh block reports success.
* The application merges a new mesh only with the first of the existing ones (`TQMeshApp.h` 182-192; the assertion that one is left is empty in a release build): three connected blocks leave two meshes if the second is not adjacent to the first: `C52_unmerged_refuted`.
* Refinement and smoothing of a block are applied to everything merged into its mesh before (195-201): the elements of an earlier block are refined again: `C52_refined_refuted`. An input file with no block reports success; an unknown algorithm is found after the quad layers were made (`C51_calls`).
* Both file formats print coordinates with five decimals whatever the scale: a mesh with coordinates below 0.000005 is written as one point: `C53_coordinates_refuted`, `C54_coordinates_refuted`. A failure to open the file is not noticed and `write` returns true: `C53_unwritten_refuted`. A file name `vtu` without a dot gets no extension: `C53_path_refuted`.
* If the far vertex of an edge next to a quad layer lies closer than the layer height to the projected point, the vertex itself is moved, even when it is a corner of the domain: a layer of height 1 in a channel of height 9/10 lifts both upper corners and meshes an area of 4 in a domain of area 18/5: `C55_refuted`. Only these two vertices can move (`C55_moves`), and none around a closed loop (`C55_closed_partial`).
* `scripts/convert2foam.py` sorts boundary edges by their elements without moving the markers along, then sorts them by these markers: faces end up in the patches of other boundaries (`C59_markers_refuted`; right when that sort leaves the markers as they are, `C59_markers_partial`, e.g. with one marker, `C59_one_marker`). Interior faces are sorted by neighbour instead of owner (`C59_order_refuted`). The file `boundary` lists patches by name, `boundary_10` before `boundary_2`, with start faces out of order (`C59_names_refuted`; up to nine patches are in order, `C59_names_partial`). A negative height turns all cells inside out (`C59_height_refuted`). Points are written with six significant digits and can coincide (`C59_points_refuted`, `C59_points_partial`). Further meshes in the file are dropped silently (`C59_first_mesh_refuted`), although the reading functions find the arrays of any of them (`C59_reads_among`). Apart from that the result is a mesh of closed prisms with the right volumes (`C59_prisms`, `C59_mesh`).
* A boundary edge of a neighbour mesh is only recognised if both of its ends lie on an edge of the new domain. A longer edge of the neighbour is ignored: the new edges on it have no twins, the meshes are not connected there and never merge, without a message (`C61_contact_refuted`). Where neighbour edges do lie on the domain, all pointers are mutual, complete and lead to living edges (`C61_mutual`, `C61_pointed`, `C61_complete`, `C61_no_stale`, `C61_unchanged`), and the new mesh can be merged with every neighbour of disjoint region (`C61_generated_partial`, `C61_merged_partial`).
* Triangulating a mesh that is already complete is undefined behaviour: no front edge is left, the assertion is void in a release build and the null base edge is dereferenced (`C62_once_more`, `C62_once_more_refuted`). A passed check does not mean that nothing is left to do (`C62_check_refuted`). Attempts on incomplete meshes go on exactly where the last one stopped (`C62_restart_partial`, `C62_between_partial`), and the mesh is sound once the front is empty (`C62_complete_partial`, `C62_attempts_partial`, `C62_domain_partial`).
* Boundary shapes that enclose nothing are not rejected: a circle with fewer than three corners silently leaves the boundary without edges (`C63_few_refuted`), radius, width or height zero gives edges from a vertex to itself or edges on top of each other (`C63_zero_refuted`), and negative colours are taken over (`C63_colour_refuted`). For positive extents the shapes are what they are called (`C63_rectangle`, `C63_square`, `C63_circle`, `C63_triangle`).
* The application reads the shapes of a mesh block with the default value -1: a rectangle without height becomes one of height 1, a colour that is no number becomes -1, and a circle without its number of corners has -1 of them, which is undefined for the exterior boundary and an allocation failure for an interior one (`C64_missing_refuted`). A definition that the reader does not accept ends the loop over its kind: it and all later ones of its kind are left out without an error, and so are quad layers (`C64_dropped_refuted`). Of several exterior definitions one is taken, by the order of the kinds in the code (`C64_second_refuted`). A circle with fewer than three corners leads to undefined behaviour in the check of the domain (`C64_few_refuted`). A boundary that is given by its edges is not turned: listed in the wrong direction it passes the check of the domain, has a negative area and is wound around in the wrong sense (`C64_turned_refuted`); the index behind the last vertex is undefined behaviour for the exterior boundary and an error for interior ones (`C64_edges_refuted`). What is taken is built correctly (`C64_domain`, `C64_plate`, `C64_built`, `C64_taken`, `C64_colour`, `C64_layers`, `C64_conversion`), and a domain without exterior boundary is refused (`C64_no_exterior`).
* The reader has no written form for flags: `Smooth quad layers: true` is a conversion error of `operator>>`, so the query fails and the flag is silently off (`C67_flag_refuted`). A negative number of smoothing iterations or refinements wraps around to 2^64 - 1 (`C67_count_refuted`).
* A blank line in a table of vertices is read as a further row of defaults, a vertex at (-1,-1): `C67_blank_refuted`. A comma in a comment behind a row counts as a separator and shifts all further rows (`C67_comment_refuted`). A boundary with too few values gets -1 for the others, e.g. a rectangle of height -1, without a message (`C67_missing_refuted`).
* Only the first definition of an exterior boundary in a block counts, in the order in which the code asks for the kinds and not in the order of the lines (`means` in `FileSpec.v`); further ones are ignored without a message.
* `query_mandatory_parameters` builds its messages with `"literal" + mesh_id_`, which is pointer arithmetic: the message loses its first letters, and reads outside of the literal for large ids (found by reading, not modelled).
* A quad layer that fails leaves its preparation behind: generate_elements returns false, but corners of the domain were moved and the boundary of the mesh encloses another area (`C68_refuted`). Layers around a closed boundary do not have this defect (`C68_closed`).
* Where two open quad layers meet, the second one splits the edge of the front next to it. If this edge is a side of a quad of the first layer, only the front is changed: the quad keeps its long side, no mesh edge belongs to it, and a vertex hangs in its middle. Both calls report success (`C68_hanging_refuted`).
* C69: the extent of the domain of a parameter file is estimated from the listed boundary vertices only (`TQMeshApp.h` 803-850). A file that lists the vertices of a small hole and gives the outer boundary as a large rectangle searches the corners of the rectangle outside of the square of the quadtree. `get_leaf` then returns a null pointer which `get_nearest` dereferences (`QuadTree.h` 186-193): `C69_refuted`. The same file with an unlimited search gives the described domain.
* C69: `create_empty_mesh_ptr` (`MeshBuilder.h` 106-117) passes on the scale of the quadtree of the domain but not its centre: after `quad_tree_center` the mesh searches in another square than the domain: `C69_centre_refuted`.
* C70: the compound assignments of `VecND` take the scalar by reference (`VecND.h` 194-230). With an entry of the vector itself, as in `a /= a[0]`, the entries behind it are divided by the changed entry: `C70_alias_refuted`, `C70_alias_partial` gives the exact result.
* C71: the angles of quads are taken from the cosine only, so the corner of a concave quad with more than 180 degrees gets the complement: 270 degrees are stored and written to the VTU file as 90 (`C71_quad_refuted`, `C71_turn`). Quads can be concave (`C32_concave_refuted`, `C35_convex_refuted`). A limit of less than 60 degrees on the largest angle refuses every triangle (`C71_extreme`).
* C72: `Domain::remove_boundary` frees the edges of the boundary without taking them out of the edge lists of their vertices (neither `Container` nor `Edge` has a destructor that does so). A boundary drawn again through the same vertices makes `check_domain_validity` follow these pointers into freed memory (`C72_refuted`); the domain is left consistent exactly when the removed boundary has no edges (`C72_boundary`). `clear_edges` before `remove_boundary` is the safe way (`C72_clear_first`) unless an edge lies outside of the quadtree of its list: `clear_edges` then stops at that edge and keeps the rest (`C72_clear_refuted`). `remove_vertex` does not look at the edges that end in the vertex (`C72_vertex_refuted`) nor at the list of fixed vertices (`C72_fixed_refuted`), and silently keeps a vertex that lies outside of the quadtree (`C72_outside`).
* Reading note: the loop in `MeshBuilder.h:196-197` that empties a mesh after a failed preparation removes list nodes it is iterating over, which is undefined. It cannot be reached, because `check_front_validity` always returns true.
* C73: the tests between elements look for sides that meet and for a centroid inside the other element. This finds every overlap of two triangles that are clear of the tolerance (`C73_triangles_partial`), but not those with quads: a triangle upon the diagonal of a square that covers half of it is not reported (`C73_refuted`), nor are two quads that have a half in common, although none of their other corners is in or on the other quad (`C73_quads_refuted`). For a triangle of the advancing front the test against vertices finds the missing case (`C73_accepted_partial`); for quads it does not. A triangle with a doubled area of twice the tolerance may be put upon an equal one (`C73_small_refuted`), and a triangle inside an element whose centroid is out of the search range is not compared with it at all (`C73_range_refuted`).
* C74: edges and elements are searched by their midpoint or centroid only. A vertex on a long edge is not noticed by `intersects_mesh_edges` (`C74_edges_refuted`), a vertex in a large triangle not by `intersects_facet` (`C74_facets_refuted`), and a long edge of the front across a new triangle not by the test against the front (`C74_front_refuted`). The `_partial` theorems give the lengths up to which nothing is missed. `count_edge_overlaps` is not affected, because common edges have a common midpoint (`C74_count`).
* C74: `SmoothingStrategy::check_coordinate` takes the fourth vertex of a quad from `v3()` (line 202). Only the half of the quad up to its diagonal is tested: a coordinate in the other half is accepted (`C74_check_refuted`, `C74_check_partial`). The function has no caller.
* C75: `Matrix::swap` overwrites the rows and columns of the receiver, but not those of the other matrix, which keeps its own with the entries of the receiver: reading within its rows and columns is out of range (`C75_swap_refuted`). The source of a move keeps its rows and columns without entries, and assigning a matrix to itself passes iterators of a vector to its own `assign` (`C75_move_refuted`). Resizing with another number of columns moves the entries (`C75_resize_refuted`). The class has no user in the library.
* C75: `split` with empty items kept drops the last one: a text that ends with the delimiter is not given back by joining (`C75_split_refuted`, `C75_split_partial`).
<!-- FINDINGS -->

## 5. Parts of the code not modelled

* `exprtk.h` and the parsing of size function expressions (`size_function.cpp`); the size function is an arbitrary function in the models and `SizeModel` models what `Domain.h` does with it.
* Output: `Log.h`, the conversion of the area ratio to the percentage of the progress bar, the text of the size function export. The text of doubles without manipulators (six significant digits, used for the size function and the quality arrays of the VTU file) is an oracle.
* The constructors of `Matrix.h` from arrays, `sto` of `StringOps.h` (the parts used by `ParaReader.h` are modelled with it), `Testing.h`, examples and tests.
* `TQMeshApp.h`: the printing and the error messages. The queries (C67), vertices, edges, the extent (C42, C49), the boundaries and quad layers (C64) and the order of the calls (C51) are modelled. C67 covers files whose lines are of the forms listed in `FileSpec.v`; the conversion of a text to a double, the evaluation of the size function (an external library) and the contents of CSV files are parameters of its theorems. In C51 and C52 the results of merging and of the completeness check are oracles.
* Floating point rounding, memory allocation, 32 bit overflow of counters (except where a property is about it).
* `std::stod` is an oracle; sine, cosine, arccosine and square root are oracles outside of `SizeModel` and `AngleModel`.
* The order in which `std::sort` leaves equal keys (see the comments at each use).
* C68 covers quad layers whose preparation moves no vertex and splits no edge. `C68_closed` proves this for layers from a vertex to itself. Open layers are covered only when their ends need no adjustment; `C37` and `C55` treat the adjustment by itself.
* C69 leaves out that a scale of `TQ_MAX` (the largest double, used when a file lists no vertices) overflows to infinity in products inside of the quadtree search.
* C70: the output operator of `VecND` and integer entries (overflow, integer division) are not modelled; a division by zero has no value instead of an infinite one.
* Of the editing of domains (C72): `split_edge` and the `set_shape` functions at the level of pointers, and the destruction of the domain itself.
* Of the tests between elements (C73): quads that are not convex.
* `intersects_mesh_edges`, `is_too_close`, `count_edge_overlaps`, `check_coordinate` and the tests of quads (C73, C74) have no caller in the library; they are modelled as they stand.
<!-- NOTMODELLED -->

## 6. Print Assumptions

Every property file ends with `Print Assumptions` for each of its theorems.

| File | Theorems | Closed under the global context | Axioms of the others |
|---|---|---|---|
| `QTreeProps.v` | 12 | 12 | - |
| `GeomProps.v` | 48 | 48 | - |
| `BdryProps.v` | 28 | 28 | - |
| `SizeProps.v` | 7 | 0 | `ClassicalDedekindReals.sig_not_dec`, `ClassicalDedekindReals.sig_forall_dec`, `FunctionalExtensionality.functional_extensionality_dep`, `Classical_Prop.classic` |
| `CsvProps.v` | 8 | 8 | - |
| `AdvanceProps.v` | 17 | 17 | - |
| `LoopProps.v` | 6 | 6 | - |
| `FrontProps.v` | 14 | 14 | - |
| `MeshProps.v` | 15 | 15 | - |
| `QRefineProps.v` | 10 | 10 | - |
| `CleanProps.v` | 11 | 11 | - |
| `T2QProps.v` | 9 | 9 | - |
| `MergerProps.v` | 8 | 8 | - |
| `SmoothProps.v` | 11 | 11 | - |
| `QLayerProps.v` | 8 | 8 | - |
| `CheckProps.v` | 7 | 7 | - |
| `GenProps.v` | 7 | 7 | - |
| `ParaProps.v` | 21 | 21 | - |
| `AppProps.v` | 9 | 9 | - |
| `ColourProps.v` | 7 | 7 | - |
| `WindProps.v` | 3 | 3 | - |
| `WindMeshProps.v` | 9 | 9 | - |
| `WindInsideProps.v` | 5 | 5 | - |
| `AppRunProps.v` | 7 | 7 | - |
| `OutProps.v` | 8 | 8 | - |
| `QTileProps.v` | 7 | 7 | - |
| `PolyProps.v` | 7 | 7 | - |
| `ClearProps.v` | 8 | 8 | - |
| `DomCheckProps.v` | 11 | 11 | - |
| `FoamProps.v` | 14 | 14 | - |
| `FinProps.v` | 8 | 8 | - |
| `TwinProps.v` | 8 | 8 | - |
| `ContProps.v` | 11 | 11 | - |
| `ShapeProps.v` | 9 | 7 | `C63_circle` and `C63_triangle`: `ClassicalDedekindReals.sig_not_dec`, `ClassicalDedekindReals.sig_forall_dec`, `FunctionalExtensionality.functional_extensionality_dep`, `Classical_Prop.classic` |
| `DomInProps.v` | 14 | 13 | `C64_plate`: `ClassicalDedekindReals.sig_not_dec`, `ClassicalDedekindReals.sig_forall_dec`, `FunctionalExtensionality.functional_extensionality_dep`, `Classical_Prop.classic` |
| `EndProps.v` | 7 | 6 | `C65_plate`: `ClassicalDedekindReals.sig_not_dec`, `ClassicalDedekindReals.sig_forall_dec`, `FunctionalExtensionality.functional_extensionality_dep`, `Classical_Prop.classic` |
| `SpringProps.v` | 10 | 10 | - |
| `FileProps.v` | 10 | 10 | - |
| `FileMeshProps.v` | 2 | 2 | - |
| `LayProps.v` | 9 | 9 | - |
| `ExtentProps.v` | 14 | 14 | - |
| `VecProps.v` | 16 | 16 | - |
| `AngleProps.v` | 7 | 0 | `ClassicalDedekindReals.sig_not_dec`, `ClassicalDedekindReals.sig_forall_dec`, `FunctionalExtensionality.functional_extensionality_dep`, `Classical_Prop.classic` |
| `EditProps.v` | 11 | 11 | - |
| `OverlapProps.v` | 11 | 11 | - |
| `NearProps.v` | 13 | 13 | - |
| `ToolProps.v` | 17 | 17 | - |
