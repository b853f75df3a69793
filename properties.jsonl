{"id": "C01", "title": "Rectangle queries return exactly the stored items in the rectangle", "statement": "After any history of push_back / remove / update calls on a Container, get_items(lowleft, upright) returns every stored item whose location lies in the closed rectangle, each exactly once, and nothing else (items pushed outside the quadtree's square excepted, see C06).", "quantifier": "every history of container operations, every quadtree scale / bucket size / depth limit, every query rectangle", "why_tests_cant": "The tree shape depends on the whole history (splits, merges, boundary ties); tests only sample a few point sets and a few rectangles.", "anchors": ["src/utils/Container.h: Container::get_items, insert, remove, update", "src/utils/QuadTree.h: QuadTree::get_items(rect), add, remove, split_qtree, merge"]}
{"id": "C02", "title": "Circle queries return exactly the stored items strictly inside the circle", "statement": "After any history of container operations, get_items(center, radius) with radius >= 0 returns every stored item at distance strictly smaller than radius from center, each exactly once, and nothing else, although subtrees are pruned with the box of half-width 1.4142*radius.", "quantifier": "every history, every centre, every non-negative radius", "why_tests_cant": "The pruning box and the bucket layout interact for infinitely many positions; no finite sample shows that pruning never loses an item.", "anchors": ["src/utils/Container.h: Container::get_items(center,radius)", "src/utils/QuadTree.h: QuadTree::get_items(circle), quadtree_circ_query_fun"]}
{"id": "C03", "title": "Nearest-item query", "statement": "get_nearest(q) for a query point inside the container's square returns a stored item whose distance to q is minimal among all stored items whenever the container is not empty.", "quantifier": "every history, every query point", "why_tests_cant": "Whether the initial search radius (twice the size of the leaf that holds q) suffices depends on the global distribution of all items.", "anchors": ["src/utils/Container.h: Container::get_nearest", "src/utils/QuadTree.h: QuadTree::get_nearest, get_leaf"]}
{"id": "C04", "title": "Container bookkeeping: sizes, membership and tree balance", "statement": "size() always equals the number of push_backs minus the number of removes that returned true; the quadtree's size() equals the number of items it holds; a removed item is never returned by a later query; no bucket above the depth limit ever holds more than max_items items and a bucket is only subdivided while it holds more than max_items.", "quantifier": "every history of push_back / remove, every bucket size and depth limit", "why_tests_cant": "The counters are updated incrementally through parent pointers during splits and merges; a drift shows only after particular long histories.", "anchors": ["src/utils/Container.h: Container::insert, remove, size", "src/utils/QuadTree.h: QuadTree::add, remove, merge, split_qtree, add_item_number, size"]}
{"id": "C05", "title": "Moving an item keeps it findable and removable", "statement": "After update(item, xy_new) returns true the item is returned by queries at its new location (and not at the old one), the other items are unaffected, and a later remove(item) takes the item out of the container completely.", "quantifier": "every history, every item, every new location inside the container's square", "why_tests_cant": "update() has a fast path that leaves the item in its bucket; whether that bucket is still the one that remove() will search depends on ties at bucket borders.", "anchors": ["src/utils/Container.h: Container::update, remove", "src/utils/QuadTree.h: QuadTree::get_leaf, remove"]}
{"id": "C06", "title": "Items outside the container's square", "statement": "An item pushed at a location outside the square covered by the container stays listed (size() counts it) but no query ever returns it and remove() always returns false and changes nothing; all other items are unaffected.", "quantifier": "every history, every location outside the square", "why_tests_cant": "Needs all histories and all query shapes.", "anchors": ["src/utils/Container.h: Container::insert (lines 138-161), remove", "src/utils/QuadTree.h: QuadTree::add"]}
{"id": "C07", "title": "Vertex and edge property flags are independent", "statement": "On a vertex or edge, add_property / remove_property / set_property of one set of flags changes exactly those flags: every other flag keeps its value, add then has is true, remove then has is false, and the result does not depend on the order in which different flags are added.", "quantifier": "every 8-bit flag state and every 8-bit flag argument, every sequence of flag operations", "why_tests_cant": "Sequences of flag operations are unbounded; tests check a few combinations.", "anchors": ["src/algorithm/Vertex.h: VertexProperty, add_property, remove_property, set_property, has_property", "src/algorithm/Edge.h: EdgeProperty"]}
{"id": "C08", "title": "Orientation predicate laws", "statement": "orientation(p,q,r) is invariant under cyclic rotation of its arguments and under translation of all points, swapping two arguments exchanges CW and CCW and keeps collinear, degenerate triples (two equal points) are collinear, and is_left/is_lefton agree with it.", "quantifier": "every triple of points", "why_tests_cant": "A law over all real triples.", "anchors": ["src/utils/Geometry.h: orientation, is_left, is_lefton"]}
{"id": "C09", "title": "Segment crossing test is sound, complete up to the tolerance, and symmetric", "statement": "line_line_crossing(p1,q1,p2,q2) returns true only if the open segments share exactly one point, returns true whenever each segment's end points lie on strictly opposite sides of the other with doubled areas of at least 2^-26, and does not depend on the order or direction in which the segments are given; line_line_intersection additionally never misses a crossing reported by line_line_crossing.", "quantifier": "every pair of segments", "why_tests_cant": "Quantifies over all pairs of segments.", "anchors": ["src/utils/Geometry.h: line_line_crossing, line_line_intersection"]}
{"id": "C10", "title": "Point-to-segment distance", "statement": "distance_point_edge_sqr(p,e1,e2) for e1 != e2 is the minimum over all points of the closed segment of the squared distance to p, it is attained, and it is the same for the reversed segment.", "quantifier": "every point, every non-degenerate segment", "why_tests_cant": "A minimum over a continuum.", "anchors": ["src/utils/Geometry.h: distance_point_edge_sqr"]}
{"id": "C11", "title": "Point-in-triangle and point-in-quad tests", "statement": "in_triangle(v,p,q,r) returns true only for points that are strictly positive convex combinations of p,q,r of a counter-clockwise triangle; every convex combination of a counter-clockwise triangle is accepted by in_on_triangle; the result is invariant under rotating the corners. in_quad likewise only accepts points inside both edge half planes of every side.", "quantifier": "every point and every triangle / quad", "why_tests_cant": "Quantifies over a continuum.", "anchors": ["src/utils/Geometry.h: in_triangle, in_on_triangle, in_quad, in_on_quad"]}
{"id": "C12", "title": "Polygon area", "statement": "polygon_area does not depend on which vertex comes first, changes sign when the polygon is reversed, is translation invariant, adds up when a polygon is cut along a diagonal, and is positive exactly for counter-clockwise triangles.", "quantifier": "every polygon with any number of vertices", "why_tests_cant": "Unbounded number of vertices.", "anchors": ["src/utils/Geometry.h: polygon_area"]}
{"id": "C13", "title": "Triangle and quad metrics", "statement": "The circumcentre computed for a non-degenerate triangle has the same distance to all three corners; the area of a quad equals the sum of the areas of its two triangles for either diagonal; the shape factor of every triangle lies in the range documented in the code (approaching 1 for equilateral triangles).", "quantifier": "every triangle, every quad", "why_tests_cant": "Quantifies over a continuum; an inequality with equality case.", "anchors": ["src/algorithm/FacetGeometry.h: TriangleGeometry::calc_circumcenter, calc_area, calc_shape_factor; QuadGeometry::calc_area"]}
{"id": "C14", "title": "Splitting an edge keeps the loop and its area", "statement": "split_edge(e, ..., s) replaces e by two consecutive edges through a new vertex on e that is located according to s, keeps every other edge, the colours and the traversal order, and leaves the enclosed area of the list unchanged.", "quantifier": "every closed edge list, every edge in it, every parameter in [0,1], every sequence of splits", "why_tests_cant": "Unbounded lists and repeated splits.", "anchors": ["src/algorithm/EdgeList.h: split_edge, area, is_traversable"]}
{"id": "C15", "title": "Boundaries end up correctly oriented", "statement": "set_shape_from_coordinates (and the shape helpers) produces a closed chain that is counter-clockwise for an exterior boundary and clockwise for an interior boundary, whatever direction the user listed the points in, with exactly one edge per listed point.", "quantifier": "every list of at least three points with non-zero enclosed area, both boundary kinds", "why_tests_cant": "Unbounded point lists in both directions.", "anchors": ["src/algorithm/Boundary.h: create_boundary_shape, set_shape_from_coordinates, set_shape_rectangle, set_shape_triangle, set_shape_circle"]}
{"id": "C16", "title": "Boundary colours follow their segments", "statement": "After set_shape_from_coordinates the edge joining the i-th and (i+1)-th listed point carries the i-th listed colour, for both boundary kinds and whatever direction the points were listed in.", "quantifier": "every list of points and colours, both boundary kinds", "why_tests_cant": "The tests only check edge counts and single-colour shapes.", "anchors": ["src/algorithm/Boundary.h: create_boundary_shape lines 315-369"]}
{"id": "C17", "title": "Point-inside-boundary test", "statement": "EdgeList::is_inside(p) does not depend on the edge the list starts with, returns false for every point outside the bounding box, and for a triangle or an axis parallel rectangle returns true for all strictly interior and false for all strictly exterior points.", "quantifier": "every edge list, every point", "why_tests_cant": "Quantifies over all points and lists.", "anchors": ["src/algorithm/EdgeList.h: is_inside"]}
{"id": "C18", "title": "Domain area, inside test and extent", "statement": "Domain::is_inside(v) is true exactly if v is inside every exterior and outside every interior boundary; Domain::area() is the sum of the exterior areas minus the absolute interior areas; extent() returns the smallest box that contains all domain vertices.", "quantifier": "every set of boundaries, every vertex set", "why_tests_cant": "Unbounded collections.", "anchors": ["src/algorithm/Domain.h: is_inside, area, extent"]}
{"id": "C19", "title": "Size function bounds", "statement": "The size returned by Domain::size_function at any location is positive, never larger than the user's size function there and never larger than the mesh size attached to a domain vertex at that vertex; it is never smaller than the smallest of: the user's value, all attached sizes and all boundary edge lengths.", "quantifier": "every user size function with positive values, every set of boundary vertices and sizes, every location", "why_tests_cant": "Continuum of locations, unbounded number of vertices, involves exp().", "anchors": ["src/algorithm/Domain.h: SizeFunction::evaluate"]}
{"id": "C20", "title": "Size function export", "statement": "export_size_function(min,max,Nx,Ny) writes each of the Nx*Ny sample values exactly once and in grid order for all Nx, Ny.", "quantifier": "every Nx, Ny", "why_tests_cant": "Row breaking with remainder; all sizes.", "anchors": ["src/algorithm/Domain.h: Domain::export_size_function"]}
{"id": "C21", "title": "Initial front represents the domain boundary", "statement": "The initial advancing front contains one edge per domain boundary edge (or, where a neighbour mesh lies along it, per neighbour edge, reversed), keeps orientation and colour, and merges end points at identical coordinates into one mesh vertex, so that closed boundaries give a closed front.", "quantifier": "every domain with any number of boundaries and edges, any neighbour meshes", "why_tests_cant": "Unbounded boundaries; vertex de-duplication across boundaries and meshes.", "anchors": ["src/algorithm/FrontInitData.h: collect_front_edges, add_edge_data, add_edge_vertex", "src/algorithm/Front.h: init_front, init_mesh_vertices, init_front_edges"]}
{"id": "C22", "title": "Boundary edge refinement", "statement": "Refining a front edge replaces it by a chain of edges from the same start to the same end vertex through the new sub vertices in order, with the original colour; the new vertices lie strictly inside the edge; the signed area enclosed by the front does not change.", "quantifier": "every front edge, every list of sub vertices, every positive size function", "why_tests_cant": "Unbounded number of sub vertices; arbitrary size functions.", "anchors": ["src/algorithm/Front.h: refine_front_edges, refine_edge, create_sub_vertex_coords, create_sub_edges"]}
{"id": "C23", "title": "The advancing front stays a closed oriented curve", "statement": "Starting from a closed front, after any number of successful and failed advancing steps every vertex has as many incoming as outgoing front edges.", "quantifier": "every closed initial front and every history of advancing steps, whatever candidate vertices are chosen", "why_tests_cant": "The history is chosen by geometry heuristics; tests exercise a few domains.", "anchors": ["src/algorithm/FrontUpdate.h: update_front, advance_front, update_front_exhaustive"]}
{"id": "C24", "title": "Area conservation of the advancing front", "statement": "At every moment of element generation the signed area of all generated elements plus the signed area enclosed by the remaining front equals the signed area enclosed by the initial front; in particular when the front has become empty the element areas add up to exactly the domain area, and the reported mesh area is the sum of the element areas.", "quantifier": "every initial front, every history of advancing steps (triangles and quad layers)", "why_tests_cant": "Over all histories and all coordinates.", "anchors": ["src/algorithm/FrontUpdate.h: update_front, advance_front", "src/algorithm/Mesh.h: area, add_area", "src/algorithm/MeshChecker.h: check_completeness"]}
{"id": "C25", "title": "Conformity of the generated mesh", "statement": "If element generation ends with an empty front, then over every interior mesh edge the elements on both sides cancel (it is used once in each direction) and every boundary segment is used exactly once in the boundary's direction: no gaps, no hanging edges.", "quantifier": "every initial front without duplicate edges and every history that empties the front", "why_tests_cant": "A global topological statement over all histories.", "anchors": ["src/algorithm/FrontUpdate.h: update_front", "src/algorithm/Mesh.h: add_triangle, add_interior_edge"]}
{"id": "C26", "title": "A rejected element leaves no trace", "statement": "If an advancing step does not succeed, the mesh and the front are exactly as before: same vertices, elements, edges, front, area and vertex flags.", "quantifier": "every mesh state, every base edge, every failing candidate", "why_tests_cant": "All states and all failure reasons.", "anchors": ["src/algorithm/FrontUpdate.h: remove_from_mesh_if_invalid, update_front, advance_front, update_front_exhaustive"]}
{"id": "C27", "title": "Element limit, termination and result of the triangulation loop", "statement": "generate_elements with a limit N > 0 creates at most N elements and terminates; if it reports success the front is empty or exactly N elements were generated; if it reports failure, no advancing step was possible for any front edge in the widest search mode.", "quantifier": "every limit, every behaviour of the geometric element creation", "why_tests_cant": "The loop's behaviour depends on an unbounded interaction with the geometry; an arbitrary oracle covers all of them.", "anchors": ["src/algorithm/Triangulation.h: generate_elements, advancing_front_loop, exhaustive_search_loop"]}
{"id": "C28", "title": "Export indices and VTU arrays are consistent", "statement": "After index assignment the vertex indices are exactly 0..nV-1 and element indices exactly 0..nQ+nT-1 with quads first; the VTU export has 3 coordinates per vertex, connectivity entries that are all valid vertex indices, strictly increasing offsets whose last value is the connectivity length, and one type (9/5) per element matching its number of corners.", "quantifier": "every mesh", "why_tests_cant": "All meshes, all sizes.", "anchors": ["src/algorithm/MeshCleanup.h: assign_mesh_indices", "src/algorithm/MeshWriter.h: write_to_vtu"]}
{"id": "C29", "title": "Edge classification partitions the mesh edges", "statement": "Every mesh edge is reported in exactly one of: valid interior edges, valid boundary edges, front edges; interface edges are exactly the boundary edges with a twin.", "quantifier": "every mesh state", "why_tests_cant": "All mesh states.", "anchors": ["src/algorithm/Mesh.h: get_valid_interior_edges, get_valid_boundary_edges, get_front_edges, get_interface_edges"]}
{"id": "C30", "title": "Element neighbour relation", "statement": "After connectivity setup of a conforming mesh, a is the neighbour of b over an edge exactly if b is the neighbour of a over the same edge, and an element side has no neighbour exactly if it is on the mesh boundary.", "quantifier": "every conforming mesh", "why_tests_cant": "All meshes.", "anchors": ["src/algorithm/MeshCleanup.h: setup_facet_connectivity", "src/algorithm/Triangle.h: get_edge_index, set_neighbor", "src/algorithm/Quad.h"]}
{"id": "C31", "title": "Quad refinement", "statement": "refine() turns a mesh with V vertices, I interior and B boundary edges, T triangles and Q quads into one with V+I+B+T+Q vertices, 3T+4Q quads, no triangles, 2I+3T+4Q interior and 2B boundary edges; total area, per colour area and boundary colours are unchanged; conformity is preserved so that refine can be repeated any number of times; a mesh with interface edges is left unchanged and false is returned.", "quantifier": "every complete mesh, any number of refinements", "why_tests_cant": "All meshes and repeated application.", "anchors": ["src/algorithm/RefinementStrategy.h: QuadRefinement"]}
{"id": "C32", "title": "Triangle-to-quad modification", "statement": "modify() never changes the covered area nor the boundary, each created quad replaces exactly two triangles that shared an edge, every triangle is used in at most one quad and elements keep their colour.", "quantifier": "every mesh", "why_tests_cant": "All meshes, all merge orders.", "anchors": ["src/algorithm/ModificationStrategy.h: Tri2QuadModification"]}
{"id": "C33", "title": "Mesh cleanup", "statement": "Cleaning up double quad edges, double quad-triangle edges and degenerate triangles keeps the covered area, the boundary, the colours of the elements and user-fixed vertices, and afterwards no such degenerate configuration is left.", "quantifier": "every mesh", "why_tests_cant": "All meshes; configurations interact.", "anchors": ["src/algorithm/MeshCleanup.h: clear_double_quad_edges, clear_double_triangle_edges, merge_degenerate_triangles"]}
{"id": "C34", "title": "Merging two meshes", "statement": "merge_meshes(receiver, donor) returns true only if the meshes were merged; then the receiver contains all elements of both with their colours, its vertex count is the sum minus the shared interface vertices, interface edges became interior edges, its area is the sum of both areas, and the donor is gone; otherwise nothing changed.", "quantifier": "every pair of adjacent meshes", "why_tests_cant": "All meshes, all interfaces.", "anchors": ["src/algorithm/MeshMerger.h: merge", "src/algorithm/MeshGenerator.h: merge_meshes"]}
{"id": "C35", "title": "Smoothing only moves what it may move and keeps the mesh valid", "statement": "smooth(n) never moves fixed or boundary vertices (nor quad layer vertices unless enabled), never changes connectivity or colours, and every element that is counter-clockwise (convex for quads) before stays so.", "quantifier": "every mesh, every number of iterations, every displacement rule", "why_tests_cant": "All meshes and iteration counts; revert logic.", "anchors": ["src/algorithm/SmoothingStrategy.h: smoothing_iteration, new_vertex_position_is_valid, smooth"]}
{"id": "C36", "title": "Quad layer smoothing preserves the layer height", "statement": "With quad_layer_smoothing(true) the displacement of a quad layer vertex has no component along the direction to its closest boundary edge.", "quantifier": "every mesh with quad layers", "why_tests_cant": "All meshes.", "anchors": ["src/algorithm/SmoothingStrategy.h: collect_dispalcement_directions, smoothing_iteration"]}
{"id": "C37", "title": "Quad layers cover the requested boundary part", "statement": "A quad layer between starting and ending position is built on exactly the boundary edges of the path from start to end, in order, each once; its heights are positive, never exceed the requested height and grow with the growth rate from layer to layer.", "quantifier": "every closed front, every pair of start/end vertices, every number of layers", "why_tests_cant": "All closed fronts and vertex pairs.", "anchors": ["src/algorithm/QuadLayering.h: QuadLayerVertices, smooth_heights, generate_quad_layer, find_start_and_ending_edges"]}
{"id": "C38", "title": "Completeness check", "statement": "check_completeness returns true only if no front edge is left, every edge has an element, and the covered area equals the domain area up to 1e-10 times the size of the domain's bounding box.", "quantifier": "every mesh and domain", "why_tests_cant": "All meshes and domains.", "anchors": ["src/algorithm/MeshChecker.h: check_completeness", "src/algorithm/Domain.h: extent"]}
{"id": "C39", "title": "Algorithm objects keep their settings exactly while mesh and kind stay the same", "statement": "MeshGenerator's accessors return an algorithm object bound to the requested mesh; settings made on it are kept across consecutive requests for the same kind and mesh and are reset to defaults once another kind or mesh was requested in between.", "quantifier": "every sequence of accessor calls", "why_tests_cant": "All call sequences.", "anchors": ["src/algorithm/MeshGenerator.h: triangulation, quad_layer_generation, mixed_smoothing, tri2quad_modification, quad_refinement, set_algorithm"]}
{"id": "C40", "title": "Parameter file queries", "statement": "Repeated queries of a parameter in a block enumerate the lines that contain its key in file order, each once, and then fail; a value found is the text behind the last occurrence of the key up to a comment; nothing outside the block is ever read.", "quantifier": "every file content, every key, every sequence of queries", "why_tests_cant": "All files and keys.", "anchors": ["src/utils/ParaReader.h: get_query_data, query, query_scalar"]}
{"id": "C41", "title": "Matrix parameters keep their shape", "statement": "A matrix parameter with n columns is accepted only if every row provides n values, and get_value(i,j) returns column i of row j of the file.", "quantifier": "every file content, every column count", "why_tests_cant": "All contents.", "anchors": ["src/utils/ParaReader.h: query_matrix, process_matrix_query, Parameter::get_value, set_value, add_row"]}
{"id": "C42", "title": "Invalid vertex indices in the input file are rejected", "statement": "An input file whose boundary or fixed edges refer to a vertex index that does not exist is rejected with an error instead of being used.", "quantifier": "every input file", "why_tests_cant": "All index values; boundary case index == number of vertices.", "anchors": ["src/app/TQMeshApp.h: init_exterior_boundary, init_interior_boundaries, init_fixed_edges"]}
{"id": "C43", "title": "Colour of generated elements", "statement": "Every element created while meshing has the colour given to new_mesh (its absolute value), and elements keep their colour through merging, refinement and smoothing.", "quantifier": "every mesh and operation history", "why_tests_cant": "All histories.", "anchors": ["src/algorithm/Mesh.h: Mesh(), add_triangle, add_quad", "src/algorithm/MeshMerger.h", "src/algorithm/RefinementStrategy.h"]}
{"id": "C44", "title": "Numeric helpers", "statement": "MOD(n,M) lies in [0,M) and is congruent to n for every integer n and M > 0; argsort returns a permutation that sorts, keeping the order of equal elements; VecND::sum is the sum of the components.", "quantifier": "every integer / vector / array", "why_tests_cant": "All inputs.", "anchors": ["src/utils/MathUtility.h: MOD, argsort", "src/utils/VecND.h: sum"]}
{"id": "C45", "title": "Boundary import from CSV", "statement": "Reading a boundary from a CSV file yields exactly one vertex, one colour and one property pair per line in file order, or fails with an error; no malformed line is silently skipped.", "quantifier": "every file content", "why_tests_cant": "All file contents.", "anchors": ["src/algorithm/Boundary.h: CSVBoundaryReader"]}
{"id": "C46", "title": "Crossing segments are always reported as intersecting", "statement": "line_line_intersection(p1,q1,p2,q2), the test that keeps new elements from overlapping the front and other elements, returns true for every pair of segments that properly cross (end points of each strictly on opposite sides of the other), whatever their lengths and position.", "quantifier": "every pair of segments", "why_tests_cant": "The absolute tolerance interacts with the lengths of both segments; a continuum of configurations.", "anchors": ["src/utils/Geometry.h: line_line_intersection, in_segment, orientation"]}
{"id": "C47", "title": "Overlapping boundaries are detected", "statement": "EdgeList::intersects_self and EdgeList::intersects_edgelist report every pair of edges that properly cross, and report nothing if no two (non-neighbouring) edges intersect.", "quantifier": "every pair of closed edge lists", "why_tests_cant": "whether a crossing is found depends on the relative position of edge mid points and bounding boxes; a test tries a few layouts only", "anchors": ["src/algorithm/EdgeList.h: intersects_self, intersects_edgelist"]}
{"id": "C48", "title": "Points on the boundary count as inside", "statement": "EdgeList::is_inside returns true for every point located on an edge segment or on a vertex of the list, as its documentation says.", "quantifier": "every edge list with at least three edges, every point on it", "why_tests_cant": "the answer depends on the direction in which the ray leaves the point; tests touch some edges only", "anchors": ["src/algorithm/EdgeList.h: is_inside (lines 227-267)"]}
{"id": "C49", "title": "Estimated domain extent covers all vertices", "statement": "The extent that the application estimates from the input file gives a quadtree square that contains every vertex read from the file, boundary vertices as well as fixed vertices.", "quantifier": "every list of vertices and fixed vertices in an input file", "why_tests_cant": "All coordinates; a vertex outside the square is silently not stored in the quadtree.", "anchors": ["src/app/TQMeshApp.h: init_mesh_vertices, init_fixed_vertices, init_mesh_domain"]}
{"id": "C50", "title": "Elements tile the domain", "statement": "The elements of a generated mesh have pairwise disjoint interiors and together cover exactly the region that the boundary of the domain encloses, and refinement, conversion to quads, clean up, smoothing and merging keep it that way.", "quantifier": "every domain, every successful mesh generation, every conforming mesh with simple counter-clockwise elements, every point of the plane", "why_tests_cant": "Tests compare the total area or look at a picture; an overlap that is made up by a gap elsewhere has the right area.", "anchors": ["src/algorithm/FrontUpdate.h: advance_front, update_front", "src/algorithm/Triangulation.h: generate_elements", "src/algorithm/SmoothingStrategy.h: lines 214-290 (check of moved vertices)"]}
{"id": "C51", "title": "Main loop of the application", "statement": "For every list of mesh blocks the application makes, for each block in turn and on the mesh and the domain of that block only, the calls for quad layers, meshing, merging, refinement, smoothing, output and completeness check; no call reaches a mesh or domain that was deleted, whatever addresses the allocator returns; the reported success is the conjunction of the completeness checks.", "quantifier": "every list of blocks, every allocator that does not return an address in use, every outcome of merging and of the checks", "why_tests_cant": "Whether a deleted mesh's address is used again is up to the allocator; a test sees one of them.", "anchors": ["src/app/TQMeshApp.h: construct_mesh, generate_mesh, init_mesh_domain, run", "src/algorithm/MeshGenerator.h: new_mesh, merge_meshes, accessors"]}
{"id": "C52", "title": "Blocks of a run form one mesh", "statement": "If the mesh blocks of an input file are connected through shared boundary edges, one mesh remains at the end of the run, made of all blocks, and the elements of each block have been refined as often as the block asks for.", "quantifier": "every list of blocks, every relation of shared boundaries, every allocator", "why_tests_cant": "The tests merge two meshes and refine only the last; the order of blocks and their refinements have infinitely many combinations.", "anchors": ["src/app/TQMeshApp.h: generate_mesh (lines 182-196)"]}
{"id": "C53", "title": "VTU file can be read back", "statement": "The VTU file written for a mesh is well formed XML with matching tags; a reader gets back the numbers of vertices and elements, the corners, types and colours of the elements, the marks of the vertices and their coordinates; the name of the file ends in .vtu and write returns true only if the file was written.", "quantifier": "every mesh, every file name", "why_tests_cant": "Row breaks every ten entries, padding and the order of the arrays depend on the size of the mesh; tests open a few files by hand.", "anchors": ["src/utils/VtkIO.h: VtuWriter, VtkIOData::write_data", "src/algorithm/MeshWriter.h: write_to_vtu"]}
{"id": "C54", "title": "Text file can be read back", "statement": "The text file written for a mesh consists of sections with a header and the announced number of rows; a reader gets back the vertices, interior, boundary, interface and front edges with their elements, the elements with colours and neighbours, and the size function.", "quantifier": "every mesh", "why_tests_cant": "All meshes; the format has no tests.", "anchors": ["src/algorithm/Mesh.h: operator<<", "src/algorithm/MeshWriter.h: write_to_txt"]}
{"id": "C55", "title": "Quad layers cover what they take from the front", "statement": "Any number of quad layers keeps the meshed region: no vertex that existed before is moved, every point that the front surrounded is afterwards in one element or surrounded by the front that is left, the areas of the elements and of the remaining front add up to the area before, all new elements are simple, the front stays closed, and all corners of new quads carry the quad layer mark.", "quantifier": "every front, every start and end point, every number of layers, height and growth rate, open and closed layers", "why_tests_cant": "The layer edits front, boundary, triangles and quads in interleaved steps (split, advance, merge, close gaps); the unit tests compare the number of elements on a few domains.", "anchors": ["src/algorithm/QuadLayering.h: generate_elements, place_start_vertex, place_end_vertex, create_quad_layer_element, close_quad_layer_gap", "src/algorithm/Front.h"]}
{"id": "C56", "title": "Inside test and mesh of domains bounded by simple polygons", "statement": "A simple polygon winds once around the points of its inside and not around any other point, in the direction given by the sign of the area; the boundary that the code creates from it winds in the direction of its type whatever the order of the points, and the inside test finds the points of the inside. For a domain with one exterior boundary and any number of holes of this kind the boundaries wind at most once around any point, the domain calls exactly those points inside, and a finished triangulation covers exactly them without overlaps.", "quantifier": "every simple polygon, every domain of simple polygons, every point not on a boundary, every run of the triangulation", "why_tests_cant": "All polygons; the unit tests use a few convex shapes and a few points.", "anchors": ["src/algorithm/Boundary.h: create_boundary_shape, set_shape_rectangle", "src/algorithm/EdgeList.h: is_inside", "src/algorithm/Domain.h: is_inside", "src/algorithm/Triangulation.h: generate_elements"]}
{"id": "C57", "title": "The advancing front never touches itself", "statement": "For a domain of simple boundary curves without common points the initial front is free of self-contacts; with the acceptance tests of the code it stays so in every history of front updates, successful or not: all accepted triangles lie in the region that is left, elements never overlap and never leave the domain, every edge of the initial front becomes a side of exactly one element, every other side of exactly two, and when the front is empty the elements cover the domain.", "quantifier": "every domain, every history of front updates and every run of generate_elements with any size function, candidate lists and new positions", "why_tests_cant": "Quantifies over all domains and all histories; tests check element counts and areas of a few meshes.", "anchors": ["src/algorithm/FrontUpdate.h:144-206 update_front, update_front_exhaustive", "src/algorithm/FrontUpdate.h:303-378 triangle_is_valid, vertex_is_valid", "src/algorithm/FacetGeometry.h: edge_intersection, vertex_intersection, triangle_intersection", "src/algorithm/Front.h: init_front, refine", "src/algorithm/Triangulation.h: generate_elements", "src/algorithm/FrontInitData.h: collect_front_edges"]}
{"id": "C58", "title": "The check of a domain accepts exactly the meshable domains", "statement": "check_domain_validity returns true for every domain with an exterior boundary whose boundaries are simple polygons without common points, in any order of the edges, and only for such domains: boundaries that are not closed, cross or overlap themselves or each other, are not nested or have the wrong orientation are rejected; no domain leads to undefined behaviour.", "quantifier": "every domain, with any number of boundaries, edges, vertices and any order of insertion", "why_tests_cant": "Quantifies over all polygons and all pairs of edges; tests check one or two hand-written domains.", "anchors": ["src/algorithm/EntityChecks.h:34-98 check_domain_validity", "src/algorithm/EdgeList.h:282-303 is_traversable", "src/algorithm/EdgeList.h:402-463 intersects_self, intersects_edgelist", "src/algorithm/Edge.h:175-221 get_next_edge, get_prev_edge", "src/algorithm/MeshBuilder.h:165-180 prepare_mesh"]}
{"id": "C59", "title": "The converter to OpenFOAM makes a valid mesh of prisms", "statement": "For the text file of every conforming mesh, scripts/convert2foam.py produces an OpenFOAM mesh with one prism for each element: the points are two copies of the vertices, every face has existing vertices and an owner, interior faces come first, in upper triangular order, with a neighbour of higher number, the faces of every cell form a closed surface that is oriented outward and encloses the area of the element times the height, the patches follow each other without gaps and hold exactly the faces of one boundary marker each, the bottom and the top.", "quantifier": "every conforming mesh, every numbering and order of edges, every set of boundary markers, every height, every order of equal keys in numpy.argsort", "why_tests_cant": "There are no tests of the script; closedness and volumes quantify over all meshes, and the order of patches only fails from ten patches on.", "anchors": ["scripts/convert2foam.py:41-202 reading", "scripts/convert2foam.py:205-266 class TQMesh", "scripts/convert2foam.py:282-379 class OpenFOAMMesh", "scripts/convert2foam.py:382-450 writing", "scripts/convert2foam.py:461-494 main", "src/algorithm/Mesh.h:380-487 operator<<"]}
{"id": "C60", "title": "A triangulation reported as complete is a sound mesh for every later step", "statement": "When triangulation reports success and the validity check of the mesh passes, the mesh handed on is conforming: every interior edge is a side of exactly two elements, every boundary edge of one, boundary edges are exactly the edges of the initial front, elements are positively oriented and cover the domain. The clean up passes, triangle to quad merging and any number of refinements then succeed on it, keep it sound, keep its area equal to that of the domain and refine every boundary edge into 2^k parts.", "quantifier": "every domain, every history of front updates, every size function, every number of refinements, every order of triangle pairs", "why_tests_cant": "Quantifies over all domains and histories and over the composition of five algorithms whose preconditions are never checked by the code; tests look at a few meshes with one combination each.", "anchors": ["src/algorithm/Triangulation.h:96-114 end of generate_elements", "src/algorithm/MeshingStrategy.h:90-110 add_remaining_front_edges_to_mesh", "src/algorithm/EntityChecks.h:105-173 check_mesh_validity", "src/algorithm/MeshBuilder.h:195-257 prepare_mesh", "src/algorithm/MeshCleanup.h", "src/algorithm/ModificationStrategy.h", "src/algorithm/RefinementStrategy.h"]}
{"id": "C61", "title": "A mesh generated beside existing meshes is connected with them edge by edge", "statement": "When a mesh is prepared beside finished meshes, the neighbour edges on its boundary take the place of the edges of the domain. Afterwards twin pointers are mutual: a new boundary edge and its twin join the same two points in opposite directions and have the same colour, every pair of coinciding edges is connected, every contact between the domain and a neighbour mesh is recognised, no pointer leads to the deleted temporary front, and nothing else of the neighbour meshes changes. The finished new mesh is sound and covers its domain, and merging it with a neighbour of disjoint region never fails, happens exactly if they have a common edge, and yields a sound mesh of both regions.", "quantifier": "every domain, every number of neighbour meshes, every subdivision of the edges, every history of front updates", "why_tests_cant": "The pointers are set in three places and objects they point to are deleted in between; whether each is valid depends on all neighbour meshes and on the geometric search, and merging relies on it without a check. Tests look at a few pairs of rectangles.", "anchors": ["src/algorithm/FrontInitData.h:118-219", "src/algorithm/Front.h:319-337 mark_twin_edges", "src/algorithm/MeshBuilder.h:195-257 prepare_mesh", "src/algorithm/MeshMerger.h"]}
{"id": "C62", "title": "A meshing attempt goes on where another one has stopped", "statement": "Triangulation may be applied to a mesh that an earlier attempt has left incomplete. Building the front from the mesh and putting the remaining front back are inverse to each other, so that nothing is lost: vertices, elements and the boundary stay. After every attempt the elements are disjoint, lie in the domain, and together with the region around which the new front runs they make up the domain exactly. When the front is empty the mesh is sound, the check passes, the clean up succeeds and the area is that of the domain, however many attempts were made. A further attempt changes nothing.", "quantifier": "every simple domain, every number of attempts, every setting and history of each attempt", "why_tests_cant": "The state between two attempts is stored in facet pointers of the mesh edges; whether it is recovered depends on every edge and on the order of operations of all earlier attempts. Tests call the strategy once.", "anchors": ["src/algorithm/Triangulation.h:74-115 generate_elements", "src/algorithm/MeshingStrategy.h:56-110", "src/algorithm/Front.h:113-140 init_front", "src/algorithm/Mesh.h:190-222 get_front_edges"]}
{"id": "C63", "title": "Predefined boundary shapes are the shapes they are called after", "statement": "The rectangle, square, circle and triangle functions turn an empty boundary into a simple closed polygon whatever vertices the domain already has: every edge has the given colour, every new vertex the given size and range. The rectangle encloses exactly the box of the given centre, width and height; its area is width times height. The circle with n corners has n edges, its interior lies in the disc of the given radius and contains the disc that is smaller by the sagitta, and its area is that of the disc up to O(1/n^2), in spite of rounding errors of the cosines and sines. The triangle is equilateral with the given side length. An exterior boundary runs counter-clockwise around the shape, an interior one clockwise. A boundary that has edges is not changed. Shapes that enclose nothing are rejected.", "quantifier": "every centre, every positive extent, every number of corners n >= 3, every rounding error e of cosine and sine with e*n^3 <= 1, every set of existing vertices, both boundary types", "why_tests_cant": "Tests build a few shapes with fixed parameters; that the polygon is convex, winds exactly once around each interior point and keeps doing so under rounding is a statement about all points, all n and all perturbations.", "anchors": ["src/algorithm/Boundary.h:230-247 set_shape_square, set_shape_triangle", "src/algorithm/Boundary.h:252-277 set_shape_rectangle", "src/algorithm/Boundary.h:282-307 set_shape_circle", "src/algorithm/Boundary.h:315-369 create_boundary_shape"]}
{"id": "C64", "title": "The application builds the domain that the parameter file describes", "statement": "The exterior boundary and the interior boundaries that a mesh block defines - by edges between vertices of the file, by coordinates, as rectangle, circle, square or triangle or from a CSV file - become one boundary each, with the colours of the file, the exterior one counter-clockwise and the interior ones clockwise. If the polygons are properly nested, the domain is exactly the region inside the outer polygon and outside the holes: this is what its boundaries wind around, what the inside test finds and what the area counts, the check of the domain accepts it and it satisfies the hypotheses of the meshing theorems. A rectangular plate with round holes is properly nested if the discs are in the rectangle and do not touch. The vertices of the file keep their numbers. Every definition in the file has an effect or leads to an error; so does every line of quad layers. Definitions with missing values or negative colours are rejected.", "quantifier": "every list of definitions, every properly nested family of polygons, every number of round holes with any number of corners and every rounding error e of cosine and sine with e*n^3 <= 1, every set of vertices that exist before", "why_tests_cant": "Tests read a few files and look at single meshes; that the domain is the described region is a statement about all points of the plane for all nested families, and the silent loss of definitions depends on combinations of kinds and malformed lines.", "anchors": ["src/app/TQMeshApp.h:308-341 init_quad_layers", "src/app/TQMeshApp.h:411-575 init_interior_boundaries", "src/app/TQMeshApp.h:580-760 init_exterior_boundary", "src/algorithm/Boundary.h:201-307 set_shape_*", "src/algorithm/Boundary.h:315-369 create_boundary_shape", "src/algorithm/EntityChecks.h:34-98 check_domain_validity"]}
{"id": "C65", "title": "The mesh fills the region that the parameter file describes", "statement": "If a parameter file describes properly nested polygons and the triangulation on them ends with an empty front, then the triangle mesh, the quad mesh made of it by tri2quad, every refinement of it and every smoothed triangle mesh are sound, cover together exactly the area of the outer polygon minus the holes, have elements that do not overlap, cover every point inside the outer polygon and outside the holes and reach nowhere beyond; the boundary edges lie along the described sides and carry a colour that the file gives for that polygon. For a rectangular plate with round holes the covered area is that of the plate without the discs up to the error of the polygons, and no element reaches into the discs reduced by this error.", "quantifier": "every parameter file with properly nested polygons, every set of fixed edges and vertices, every splitting of edges by the size function, every history of the advancing front that ends with an empty front, every number of refinements and every smoothing setting", "why_tests_cant": "Tests compare areas of a few example meshes; that no two elements overlap, no gap is left and nothing reaches beyond the region are statements about all points of the plane for all inputs.", "anchors": ["src/app/TQMeshApp.h:411-760 init_interior_boundaries, init_exterior_boundary", "src/algorithm/FrontInitData.h:123-137 collect_front_edges", "src/algorithm/Triangulation.h generate_elements", "src/algorithm/ModificationStrategy.h:61-207 Tri2QuadModification", "src/algorithm/MeshCleanup.h clear_double_quad_edges, clear_double_triangle_edges", "src/algorithm/RefinementStrategy.h", "src/algorithm/SmoothingStrategy.h"]}
{"id": "C66", "title": "Smoothing moves a vertex to the middle of its neighbours", "statement": "The neighbours used for a vertex are the vertices at the other ends of its edges. Laplace smoothing moves an interior vertex towards their mean: with a step size between 0 and 1 no vertex leaves the convex hull of the mesh, and each accepted step of each iteration brings the vertex closer to the mean. Torsion smoothing leaves a vertex in place whose edges make equal angles.", "quantifier": "every mesh of triangles and quads, every interior vertex, every step size, every angle factor and every choice of angle, cosine and sine functions with their elementary laws", "why_tests_cant": "The tests smooth one or two meshes and compare nothing with the rule of the algorithm; that every neighbour is entered twice, or that every second iteration goes backwards, does not make a test of the mesh fail.", "anchors": ["src/algorithm/SmoothingStrategy.h:115-157 init_vertex_connectivity", "src/algorithm/SmoothingStrategy.h:382-390 smoothing_loop", "src/algorithm/SmoothingStrategy.h:462-477 LaplaceSmoothing::compute_displacement", "src/algorithm/SmoothingStrategy.h:546-582 TorsionSmoothing::compute_displacement", "src/algorithm/SmoothingStrategy.h:623-655 MixedSmoothing::smooth"]}
{"id": "C67", "title": "The application takes from a parameter file what stands in it", "statement": "For a parameter file that is a sequence of mesh blocks, each with lines of the documented forms in any order, the application reads for every block exactly the values that its lines give: texts, numbers, flags, vertices, edges, boundaries and quad layers, with the documented default where a line is missing. The domain, and with it the mesh, is the one that the lines describe.", "quantifier": "every text, every number of blocks, every order of the lines and comments, every file behind a CSV boundary and every conversion of numbers", "why_tests_cant": "The tests of the reader read one file with known contents; that no line is lost, read twice or attributed to another block or parameter for any order of lines and any number of blocks is a statement about all texts.", "anchors": ["src/utils/ParaReader.h:570-598 query", "src/utils/ParaReader.h:903-913 string_to_single_value", "src/app/TQMeshApp.h:94-126 construct_mesh", "src/app/TQMeshApp.h:856-873 query_mandatory_parameters", "src/app/TQMeshApp.h:928-958 run", "src/app/TQMeshApp.h:975-1078 init_parameter_file_reader"]}
{"id": "C68", "title": "Quad layers and triangulations together give a sound mixed mesh", "statement": "Quad layers may be generated before or between triangulations, in any number and order. No stage loses or moves a vertex, an element or a boundary edge. After every stage the quads and triangles are disjoint, lie in the domain, and together with the region inside of the front that is left they make up the domain exactly; the area that the mesh keeps is their sum. When the front is empty the mixed mesh is sound, passes the check, has the area and the boundary of the domain, and the clean up succeeds.", "quantifier": "every simple domain, every number and order of layer and triangulation stages, every height, growth rate and number of layers, every setting and history of each triangulation", "why_tests_cant": "The layer code changes the front in ways the triangulation does not (quads, wedges, closing triangles), and the next stage recovers its front from facet pointers only. Whether the two fit depends on every edge and every order of stages. The tests count elements of a few meshes.", "anchors": ["src/algorithm/QuadLayering.h:584-618 generate_elements", "src/algorithm/QuadLayering.h:620-760", "src/algorithm/Triangulation.h:74-115 generate_elements", "src/algorithm/MeshingStrategy.h:56-110", "src/algorithm/Front.h:113-140 init_front"]}
{"id": "C69", "title": "Vertices are searched in squares that hold them", "statement": "The boundary vertices of a domain and the vertices of a mesh lie in the square of the quadtree in which they are searched, so that every search is defined and finds an existing vertex at its place. With the real container, a parameter file gives the domain of its lines without two vertices at one place, and the start of every triangulation lies in the square of the mesh.", "quantifier": "every parameter file, every boundary, every position and size of shapes, every square and every number of vertices", "why_tests_cant": "The square is estimated from some of the data only, and a search outside of it dereferences a null pointer. The tests use data around the origin for which the estimate is large enough.", "anchors": ["src/app/TQMeshApp.h:765-796 init_domain", "src/app/TQMeshApp.h:803-850", "src/algorithm/Boundary.h:325-352 create_boundary_shape", "src/utils/QuadTree.h:178-215 get_nearest", "src/algorithm/MeshBuilder.h:74-117 create_empty_mesh", "src/algorithm/Domain.h:274-277"]}
{"id": "C70", "title": "Vectors obey the laws of a Euclidean space", "statement": "The operations of VecND work entry by entry and obey the laws of a vector space for every number of entries; the compound assignments give what the operators give, whatever their operand is. The inner product is bilinear, symmetric and positive, norm and inner product satisfy the inequalities of Cauchy and Schwarz and of the triangle, the angle of two vectors is defined whenever both are non-zero without cutting off its cosine, and the cross products are antisymmetric, orthogonal to their factors and satisfy the identity of Lagrange. Two vectors compare equal exactly if their entries are equal.", "quantifier": "every number of entries, all vectors and scalars, every operand of a compound assignment including the vector itself and its own entries", "why_tests_cant": "The tests evaluate each operator once for one or two vectors of fixed length; inequalities hold for all vectors or not at all, and an operand that refers to the changed vector itself is never tried.", "anchors": ["src/utils/VecND.h:63-130", "src/utils/VecND.h:150-224 compound assignments", "src/utils/VecND.h:230-275", "src/utils/VecND.h:281-309", "src/utils/VecND.h:341-518"]}
{"id": "C71", "title": "The stored angles are the angles of the element", "statement": "For a triangle that is not flat the three stored angles are numbers between 0 and pi that add up to pi, each is the turn between its two sides, and the larger one lies opposite of the longer side. For a quad the four stored angles are the turns between its sides and add up to two pi. The limit on the largest angle refuses exactly the triangles with a larger angle.", "quantifier": "all triangles of non-zero area, all quads, all limits", "why_tests_cant": "The tests compare the angles of one right triangle and one square with known values; a corner of more than 180 degrees and the sum of the angles of all shapes are not looked at.", "anchors": ["src/algorithm/FacetGeometry.h:89-108 TriangleGeometry::calc_angles", "src/algorithm/FacetGeometry.h:412-434 QuadGeometry::calc_angles", "src/algorithm/Triangle.h:293-300 update_metrics", "src/algorithm/Quad.h:319-327 update_metrics", "src/algorithm/FrontUpdate.h:358 triangle_is_valid", "src/algorithm/MeshWriter.h:149-170"]}
{"id": "C72", "title": "Editing a domain leaves no pointers to objects that are gone", "statement": "After any sequence of calls that add and remove vertices, fixed vertices, boundaries, edges and fixed edges of a domain, naming only objects the domain has: every edge joins two vertices of the domain, every vertex knows exactly the edges that end in it, every edge knows its list, every fixed vertex is a vertex of the domain, and no call and no later check or mesh preparation reads memory that was freed.", "quantifier": "all sequences of editing operations of Domain and Boundary that name existing objects", "why_tests_cant": "The tests build a domain once and never take anything away again; a dangling pointer usually reads old data without a visible failure, and the order of operations that leads to one has to be found among all sequences.", "anchors": ["src/algorithm/Domain.h:289-335 insert_boundary, remove_boundary, operator[]", "src/algorithm/Domain.h:396-458 add_vertex .. remove_fixed_edge", "src/algorithm/EdgeList.h:109-173 insert_edge, remove, clear_edges", "src/algorithm/Boundary.h:170-195 insert_edge, add_edge", "src/algorithm/Edge.h:98-117 Edge", "src/algorithm/Edge.h:175-193 get_next_edge", "src/algorithm/Edge.h:250-257 container_destructor", "src/utils/Container.h:140-215 insert, remove, clear_waste", "src/algorithm/EntityChecks.h:62-71 check_domain_validity", "src/algorithm/MeshBuilder.h:209-222 prepare_mesh"]}
{"id": "C73", "title": "An element that overlaps another one is reported", "statement": "check_intersection of a triangle or a quad with the triangles and quads of a container returns true whenever the inside of the element has a point in common with the inside of an active element of the container, whatever their size and position, and returns false if no two elements overlap and no corner lies on a side of another element.", "quantifier": "all pairs of convex elements with positive area, all containers and ranges", "why_tests_cant": "The tests try a handful of element pairs; the missed pairs are those where all contacts are in shared corners, which have to be found among a continuum of positions.", "anchors": ["src/algorithm/FacetGeometry.h:212-335 TriangleGeometry::check_intersection", "src/algorithm/FacetGeometry.h:534-660 QuadGeometry::check_intersection", "src/utils/Geometry.h:222-364 tri_tri_intersection, tri_quad_intersection, quad_quad_intersection", "src/algorithm/FrontUpdate.h:326-378 triangle_is_valid"]}
{"id": "C74", "title": "What is near is found", "statement": "The searches in the neighbourhood of a vertex, an element or an edge miss nothing: a vertex closer to a mesh edge than the limit is reported, a vertex or new coordinate inside an element it does not belong to is reported, an edge of the front that crosses a new element or comes too close to it is reported, and all edges that two domains have in common are counted, each pair once. Nothing else is reported.", "quantifier": "all positions of the vertex, all elements, edges, ranges and limits", "why_tests_cant": "The searches ask for midpoints and centroids in a circle; whether this suffices depends on lengths, positions and ranges together, and the tests only use meshes with edges of about the size of the range.", "anchors": ["src/algorithm/Vertex.h:184-230 intersects_facet, intersects_mesh_edges", "src/algorithm/SmoothingStrategy.h:177-213 check_coordinate", "src/algorithm/Domain.h:240-252 get_boundary_edges, 359-391 count_edge_overlaps", "src/algorithm/FacetGeometry.h:289-308, 612-632 check_intersection with the front", "src/algorithm/FacetGeometry.h:666-703 is_too_close"]}
{"id": "C75", "title": "The small utility classes keep what they are given", "statement": "A matrix has at any time as many entries as its rows and columns say, every place within them can be read and written without touching another one, swapping exchanges two matrices, moving and assigning leave both usable and resizing keeps the entries at their places. The progress bar shows each new highest value once, in a bar of its width filled in proportion. Splitting a text and joining the items gives the text back. The timer gives a difference for each two consecutive points of time and throws otherwise.", "quantifier": "all programs over matrices of any size, all sequences of progress values, all texts and delimiters, all indices", "why_tests_cant": "Tests swap and resize a few matrices and look at the entries they have set; the numbers of rows and columns of the other matrix, entries at all places and texts that end with the delimiter are not looked at.", "anchors": ["src/utils/Matrix.h:22-130", "src/utils/ProgressBar.h:20-72", "src/algorithm/MeshingStrategy.h:114-121 update_progress_bar", "src/utils/StringOps.h:23-57 split", "src/utils/Timer.h:18-62"]}
