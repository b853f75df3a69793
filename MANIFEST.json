{
 "claims": [
  {
   "property": "C01",
   "status": "partial",
   "theorems": [
    "C01_rect_query_partial",
    "generic_histories_are_safe",
    "C01_C02_query_after_update_refuted"
   ],
   "note": "As stated FALSE: C01_C02_query_after_update_refuted (an item updated onto a bucket border and updated again becomes invisible). C01_rect_query_partial proves exactness for every history in which no item tied to a foreign bucket is touched again; generic_histories_are_safe shows that all histories without updates onto a bucket border are covered."
  },
  {
   "property": "C02",
   "status": "partial",
   "theorems": [
    "C02_circle_query_partial",
    "generic_histories_are_safe",
    "C01_C02_query_after_update_refuted"
   ],
   "note": "Same restriction and same counterexample as C01."
  },
  {
   "property": "C03",
   "status": "partial",
   "theorems": [
    "C03_nearest_partial",
    "C03_nearest_refuted"
   ],
   "note": "As stated FALSE: C03_nearest_refuted (no item is returned although the container is not empty). C03_nearest_partial: any answer is a nearest item, and no answer is given exactly if all items are at least two bucket widths away."
  },
  {
   "property": "C04",
   "status": "partial",
   "theorems": [
    "C04_size_is_pushes_minus_removes",
    "C04_tree_balance_partial",
    "C04_C05_remove_after_update_refuted"
   ],
   "note": "Size part proved for every history. The remaining parts are false for histories with tied items (C04_C05_remove_after_update_refuted) and proved for all other histories."
  },
  {
   "property": "C05",
   "status": "partial",
   "theorems": [
    "C05_update_partial",
    "C04_C05_remove_after_update_refuted"
   ],
   "note": "As stated FALSE: C04_C05_remove_after_update_refuted. C05_update_partial proves it for items not tied before; the removal part needs that the update itself does not tie the item."
  },
  {
   "property": "C06",
   "status": "proved",
   "theorems": [
    "C06_outside_items"
   ],
   "note": "For every history."
  },
  {
   "property": "C07",
   "status": "proved",
   "theorems": [
    "C07_flags_independent",
    "C07_add_remove_has",
    "C07_other_flags_kept",
    "C07_add_order_irrelevant",
    "C07_stays_a_byte",
    "C07_named_flags_disjoint"
   ],
   "note": "Per-bit evolution over every operation history."
  },
  {
   "property": "C08",
   "status": "proved",
   "theorems": [
    "C08_orientation_exact",
    "C08_orientation_laws"
   ],
   "note": "Exact rationals instead of doubles."
  },
  {
   "property": "C09",
   "status": "proved",
   "theorems": [
    "C09_crossing_sound",
    "C09_crossing_exact",
    "C09_crossing_symmetric",
    "C09_intersection_covers_crossing",
    "C09_intersection_exact",
    "C09_tri_tri_every_side",
    "C09_tri_quad_every_side",
    "C09_quad_quad_every_side",
    "C09_nested_elements_conflict",
    "C09_segment_overlap"
   ],
   "note": "Exact rationals instead of doubles."
  },
  {
   "property": "C10",
   "status": "proved",
   "theorems": [
    "C10_distance"
   ],
   "note": "Exact rationals instead of doubles."
  },
  {
   "property": "C11",
   "status": "proved",
   "theorems": [
    "C11_in_triangle_sound",
    "C11_in_on_triangle_complete",
    "C11_in_triangle_complete",
    "C11_rotation",
    "C11_in_quad_sound",
    "C11_in_on_quad_complete",
    "C11_in_on_triangle_sound_refuted"
   ],
   "note": "All claims hold; additional finding: in_on_triangle accepts far points for tiny triangles (refuted converse)."
  },
  {
   "property": "C12",
   "status": "proved",
   "theorems": [
    "C12_polygon_area",
    "C12_triangle_and_quad",
    "C12_insert_point_on_edge"
   ],
   "note": "Exact rationals instead of doubles."
  },
  {
   "property": "C13",
   "status": "partial",
   "theorems": [
    "C13_circumcenter",
    "C13_circumcenter_unique",
    "C13_areas",
    "C13_shape_factor_half",
    "C13_shape_factor_one_refuted",
    "C13_shape_factor_sign",
    "C13_quad_shape_factor",
    "C13_quality",
    "C13_validity"
   ],
   "note": "Circumcentre and areas hold; the documented shape factor range is FALSE (C13_shape_factor_one_refuted): every triangle has a factor of at most 1/2 (C13_shape_factor_half)."
  },
  {
   "property": "C14",
   "status": "partial",
   "theorems": [
    "C14_replaced_by_two",
    "C14_sequence_of_splits",
    "C14_position_refuted",
    "C14_position_partial",
    "C14_stored_area_refuted",
    "C14_stored_area_partial"
   ],
   "note": "As stated FALSE in two points: the new vertex lies at 1-s from v1, not s (C14_position_refuted), and the cached area() is wrong after a split because it is recomputed before the old edge is removed (C14_stored_area_refuted). What remains is proved for all lists and sequences of splits: replacement by two consecutive edges with colour and properties kept, order, closedness and enclosed area unchanged; C14_position_partial and C14_stored_area_partial say what position and cached area are instead."
  },
  {
   "property": "C15",
   "status": "proved",
   "theorems": [
    "C15_closed_chain",
    "C15_oriented"
   ],
   "note": "For every search structure used to find existing vertices; areas are exact rationals."
  },
  {
   "property": "C16",
   "status": "partial",
   "theorems": [
    "C16_colours_refuted",
    "C16_colours_partial"
   ],
   "note": "As stated FALSE: when the listing is turned around, the edge between points i and i+1 gets colour i+1 (C16_colours_refuted). C16_colours_partial gives the exact colour of every edge in both cases."
  },
  {
   "property": "C17",
   "status": "partial",
   "theorems": [
    "C17_start_edge_irrelevant",
    "C17_triangle",
    "C17_rectangle_inside",
    "C17_rectangle_outside",
    "C17_polygon",
    "C17_outside_box_refuted",
    "C17_outside_box_partial",
    "C17_winding",
    "C17_simple",
    "C17_domain"
   ],
   "note": "As stated FALSE: a point one half ulp below the bounding box is inside because EQ() has a relative tolerance (C17_outside_box_refuted). Everything else holds wherever that tolerance plays no role (exact_rows); C17_polygon extends the claim from triangles and rectangles to all polygons. C17_winding, C17_simple, C17_domain: for every closed curve and every point not on it the answer is the parity of the winding number; the domain test finds the points that the boundaries wind around once in total."
  },
  {
   "property": "C18",
   "status": "partial",
   "theorems": [
    "C18_inside",
    "C18_area",
    "C18_extent_refuted",
    "C18_extent_partial"
   ],
   "note": "Inside test and area proved. Extent as stated FALSE: the box always contains the origin (C18_extent_refuted); C18_extent_partial: it contains all vertices and is tight if the vertices surround the origin."
  },
  {
   "property": "C19",
   "status": "proved",
   "theorems": [
    "C19_positive",
    "C19_not_above_user_size",
    "C19_at_boundary_vertex",
    "C19_at_fixed_vertex",
    "C19_not_below_all",
    "C19_user_size_checked",
    "C19_order_irrelevant"
   ],
   "note": "Over the real numbers of the standard library (exp, sqrt). Edge lengths must be positive for positivity."
  },
  {
   "property": "C20",
   "status": "proved",
   "theorems": [
    "C20_every_value_once_in_order",
    "C20_grid_order"
   ],
   "note": "The lines written by export_size_function as lists of values."
  },
  {
   "property": "C21",
   "status": "partial",
   "theorems": [
    "C21_edges",
    "C21_vertices",
    "C21_neighbours",
    "C21_closed_refuted",
    "C21_start_partial",
    "C21_area_partial"
   ],
   "note": "Edges, orientation, colours and unique vertices: proved (C21_edges, C21_vertices, C21_neighbours). 'Closed boundaries give a closed front' is FALSE as stated: C21_closed_refuted (neighbour edges covering a boundary edge only in part leave a gap). C21_start_partial and C21_area_partial prove it when neighbour edges cover their boundary edge, within the square of side 10000 of the front's quadtree."
  },
  {
   "property": "C22",
   "status": "partial",
   "theorems": [
    "C22_stale_refuted",
    "C22_inside_refuted",
    "C22_chains_partial",
    "C22_area_partial",
    "C22_closed_partial",
    "C22_on_line",
    "C22_terminates",
    "C22_inside_partial"
   ],
   "note": "As stated FALSE: C22_stale_refuted (edges with a midpoint outside [-5000,5000]^2 are not removed) and C22_inside_refuted (steep size functions put vertices outside the edge). C22_chains_partial, C22_area_partial, C22_closed_partial prove chains, area and closedness inside that square for every list of sub vertices on the line; C22_inside_partial proves strictly inside and ordered when the size function varies by a factor below 3/2. In exact arithmetic."
  },
  {
   "property": "C23",
   "status": "partial",
   "theorems": [
    "C23_refuted",
    "C23_front_closed_partial",
    "C23_parity_partial",
    "C23_expected_edges_partial"
   ],
   "note": "As stated FALSE: C23_refuted (a slit: the look-up of a front edge ignores its direction and removes the wrong one). C23_front_closed_partial: closed after every history in which the front edges met by accepted triangles have the expected direction and all coordinates lie in the square of the front; C23_parity_partial: parity of the number of front edges at each vertex without the direction assumption; C23_expected_edges_partial: the direction assumption follows from the validity tests where entering and leaving edges alternate around the vertices. The assumption on the accepted triangles follows from the tests of the code under the conditions of C57 (C57_history_partial)."
  },
  {
   "property": "C24",
   "status": "partial",
   "theorems": [
    "C24_refuted",
    "C24_area_conserved_partial",
    "C24_covered_partial",
    "C24_reported_area",
    "C24_positive"
   ],
   "note": "As stated FALSE: C24_refuted (front edges with midpoint beyond +-5000 are never removed). C24_area_conserved_partial and C24_covered_partial assume coordinates inside the square of the front and expected edge directions; C24_reported_area and C24_positive hold for every history. The assumption on the accepted triangles follows from the tests of the code under the conditions of C57 (C57_conform_partial)."
  },
  {
   "property": "C25",
   "status": "partial",
   "theorems": [
    "C25_edge_balance_partial",
    "C25_cancel_partial",
    "C25_conform_partial",
    "C25_side_free_partial",
    "C25_apart_partial"
   ],
   "note": "Edge balance for every history; conformity of the finished mesh if no accepted triangle repeats a directed side; that a valid triangle does not repeat a side is derived from the overlap tests for triangles found by the search. Missing: disjoint interiors from the pairwise tests. The assumption on the accepted triangles follows from the tests of the code under the conditions of C57 (C57_conform_partial)."
  },
  {
   "property": "C26",
   "status": "partial",
   "theorems": [
    "C26_refuted",
    "C26_no_trace_partial",
    "C26_exhaustive_no_trace"
   ],
   "note": "As stated FALSE: C26_refuted (a rejected new vertex outside the square of the mesh stays in the mesh). C26_no_trace_partial: no trace if the new vertex lies in the square; C26_exhaustive_no_trace: exhaustive search leaves no trace."
  },
  {
   "property": "C27",
   "status": "partial",
   "theorems": [
    "C27_limit_refuted",
    "C27_failure_refuted",
    "C27_complete_mesh_refuted",
    "C27_terminates_partial",
    "C27_success_partial",
    "C27_failure_partial"
   ],
   "note": "As stated FALSE: C27_limit_refuted (limit truncated to int), C27_failure_refuted (advancing step not retried after the exhaustive search), C27_complete_mesh_refuted (null base edge). For limits below 2^31 and a front with edges: C27_terminates_partial, C27_success_partial (at most n elements, success means empty front or n elements, the run is a history of front updates) and C27_failure_partial (wide search failed for all edges of the front when the exhaustive search started, exhaustive search failed for all edges at the end), for arbitrary geometric tests."
  },
  {
   "property": "C28",
   "status": "proved",
   "theorems": [
    "C28_vertex_indices",
    "C28_element_indices",
    "C28_vtu_faithful",
    "C28_vtu_types",
    "C28_vtu_connectivity",
    "C28_vtu_offsets"
   ],
   "note": "Index assignment and all VTU arrays; the arrays decode to exactly the cells of the mesh. Hypotheses: vertices/elements are distinct objects and the corners of elements are mesh vertices. unsigned int overflow is not modelled."
  },
  {
   "property": "C29",
   "status": "proved",
   "theorems": [
    "C29_partition",
    "C29_exactly_one",
    "C29_interface"
   ],
   "note": "The three lists are together a permutation of the mesh edges (every mesh); with distinct edge objects each edge is in exactly one."
  },
  {
   "property": "C30",
   "status": "proved",
   "theorems": [
    "C30_neighbour",
    "C30_symmetric",
    "C30_boundary",
    "C30_again",
    "C30_edge_facets_partial",
    "C30_edge_facets_refuted"
   ],
   "note": "Neighbour pointers of elements: proved for every conforming mesh whose boundary sides have no stale neighbour (holds for new elements, preserved by C30_again). The facet pointers of the edges, which the statement does not mention, are right only if the centroid of every element is left of its sides (C30_edge_facets_partial); for concave quads they are wrong (C30_edge_facets_refuted)."
  },
  {
   "property": "C31",
   "status": "partial",
   "theorems": [
    "C31_refuted",
    "C31_refined_closed",
    "C31_counts_partial",
    "C31_preserved_partial",
    "C31_area_partial",
    "C31_boundary_partial",
    "C31_interior_unmarked_partial",
    "C31_convex_partial",
    "C31_repeated_partial",
    "C31_interface"
   ],
   "note": "As stated FALSE: C31_refuted (edge lists keep the quadtree scale 10000: edges with midpoint outside +-5000 stay in the refined mesh). For meshes whose vertices lie in both quadtree squares, counts, conformity, area, per colour area, halved boundary with colours, marks, convexity and any number of repetitions are proved; the unchanged mesh with interface edges is proved without restriction."
  },
  {
   "property": "C32",
   "status": "partial",
   "theorems": [
    "C32_merge_partial",
    "C32_tri2quad_partial",
    "C32_colour_partial",
    "C32_order",
    "C32_colour_refuted",
    "C32_cleanup_colour_refuted",
    "C32_concave_refuted",
    "C32_apart_refuted",
    "C32_dangling_refuted"
   ],
   "note": "As stated FALSE: colours are lost (C32_colour_refuted, C32_cleanup_colour_refuted). Proved for every sound mesh whose triangles are not tiny: no undefined behaviour, area, boundary and conformity kept, every new quad is exactly two triangles without their common side, every triangle is used at most once, no two triangles with a common side are left by the merge loop, colours kept when neighbours have equal colours. Also refuted: quads are convex, no adjacent triangles after the final cleanup, no read of a deleted element."
  },
  {
   "property": "C33",
   "status": "partial",
   "theorems": [
    "C33_double_quads_partial",
    "C33_double_tris_partial",
    "C33_quads_repeated",
    "C33_tris_repeated",
    "C33_degenerate_partial",
    "C33_cleanup_partial",
    "C33_colour_refuted",
    "C33_fixed_refuted",
    "C33_left_refuted",
    "C33_ring_left_refuted",
    "C33_tiny_refuted"
   ],
   "note": "As stated FALSE: C33_colour_refuted, C33_fixed_refuted, C33_left_refuted, C33_ring_left_refuted and C33_tiny_refuted. The _partial theorems prove what remains for every sound mesh: each pass succeeds and keeps conformity, area, boundary, positive areas and boundary vertices; a pass that changes nothing leaves no doubled pair and repeating it gets there; merge_degenerate_triangles (no triangle below the orientation tolerance) also keeps colours and fixed vertices and removes exactly the unfixed centres of three triangles of one colour."
  },
  {
   "property": "C34",
   "status": "partial",
   "theorems": [
    "C34_returns_refuted",
    "C34_area_refuted",
    "C34_merge_reports",
    "C34_merge_partial",
    "C34_colour_partial",
    "C34_marks",
    "C34_neighbours",
    "C34_generator"
   ],
   "note": "As stated FALSE: C34_returns_refuted (merge_meshes returns true although the meshes do not touch and nothing is merged) and C34_area_refuted (the stored area of the merged mesh stays the area of the receiver). For valid meshes that lie side by side: C34_merge_reports (MeshMerger reports exactly whether an interface edge exists and otherwise only sets facet pointers), C34_merge_partial (the merged mesh is valid, covers both areas, holds all elements of both, vertices = sum minus shared, interface edges become interior edges, the other boundary edges stay), C34_colour_partial (area per colour kept when donor colours are set), C34_marks (boundary marks), C34_neighbours (twin pointers of third meshes), C34_generator (donor removed, others kept)."
  },
  {
   "property": "C35",
   "status": "partial",
   "theorems": [
    "C35_moves",
    "C35_triangles",
    "C35_quads_partial",
    "C35_area",
    "C35_defined",
    "C35_sound",
    "C35_triangle_mesh",
    "C35_convex_refuted"
   ],
   "note": "As stated FALSE for quads: C35_convex_refuted (only two corners of a quad are checked, so a strictly convex quad becomes concave). Proved for every displacement rule and every schedule of steps: only vertices that may move are moved and only to positions inside the domain, connectivity, colours and flags stay, counter-clockwise triangles stay counter-clockwise, the covered area is unchanged, the run is defined on sound meshes, triangle meshes stay sound. C35_quads_partial gives the two protected corners of quads."
  },
  {
   "property": "C36",
   "status": "partial",
   "theorems": [
    "C36_refuted",
    "C36_directions_zero",
    "C36_projection_partial"
   ],
   "note": "As stated FALSE: C36_refuted. The directions are pushed back behind a list of zero vectors, so the direction that is read for a vertex is always zero (C36_directions_zero). C36_projection_partial: with a unit direction at the right place the displacement has no component along it."
  },
  {
   "property": "C37",
   "status": "partial",
   "theorems": [
    "C37_refuted",
    "C37_base_edges_partial",
    "C37_only_route",
    "C37_found",
    "C37_heights",
    "C37_projection",
    "C37_mitre",
    "C37_growth"
   ],
   "note": "As stated FALSE: C37_refuted (start and end joined by one edge: the layer runs around the whole front and has that edge twice). C37_base_edges_partial proves the path property for every other case (open and closed layers), C37_only_route that no other path exists on fronts without branching vertices, C37_found that the layer is started whenever the path exists; C37_heights 0 < h <= requested for all base edges, C37_projection / C37_mitre what the heights mean geometrically, C37_growth the requested heights of all layers."
  },
  {
   "property": "C38",
   "status": "partial",
   "theorems": [
    "C38_refuted",
    "C38_stale_refuted",
    "C38_check_partial",
    "C38_extent",
    "C38_covered",
    "C38_two_elements",
    "C38_accepts"
   ],
   "note": "As stated FALSE: C38_refuted (the box used by the check also contains the origin, so for a small domain away from the origin a mesh of half the domain is reported complete) and C38_stale_refuted (an old facet pointer hides an interior edge with one element). C38_check_partial proves what a positive answer guarantees, C38_covered the stated area condition for domains around the origin with a correct area counter, C38_two_elements both sides of interior edges if no pointer was set before, C38_accepts that every conforming mesh of the right area is accepted."
  },
  {
   "property": "C39",
   "status": "partial",
   "theorems": [
    "C39_refuted",
    "C39_removed_refuted",
    "C39_category_refuted",
    "C39_bound",
    "C39_settings_partial",
    "C39_unknown_partial",
    "C39_registered_partial"
   ],
   "note": "As stated FALSE: C39_refuted (the memory of a merged mesh reused for a new mesh: the accessor returns the old object with the old domain and settings), C39_removed_refuted, and C39_category_refuted (kinds of different categories do not reset each other). C39_settings_partial proves kind, mesh, domain and settings for every call history without address reuse, read per category. C39_registered_partial: without address reuse exactly the meshes made and not merged away are registered, each with its domain."
  },
  {
   "property": "C40",
   "status": "partial",
   "theorems": [
    "C40_enumeration",
    "C40_scalar",
    "C40_scalar_end",
    "C40_vector",
    "C40_vector_short",
    "C40_local",
    "C40_blocks",
    "C40_block_parameters",
    "C40_content",
    "C40_refuted",
    "C40_comment_refuted",
    "C40_substring_refuted",
    "C40_nested_refuted",
    "C40_unqueried_refuted"
   ],
   "note": "As stated FALSE: C40_refuted (a value that cannot be converted makes the query fail although later lines with the key follow), C40_comment_refuted (a key inside a trailing comment wins), C40_nested_refuted and C40_unqueried_refuted (lines outside the block are read). C40_enumeration, C40_scalar, C40_scalar_end, C40_vector, C40_local, C40_blocks, C40_block_parameters and C40_content prove what remains: lines found in file order, each once, value read from behind the last occurrence of the key, independence of everything outside the searched range."
  },
  {
   "property": "C41",
   "status": "partial",
   "theorems": [
    "C41_partial",
    "C41_default",
    "C41_total",
    "C41_refuted",
    "C41_entry_refuted",
    "C41_empty_refuted",
    "C41_range_refuted"
   ],
   "note": "As stated FALSE: C41_refuted (ragged rows are reshaped if the total number of values is a multiple of n), C41_entry_refuted (unconvertible entries are skipped and later values shift), C41_empty_refuted, C41_range_refuted. C41_partial, C41_default: a matrix whose rows all have n values is read with its shape; C41_total: what an accepted matrix contains."
  },
  {
   "property": "C42",
   "status": "partial",
   "theorems": [
    "C42_interior",
    "C42_exterior_partial",
    "C42_exterior_reject_partial",
    "C42_fixed",
    "C42_exterior_last",
    "C42_refuted",
    "C42_colour_refuted"
   ],
   "note": "As stated FALSE: C42_refuted, C42_exterior_last (index equal to the number of vertices passes the check of the exterior boundary and is undefined behaviour). C42_interior and C42_fixed prove the claim for interior boundaries and fixed edges; C42_exterior_partial and C42_exterior_reject_partial for the exterior boundary and all other indices. C42_colour_refuted: negative boundary colours are accepted."
  },
  {
   "property": "C43",
   "status": "proved",
   "theorems": [
    "C43_generated",
    "C43_new_mesh",
    "C43_refinement",
    "C43_refinement_exact",
    "C43_smoothing",
    "C43_merging",
    "C43_history"
   ],
   "note": "Triangulations and quad layers in any order on a new mesh give every element the absolute value of the colour (the smallest int is undefined behaviour in ABS and excluded: C43_new_mesh). Refinement, smoothing and merging keep colours without any assumption on the meshes (C43_refinement, C43_smoothing, C43_merging, C43_history); exact numbers in C43_refinement_exact."
  },
  {
   "property": "C44",
   "status": "partial",
   "theorems": [
    "C44_MOD",
    "C44_argsort",
    "C44_CLAMP",
    "C44_EQ",
    "C44_sum_refuted",
    "C44_sum_partial",
    "C44_is_zero_exact"
   ],
   "note": "MOD, argsort proved; VecND::sum FALSE (C44_sum_refuted: int accumulator), exact for integer entries only (C44_sum_partial)."
  },
  {
   "property": "C45",
   "status": "partial",
   "theorems": [
    "C45_one_entry_per_line",
    "C45_bad_line_is_an_error",
    "C45_never_undefined",
    "C45_lines",
    "C45_last_line",
    "C45_trailing_text_refuted",
    "C45_numbers",
    "C45_no_number"
   ],
   "note": "Proved for every file content with 'malformed' as the reader defines it (fewer than two cells, a cell std::stod/std::stoi rejects, missing or negative colour). C45_numbers and C45_no_number prove which texts std::stoi reads as which number. With a stricter meaning FALSE: text after a number is dropped silently (C45_trailing_text_refuted). std::stod is an oracle."
  },
  {
   "property": "C46",
   "status": "partial",
   "theorems": [
    "C46_intersection_complete_refuted",
    "C46_intersection_small_partial",
    "C46_touching_point_found"
   ],
   "note": "As stated FALSE: C46_intersection_complete_refuted; holds when all four side tests are decisive or all are within tolerance."
  },
  {
   "property": "C47",
   "status": "partial",
   "theorems": [
    "C47_edgelist_complete_refuted",
    "C47_self_complete_refuted",
    "C47_sound_partial"
   ],
   "note": "As stated FALSE: only edges whose mid point lies in the other edge's bounding box are tested, proper crossings are missed (both _refuted theorems). C47_sound_partial: what is reported intersects, and every intersecting pair whose mid point lies in the box is reported."
  },
  {
   "property": "C48",
   "status": "partial",
   "theorems": [
    "C48_on_edge_refuted",
    "C48_on_edge_partial"
   ],
   "note": "As stated FALSE: the middle of the left side of a square is outside (C48_on_edge_refuted). C48_on_edge_partial: vertices and points of horizontal edges are inside."
  },
  {
   "property": "C49",
   "status": "partial",
   "theorems": [
    "C49_partial",
    "C49_refuted"
   ],
   "note": "As stated FALSE: C49_refuted (fixed vertices are not part of the estimate). C49_partial: without fixed vertices every vertex is inside the square."
  },
  {
   "property": "C50",
   "status": "partial",
   "theorems": [
    "C50_front_partial",
    "C50_generated_partial",
    "C50_domain_partial",
    "C50_tiles",
    "C50_exact",
    "C50_refined",
    "C50_cleanup_partial",
    "C50_degenerate_partial",
    "C50_tri2quad_partial",
    "C50_smoothed_partial",
    "C50_merged_partial",
    "C50_smoothing_refuted",
    "C50_inside",
    "C50_boundary_inside"
   ],
   "note": "As stated FALSE: C50_smoothing_refuted (one Laplace step lets two sides of a quad cross and two elements overlap). Proved: every conforming mesh of simple counter-clockwise elements owns each point exactly as often as its boundary winds around it, so with a simple region the interiors are disjoint and the region is covered (C50_tiles, C50_exact); the advancing front on a domain boundary gives such a mesh when it ends with an empty front and no accepted triangle repeats a side (C50_domain_partial, all histories in C50_front_partial); refinement, clean up, tri2quad, merging and smoothing of triangle meshes keep the tiling. Quads made by tri2quad and clean up are simple where the mesh before has simple elements (C65_doubled_quads, C65_converted_partial), so their assumption in C50_cleanup_partial is met. C50_inside, C50_boundary_inside: the covered points are the points the inside test of the domain (or of the mesh boundary) accepts. The assumption on the accepted triangles follows from the tests of the code under the conditions of C57 (C57_domain_partial)."
  },
  {
   "property": "C51",
   "status": "proved",
   "theorems": [
    "C51_calls",
    "C51_no_ub",
    "C51_success"
   ],
   "note": "Merging and completeness results and allocators are arbitrary functions of the calls so far."
  },
  {
   "property": "C52",
   "status": "partial",
   "theorems": [
    "C52_unmerged_refuted",
    "C52_refined_refuted",
    "C52_whole_partial",
    "C52_last_partial"
   ],
   "note": "As stated FALSE: C52_unmerged_refuted (a new mesh is merged only with the first one), C52_refined_refuted (later refinements hit earlier blocks); C52_whole_partial: if every block touches an earlier one, one mesh remains and the elements of a block are refined as often as it and all later blocks ask for; C52_last_partial: right if only the last block refines."
  },
  {
   "property": "C53",
   "status": "partial",
   "theorems": [
    "C53_vtu",
    "C53_cells",
    "C53_coordinates_refuted",
    "C53_path_partial",
    "C53_path_refuted",
    "C53_unwritten_refuted"
   ],
   "note": "As stated FALSE for coordinates (C53_coordinates_refuted: five decimals), for the result (C53_unwritten_refuted) and for the file name vtu (C53_path_refuted); C53_vtu and C53_cells prove that everything else is read back exactly and coordinates up to half of the fifth decimal, C53_path_partial the name in all other cases."
  },
  {
   "property": "C54",
   "status": "partial",
   "theorems": [
    "C54_txt",
    "C54_coordinates_refuted"
   ],
   "note": "As stated FALSE for coordinates (C54_coordinates_refuted: five decimals); C54_txt: all integers are read back exactly, coordinates and sizes up to half of the fifth decimal."
  },
  {
   "property": "C55",
   "status": "partial",
   "theorems": [
    "C55_refuted",
    "C55_layers_partial",
    "C55_domain_partial",
    "C55_closed_partial",
    "C55_marked",
    "C55_moves",
    "C55_split"
   ],
   "note": "As stated FALSE: C55_refuted (a layer moves the far vertices of the neighbouring edges, also corners of the domain). C55_layers_partial proves region, areas, simple elements and closed front for runs that move no vertex; C55_closed_partial shows that layers around a loop move none; C55_moves says which vertices can move; C55_split shows that splitting the neighbouring edge always succeeds with exact lengths and cosines. Missing: triangles that fold over the front, excluded by the added test of guarded (the assumption of C23 and C24)."
  },
  {
   "property": "C56",
   "status": "partial",
   "theorems": [
    "C56_polygon",
    "C56_inside",
    "C56_created",
    "C56_domain",
    "C56_covered",
    "C56_mesh_partial",
    "C56_rectangle"
   ],
   "note": "C56_polygon is the Jordan curve theorem for polygons with rational corners, with the direction read off the sign of the area the code computes. Everything in the statement is proved except that C56_mesh_partial is about the runs in which no accepted triangle repeats a side (the assumption of C23 and C24). Points on a boundary and points whose row is within the tolerance of EQ() of a corner are excluded (clear_of). The assumption on the accepted triangles follows from the tests of the code under the conditions of C57 (C57_mesh_partial)."
  },
  {
   "property": "C57",
   "status": "partial",
   "theorems": [
    "C57_history_partial",
    "C57_elements_partial",
    "C57_conform_partial",
    "C57_domain_partial",
    "C57_nested",
    "C57_mesh_partial",
    "C57_short_partial",
    "C57_refuted"
   ],
   "note": "As stated FALSE: C57_refuted (edges with a far midpoint are missed by all tests). The _partial theorems prove the property for every history and every run whose result has no three nearly collinear vertices and no segment that meets an element with its midpoint outside of the search range (C57_short_partial: short segments suffice); refinement vertices are assumed strictly inside of their edge. C57_nested holds without such conditions."
  },
  {
   "property": "C58",
   "status": "partial",
   "theorems": [
    "C58_accepts",
    "C58_proper",
    "C58_accepted_partial",
    "C58_outcome",
    "C58_crossing_refuted",
    "C58_closed_refuted",
    "C58_connected_refuted",
    "C58_overlap_refuted",
    "C58_empty_refuted",
    "C58_nesting_refuted",
    "C58_empty_boundary_refuted"
   ],
   "note": "As stated FALSE: the C58_*_refuted theorems give accepted domains with crossing, open, unconnected, folded, coinciding, wrongly nested or wrongly oriented boundaries, and a read out of range for a boundary without edges. C58_accepts and C58_proper prove that all proper domains are accepted; C58_accepted_partial proves what acceptance does mean (an exterior boundary, a closed walk through the first edge of each boundary, no crossing among edges whose midpoints are in reach); C58_outcome characterises the undefined behaviour."
  },
  {
   "property": "C59",
   "status": "partial",
   "theorems": [
    "C59_reads",
    "C59_reads_among",
    "C59_prisms",
    "C59_mesh",
    "C59_markers_partial",
    "C59_one_marker",
    "C59_names_partial",
    "C59_points_partial",
    "C59_markers_refuted",
    "C59_order_refuted",
    "C59_names_refuted",
    "C59_height_refuted",
    "C59_points_refuted",
    "C59_first_mesh_refuted"
   ],
   "note": "As stated FALSE: C59_markers_refuted (faces in patches of other markers), C59_order_refuted (interior faces not in upper triangular order), C59_names_refuted (written order of ten or more patches), C59_height_refuted, C59_points_refuted, C59_first_mesh_refuted. C59_mesh proves the rest for every conforming mesh whose elements contain their centroids: points, faces, owners, neighbours, closed outward surfaces, volumes, contiguous patches, bottom and top; C59_markers_partial proves the patches right when the sort by elements leaves the markers in place."
  },
  {
   "property": "C60",
   "status": "partial",
   "theorems": [
    "C60_check",
    "C60_check_conforming",
    "C60_finished_partial",
    "C60_cleanup_partial",
    "C60_steps_partial",
    "C60_generated_partial",
    "C60_pipeline_partial",
    "C60_stopped_refuted"
   ],
   "note": "As stated FALSE: C60_stopped_refuted (with an element limit a mesh with a hole is reported as complete and passes the validity check). The _partial theorems prove the property for every history and run that ends with an empty front, under the conditions of C57 on the result (no three nearly collinear vertices, segments found in the search range); merging and refinement additionally assume triangles of 3/2 of the tolerance at least and no twin edges."
  },
  {
   "property": "C61",
   "status": "partial",
   "theorems": [
    "C61_unchanged",
    "C61_mutual",
    "C61_pointed",
    "C61_complete",
    "C61_no_stale",
    "C61_generated_partial",
    "C61_merged_partial",
    "C61_contact_refuted"
   ],
   "note": "As stated FALSE: C61_contact_refuted (a neighbour edge longer than the edge of the new domain is not recognised). Pointers: mutual, complete, none dangling, nothing else changes. C61_generated_partial and C61_merged_partial assume that the triangulation ended with an empty front, that vertices were found exactly and (merging) distinct points and triangle areas above the orientation tolerance."
  },
  {
   "property": "C62",
   "status": "partial",
   "theorems": [
    "C62_keeps",
    "C62_restart_partial",
    "C62_between_partial",
    "C62_complete_partial",
    "C62_attempts_partial",
    "C62_no_front",
    "C62_full_front",
    "C62_once_more",
    "C62_domain_partial",
    "C62_check_refuted",
    "C62_once_more_refuted"
   ],
   "note": "As stated FALSE: C62_once_more_refuted (a further attempt on a complete mesh is undefined behaviour) and C62_check_refuted (the check passes on an incomplete mesh). C62_restart_partial, C62_between_partial, C62_complete_partial, C62_attempts_partial and C62_domain_partial prove the rest for attempts of the triangulation whose searches find what they look for (exact arithmetic, elements not below the orientation tolerance); attempts of the quad layer strategy are not part of the histories (C68 adds them)."
  },
  {
   "property": "C63",
   "status": "partial",
   "theorems": [
    "C63_made",
    "C63_rectangle",
    "C63_square",
    "C63_circle",
    "C63_triangle",
    "C63_again",
    "C63_few_refuted",
    "C63_zero_refuted",
    "C63_colour_refuted"
   ],
   "note": "As stated FALSE in its last sentence (shapes that enclose nothing are rejected): C63_few_refuted, C63_zero_refuted; negative colours are accepted: C63_colour_refuted. The other theorems prove everything else for positive extents."
  },
  {
   "property": "C64",
   "status": "partial",
   "theorems": [
    "C64_domain",
    "C64_plate",
    "C64_built",
    "C64_taken",
    "C64_colour",
    "C64_layers",
    "C64_missing_refuted",
    "C64_dropped_refuted",
    "C64_no_exterior",
    "C64_second_refuted",
    "C64_few_refuted",
    "C64_conversion",
    "C64_turned_refuted",
    "C64_edges_refuted"
   ],
   "note": "As stated FALSE: C64_missing_refuted (missing or unreadable values become -1), C64_dropped_refuted (a definition that is not accepted drops all later ones of its kind), C64_second_refuted (further exterior definitions are ignored), C64_few_refuted (circle with fewer than three corners); the others prove what remains: what is taken becomes exactly the described region. Lists of edges count as well if they run around in the right direction (gives); they are not turned (C64_turned_refuted) and the vertex behind the last one is undefined behaviour for the exterior boundary (C64_edges_refuted)."
  },
  {
   "property": "C65",
   "status": "partial",
   "theorems": [
    "C65_mesh_partial",
    "C65_plate",
    "C65_doubled_quads",
    "C65_doubled_tris",
    "C65_converted_partial",
    "C65_refined",
    "C65_graded"
   ],
   "note": "C65_mesh_partial proves the claim from the definitions in the file through boundaries, front, triangulation, tri2quad, refinement and smoothing, for runs that end with an empty front. Missing, therefore _partial: that the front becomes empty; that no three vertices are nearly but not exactly on a line (exact_vertices); that the neighbours of an element are in the range of the search (found; C65_graded gives this if no edge is longer than 12/7 of the size function); that triangles have at least 3/2 of the code's area tolerance; refined meshes fill the region if the elements before are strictly convex, smoothed ones if they are meshes of triangles (C50_smoothing_refuted). C65_doubled_quads, C65_doubled_tris and C65_converted_partial: clean-up and tri2quad keep the tiling with no assumption on the quads made. C65_plate: area and position for plates with round holes."
  },
  {
   "property": "C66",
   "status": "partial",
   "theorems": [
    "C66_neighbours",
    "C66_laplace",
    "C66_hull",
    "C66_step",
    "C66_pair",
    "C66_away_refuted",
    "C66_torsion_once",
    "C66_torsion",
    "C66_torsion_refuted",
    "C66_turn"
   ],
   "note": "As stated FALSE: C66_away_refuted (every second iteration of Laplace smoothing moves vertices away from the mean of their neighbours) and C66_torsion_refuted (every neighbour is entered twice, so torsion smoothing moves vertices whose edges make equal angles). What holds: C66_neighbours (how often each vertex is entered), C66_laplace (the displacement leads to the mean of the neighbours in triangle meshes), C66_hull, C66_step, C66_pair, C66_torsion_once (the rule for lists without copies), C66_torsion (what the code does), C66_turn (by which angle each neighbour turns a vertex)."
  },
  {
   "property": "C67",
   "status": "partial",
   "theorems": [
    "C67_read",
    "C67_order",
    "C67_unique",
    "C67_domain",
    "C67_mesh_partial",
    "C67_flag_refuted",
    "C67_count_refuted",
    "C67_blank_refuted",
    "C67_comment_refuted",
    "C67_missing_refuted",
    "C67_mandatory",
    "C67_words"
   ],
   "note": "As stated FALSE: C67_flag_refuted (a flag written as true is off), C67_count_refuted (-1 steps become 2^64-1), C67_blank_refuted (a blank line is a vertex), C67_comment_refuted (a comma in a comment shifts the rows), C67_missing_refuted (missing values are -1). C67_read proves that for every file of the grammar in FileSpec.v every block is read as its lines say; C67_unique that these inputs are determined, C67_order that only the order of lines of one kind counts, C67_domain and C67_mesh_partial carry this to the domain and, for a given run of the advancing front, to the mesh. C67_words states the conversions of single values and C67_mandatory that a missing mandatory value is an error."
  },
  {
   "property": "C68",
   "status": "partial",
   "theorems": [
    "C68_keeps",
    "C68_closed",
    "C68_stage",
    "C68_between_partial",
    "C68_complete_partial",
    "C68_attempts_partial",
    "C68_domain_partial",
    "C68_refuted",
    "C68_hanging_refuted"
   ],
   "note": "As stated FALSE: C68_refuted (an open layer that fails has lifted corners of the domain) and C68_hanging_refuted (an open layer next to another one leaves a vertex in the middle of a side of a quad). The other theorems hold for layers whose preparation moves no vertex and splits no edge (C68_closed: always so for layers around a closed boundary) and, those with _partial, for runs whose searches find what they look for (exact arithmetic, vertices inside of the quadtrees, elements not below the orientation tolerance, strictly convex quads at the end). Missing: open layers that split a boundary edge next to them."
  },
  {
   "property": "C69",
   "status": "partial",
   "theorems": [
    "C69_refuted",
    "C69_centre_refuted",
    "C69_search",
    "C69_shape",
    "C69_shape_outside",
    "C69_extent",
    "C69_edges",
    "C69_domain",
    "C69_start",
    "C69_mesh_partial",
    "C69_empty",
    "C69_given",
    "C69_mesh_square_partial",
    "C69_set_first"
   ],
   "note": "As stated FALSE: C69_refuted (a parameter file with a shape beyond the extent of its listed vertices: the search dereferences a null leaf) and C69_centre_refuted (a moved centre of the quadtree of the domain is not passed on to the mesh). C69_search proves that in its square the container answers every search and finds a vertex at the place; C69_extent and C69_edges that the listed vertices and the boundaries between them lie in the square; C69_domain and C69_mesh_partial that, as long as the shapes lie in the square, the application with the real container builds the domain and the mesh that the lines describe, with no two vertices at one place; C69_start that the vertices of every prepared front lie in the square; C69_empty, C69_given and C69_mesh_square_partial treat the squares of new meshes; C69_set_first the setters."
  },
  {
   "property": "C70",
   "status": "partial",
   "theorems": [
    "C70_alias_refuted",
    "C70_alias_partial",
    "C70_entries",
    "C70_divides",
    "C70_space",
    "C70_assign",
    "C70_dot",
    "C70_cauchy",
    "C70_norm",
    "C70_cos",
    "C70_cross2",
    "C70_cross3",
    "C70_equal",
    "C70_extrema",
    "C70_construct",
    "C70_names"
   ],
   "note": "As stated FALSE in one point: C70_alias_refuted (a compound assignment by an entry of the vector itself uses the changed entry); C70_alias_partial gives the exact result of such an assignment and C70_assign proves the claim for all other operands. Everything else is proved for every number of entries over exact rationals, with square roots as any function that gives them."
  },
  {
   "property": "C71",
   "status": "partial",
   "theorems": [
    "C71_quad_refuted",
    "C71_triangle",
    "C71_extreme",
    "C71_opposite",
    "C71_quad_partial",
    "C71_turn",
    "C71_collapsed"
   ],
   "note": "As stated FALSE for quads: C71_quad_refuted (a corner of 270 degrees of a concave quad is stored as 90 degrees). C71_triangle, C71_extreme and C71_opposite prove the claim for triangles; C71_quad_partial proves it for convex quads; C71_turn gives the stored value at every corner (the turn up to pi, its complement to the full turn beyond). C71_collapsed: with coinciding corners there is no angle and the limit refuses nothing. Over the real numbers of the standard library."
  },
  {
   "property": "C72",
   "status": "partial",
   "theorems": [
    "C72_refuted",
    "C72_vertex_refuted",
    "C72_fixed_refuted",
    "C72_clear_refuted",
    "C72_careful_partial",
    "C72_effect",
    "C72_boundary",
    "C72_vertex",
    "C72_outside",
    "C72_clear_first",
    "C72_check"
   ],
   "note": "As stated FALSE: C72_refuted (remove_boundary leaves freed edges in the lists of the vertices and the check of the domain reads them), C72_vertex_refuted and C72_fixed_refuted (remove_vertex). C72_careful_partial proves it for all sequences that only remove boundaries without edges and vertices that nothing points at; C72_boundary and C72_vertex show that this caution is necessary. C72_effect is the exact effect of every operation, C72_check links the pointers to the plain lists of C58. Missing: split_edge and set_shape functions at the level of pointers."
  },
  {
   "property": "C73",
   "status": "partial",
   "theorems": [
    "C73_refuted",
    "C73_quads_refuted",
    "C73_small_refuted",
    "C73_range_refuted",
    "C73_triangles_partial",
    "C73_tri_quad_partial",
    "C73_quads_partial",
    "C73_accepted_partial",
    "C73_quad_accepted_partial",
    "C73_rejected",
    "C73_vertices"
   ],
   "note": "As stated FALSE: C73_refuted (triangle and quad), C73_quads_refuted, C73_small_refuted (below the tolerance), C73_range_refuted (search range). C73_triangles_partial: for triangles whose corners are clear of the other's sides the test is exact; C73_tri_quad_partial and C73_quads_partial name the only overlaps that are missed; C73_accepted_partial: together with the vertex test an accepted triangle overlaps no active convex element in range."
  },
  {
   "property": "C74",
   "status": "partial",
   "theorems": [
    "C74_edges_refuted",
    "C74_edges_partial",
    "C74_facets_refuted",
    "C74_triangles_partial",
    "C74_quads_partial",
    "C74_check_refuted",
    "C74_check_partial",
    "C74_count",
    "C74_common",
    "C74_front_refuted",
    "C74_front_partial",
    "C74_front_sound",
    "C74_close"
   ],
   "note": "As stated FALSE: long edges and large elements are missed (C74_edges_refuted, C74_facets_refuted, C74_front_refuted), check_coordinate tests half of a quad (C74_check_refuted). The partial theorems give the lengths up to which the searches are complete and that they report nothing else; C74_count proves the number of common edges in full."
  },
  {
   "property": "C75",
   "status": "partial",
   "theorems": [
    "C75_swap_refuted",
    "C75_swap_partial",
    "C75_move_refuted",
    "C75_shape_partial",
    "C75_new",
    "C75_entries",
    "C75_columns_refuted",
    "C75_resize_refuted",
    "C75_resize_partial",
    "C75_bar",
    "C75_bar_width",
    "C75_bar_full",
    "C75_split_refuted",
    "C75_split_partial",
    "C75_split_default",
    "C75_timer",
    "C75_timer_count"
   ],
   "note": "As stated FALSE: C75_swap_refuted (the other matrix keeps its rows and columns), C75_move_refuted, C75_resize_refuted (other number of columns), C75_columns_refuted (no check of the column), C75_split_refuted (text ending with the delimiter). C75_shape_partial proves the shape for programs without swap and move, C75_new and C75_entries the laws of reading and writing, C75_swap_partial and C75_resize_partial what remains of swap and resize, C75_split_partial and C75_split_default the splitting; C75_bar, C75_bar_width, C75_bar_full, C75_timer and C75_timer_count hold in full."
  }
 ]
}
