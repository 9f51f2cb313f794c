{
 "claims": [
  {
   "property": "C01",
   "status": "proved",
   "theorems": [
    "C01_ids_behave_like_lists",
    "C01_order_strict_total",
    "C01_more_than_four_components_refuted"
   ],
   "note": "Any client program over ids of at most four components (the largest entity) refines the same program over lists. The third theorem shows the bound is needed."
  },
  {
   "property": "C02",
   "status": "proved",
   "theorems": [
    "C02_vertices_by_increasing_id",
    "C02_facets_follow_reference",
    "C02_edges_follow_reference",
    "C02_facet_numberings_inverse",
    "C02_edge_numberings_inverse",
    "C02_facet_vertices",
    "C02_interface_element",
    "C02_interface_edges",
    "C02_reference_rows"
   ],
   "note": "All vertex id assignments, dimensions 2 and 3, and the interface elements."
  },
  {
   "property": "C03",
   "status": "proved",
   "theorems": [
    "C03_sides_agree",
    "C03_corners",
    "C03_indices_denote_shared_facet",
    "C03_edges"
   ],
   "note": "Exact real arithmetic; AffineGeometry::global is modelled, dune-geometry itself is not."
  },
  {
   "property": "C04",
   "status": "proved",
   "theorems": [
    "C04_ids_never_reused",
    "C04_ids_persist",
    "C04_ids_total_after_update",
    "C04_set_next_overwrites_refuted"
   ],
   "note": "The assertion in setNextId is assumed to hold (the refuted theorem shows what happens without it); the counter is unbounded."
  },
  {
   "property": "C05",
   "status": "proved",
   "theorems": [
    "C05_leaf_indices_bijective",
    "C05_sub_index_is_index",
    "C05_copied_index_set_refuted"
   ],
   "note": "Contract: the host iterators list each entity once. The refuted theorem records that a copied index set loses the facet/edge indices."
  },
  {
   "property": "C06",
   "status": "proved",
   "theorems": [
    "C06_interface_indices_bijective",
    "C06_sub_index_is_index",
    "C06_foreign"
   ],
   "note": "The branch for the invalid entity of an empty interface is not modelled."
  },
  {
   "property": "C07",
   "status": "partial",
   "theorems": [
    "C07_id_of_elements_partial",
    "C07_id_of_sub_entities_partial",
    "C07_assignment_keeps_old_id_refuted"
   ],
   "note": "Elements and programs that never assign to an entity whose id was already read are proved; assignment of a sub-entity keeps the cached id, so the full statement is refuted."
  },
  {
   "property": "C08",
   "status": "proved",
   "theorems": [
    "C08_element_ids_identify",
    "C08_facet_ids_identify",
    "C08_edge_ids_identify",
    "C08_ids_defined",
    "C08_sub_ids_2d",
    "C08_sub_ids_3d",
    "C08_interface_id_is_facet_id",
    "C08_interface_sub_ids"
   ],
   "note": "Bulk and interface grid."
  },
  {
   "property": "C09",
   "status": "proved",
   "theorems": [
    "C09_neighbours",
    "C09_no_undefined",
    "C09_contract"
   ],
   "note": "2D and 3D, any history of calls, any order chosen by std::sort; CGAL's is_face/is_cell assumed to find existing cells. C09_contract: meshes whose elements lie on opposite sides of their common facets give triangulations satisfying host_ok, the contract of the traversal theorems."
  },
  {
   "property": "C10",
   "status": "partial",
   "theorems": [
    "C10_orientation_partial",
    "C10_orientation_3d_refuted"
   ],
   "note": "2D in exact arithmetic; in 3D the given order is kept, so the claim is refuted there"
  },
  {
   "property": "C11",
   "status": "proved",
   "theorems": [
    "C11_insertion_index"
   ],
   "note": "cells and vertices, with domain markers"
  },
  {
   "property": "C12",
   "status": "partial",
   "theorems": [
    "C12_boundary_segments",
    "C12_index_of_facet",
    "C12_boundary_id",
    "C12_count",
    "C12_implicit_factory",
    "C12_interface_factory",
    "C12_interface_boundary_refuted",
    "C12_gaps_refuted",
    "C12_unregistered_id_refuted"
   ],
   "note": "Numbering, boundary ids and markers proved for all histories of the three factories, and the number of segments of the created grid; insertInterfaceBoundarySegment accepts duplicates (refuted); numbers of the created grid may have gaps (refuted); an unregistered boundary facet reports the id of segment 0 (refuted)"
  },
  {
   "property": "C13",
   "status": "proved",
   "theorems": [
    "C13_boundary_or_interface",
    "C13_listed"
   ],
   "note": ""
  },
  {
   "property": "C14",
   "status": "partial",
   "theorems": [
    "C14_round_trip",
    "C14_accepts",
    "C14_counts_partial",
    "C14_truncated_refuted",
    "C14_grid",
    "C14_sections",
    "C14_no_number",
    "C14_trailing_refuted",
    "C14_cut_off",
    "C14_bad_coordinate",
    "C14_number",
    "C14_accepted",
    "C14_unknown_type"
   ],
   "note": "Round trip for every mesh of simplices written as MSH 2.2 text (arbitrary lines around the sections, extra columns). Wrong counts are rejected. Refuted part: a file truncated right after the element count is not rejected but read beyond an empty vector (C14_truncated_refuted). Text-to-number conversion of coordinates is a contract (coords_ok)."
  },
  {
   "property": "C15",
   "status": "proved",
   "theorems": [
    "C15_lattice",
    "C15_box",
    "C15_zero_refuted",
    "C15_overflow_refuted"
   ],
   "note": "C15_zero_refuted and C15_overflow_refuted show that the hypotheses n_j > 0 and int range are needed."
  },
  {
   "property": "C16",
   "status": "proved",
   "theorems": [
    "C16_insertion_order",
    "C16_repeated_points",
    "C16_duplicate_refuted",
    "C16_element_index",
    "C16_segment_twice"
   ],
   "note": "For coinciding points the vertex keeps the number of the last insertion (C16_repeated_points)."
  },
  {
   "property": "C17",
   "status": "partial",
   "theorems": [
    "C17_registered",
    "C17_interface_factory",
    "C17_interface_insertion_index",
    "C17_implicit_refuted",
    "C17_interface_not_inserted",
    "C17_interface_markers"
   ],
   "note": "Proved for the explicit factory and for the factory of the interface grid; refuted for the implicit factory, which never flags interface vertices (C17_implicit_refuted)."
  },
  {
   "property": "C18",
   "status": "partial",
   "theorems": [
    "C18_inside_is_hull",
    "C18_tolerance",
    "C18_intersection_partial",
    "C18_exact_without_tolerance",
    "C18_exact_refuted",
    "C18_area"
   ],
   "note": "Real coordinates. The returned polygon is convex, contained in the subject and in the clip polygon up to the tolerance 1e-14, and contains every common point that is 1e-14 inside all clip edges; with tolerance 0 it is exactly the intersection. Its area differs from that of the intersection by at most n 1e-14 D/m (n clip edges, D the size of the subject, m the shortest clip edge). The exact claim is refuted for the tolerance of the code."
  },
  {
   "property": "C19",
   "status": "proved",
   "theorems": [
    "C19_fan",
    "C19_triangle",
    "C19_few_points",
    "C19_rotation",
    "C19_translation",
    "C19_diagonal",
    "C19_reversal",
    "C19_sign"
   ],
   "note": "Real coordinates, all lists of points."
  },
  {
   "property": "C20",
   "status": "partial",
   "theorems": [
    "C20_bounds_partial",
    "C20_identity",
    "C20_element_bound_refuted",
    "C20_cut_set",
    "C20_cut_set_volume",
    "C20_overlap_area",
    "C20_element_bound",
    "C20_symmetric",
    "C20_tiling"
   ],
   "note": "Between 0 and the volume of the cached triangle; the bound by the current element is refuted as stated (tolerance) and proved up to 3e-14 D/m, as are symmetry, equality with the area of the intersection, and additivity over elements that tile the cached triangle (D the size of the cached triangle, m the shortest edge of the element). Cut sets: triangles in both, total volume."
  },
  {
   "property": "C21",
   "status": "proved",
   "theorems": [
    "C21_segment",
    "C21_exact_2d",
    "C21_interface_vertices",
    "C21_other_vertices_refuted",
    "C21_element",
    "C21_element_3d",
    "C21_maximum",
    "C21_estimate_3d",
    "C21_exact_3d_refuted",
    "C21_interface_element"
   ],
   "note": "2D distance of interior vertices is exact; boundary and corner vertices keep 1e100 unless on the interface (refuted for them); in 3D only an upper estimate (refuted exactness)."
  },
  {
   "property": "C22",
   "status": "proved",
   "theorems": [
    "C22_indicator_2d",
    "C22_no_coarsening_3d",
    "C22_values",
    "C22_constructor",
    "C22_init",
    "C22_documented_minimum_refuted",
    "C22_local",
    "C22_no_flip_flop",
    "C22_distance_scale"
   ],
   "note": "Exact characterisation of the indicator; the class comment (0.5 x shortest edge) is refuted."
  },
  {
   "property": "C23",
   "status": "proved",
   "theorems": [
    "C23_longest_edge"
   ],
   "note": "Longest edge and its midpoint."
  },
  {
   "property": "C24",
   "status": "partial",
   "theorems": [
    "C24_interface",
    "C24_bulk_partial",
    "C24_comparator_levels_refuted",
    "C24_comparator_constrained_refuted",
    "C24_priority_refuted",
    "C24_constrained_refuted",
    "C24_boundary_flag_straight",
    "C24_corner_flag",
    "C24_corner_refuted"
   ],
   "note": "Interface part full. Bulk: the comparator is no strict weak order, so sort is undefined for mixed levels or flags (refuted); documented priority reversed (refuted); constrained vertices may be returned (refuted). Proved for uniform levels and flags."
  },
  {
   "property": "C25",
   "status": "proved",
   "theorems": [
    "C25_normal_2d",
    "C25_opposite_2d",
    "C25_normal_3d",
    "C25_opposite_3d",
    "C25_unit_2d",
    "C25_unit_3d",
    "C25_interface_segment",
    "C25_interface_triangle",
    "C25_interface_triangle_sum",
    "C25_interface_integration_refuted"
   ],
   "note": "For positively oriented host cells (a contract of the triangulation; see C10 for the 3D explicit factory). The scaling of the integration outer normal of interface triangles is refuted."
  },
  {
   "property": "C26",
   "status": "proved",
   "theorems": [
    "C26_edge",
    "C26_edge_3d",
    "C26_triangle",
    "C26_tetrahedron"
   ],
   "note": "CGAL::circumcenter is a contract (equidistance), met by an explicit formula; uniqueness and independence of the corner order are proved."
  },
  {
   "property": "C27",
   "status": "proved",
   "theorems": [
    "C27_sphere",
    "C27_flat",
    "C27_stale_center_refuted",
    "C27_small_circle_refuted"
   ],
   "note": "Exact when the normal matrix passes the code's absolute regularity test; small circles are refuted; a stale centre is reported on flat parts. FieldMatrix::solve is a contract, met by Cramer's rule."
  },
  {
   "property": "C28",
   "status": "partial",
   "theorems": [
    "C28_terminates",
    "C28_uniform",
    "C28_chained_share",
    "C28_merge",
    "C28_stale_infinite_refuted",
    "C28_repeated_adapt_refuted",
    "C28_next_adapt",
    "C28_post"
   ],
   "note": "proved when no cell of a zone carries a number at the start; refuted after postAdapt for infinite cells and for repeated adapt without postAdapt"
  },
  {
   "property": "C29",
   "status": "partial",
   "theorems": [
    "C29_components_partial",
    "C29_one_component",
    "C29_visit_increasing",
    "C29_default_component_refuted",
    "C29_cached_partial"
   ],
   "note": "components exact, and their caching entities keep id and corners from before the adaptation, iff the ids are met in a suitable order, otherwise UB (finding)"
  },
  {
   "property": "C30",
   "status": "partial",
   "theorems": [
    "C30_new_elements",
    "C30_post",
    "C30_failed_refuted"
   ],
   "note": "Proved for every lawful history of insertions and removals in which no insertion fails to be connected; C30_failed_refuted: a failed insertion leaves unflagged elements and shifts the component ids of later ones. Cleared by postAdapt for the leaf elements (infinite cells keep their numbers, see C28)."
  },
  {
   "property": "C31",
   "status": "partial",
   "theorems": [
    "C31_segment",
    "C31_3d_refuted",
    "C31_other_segment_refuted"
   ],
   "note": "2D proved; in 3D insertInInterface_ reads beyond the two vertex ids of an edge (UB)"
  },
  {
   "property": "C32",
   "status": "partial",
   "theorems": [
    "C32_merge",
    "C32_tip_or_junction_refuted",
    "C32_marker_refuted",
    "C32_undoes_C31"
   ],
   "note": "two segments proved; tips and junctions lose their segments (refuted); 3D throws NotImplemented"
  },
  {
   "property": "C33",
   "status": "proved",
   "theorems": [
    "C33_add_interface"
   ],
   "note": ""
  },
  {
   "property": "C34",
   "status": "partial",
   "theorems": [
    "C34_get_mark",
    "C34_interface_get_mark_partial",
    "C34_no_work",
    "C34_post",
    "C34_interface_post",
    "C34_interface_unmark_refuted",
    "C34_post_refuted",
    "C34_pre_adapt_refuted",
    "C34_pre_adapt",
    "C34_interface_mark",
    "C34_uninitialised_refuted",
    "C34_mark_elements",
    "C34_mark_elements_refuted"
   ],
   "note": "Bulk part in full, markElements included. Refuted for the interface: mark 0 does not clear, postAdapt of one grid does not clear the other; preAdapt ignores refinement marks and reads uninitialised counters on a new grid."
  },
  {
   "property": "C35",
   "status": "proved",
   "theorems": [
    "C35_queues",
    "C35_requested",
    "C35_marked",
    "C35_point",
    "C35_between",
    "C35_first_check",
    "C35_second_check_refuted",
    "C35_cell_refuted",
    "C35_collected"
   ],
   "note": "One entry per edge id and per vertex id, one per call for points in cells. Findings: repeated insertVertexInCell is queued repeatedly; the stale-edge check passes wrongly in a second adapt without postAdapt."
  },
  {
   "property": "C36",
   "status": "partial",
   "theorems": [
    "C36_returns",
    "C36_changed_partial",
    "C36_removal_refuted",
    "C36_skipped_refuted",
    "C36_failed_refuted",
    "C36_callback_refuted"
   ],
   "note": "Exact characterisation of the value; it equals 'changed' if there are only successful insertions. Refuted for removals, skipped entries, failed insertions and for the data handle version."
  },
  {
   "property": "C37",
   "status": "proved",
   "theorems": [
    "C37_move",
    "C37_order",
    "C37_back",
    "C37_short"
   ],
   "note": "In the plane, exact arithmetic; both functions are the same loop over their vertices and indices."
  },
  {
   "property": "C38",
   "status": "partial",
   "theorems": [
    "C38_vertices",
    "C38_interface_partial",
    "C38_exception",
    "C38_safe_refuted",
    "C38_interface_queued_refuted",
    "C38_exception_moves_refuted",
    "C38_corner_refuted",
    "C38_flag_refuted",
    "C38_volume",
    "C38_two_edges",
    "C38_crossing",
    "C38_third_vertex"
   ],
   "note": "ensureVertexMovement in full (with the flag as computed); ensureInterfaceMovement restores positions whenever it returns, but may queue interface vertices, leaves vertices moved on exceptions, and is undefined for interface edges opposite to a corner."
  },
  {
   "property": "C39",
   "status": "proved",
   "theorems": [
    "C39_intersections",
    "C39_created"
   ],
   "note": "Intersection iterator (leafintersectioniterator) on an arbitrary triangulation satisfying host_ok; C39_created discharges host_ok for grids made by the explicit factory."
  },
  {
   "property": "C40",
   "status": "partial",
   "theorems": [
    "C40_elements_partial",
    "C40_vertices",
    "C40_created",
    "C40_boundary_refuted"
   ],
   "note": "Vertices part holds for both flags, elements part for facets between two elements; includeBoundary=true is ignored by interfaceElements (refuted). C40_created: end to end from the insertInterface calls, no contract on the triangulation."
  },
  {
   "property": "C41",
   "status": "partial",
   "theorems": [
    "C41_leaf_partial",
    "C41_leaf_refuted",
    "C41_intersections",
    "C41_ghost_intersections",
    "C41_created"
   ],
   "note": "Intersection part holds in full. The leaf iterator visits each facet once only if insertion indices order the two sides (refuted for elements created by adaptation and for infinite sides)."
  },
  {
   "property": "C42",
   "status": "proved",
   "theorems": [
    "C42_incident",
    "C42_interface_elements"
   ],
   "note": "CGAL circulators / incident lists enter as lists; that CGAL delivers the incident entities is a hypothesis (visits_each circ incident)."
  },
  {
   "property": "C43",
   "status": "proved",
   "theorems": [
    "C43_elements",
    "C43_entities",
    "C43_partitions",
    "C43_created"
   ],
   "note": "The stored interior range is required to contain the interior elements (that is C44)."
  },
  {
   "property": "C44",
   "status": "partial",
   "theorems": [
    "C44_ranks",
    "C44_balance_partial",
    "C44_balance_3d_refuted"
   ],
   "note": "Everything but the balance holds in 2D and 3D; the balance holds in 2D (n = number of elements) and fails in 3D because number_of_cells() counts infinite cells. 64-bit wrap-around modelled; assumes number_of_cells * size < 2^64."
  },
  {
   "property": "C45",
   "status": "proved",
   "theorems": [
    "C45_elements",
    "C45_interface",
    "C45_facets",
    "C45_edges",
    "C45_vertices",
    "C45_interface_sub",
    "C45_visible",
    "C45_clear_refuted",
    "C45_add_interface_refuted",
    "C45_clear"
   ],
   "note": "Values of all partitions proved for every mesh, rank assignment and previous state; the out-of-range clearing loop at the start is modelled separately and refuted (undefined behaviour in every dimension), and the re-computation in addInterface leaves facets of new ghosts invisible (refuted)."
  },
  {
   "property": "C46",
   "status": "partial",
   "theorems": [
    "C46_links",
    "C46_elements",
    "C46_interface_partial",
    "C46_interface_refuted",
    "C46_exchange"
   ],
   "note": "Proved for elements of the grid. For interface elements it holds if at most two ranks meet at each vertex (edge) of the interface and is refuted otherwise."
  },
  {
   "property": "C47",
   "status": "proved",
   "theorems": [
    "C47_schedule",
    "C47_terminates",
    "C47_completes",
    "C47_forward",
    "C47_element_data",
    "C47_extra_ghosts_refuted",
    "C47_junction_refuted"
   ],
   "note": "For any number of forward, backward and All_All calls, any schedule, buffered or synchronous sends. Ghosts that exist only because of the interface are not facet-adjacent to an own element and never updated (refuted); at interface vertices where three ranks meet unpacking reads past the buffer (refuted)."
  },
  {
   "property": "C48",
   "status": "partial",
   "theorems": [
    "C48_write",
    "C48_read",
    "C48_reserve",
    "C48_queue_partial",
    "C48_round_trip",
    "C48_streams",
    "C48_receive",
    "C48_past_end_refuted",
    "C48_write_stream",
    "C48_eof"
   ],
   "note": "Everything but the detection of reads past the end, which is refuted."
  },
  {
   "property": "C49",
   "status": "partial",
   "theorems": [
    "C49_keeps",
    "C49_write",
    "C49_resize",
    "C49_defined",
    "C49_noop",
    "C49_covered",
    "C49_during_adaptation",
    "C49_unannounced",
    "C49_dummy_sub_ids",
    "C49_idummy_sub_ids",
    "C49_plain_adapt_refuted",
    "C49_add_interface_refuted",
    "C49_new_value_refuted",
    "C49_stale_refuted",
    "C49_dummy_distinct",
    "C49_dummy_edges"
   ],
   "note": "Proved for all histories in which changes are made by adapt(handle). Fails after adapt() and addInterface, which do not change the sequence number, and for entities made anew with the id of an earlier one; data of vanished entities are never dropped."
  },
  {
   "property": "C50",
   "status": "partial",
   "theorems": [
    "C50_removal",
    "C50_constrained",
    "C50_plane",
    "C50_bent_refuted",
    "C50_removal_3d_refuted",
    "C50_nothing_to_glue",
    "C50_taken_out",
    "C50_insert_in_cell",
    "C50_insert_in_edge",
    "C50_removal_from_consistent",
    "star_fills"
   ],
   "note": "Removal of a vertex, with and without interface, given that CGAL fills every simple closed hole (fan_fills shows that the contract can be met); insertion into a cell or an edge, given that CGAL joins the new vertex to the facets around (star_fills shows that the contract can be met). The geometric quality of the filling is CGAL's. The constrained removal needs the link to be split by the line through the two interface neighbours; C50_bent_refuted shows it fails otherwise."
  },
  {
   "property": "C51",
   "status": "partial",
   "theorems": [
    "C51_inverse_partial",
    "C51_same_from_both_sides_partial",
    "C51_boundary_seen_from_inside",
    "C51_equal_indices_refuted",
    "C51_created"
   ],
   "note": "Holds when the insertion indices of the two cells differ; refuted for equal (never assigned) indices."
  },
  {
   "property": "C52",
   "status": "partial",
   "theorems": [
    "C52_iterative",
    "C52_total",
    "C52_fixed_point",
    "C52_contraction",
    "C52_aitken",
    "C52_accelerated",
    "C52_f_tol_partial",
    "C52_f_tol_refuted",
    "C52_iterations_refuted",
    "C52_callback_refuted",
    "C52_monolithic",
    "C52_norm"
   ],
   "note": "Truthful convergence report, bound on sweeps, fixed points, contraction; f_tol is ignored with the default tol, iter = 0 raises, the number of iterations is off by one, and the callback is not called before the interface solve. Also the loop of monolithicSolve."
  },
  {
   "property": "C53",
   "status": "partial",
   "theorems": [
    "C53_matrix",
    "C53_matrix_again",
    "C53_solve",
    "C53_coupling_b",
    "C53_coupling_c",
    "C53_affine",
    "C53_pattern_refuted",
    "C53_shared_refuted",
    "C53_quotient_b",
    "C53_error_b",
    "C53_quotient_c",
    "C53_error_c"
   ],
   "note": "Block matrix, right-hand side and corrections for every block size and storage; exact derivatives by central differences for degree at most two; dofs restored (exact arithmetic). Fails if the sparsity pattern changes between solves with one object, and for bulk dofs shared by the two sides of an interface element (entries of C doubled)."
  },
  {
   "property": "C54",
   "status": "proved",
   "theorems": [
    "C54_move_mesh",
    "C54_no_callback",
    "C54_trace",
    "C54_unsafe_refuted",
    "C54_twice",
    "C54_list_refuted"
   ],
   "note": "Bounded rounds, one move by the last shifts, numbers of rounds returned. Findings: after ten rounds the mesh is moved although the last check asked for adaptation; 2 * shifts repeats a Python list."
  },
  {
   "property": "C55",
   "status": "proved",
   "theorems": [
    "C55_skeleton_same_point",
    "C55_skeleton_zero_off_interface",
    "C55_trace_same_point",
    "C55_bind_entity_keeps_stale_interface_refuted",
    "C55_trace_sides",
    "C55_unbound"
   ],
   "note": "The inverse of the affine side map is a contract; the last theorem records that bind(entity) does not reset the state."
  },
  {
   "property": "C56",
   "status": "partial",
   "theorems": [
    "C56_interface_neighbours_partial",
    "C56_connected_refuted"
   ],
   "note": "Delivers adjacent vertices lying on the interface, which need not be joined by an interface facet (refuted)."
  },
  {
   "property": "C57",
   "status": "proved",
   "theorems": [
    "C57_edge",
    "C57_on_interface",
    "C57_interface_grid"
   ],
   "note": ""
  },
  {
   "property": "C58",
   "status": "proved",
   "theorems": [
    "C58_components",
    "C58_children_old",
    "C58_nothing_lost",
    "C58_no_failure",
    "C58_post",
    "C58_add_again",
    "C58_father_of_tip",
    "C58_adjacent_removal_refuted",
    "C58_second_tip_refuted"
   ],
   "note": "proved for histories in which no change touches an element created since the last postAdapt (the assertion in removeFromInterface_); without it the claim is refuted"
  },
  {
   "property": "C59",
   "status": "partial",
   "theorems": [
    "C59_flags",
    "C59_prolong_first",
    "C59_value",
    "C59_untouched",
    "C59_mass",
    "C59_conservative",
    "C59_range",
    "C59_shared_bound",
    "C59_tiny",
    "C59_every_element_refuted",
    "C59_interface_refine",
    "C59_interface_merge",
    "C59_interface_untouched",
    "C59_interface_removal_partial",
    "C59_interface_removal_refuted",
    "C59_pieces",
    "C59_mass_tiled",
    "C59_range_tiled"
   ],
   "note": "the call protocol and the values for piecewise constants are proved; if the new elements cover the old ones without overlapping, the integral is kept up to 24e-8 + 3e-14 D/m per pair of elements, and if the old elements cover a new one its value is in their range up to the same error (exact conservation is refuted: pieces up to 1e-8 are dropped); the interface merge is proved unless the angle at the removed vertex is acute, where it is refuted"
  },
  {
   "property": "C60",
   "status": "proved",
   "theorems": [
    "C60_grid",
    "C60_file_errors",
    "C60_duplicate_face",
    "C60_stream_refuted",
    "C60_parameters_refuted",
    "C60_stream"
   ],
   "note": "The parser of dune-grid is external: its result is a parameter. Findings: a failed parse of a stream is ignored, and element or vertex parameters can never be read."
  },
  {
   "property": "C61",
   "status": "partial",
   "theorems": [
    "C61_value",
    "C61_vertices",
    "C61_continuous",
    "C61_far",
    "C61_moved",
    "C61_interface",
    "C61_move_interface",
    "C61_array",
    "C61_short",
    "C61_array_refuted"
   ],
   "note": "Proved for shifts in C-contiguous arrays with a row for every interface vertex; other arrays are read wrongly (C61_array_refuted, C61_short)."
  },
  {
   "property": "C62",
   "status": "proved",
   "theorems": [
    "C62_value",
    "C62_vertices",
    "C62_continuous",
    "C62_between",
    "C62_error",
    "C62_gradient",
    "C62_utility_jacobian_refuted",
    "C62_utility_jacobian_partial"
   ],
   "note": "The refuted theorem is about a second class (utility.hh) that is not registered in the Python module. The error bound takes exact distances at the vertices, which is C21 (2D)."
  },
  {
   "property": "C63",
   "status": "partial",
   "theorems": [
    "C63_indicator",
    "C63_element_refuted",
    "C63_normal_2d",
    "C63_normal_3d",
    "C63_normal_boundary",
    "C63_normal_refuted",
    "C63_marker",
    "C63_marker_refuted"
   ],
   "note": "Normals need different insertion indices of the neighbours; markers are read without change only for interface elements."
  },
  {
   "property": "C64",
   "status": "partial",
   "theorems": [
    "C64_facets",
    "C64_edges",
    "C64_elements_and_vertices",
    "C64_interface_elements_partial",
    "C64_interface_elements_refuted",
    "C64_seed",
    "C64_created",
    "C64_interface_created"
   ],
   "note": "Interface elements only where the two neighbours have different insertion indices; refuted otherwise."
  },
  {
   "property": "C65",
   "status": "partial",
   "theorems": [
    "C65_parallel",
    "C65_serial",
    "C65_new_facet",
    "C65_parallel_ids_refuted",
    "C65_interface_partial",
    "C65_interface_refuted",
    "C65_no_entry"
   ],
   "note": "Bijective numbering in parallel and on interface grids whose elements have at most one boundary intersection; refuted for elements with two, for boundaryId in parallel and for boundary facets created by adaptation."
  },
  {
   "property": "C66",
   "status": "partial",
   "theorems": [
    "C66_tip",
    "C66_no_tips_in_3d"
   ],
   "note": "1D interfaces in full; in 3D the function returns false for every vertex."
  },
  {
   "property": "C67",
   "status": "partial",
   "theorems": [
    "C67_parallel",
    "C67_operations",
    "C67_rows",
    "C67_adding_refuted",
    "C67_convert",
    "C67_convert_ghosts_refuted",
    "C67_stencil",
    "C67_stencil_refuted",
    "C67_pattern"
   ],
   "note": "Proved for spaces that communicate by copying from the process that counts the dof; refuted for spaces that add, for interface facets between two ghosts and for interface facets on the hull."
  },
  {
   "property": "C68",
   "status": "proved",
   "theorems": [
    "C68_transfer",
    "C68_same_calls",
    "C68_prolong_linear",
    "C68_not_available",
    "C68_interface",
    "C68_interface_on_line",
    "C68_interface_removal"
   ],
   "note": "Non-degenerate fathers, exact arithmetic. In 3D geometryInFather throws."
  },
  {
   "property": "C69",
   "status": "partial",
   "theorems": [
    "C69_sub_entities",
    "C69_interface_elements",
    "C69_interface_faces_refuted",
    "C69_vertex_loops"
   ],
   "note": "Grid, cached elements and interface elements in full; wrong for vertices and edges of the interface grid."
  },
  {
   "property": "C70",
   "status": "partial",
   "theorems": [
    "C70_bulk_partial",
    "C70_interface_partial",
    "C70_edges_refuted"
   ],
   "note": "Elements, facets and vertices of the bulk grid, elements and vertices of the interface grid; refuted for edges in 3D, which are not counted."
  },
  {
   "property": "C71",
   "status": "partial",
   "theorems": [
    "C71_bulk_round",
    "C71_bulk",
    "C71_all_refined_refuted",
    "C71_interface_first",
    "C71_interface_stale_refuted"
   ],
   "note": "Proved for the bulk grid except elements whose refinement edge belongs to the interface (refuted), and for the first round of the interface grid; later rounds of the interface grid repeat old entries (refuted)."
  },
  {
   "property": "C72",
   "status": "proved",
   "theorems": [
    "C72_sides",
    "C72_intersections"
   ],
   "note": "Interface elements in 2D and 3D; incidentFacets is the contract of C42. Elements on ghosts are excluded as in C41. twistInSelf/twistInNeighbor return 0, which is the equality of the corner lists."
  },
  {
   "property": "C73",
   "status": "partial",
   "theorems": [
    "C73_dimension",
    "C73_trace",
    "C73_invalid_side",
    "C73_value_error_refuted"
   ],
   "note": "Everything but the kind of exception for a wrong side: it is a TypeError (refuted). UFL replaces restricted terms by the entries of the dictionary (contract)."
  },
  {
   "property": "C74",
   "status": "partial",
   "theorems": [
    "C74_one_level",
    "C74_no_such_level_refuted",
    "C74_no_father",
    "C74_descendants_refuted",
    "C74_leaf_partial",
    "C74_leaf_refuted",
    "C74_has_entity",
    "C74_interface_entity_refuted",
    "C74_boundary_id"
   ],
   "note": "Proved for level 0, the declared codimensions of the bulk grid, and for isLeaf before an adaptation and after postAdapt. Refuted: iterators of other levels, descendants, isLeaf between adapt and postAdapt, declared codimensions of the interface grid."
  },
  {
   "property": "C75",
   "status": "partial",
   "theorems": [
    "C75_indexed_partial",
    "C75_visible",
    "C75_add_interface_refuted",
    "C75_owner"
   ],
   "note": "Proved for all histories on one process, and on several processes for all histories without addInterface after the last adaptation or load balancing; refuted for addInterface on several processes."
  },
  {
   "property": "C76",
   "status": "partial",
   "theorems": [
    "C76_resolved_partial",
    "C76_flags_partial",
    "C76_plain",
    "C76_segment",
    "C76_append",
    "C76_removal",
    "C76_queued_refuted",
    "C76_crossing_refuted",
    "C76_tip_refuted",
    "C76_unflagged_refuted",
    "C76_contract",
    "C76_contract_constrained",
    "C76_add",
    "C76_move",
    "C76_created",
    "C76_from_creation_partial",
    "C76_created_refuted"
   ],
   "note": "Proved for all histories in which entries are queued for the interface as it is when adapt() runs, crossings hit an uncut element, appended vertices start at the interface; flags also need that interface vertices are removed only between two segments. Each restriction is needed: see the refutations. 2D only."
  },
  {
   "property": "C77",
   "status": "proved",
   "theorems": [
    "C77_refinement",
    "C77_where",
    "C77_where_refuted",
    "C77_on_edge_refuted",
    "C77_outside_refuted",
    "C77_created"
   ],
   "note": "2D. The condition on the new vertices is a hypothesis (points_ok); C77_where derives it from refineEdge's where; the refutations show that it is needed and not checked by the code. That handles denote edges and new vertices are new (entries_ok) is the contract of CGAL, as in C76."
  },
  {
   "property": "C78",
   "status": "partial",
   "theorems": [
    "C78_check_partial",
    "C78_check",
    "C78_fraction",
    "C78_part",
    "C78_move_mesh_partial",
    "C78_solid",
    "C78_part3",
    "C78_passed_over_refuted",
    "C78_twice_refuted",
    "C78_volume"
   ],
   "note": "3D in full. In 2D proved except for elements with a tip opposite to an interface edge, which the check passes over (refuted); for moveMesh moreover only for elements whose moved vertices share their shift (refuted otherwise)."
  },
  {
   "property": "C79",
   "status": "partial",
   "theorems": [
    "C79_boundary",
    "C79_move",
    "C79_checked",
    "C79_checked_vertices",
    "C79_refinement",
    "C79_history",
    "C79_consistent",
    "C79_contract",
    "C79_created",
    "C79_from_creation",
    "C79_boundary_refuted",
    "C79_solid_boundary",
    "C79_solid_move",
    "C79_solid_checked",
    "C79_solid_edge",
    "C79_solid_cell",
    "C79_solid_refinement",
    "C79_solid_history",
    "C79_solid_created",
    "C79_solid_from_creation"
   ],
   "note": "2D and 3D. Removals in 2D meet the contract refills, which the hole filling of C50 meets (C79_contract); in 3D they throw. A point added lies inside the cell located, a new vertex on an edge between its ends. Movements of boundary vertices, which the property leaves out, can make elements overlap although every check passes (C79_boundary_refuted)."
  },
  {
   "property": "C80",
   "status": "partial",
   "theorems": [
    "C80_adapt",
    "C80_adapt_range",
    "C80_component",
    "C80_located",
    "C80_integral",
    "C80_range",
    "C80_second_attempt_refuted",
    "C80_failed_attempt_refuted",
    "C80_history"
   ],
   "note": "Proved in full for adaptations (2D) in which every vertex appended to the interface is connected at the first attempt. Refuted for the second attempt and after a failed second attempt (findings). What CGAL is relied on for is in the hypotheses: the located element, local retriangulation of the hole."
  },
  {
   "property": "C81",
   "status": "partial",
   "theorems": [
    "C81_integral",
    "C81_range",
    "C81_tip",
    "C81_longer_tip_refuted"
   ],
   "note": "2D. Integral and range for every history of refinements and removals; appended segments take the value of the segment they extend only if they are shorter (refuted otherwise). Vertices do not move during the adaptation."
  },
  {
   "property": "C82",
   "status": "partial",
   "theorems": [
    "C82_partial",
    "C82_local",
    "C82_one_at_a_time",
    "C82_completes",
    "C82_race_refuted",
    "C82_wrong_answers_refuted",
    "C82_single_thread"
   ],
   "note": "Proved for every schedule in which threads inside the query at once use different vectors (the interface grid; one thread at a time in the grid itself); refuted for the function-static vector of MMesh::isInterface."
  },
  {
   "property": "C83",
   "status": "partial",
   "theorems": [
    "C83_history_partial",
    "C83_check_refuted",
    "C83_check_undo",
    "C83_numbered",
    "C83_numbered_history",
    "C83_renumbered",
    "C83_unnumbered_refuted",
    "C83_stuck",
    "C83_give_up",
    "C83_retry_refuted",
    "C83_requests",
    "C83_throws"
   ],
   "note": "Tiling, domain and volume survive every history of operations in which adapt may throw and be caught; postAdapt gives all requests up. False: after an adapt that throws with insertions the new elements have no index (C83_unnumbered_refuted); adapt again without postAdapt makes elements of volume zero (C83_retry_refuted); a check that throws leaves the vertices moved (C83_check_refuted), which the negative shifts undo (C83_check_undo)."
  },
  {
   "property": "C84",
   "status": "partial",
   "theorems": [
    "C84_size_partial",
    "C84_size_refuted",
    "C84_types",
    "C84_codim_sizes",
    "C84_interface_size_partial",
    "C84_interface_size_refuted",
    "C84_interface_types"
   ],
   "note": "Missing because false: size(tetrahedron) in 2D and size(triangle) of the interface of a 2D grid read in front of the array of sizes."
  },
  {
   "property": "C85",
   "status": "partial",
   "theorems": [
    "C85_id",
    "C85_id_completes",
    "C85_hash_partial",
    "C85_hash_computed",
    "C85_hash_completes",
    "C85_hash_race_refuted",
    "C85_hash_forever_refuted"
   ],
   "note": "id() in full. hash() for calls that do not overlap and for ids hashed before; refuted for first calls at once. Sequentially consistent memory."
  }
 ]
}