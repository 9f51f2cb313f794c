# Formal model of dune-mmesh in Rocq (Coq 8.16.1)

This file is the plan and the record of the trusted base.  The model is in
`rocq/theories`.  Each topic has up to four files:

* `X_Model.v`  – definitions only; each cites the file and lines in /repo it models,
* `X_Spec.v`   – small independent vocabulary for the statements (when needed),
* `X_Proofs.v` – lemmas,
* `X_Props.v`  – the property theorems, each followed by `Print Assumptions` and by
  an `Example` (or the witness of a `_refuted` theorem) showing that its hypotheses
  are met.

## Conventions

* `std::size_t` values are `Z` or `N` with explicit `mod 2^64` wherever wrap-around
  can matter; coordinates (`double`) are real numbers `R` – *exact arithmetic* – and
  theorems depending on that say so.  Where rounding matters for the claim we say
  what is lost, or refute the claim with binary64 numbers.
* undefined behaviour (out-of-bounds access, uninitialised reads, null
  dereference) and exceptions are distinct outcomes of the modelled functions.
* `std::unordered_map` is modelled by a finite map without order where only
  look-ups matter and by a list *in arbitrary order* where it is iterated.
* the CGAL triangulation, the Dune base classes, MPI and dune-fem are not
  modelled; what the code needs from them are hypotheses of the theorems, listed
  under "Trusted base".
* a property that is false of the code is recorded as a finding: the theorem
  `..._refuted` exhibits a witness in the faithful model, and the part that
  holds is proved with the suffix `_partial`.

## Plan per property

Each entry: what is modelled, how it is proved, where, and the status in MANIFEST.json.

### C01 Entity ids are sound keys
- Model: the record (four slots, size, cached hash) and every member function; size_t wrap-around of the hash written with mod 2^64.
- Proof: Case analysis on sizes, lexicographic induction; invariant 'cache is empty or right' over operation lists.
- Theorems (proved; `MultiId_Props.v`): `C01_ids_behave_like_lists`, `C01_order_strict_total`, `C01_more_than_four_components_refuted`.
- Note: Any client program over ids of at most four components (the largest entity) refines the same program over lists. The third theorem shows the bound is needed.

### C02 Sub-entity numbering follows the reference simplex
- Model: computeCGALIndices as insertion sort by id, the facet and edge formulas as written, subEntity's host indices.
- Proof: Sorting lemmas for arbitrary ids; the finite part (permutations of 3 or 4 corners) is derived from the sortedness for all ids, not enumerated over ids.
- Theorems (proved; `IndexMaps_Props.v`): `C02_vertices_by_increasing_id`, `C02_facets_follow_reference`, `C02_edges_follow_reference`, `C02_facet_numberings_inverse`, `C02_edge_numberings_inverse`, `C02_facet_vertices`, `C02_interface_element`, `C02_interface_edges`, `C02_reference_rows`.
- Note: All vertex id assignments, dimensions 2 and 3, and the interface elements.

### C03 Both sides of a facet agree on its corners
- Model: two cells given by id tuples in any storage order.
- Proof: Canonical order by id is independent of storage order (sorted lists are unique).
- Theorems (proved; `Facets_Props.v`): `C03_sides_agree`, `C03_corners`, `C03_indices_denote_shared_facet`, `C03_edges`.
- Note: Exact real arithmetic; AffineGeometry::global is modelled, dune-geometry itself is not.

### C04 Vertex ids are unique, persistent and never reused
- Model: vertex set with ids and nextVertexId_, operations insert/remove/update.
- Proof: Invariant by induction on the operation list.
- Theorems (proved; `Ids_Props.v`): `C04_ids_never_reused`, `C04_ids_persist`, `C04_ids_total_after_update`, `C04_set_next_overwrites_refuted`.
- Note: The assertion in setNextId is assumed to hold (the refuted theorem shows what happens without it); the counter is unbounded.

### C05 Leaf indices are a consecutive bijection
- Model: update as fold over enumerated entities into association maps.
- Proof: Induction on the enumeration: index map is injective with range 0..n-1.
- Theorems (proved; `Index_Props.v`): `C05_leaf_indices_bijective`, `C05_sub_index_is_index`, `C05_copied_index_set_refuted`.
- Note: Contract: the host iterators list each entity once. The refuted theorem records that a copied index set loses the facet/edge indices.

### C06 Interface indices are a consecutive bijection
- Model: addVertexIndex, indexMap_, edgeIndexMap_ folds (2D,3D).
- Proof: Induction on enumerated facets, invariant linking the nested map and the enumeration.
- Theorems (proved; `Index_Props.v`, `Defaults_Props.v`): `C06_interface_indices_bijective`, `C06_sub_index_is_index`, `C06_foreign`.
- Note: The branch for the invalid entity of an empty interface is not modelled.

### C07 The id of an entity object always denotes its host entity
- Model: heap of entity objects (host, cached id), operations construct/copy/move/assign/query.
- Proof: Invariant where it holds; refutation with a concrete program where assignment leaves the old cache.
- Theorems (partial; `Ids_Props.v`): `C07_id_of_elements_partial`, `C07_id_of_sub_entities_partial`, `C07_assignment_keeps_old_id_refuted`.
- Note: Elements and programs that never assign to an entity whose id was already read are proved; assignment of a sub-entity keeps the cached id, so the full statement is refuted.

### C08 Ids identify entities and subId is the id of the sub-entity
- Model: id = sorted ids of the vertices, subId formulas.
- Proof: Equality of sorted lists vs. equality of vertex sets; subId case analysis.
- Theorems (proved; `IndexMaps_Props.v`): `C08_element_ids_identify`, `C08_facet_ids_identify`, `C08_edge_ids_identify`, `C08_ids_defined`, `C08_sub_ids_2d`, `C08_sub_ids_3d`, `C08_interface_id_is_facet_id`, `C08_interface_sub_ids`.
- Note: Bulk and interface grid.

### C09 The explicit factory builds a consistent neighbourhood structure
- Model: addFacetToMap, createElement, createInfiniteCells as folds over a map from sorted facets to (cell, index).
- Proof: Invariant over the fold; counting argument for facets shared by two.
- Theorems (proved; `Factory_Props.v`, `Created_Props.v`): `C09_neighbours`, `C09_no_undefined`, `C09_contract`.
- Note: 2D and 3D, any history of calls, any order chosen by std::sort; CGAL's is_face/is_cell assumed to find existing cells. C09_contract: meshes whose elements lie on opposite sides of their common facets give triangulations satisfying host_ok, the contract of the traversal theorems.

### C10 The explicit factory normalises the orientation of elements
- Model: orientation test and swap, over reals.
- Proof: Ring identity: the determinant changes sign under a swap.
- Theorems (partial; `Factory_Props.v`): `C10_orientation_partial`, `C10_orientation_3d_refuted`.
- Note: 2D in exact arithmetic; in 3D the given order is kept, so the claim is refuted there

### C11 Insertion indices survive the reordering of elements
- Model: sort of element records by centre.
- Proof: Permutation preserved by sorting; records carry their index.
- Theorems (proved; `Factory_Props.v`): `C11_insertion_index`.
- Note: cells and vertices, with domain markers

### C12 Boundary segments are numbered consecutively without duplicates
- Model: the registration functions with throw as an outcome.
- Proof: Invariant over insertion sequences; refutation for the interface variant.
- Theorems (partial; `Factory_Props.v`, `Registration_Props.v`): `C12_boundary_segments`, `C12_index_of_facet`, `C12_boundary_id`, `C12_count`, `C12_implicit_factory`, `C12_interface_factory`, `C12_interface_boundary_refuted`, `C12_gaps_refuted`, `C12_unregistered_id_refuted`.
- Note: Numbering, boundary ids and markers proved for all histories of the three factories, and the number of segments of the created grid; insertInterfaceBoundarySegment accepts duplicates (refuted); numbers of the created grid may have gaps (refuted); an unregistered boundary facet reports the id of segment 0 (refuted)

### C13 A facet listed in a mesh file is boundary or interface, never both
- Model: the erase loops of createGrid over the hull facets.
- Proof: Set algebra of key erasure.
- Theorems (proved; `Factory_Props.v`): `C13_boundary_or_interface`, `C13_listed`.

### C14 Reading a Gmsh file reproduces the mesh that was written
- Model: the token reader of generate and a printer.
- Proof: print/parse round trip by induction on nodes and elements; count mismatch rejected.
- Theorems (partial; `Gmsh_Props.v`, `GmshAccept_Props.v`): `C14_round_trip`, `C14_accepts`, `C14_counts_partial`, `C14_truncated_refuted`, `C14_grid`, `C14_sections`, `C14_no_number`, `C14_trailing_refuted`, `C14_cut_off`, `C14_bad_coordinate`, `C14_number`, `C14_accepted`, `C14_unknown_type`.
- Note: Round trip for every mesh of simplices written as MSH 2.2 text (arbitrary lines around the sections, extra columns). Wrong counts are rejected. Refuted part: a file truncated right after the element count is not rejected but read beyond an empty vector (C14_truncated_refuted). Text-to-number conversion of coordinates is a contract (coords_ok).

### C15 The structured grid factory covers the box by a regular lattice
- Model: vertex multi-index iteration and coordinates.
- Proof: Mixed radix bijection by induction; real arithmetic bounds.
- Theorems (proved; `Implicit_Props.v`): `C15_lattice`, `C15_box`, `C15_zero_refuted`, `C15_overflow_refuted`.
- Note: C15_zero_refuted and C15_overflow_refuted show that the hypotheses n_j > 0 and int range are needed.

### C16 The implicit factory assigns ids and insertion indices in insertion order
- Model: host insertion as an oracle which returns an existing vertex exactly for an existing point.
- Proof: Induction over the insertion sequence; refutation for duplicates.
- Theorems (proved; `Implicit_Props.v`, `Registration_Props.v`): `C16_insertion_order`, `C16_repeated_points`, `C16_duplicate_refuted`, `C16_element_index`, `C16_segment_twice`.
- Note: For coinciding points the vertex keeps the number of the last insertion (C16_repeated_points).

### C17 Interfaces registered through a factory are interfaces of the grid
- Model: flags and segment keys for the three factories.
- Proof: Invariant; refutation for the implicit factory.
- Theorems (partial; `Factory_Props.v`, `Implicit_Props.v`): `C17_registered`, `C17_interface_factory`, `C17_interface_insertion_index`, `C17_implicit_refuted`, `C17_interface_not_inserted`, `C17_interface_markers`.
- Note: Proved for the explicit factory and for the factory of the interface grid; refuted for the implicit factory, which never flags interface vertices (C17_implicit_refuted).

### C18 Polygon clipping computes the intersection of convex polygons
- Model: clipping loop over reals (exact).
- Proof: Half-plane invariants: convexity arguments over R; soundness and completeness separately.
- Theorems (partial; `Polygon_Props.v`, `Overlap_Props.v`): `C18_inside_is_hull`, `C18_tolerance`, `C18_intersection_partial`, `C18_exact_without_tolerance`, `C18_exact_refuted`, `C18_area`.
- Note: Real coordinates. The returned polygon is convex, contained in the subject and in the clip polygon up to the tolerance 1e-14, and contains every common point that is 1e-14 inside all clip edges; with tolerance 0 it is exactly the intersection. Its area differs from that of the intersection by at most n 1e-14 D/m (n clip edges, D the size of the subject, m the shortest clip edge). The exact claim is refuted for the tolerance of the code.

### C19 polygonArea is the area
- Model: polygonArea fan sum.
- Proof: Ring identities and induction on the vertex list.
- Theorems (proved; `Polygon_Props.v`): `C19_fan`, `C19_triangle`, `C19_few_points`, `C19_rotation`, `C19_translation`, `C19_diagonal`, `C19_reversal`, `C19_sign`.
- Note: Real coordinates, all lists of points.

### C20 Overlap volumes of caching entities are bounded and symmetric
- Model: intersectionVolume.
- Proof: From C18/C19; interface version is min of volumes.
- Theorems (partial; `Polygon_Props.v`, `Overlap_Props.v`): `C20_bounds_partial`, `C20_identity`, `C20_element_bound_refuted`, `C20_cut_set`, `C20_cut_set_volume`, `C20_overlap_area`, `C20_element_bound`, `C20_symmetric`, `C20_tiling`.
- Note: Between 0 and the volume of the cached triangle; the bound by the current element is refuted as stated (tolerance) and proved up to 3e-14 D/m, as are symmetry, equality with the area of the intersection, and additivity over elements that tile the cached triangle (D the size of the cached triangle, m the shortest edge of the element). Cut sets: triangles in both, total volume.

### C21 The 2D distance is the exact distance to the interface
- Model: computeDistance and the min loop.
- Proof: Projection lemma over R (nra), induction over the facets.
- Theorems (proved; `Distance_Props.v`): `C21_segment`, `C21_exact_2d`, `C21_interface_vertices`, `C21_other_vertices_refuted`, `C21_element`, `C21_element_3d`, `C21_maximum`, `C21_estimate_3d`, `C21_exact_3d_refuted`, `C21_interface_element`.
- Note: 2D distance of interior vertices is exact; boundary and corner vertices keep 1e100 unless on the interface (refuted for them); in 3D only an upper estimate (refuted exactness).

### C22 The ratio indicator only asks for what its documentation says
- Model: loop over edges and the decision ladder.
- Proof: Case analysis, induction over the edge list.
- Theorems (proved; `Strategy_Props.v`): `C22_indicator_2d`, `C22_no_coarsening_3d`, `C22_values`, `C22_constructor`, `C22_init`, `C22_documented_minimum_refuted`, `C22_local`, `C22_no_flip_flop`, `C22_distance_scale`.
- Note: Exact characterisation of the indicator; the class comment (0.5 x shortest edge) is refuted.

### C23 Longest edge refinement bisects a longest edge
- Model: argmax loop and midpoint.
- Proof: Loop invariant.
- Theorems (proved; `Strategy_Props.v`): `C23_longest_edge`.
- Note: Longest edge and its midpoint.

### C24 Coarsening removes only removable vertices, by priority
- Model: comparator and first element after sort.
- Proof: Refutation of strict weak order; partial correctness of the choice.
- Theorems (partial; `Strategy_Props.v`): `C24_interface`, `C24_bulk_partial`, `C24_comparator_levels_refuted`, `C24_comparator_constrained_refuted`, `C24_priority_refuted`, `C24_constrained_refuted`, `C24_boundary_flag_straight`, `C24_corner_flag`, `C24_corner_refuted`.
- Note: Interface part full. Bulk: the comparator is no strict weak order, so sort is undefined for mixed levels or flags (refuted); documented priority reversed (refuted); constrained vertices may be returned (refuted). Proved for uniform levels and flags.

### C25 Outer normals
- Model: 2D and 3D formulas.
- Proof: Ring/nra identities over R.
- Theorems (proved; `Normals_Props.v`): `C25_normal_2d`, `C25_opposite_2d`, `C25_normal_3d`, `C25_opposite_3d`, `C25_unit_2d`, `C25_unit_3d`, `C25_interface_segment`, `C25_interface_triangle`, `C25_interface_triangle_sum`, `C25_interface_integration_refuted`.
- Note: For positively oriented host cells (a contract of the triangulation; see C10 for the 3D explicit factory). The scaling of the integration outer normal of interface triangles is refuted.

### C26 Circumcentres and midpoints
- Model: formulas of computeCircumcenter.
- Proof: Field identities over R.
- Theorems (proved; `Sphere_Props.v`): `C26_edge`, `C26_edge_3d`, `C26_triangle`, `C26_tetrahedron`.
- Note: CGAL::circumcenter is a contract (equidistance), met by an explicit formula; uniqueness and independence of the corner order are proved.

### C27 Curvature operator is exact on circles and spheres
- Model: normal equations over lists of points.
- Proof: Uniqueness of solutions of a nonsingular system; points on a sphere satisfy it.
- Theorems (proved; `Sphere_Props.v`): `C27_sphere`, `C27_flat`, `C27_stale_center_refuted`, `C27_small_circle_refuted`.
- Note: Exact when the normal matrix passes the code's absolute regularity test; small circles are refuted; a stale centre is reported on flat parts. FieldMatrix::solve is a contract, met by Cramer's rule.

### C28 Overlapping adaptation zones are merged, disjoint ones kept apart
- Model: the while(markAgain) loop over zones.
- Proof: Termination measure and fixed point characterisation through reachability of zones.
- Theorems (partial; `Marking_Props.v`): `C28_terminates`, `C28_uniform`, `C28_chained_share`, `C28_merge`, `C28_stale_infinite_refuted`, `C28_repeated_adapt_refuted`, `C28_next_adapt`, `C28_post`.
- Note: proved when no cell of a zone carries a number at the start; refuted after postAdapt for infinite cells and for repeated adapt without postAdapt

### C29 Connected components contain the whole affected region
- Model: buildConnectedComponents_ and insertNeighbors_ flood fill.
- Proof: Fuel-free termination measure; soundness and completeness wrt reachability.
- Theorems (partial; `Components_Props.v`, `Caching_Props.v`): `C29_components_partial`, `C29_one_component`, `C29_visit_increasing`, `C29_default_component_refuted`, `C29_cached_partial`.
- Note: components exact, and their caching entities keep id and corners from before the adaptation, iff the ids are met in a suitable order, otherwise UB (finding)

### C30 New elements know the component they replace
- Model: parallel vectors of adapt_, new flags, component numbers.
- Proof: Induction over queues.
- Theorems (partial; `Adapt_Props.v`): `C30_new_elements`, `C30_post`, `C30_failed_refuted`.
- Note: Proved for every lawful history of insertions and removals in which no insertion fails to be connected; C30_failed_refuted: a failed insertion leaves unflagged elements and shifts the component ids of later ones. Cleared by postAdapt for the leaf elements (infinite cells keep their numbers, see C28).

### C31 Refining an interface facet replaces it by its halves
- Model: insertInInterface_ with out-of-bounds as outcome.
- Proof: Map algebra; 3D refutation.
- Theorems (partial; `Segments_Props.v`): `C31_segment`, `C31_3d_refuted`, `C31_other_segment_refuted`.
- Note: 2D proved; in 3D insertInInterface_ reads beyond the two vertex ids of an edge (UB)

### C32 Coarsening the interface merges exactly the two segments
- Model: removeFromInterface_.
- Proof: Map algebra; refutation for tips and junctions.
- Theorems (partial; `Segments_Props.v`): `C32_merge`, `C32_tip_or_junction_refuted`, `C32_marker_refuted`, `C32_undoes_C31`.
- Note: two segments proved; tips and junctions lose their segments (refuted); 3D throws NotImplemented

### C33 addInterface makes exactly one facet an interface facet
- Model: addInterface, isInterface.
- Proof: Map and flag algebra.
- Theorems (proved; `Segments_Props.v`): `C33_add_interface`.

### C34 Marks are stored, returned and reset
- Model: mark histories.
- Proof: Induction over histories; refutation for the interface grid.
- Theorems (partial; `Adapt_Props.v`): `C34_get_mark`, `C34_interface_get_mark_partial`, `C34_no_work`, `C34_post`, `C34_interface_post`, `C34_interface_unmark_refuted`, `C34_post_refuted`, `C34_pre_adapt_refuted`, `C34_pre_adapt`, `C34_interface_mark`, `C34_uninitialised_refuted`, `C34_mark_elements`, `C34_mark_elements_refuted`.
- Note: Bulk part in full, markElements included. Refuted for the interface: mark 0 does not clear, postAdapt of one grid does not clear the other; preAdapt ignores refinement marks and reads uninitialised counters on a new grid.

### C35 Manual refinement requests are queued once
- Model: insert_/remove_ with dedup sets.
- Proof: Induction over request sequences.
- Theorems (proved; `Adapt_Props.v`): `C35_queues`, `C35_requested`, `C35_marked`, `C35_point`, `C35_between`, `C35_first_check`, `C35_second_check_refuted`, `C35_cell_refuted`, `C35_collected`.
- Note: One entry per edge id and per vertex id, one per call for points in cells. Findings: repeated insertVertexInCell is queued repeatedly; the stale-edge check passes wrongly in a second adapt without postAdapt.

### C36 The return value of adapt tells whether the grid changed
- Model: return value.
- Proof: Refutation and partial theorem.
- Theorems (partial; `Adapt_Props.v`): `C36_returns`, `C36_changed_partial`, `C36_removal_refuted`, `C36_skipped_refuted`, `C36_failed_refuted`, `C36_callback_refuted`.
- Note: Exact characterisation of the value; it equals 'changed' if there are only successful insertions. Refuted for removals, skipped entries, failed insertions and for the data handle version.

### C37 Moving vertices back and forth is the identity
- Model: position maps over R; binary64 via Flocq for the refutation.
- Proof: Functional equalities; computed float witness.
- Theorems (proved; `Move_Props.v`): `C37_move`, `C37_order`, `C37_back`, `C37_short`.
- Note: In the plane, exact arithmetic; both functions are the same loop over their vertices and indices.

### C38 Checking a movement does not move the mesh
- Model: ensure* with exceptional exit as outcome.
- Proof: Induction over vertices.
- Theorems (partial; `Move_Props.v`): `C38_vertices`, `C38_interface_partial`, `C38_exception`, `C38_safe_refuted`, `C38_interface_queued_refuted`, `C38_exception_moves_refuted`, `C38_corner_refuted`, `C38_flag_refuted`, `C38_volume`, `C38_two_edges`, `C38_crossing`, `C38_third_vertex`.
- Note: ensureVertexMovement in full (with the flag as computed); ensureInterfaceMovement restores positions whenever it returns, but may queue interface vertices, leaves vertices moved on exceptions, and is undefined for interface edges opposite to a corner.

### C39 Intersection iteration visits every facet exactly once
- Model: the iterator as a state machine.
- Proof: The produced list equals the filtered descending facet list.
- Theorems (proved; `Traversal_Props.v`, `Created_Props.v`): `C39_intersections`, `C39_created`.
- Note: Intersection iterator (leafintersectioniterator) on an arbitrary triangulation satisfying host_ok; C39_created discharges host_ok for grids made by the explicit factory.

### C40 Interface iteration visits every interface facet and vertex exactly once
- Model: iterators with visited set.
- Proof: Induction over host enumerations.
- Theorems (partial; `Traversal_Props.v`, `Created_Props.v`): `C40_elements_partial`, `C40_vertices`, `C40_created`, `C40_boundary_refuted`.
- Note: Vertices part holds for both flags, elements part for facets between two elements; includeBoundary=true is ignored by interfaceElements (refuted). C40_created: end to end from the insertInterface calls, no contract on the triangulation.

### C41 Interface grid traversal
- Model: interface leaf iterator and intersection iterator, hash map as list in arbitrary order.
- Proof: Permutation arguments.
- Theorems (partial; `Traversal_Props.v`, `CreatedIface_Props.v`): `C41_leaf_partial`, `C41_leaf_refuted`, `C41_intersections`, `C41_ghost_intersections`, `C41_created`.
- Note: Intersection part holds in full. The leaf iterator visits each facet once only if insertion indices order the two sides (refuted for elements created by adaptation and for infinite sides).

### C42 Incident iterators
- Model: circulator as a list.
- Proof: Filter lemmas.
- Theorems (proved; `Traversal_Props.v`): `C42_incident`, `C42_interface_elements`.
- Note: CGAL circulators / incident lists enter as lists; that CGAL delivers the incident entities is a hypothesis (visits_each circ incident).

### C43 Partition iterators partition the entities
- Model: contains/partitionType and leaf iteration.
- Proof: Filter lemmas.
- Theorems (proved; `Traversal_Props.v`, `Created_Props.v`): `C43_elements`, `C43_entities`, `C43_partitions`, `C43_created`.
- Note: The stored interior range is required to contain the interior elements (that is C44).

### C44 Load balancing assigns each element to one rank, balanced and contiguous
- Model: getRank with wrap-around.
- Proof: Arithmetic of i*P/N.
- Theorems (partial; `Ranks_Props.v`): `C44_ranks`, `C44_balance_partial`, `C44_balance_3d_refuted`.
- Note: Everything but the balance holds in 2D and 3D; the balance holds in 2D (n = number of elements) and fails in 3D because number_of_cells() counts infinite cells. 64-bit wrap-around modelled; assumes number_of_cells * size < 2^64.

### C45 Ghosts are exactly the facet neighbours of interior elements
- Model: computePartitions on an abstract facet-adjacency mesh.
- Proof: Fold characterisations.
- Theorems (proved; `Partition_Props.v`): `C45_elements`, `C45_interface`, `C45_facets`, `C45_edges`, `C45_vertices`, `C45_interface_sub`, `C45_visible`, `C45_clear_refuted`, `C45_add_interface_refuted`, `C45_clear`.
- Note: Values of all partitions proved for every mesh, rank assignment and previous state; the out-of-range clearing loop at the start is modelled separately and refuted (undefined behaviour in every dimension), and the re-computation in addInterface leaves facets of new ghosts invisible (refuted).

### C46 Ranks agree on what they exchange
- Model: two ranks' views of one mesh.
- Proof: Symmetry of the connectivity condition.
- Theorems (partial; `Comm_Props.v`): `C46_links`, `C46_elements`, `C46_interface_partial`, `C46_interface_refuted`, `C46_exchange`.
- Note: Proved for elements of the grid. For interface elements it holds if at most two ranks meet at each vertex (edge) of the interface and is refuted otherwise.

### C47 Ghost data equals the owner's data after communication
- Model: pack/send/receive/unpack with streams.
- Proof: List induction; independence of message order.
- Theorems (proved; `Comm_Props.v`): `C47_schedule`, `C47_terminates`, `C47_completes`, `C47_forward`, `C47_element_data`, `C47_extra_ghosts_refuted`, `C47_junction_refuted`.
- Note: For any number of forward, backward and All_All calls, any schedule, buffered or synchronous sends. Ghosts that exist only because of the interface are not facet-adjacent to an own element and never updated (refuted); at interface vertices where three ranks meet unpacking reads past the buffer (refuted).

### C48 Object streams return what was written
- Model: buffer, capacity, read/write positions.
- Proof: Invariant over operation lists.
- Theorems (partial; `Stream_Props.v`): `C48_write`, `C48_read`, `C48_reserve`, `C48_queue_partial`, `C48_round_trip`, `C48_streams`, `C48_receive`, `C48_past_end_refuted`, `C48_write_stream`, `C48_eof`.
- Note: Everything but the detection of reads past the end, which is refuted.

### C49 Persistent containers keep data across adaptation
- Model: map by id, sequence counter.
- Proof: Induction over histories; refutation for adapt() without handle.
- Theorems (partial; `Container_Props.v`): `C49_keeps`, `C49_write`, `C49_resize`, `C49_defined`, `C49_noop`, `C49_covered`, `C49_during_adaptation`, `C49_unannounced`, `C49_dummy_sub_ids`, `C49_idummy_sub_ids`, `C49_plain_adapt_refuted`, `C49_add_interface_refuted`, `C49_new_value_refuted`, `C49_stale_refuted`, `C49_dummy_distinct`, `C49_dummy_edges`.
- Note: Proved for all histories in which changes are made by adapt(handle). Fails after adapt() and addInterface, which do not change the sequence number, and for entities made anew with the id of an earlier one; data of vanished entities are never dropped.

### C50 Hole remeshing keeps the triangulation consistent
- Model: triangulation as finite set of triangles with gluing.
- Proof: Edge pairing argument.
- Theorems (partial; `Hole_Props.v`, `HoleInsert_Props.v`): `C50_removal`, `C50_constrained`, `C50_plane`, `C50_bent_refuted`, `C50_removal_3d_refuted`, `C50_nothing_to_glue`, `C50_taken_out`, `C50_insert_in_cell`, `C50_insert_in_edge`, `C50_removal_from_consistent`, `star_fills`.
- Note: Removal of a vertex, with and without interface, given that CGAL fills every simple closed hole (fan_fills shows that the contract can be met); insertion into a cell or an edge, given that CGAL joins the new vertex to the facets around (star_fills shows that the contract can be met). The geometric quality of the filling is CGAL's. The constrained removal needs the link to be split by the line through the two interface neighbours; C50_bent_refuted shows it fails otherwise.

### C51 asIntersection and asInterfaceEntity are inverse
- Model: mirror of host facets, insertion index comparison.
- Proof: Involution.
- Theorems (partial; `Host_Props.v`, `CreatedIface_Props.v`): `C51_inverse_partial`, `C51_same_from_both_sides_partial`, `C51_boundary_seen_from_inside`, `C51_equal_indices_refuted`, `C51_created`.
- Note: Holds when the insertion indices of the two cells differ; refuted for equal (never assigned) indices.

### C52 Iterative coupling reports convergence truthfully
- Model: the loop over an arbitrary step function.
- Proof: Induction on the iteration count.
- Theorems (partial; `Solve_Props.v`): `C52_iterative`, `C52_total`, `C52_fixed_point`, `C52_contraction`, `C52_aitken`, `C52_accelerated`, `C52_f_tol_partial`, `C52_f_tol_refuted`, `C52_iterations_refuted`, `C52_callback_refuted`, `C52_monolithic`, `C52_norm`.
- Note: Truthful convergence report, bound on sweeps, fixed points, contraction; f_tol is ignored with the default tol, iter = 0 raises, the number of iterations is off by one, and the callback is not called before the interface solve. Also the loop of monolithicSolve.

### C53 The coupled Newton system is assembled consistently
- Model: block offsets and central differences.
- Proof: List/matrix indexing, ring identities.
- Theorems (partial; `Jacobian_Props.v`): `C53_matrix`, `C53_matrix_again`, `C53_solve`, `C53_coupling_b`, `C53_coupling_c`, `C53_affine`, `C53_pattern_refuted`, `C53_shared_refuted`, `C53_quotient_b`, `C53_error_b`, `C53_quotient_c`, `C53_error_c`.
- Note: Block matrix, right-hand side and corrections for every block size and storage; exact derivatives by central differences for degree at most two; dofs restored (exact arithmetic). Fails if the sparsity pattern changes between solves with one object, and for bulk dofs shared by the two sides of an interface element (entries of C doubled).

### C54 moveMesh performs a bounded number of adaptations and moves once
- Model: the two while loops over oracle answers.
- Proof: Induction on remaining rounds.
- Theorems (proved; `MoveMesh_Props.v`): `C54_move_mesh`, `C54_no_callback`, `C54_trace`, `C54_unsafe_refuted`, `C54_twice`, `C54_list_refuted`.
- Note: Bounded rounds, one move by the last shifts, numbers of rounds returned. Findings: after ten rounds the mesh is moved although the last check asked for adaptation; 2 * shifts repeats a Python list.

### C55 Skeleton and trace evaluate at the same physical point
- Model: barycentric evaluation through both sides.
- Proof: From C03.
- Theorems (proved; `Host_Props.v`): `C55_skeleton_same_point`, `C55_skeleton_zero_off_interface`, `C55_trace_same_point`, `C55_bind_entity_keeps_stale_interface_refuted`, `C55_trace_sides`, `C55_unbound`.
- Note: The inverse of the affine side map is a contract; the last theorem records that bind(entity) does not reset the state.

### C56 incidentInterfaceVertices enumerates neighbours along the interface
- Model: incidentInterfaceVertices as the filter of the circulator of incident vertices by isInterface flags.
- Proof: Filter lemmas; a triangulation with two interface vertices joined by a non-interface edge as refutation.
- Theorems (partial; `Traversal_Props.v`): `C56_interface_neighbours_partial`, `C56_connected_refuted`.
- Note: Delivers adjacent vertices lying on the interface, which need not be joined by an interface facet (refuted).

### C57 isInterface of edges and isOnInterface
- Model: isInterface of facets, of edges in 3D (edge of an interface facet) and isOnInterface of elements, over the segment map.
- Proof: Map algebra; existential over segments containing both vertices.
- Theorems (proved; `Segments_Props.v`, `Entities_Props.v`): `C57_edge`, `C57_on_interface`, `C57_interface_grid`.

### C58 New interface elements know what they replace
- Model: The segment map together with the map from new elements to cached old elements; refinement, removal, extension and addition as functions on the pair.
- Proof: Induction over histories with the invariant that components belong to present segments that were created; counterexamples for adjacent removals and repeated extensions.
- Theorems (proved; `IComponents_Props.v`): `C58_components`, `C58_children_old`, `C58_nothing_lost`, `C58_no_failure`, `C58_post`, `C58_add_again`, `C58_father_of_tip`, `C58_adjacent_removal_refuted`, `C58_second_tip_refuted`.
- Note: proved for histories in which no change touches an element created since the last postAdapt (the assertion in removeFromInterface_); without it the claim is refuted

### C59 Data transfer with adapt(handle)
- Model: adapt(handle) of the bulk and interface grids as lists of prolong/restrict calls over CutSetTriangulation; a handle for piecewise constants as semantics.
- Proof: Normal form of the loops as a list of pieces; sums over pieces; bounds from the polygon clipping theorems; for tilings, areas as integrals over vertical lines (Strips_Proofs, Overlap_Proofs): coverings and packings of intervals, then of convex polygons; counterexamples for tiny elements and acute removed vertices.
- Theorems (partial; `Transfer_Props.v`, `Overlap_Props.v`): `C59_flags`, `C59_prolong_first`, `C59_value`, `C59_untouched`, `C59_mass`, `C59_conservative`, `C59_range`, `C59_shared_bound`, `C59_tiny`, `C59_every_element_refuted`, `C59_interface_refine`, `C59_interface_merge`, `C59_interface_untouched`, `C59_interface_removal_partial`, `C59_interface_removal_refuted`, `C59_pieces`, `C59_mass_tiled`, `C59_range_tiled`.
- Note: the call protocol and the values for piecewise constants are proved; if the new elements cover the old ones without overlapping, the integral is kept up to 24e-8 + 3e-14 D/m per pair of elements, and if the old elements cover a new one its value is in their range up to the same error (exact conservation is refuted: pieces up to 1e-8 are dropped); the interface merge is proved unless the angle at the removed vertex is acute, where it is refuted

### C60 Grids from DGF files
- Model: The DGF reader as calls of the modelled explicit factory on the data left by the parser of dune-grid (external); the two constructors and the accessors.
- Proof: Reduction to a history of factory calls and to the theorems about created grids (C09, C12); counterexamples for a stream that cannot be parsed and for parameters.
- Theorems (proved; `Dgf_Props.v`): `C60_grid`, `C60_file_errors`, `C60_duplicate_face`, `C60_stream_refuted`, `C60_parameters_refuted`, `C60_stream`.
- Note: The parser of dune-grid is external: its result is a parameter. Findings: a failed parse of a stream is ignored, and element or vertex parameters can never be read.

### C61 Movement functions agree with the movement
- Model: The two functions compiled from the Python module, the reading of the array through its pointer, and the linear interpolation of MultiLinearGeometry (external).
- Proof: Interpolation identities on simplices; continuity from the facet theorems (C03); composition with moveInterface (C37); counterexample for arrays that are not C-contiguous.
- Theorems (partial; `GridFun_Props.v`): `C61_value`, `C61_vertices`, `C61_continuous`, `C61_far`, `C61_moved`, `C61_interface`, `C61_move_interface`, `C61_array`, `C61_short`, `C61_array_refuted`.
- Note: Proved for shifts in C-contiguous arrays with a row for every interface vertex; other arrays are read wrongly (C61_array_refuted, C61_short).

### C62 The distance function
- Model: bind, evaluate and jacobian of the class Distance over the stored vertex distances.
- Proof: Convexity of the interpolation; distances are 1-Lipschitz; the jacobian by linearity of the affine map, with the contract that local is inverse to global.
- Theorems (proved; `GridFun_Props.v`): `C62_value`, `C62_vertices`, `C62_continuous`, `C62_between`, `C62_error`, `C62_gradient`, `C62_utility_jacobian_refuted`, `C62_utility_jacobian_partial`.
- Note: The refuted theorem is about a second class (utility.hh) that is not registered in the Python module. The error bound takes exact distances at the vertices, which is C21 (2D).

### C63 Interface indicator, normals and domain markers
- Model: The indicator as a state machine, the normal of asIntersection(entity), the marker lookup with the insertion done by operator[].
- Proof: From the theorems on isInterface (C51) and outer normals (C25); counterexamples for binding to an element, equal insertion indices and facets that are not in the interface.
- Theorems (partial; `GridFun_Props.v`): `C63_indicator`, `C63_element_refuted`, `C63_normal_2d`, `C63_normal_3d`, `C63_normal_boundary`, `C63_normal_refuted`, `C63_marker`, `C63_marker_refuted`.
- Note: Normals need different insertion indices of the neighbours; markers are read without change only for interface elements.

### C64 Entities compare equal exactly if they are the same
- Model: equals of every entity class over host handles, including the mirror facets and the choice of side in the constructor of interface elements; entity(seed).
- Proof: Case analysis on the two sides of a facet, with the contract that cells with a common facet are neighbours (proved for created grids); counterexample for equal insertion indices.
- Theorems (partial; `Entities_Props.v`, `CreatedIface_Props.v`): `C64_facets`, `C64_edges`, `C64_elements_and_vertices`, `C64_interface_elements_partial`, `C64_interface_elements_refuted`, `C64_seed`, `C64_created`, `C64_interface_created`.
- Note: Interface elements only where the two neighbours have different insertion indices; refuted otherwise.

### C65 Boundary segments are numbered one-to-one
- Model: The three ways to fill the map of boundary segments (from the factory, by traversal of the grid in parallel, by traversal of the interface grid) and the readers; insert keeps an old entry while the counter advances.
- Proof: A map filled from a list of distinct keys is a numbering; distinctness from the traversal theorems (C39, C41) and from C64; counterexamples where keys repeat.
- Theorems (partial; `Bseg_Props.v`): `C65_parallel`, `C65_serial`, `C65_new_facet`, `C65_parallel_ids_refuted`, `C65_interface_partial`, `C65_interface_refuted`, `C65_no_entry`.
- Note: Bijective numbering in parallel and on interface grids whose elements have at most one boundary intersection; refuted for elements with two, for boundaryId in parallel and for boundary facets created by adaptation.

### C66 Tips of the interface
- Model: The loop of isTip over the circulator of edges with the test for infinite edges and the count of interface edges.
- Proof: Counting lemma over a list that visits each edge at the vertex once; uniqueness of the counted segment.
- Theorems (partial; `Entities_Props.v`): `C66_tip`, `C66_no_tips_in_3d`.
- Note: 1D interfaces in full; in 3D the function returns false for every vertex.

### C67 The iterative monolithic solver gives the same result on any number of processes
- Model: The block operator, scalar product, communication and solve on np processes; a solver as a program over operator application, scaled addition, scalar products, norms and linear combinations that may branch on every real number it gets; both stencils, the visits of assembleC and convert.
- Proof: Simulation between the processes and one process, by induction on the program; complete rows of the coupling block from the sum formula of C46; counterexamples for communication that adds, for an interface facet between two ghosts and for one on the hull.
- Theorems (partial; `Krylov_Props.v`): `C67_parallel`, `C67_operations`, `C67_rows`, `C67_adding_refuted`, `C67_convert`, `C67_convert_ghosts_refuted`, `C67_stencil`, `C67_stencil_refuted`, `C67_pattern`.
- Note: Proved for spaces that communicate by copying from the process that counts the dof; refuted for spaces that add, for interface facets between two ghosts and for interface facets on the hull.

### C68 The data handle sees sons at their true position in the father
- Model: Entity objects with their members (leaf flag, handle, stored corners, bound father), caching entities, cut-set triangles, copies, bindFather, both geometryInFather and the two adapt(handle) loops with the entities as the data handle sees them.
- Proof: Algebra of affine maps; invariant of the loops (every recorded call has a son bound to its father); erasing the entities gives the calls of C59; orthogonal projection for segments.
- Theorems (proved; `Father_Props.v`): `C68_transfer`, `C68_same_calls`, `C68_prolong_linear`, `C68_not_available`, `C68_interface`, `C68_interface_on_line`, `C68_interface_removal`.
- Note: Non-degenerate fathers, exact arithmetic. In 3D geometryInFather throws.

### C69 Numbers of sub-entities
- Model: The two integer loops of subEntities and the constants of the interface grid.
- Proof: The loops compute a falling factorial divided by a factorial, which is the binomial coefficient; the latter counts the faces.
- Theorems (partial; `Father_Props.v`): `C69_sub_entities`, `C69_interface_elements`, `C69_interface_faces_refuted`, `C69_vertex_loops`.
- Note: Grid, cached elements and interface elements in full; wrong for vertices and edges of the interface grid.

### C70 Numbers of ghost entities
- Model: ghostSize of both grids over the modelled leaf iterators.
- Proof: From the theorems on the iterators (C43, C41) and a filter lemma; edges in 3D as refutation.
- Theorems (partial; `Whole_Props.v`): `C70_bulk_partial`, `C70_interface_partial`, `C70_edges_refuted`.
- Note: Elements, facets and vertices of the bulk grid, elements and vertices of the interface grid; refuted for edges in 3D, which are not counted.

### C71 Global refinement
- Model: Both globalRefine loops over marks, queues and elements as in C34-C36; what the strategies, ids and CGAL answer in each round is arbitrary.
- Proof: Invariant of the collecting loop (one entry per edge id); induction over the rounds; refutations for elements at the interface and for what remains in the queues of the bulk grid.
- Theorems (partial; `Whole_Props.v`): `C71_bulk_round`, `C71_bulk`, `C71_all_refined_refuted`, `C71_interface_first`, `C71_interface_stale_refuted`.
- Note: Proved for the bulk grid except elements whose refinement edge belongs to the interface (refuted), and for the first round of the interface grid; later rounds of the interface grid repeat old entries (refuted).

### C72 Both sides of an interface intersection agree
- Model: Local geometries, indexInOutside and geometry of interface intersections on the entity model of C03 and the iterator of C41.
- Proof: Corners of an element are the vertices of the facet by increasing id, so the shared facet has the same corners in the same order on both sides; composed with C41 for every intersection visited.
- Theorems (proved; `IfLocal_Props.v`): `C72_sides`, `C72_intersections`.
- Note: Interface elements in 2D and 3D; incidentFacets is the contract of C42. Elements on ghosts are excluded as in C41. twistInSelf/twistInNeighbor return 0, which is the equality of the corner lists.

### C73 Python entry points choose the right dimension and side
- Model: Dispatch of mmesh, the dictionary of trace and its side argument on top of the TraceGF model of C55. UFL and code generation are external.
- Proof: Case analysis of the arguments, composed with the two sides of the trace (C55_trace_sides); the exception for a wrong side is refuted to be a ValueError.
- Theorems (partial; `PyApi_Props.v`): `C73_dimension`, `C73_trace`, `C73_invalid_side`, `C73_value_error_refuted`.
- Note: Everything but the kind of exception for a wrong side: it is a TypeError (refuted). UFL replaces restricted terms by the entries of the dictionary (contract).

### C74 One level, leaf elements and declared capabilities
- Model: The level queries of both grids, the hierarchic iterators on the iteration scheme of Iter.v, isLeaf over the flags of C30, hasEntity and the boundary ids given to dune-fem.
- Proof: Case analysis; isLeaf from the characterisation of the flag isNew over all adaptations (C30); five refutations.
- Theorems (partial; `Levels_Props.v`): `C74_one_level`, `C74_no_such_level_refuted`, `C74_no_father`, `C74_descendants_refuted`, `C74_leaf_partial`, `C74_leaf_refuted`, `C74_has_entity`, `C74_interface_entity_refuted`, `C74_boundary_id`.
- Note: Proved for level 0, the declared codimensions of the bulk grid, and for isLeaf before an adaptation and after postAdapt. Refuted: iterators of other levels, descendants, isLeaf between adapt and postAdapt, declared codimensions of the interface grid.

### C75 Indices are up to date after every operation
- Model: A state machine over mesh, ranks, partitions and index sets of both grids, composed of the models of C05, C44 and C45; operations in the order of the code; what CGAL leaves in the cells after an adaptation is arbitrary.
- Proof: Induction over the history with the invariant that all partitions are set and, unless addInterface came last, that the index maps number the present leaf view; elements of the leaf view by C45. Counterexample for addInterface.
- Theorems (partial; `Fresh_Props.v`): `C75_indexed_partial`, `C75_visible`, `C75_add_interface_refuted`, `C75_owner`.
- Note: Proved for all histories on one process, and on several processes for all histories without addInterface after the last adaptation or load balancing; refuted for addInterface on several processes.

### C76 The mesh resolves the interface at all times
- Model: Triangulation (triples of vertices), positions, interface flags and segments in one state; one step per queued entry as in adapt_, removals, addInterface, movement. CGAL answers (located face, new vertex, faces left by a removal) are data constrained by contracts; the contract of removals is derived from the remeshing theorems of C50.
- Proof: Invariant by induction over the history: every segment is an edge between flagged vertices. An extension relation tracks which vertices and edges survive the earlier entries of the same adaptation. Counterexamples for entries queued before addInterface, crossings of interfaces, tips and addToInterface away from the interface.
- Theorems (partial; `Resolve_Props.v`, `ResolveCreated_Props.v`): `C76_resolved_partial`, `C76_flags_partial`, `C76_plain`, `C76_segment`, `C76_append`, `C76_removal`, `C76_queued_refuted`, `C76_crossing_refuted`, `C76_tip_refuted`, `C76_unflagged_refuted`, `C76_contract`, `C76_contract_constrained`, `C76_add`, `C76_move`, `C76_created`, `C76_from_creation_partial`, `C76_created_refuted`.
- Note: Proved for all histories in which entries are queued for the interface as it is when adapt() runs, crossings hit an uncut element, appended vertices start at the interface; flags also need that interface vertices are removed only between two segments. Each restriction is needed: see the refutations. 2D only.

### C77 Refinement keeps the domain and the shape of the interface
- Model: The model of C76 with real coordinates; insert_in_edge and insert_in_face (CGAL) replace faces by pieces.
- Proof: Each face is replaced by pieces of the same total area which cover the same points (barycentric coordinates); lifted to the whole list of faces and, with the invariant of C76, to all entries by induction. Counterexamples for where = 2, a point on an edge and a point outside.
- Theorems (proved; `Refine_Props.v`, `ResolveCreated_Props.v`): `C77_refinement`, `C77_where`, `C77_where_refuted`, `C77_on_edge_refuted`, `C77_outside_refuted`, `C77_created`.
- Note: 2D. The condition on the new vertices is a hypothesis (points_ok); C77_where derives it from refineEdge's where; the refutations show that it is needed and not checked by the code. That handles denote edges and new vertices are new (entries_ok) is the contract of CGAL, as in C76.

### C78 A movement that passes the check keeps the elements positively oriented
- Model: The models of C38 (2D check) and C54 (moveMesh), and the check in 3D. moveMesh is run on a grid with the check and the movement of the model; getShifts and adapt are arbitrary.
- Proof: A check that reports no change left the state alone, so every element was tested at the moved positions (induction over the elements); the volume is a polynomial in the fraction of the shifts, linear if the moved vertices of the element share their shift. Counterexamples for an element passed over and for twice the shifts.
- Theorems (partial; `MoveSafe_Props.v`): `C78_check_partial`, `C78_check`, `C78_fraction`, `C78_part`, `C78_move_mesh_partial`, `C78_solid`, `C78_part3`, `C78_passed_over_refuted`, `C78_twice_refuted`, `C78_volume`.
- Note: 3D in full. In 2D proved except for elements with a tip opposite to an interface edge, which the check passes over (refuted); for moveMesh moreover only for elements whose moved vertices share their shift (refuted otherwise).

### C79 The elements tile the domain
- Model: The grids and operations of C76 and C77 (2D), with the checks of movements of C38 and C78, the hole filling of C50 and the created grids of C12. A grid is a tiling if its faces, those with the infinite vertex included, run through every edge as often in one direction as in the other, its elements are positively oriented, and no point is an inner point of two elements. In 3D (Solid_Model) a grid is a list of tetrahedra; adapt (edges cut, cells cut, removals that throw), the movements and the check.
- Proof: The number of elements around a point off the edges is a sum over the edges at the infinite vertex (winding number along a ray; the inner edges cancel), hence depends on the boundary alone; points on edges are limits of points off them. The total area is such a sum as well. In 3D the number is a sum over the oriented facets a ray from the point crosses (a table of signs, decided by computation and applied to all reals); the facets of two neighbours cancel; a point off the planes through facets and the planes through edges parallel to the ray exists near every point. Cut cells: volumes of the pieces as functions of the cut cell (barycentric coordinates). Induction over the history; counterexample for a boundary vertex that is moved.
- Theorems (partial; `Tiling_Props.v`, `TilingCreated_Props.v`, `TilingMet_Props.v`, `Solid_Props.v`, `SolidCreated_Props.v`): `C79_boundary`, `C79_move`, `C79_checked`, `C79_checked_vertices`, `C79_refinement`, `C79_history`, `C79_consistent`, `C79_contract`, `C79_created`, `C79_from_creation`, `C79_boundary_refuted`, `C79_solid_boundary`, `C79_solid_move`, `C79_solid_checked`, `C79_solid_edge`, `C79_solid_cell`, `C79_solid_refinement`, `C79_solid_history`, `C79_solid_created`, `C79_solid_from_creation`.
- Note: 2D and 3D. Removals in 2D meet the contract refills, which the hole filling of C50 meets (C79_contract); in 3D they throw. A point added lies inside the cell located, a new vertex on an edge between its ends. Movements of boundary vertices, which the property leaves out, can make elements overlap although every check passes (C79_boundary_refuted).

### C80 adapt(handle) keeps the integral of a piecewise constant function
- Model: The grid of C76, C77 and C79, the marking and the components of C28 and C29 and the data transfer of C59, composed: the list newVertices paired with insertComponentIds, the elements removeAndGiveNewElements returns paired with removeComponentIds (Zones_Spec).
- Proof: Invariant over the queue: every element at a stored vertex, at the edge of a waiting entry or at a vertex to be removed lies in old elements of one number. A new element overlaps only elements that were replaced (both meshes are tilings), so it inherits their number. Then the integral over the domain is split into the intersections of old and new elements; the areas of the intersections add up because both meshes tile the same domain.
- Theorems (partial; `Zones_Props.v`, `Mass_Props.v`, `ZonesMet_Props.v`, `ZonesHistory_Props.v`): `C80_adapt`, `C80_adapt_range`, `C80_component`, `C80_located`, `C80_integral`, `C80_range`, `C80_second_attempt_refuted`, `C80_failed_attempt_refuted`, `C80_history`.
- Note: Proved in full for adaptations (2D) in which every vertex appended to the interface is connected at the first attempt. Refuted for the second attempt and after a failed second attempt (findings). What CGAL is relied on for is in the hypotheses: the located element, local retriangulation of the hole.

### C81 The transfer of the interface grid keeps integrals along the interface
- Model: The histories of components of C58 with positions of the vertices (ILength_Spec), followed by the calls of interface adapt(handle) of C59 on the elements as numbered by the leaf view.
- Proof: Invariant over the history: the integrals the elements are due to receive sum up to the old integral; every old element is taken out at most once since components are only made of elements without one. Each element receives what it is due: C59_interface_refine and C59_interface_merge with the lengths of the change.
- Theorems (partial; `ILength_Props.v`): `C81_integral`, `C81_range`, `C81_tip`, `C81_longer_tip_refuted`.
- Note: 2D. Integral and range for every history of refinements and removals; appended segments take the value of the segment they extend only if they are shorter (refuted otherwise). Vertices do not move during the adaptation.

### C82 Queries from several threads
- Model: isInterface(facet) as a machine of steps (test and entry of a vertex, sort, search), any number of threads interleaved by a schedule, the vector of ids at an address given by the thread (Threads_Model).
- Proof: Invariant over schedules: what a busy thread has entered is in its vector, calls returned have the right answer; measure for completion. The shared vector of the grid is refuted by solo runs of two threads one after the other up to the search.
- Theorems (partial; `Threads_Props.v`): `C82_partial`, `C82_local`, `C82_one_at_a_time`, `C82_completes`, `C82_race_refuted`, `C82_wrong_answers_refuted`, `C82_single_thread`.
- Note: Proved for every schedule in which threads inside the query at once use different vectors (the interface grid; one thread at a time in the grid itself); refuted for the function-static vector of MMesh::isInterface.

### C83 Exceptions of a 3D grid can be caught
- Model: The three-dimensional mesh (Solid_Model) with the elements that had been numbered last and the requests for insertion and removal; adapt, postAdapt, movements and checks as steps that return the state left behind and whether an exception was thrown (Fault_Model).
- Proof: Induction over histories, each step by the theorems of C79 and C78; the number of elements grows with every insertion; the vertices left moved by the check and the elements without index are refuted for all states.
- Theorems (partial; `Fault_Props.v`): `C83_history_partial`, `C83_check_refuted`, `C83_check_undo`, `C83_numbered`, `C83_numbered_history`, `C83_renumbered`, `C83_unnumbered_refuted`, `C83_stuck`, `C83_give_up`, `C83_retry_refuted`, `C83_requests`, `C83_throws`.
- Note: Tiling, domain and volume survive every history of operations in which adapt may throw and be caught; postAdapt gives all requests up. False: after an adapt that throws with insertions the new elements have no index (C83_unnumbered_refuted); adapt again without postAdapt makes elements of volume zero (C83_retry_refuted); a check that throws leaves the vertices moved (C83_check_refuted), which the negative shifts undo (C83_check_undo).

### C84 Sizes by geometry type
- Model: The array of sizes filled by update (C05, C06), the two size functions and types; reading in front of the array is undefined behaviour (IndexTypes_Model).
- Proof: The sizes by the theorems of C05 and C06, case analysis over types and codimensions; the type whose codimension would be negative is refuted.
- Theorems (partial; `IndexTypes_Props.v`): `C84_size_partial`, `C84_size_refuted`, `C84_types`, `C84_codim_sizes`, `C84_interface_size_partial`, `C84_interface_size_refuted`, `C84_interface_types`.
- Note: Missing because false: size(tetrahedron) in 2D and size(triangle) of the interface of a 2D grid read in front of the array of sizes.

### C85 Ids and hashes from several threads
- Model: Two machines in which threads make one access to the shared object at a time: hash() with the cache it computes in place, id() with the cached id written slot by slot and copied for the return value (HashThreads_Model).
- Proof: Invariants over all schedules: for id() every slot written holds its final value and the size is written last; for hash() if calls do not overlap or the hash had been computed. Progress by a measure. Two schedules refute the rest, one with a hash that stays wrong.
- Theorems (partial; `HashThreads_Props.v`): `C85_id`, `C85_id_completes`, `C85_hash_partial`, `C85_hash_computed`, `C85_hash_completes`, `C85_hash_race_refuted`, `C85_hash_forever_refuted`.
- Note: id() in full. hash() for calls that do not overlap and for ids hashed before; refuted for first calls at once. Sequentially consistent memory.

## Trusted base

1. **Coq 8.16.1's kernel** (including its `vm_compute` reduction machine, used to
   evaluate the concrete examples and refutation witnesses) and the tools `coqc`,
   `coq_makefile`.  No kernel check is switched off, there are no axioms, admitted
   proofs, plugins, functors or module types of our own.
2. **The translation from C++/Python to Gallina.**  Every definition of an
   `X_Model.v` file cites the lines it models and states its simplifications.  The
   translation was done by reading; nothing was extracted or executed.
3. **The contracts listed below** – they are hypotheses of the theorems that need
   them (visible in the statements as premises or section variables), not axioms,
   and beside each theorem an instance meets them.
4. **Axioms of Coq's standard library**, as listed by `Print Assumptions`: only those
   of the real numbers (`ClassicalDedekindReals.sig_forall_dec`,
   `ClassicalDedekindReals.sig_not_dec`,
   `FunctionalExtensionality.functional_extensionality_dep`), and only in theorems
   about real coordinates.

### What `Print Assumptions` lists

* **Closed under the global context (no axioms)** (319 theorems): C01_ids_behave_like_lists, C01_order_strict_total, C01_more_than_four_components_refuted, C02_vertices_by_increasing_id, C02_facets_follow_reference, C02_edges_follow_reference, C02_facet_numberings_inverse, C02_edge_numberings_inverse, C02_facet_vertices, C02_interface_element, C02_interface_edges, C02_reference_rows, C03_indices_denote_shared_facet, C04_ids_never_reused, C04_ids_persist, C04_ids_total_after_update, C04_set_next_overwrites_refuted, C05_leaf_indices_bijective, C05_sub_index_is_index, C05_copied_index_set_refuted, C06_interface_indices_bijective, C06_sub_index_is_index, C06_foreign, C07_id_of_elements_partial, C07_id_of_sub_entities_partial, C07_assignment_keeps_old_id_refuted, C08_element_ids_identify, C08_facet_ids_identify, C08_edge_ids_identify, C08_ids_defined, C08_sub_ids_2d, C08_sub_ids_3d, C08_interface_id_is_facet_id, C08_interface_sub_ids, C09_neighbours, C09_no_undefined, C09_contract, C10_orientation_partial, C10_orientation_3d_refuted, C11_insertion_index, C12_boundary_segments, C12_index_of_facet, C12_boundary_id, C12_count, C12_implicit_factory, C12_interface_factory, C12_interface_boundary_refuted, C12_gaps_refuted, C12_unregistered_id_refuted, C13_boundary_or_interface, C13_listed, C14_round_trip, C14_accepts, C14_counts_partial, C14_truncated_refuted, C14_grid, C14_sections, C14_no_number, C14_trailing_refuted, C14_cut_off, C14_bad_coordinate, C14_number, C14_accepted, C14_unknown_type, C15_lattice, C15_box, C15_zero_refuted, C15_overflow_refuted, C16_insertion_order, C16_repeated_points, C16_duplicate_refuted, C16_element_index, C16_segment_twice, C17_registered, C17_interface_factory, C17_interface_insertion_index, C17_implicit_refuted, C17_interface_not_inserted, C17_interface_markers, C24_interface, C24_corner_refuted, C28_terminates, C28_uniform, C28_chained_share, C28_merge, C28_stale_infinite_refuted, C28_repeated_adapt_refuted, C28_next_adapt, C28_post, C29_components_partial, C29_one_component, C29_visit_increasing, C29_default_component_refuted, C29_cached_partial, C30_new_elements, C30_post, C30_failed_refuted, C31_segment, C31_3d_refuted, C31_other_segment_refuted, C32_merge, C32_tip_or_junction_refuted, C32_marker_refuted, C32_undoes_C31, C33_add_interface, C34_get_mark, C34_interface_get_mark_partial, C34_no_work, C34_post, C34_interface_post, C34_interface_unmark_refuted, C34_post_refuted, C34_pre_adapt_refuted, C34_pre_adapt, C34_interface_mark, C34_uninitialised_refuted, C34_mark_elements, C34_mark_elements_refuted, C35_queues, C35_requested, C35_marked, C35_point, C35_between, C35_first_check, C35_second_check_refuted, C35_cell_refuted, C35_collected, C36_returns, C36_changed_partial, C36_removal_refuted, C36_skipped_refuted, C36_failed_refuted, C36_callback_refuted, C38_third_vertex, C39_intersections, C39_created, C40_elements_partial, C40_vertices, C40_created, C40_boundary_refuted, C41_leaf_partial, C41_leaf_refuted, C41_intersections, C41_ghost_intersections, C41_created, C42_incident, C42_interface_elements, C43_elements, C43_entities, C43_partitions, C43_created, C44_ranks, C44_balance_partial, C44_balance_3d_refuted, C45_elements, C45_interface, C45_facets, C45_edges, C45_vertices, C45_interface_sub, C45_visible, C45_clear_refuted, C45_add_interface_refuted, C45_clear, C46_links, C46_elements, C46_interface_partial, C46_interface_refuted, C46_exchange, C47_schedule, C47_terminates, C47_completes, C47_forward, C47_element_data, C47_extra_ghosts_refuted, C47_junction_refuted, C48_write, C48_read, C48_reserve, C48_queue_partial, C48_round_trip, C48_streams, C48_receive, C48_past_end_refuted, C48_write_stream, C48_eof, C49_keeps, C49_write, C49_resize, C49_defined, C49_noop, C49_covered, C49_during_adaptation, C49_unannounced, C49_dummy_sub_ids, C49_idummy_sub_ids, C49_plain_adapt_refuted, C49_add_interface_refuted, C49_new_value_refuted, C49_stale_refuted, C49_dummy_distinct, C49_dummy_edges, C50_removal, C50_removal_3d_refuted, C50_nothing_to_glue, C50_taken_out, C50_insert_in_cell, C50_insert_in_edge, C50_removal_from_consistent, star_fills, C51_inverse_partial, C51_same_from_both_sides_partial, C51_boundary_seen_from_inside, C51_equal_indices_refuted, C51_created, C54_move_mesh, C54_no_callback, C54_trace, C54_unsafe_refuted, C54_twice, C54_list_refuted, C55_skeleton_zero_off_interface, C55_unbound, C56_interface_neighbours_partial, C56_connected_refuted, C57_edge, C57_on_interface, C57_interface_grid, C58_components, C58_children_old, C58_nothing_lost, C58_no_failure, C58_post, C58_add_again, C58_father_of_tip, C58_adjacent_removal_refuted, C58_second_tip_refuted, C60_grid, C60_file_errors, C60_duplicate_face, C60_stream_refuted, C60_parameters_refuted, C60_stream, C63_marker, C63_marker_refuted, C64_facets, C64_edges, C64_elements_and_vertices, C64_interface_elements_partial, C64_interface_elements_refuted, C64_seed, C64_created, C64_interface_created, C65_parallel, C65_serial, C65_new_facet, C65_parallel_ids_refuted, C65_interface_partial, C65_interface_refuted, C65_no_entry, C66_tip, C66_no_tips_in_3d, C67_convert, C67_convert_ghosts_refuted, C67_stencil, C67_stencil_refuted, C67_pattern, C69_sub_entities, C69_interface_elements, C69_interface_faces_refuted, C69_vertex_loops, C70_bulk_partial, C70_interface_partial, C70_edges_refuted, C71_bulk_round, C71_bulk, C71_all_refined_refuted, C71_interface_first, C71_interface_stale_refuted, C73_dimension, C73_invalid_side, C73_value_error_refuted, C74_one_level, C74_no_such_level_refuted, C74_no_father, C74_descendants_refuted, C74_leaf_partial, C74_leaf_refuted, C74_has_entity, C74_interface_entity_refuted, C74_boundary_id, C75_indexed_partial, C75_visible, C75_add_interface_refuted, C75_owner, C76_contract, C76_contract_constrained, C79_consistent, C82_partial, C82_local, C82_one_at_a_time, C82_completes, C82_race_refuted, C82_wrong_answers_refuted, C82_single_thread, C84_size_partial, C84_size_refuted, C84_types, C84_codim_sizes, C84_interface_size_partial, C84_interface_size_refuted, C84_interface_types, C85_id, C85_id_completes, C85_hash_partial, C85_hash_computed, C85_hash_completes, C85_hash_race_refuted, C85_hash_forever_refuted.
* **`sig_forall_dec`** (11 theorems): C37_move, C37_order, C37_short, C53_matrix, C53_matrix_again, C53_pattern_refuted, C61_array, C61_short, C63_element_refuted, C76_tip_refuted, C79_contract.
* **`classic`** (1 theorems): C76_removal.
* **`sig_forall_dec`, `functional_extensionality_dep`** (166 theorems): C03_sides_agree, C03_corners, C03_edges, C18_inside_is_hull, C18_tolerance, C18_intersection_partial, C18_exact_without_tolerance, C18_exact_refuted, C19_fan, C19_triangle, C19_few_points, C19_rotation, C19_translation, C19_diagonal, C19_reversal, C19_sign, C20_bounds_partial, C20_identity, C20_element_bound_refuted, C20_cut_set, C20_cut_set_volume, C21_element, C21_element_3d, C21_maximum, C22_indicator_2d, C22_no_coarsening_3d, C22_values, C22_constructor, C22_init, C22_documented_minimum_refuted, C22_local, C22_no_flip_flop, C22_distance_scale, C24_bulk_partial, C24_comparator_levels_refuted, C24_comparator_constrained_refuted, C24_priority_refuted, C24_constrained_refuted, C25_opposite_2d, C25_interface_triangle, C25_interface_triangle_sum, C26_edge, C26_edge_3d, C26_triangle, C26_tetrahedron, C37_back, C38_vertices, C38_interface_partial, C38_exception, C38_safe_refuted, C38_interface_queued_refuted, C38_exception_moves_refuted, C38_corner_refuted, C38_volume, C38_two_edges, C38_crossing, C52_aitken, C52_f_tol_partial, C52_f_tol_refuted, C52_callback_refuted, C53_solve, C53_coupling_b, C53_coupling_c, C53_shared_refuted, C53_quotient_b, C53_quotient_c, C55_skeleton_same_point, C55_trace_same_point, C55_bind_entity_keeps_stale_interface_refuted, C55_trace_sides, C59_flags, C59_prolong_first, C59_value, C59_untouched, C59_mass, C59_conservative, C59_range, C59_shared_bound, C59_tiny, C59_every_element_refuted, C59_interface_refine, C59_interface_merge, C59_interface_untouched, C61_value, C61_vertices, C61_continuous, C61_far, C61_moved, C61_interface, C61_move_interface, C61_array_refuted, C62_value, C62_vertices, C62_continuous, C62_between, C62_gradient, C62_utility_jacobian_refuted, C62_utility_jacobian_partial, C63_indicator, C67_rows, C68_transfer, C68_prolong_linear, C68_not_available, C68_interface_on_line, C68_interface_removal, C72_sides, C72_intersections, C73_trace, C76_plain, C76_segment, C76_append, C76_queued_refuted, C76_crossing_refuted, C76_unflagged_refuted, C76_add, C76_move, C76_created, C76_created_refuted, C77_refinement, C77_where, C77_where_refuted, C77_on_edge_refuted, C77_outside_refuted, C77_created, C78_check_partial, C78_check, C78_fraction, C78_part, C78_move_mesh_partial, C78_solid, C78_part3, C78_passed_over_refuted, C78_twice_refuted, C78_volume, C79_boundary, C79_move, C79_checked, C79_checked_vertices, C79_refinement, C79_created, C79_boundary_refuted, C79_solid_boundary, C79_solid_move, C79_solid_checked, C79_solid_edge, C79_solid_cell, C79_solid_refinement, C79_solid_history, C79_solid_created, C79_solid_from_creation, C80_component, C80_located, C80_second_attempt_refuted, C80_failed_attempt_refuted, C83_history_partial, C83_check_refuted, C83_check_undo, C83_numbered, C83_numbered_history, C83_renumbered, C83_unnumbered_refuted, C83_stuck, C83_give_up, C83_retry_refuted, C83_requests, C83_throws.
* **`sig_forall_dec`, `sig_not_dec`, `functional_extensionality_dep`** (63 theorems): C18_area, C20_overlap_area, C20_element_bound, C20_symmetric, C20_tiling, C21_segment, C21_exact_2d, C21_interface_vertices, C21_other_vertices_refuted, C21_estimate_3d, C21_exact_3d_refuted, C21_interface_element, C23_longest_edge, C24_boundary_flag_straight, C24_corner_flag, C25_normal_2d, C25_normal_3d, C25_opposite_3d, C25_unit_2d, C25_unit_3d, C25_interface_segment, C25_interface_integration_refuted, C27_sphere, C27_flat, C27_stale_center_refuted, C27_small_circle_refuted, C38_flag_refuted, C50_constrained, C50_plane, C50_bent_refuted, C52_iterative, C52_total, C52_fixed_point, C52_contraction, C52_accelerated, C52_iterations_refuted, C52_monolithic, C52_norm, C53_affine, C59_interface_removal_partial, C59_interface_removal_refuted, C59_pieces, C59_mass_tiled, C59_range_tiled, C62_error, C63_normal_2d, C63_normal_3d, C63_normal_boundary, C63_normal_refuted, C67_parallel, C67_operations, C67_adding_refuted, C68_same_calls, C68_interface, C80_adapt, C80_adapt_range, C80_integral, C80_range, C80_history, C81_integral, C81_range, C81_tip, C81_longer_tip_refuted.
* **`sig_forall_dec`, `classic`, `functional_extensionality_dep`** (5 theorems): C76_resolved_partial, C76_flags_partial, C76_from_creation_partial, C79_history, C79_from_creation.
* **`sig_forall_dec`, `sig_not_dec`, `classic`, `functional_extensionality_dep`** (2 theorems): C53_error_b, C53_error_c.

### Contracts of code outside the repository

* **CGAL triangulation** (`host_ok`, `connected`, `Delaunay`-free): the neighbour
  relation is symmetric and neighbouring cells share exactly the facet they are
  neighbours through; finite iterators list every finite entity once; circulators and
  incident lists list the incident entities (`visits_each`); `insert` returns the
  existing vertex exactly for an existing point; `is_face`/`is_cell` find existing
  cells (`complete_search`); finite cells are positively oriented (only C25); the
  hole of a removed vertex is filled by triangles that use its boundary once
  (C50: `fills`); `CGAL::circumcenter` is equidistant (C26).  For grids made by the
  explicit factory it is a theorem, not an assumption (`C09_contract`).
* **std::sort** returns a permutation, sorted if the comparator is a strict weak
  order; `std::unordered_map` is iterated in an unspecified order.
* **Dune**: `AffineGeometry::global` is the barycentric combination (modelled), its
  inverse is a left inverse (C55); `FieldMatrix::solve` solves regular systems (C27).
* **MPI**: non-blocking sends and receives deliver each message once, in order per
  pair of ranks, in any interleaving (`Net.v`: small-step semantics over all
  schedules, buffered or synchronous sends).
* **dune-fem / Python side**: assembled operators, linear solvers and schemes are
  arbitrary functions (C52, C53, C54).
* **text to number conversion** of the Gmsh reader (`coords_ok`, C14).

### Simplifications that apply throughout

* Coordinates are exact (`R` or `Q`).  Rounding is outside the model except where the
  code's tolerances are constants of the algorithm (polygon clipping, curvature).
* `std::size_t` is `nat`/`N` unless wrap-around is the point (hashes, load balancing,
  structured factory, ids at the maximum), where `mod 2^64` is written out.
* Handles (`Vertex_handle`, `Face_handle`) are natural numbers; dereferencing a null or
  dangling handle and reading outside a container is the outcome `UB`.
* Static polymorphism: templates are modelled per dimension or with `dim` as a
  parameter; `assert`s are either modelled as contracts or as outcomes, as the comment
  of the definition says.
* No threads except in C82: dune-mmesh's own code is single-threaded per rank; the
  query `isInterface`, whose vector of ids is function-static, is modelled as run by
  several threads with sequentially consistent memory (Threads).

### Modelled code

| file (dune/mmesh unless stated) | what is modelled | in |
|---|---|---|
| grid/mmesh.hh, interface/grid.hh | ghostSize, overlapSize, globalRefine | Whole |
| grid/multiid.hh | all of it | MultiId, HashThreads |
| cgal/defaults.hh | info structures, computeCGALIndices | IndexMaps, Ids |
| cgal/triangulationwrapper.hh | removeAndGiveNewElements, remeshing of the hole with and without constraint | Hole |
| grid/mmesh.hh insertInEdge_, insertInCell_ (2D) | faces and neighbours, CGAL's joining of the vertex to the hole as a contract | HoleInsert |
| grid/mmesh.hh adapt_, postAdapt, ensureInterfaceMovement (3D) up to an exception | state left behind, requests, numbered elements; no marks, components, ids | Fault |
| grid/common.hh, interface/common.hh | index maps of sub-entities | IndexMaps |
| grid/entity.hh, interface/entity.hh | ids, caching of ids, sub-entities, vertex numbering, isOnInterface, mark / getMark, asIntersection | IndexMaps, Ids, Host, Adapt, Segments |
| grid/entity.hh, interface/entity.hh, grid/entityseed.hh | equals, seed, isTip; interface/grid.hh isInterface | Entities |
| grid/mmesh.hh setIndices, interface/grid.hh setIndices | boundary segments | Bseg |
| grid/entity.hh, grid/cachingentity.hh, interface/entity.hh, interface/cachingentity.hh | fathers, cached geometry, numbers of sub-entities | Father |
| dune/python/mmesh/jacobian_iterative.hh | the parallel operator, scalar product and solve, both stencils, convert (its finite differences are those of jacobian.hh) | Krylov |
| grid/indexsets.hh, interface/indexsets.hh | index maps and updates, id sets, subId, subIndex, size, types, copy | Index, Ids, IndexMaps, IndexTypes |
| grid/explicitgridfactory.hh | all insertions, createGrid with neighbours, infinite cells, interface flags | Factory |
| grid/implicitgridfactory.hh, interface/gridfactory.hh | insertions, createGrid | Implicit |
| grid/structuredgridfactory.hh | the whole construction | Implicit |
| grid/gmshgridfactory.hh | the reader | Gmsh |
| grid/leafiterator.hh, interface/leafiterator.hh, grid/interfaceiterator.hh, grid/intersectioniterator.hh, interface/intersectioniterator.hh, grid/incidentiterator.hh, interface/incidentiterator.hh, grid/rangegenerators.hh (partition ranges) | iteration, begin/end/increment/dereference | Traversal, IfInter, Iter |
| grid/hierarchiciterator.hh, interface/hierarchiciterator.hh, level queries of both grids, isLeaf, hasEntity, misc/boundaryidprovider.hh | all | Levels |
| grid/mmesh.hh constructor, update, end of adapt_, addInterface, loadBalance as a history | order of ids, partitions and indices | Fresh |
| grid/mmesh.hh adapt_, addInterface, isInterface, moveVertices on triangulation, flags and segments together (2D) | one step per queued entry | Resolve, Refine |
| grid/mmesh.hh adapt_: newVertices, markElementsAfterInsertion_, markElementsAfterRemoval_, the pairing with insertComponentIds and removeComponentIds (2D) | in full (Zones_Spec); an element is identified by its vertices; parallel partitions left out | C80 |
| grid/mmesh.hh ensureInterfaceMovement, moveInterface, signedVolume_ in 3D | in full (MoveSafe_Model); coordinates real | C78 |
| grid/mmesh.hh adapt_, insertion and removal in 3D; triangulationwrapper.hh removeAndGiveNewElements in 3D | in full for the elements and positions (Solid_Model); CGAL's insert_in_edge and insert_in_cell as cuts of the elements, locate's cell given with its contract (the point is inside); interface edges: undefined (C31); coordinates real | C79 |
| grid/intersections.hh, interface/intersections.hh | inside/outside, boundary, neighbor, indexInInside/Outside, geometryInInside/Outside, outer normals, boundarySegmentIndex, boundaryId | Facets, Host, Normals, Factory, IfInter, IfLocal |
| grid/geometry.hh, interface/geometry.hh | corners, circumcentres, centre | Facets, Sphere |
| grid/mmesh.hh | adapt, adapt_, queues and marks, zones, connected components, postAdapt, insertInInterface_, removeFromInterface_, addInterface, isInterface, moveInterface, moveVertices, ensureInterfaceMovement, ensureVertexMovement, asIntersection, asInterfaceEntity, getHostFacetFromEntity…, setNextId, loadBalance and communicate entry points | Adapt, Marking, Components, Segments, Move, Host, Ids, Ranks, Comm |
| interface/grid.hh | mark, getMark, preAdapt, adapt, postAdapt, indicators, communicate | Adapt, Comm, Container |
| grid/connectedcomponent.hh | insertion of elements, coverage; the caching entities with their ids and corners | Marking, Components, Caching |
| grid/dgfparser.hh | generate, the constructors, parameter; the parser of dune-grid is external | Dgf |
| interface/grid.hh (markAsRefined, hasConnectedComponent, getConnectedComponent, postAdapt), interface/connectedcomponent.hh | components of new interface elements | IComponents |
| grid/mmesh.hh adapt(handle), interface/grid.hh adapt(handle) | the calls of the data handle; after a history of changes of the interface (ILength) | Transfer, ILength |
| grid/mmesh.hh isInterface (facets), interface/grid.hh isInterface, called by several threads | interleaved steps, sequentially consistent | Threads |
| grid/cachingentity.hh, grid/cutsettriangulation.hh, grid/polygoncutting.hh | intersectionVolume, CutSetTriangulation, Sutherland–Hodgman clipping, polygonArea | Polygon |
| interface/curvatureoperator.hh | both layouts, both dimensions | Normals, Sphere |
| remeshing/distance.hh, ratioindicator.hh, longestedgerefinement.hh | all of it | Distance, Strategy |
| misc/partitionhelper.hh | distribution, partitions, connectivity, numbering of links | Ranks, Partition |
| misc/communication.hh | pack, send, receive, unpack for every interface type and direction | Comm, Net |
| misc/objectstream.hh | buffer growth, typed reads and writes, rewinding | Stream |
| misc/persistentcontainer.hh | both specialisations | Container |
| dune/python/mmesh/jacobian.hh | patterns, block matrices, finite differences, solve | Jacobian |
| dune/python/mmesh/pyskeletontrace.hh | SkeletonGF, TraceGF binding and evaluation | Host |
| dune/python/mmesh/distance.hh, utility.hh, python/dune/mmesh/_utility.py | movement functions, distance function, interface indicator, normals, domain markers | GridFun |
| python/dune/mmesh/_grids.py, _skeletontrace.py | mmesh, trace | PyApi |
| python/dune/mmesh/_move.py, _solve.py | moveMesh, iterativeSolve, monolithicSolve | MoveMesh, Solve |

### Not modelled

* interface/dgfparser.hh (every function throws NotImplemented),
  grid/gmshreader.hh (forwards to the Gmsh factory), grid/gridfactory.hh, traits,
  declaration.hh, the constant capabilities of capabilities.hh other than hasEntity, misc/twistutility.hh (zero, which is what C03 and C72 justify).
* CGAL's, Dune's, dune-fem's and MPI's own code (contracts above).
* cached geometries of connected components in interface/connectedcomponent.hh and
  interface/cachingentity.hh (children are represented by their ids, in C81 with the lengths of before); data
  handles other than for piecewise constants.
* dune/python/mmesh/grid.hh and code generation in python/dune/mmesh/_skeletontrace.py.
* floating-point rounding, run time, memory consumption, threads (other than C82, C85).

## Findings

Statements one would expect to hold and that are false of the modelled code.  Each
is a theorem `…_refuted` (or named below) with a concrete witness.

* C01: a MultiId built from more than four numbers writes outside its array.
* C05: the copy constructor of the leaf index set drops the facet and edge indices.
* C07: assignment of a sub-entity keeps the cached id of the old one.
* C10: the explicit factory does not normalise the orientation of tetrahedra.
* C12: insertInterfaceBoundarySegment looks for duplicates among the boundary segments; created boundary numbers may have gaps; an unregistered boundary facet has the index and id of segment 0.
* C14: a Gmsh file truncated after the element count is read out of bounds.
* C14: text that follows the digits of an announced number of nodes or elements is ignored (`C14_trailing_refuted`).
* C15: the structured factory divides by zero if a direction has no cells, and its products overflow int.
* C16: inserting a point twice changes the id of the existing vertex (implicit factory).
* C17: the implicit factory does not flag interface vertices.
* C18: clipping uses the absolute tolerance 1e-14, so the overlap may exceed the intersection.
* C20: the overlap volume may exceed the volume of the element; the orientation test of CutSetTriangulation is truncated to int.
* C21: vertices on the domain boundary keep the distance 1e100; in 3D the distance is only an estimate.
* C22: the class comment says 0.5 times the shortest edge, the code uses 0.25.
* C24: the coarsening comparator is not a strict weak order, reverses the documented priority and may return interface and boundary vertices; the boundary flag of a corner is 0.
* C25: the integration outer normal of interface triangles in 3D does not have the length of the edge.
* C27: small circles fail the absolute regularity test; flat parts report a stale centre.
* C28: postAdapt leaves component numbers in infinite cells, and repeated adapt re-uses numbers: disjoint zones are merged.
* C29: buildConnectedComponents_ default-constructs components whose grid pointer is uninitialised unless the numbers are met in order.
* C30: an insertion that fails shifts the component ids of all later ones.
* C31: insertInInterface_ reads beyond the id of an edge in 3D; edges not on the interface are added with marker 0.
* C32: removeFromInterface_ erases the segments at tips and junctions although the vertex is kept; markers are mixed up.
* C34: mark(0) does not clear a mark of an interface element; postAdapt of one grid does not clear the other; preAdapt ignores refinement marks and queued insertions, and on a new grid it reads counters nobody initialised (C34_uninitialised_refuted); markElements leaves old marks of interface elements (C34_mark_elements_refuted).
* C35: insertVertexInCell queues repeated points repeatedly; the stale-edge test passes in a second adapt.
* C36: adapt() returns a value unrelated to change for removals, skipped or failed insertions and with a data handle.
* C38: ensureInterfaceMovement leaves vertices moved on exceptions, may queue interface vertices for removal, and is undefined at corners.
* C40: interfaceElements ignores includeBoundary.
* C41: interface elements between cells without distinct insertion indices are visited twice or never.
* C44: in 3D the number of infinite cells enters the balance.
* C45: the clearing loop of computePartitions is out of bounds; addInterface leaves facets of new ghosts invisible.
* C46: where three ranks meet at an interface vertex, ranks disagree on what they exchange.
* C47: interface ghosts without facet-adjacent own element are never updated; triple points read wrong buffers.
* C48: reading past the end of an object stream is not detected.
* C49: adapt() without handle and addInterface do not change the sequence number; re-created ids see old data; stale data are never dropped.
* C50: a bent interface leaves a hole part without end vertex (null handle).
* C51: asIntersection(asInterfaceEntity(.)) may return the other side for equal insertion indices.
* C52: iterativeSolve: f_tol ignored by default, iter=0 raises NameError, iterations counted from 0, callback not called before the interface solve.
* C53: the sparsity pattern of the first solve is kept; bulk dofs shared by both sides of an interface element are counted twice.
* C54: after ten rounds the mesh is moved although the last check asked for adaptation; 2*shifts repeats a Python list.
* C55: SkeletonGF::bind(entity) keeps a stale onInterface_.
* C56: incidentInterfaceVertices includes vertices not joined by an interface edge.
* C58: removing two adjacent interface vertices in one adaptation violates an assertion; in release builds the component of the new element lists an element that never carried data and the old ones are lost. Extending a new tip before the interface postAdapt gives the new element an empty component. postAdapt of the bulk grid does not call postAdapt of the interface grid.
* C59: new elements all of whose old elements have volume at most 1e-8 get no call of the data handle and stay uninitialised. On the interface, removing a vertex with an acute angle may make an old element longer than the new one: it is prolonged and the other one is added on top, so a constant 1 becomes 7/4.
* C60: the constructor from a stream ignores a failed parse and grid() then returns an uninitialised pointer; numParameters is 0 whatever the file contains, so parameters can never be read.
* C61: the arrays of shifts are read as if they were C-contiguous; a transposed (Fortran-ordered) array is read as its transpose. With fewer rows than interface vertices memory behind the array is read.
* C62: the jacobian of class DistanceFunction in dune/python/mmesh/utility.hh is the derivative in reference coordinates (that of class Distance in distance.hh is right).
* C63: the interface indicator bound to an element keeps the value of the last intersection; with equal insertion indices of the two neighbours the two representations of an interface facet have opposite normals; asking for the domain marker of a facet that is not in the interface adds it to the interface with marker 0 (release builds).
* C64: with equal insertion indices of the two neighbours, one interface facet obtained from its two sides gives two different elements with the same id.
* C65: boundary segments of the interface grid are keyed by the element instead of the intersection, so the two ends of an isolated element share a number and numbers reach numBoundarySegments(). With several processes boundaryId() looks up the local number among the numbers of the factory. Boundary facets created by an adaptation have the number and id of segment 0 (C65_new_facet).
* C66: in 3D no vertex is a tip (C66_no_tips_in_3d).
* C67: with spaces whose communicate() adds the copies, solve multiplies shared values by the number of copies (C67_adding_refuted); an interface facet between two ghosts makes the setup throw InvalidStateException; for an interface facet on the hull assembleC writes outside the pattern. The initial guess of a solve is the result of the previous one, and the sizes of the system are fixed at construction.
* C68: on the interface, geometryInFather() of an element that was merged away is a projection: it leaves the reference element if an angle at an end is obtuse (C68_interface_removal). A copy of a bound entity is not bound (uninitialised pointer).
* C69: subEntities() of vertices and edges of the interface grid is wrong (C69_interface_faces_refuted).
* C70: ghostSize(2) of a 3D grid and ghostSize(1) of its interface grid are 0 whatever the number of ghost edges (C70_edges_refuted).
* C71: globalRefine leaves elements alone whose refinement edge belongs to the interface (C71_all_refined_refuted); globalRefine of the interface grid never empties the queues of the bulk grid, so that entries of one round are processed again in all later rounds and in the next adapt (C71_interface_stale_refuted).
* C73: trace with an invalid restrictTo raises a TypeError instead of the intended ValueError (the message is a difference of strings).
* C74: descendantElements(e, l) delivers e itself (C74_descendants_refuted); lbegin of a level that does not exist delivers the leaf view (C74_no_such_level_refuted); isLeaf() is false for elements created by an adaptation until postAdapt (C74_leaf_refuted); the interface grid declares entities of every codimension (C74_interface_entity_refuted); boundary ids of the interface grid are always 0.
* C75: on several processes addInterface computes the indices of the interface grid before the partitions, so the new element has no index; bulk elements that become ghosts by it have the index of another element (C75_add_interface_refuted). loadBalance() repairs both.
* C76: refineEdge followed by addInterface of the same edge before adapt: the entry keeps the old flag, the edge is cut and the segment is no longer an edge (C76_queued_refuted). Crossing of two interfaces in ensureInterfaceMovement: the new vertex is joined with v0 without the check done for appended vertices; if another entry cut the element in between, the segment is not an edge (C76_crossing_refuted). Removing a tip or junction takes its segments away but leaves the vertex flagged, and it can never be removed afterwards (C76_tip_refuted). addToInterface at a vertex off the interface stores a segment which isInterface denies (C76_unflagged_refuted).
* C76: createGrid accepts insertInterface for two vertices that no element joins: the segment is stored and its vertices are flagged although it is no edge of the grid (C76_created_refuted).
* C77: refineEdge with where outside (0, 1) turns an element over (C77_where_refuted); insertVertexInCell at a point of an edge creates an element without area (C77_on_edge_refuted); outside of the grid it enlarges the domain (C77_outside_refuted). None of this is checked (in debug builds CGAL's preconditions may stop the first two).
* C78: ensureInterfaceMovement says that nothing has to be done although an element is turned over if all its vertices are on the interface, one of its edges is an interface edge and the opposite vertex, a tip, passes the line of that edge beside it (C78_passed_over_refuted). moveMesh checks twice the shifts but moves by the shifts: an element with two moved vertices may be positive at both ends and turned over in the middle (C78_twice_refuted).
* C79: neither ensureVertexMovement nor ensureInterfaceMovement looks at the boundary of the domain: a boundary vertex may be moved such that every element stays positively oriented and the check reports nothing, and yet two elements overlap (C79_boundary_refuted).
* C80: markElementForInsertion_ marks the element that contains the point of an entry, but if the new vertex is not connected to v0 the second attempt inserts a point halfway, possibly in another element: the new elements are mapped to a component that does not overlap them, the data are lost (C80_second_attempt_refuted). If the second attempt fails, too, `continue` skips newVertices.push_back: all later vertices are paired with the component of the entry before (C80_failed_attempt_refuted).
* C81: a segment appended to an interface segment and longer than it is given the value of that segment scaled by the ratio of the lengths (a constant 1 becomes 1/2): adapt(handle) of the interface grid takes every component that is not larger for a part of the element (C81_longer_tip_refuted).
* C82: `isInterface(facet)` keeps the ids in a function-static vector (grid/mmesh.hh:608), which all threads share, and all grids of the same type. For any two facets with all vertices on the interface there is a schedule in which the call for one returns the answer for the other (C82_race_refuted); the same facet asked from both sides at once can be denied (C82_wrong_answers_refuted). The documentation (doc/issues.rst) recommends threaded assembly, in which traces and skeletons ask this. A local vector, as in interface/grid.hh, is right for every schedule (C82_local).
* C83: in 3D, an adapt with a vertex to remove throws after the insertions have been made and before the new elements get ids and indices (grid/mmesh.hh:1321-1346); postAdapt and a further adapt without requests do not help (C83_unnumbered_refuted), the next adapt with an insertion does (C83_renumbered). Trying adapt again without postAdapt inserts the same points again, which makes elements of volume zero (C83_retry_refuted). A check that throws (mmesh.hh:935-941) leaves the vertices moved, elements turned over (C83_check_refuted); moving by the negative shifts is the way back (C83_check_undo).
* C84: size(GeometryTypes::tetrahedron) of a two-dimensional grid, and size(GeometryTypes::triangle) of its interface, read sizeOfCodim_[-1] instead of returning 0 (C84_size_refuted, C84_interface_size_refuted); the assertion is off in release builds.
* C85: MultiId::hash computes the hash in the mutable member itself (multiid.hh:80-91): a second thread hashing the same id object meanwhile gets an intermediate value (C85_hash_race_refuted), and two first calls at once can leave a wrong hash in the object for good (C85_hash_forever_refuted), so that look-ups with it fail. Hashing once before sharing, or a copy for each thread, is safe. The cached id of an entity is written in an order that makes id() safe under sequential consistency (C85_id).

Seen while reading, not formalised: partitionType of a rank-less element is
GhostEntity although it is not in the ghost iteration; the istream constructor of the
Gmsh factory leaves `factory_` uninitialised; quadrilaterals (type 3) are accepted in
2D; interface GridFactory::insertVertex of a new point leaves its id uninitialised;
`maxDist_` of the ratio indicator is uninitialised before `update`; the edge branch of
adapt_ without interface does not call setNextId; the
boundary segments given to the interface grid (addBoundarySegment, setBoundarySegments)
are never read; copies of interface entities do not copy `father_`; `subEntities(0)` of interface
entities of codimension > 0 returns 0; HashUIntVector of an empty vector is undefined;
a copied object stream shares its buffer.

## Testing the theorems

`seeded/LOG.jsonl` has one line per seeded bug: the model definition and the edit, the
claim it breaks and the theorems that fail to build.  Mutants that survived led to new
or tightened theorems, named in `theorems_tightened`.
