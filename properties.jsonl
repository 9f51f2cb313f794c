{"id": "C01", "title": "Entity ids are sound keys", "statement": "Ids returned by the id sets can be used as keys of ordered and of hashed containers: two ids compare equal exactly when they consist of the same list of vertex ids, operator< is a strict total order compatible with that equality, equal ids have equal hashes, and reading a hash (which is cached on first use) never changes any later answer of ==, <, size, vt or hash.", "quantifier": "all ids with one to four 64-bit components, and all interleavings of constructions, copies, comparisons and hash queries", "why_tests_cant": "There are 2^64 values per component, and the cache makes the answer depend on the history of earlier calls; a test sees a handful of ids and orders.", "anchors": ["dune/mmesh/grid/multiid.hh: MMeshImpl::MultiId"]}
{"id": "C02", "title": "Sub-entity numbering follows the reference simplex", "statement": "For every element, the vertices are numbered by increasing global id, and subEntity<c>(i) has exactly the vertices that the Dune reference simplex assigns to sub-entity i of codimension c; the facet numbering used by intersections and the one used by subEntity are mutually inverse, and so is the edge numbering in 3D.", "quantifier": "all triangles and tetrahedra, all assignments of pairwise distinct vertex ids to the host cell's corners, all codimensions and local indices", "why_tests_cant": "The map depends on the permutation sorting arbitrary 64-bit ids; every cell of a mesh can realise a different permutation.", "anchors": ["dune/mmesh/grid/common.hh: computeCGALIndices, duneFacetToCgalSecond, cgalFacetToDuneFacet, cgalEdgeToDuneEdge", "dune/mmesh/grid/entity.hh: MMeshEntity<0>::subEntity", "dune/mmesh/interface/common.hh"]}
{"id": "C03", "title": "Both sides of a facet agree on its corners", "statement": "For an intersection between two elements, geometryInInside and geometryInOutside, mapped by the respective element geometries, yield the same global corner points in the same order, and indexInInside / indexInOutside both denote the shared facet (twist 0).", "quantifier": "all pairs of simplices sharing a facet, whatever the vertex ids and whatever the local orders in which the host triangulation stores the two cells", "why_tests_cant": "Requires agreement between two independently sorted numberings for every relative orientation of every pair of neighbours.", "anchors": ["dune/mmesh/grid/intersections.hh: MMeshLeafIntersection", "dune/mmesh/grid/geometry.hh: getLocalVertices_", "dune/mmesh/misc/twistutility.hh", "dune/mmesh/grid/common.hh"]}
{"id": "C04", "title": "Vertex ids are unique, persistent and never reused", "statement": "After any history of grid creation, vertex insertions, vertex removals and id-set updates, distinct vertices have distinct ids, a surviving vertex keeps the id it was first given, and a newly inserted vertex never gets an id that any earlier vertex ever had.", "quantifier": "all finite histories of insert / remove / update operations on all grids", "why_tests_cant": "A reuse may need an arbitrarily long insert/remove history to show up; persistent containers silently return the wrong data when it happens.", "anchors": ["dune/mmesh/grid/indexsets.hh: MMeshGlobalIdSet::update, setNextId", "dune/mmesh/grid/mmesh.hh: adapt_, setIds"]}
{"id": "C05", "title": "Leaf indices are a consecutive bijection", "statement": "For each codimension, the leaf index set maps the entities of the leaf view one-to-one onto 0..size(codim)-1, and subIndex(e,i,c) equals the index of subEntity<c>(i).", "quantifier": "all triangulations (2D and 3D), all codimensions, all entities, in whatever order the host container enumerates them", "why_tests_cant": "Depends on the enumeration order and the sharing of sub-entities of arbitrary meshes.", "anchors": ["dune/mmesh/grid/indexsets.hh: MMeshLeafIndexSet::update, index, subIndex"]}
{"id": "C06", "title": "Interface indices are a consecutive bijection", "statement": "After update of the interface index set, interface elements, (3D) edges and vertices are each numbered one-to-one 0..size-1, index() of an element seen from either side finds the number it was given, and lookups never throw for entities of the interface.", "quantifier": "all interfaces (lists of facets with vertex ids, including networks with junctions) in every enumeration order", "why_tests_cant": "The nested maps are filled by several insertions per element that could shadow each other only on particular meshes.", "anchors": ["dune/mmesh/interface/indexsets.hh: MMeshInterfaceGridLeafIndexSet::update, index"]}
{"id": "C07", "title": "The id of an entity object always denotes its host entity", "statement": "globalIdSet().id(e) returns the sorted vertex ids of the entity that e currently refers to, whatever copies, moves, assignments and earlier id queries happened to the entity object.", "quantifier": "all programs over entity objects consisting of construction, copy, move, assignment and id queries", "why_tests_cant": "The cached id makes the answer depend on the history of the C++ object.", "anchors": ["dune/mmesh/grid/entity.hh: MMeshEntity copy/move/assignment, id()", "dune/mmesh/interface/entity.hh: MMeshInterfaceGridEntity"]}
{"id": "C08", "title": "Ids identify entities and subId is the id of the sub-entity", "statement": "Two entities of the same codimension have equal ids iff they have the same vertices, and subId(e,i,c) == id(e.subEntity<c>(i)).", "quantifier": "all elements, all sub-entity indices and codimensions, all vertex id assignments", "why_tests_cant": "Quantifies over all vertex id values and pairs of entities of a mesh.", "anchors": ["dune/mmesh/grid/indexsets.hh: MMeshGlobalIdSet::id, subId", "dune/mmesh/interface/indexsets.hh: MMeshInterfaceGridGlobalIdSet"]}
{"id": "C09", "title": "The explicit factory builds a consistent neighbourhood structure", "statement": "When every facet belongs to at most two inserted elements and every boundary vertex lies on exactly two boundary facets (2D), createGrid yields a triangulation whose neighbour relation is symmetric, connects exactly the elements sharing a facet, and gives every facet of every cell (finite or infinite) a neighbour.", "quantifier": "all lists of inserted triangles satisfying the manifold condition", "why_tests_cant": "The pairing is done through a map keyed by sorted vertices in an order that depends on the element coordinates; a dropped pairing shows only on particular orders.", "anchors": ["dune/mmesh/grid/explicitgridfactory.hh: createGrid, createElement, addFacetToMap, createInfiniteCells"]}
{"id": "C10", "title": "The explicit factory normalises the orientation of elements", "statement": "Whatever the order in which the vertices of an element are given, the stored cell has the same vertex set and positive (counter-clockwise) orientation, unless the element is degenerate.", "quantifier": "all vertex coordinates and all vertex orders of each element", "why_tests_cant": "Orientation is a sign condition over all real coordinates.", "anchors": ["dune/mmesh/grid/explicitgridfactory.hh: insertElement/createGrid orientation handling"]}
{"id": "C11", "title": "Insertion indices survive the reordering of elements", "statement": "After createGrid of the explicit factory, insertionIndex(e) is the position at which the vertices of e were inserted, although elements are sorted by their x-coordinate, and domain markers stay with their element.", "quantifier": "all insertion sequences and all coordinates (including ties)", "why_tests_cant": "Sorting permutes elements in a data dependent way.", "anchors": ["dune/mmesh/grid/explicitgridfactory.hh: elements_ sorting, insertionIndex, domainMarker"]}
{"id": "C12", "title": "Boundary segments are numbered consecutively without duplicates", "statement": "insertBoundarySegment numbers accepted segments 0,1,2,... in insertion order irrespective of the order of the vertices in a segment, rejects a segment already present by throwing and leaves the state unchanged; the same is expected from insertInterfaceBoundarySegment.", "quantifier": "all sequences of segment insertions", "why_tests_cant": "Needs all interleavings, including duplicates under permutation of vertices.", "anchors": ["dune/mmesh/grid/explicitgridfactory.hh: insertBoundarySegment, insertInterfaceBoundarySegment", "dune/mmesh/grid/implicitgridfactory.hh", "dune/mmesh/interface/gridfactory.hh: insertBoundarySegment"]}
{"id": "C13", "title": "A facet listed in a mesh file is boundary or interface, never both", "statement": "After createGrid of the explicit factory, a registered facet on the domain hull is a boundary segment and not an interface segment, a registered facet not on the hull is an interface segment and not a boundary segment, and exactly the vertices of interface segments carry the interface flag (besides those flagged before).", "quantifier": "all meshes and all sets of registered facets", "why_tests_cant": "Depends on which registered facets are on the hull of an arbitrary mesh.", "anchors": ["dune/mmesh/grid/explicitgridfactory.hh: createGrid", "dune/mmesh/grid/gmshgridfactory.hh: generate"]}
{"id": "C14", "title": "Reading a Gmsh file reproduces the mesh that was written", "statement": "Parsing the MSH 2.2 text of any mesh yields exactly its vertices in order, its elements with their vertex lists and domain markers, and its boundary/interface facets with markers; a file whose announced counts disagree with its contents is rejected.", "quantifier": "all meshes (any number of nodes, any mix of element types up to the supported ones) and their textual encodings", "why_tests_cant": "A parser round trip quantifies over all files.", "anchors": ["dune/mmesh/grid/gmshgridfactory.hh: GmshGridFactory::generate"]}
{"id": "C15", "title": "The structured grid factory covers the box by a regular lattice", "statement": "If ll < ur and all n_j > 0, and the number of vertices fits an int, createStructuredGrid inserts exactly prod(n_j+1) distinct vertices, all inside the box, containing all its corners, with spacing (ur-ll)/n in each direction, numbered with the first direction running fastest.", "quantifier": "all boxes with ll<ur and all subdivision counts n_j>0 whose number of vertices fits an int, any dimension", "why_tests_cant": "All subdivision counts and boxes.", "anchors": ["dune/mmesh/grid/structuredgridfactory.hh: createStructuredGrid"]}
{"id": "C16", "title": "The implicit factory assigns ids and insertion indices in insertion order", "statement": "For pairwise distinct points, the i-th inserted vertex has id i and insertionIndex i; coinciding points share one vertex.", "quantifier": "all insertion sequences", "why_tests_cant": "Duplicates make the host triangulation return an existing vertex, which depends on the whole point sequence.", "anchors": ["dune/mmesh/grid/implicitgridfactory.hh: insertVertex, insertionIndex"]}
{"id": "C17", "title": "Interfaces registered through a factory are interfaces of the grid", "statement": "Every facet registered by insertInterface of a factory and contained in the created triangulation is reported by isInterface, and nothing else is.", "quantifier": "all insertion sequences of vertices, elements and interface facets", "why_tests_cant": "isInterface combines vertex flags with a key lookup; an omission shows up only for certain factories and orders.", "anchors": ["dune/mmesh/grid/explicitgridfactory.hh: insertInterface, createGrid", "dune/mmesh/grid/implicitgridfactory.hh: insertInterface, createGrid", "dune/mmesh/grid/mmesh.hh: isInterface", "dune/mmesh/interface/gridfactory.hh: insertElement, insertVertex, addVertexHandle"]}
{"id": "C18", "title": "Polygon clipping computes the intersection of convex polygons", "statement": "sutherlandHodgman(subject, clip) of two counter-clockwise convex polygons returns only points lying in both polygons, and a point of both polygons lies in the returned polygon.", "quantifier": "all convex polygons with real coordinates (exact arithmetic)", "why_tests_cant": "Infinitely many coordinates, with degenerate touching cases.", "anchors": ["dune/mmesh/grid/polygoncutting.hh: PolygonCutting::sutherlandHodgman, lineIntersectionPoint, inside"]}
{"id": "C19", "title": "polygonArea is the area", "statement": "polygonArea returns the area for every counter-clockwise simple polygon given by its fan: it is invariant under translation and rotation of the starting vertex, additive under cutting along a diagonal, equals half the determinant for a triangle and is zero for less than three points.", "quantifier": "all vertex lists with real coordinates (exact arithmetic)", "why_tests_cant": "Infinitely many polygons.", "anchors": ["dune/mmesh/grid/polygoncutting.hh: PolygonCutting::polygonArea"]}
{"id": "C20", "title": "Overlap volumes of caching entities are bounded and symmetric", "statement": "intersectionVolume of a caching element with a current element is between zero and the volume of either.", "quantifier": "all pairs of triangles with real coordinates (exact arithmetic)", "why_tests_cant": "All pairs of triangles.", "anchors": ["dune/mmesh/grid/cachingentity.hh: intersectionVolume", "dune/mmesh/grid/polygoncutting.hh", "dune/mmesh/interface/cachingentity.hh"]}
{"id": "C21", "title": "The 2D distance is the exact distance to the interface", "statement": "After update, distance(v) is the Euclidean distance of v to the union of all interface segments: it is attained by a point of some segment and not larger than the distance to any point of any segment; the distance of an element is the mean over its vertices and interface vertices and interface elements have distance 0.", "quantifier": "all positions of interior vertices and all finite non-empty interfaces with real coordinates (exact arithmetic)", "why_tests_cant": "Continuous range of positions; the projection has three cases.", "anchors": ["dune/mmesh/remeshing/distance.hh: Distance::update, setDistance, computeDistance"]}
{"id": "C22", "title": "The ratio indicator only asks for what its documentation says", "statement": "operator() returns only -1, 0 or 1; in 2D it returns -1 exactly if some edge is shorter than the local minimum, or the ratio of longest to shortest edge or the ratio of the radii exceeds its bound; it returns 1 exactly if this is not so and some edge is longer than the local maximum; in 3D it never coarsens; construction with H yields maxH=2H and minH=H/4 and init() the same multiples of the longest and shortest (interface) edge; bisecting a too long edge gives no too short edge.", "quantifier": "all edge lengths, distances and parameters (exact arithmetic)", "why_tests_cant": "Piecewise conditions over continuous inputs.", "anchors": ["dune/mmesh/remeshing/ratioindicator.hh: RatioIndicator::operator(), init"]}
{"id": "C23", "title": "Longest edge refinement bisects a longest edge", "statement": "refinement(element) returns an edge none of whose siblings is longer, together with its midpoint, and the point is on that edge.", "quantifier": "all simplices with real vertex coordinates (exact arithmetic)", "why_tests_cant": "Continuous inputs, ties included.", "anchors": ["dune/mmesh/remeshing/longestedgerefinement.hh: LongestEdgeRefinement::refinement"]}
{"id": "C24", "title": "Coarsening removes only removable vertices, by priority", "statement": "coarsening(element) returns a vertex of the element chosen according to the documented priority (higher insertion level first), and never a vertex that is needed by the domain boundary or the interface.", "quantifier": "all elements with all combinations of insertion levels, edge lengths, interface and boundary flags", "why_tests_cant": "The sort comparator is applied to all combinations of flags and lengths; a comparator that is no strict weak order is undefined behaviour only for some of them.", "anchors": ["dune/mmesh/remeshing/longestedgerefinement.hh: LongestEdgeRefinement::coarsening, boundaryFlag, isRemoveable"]}
{"id": "C25", "title": "Outer normals", "statement": "For every positively oriented bulk element, the integration outer normals of its facets sum to zero, each is orthogonal to its facet with length equal to the facet's integration element, points away from the opposite vertex, and the normals seen from the two sides of a facet are opposite; outer normals of interface elements are tangential, orthogonal to the facet and point away from the opposite vertex.", "quantifier": "all non-degenerate simplices with real coordinates in 2D and 3D (exact arithmetic)", "why_tests_cant": "Continuous inputs and all local orders.", "anchors": ["dune/mmesh/grid/intersections.hh: integrationOuterNormal", "dune/mmesh/interface/intersections.hh: integrationOuterNormal"]}
{"id": "C26", "title": "Circumcentres and midpoints", "statement": "circumcenter of an edge or triangle is equidistant from all its corners; circumcenter() of a simplex lies on all perpendicular bisectors.", "quantifier": "all non-degenerate simplices with real coordinates (exact arithmetic)", "why_tests_cant": "Continuous inputs.", "anchors": ["dune/mmesh/grid/pointfieldvector.hh: computeCircumcenter", "dune/mmesh/grid/geometry.hh: circumcenter"]}
{"id": "C27", "title": "Curvature operator is exact on circles and spheres", "statement": "If all sample points lie on a common sphere and are in general position (the normal equations are regular for the operator's threshold), the operator assigns exactly the sphere's centre and the reciprocal of its radius; on samples in a line or plane it assigns zero.", "quantifier": "all spheres and all finite samples in general position (exact arithmetic)", "why_tests_cant": "Continuous inputs and unbounded sample sizes.", "anchors": ["dune/mmesh/interface/curvatureoperator.hh: CurvatureOperator::getRadius"]}
{"id": "C28", "title": "Overlapping adaptation zones are merged, disjoint ones kept apart", "statement": "The marking phase of adapt terminates, and afterwards every conflict zone carries one single component number, elements outside all zones carry none, and two zones carry the same number iff they are connected by a chain of overlapping zones.", "quantifier": "all families of conflict zones (finite sets of elements) in any order", "why_tests_cant": "The loop is a fixed point iteration whose number of rounds grows with the chain of overlaps.", "anchors": ["dune/mmesh/grid/mmesh.hh: adapt_, markElementsForInsertion_, markElementsForRemoval_, getComponentNumber_"]}
{"id": "C29", "title": "Connected components contain the whole affected region", "statement": "After the components are built, the component of a number contains exactly the affected elements with that number reachable through facet neighbours, each exactly once, with their geometry and ids before adaptation.", "quantifier": "all triangulations and all component numberings produced by the marking phase", "why_tests_cant": "Flood fill order, map default construction and recursion depth depend on the mesh.", "anchors": ["dune/mmesh/grid/mmesh.hh: buildConnectedComponents_, insertNeighbors_", "dune/mmesh/grid/connectedcomponent.hh: MMeshConnectedComponent"]}
{"id": "C30", "title": "New elements know the component they replace", "statement": "After adapt, every element created is marked new, has the component number of the zone it was created in, and getConnectedComponent returns that zone's component; unaffected elements are not new; postAdapt clears all of it.", "quantifier": "all sequences of insertions and removals in one adapt call", "why_tests_cant": "Index bookkeeping between three parallel vectors over all mixtures of skipped and performed operations.", "anchors": ["dune/mmesh/grid/mmesh.hh: adapt_, postAdapt, getConnectedComponent"]}
{"id": "C31", "title": "Refining an interface facet replaces it by its halves", "statement": "Inserting a vertex on an interface segment {a,b} with marker m removes exactly that segment, adds {a,v} and {v,b} with marker m and leaves every other interface segment and marker unchanged.", "quantifier": "all interface segment maps and all segments (2D); in 3D all edges of interface triangles", "why_tests_cant": "All interface networks; undefined behaviour in 3D.", "anchors": ["dune/mmesh/grid/mmesh.hh: insertInInterface_"]}
{"id": "C32", "title": "Coarsening the interface merges exactly the two segments", "statement": "Removing an interface vertex lying on exactly two segments {a,v},{v,b} replaces them by {a,b} with their marker and leaves all other segments unchanged; otherwise the interface is left as it was.", "quantifier": "all interface segment maps and vertices", "why_tests_cant": "Tips and junctions of arbitrary networks.", "anchors": ["dune/mmesh/grid/mmesh.hh: removeFromInterface_"]}
{"id": "C33", "title": "addInterface makes exactly one facet an interface facet", "statement": "addInterface(intersection, marker) makes isInterface true for that facet (from both sides) and sets its marker, leaves isInterface of all other facets unchanged and is idempotent on an existing facet.", "quantifier": "all grids, all facets, all earlier interface sets", "why_tests_cant": "Vertex flags are shared between facets.", "anchors": ["dune/mmesh/grid/mmesh.hh: addInterface, isInterface"]}
{"id": "C34", "title": "Marks are stored, returned and reset", "statement": "getMark returns the last mark set; adapt of a grid without marks or queued operations changes nothing; after postAdapt no element is marked, new or assigned to a component.", "quantifier": "all histories of mark calls on all elements, bulk and interface grid", "why_tests_cant": "All histories.", "anchors": ["dune/mmesh/grid/mmesh.hh: mark, getMark, preAdapt, postAdapt", "dune/mmesh/interface/grid.hh: mark, getMark"]}
{"id": "C35", "title": "Manual refinement requests are queued once", "statement": "Requesting the same edge (from any element, with any local index) or the same vertex several times queues exactly one operation; the queued point is the convex combination of the edge's end points.", "quantifier": "all sequences of refineEdge / removeVertex / insertVertexInCell calls", "why_tests_cant": "All sequences, all elements sharing an edge.", "anchors": ["dune/mmesh/grid/mmesh.hh: refineEdge, removeVertex, insertVertexInCell, insert_, remove_"]}
{"id": "C36", "title": "The return value of adapt tells whether the grid changed", "statement": "adapt returns true iff the triangulation has changed.", "quantifier": "all queues of insertions and removals", "why_tests_cant": "Depends on the outcomes of all queued operations.", "anchors": ["dune/mmesh/grid/mmesh.hh: adapt, adapt_"]}
{"id": "C37", "title": "Moving vertices back and forth is the identity", "statement": "moveVertices / moveInterface add shifts[index(v)] to exactly the (interface) vertices, change nothing else, and moving by s and then by -s restores all positions.", "quantifier": "all grids, all shift vectors (exact arithmetic)", "why_tests_cant": "All positions and indices; floating point refutes it for rounding.", "anchors": ["dune/mmesh/grid/mmesh.hh: moveVertices, moveInterface"]}
{"id": "C38", "title": "Checking a movement does not move the mesh", "statement": "ensureVertexMovement and ensureInterfaceMovement leave all vertex positions as they were and queue only vertices that are neither interface nor domain boundary vertices, and report true iff something was queued.", "quantifier": "all grids and shifts (exact arithmetic)", "why_tests_cant": "All grids; exceptional exits.", "anchors": ["dune/mmesh/grid/mmesh.hh: ensureVertexMovement, ensureInterfaceMovement"]}
{"id": "C39", "title": "Intersection iteration visits every facet exactly once", "statement": "Iterating over the intersections of a non-ghost element visits each of its dim+1 facets exactly once; for ghosts exactly those facets behind which an interior element lies are visited.", "quantifier": "all elements, all partition markings of the neighbours", "why_tests_cant": "All partition patterns.", "anchors": ["dune/mmesh/grid/intersectioniterator.hh: MMeshLeafIntersectionIterator"]}
{"id": "C40", "title": "Interface iteration visits every interface facet and vertex exactly once", "statement": "interfaceElements visits every interface facet exactly once and interfaceVertices every vertex of those facets exactly once; passing includeBoundary=true includes boundary facets.", "quantifier": "all triangulations and interface sets, in every enumeration order", "why_tests_cant": "Duplicates arise only from particular sharing patterns.", "anchors": ["dune/mmesh/grid/interfaceiterator.hh", "dune/mmesh/grid/rangegenerators.hh", "dune/mmesh/grid/mmesh.hh: interfaceBegin"]}
{"id": "C41", "title": "Interface grid traversal", "statement": "The codim-0 leaf iterator of the interface grid visits each interface facet exactly once although it is seen from two cells; the intersection iterator of an interface element visits, at each of its facets, every other interface element sharing that facet exactly once (also at junctions), or one boundary intersection if there is none.", "quantifier": "all interface networks, junctions of any order", "why_tests_cant": "Junction orders are unbounded and hash-map iteration order is arbitrary.", "anchors": ["dune/mmesh/interface/leafiterator.hh", "dune/mmesh/interface/intersectioniterator.hh", "dune/mmesh/interface/intersections.hh: outside, numOutside"]}
{"id": "C42", "title": "Incident iterators", "statement": "Ranges over incident elements, facets and vertices of a vertex enumerate exactly the finite incident ones (plus the infinite vertex if requested), begin and end being consistent.", "quantifier": "all vertices of all triangulations", "why_tests_cant": "Arbitrary vertex degree.", "anchors": ["dune/mmesh/grid/incidentiterator.hh", "dune/mmesh/interface/incidentiterator.hh"]}
{"id": "C43", "title": "Partition iterators partition the entities", "statement": "For every partition type, iterating a leaf view visits exactly the entities whose partition is contained in the requested set, each once; Interior and Ghost are disjoint and every visible entity is in All.", "quantifier": "all partition assignments and enumeration orders", "why_tests_cant": "All assignments.", "anchors": ["dune/mmesh/grid/leafiterator.hh", "dune/mmesh/misc/partitionhelper.hh: contains, partitionType"]}
{"id": "C44", "title": "Load balancing assigns each element to one rank, balanced and contiguous", "statement": "setRanks gives every element a rank in 0..size-1, ranks are non-decreasing along the enumeration, and part sizes differ by at most one; the stored interior range contains all elements of the rank.", "quantifier": "all element counts and communicator sizes", "why_tests_cant": "All N and P; overflow at the first index.", "anchors": ["dune/mmesh/misc/partitionhelper.hh: setRanks, distribute"]}
{"id": "C45", "title": "Ghosts are exactly the facet neighbours of interior elements", "statement": "After computePartitions an element is interior iff it is owned, ghost iff not owned and facet-adjacent to an owned one (or needed for an interface ghost), and invisible otherwise; facets and vertices are interior, border or ghost accordingly.", "quantifier": "all meshes, rank assignments and interfaces", "why_tests_cant": "All rank assignments.", "anchors": ["dune/mmesh/misc/partitionhelper.hh: computePartitions, computeInterfacePartitions"]}
{"id": "C46", "title": "Ranks agree on what they exchange", "statement": "For any two ranks A and B, the list of elements A sends to B equals, in order, the list of elements for which B expects data from A, B is linked to A iff A is linked to B, so that communication cannot dead-lock or mismatch.", "quantifier": "all meshes, rank assignments and pairs of ranks", "why_tests_cant": "Distributed agreement for all assignments.", "anchors": ["dune/mmesh/misc/partitionhelper.hh: addConnectivity, links", "dune/mmesh/misc/communication.hh: MMeshCommunication"]}
{"id": "C47", "title": "Ghost data equals the owner's data after communication", "statement": "After one communicate call every ghost element that is facet-adjacent to an interior element holds exactly the data its owner packed; no interior entity is written.", "quantifier": "all meshes, rank assignments, data handles with arbitrary item sizes, any scheduling of sends and receives", "why_tests_cant": "All schedules and data sizes.", "anchors": ["dune/mmesh/misc/communication.hh", "dune/mmesh/misc/objectstream.hh"]}
{"id": "C48", "title": "Object streams return what was written", "statement": "Whatever sequence of values is written to an object stream, reading the same types back returns the same values in the same order, across buffer growth, and reading past the end is detected.", "quantifier": "all sequences of writes and reads with arbitrary sizes", "why_tests_cant": "Growth boundaries and arbitrary interleavings.", "anchors": ["dune/mmesh/misc/objectstream.hh: MMeshImpl::ObjectStream"]}
{"id": "C49", "title": "Persistent containers keep data across adaptation", "statement": "After resize(value) every surviving entity keeps its datum and every entity of the current grid has one (the given value if new); calls without a change of the grid are no-ops.", "quantifier": "all histories of adaptations and resizes", "why_tests_cant": "All histories; depends on a sequence counter.", "anchors": ["dune/mmesh/misc/persistentcontainer.hh: PersistentContainer::resize", "dune/mmesh/grid/mmesh.hh: sequence, adapt"]}
{"id": "C50", "title": "Hole remeshing keeps the triangulation consistent", "statement": "Replacing the star of a removed vertex or the conflict zone of an inserted vertex keeps the neighbour relation symmetric, keeps everything outside the hole unchanged, and every boundary edge of the hole is again bounded from inside.", "quantifier": "all triangulations and all star-shaped or split holes", "why_tests_cant": "Arbitrary vertex degree.", "anchors": ["dune/mmesh/cgal/triangulationwrapper.hh: removeAndGiveNewElements, remeshHoleConstrained", "dune/mmesh/cgal/defaults.hh"]}
{"id": "C51", "title": "asIntersection and asInterfaceEntity are inverse", "statement": "For every interface facet, asInterfaceEntity(asIntersection(e)) == e and the inside element is the one with the smaller insertion index, from whichever side the facet was obtained.", "quantifier": "all interface facets and both sides", "why_tests_cant": "All facets and sides.", "anchors": ["dune/mmesh/grid/mmesh.hh: asIntersection, asInterfaceEntity, mirrorHostEntity", "dune/mmesh/interface/entity.hh: constructor normalisation"]}
{"id": "C52", "title": "Iterative coupling reports convergence truthfully", "statement": "iterativeSolve reports converged iff the last iterate differs from its predecessor by less than the tolerance, performs at most iter sweeps, and on a fixed point stops after the first sweep; a user supplied f_tol is honoured.", "quantifier": "all solvers (arbitrary state transformers), tolerances, iteration limits, accelerated or not", "why_tests_cant": "Quantifies over arbitrary solver behaviour.", "anchors": ["python/dune/mmesh/_solve.py: iterativeSolve"]}
{"id": "C53", "title": "The coupled Newton system is assembled consistently", "statement": "The block matrix handed to the direct solver has exactly the entries of the four blocks at the right offsets; coupling blocks obtained by central differences are exact for couplings of degree at most two; perturbed degrees of freedom are restored.", "quantifier": "all block sizes, sparsity patterns and coupling functions of degree <= 2 (exact arithmetic)", "why_tests_cant": "All matrices.", "anchors": ["dune/python/mmesh/jacobian.hh: Jacobian::solve, assembleB, assembleC", "python/dune/mmesh/_solve.py: monolithicSolve"]}
{"id": "C54", "title": "moveMesh performs a bounded number of adaptations and moves once", "statement": "moveMesh performs at most ten ensure and at most ten mark rounds, moves the interface exactly once, by the last shifts obtained, and returns the numbers of rounds.", "quantifier": "all grids (arbitrary answers of ensureInterfaceMovement and markElements)", "why_tests_cant": "Arbitrary answer sequences.", "anchors": ["python/dune/mmesh/_move.py: moveMesh"]}
{"id": "C55", "title": "Skeleton and trace evaluate at the same physical point", "statement": "Evaluating a skeleton function from the inside or outside element, or a trace on the interface, evaluates the coupled function at the same global point.", "quantifier": "all facets, all barycentric points, both sides", "why_tests_cant": "Continuous points and all numberings.", "anchors": ["dune/python/mmesh/pyskeletontrace.hh: SkeletonGF, TraceGF"]}
{"id": "C56", "title": "incidentInterfaceVertices enumerates neighbours along the interface", "statement": "The range incidentInterfaceVertices(v) enumerates exactly the vertices that share an interface edge (facet) with v, each once.", "quantifier": "all triangulations, interface networks and interface vertices", "why_tests_cant": "All triangulations; fails only when two interface vertices are joined by a bulk edge that is not part of the interface.", "anchors": ["dune/mmesh/grid/rangegenerators.hh: incidentInterfaceVertices", "dune/mmesh/grid/incidentiterator.hh: MMeshIncidentInterfaceVerticesIterator"]}
{"id": "C57", "title": "isInterface of edges and isOnInterface", "statement": "In 3D isInterface(edge) is true exactly if the edge is an edge of some interface facet, in whatever order its end points are stored; isOnInterface(e) is true exactly if one of the facets of e is an interface facet.", "quantifier": "all interface facet sets, all edges and elements", "why_tests_cant": "The test compares three pairs of positions in sorted keys of every interface facet; it must be right for every order of the ids.", "anchors": ["dune/mmesh/grid/mmesh.hh: isInterface(Edge), isOnInterface"]}
{"id": "C58", "title": "New interface elements know what they replace", "statement": "Between two calls of postAdapt of the interface grid, an interface element is reported as new exactly if refinement, coarsening, extension or addInterface created it; its connected component then consists of exactly the elements it replaces; all other elements are old ones with their old marker; no old element disappears without being listed, except those ending at a removed tip or junction; after postAdapt nothing is new.", "quantifier": "all interface networks and all histories of refinements, removals, extensions and additions", "why_tests_cant": "Histories of changes interact through one map that keeps the first entry for a key; tests try single changes.", "anchors": ["dune/mmesh/interface/grid.hh: markAsRefined, hasConnectedComponent, getConnectedComponent, postAdapt", "dune/mmesh/interface/connectedcomponent.hh: MMeshInterfaceConnectedComponent", "dune/mmesh/grid/mmesh.hh: insertInInterface_, removeFromInterface_, adapt_, addToInterface, addInterface"]}
{"id": "C59", "title": "Data transfer with adapt(handle)", "statement": "adapt(handle) calls the data handle for new elements only; a restriction starts a new sum exactly at the first piece of each new element; each piece is prolonged from its old element right before it is restricted; a piecewise constant function becomes the average of the old values weighted with the shared volumes, so its integral is kept up to the volume the pieces miss and no new extrema appear where the pieces fill the element; on the interface refined elements inherit the value and merged elements keep the integral.", "quantifier": "all leaf views, components, geometries, data and handles for piecewise constants", "why_tests_cant": "Ranges over all real geometries, values and component sizes; the flag protocol depends on which pieces are empty.", "anchors": ["dune/mmesh/grid/mmesh.hh: adapt(handle)", "dune/mmesh/grid/cutsettriangulation.hh: CutSetTriangulation", "dune/mmesh/interface/grid.hh: adapt(handle)"]}
{"id": "C60", "title": "Grids from DGF files", "statement": "Reading a DGF file whose simplices form a conforming mesh and whose boundary faces are all different gives a grid with exactly these vertices and elements in the order of the file; every boundary intersection listed in the file reports the id given there, whatever the order of its vertices; a missing or unreadable file is reported by an exception.", "quantifier": "all parsed files, all orders of faces and of the vertices in a face, dimensions 2 and 3", "why_tests_cant": "Ids are attached by position in a list that grows while faces are inserted and that drops nothing only if all faces differ; tests read a few files.", "anchors": ["dune/mmesh/grid/dgfparser.hh: DGFGridFactory", "dune/mmesh/interface/dgfparser.hh: DGFGridFactory", "dune/mmesh/grid/explicitgridfactory.hh: insertBoundarySegment, addBoundaryId"]}
{"id": "C61", "title": "Movement functions agree with the movement", "statement": "edgeMovement(grid, shifts) is the continuous piecewise linear function that equals the given shift at every interface vertex and zero at all other vertices; it agrees with interfaceEdgeMovement on the interface; after moveInterface(shifts) every point of every element lies where the function says.", "quantifier": "all elements, numberings, shifts and points, dimensions 2 and 3", "why_tests_cant": "Continuous points and all numberings of both grids; the array is read through a raw pointer.", "anchors": ["python/dune/mmesh/_utility.py: edgeMovement, interfaceEdgeMovement", "dune/mmesh/grid/mmesh.hh: moveInterface"]}
{"id": "C62", "title": "The distance function", "statement": "distance(grid) is continuous, linear in every element, equals the stored distance at the vertices, stays between the stored distances of the vertices of an element, differs from the true distance to the interface by at most the diameter of the element (2D), and its jacobian is its gradient in global coordinates.", "quantifier": "all elements, numberings, interfaces, points and non-degenerate element geometries", "why_tests_cant": "Real-valued points and arbitrary affine maps.", "anchors": ["dune/python/mmesh/distance.hh: Distance", "dune/python/mmesh/utility.hh: DistanceFunction"]}
{"id": "C63", "title": "Interface indicator, normals and domain markers", "statement": "On an intersection the interface indicator is 1 exactly if the facet belongs to the interface, from both sides and averaged, and does not depend on what it was bound to before; normals(igrid) are unit vectors orthogonal to the interface that point from the neighbour with the smaller insertion index to the other one; the marker of an interface element is the one given on insertion and reading it changes nothing.", "quantifier": "all triangulations, interface facets, sides, positions of vertices and orders of vertices", "why_tests_cant": "All numberings and both representations of each facet; the indicator and the segment map have state.", "anchors": ["dune/python/mmesh/utility.hh: InterfaceIndicator, Normals", "python/dune/mmesh/_utility.py: interfaceIndicator, normals, domainMarker", "dune/mmesh/interface/grid.hh: domainMarker"]}
{"id": "C64", "title": "Entities compare equal exactly if they are the same", "statement": "Two entity objects of the same codimension compare equal exactly if they denote the same mesh entity, that is, if they have the same vertices, and then they have the same id; this holds for whichever cell and whichever side the objects were obtained from, for elements, facets, edges and vertices of the grid and elements of the interface grid; entity(e.seed()) equals e.", "quantifier": "all triangulations and all pairs of handles, dimensions 2 and 3", "why_tests_cant": "A facet has two and an edge many representations; comparison must agree on all of them.", "anchors": ["dune/mmesh/grid/entity.hh: equals, seed", "dune/mmesh/interface/entity.hh: equals, seed", "dune/mmesh/grid/entityseed.hh", "dune/mmesh/interface/grid.hh: entity"]}
{"id": "C65", "title": "Boundary segments are numbered one-to-one", "statement": "boundarySegmentIndex() numbers the boundary intersections of the leaf view of a process by 0 .. numBoundarySegments()-1, without gaps and repetitions, on the grid and on the interface grid, serially and in parallel; boundaryId() is the id given to the factory and survives adaptation.", "quantifier": "all triangulations, partitions, interface networks and adaptation histories", "why_tests_cant": "The numbers are keyed differently in the three cases; tests use one boundary layout.", "anchors": ["dune/mmesh/grid/mmesh.hh: setIndices, numBoundarySegments", "dune/mmesh/grid/intersections.hh: boundarySegmentIndex, boundaryId", "dune/mmesh/interface/grid.hh: setIndices", "dune/mmesh/interface/intersections.hh: boundarySegmentIndex"]}
{"id": "C66", "title": "Tips of the interface", "statement": "isTip() of an interface vertex is true exactly if the vertex lies inside the domain and belongs to exactly one interface element.", "quantifier": "all triangulations, interface networks and vertices", "why_tests_cant": "Depends on the circulator around every vertex and on all orders of the segments.", "anchors": ["dune/mmesh/interface/entity.hh: isTip", "dune/mmesh/interface/grid.hh: isInterface"]}
{"id": "C67", "title": "The iterative monolithic solver gives the same result on any number of processes", "statement": "For every iterative solver that only uses the operator, the scalar product and linear combinations, monolithicSolve with the iterative backend returns on every process, at every degree of freedom the process has, the value that the same solver gives for the whole coupled system on one process; the coupling blocks assembled on a process have the complete rows of the degrees of freedom it counts; all entries written during assembly are in the reserved pattern; and every interface intersection can be converted to one of the bulk leaf view.", "quantifier": "all solvers, numbers of processes, distributions of degrees of freedom, matrices, initial guesses, right-hand sides and triangulations", "why_tests_cant": "All solvers and all distributions; failures show up only on several processes.", "anchors": ["dune/python/mmesh/jacobian_iterative.hh: ParallelizedJacobian, ParallelizedScalarProduct, Jacobian::solve, convert, NeighborInterfaceStencil, InterfaceNeighborStencil", "python/dune/mmesh/_solve.py: monolithicSolve"]}
{"id": "C68", "title": "The data handle sees sons at their true position in the father", "statement": "In every call that adapt(handle) makes in 2D, the son is bound to the father of that call, the father of a prolongation has the shape it had before the adaptation, and mapping a point of the son by geometryInFather() and then by the geometry of the father gives the point of the son itself; hence prolongation of linear functions is exact. On the interface the ends of the son are mapped to the feet of their perpendiculars on the father.", "quantifier": "all triangles, segments, connected components, new elements and local points", "why_tests_cant": "Continuous geometry; entities are rebound between calls.", "anchors": ["dune/mmesh/grid/entity.hh: geometryInFather, bindFather, geometry", "dune/mmesh/interface/entity.hh: geometryInFather, bindFather", "dune/mmesh/grid/cachingentity.hh", "dune/mmesh/interface/cachingentity.hh", "dune/mmesh/grid/mmesh.hh: adapt(handle)", "dune/mmesh/interface/grid.hh: adapt(handle)"]}
{"id": "C69", "title": "Numbers of sub-entities", "statement": "subEntities(cc) is the number of faces of codimension cc of the simplex, for entities of every codimension, for cached elements and on the interface grid.", "quantifier": "all dimensions and codimensions", "why_tests_cant": "Computed with integer products and divisions.", "anchors": ["dune/mmesh/grid/entity.hh: subEntities", "dune/mmesh/grid/cachingentity.hh: subEntities", "dune/mmesh/interface/entity.hh: subEntities", "dune/mmesh/interface/cachingentity.hh: subEntities"]}
{"id": "C70", "title": "Numbers of ghost entities", "statement": "ghostSize(codim) is the number of entities of that codimension whose partition type is Ghost, in the bulk grid and in the interface grid; overlapSize is zero.", "quantifier": "all grids, partitions, dimensions and codimensions", "why_tests_cant": "Tests print the numbers and compare them with nothing.", "anchors": ["dune/mmesh/grid/mmesh.hh: ghostSize, overlapSize", "dune/mmesh/interface/grid.hh: ghostSize, overlapSize"]}
{"id": "C71", "title": "Global refinement", "statement": "globalRefine(steps) refines every element in each step: each round queues the split of the refinement edge of every element exactly once and nothing else, starts without remains of the round before, and leaves no marks, flags or queued operations behind; the same for the interface grid.", "quantifier": "all grids, all numbers of steps, all behaviours of the triangulation", "why_tests_cant": "Whether something remains from an earlier round depends on the history.", "anchors": ["dune/mmesh/grid/mmesh.hh: globalRefine, adapt, postAdapt", "dune/mmesh/interface/grid.hh: globalRefine, postAdapt"]}
{"id": "C72", "title": "Both sides of an interface intersection agree", "statement": "For every intersection of the interface grid that is not on its boundary, indexInInside() and indexInOutside() name the facet which the two elements share, and mapping a local point through geometry(), through geometryInInside() and the inside element, or through geometryInOutside() and the outside element gives the same point, with the same order of corners on both sides.", "quantifier": "all interfaces (including junctions of more than two elements), all their intersections, all local points, all positions of the vertices", "why_tests_cant": "The order of corners depends on the ids of the vertices in both elements; tests see a few numberings.", "anchors": ["dune/mmesh/interface/intersections.hh: geometry, geometryInInside, geometryInOutside, indexInInside, indexInOutside, outside", "dune/mmesh/interface/geometry.hh: MMeshInterfaceGridGeometry, corner", "dune/mmesh/misc/twistutility.hh: twistInSelf, twistInNeighbor"]}
{"id": "C73", "title": "Python entry points choose the right dimension and side", "statement": "mmesh(constructor, dimgrid) builds a grid of the given dimension, or of the dimension of the constructor if none is given, and raises KeyError for anything but 2 and 3. trace(u) restricted to '+' gives values, gradients and Hessians of u in the element the interface element belongs to, restricted to '-' those of its neighbour, at the same point of the interface, whether the side is chosen in the call or in the form; any other side is rejected with a ValueError.", "quantifier": "all arguments, all bulk functions, all interface elements between two elements, all local points", "why_tests_cant": "A test fixes a few functions and meshes; mixed-up sides are only seen by discontinuous functions.", "anchors": ["python/dune/mmesh/_grids.py: mmesh", "python/dune/mmesh/_skeletontrace.py: trace", "dune/python/mmesh/pyskeletontrace.hh: TraceGF"]}
{"id": "C74", "title": "One level, leaf elements and declared capabilities", "statement": "All entities are on level 0 = maxLevel(): queries for that level answer as the leaf view does, and other levels are refused or empty. isLeaf() holds for exactly the elements of the leaf view, descendantElements visits none, no element has a father. hasEntity is declared for exactly the codimensions the grid has. The boundary id given to dune-fem is that of the boundary segment.", "quantifier": "all levels, elements, codimensions, boundary facets and adaptation histories", "why_tests_cant": "Whether elements are leaves depends on the history of adaptations; tests pass level 0 only.", "anchors": ["dune/mmesh/grid/mmesh.hh: maxLevel, levelIndexSet, lbegin, lend, size, Capabilities::hasEntity", "dune/mmesh/grid/entity.hh: isLeaf, level, hasFather, hbegin, hend", "dune/mmesh/grid/hierarchiciterator.hh", "dune/mmesh/interface/grid.hh: levelIndexSet, lbegin, Capabilities::hasEntity", "dune/mmesh/interface/hierarchiciterator.hh", "dune/mmesh/misc/boundaryidprovider.hh: boundaryId"]}
{"id": "C75", "title": "Indices are up to date after every operation", "statement": "After any history of operations (construction, adaptation, load balancing, addInterface, movement, marking), on every process the index sets of the grid and of the interface grid number exactly the entities which iteration over the leaf views visits, from 0 to size()-1, and these are the entities the process owns or has as ghosts.", "quantifier": "all histories of operations, meshes, interfaces, numbers of processes and previous contents of the data structures", "why_tests_cant": "Holds for all histories; tests check indices after one operation on one process.", "anchors": ["dune/mmesh/grid/mmesh.hh: MMesh, update, setIndices, addInterface, adapt_, loadBalance", "dune/mmesh/misc/partitionhelper.hh: distribute, setRanks, computePartitions, computeInterfacePartitions, partition", "dune/mmesh/grid/indexsets.hh: update", "dune/mmesh/interface/grid.hh: setIndices"]}
{"id": "C76", "title": "The mesh resolves the interface at all times", "statement": "After any history of adaptations, addInterface and movements of a 2D grid, every interface segment is an edge of the triangulation that joins two interface vertices, isInterface answers true for exactly the stored segments, and the vertices flagged as interface vertices are exactly the ends of segments. An adaptation replaces each refined segment by its two halves with the same marker, merges the two segments at a removed vertex, adds a segment for each appended vertex, and leaves all other segments alone.", "quantifier": "all meshes, interfaces, histories of operations and lists of queued insertions and removals", "why_tests_cant": "Whether a segment remains an edge depends on all insertions and removals since it was added, in their order.", "anchors": ["dune/mmesh/grid/mmesh.hh: adapt_, insertVertexInEdge, addInterface, isInterface, moveVertices, removeFromInterface", "dune/mmesh/cgal/triangulationwrapper.hh: removeAndGiveNewElements, remeshHoleConstrained"]}
{"id": "C77", "title": "Refinement keeps the domain and the shape of the interface", "statement": "Refining a 2D grid keeps all elements positively oriented, the total area, the set of points covered by the elements, the position of every vertex and every point of the interface, and adds points to the interface only where vertices are appended or interfaces cross, whenever each new vertex is an inner point of the edge it splits (refineEdge with 0 < where < 1, bisection) or of the element it is put into. Nothing checks this condition: where outside (0, 1) turns an element over, insertVertexInCell on an edge creates elements without area, and outside of the grid it enlarges the domain.", "quantifier": "all valid 2D triangulations and interfaces, all lists of insertions in one adaptation, all coordinates", "why_tests_cant": "Overlaps and gaps show only for particular positions; the statement is about all real coordinates and all orders of insertions.", "anchors": ["dune/mmesh/grid/mmesh.hh: adapt_, insertInEdge_, insertInCell_, insertInInterface_, refineEdge, insertVertexInCell, addToInterface"]}
{"id": "C78", "title": "A movement that passes the check keeps the elements positively oriented", "statement": "If ensureInterfaceMovement(shifts) returns false with no removals pending, moveInterface(shifts) leaves every element with positive volume; in 3D the check throws exactly if an element would not be positive. moveMesh, which checks twice the shifts and then moves by the shifts, leaves every element positive as well if its checks end before the tenth round.", "quantifier": "all grids, interfaces and shifts; all callbacks and adaptations of moveMesh", "why_tests_cant": "Whether an element degenerates depends on real coordinates; the gap between the movement checked and the movement made shows only for particular shifts.", "anchors": ["dune/mmesh/grid/mmesh.hh: ensureInterfaceMovement, moveInterface, signedVolume_", "python/dune/mmesh/_move.py: moveMesh"]}
{"id": "C79", "title": "The elements tile the domain", "statement": "If no two inserted elements overlap and none is degenerate, then no two elements of the created grid overlap. Any history of adaptations (refinement of edges, new vertices in elements, removal of inner vertices), addInterface calls and movements of inner vertices that leave the elements positively oriented, in particular movements that pass ensureInterfaceMovement or ensureVertexMovement, keeps that: no two elements overlap, the elements cover the same points as at creation, and the total area (volume) is the same. In three dimensions the elements are inserted with positive orientation, the refined edges are not interface edges (see C31) and adapt with a vertex to remove throws.", "quantifier": "all grids, histories, points and shifts", "why_tests_cant": "Overlap is a statement about every point of the plane; that local orientation of the elements rules it out globally needs an argument over the whole triangulation.", "anchors": ["dune/mmesh/grid/mmesh.hh: adapt_, moveVertices, moveInterface, ensureInterfaceMovement, ensureVertexMovement", "dune/mmesh/grid/explicitgridfactory.hh: createGrid"]}
{"id": "C80", "title": "adapt(handle) keeps the integral of a piecewise constant function", "statement": "Adapting the two-dimensional grid with the data transfer for piecewise constant functions keeps the integral of the function over the whole domain, up to a tolerance of the geometric intersections, whatever edges were refined and vertices inserted or removed, in one adaptation; and no value outside the old range occurs. For this every element that is created must be mapped to a connected component that contains all old elements it overlaps, and every other element must be an old one in its old place.", "quantifier": "all grids that tile their domain, all queues of insertions and removals, all marks, all functions", "why_tests_cant": "The correctness of the mapping depends on how zones of different entries meet and on every intermediate triangulation; a test sees a few.", "anchors": ["dune/mmesh/grid/mmesh.hh: adapt, adapt_, markElementsForInsertion_, markElementForInsertion_, markElementsForRemoval_, markElementsAfterInsertion_, markElementsAfterRemoval_, buildConnectedComponents_, getConnectedComponent"]}
{"id": "C81", "title": "The transfer of the interface grid keeps integrals along the interface", "statement": "After any number of refinements of interface segments and removals of interface vertices of a two-dimensional grid since the last postAdapt, adapt(handle) of the interface grid with the transfer for piecewise constant functions keeps the integral along the interface, provided removed vertices join two segments at an angle of at least 90 degrees. If removed vertices lie on the new segments, no value outside the old range occurs. Segments appended to the interface take the value of the segment they extend.", "quantifier": "all interfaces, all histories of changes between two transfers, all positions of the vertices, all functions and numberings", "why_tests_cant": "The statement sums over every element and every history of changes; the branch between prolongation and restriction depends on real lengths.", "anchors": ["dune/mmesh/interface/grid.hh: adapt, markAsRefined, getConnectedComponent", "dune/mmesh/grid/mmesh.hh: insertInInterface_, removeFromInterface_, adapt_"]}
{"id": "C82", "title": "Queries from several threads", "statement": "While no operation changes the grid, any number of threads may ask isInterface of facets at the same time: every call returns what it returns in a single thread, for every schedule of the threads, and no thread waits for another.", "quantifier": "all grids, all numbers of threads, all calls of every thread, all interleavings of their steps", "why_tests_cant": "A wrong answer needs two threads inside the query at once at particular steps; tests run one thread or a few schedules.", "anchors": ["dune/mmesh/grid/mmesh.hh: isInterface", "dune/mmesh/interface/grid.hh: isInterface, getVertexIds_", "dune/python/mmesh/pyskeletontrace.hh"]}
{"id": "C83", "title": "Exceptions of a 3D grid can be caught", "statement": "If adapt or the check of a movement of a three-dimensional grid ends in an exception which the program catches, the grid is still valid: the elements tile the same domain, every element has an index, and after postAdapt, which gives the requests up, the grid works as before.", "quantifier": "all tetrahedral grids, all histories of requests, adapt, postAdapt, movements and checks, every operation that may throw in them", "why_tests_cant": "What a throwing operation leaves behind depends on what it had done before the exception; tests end with the exception.", "anchors": ["dune/mmesh/grid/mmesh.hh: adapt_, postAdapt, ensureInterfaceMovement, removeFromInterface_, removeVertex, insertVertexInCell, refineEdge", "dune/mmesh/cgal/triangulationwrapper.hh: removeAndGiveNewElements"]}
{"id": "C84", "title": "Sizes by geometry type", "statement": "The number of entities of a geometry type is the number of entities of the view of that type, and zero for types the grid has none of; types(codim) lists the one type of the entities of the codimension and throws for a codimension greater than the dimension; so the sizes of the types of a codimension add up to size(codim). The same holds for the interface.", "quantifier": "all triangulations and interfaces (2D and 3D), all geometry types, all codimensions", "why_tests_cant": "Tests ask for the types a grid has and for a few meshes.", "anchors": ["dune/mmesh/grid/indexsets.hh: size, types, geomTypes", "dune/mmesh/interface/indexsets.hh: size, types", "dune/mmesh/grid/mmesh.hh: size"]}
{"id": "C85", "title": "Ids and hashes from several threads", "statement": "While no operation changes the grid, any number of threads may ask one entity object for its id and hash one id object (as a look-up in an unordered map does) at the same time: every call returns what it returns in a single thread, for every schedule, and no thread waits for another.", "quantifier": "all ids, all hash functions of numbers, all numbers of threads and calls, all interleavings of the accesses to the object", "why_tests_cant": "A wrong hash needs two first calls on one object at once at particular steps.", "anchors": ["dune/mmesh/grid/multiid.hh: hash, operator=, copy constructor", "dune/mmesh/grid/entity.hh: id", "dune/mmesh/interface/entity.hh: id"]}
