{"id": "C01", "title": "Union-find tracks connectivity", "statement": "After DisjointSet::new(n) and any sequence of merge(x,y) calls with x,y<n, two indices end in the same group of output() exactly when they are connected by a chain of merged pairs.", "quantifier": "every n and every finite sequence of merges with in-range arguments", "why_tests_cant": "the number of merge histories is unbounded and path compression makes the internal shape history dependent", "anchors": ["src/disjoint_set/mod.rs: DisjointSet::new, merge, find_set, link, output"]}
{"id": "C02", "title": "n_groups counts the groups", "statement": "The public field n_groups always equals the number of groups, i.e. the number of classes of the connectivity relation of the merges performed so far.", "quantifier": "every n, every merge history, observed after every prefix", "why_tests_cant": "double-decrement or missed-decrement bugs only show for particular histories (merging already connected indices through longer chains)", "anchors": ["src/disjoint_set/mod.rs: n_groups, link"]}
{"id": "C03", "title": "output() is a partition", "statement": "output() returns every index 0..n-1 in exactly one group, each group is non-empty, ascending, and its key is one of its members.", "quantifier": "every n and merge history", "why_tests_cant": "a partition claim is universal over indices and histories", "anchors": ["src/disjoint_set/mod.rs: output"]}
{"id": "C04", "title": "Union-find never panics or diverges", "statement": "merge and output with in-range arguments always terminate without an out-of-bounds access or an arithmetic underflow, however deep the parent chains have become.", "quantifier": "every n and merge history", "why_tests_cant": "divergence needs a parent cycle, which must be excluded for all histories", "anchors": ["src/disjoint_set/mod.rs: find_set, link"]}
{"id": "C05", "title": "Push-relabel returns a minimum cut", "statement": "With exact arithmetic and non-negative capacities, after find_max_flow the nodes with is_sink false contain node 0, exclude node n-1, and the total capacity of arcs leaving that set is no larger than that of any other set containing node 0 and not node n-1.", "quantifier": "every directed multigraph without self-loops on n>=2 nodes with distinct source 0 and sink n-1", "why_tests_cant": "minimality quantifies over exponentially many cuts of arbitrarily large graphs", "anchors": ["src/graphcut/push_relabel_fifo.rs: PushRelabelFifo::from, find_max_flow, is_sink, push, relabel, discharge, global_relabel"]}
{"id": "C06", "title": "Push-relabel keeps a valid preflow", "statement": "At every point of find_max_flow residual capacities and excesses stay non-negative and the residuals of an arc and its reverse always add up to their original total; excess equals inflow minus outflow.", "quantifier": "every graph, every intermediate state reachable by initialisation, pushes, relabels and global relabels", "why_tests_cant": "the invariant concerns every intermediate state of an unbounded run", "anchors": ["src/graphcut/push_relabel_fifo.rs: init, push, relabel, global_relabel"]}
{"id": "C07", "title": "Push-relabel labels stay valid", "statement": "At every point the label of a node exceeds the label of a residual neighbour by at most one, so no residual path from a node labelled below n reaches the sink undetected.", "quantifier": "every graph with non-negative capacities and every state reached at the head of a round", "why_tests_cant": "needs an inductive invariant over all schedules of push/relabel operations", "anchors": ["src/graphcut/push_relabel_fifo.rs: relabel, global_relabel"]}
{"id": "C08", "title": "Push-relabel terminates", "statement": "find_max_flow performs finitely many pushes and relabels on every graph and then stops.", "quantifier": "every graph with non-negative exact capacities", "why_tests_cant": "termination is a statement about unbounded runs", "anchors": ["src/graphcut/push_relabel_fifo.rs: find_max_flow, discharge"]}
{"id": "C09", "title": "ArcBuilder encodes the cut energy", "statement": "For non-negative terminal and pairwise costs the graph built by ArcBuilder::new followed by add_arc calls has, for every labelling, cut capacity equal to the labelling's energy, so the labelling returned through is_sink minimises that energy.", "quantifier": "every cost vector, every sequence of add_arc calls and every labelling", "why_tests_cant": "universal over all 2^k labellings", "anchors": ["src/graphcut/mod.rs: ArcBuilder::new, add_arc", "src/polygonlization/bsp_complex.rs: complex_partition"]}
{"id": "C10", "title": "GraphCut computes a minimum cut", "statement": "With exact non-negative capacities, the value returned by max_flow equals the capacity of the cut given by the per-node is_sink flags and no cut is smaller.", "quantifier": "every graph built by add_node weights and add_edge calls", "why_tests_cant": "minimality over all cuts of arbitrary graphs", "anchors": ["src/graphcut/mod.rs: GraphCut::new, add_edge, max_flow, augment, process_source_orphan, process_sink_orphan"]}
{"id": "C11", "title": "GraphCut search trees stay forests", "statement": "At the head of every round of max_flow every node of a tree (every node with a parent) reaches its terminal by parent arcs with positive residual capacity and the parent arcs are acyclic; growth, augmentation and adoption of the next round terminate.", "quantifier": "every graph with non-negative capacities and every state reached at the head of a round", "why_tests_cant": "tree shape is a property of unbounded histories of growth, augmentation and adoption", "anchors": ["src/graphcut/mod.rs: max_flow, augment, set_orphan_front, set_orphan_rear"]}
{"id": "C12", "title": "Mesh construction reproduces the input polygons", "statement": "SurfaceMesh::new(polygons) creates exactly one face per polygon in order, and iterating the halfedges of face i visits the polygon's vertices in the given cyclic order.", "quantifier": "every non-empty list of polygons with at least two corners each", "why_tests_cant": "ranges over all polygon soups, manifold or not", "anchors": ["src/mesh/surface_mesh.rs: SurfaceMesh::new", "src/mesh/element/face.rs"]}
{"id": "C13", "title": "Edges identify vertex pairs", "statement": "In a mesh built by SurfaceMesh::new two halfedges belong to the same edge exactly when they join the same unordered pair of vertices, and iterating the halfedges of an edge visits each of them exactly once.", "quantifier": "every polygon soup (any number of faces around an edge)", "why_tests_cant": "non-manifold sibling cycles have unbounded length", "anchors": ["src/mesh/surface_mesh.rs: SurfaceMesh::new, he_sibling", "src/mesh/element/edge.rs"]}
{"id": "C14", "title": "Vertex circulators are complete", "statement": "The incoming and outgoing halfedge iterators of a vertex visit every halfedge ending (starting) at that vertex exactly once and stop.", "quantifier": "every polygon soup and every vertex", "why_tests_cant": "needs cycle reasoning for arbitrary valence", "anchors": ["src/mesh/element/vertex.rs", "src/mesh/surface_mesh.rs: SurfaceMesh::new"]}
{"id": "C15", "title": "split_edge inserts one vertex on an edge", "statement": "split_edge(e) adds exactly one vertex and one edge; every face keeps its cyclic vertex list except that the new vertex appears between the endpoints of each occurrence of e; all iterators stay consistent.", "quantifier": "every well-formed mesh and every edge, with any number of incident faces", "why_tests_cant": "loop over an unbounded edge orbit with interleaved pointer updates", "anchors": ["src/mesh/surface_mesh.rs: split_edge"]}
{"id": "C16", "title": "split_face cuts a polygon in two", "statement": "split_face(f, va, vb) on a face containing both vertices adds exactly one edge and one face; the two faces' vertex cycles are the two arcs of the old cycle between va and vb; every other face is unchanged.", "quantifier": "every well-formed mesh, face, and pair of distinct non-adjacent face vertices", "why_tests_cant": "cycle surgery on polygons of unbounded size", "anchors": ["src/mesh/surface_mesh.rs: split_face"]}
{"id": "C17", "title": "add_face_by_halfedges closes a loop", "statement": "Given halfedges forming a closed vertex loop, a new face is added whose cycle visits these vertices in order, its halfedges join the existing edges, and all other faces are unchanged.", "quantifier": "every well-formed mesh and every closed loop of existing edges", "why_tests_cant": "unbounded loop length", "anchors": ["src/mesh/surface_mesh.rs: add_face_by_halfedges"]}
{"id": "C18", "title": "he_prev and he_twin", "statement": "he_prev inverts he_next on every halfedge, and he_twin returns a halfedge of the same edge with opposite direction when one exists.", "quantifier": "every well-formed mesh and halfedge", "why_tests_cant": "walks cycles of unbounded length", "anchors": ["src/mesh/surface_mesh.rs: he_prev, he_twin"]}
{"id": "C19", "title": "Error-free addition", "statement": "two_sum(a,b) (and two_diff, and fast_two_sum when |a|>=|b|) return (x,y) with x the rounded result and x+y exactly equal to a+b (a-b).", "quantifier": "all pairs of finite binary64 values whose rounded sum does not overflow", "why_tests_cant": "2^128 input pairs; the error term depends on rounding subtleties", "anchors": ["src/predicates/predicates.rs: two_sum, two_diff, two_diff_tail, fast_two_sum"]}
{"id": "C20", "title": "Error-free multiplication", "statement": "two_product(a,b) returns the rounded product and its exact rounding error: x+y = a*b.", "quantifier": "all finite binary64 pairs whose product neither overflows nor underflows", "why_tests_cant": "2^128 input pairs", "anchors": ["src/predicates/predicates.rs: split, two_product, two_product_pre_split, square"]}
{"id": "C21", "title": "Expansion arithmetic is exact", "statement": "grow_expansion(_zeroelim), fast_expansion_sum_zeroelim, scale_expansion_zeroelim, two_two_sum/diff, two_one_product, two_two_product and the expansion multiplication return lists of floats whose exact sum is the sum (product) of the exact values of the operands.", "quantifier": "all finite non-overlapping operands of any length without overflow/underflow", "why_tests_cant": "unbounded list lengths and real-valued meaning", "anchors": ["src/predicates/predicates.rs: grow_expansion, fast_expansion_sum_zeroelim, scale_expansion_zeroelim", "src/predicates/expansion_number.rs"]}
{"id": "C22", "title": "The last component carries the sign", "statement": "The results of the zero-eliminating expansion operations are ordered and non-overlapping, hence the sign of the last component is the sign of the exact value.", "quantifier": "all strongly non-overlapping operands of any length", "why_tests_cant": "every exact predicate relies on it for inputs that no test can enumerate", "anchors": ["src/predicates/predicates.rs: fast_expansion_sum_zeroelim, scale_expansion_zeroelim", "src/predicates/expansion_number.rs: positive, negative, not_zero"]}
{"id": "C23", "title": "expansion_sum adds both operands", "statement": "expansion_sum(e,f) returns an expansion whose value is value(e)+value(f).", "quantifier": "all operands of any length", "why_tests_cant": "wrong for almost all operands of length at least two, right for length one", "anchors": ["src/predicates/predicates.rs: expansion_sum"]}
{"id": "C24", "title": "Expansion operations are total", "statement": "Zero-eliminating operations accept every pair of expansions they can themselves produce and never lose a component or panic.", "quantifier": "all expansions including the empty one", "why_tests_cant": "needs a closed-world argument about which lists are produced", "anchors": ["src/predicates/predicates.rs: fast_expansion_sum_zeroelim, grow_expansion_zeroelim", "src/predicates/expansion_number.rs"]}
{"id": "C25", "title": "Interval addition and subtraction enclose", "statement": "For interval numbers a and b the result of a+b, a-b and -a contains the sum, difference, negation of every pair of reals they contain.", "quantifier": "all finite intervals and all contained reals", "why_tests_cant": "real-valued enclosure for all floats", "anchors": ["src/predicates/interval_number.rs: Add, Sub, Neg"]}
{"id": "C26", "title": "Interval multiplication encloses", "statement": "a*b contains the product of every pair of reals contained in a and b, in each of the nine sign cases.", "quantifier": "all finite intervals and all contained reals", "why_tests_cant": "nine sign cases times all floats", "anchors": ["src/predicates/interval_number.rs: Mul"]}
{"id": "C27", "title": "Interval sign queries", "statement": "If positive() (negative()) returns true then every real in the interval is positive (negative); not_zero() implies the interval excludes zero.", "quantifier": "all intervals", "why_tests_cant": "universal over floats", "anchors": ["src/predicates/interval_number.rs: positive, negative, not_zero"]}
{"id": "C28", "title": "IntervalNumber::new stores the given bounds", "statement": "new(low,high) represents exactly the interval [low,high].", "quantifier": "all low<=high", "why_tests_cant": "universal over floats", "anchors": ["src/predicates/interval_number.rs: IntervalNumber::new"]}
{"id": "C29", "title": "Implicit points denote the intersection", "statement": "The homogeneous coordinates computed for a line-plane (LPI) or three-plane (TPI) point, when the denominator is non-zero, are the coordinates of the unique point on the line and plane (on the three planes).", "quantifier": "all real defining points", "why_tests_cant": "polynomial identities over all reals", "anchors": ["src/predicates/generic_point.rs: ImplicitPointLPI, ImplicitPointTPI, lpi_lambda, tpi_lambda"]}
{"id": "C30", "title": "orient3d formulas agree with exact orientation", "statement": "For each mix of explicit and implicit points the generic orient3d formula has the sign of the determinant of the denoted points.", "quantifier": "all real defining points with non-zero denominators", "why_tests_cant": "polynomial identities of degree up to several dozens over all reals", "anchors": ["src/predicates/orient3d.rs: orient3d_ieee_impl, orient3d_iiee_impl, orient3d_iiie_impl, orient3d_iiii_impl"]}
{"id": "C31", "title": "orient3d dispatch respects orientation", "statement": "orient3d(a,b,c,d) equals the orientation of the four denoted points for each of the 81 combinations of explicit/LPI/TPI arguments.", "quantifier": "all 81 combinations and all denoted points", "why_tests_cant": "81 hand-written argument permutations, each must have even parity", "anchors": ["src/predicates/orient3d.rs: orient3d"]}
{"id": "C32", "title": "orient2d dispatch respects orientation", "statement": "The generic orient2d on each coordinate plane equals the orientation of the projected denoted points for each of the 27 combinations of argument kinds.", "quantifier": "all combinations, axes and denoted points", "why_tests_cant": "81 hand-written cases", "anchors": ["src/predicates/orient2d.rs: orient2d_xy, orient2d_yz, orient2d_zx, orient2d_by_axis"]}
{"id": "C33", "title": "less_than is the coordinate order", "statement": "less_than_on_x/y/z(a,b) compares the exact coordinates of the denoted points, and is antisymmetric under swapping the arguments.", "quantifier": "all kinds of points", "why_tests_cant": "nine combinations per axis over all reals", "anchors": ["src/predicates/less_than.rs: less_than_on_x, less_than_on_y, less_than_on_z"]}
{"id": "C34", "title": "Exact stages compute the determinant", "statement": "The last stage of the explicit predicates orient2d, orient3d, incircle, insphere, orient4d evaluates the full determinant of the input coordinates.", "quantifier": "all inputs", "why_tests_cant": "the last stage runs only on near-degenerate inputs and drops to terms far below test resolution", "anchors": ["src/predicates/predicates.rs: orient2d_adapt, orient3d_adapt, incircle_adapt, insphere_exact, orient4d_exact"]}
{"id": "C35", "title": "Static filters never certify a wrong sign", "statement": "When a floating-point filter returns a non-zero value without going to exact arithmetic, its sign is the sign of the exact determinant.", "quantifier": "all inputs without overflow/underflow", "why_tests_cant": "error bounds are universal over floats", "anchors": ["src/predicates/predicates.rs: orient2d, orient3d, incircle, insphere", "src/predicates/mod.rs"]}
{"id": "C36", "title": "Segment and triangle tests match geometry", "statement": "point_in_segment, point_in_inner_segment, point_in_triangle, point_in_inner_triangle, segments_cross, segment_cross_triangle answer exactly the geometric incidence question when the orientation signs are exact.", "quantifier": "all point configurations in general or degenerate position", "why_tests_cant": "degenerate configurations form a measure-zero set that sampling misses", "anchors": ["src/predicates/mod.rs: point_in_segment_general, point_in_triangle, inner_segments_cross, inner_segment_cross_inner_triangle"]}
{"id": "C37", "title": "Projection axis keeps triangles non-degenerate", "statement": "For a non-degenerate triangle the axis returned by max_comp_in_tri_normal is one along which the projected triangle is non-degenerate and whose normal component is the largest in absolute value.", "quantifier": "all triangles", "why_tests_cant": "universal over reals", "anchors": ["src/predicates/mod.rs: max_comp_in_tri_normal"]}
{"id": "C38", "title": "Polygon triangulation keeps vertex identity", "statement": "triangulate_polygon returns only indices that occur in its segment list: the local renumbering is a bijection onto the distinct input indices and is undone exactly.", "quantifier": "every segment list and every triangulation result", "why_tests_cant": "all index lists", "anchors": ["src/triangle/triangle.rs: unique_indices, triangulate_polygon"]}
{"id": "C39", "title": "Polygon soup bookkeeping", "statement": "triangulate_polygon_soup returns one parent per triangle, equal to the index of the face it came from, in face order. Face number q is projected with the nine entries of the axes from 9q on.", "quantifier": "every list of faces", "why_tests_cant": "unbounded lists", "anchors": ["src/triangle/triangle.rs: triangulate_polygon_soup"]}
{"id": "C40", "title": "Edge flips preserve adjacency", "statement": "Flipping an interior edge keeps the neighbour relation symmetric with matching end points, rotates the quadrilateral, and leaves all other triangles' corners unchanged.", "quantifier": "every well-formed triangulation and every interior edge", "why_tests_cant": "pointer surgery with 4 neighbours that may coincide", "anchors": ["src/triangle/triangle.rs: flip, bond, sym"]}
{"id": "C41", "title": "Tetrahedron version algebra", "statement": "For every tetrahedron version, enext/eprev/esym permute origin, destination, apex and opposite vertex as documented; bonding two faces and crossing them returns the same face with matching vertices.", "quantifier": "all 12 versions, all 144 bondings and all vertex labellings", "why_tests_cant": "tables must be right for all labellings", "anchors": ["src/triangle/tetrahedron.rs: ENEXT_TBL, ESYM_TBL, BOND_TBL, FSYM_TBL, FACE_PIVOT1, FACE_PIVOT2, ORG_PIVOT"]}
{"id": "C42", "title": "Spatial sort is a permutation", "statement": "The insertion order computed by tetrahedralize visits every input point exactly once; each Hilbert split puts all points below the split plane before those above, and terminates.", "quantifier": "all point sets and index lists", "why_tests_cant": "unbounded lists with in-place swapping loops", "anchors": ["src/triangle/tetrahedron.rs: hilbert_split, hilbert_sort, brio_multiscale_sort"]}
{"id": "C43", "title": "incident() lists the tetrahedra of a vertex", "statement": "incident(v) returns distinct real tetrahedra containing v, all those reachable from the stored one through faces containing v, and restores all marks.", "quantifier": "every tetrahedral mesh", "why_tests_cant": "graph traversal of unbounded size", "anchors": ["src/triangle/tetrahedron.rs: TetMesh::incident"]}
{"id": "C45", "title": "Duplicate points are tolerated", "statement": "tetrahedralize inserts every distinct input point even if some points coincide.", "quantifier": "all point sets", "why_tests_cant": "depends on a random insertion order", "anchors": ["src/triangle/tetrahedron.rs: tetrahedralize, insert_vertex_bw"]}
{"id": "C46", "title": "remove_duplicates merges duplicates", "statement": "remove_duplicates returns pairwise distinct points, and maps every input point to an output point within epsilon of it.", "quantifier": "all point lists and epsilon", "why_tests_cant": "ranges over all floats", "anchors": ["src/polygonlization/mod.rs: remove_duplicates"]}
{"id": "C47", "title": "Degenerate triangles are dropped, others kept", "statement": "make_mesh_for_triangles passes on exactly the triangles whose three merged vertices are distinct and not collinear, with their shell number.", "quantifier": "all triangle lists", "why_tests_cant": "unbounded lists", "anchors": ["src/polygonlization/mod.rs: make_mesh_for_triangles"]}
{"id": "C48", "title": "Cached vertex orientations are exact", "statement": "The side of a plane recorded for each complex vertex equals the exact side of the vertex, whether computed directly, inherited from the end points of the edge it splits, or short-cut because the vertex was built from that plane.", "quantifier": "all vertex histories", "why_tests_cant": "recursive memo table over unbounded split histories", "anchors": ["src/polygonlization/bsp_complex.rs: verts_orient_wrt_plane, is_point_built_from_plane"]}
{"id": "C49", "title": "Virtual constraints cover dangling edges", "statement": "For every edge of the input triangles whose incident triangles are all coplanar and on one side, a virtual constraint through that edge and a non-coplanar point is added; no virtual constraint is added for other edges.", "quantifier": "all triangle soups", "why_tests_cant": "universal over soups", "anchors": ["src/polygonlization/conforming_mesh.rs: place_virtual_constraints, add_virtual_constraint"]}
{"id": "C50", "title": "triangle_at_tet finds existing faces", "statement": "If the three given vertices form a face of the tetrahedral mesh, triangle_at_tet returns such a face; whatever it returns has these three vertices.", "quantifier": "all tetrahedral meshes", "why_tests_cant": "traversal order dependent", "anchors": ["src/polygonlization/conforming_mesh.rs: triangle_at_tet"]}
{"id": "C51", "title": "Coplanar triangle lists are sorted sets", "statement": "insert_coplanar_triangles keeps the list sorted and duplicate free and adds exactly the non-virtual indices.", "quantifier": "all lists", "why_tests_cant": "unbounded lists", "anchors": ["src/polygonlization/bsp_complex.rs: insert_coplanar_triangles"]}
{"id": "C53", "title": "The interval filter never contradicts the exact sign", "statement": "Whenever the interval stage of an indirect predicate decides, its verdict is the sign of the exact determinant of the points denoted.", "quantifier": "all finite inputs of the nine indirect kernels, for LPI and TPI points", "why_tests_cant": "the stage is consulted only for nearly degenerate inputs, and rounding errors are input dependent", "anchors": ["src/predicates/orient3d.rs: orient3d_ieee, orient3d_iiee, orient3d_iiie, orient3d_iiii", "src/predicates/orient2d.rs: orient2d_iee, orient2d_iie, orient2d_iii", "src/predicates/less_than.rs", "src/predicates/generic_point.rs: dynamic_filter"]}
{"id": "C54", "title": "Edges and neighbours of a vertex", "statement": "On every mesh reached by construction and splits, the edge iterator of a vertex yields each edge incident to the vertex exactly once, and the vertex iterator yields the other endpoints of these edges in the same order; both stop.", "quantifier": "all reachable meshes, all used vertices", "why_tests_cant": "the walk alternates between two circular lists and stops when it meets its starting state again; whether this visits everything depends on the whole linkage, non-manifold vertices included", "anchors": ["src/mesh/element/vertex.rs: VNeiState, VNeiIterImpl, VVIter, VEIter", "src/mesh/element/mod.rs: iter_next"]}
{"id": "C55", "title": "The first tetrahedron and its ghosts", "statement": "initial_delaunay builds the tetrahedron of the four given points and four ghosts, one per face, mutually adjacent so that crossing any face at any edge reaches the same face seen from the other side, and stores for each of the points a tetrahedron containing it and for the others none.", "quantifier": "all numbers of points and all four distinct points", "why_tests_cant": "links of sixty face versions, for all labels", "anchors": ["src/triangle/tetrahedron.rs: TetMesh::initial_delaunay, bond, make_tet"]}
{"id": "C44", "title": "Symbolically perturbed insphere", "statement": "insphere_s is the sign of the insphere determinant after lowering the lifted height of point i by d^(i+1) for all small enough d > 0; it is therefore alternating in its five arguments and never Zero for a tetrahedron that is not flat and distinct points.", "quantifier": "all index tuples and point sets", "why_tests_cant": "parity over all 120 orderings and all point positions", "anchors": ["src/triangle/tetrahedron.rs: insphere_s"]}
{"id": "C52", "title": "Triangle-polygon overlap test", "statement": "is_triangle_intersects_poly returns false only if the line along a side of one figure has no corner of the other strictly inside, returns true whenever the interiors of triangle and polygon share a point, and for convex figures with interior points returns true exactly when the interiors share a point.", "quantifier": "all triangles and polygons, of any number of corners, in exact coordinates", "why_tests_cant": "needs Helly's theorem over the reals; tests only sample positions", "anchors": ["src/polygonlization/bsp_complex.rs: is_triangle_intersects_poly"]}
{"id": "C56", "title": "Edges are cut where they cross the plane", "statement": "The point get_ef_clip_pt builds for an edge whose end points lie strictly on opposite sides of a triangle's plane denotes exactly the point of the open edge on that plane, whether the edge's line comes from two input points or from two planes, and whether or not the planes share two vertices.", "quantifier": "all edges, planes and vertex tables", "why_tests_cant": "identity of implicitly defined points; tests only sample coordinates", "anchors": ["src/polygonlization/bsp_complex.rs: get_ef_clip_pt, three_planes_intersection"]}
{"id": "C57", "title": "Sides copied to coplanar triangles", "statement": "When split_cell copies the recorded side of a vertex from one triangle to a coplanar one, reversing it exactly when the projected orientations differ, the copied value is the exact side for the other triangle, provided both triangles were projected along the same axis.", "quantifier": "all pairs of coplanar triangles and all points", "why_tests_cant": "real geometry over all coordinates", "anchors": ["src/polygonlization/bsp_complex.rs: split_cell 267-281"]}
{"id": "C58", "title": "Inserting a point keeps the tetrahedral mesh glued", "statement": "insert_vertex_bw, called with a new point away from the vertices of a mesh in which every live tetrahedron is glued along its four faces to live tetrahedra on the same three vertices in opposite order, does not panic, deletes exactly the tetrahedra reached from the located place through tetrahedra in conflict with the point, builds exactly one tetrahedron per border face of that cavity, and returns a mesh glued in the same sense, in which the tetrahedron stored for every vertex is live and contains it.", "quantifier": "all meshes, all points and all values of the orientation and in-sphere predicates for which the border of the cavity is not pinched along an edge and no vertex is enclosed", "why_tests_cant": "the connection of the new tetrahedra depends on version tables and on the order of the border; a wrong neighbour shows only many insertions later", "anchors": ["src/triangle/tetrahedron.rs: insert_vertex_bw 875-1101, locate_dt 711-815"]}
{"id": "C59", "title": "tetrahedralize returns a glued mesh", "statement": "tetrahedralize returns, for points that are located away from the vertices one after the other, a mesh without deleted tetrahedra that is glued along all faces and in which the tetrahedron stored for every point contains it, so that incident finds the star of every point.", "quantifier": "all numbers of points, insertion orders and values of the predicates for which every insertion meets the conditions of C58", "why_tests_cant": "an invariant over all insertions of a run and a renumbering of all references", "anchors": ["src/triangle/tetrahedron.rs: tetrahedralize 1128-1252"]}
{"id": "C60", "title": "The regions of a planar triangulation are kept or dropped as a whole", "statement": "After the segments are marked, triangulate ends and returns the corners of the triangles of the kept regions in order, where a region is a set of non-ghost triangles connected through unmarked sides: every region is kept or dropped as a whole, a dropped one has an odd mark on its border, a kept one has an even mark or none at all.", "quantifier": "all triangulations with glued sides whose marks are set on both sides of an edge, all ghost flags", "why_tests_cant": "the regions are found by a breadth-first search over an unbounded mesh; the flag of a region depends on the order of the search", "anchors": ["src/triangle/triangle.rs: triangulate 41-93"]}
{"id": "C61", "title": "mark_ghost ends and marks the ghosts", "statement": "mark_ghost ends on every glued triangulation and marks exactly the triangles met by turning around the vertex it starts at.", "quantifier": "all glued triangulations, all starting sides", "why_tests_cant": "termination needs that turning around a vertex comes back to the start in any mesh", "anchors": ["src/triangle/triangle.rs: mark_ghost 825-837"]}
{"id": "C62", "title": "make_vertex_map finds a side at every vertex", "statement": "make_vertex_map stores for every vertex of a non-ghost triangle a side that starts at it and lies in a non-ghost triangle; the other entries stay unset.", "quantifier": "all glued triangulations, all ghost flags", "why_tests_cant": "depends on the numbering of the triangles and of their neighbours", "anchors": ["src/triangle/triangle.rs: make_vertex_map 839-866"]}
{"id": "C63", "title": "find_direction finds the triangle towards a point", "statement": "find_direction, when it returns, gives a side at the same vertex such that the point searched for lies in the cone spanned by the side and the apex, and the result says whether the point is on the left ray, on the right ray or strictly between; around a vertex without ghost corners and with neighbours on both sides it returns.", "quantifier": "all glued triangulations, starting sides, points and exact orientation signs", "why_tests_cant": "the values of the two orientations are carried over from turn to turn and are not recomputed", "anchors": ["src/triangle/triangle.rs: find_direction 874-924"]}
{"id": "C64", "title": "scout_segment marks a chain of edges of the segment", "statement": "scout_segment changes nothing but marks; the sides whose mark it changes carry the mark of the segment and its twin; they contain a chain of edges from the start vertex, whose vertices are on the line of the segment, to the end point when it returns true and otherwise to a vertex from which the segment leaves through the interior of the returned triangle.", "quantifier": "all glued triangulations, segments and exact orientation signs", "why_tests_cant": "recursion over an unbounded number of collinear edges, marks on two sides with opposite parity", "anchors": ["src/triangle/triangle.rs: set_mark 940-949", "src/triangle/triangle.rs: scout_segment 951-986"]}
{"id": "C65", "title": "Cutting a cell keeps the cell complex", "statement": "When the plane of the chosen triangle cuts a cell, split_cell does not panic and leaves a cell complex: every face borders the cells that list it, the faces of every cell form a closed surface, the faces keep simple vertex cycles. Either only the coplanar triangles leave the cell, or the cell is cut in two: its old faces and the parts of the cut ones are divided between the cell and one new cell, one on each side of the plane, and both get the separating face, which lies in the plane. The parts of a face keep its plane and its other cell; its triangles go to the parts they reach into; the inner triangles go to the parts they meet; nothing else changes.", "quantifier": "all cell complexes, cells, planes meeting the cell in a simple polygon, all results of the geometric tests", "why_tests_cant": "unbounded number of faces and cut edges; an edge is shared by any number of faces of other cells, which are cut along", "anchors": ["src/polygonlization/bsp_complex.rs: split_cell 252-576", "src/polygonlization/bsp_complex.rs: split_face_verts 1632-1736", "src/polygonlization/bsp_complex.rs: make_loop 1738-1772", "src/polygonlization/bsp_complex.rs: separate_out_coplanar_triangles 1201-1234"]}
{"id": "C66", "title": "The partition of the cells ends with no triangle inside a cell", "statement": "The loop that cuts cells until none holds an inner triangle ends within a number of steps computed from the inner triangles alone, whatever the geometric tests answer, unless split_cell panics; when every cut meets its cell in a simple polygon it returns a cell complex without inner triangles.", "quantifier": "all cell complexes, all results of the geometric tests", "why_tests_cant": "a cut may hand the same triangle to both halves, so the number of triangles grows; termination needs a measure over all runs", "anchors": ["src/polygonlization/mod.rs: make_mesh_for_proper_triangles 66-79", "src/polygonlization/bsp_complex.rs: split_cell 252-576"]}
{"id": "C67", "title": "The tetrahedra of the mesh become a cell complex", "statement": "BSPComplex::new turns a glued tetrahedral mesh into a cell complex: one cell per real tetrahedron in their order with four faces, one face per pair of glued sides, the cells of a face being those of the two tetrahedra, the ghost side having none; the inner triangles of a cell are the marks of its tetrahedron, the triangles of a face are the marks of its sides below the number of original triangles, in increasing order.", "quantifier": "all glued tetrahedral meshes with the ghost vertex last, all marks", "why_tests_cant": "face numbers are passed between tetrahedra through a table indexed by the neighbour's side", "anchors": ["src/polygonlization/bsp_complex.rs: BSPComplex::new 126-187", "src/polygonlization/bsp_complex.rs: tet_face_is_new 121-123", "src/polygonlization/bsp_complex.rs: remove_ghost_tets 1406-1417", "src/polygonlization/bsp_complex.rs: insert_coplanar_triangles 1419-1427"]}
{"id": "C68", "title": "The surface of the kept cells is closed", "statement": "Whichever cells are kept, the faces between a kept and a dropped cell, directed as kept_faces says, form a closed surface: every directed edge occurs as often as its reverse. So for every glued mesh and every regular run the surface extracted from the complex is closed.", "quantifier": "all cell complexes, all sets of kept cells", "why_tests_cant": "holds for exponentially many choices of kept cells", "anchors": ["src/polygonlization/bsp_complex.rs: complex_partition 740-755"]}
{"id": "C69", "title": "The outlines of a group of faces are closed walks over its boundary", "statement": "extract_faces_outlines returns for every group of faces and every order of its hash map; the halfedges it collects are those the faces have without their opposites; every outline starts where it ends, each halfedge starting where the one before it ends, and every boundary halfedge is in exactly one outline, exactly once.", "quantifier": "all groups of faces without a halfedge twice, all orders of the hash map", "why_tests_cant": "at a vertex where the outline passes several times the next halfedge depends on what has been visited before and on a map filled from all faces; the order is that of a hash map", "anchors": ["src/polygonlization/bsp_complex.rs: extract_faces_outlines 927-1057"]}
{"id": "C70", "title": "Merging colinear edges keeps exactly the corners", "statement": "merge_colinear_edges returns the ends of the halfedges that are not colinear with their successor, in order, the last halfedge being followed by the first one; an outline whose consecutive halfedges are all colinear panics.", "quantifier": "all outlines, all results of the colinearity test", "why_tests_cant": "outlines have any length and may start inside a straight line", "anchors": ["src/polygonlization/bsp_complex.rs: merge_colinear_edges 1059-1188"]}
{"id": "C71", "title": "The merged faces meet along the same edges", "statement": "The loops merge_faces returns for the groups of a closed surface form a closed surface again: every directed edge of the loops occurs as often as its reverse, so a vertex dropped on one side of an edge is dropped on the other side too.", "quantifier": "all closed surfaces with two faces at every edge, all groupings, all orders of the hash maps", "why_tests_cant": "every group is merged alone; that two groups agree on the vertices between them is a property of all pairs of outlines", "anchors": ["src/polygonlization/bsp_complex.rs: merge_faces 842-925", "src/polygonlization/bsp_complex.rs: merge_colinear_edges 1059-1188"]}
{"id": "C72", "title": "The walk along the sides of a constraint collects the tetrahedra about its path", "statement": "constraint_sides_intersections makes no access out of range and leaves the mesh as it was. When it returns, each of the three sides has a path of vertices, edges and faces from its start to its end, in which each step goes to a vertex, edge or face that the side meets, of a real tetrahedron about the last one, and the tetrahedra collected are exactly those about the vertices, edges and faces of the three paths, without repetition. It ends in its own unreachable! or panic! only if on one of the sides there is a place that the side comes to from where no such step to another tetrahedron exists. If it has not returned after n steps of a side, there is a sequence of n such steps that has not come to the end of the side; that exact geometry excludes both is not claimed.", "quantifier": "all meshes that are linked and consistent and whose points are placed in real tetrahedra, all answers of the geometric tests by which no segment passes through the hull, which do not depend on the order of the vertices and by which a segment does not cross what it has an end on, all constraints", "why_tests_cant": "how a path goes through vertices, edges and faces depends on the mesh and on every coincidence of the side with them; paths have any length", "anchors": ["src/polygonlization/conforming_mesh.rs: constraint_sides_intersections 411-456", "src/polygonlization/conforming_mesh.rs: vert_on_constraint_side 458-515", "src/polygonlization/conforming_mesh.rs: edge_cross_constraint_side 517-598", "src/polygonlization/conforming_mesh.rs: triangle_pierced_by_constraint_side 600-637"]}
{"id": "C73", "title": "insert_constraints writes each constraint to the right places, in order", "statement": "insert_constraints makes no access out of range and leaves the mesh as it was. When it returns, every tetrahedron has five lists of constraints, in increasing order; constraint j is in the list of place k of tetrahedron t exactly if either it was found as a face of the mesh and (t, k) is one of the two sides of that face, or t is along a side of it and has row k by the test for such tetrahedra, or t is reached from those through neighbours that have an interior row and has interior row k. It ends in a panic of its own only if a side of some constraint has no way on (as in C72). If it has not returned after n steps of each side, some side has n steps that have not come to its end.", "quantifier": "all meshes as in C72 with at least as many tetrahedra as points, all lists of constraints", "why_tests_cant": "the spreading stops at tetrahedra without a row and goes over any number of them; the lists are shared by all constraints", "anchors": ["src/polygonlization/conforming_mesh.rs: insert_constraints 132-160", "src/polygonlization/conforming_mesh.rs: set_improper_intersections 639-716", "src/polygonlization/conforming_mesh.rs: interior_intersections 925-948"]}
{"id": "C74", "title": "The row of a tetrahedron says how the constraint meets it", "statement": "A tetrahedron along a side of a constraint gets the row of a face exactly if the face is in the plane of the constraint, the fourth vertex is not, and the face lies in the closed triangle or has an edge crossing a side; it gets row 4 only if the constraint passes through its inside. A tetrahedron away from the sides has the row of a face exactly if its three vertices are within the triangle and the fourth is not, and row 4 exactly if two of its other vertices are not on the same side and either a vertex is within the triangle or the edge between the two meets the triangle.", "quantifier": "all linked meshes, all answers of the geometric tests, all constraints, all tetrahedra", "why_tests_cant": "each number of vertices in the plane has its own test, and each test has degenerate cases", "anchors": ["src/polygonlization/conforming_mesh.rs: set_improper_intersections 639-716", "src/polygonlization/conforming_mesh.rs: constraint_intersect_face 718-745", "src/polygonlization/conforming_mesh.rs: constraint_intersect_edge 746-832", "src/polygonlization/conforming_mesh.rs: constraint_intersect_vertex 834-876", "src/polygonlization/conforming_mesh.rs: constraint_intersect_empty 878-923", "src/polygonlization/conforming_mesh.rs: constraint_intersect_tet_type 950-1007"]}
{"id": "C75", "title": "From the points to the surface", "statement": "The mesh returned by tetrahedralize meets what insert_constraints and the complex ask of it. When insert_constraints returns, the complex is built from its marks without a panic: the cell of a tetrahedron is to be cut by exactly the constraints to be written inside it, and a face carries exactly the real constraints to be written at its place in the tetrahedron of its first cell. The run over the cells ends with nothing left to cut, and the surface of any choice of cells is closed.", "quantifier": "all points, insertion orders, answers of the geometric tests and constraints for which every insertion meets the conditions of C58, no two tetrahedra have the same four vertices, no segment passes through the hull, and every cut is one of a convex cell", "why_tests_cant": "each stage relies on invariants of the stage before, for meshes of any size", "anchors": ["src/triangle/tetrahedron.rs: tetrahedralize 1128-1252", "src/polygonlization/conforming_mesh.rs: insert_constraints 132-160", "src/polygonlization/bsp_complex.rs: new 126-187, split_cell 252-576"]}
{"id": "C76", "title": "The output lists the points and triangles of the faces", "statement": "complex_partition turns the merged faces into points and triangles without a panic. The points are those of the vertices of all loops, each once, in the order of first use. The triangles, read as vertices, are those of the faces one after the other: a single loop of three vertices as it is, otherwise what triangulate returns for the projected points and the segments that join the vertices of each loop in turn, mirrored if the loop of largest area has a negative one; mirroring turns the area around. Every point of a face is given to triangulate once.", "quantifier": "all points, all lists of faces with at least one loop and vertices in range, all numbers whose comparison is total, all functions triangulate that return indices of their points", "why_tests_cant": "the numbering is shared by all faces, the local numbering is reset between loops, and slices of the segments are computed from lengths", "anchors": ["src/polygonlization/bsp_complex.rs: complex_partition 757-840", "src/polygonlization/bsp_complex.rs: poly_area 1979-1987"]}
{"id": "C77", "title": "The kept cells are those the shells agree on", "statement": "complex_partition builds one graph per shell without a panic. The cost of a cut is the cost of the labelling of the cells: a face without a triangle of the shell costs its area if it separates kept from not kept, a face on such a triangle costs half its area for each cell on the wrong side, the outside costs the area of all faces. Keeping the outside is never best. The labelling read off has least cost, a cell is kept if one of the shells keeps it, the outside never, and the sign of a face tells which side is kept. If the triangles of every shell bound it without gaps or contradictions, exactly the cells inside a shell are kept.", "quantifier": "all lists of faces with two different cells in range and areas that are not negative, all shells, all outcomes of the intersection and orientation tests", "why_tests_cant": "the result depends on costs summed over all faces and on a maximum flow; a wrong side shows only as a part missing from the output", "anchors": ["src/polygonlization/bsp_complex.rs: complex_partition 614-755", "src/graphcut/push_relabel_fifo.rs: find_max_flow, is_sink"]}
{"id": "C78", "title": "The face tests tell which faces lie on a triangle", "statement": "point_in_face accepts exactly the points strictly inside of all sides of the face, so it accepts the mean of the corners of a proper convex face. vert_in_tri accepts exactly the points of the closed triangle. So the test made at the mean accepts every face that lies in the triangle, and only faces whose interior overlaps it. face_intersects_tri, used when the centre is not inside, accepts only overlapping faces and every face that lies on the triangle. find_uncoplanar_verts returns a vertex on the side of the plane on which the cell lies. face_area is twice the area of a convex face.", "quantifier": "all convex faces with corners off the line of every side, all triangles that are not degenerate in the projection, all cells", "why_tests_cant": "the answer is a sign pattern over all sides; a wrong one shifts the cost of one face and shows, if at all, as a missing part of the output", "anchors": ["src/polygonlization/bsp_complex.rs: complex_partition 638-667", "src/polygonlization/bsp_complex.rs: face_intersects_tri 1296-1346", "src/polygonlization/bsp_complex.rs: point_in_face 1348-1378", "src/polygonlization/bsp_complex.rs: find_uncoplanar_verts 1904-1926", "src/polygonlization/bsp_complex.rs: face_area 1928-1946", "src/polygonlization/bsp_complex.rs: face_center 1949-1958", "src/polygonlization/bsp_complex.rs: vert_in_tri 1961-1976"]}
{"id": "C79", "title": "The test of a triangle against a cell misses no triangle", "statement": "is_triangle_intersects_cell answers yes exactly if the plane of the triangle has vertices of the cell strictly on both sides and no plane of a face has the whole triangle on its outer side. So it answers yes whenever a point of the triangle lies inside the cell, and split_cell loses no inner triangle of a cell. It answers yes only if the triangle meets the cell.", "quantifier": "all triangles that are not degenerate, all cells that are the hull of their vertices and lie inside of the planes of their faces", "why_tests_cant": "a lost triangle leaves a cell unsplit only for special positions", "anchors": ["src/polygonlization/bsp_complex.rs: is_triangle_intersects_cell 1774-1850", "src/polygonlization/bsp_complex.rs: split_cell 540-574"]}
{"id": "C80", "title": "The faces handed on are the merged faces without collapsed edges", "statement": "make_polyhedral_mesh turns the edges of each face into the edges between the merged vertices, in order, leaving out exactly those whose two ends are merged; closed polygons stay closed; each triangle handed on has the shell of the face it comes from, and its corners are vertices of that face. A face with an odd number of indices, or all of whose edges collapse, makes it panic.", "quantifier": "all points, faces, shells and tolerances; every order of the hash map; triangulate as any function", "why_tests_cant": "needs inputs with vertices nearer than the tolerance", "anchors": ["src/polygonlization/mod.rs: make_polyhedral_mesh 82-113", "src/triangle/triangle.rs: triangulate_polygon_soup 132-158"]}
{"id": "C81", "title": "Divide and conquer: cuts, and triangulations of two and three points", "statement": "alternate_axes orders the points so that at each level the first half is not after the second half on the current axis, down to two or three points in order of x. div_conq_recurse works on exactly these halves; for two points and for three points in any position it builds a triangulation with a ghost triangle at each side of the hull: neighbours are mutual and agree on their ends, real triangles are counterclockwise, the ghosts are those met around the hull, and the two returned sides are at the first and the last point. Without points triangulate panics; with one point it does not end.", "quantifier": "all numbers of points in all positions; every function that selects as select_nth_unstable_by is documented to", "why_tests_cant": "wrong links in the pieces show only after merging, far from the cause", "anchors": ["src/triangle/triangle.rs: triangulate 9-38", "src/triangle/triangle.rs: alternate_axes 191-211", "src/triangle/triangle.rs: div_conq_recurse 682-823"]}
{"id": "C82", "title": "Merging two triangulations gives a triangulation", "statement": "Given triangulations of two disjoint sets of points, each with its ghost triangles, merge_hulls gives a triangulation of all the points: every side has a neighbour that has it back and runs between the same two points; every corner is one of the points or the ghost vertex and every point is a corner; every triangle without the ghost vertex is counterclockwise; the ghosts are those met around one closed hull; two triangles are added and what was in the mesh before is untouched. So the divide and conquer over n points gives 2 n - 2 triangles, ghosts included.", "quantifier": "all meshes, all points in all positions, all numbers of steps", "why_tests_cant": "the relinking while removing triangles depends on the positions of many points", "anchors": ["src/triangle/triangle.rs: merge_hulls 354-680", "src/triangle/triangle.rs: div_conq_recurse 682-823"]}
{"id": "C83", "title": "Inserting segments keeps the triangulation and the segments already there", "statement": "While segments are inserted into the triangulation by flips, the mesh stays a triangulation of as many triangles in which neighbours are mutual and no triangle has a corner twice; the vertex map stays right and the ghost triangles keep their corners. The Delaunay repair after a flip (delaunay_fixup) never adds, removes or moves a marked side, so a segment already inserted is still there, and every side that carries the mark of a segment lies on its line. When a segment has been inserted it is in the mesh, as a chain of sides that carry its mark, and the segments inserted before it are where they were if it does not cross them.", "quantifier": "all meshes, all points in all positions, all lists of segments, all numbers of flips", "why_tests_cant": "how many flips a segment needs, and which edges the repair visits, depend on the positions of all points", "anchors": ["src/triangle/triangle.rs: delaunay_fixup 1050-1105", "src/triangle/triangle.rs: constrained_edge 1107-1173", "src/triangle/triangle.rs: insert_segment 1175-1199", "src/triangle/triangle.rs: form_skeleton 1201-1208", "src/triangle/triangle.rs: triangulate 9-94"]}
