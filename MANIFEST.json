{
 "claims": [
  {
   "property": "C01",
   "status": "proved",
   "theorems": [
    "ds_output_connected",
    "ds_total"
   ],
   "note": "all histories of merges and outputs"
  },
  {
   "property": "C02",
   "status": "proved",
   "theorems": [
    "ds_n_groups",
    "ds_output_n_groups",
    "ds_total"
   ],
   "note": ""
  },
  {
   "property": "C03",
   "status": "proved",
   "theorems": [
    "ds_output_partition",
    "ds_total"
   ],
   "note": ""
  },
  {
   "property": "C04",
   "status": "proved",
   "theorems": [
    "ds_total",
    "ds_out_of_range_panics"
   ],
   "note": ""
  },
  {
   "property": "C05",
   "status": "partial",
   "theorems": [
    "pr_flow_value",
    "pr_source_side_is_cut",
    "pr_min_cut_partial",
    "pr_min_cut_after_relabel",
    "pr_relabel_after_total",
    "pr_min_cut_zero",
    "pr_min_cut_refuted"
   ],
   "note": "false as stated: a node can end with label n-1 without reaching the sink (pr_min_cut_refuted). Proved: the flow value is the minimum cut value, the set is always a cut, it is minimal when no final label is n-1, minimal when the minimum is 0, and minimal always after one more global_relabel"
  },
  {
   "property": "C06",
   "status": "proved",
   "theorems": [
    "pr_preflow"
   ],
   "note": "every point of a run, including between two arc scans of push"
  },
  {
   "property": "C07",
   "status": "proved",
   "theorems": [
    "pr_labels_valid"
   ],
   "note": "every point of a run after the first global relabel"
  },
  {
   "property": "C08",
   "status": "proved",
   "theorems": [
    "pr_terminates",
    "pr_deterministic"
   ],
   "note": ""
  },
  {
   "property": "C09",
   "status": "partial",
   "theorems": [
    "arc_builder_energy",
    "arc_builder_valid",
    "arc_builder_min_energy",
    "arc_builder_min_energy_refuted"
   ],
   "note": "the energy identity is proved; the labelling returned by the code is not always minimal (refuted), it is after one more global_relabel"
  },
  {
   "property": "C10",
   "status": "partial",
   "theorems": [
    "C10_value",
    "C10_flags_partial",
    "C10_flags_refuted"
   ],
   "note": "max_flow ends on every valid graph and its value is the capacity of a minimum cut, which the source's tree and the complement of the sink's tree realise (C10_value, in full). The cut read from the is_sink flags is that cut when no node outside of both trees is flagged (C10_flags_partial); without this condition the claim is refuted: a node freed by the adoption keeps its flag (C10_flags_refuted, flow 1, flags cost 6). Capacities are exact integers."
  },
  {
   "property": "C11",
   "status": "proved",
   "theorems": [
    "C11_forest",
    "C11_terminates",
    "C11_acyclic"
   ],
   "note": "At the head of every round every node with a parent reaches its terminal along arcs with capacity left and no orphan is waiting; growth, augmentation and adoption of the next round end without a panic; the arcs to the parents are acyclic; the rounds end. A queued node that has been freed is in no tree and is dropped when picked."
  },
  {
   "property": "C12",
   "status": "proved",
   "theorems": [
    "C12_new_reproduces_polygons",
    "C12_new_panics_otherwise"
   ],
   "note": "proved for every list of polygons with at least one corner each; otherwise new panics"
  },
  {
   "property": "C13",
   "status": "proved",
   "theorems": [
    "C13_edges_identify_pairs",
    "C13_edge_iteration_reached"
   ],
   "note": ""
  },
  {
   "property": "C14",
   "status": "proved",
   "theorems": [
    "C14_vertex_circulators",
    "C14_used_vertices"
   ],
   "note": "for every mesh built by new and any sequence of the operations"
  },
  {
   "property": "C15",
   "status": "proved",
   "theorems": [
    "C15_split_edge",
    "C15_self_loop_refuted"
   ],
   "note": "for every reached mesh and every edge with two distinct endpoints; false for an edge with equal endpoints (refuted)"
  },
  {
   "property": "C16",
   "status": "proved",
   "theorems": [
    "C16_split_face",
    "C16_split_face_missing",
    "C16_repeated_vertex_refuted"
   ],
   "note": "adjacent corners allowed too; a face visiting one of the vertices twice before the other is outside (refuted)"
  },
  {
   "property": "C17",
   "status": "proved",
   "theorems": [
    "C17_add_face"
   ],
   "note": ""
  },
  {
   "property": "C18",
   "status": "proved",
   "theorems": [
    "C18_he_prev",
    "C18_he_twin"
   ],
   "note": ""
  },
  {
   "property": "C19",
   "status": "proved",
   "theorems": [
    "two_sum_exact",
    "two_diff_exact",
    "two_diff_tail_exact",
    "fast_two_sum_exact",
    "fast_two_diff_exact",
    "two_sum_no_overflow",
    "exact_init_ok"
   ],
   "note": "no overflow is said as: the returned low-order part is finite; two_sum_no_overflow gives a sufficient bound"
  },
  {
   "property": "C20",
   "status": "proved",
   "theorems": [
    "two_product_exact",
    "two_product_pre_split_same",
    "two_product_normal",
    "square_exact",
    "product_no_overflow",
    "two_product_underflow_refuted"
   ],
   "note": ""
  },
  {
   "property": "C21",
   "status": "proved",
   "theorems": [
    "operand_valid",
    "single_valid",
    "fast_sum_exact",
    "fast_diff_exact",
    "scale_exact",
    "mul_exact",
    "invert_exact",
    "grow_exact",
    "grow_zeroelim_exact",
    "two_two_sum_exact",
    "two_two_diff_exact",
    "two_one_product_exact",
    "run_exact",
    "operations_total",
    "run_total"
   ],
   "note": "operands may be any strongly nonoverlapping list or any result of the operations; run_exact covers whole expression trees"
  },
  {
   "property": "C22",
   "status": "proved",
   "theorems": [
    "operand_valid",
    "valid_nonoverlapping",
    "valid_last_sign",
    "fast_sum_exact",
    "fast_diff_exact",
    "scale_exact",
    "mul_exact",
    "run_sign"
   ],
   "note": "Shewchuk's invariant (strongly nonoverlapping) is not literally preserved; the weaker invariant proved preserved still gives nonoverlap and the sign"
  },
  {
   "property": "C23",
   "status": "partial",
   "theorems": [
    "expansion_sum_value",
    "expansion_sum_refuted"
   ],
   "note": "false: the second loop runs over the first operand"
  },
  {
   "property": "C24",
   "status": "partial",
   "theorems": [
    "operations_total",
    "run_total",
    "empty_operand_refuted"
   ],
   "note": "total on all non-empty lists; false with an empty operand (refuted), and grow_expansion_zeroelim can produce one"
  },
  {
   "property": "C25",
   "status": "proved",
   "theorems": [
    "iv_of_contains",
    "iv_of_exact",
    "iv_add_contains",
    "iv_sub_contains",
    "iv_neg_contains"
   ],
   "note": "on IEEE binary64 with the bit-level model of the lanes"
  },
  {
   "property": "C26",
   "status": "partial",
   "theorems": [
    "iv_mul_total",
    "iv_mul_contains_partial",
    "iv_mul_mirrored",
    "iv_of_signs",
    "iv_add_signs",
    "iv_sub_signs",
    "iv_mul_signs",
    "iv_mul_contains_refuted"
   ],
   "note": "false as stated: two of the nine sign cases return the mirrored interval; proved for the others and refuted for these"
  },
  {
   "property": "C27",
   "status": "partial",
   "theorems": [
    "iv_not_zero_sound",
    "iv_not_zero_complete",
    "iv_positive_means_negative",
    "iv_negative_means_positive",
    "iv_sign_queries_refuted"
   ],
   "note": "not_zero is right; positive and negative are exchanged (refuted)"
  },
  {
   "property": "C28",
   "status": "partial",
   "theorems": [
    "iv_new_denotes",
    "iv_new_refuted"
   ],
   "note": "new stores the lower bound without negation: denotes [-low, high] (refuted)"
  },
  {
   "property": "C29",
   "status": "proved",
   "theorems": [
    "lpi_denominator",
    "lpi_is_intersection",
    "tpi_denominator",
    "tpi_is_intersection"
   ],
   "note": "over exact real arithmetic"
  },
  {
   "property": "C30",
   "status": "proved",
   "theorems": [
    "orient3d_ieee_formula",
    "orient3d_iiee_formula",
    "orient3d_iiie_formula",
    "orient3d_iiii_formula",
    "orient2d_iee_formula",
    "orient2d_iie_formula",
    "orient2d_iii_formula",
    "less_than_ie_formula",
    "less_than_ii_formula"
   ],
   "note": "over exact real arithmetic"
  },
  {
   "property": "C31",
   "status": "proved",
   "theorems": [
    "orient3d_dispatch",
    "orient3d_exact_correct",
    "orient3d_degenerate_undefined"
   ],
   "note": "all 81 kind combinations, composed with the exact stages over the reals"
  },
  {
   "property": "C32",
   "status": "proved",
   "theorems": [
    "orient2d_dispatch",
    "orient2d_exact_correct"
   ],
   "note": "all 27 kind combinations on the three axes"
  },
  {
   "property": "C33",
   "status": "partial",
   "theorems": [
    "less_than_dispatch",
    "less_than_partial",
    "less_than_refuted",
    "less_than_exact_partial",
    "less_than_exact_refuted"
   ],
   "note": "false as stated: (Explicit,LPI), (Explicit,TPI) and (TPI,LPI) return the opposite sign; proved for the other kinds and refuted for these"
  },
  {
   "property": "C34",
   "status": "partial",
   "theorems": [
    "C34_insphere_exact",
    "C34_orient4d_exact",
    "C34_orient2d",
    "C34_incircle",
    "C34_insphere",
    "C34_orient4d",
    "C34_orient3d_value",
    "C34_orient3d_partial",
    "C34_orient3d_refuted"
   ],
   "note": "Proved for orient2d, incircle, insphere and orient4d, for coordinates that are multiples of 2^-180 of magnitude at most 2^100 (no overflow or underflow). Refuted for orient3d: its last stage passes cdztail for cdxtail, so it evaluates the determinant plus an extra term (C34_orient3d_value), and orient3d calls four coplanar points non-coplanar (C34_orient3d_refuted)."
  },
  {
   "property": "C35",
   "status": "partial",
   "theorems": [
    "C35_orient2d",
    "C35_orient3d_filter",
    "C35_incircle_filter",
    "C35_insphere_filter",
    "C35_orient4d_filter",
    "C35_incircle_partial",
    "C35_insphere_partial",
    "C35_orient4d_partial",
    "C35_orient3d_partial"
   ],
   "note": "orient2d is right at every stage; the first-stage filters of orient3d, incircle, insphere (static) and orient4d are sound for all coordinates in the no-overflow/underflow domain. Missing: the second and third adaptive stages of the four larger predicates, and the static filters of the indirect predicates (C53 covers the dynamic ones)."
  },
  {
   "property": "C36",
   "status": "partial",
   "theorems": [
    "point_in_inner_segment_spec",
    "point_in_segment_spec",
    "point_in_inner_triangle_spec",
    "point_in_inner_triangle_coplanarity_needed",
    "point_in_inner_triangle_degenerate",
    "point_in_triangle_spec",
    "inner_segment_cross_inner_triangle_spec",
    "inner_segments_cross_spec",
    "inner_segment_cross_triangle_sound",
    "inner_segment_cross_triangle_spec",
    "point_in_segment_general_partial",
    "point_in_segment_general_refuted"
   ],
   "note": "the tests over exact signs are characterised completely; point_in_segment_general is wrong for exchanged kinds (refuted)"
  },
  {
   "property": "C37",
   "status": "partial",
   "theorems": [
    "C37_projection",
    "C37_largest_refuted"
   ],
   "note": "the returned axis projects every non-degenerate triangle non-degenerately, whichever stage decides, and the call never panics (coordinates multiples of 2^-180 up to 2^100); that its normal component is the largest is false because rounded components are compared (C37_largest_refuted)"
  },
  {
   "property": "C38",
   "status": "proved",
   "theorems": [
    "C38_unique_indices",
    "C38_triangulate_polygon"
   ],
   "note": "for every planar triangulation function and every iteration order of the hash map"
  },
  {
   "property": "C39",
   "status": "proved",
   "theorems": [
    "C39_soup"
   ],
   "note": ""
  },
  {
   "property": "C40",
   "status": "proved",
   "theorems": [
    "C40_flip",
    "C40_shared_refuted"
   ],
   "note": "the two triangles must share only the flipped edge, as in a triangulation of distinct points; C40_shared_refuted shows the condition is needed"
  },
  {
   "property": "C41",
   "status": "proved",
   "theorems": [
    "C41_moves",
    "C41_versions",
    "C41_all_versions",
    "C41_orientation",
    "C41_bond",
    "C41_fnext",
    "C41_fnext_turns"
   ],
   "note": ""
  },
  {
   "property": "C42",
   "status": "proved",
   "theorems": [
    "C42_insertion_order",
    "C42_sort_permutes",
    "C42_split",
    "C42_octants"
   ],
   "note": "on binary64 coordinates; midpoints may overflow to infinity but are shown never to be NaN"
  },
  {
   "property": "C43",
   "status": "proved",
   "theorems": [
    "C43_incident"
   ],
   "note": "as in the code the walk starts from the stored tetrahedron even if that one is a ghost; no other ghost is listed"
  },
  {
   "property": "C45",
   "status": "partial",
   "theorems": [
    "C45_duplicate_panics",
    "C45_duplicates_refuted"
   ],
   "note": "false of the code: the loop breaks at the first duplicate and renumbering p2t then panics; proved for every input in which an insertion reports an existing vertex, with a witness"
  },
  {
   "property": "C46",
   "status": "partial",
   "theorems": [
    "C46_merge_partial",
    "C46_distinct_refuted",
    "C46_epsilon_zero",
    "C46_empty_panics"
   ],
   "note": "every point is mapped to an output point within epsilon/4 per coordinate and points are merged exactly if equal; distinctness of the output is false (equality is tested before rounding); epsilon 0 returns a map of the wrong length and the empty list panics"
  },
  {
   "property": "C47",
   "status": "proved",
   "theorems": [
    "C47_degenerate"
   ],
   "note": "the orient2d signs inside mis_alignment are exact ones"
  },
  {
   "property": "C48",
   "status": "proved",
   "theorems": [
    "C48_exact"
   ],
   "note": "orient3d enters through its exact sign (C31, C53); histories are those split_cell makes: see C56 for the cut points"
  },
  {
   "property": "C49",
   "status": "partial",
   "theorems": [
    "C49_edge_map",
    "C49_placed_partial",
    "C49_support_refuted"
   ],
   "note": "the intended claim is false of the code (C49_support_refuted); C49_placed_partial says exactly what is appended; coordinates exact, axis through C37, tetrahedra of p2t taken as non-degenerate"
  },
  {
   "property": "C50",
   "status": "partial",
   "theorems": [
    "C50_sound",
    "C50_complete_partial",
    "C50_complete_refuted"
   ],
   "note": "soundness and mark restoration proved for all consistent meshes; completeness proved when the stored tetrahedron of the first vertex contains another of the three; false in general (the neighbour loop breaks where it should continue)"
  },
  {
   "property": "C51",
   "status": "proved",
   "theorems": [
    "C51_insert_coplanar"
   ],
   "note": ""
  },
  {
   "property": "C53",
   "status": "partial",
   "theorems": [
    "dyn_ieee_partial",
    "dyn_iiie_partial",
    "dyn_iee_partial",
    "dyn_iie_partial",
    "dyn_ie_partial",
    "dyn_iiee_reversed",
    "dyn_iiii_reversed",
    "dyn_iii_reversed",
    "dyn_ii_reversed",
    "orient3d_llee_refuted",
    "orient3d_llll_refuted",
    "orient2d_lll_refuted",
    "less_than_ll_refuted"
   ],
   "note": "false as stated: kernels with an even number of denominators decide the opposite sign (refuted through the whole pipeline); the odd ones decide correctly on every run free of mirrored interval products"
  },
  {
   "property": "C54",
   "status": "partial",
   "theorems": [
    "C54_vertex_edges",
    "C54_self_loop_refuted"
   ],
   "note": "proved for every vertex without an edge from itself to itself; such an edge is yielded twice (refuted)"
  },
  {
   "property": "C55",
   "status": "proved",
   "theorems": [
    "C55_initial"
   ],
   "note": ""
  },
  {
   "property": "C44",
   "status": "proved",
   "theorems": [
    "C44_determinant",
    "C44_sphere",
    "C44_symbolic_perturbation",
    "C44_decides",
    "C44_alternating"
   ],
   "note": "proved over exact predicates: the sign is the one after lowering the lifted height of point i by d^(i+1) for all small d > 0"
  },
  {
   "property": "C52",
   "status": "proved",
   "theorems": [
    "C52_false",
    "C52_overlap",
    "C52_exact",
    "C52_winding_refuted"
   ],
   "note": "C52_winding_refuted: the polygon must be wound like the triangle, which split_cell does not ensure; orient2d_by_axis enters through its exact sign, which is what C32 gives"
  },
  {
   "property": "C56",
   "status": "proved",
   "theorems": [
    "C56_clip_line",
    "C56_clip_planes"
   ],
   "note": "the invariant that an edge's parents describe its line is a hypothesis; for split_cell as a whole see C65"
  },
  {
   "property": "C57",
   "status": "proved",
   "theorems": [
    "C57_copied",
    "C57_axes_refuted"
   ],
   "note": "C57_axes_refuted shows that the condition on the axes cannot be dropped"
  },
  {
   "property": "C58",
   "status": "partial",
   "theorems": [
    "C58_insertion_partial",
    "C58_large_refuted"
   ],
   "note": "Proved for every cavity with less than 2044 border faces. For larger ones the claim is refuted: the tetrahedron returned and stored for the new point is a deleted one of the cavity (C58_large_refuted). The two conditions on the cavity (border not pinched along an edge, no vertex enclosed) are hypotheses; that they hold for the cavities of exact Delaunay predicates is not proved."
  },
  {
   "property": "C59",
   "status": "partial",
   "theorems": [
    "C59_run",
    "C59_compact",
    "C59_tetrahedralize_partial",
    "C59_ghost_refuted"
   ],
   "note": "Proved for runs in which every insertion meets the conditions of C58 (location away from the vertices, cavity simple with no vertex enclosed and less than 2044 border faces). The entry of the ghost vertex is not renumbered (C59_ghost_refuted)."
  },
  {
   "property": "C60",
   "status": "proved",
   "theorems": [
    "C60_regions",
    "C60_consistent"
   ],
   "note": "For every glued triangulation whose marks are on both sides of an edge or on neither. C60_consistent: when the marks of every region have one parity, exactly the regions with odd marks are dropped."
  },
  {
   "property": "C61",
   "status": "proved",
   "theorems": [
    "C61_ghosts"
   ],
   "note": "Termination and exact result on every glued triangulation."
  },
  {
   "property": "C62",
   "status": "proved",
   "theorems": [
    "C62_vertex_map"
   ],
   "note": "The triangles' corners are point numbers below n and the mesh has at most INVALID_IND triangles."
  },
  {
   "property": "C63",
   "status": "proved",
   "theorems": [
    "C63_direction",
    "C63_cone",
    "C63_ends"
   ],
   "note": "C63_direction over any antisymmetric sign, C63_cone over real coordinates with exact signs, C63_ends: it ends around a vertex without ghost corners whose neighbours are not all strictly on one side. Around a vertex of the hull it may panic at the ghost vertex; there only the result is characterised."
  },
  {
   "property": "C64",
   "status": "proved",
   "theorems": [
    "C64_scout",
    "C64_line"
   ],
   "note": "Whatever the recursion returns; that it returns depends on the positions of the points and is not claimed. An edge of the chain that is met twice in opposite directions carries the marks of the last meeting."
  },
  {
   "property": "C65",
   "status": "proved",
   "theorems": [
    "C65_split",
    "C65_parts"
   ],
   "note": "C65_split: no panic, a complex again, the cell in two. C65_parts: what becomes of the faces, triangles and other cells, for all answers of the tests. The geometric tests are parameters. That the plane meets the cell in a simple polygon (cuts_cell) is a hypothesis: convexity of the cells is not derived."
  },
  {
   "property": "C66",
   "status": "proved",
   "theorems": [
    "C66_terminates",
    "C66_complex"
   ],
   "note": "C66_terminates holds for all answers of the tests; C66_complex needs every cut of the run to be regular (C65's hypothesis at each reached state)."
  },
  {
   "property": "C67",
   "status": "partial",
   "theorems": [
    "C67_complex",
    "C67_marks",
    "C67_other_side_refuted"
   ],
   "note": "Refuted: marks that only the second tetrahedron of a face carries are lost, since the second insertion reads the marks of the first tetrahedron again. Proved: everything else, and the triangles of a face are the marks of its first side."
  },
  {
   "property": "C68",
   "status": "proved",
   "theorems": [
    "C68_closed",
    "C68_pipeline"
   ],
   "note": "Closed as signed count of directed edges; C68_pipeline chains C67, C66 and C68."
  },
  {
   "property": "C69",
   "status": "partial",
   "theorems": [
    "C69_outlines_partial",
    "C69_outlines_refuted"
   ],
   "note": "Proved for groups in which no inner edge joins two vertices the outline passes more than once. Refuted without it: he_next_map is indexed by the edge alone, so for an inner edge between two such vertices one entry replaces the other and the turn panics."
  },
  {
   "property": "C70",
   "status": "proved",
   "theorems": [
    "C70_corners",
    "C70_straight_panics"
   ],
   "note": "The colinearity test is any function. The code for existing edge groups is dead (edge_in_group is never written) and is left out."
  },
  {
   "property": "C71",
   "status": "partial",
   "theorems": [
    "C71_conforming_partial",
    "C71_loops_found",
    "C71_conforming_refuted"
   ],
   "note": "Proved when no group has a vertex its outline passes more than once. Refuted without it: the vertex where a pit touches an edge of the top stays in the loop of the top and is dropped from that of the front."
  },
  {
   "property": "C72",
   "status": "proved",
   "theorems": [
    "C72_sides",
    "C72_steps"
   ],
   "note": "The geometric tests are any functions by which no segment between two points passes through a hull face. They are also fair (independent of the order of the vertices; z_fair shows that exact answers on integers are). The loop gets a number of steps; C72_steps says that the number does not matter once the walk has come to an end. If the steps given do not suffice, there is a sequence of as many steps that has not come to the end. That the walk does come to an end is not claimed."
  },
  {
   "property": "C73",
   "status": "proved",
   "theorems": [
    "C73_marks"
   ],
   "note": "The row along the sides is that of the model of set_improper_intersections (C74 says what it is); the interior row is a separate specification. C73 gives the hypothesis on the marks of C67."
  },
  {
   "property": "C74",
   "status": "partial",
   "theorems": [
    "C74_side_rows_partial",
    "C74_interior_rows",
    "C74_touch_refuted"
   ],
   "note": "Proved: the rows of the faces exactly, the interior rows exactly. For row 4 along the sides only that the plane separates vertices (or that all are on the same side or in the plane). Refuted: a tetrahedron that only touches the constraint in a vertex on a side gets row 4, because vert_point_in_inner_triangle is true on the sides too; on a mesh built by tetrahedralize."
  },
  {
   "property": "C75",
   "status": "partial",
   "theorems": [
    "C75_mesh_partial",
    "C75_surface_partial"
   ],
   "note": "Chains C59, C73, C67, C66 and C68. Assumed, not proved: the run of insertions is regular (C59), no two tetrahedra have the same four vertices (which gives the placed points and the number of tetrahedra that C73 asks for), the hull is hull_closed, the tracing returns, every cut is one of a convex cell (C66)."
  },
  {
   "property": "C76",
   "status": "partial",
   "theorems": [
    "C76_output",
    "C76_mirror",
    "C76_once",
    "C76_once_refuted"
   ],
   "note": "The arithmetic and triangulate are parameters; total comparison means that no area is NaN. Refuted: a vertex of two loops of one face is given to triangulate twice; C76_once proves it for loops without a common vertex. The witness is a list of loops, not the result of a run of merge_faces."
  },
  {
   "property": "C77",
   "status": "partial",
   "theorems": [
    "C77_costs",
    "C77_outside",
    "C77_kept_partial",
    "C77_consistent",
    "C77_relabelled",
    "C77_least_refuted"
   ],
   "note": "Costs are exact numbers, scaled by twice the sum of the areas; the geometric tests are parameters. Refuted: the labelling read off has least cost (two cubes with one square missing: a cube is dropped at cost 6, keeping both costs 2). Proved for shells that have a labelling of cost 0; one more relabelling would give least cost always."
  },
  {
   "property": "C78",
   "status": "partial",
   "theorems": [
    "C78_in_face",
    "C78_center",
    "C78_in_tri",
    "C78_hits",
    "C78_exact",
    "C78_fallback",
    "C78_fallback_iff",
    "C78_fallback_misses",
    "C78_center_needed",
    "C78_uncoplanar",
    "C78_area"
   ],
   "note": "Coordinates are real numbers: the rounding of the points and of the centre is not modelled. Refuted: face_intersects_tri accepts every face that lies on the triangle (it rejects the triangle itself, so a centre rounded to outside of the face loses the face)."
  },
  {
   "property": "C79",
   "status": "partial",
   "theorems": [
    "C79_iff",
    "C79_met",
    "C79_exact_refuted"
   ],
   "note": "Over the reals. Refuted: yes only if they meet (a triangle and a tetrahedron that only a direction across an edge of each separates); the cell is then split by the plane of a triangle outside of it."
  },
  {
   "property": "C80",
   "status": "proved",
   "theorems": [
    "C80_edges",
    "C80_odd_panics",
    "C80_closed",
    "C80_prepare",
    "C80_collapsed_panics"
   ],
   "note": "triangulate is a parameter in C80_prepare; in C80_collapsed_panics it is any function that first sorts and cuts the points as the code does."
  },
  {
   "property": "C81",
   "status": "partial",
   "theorems": [
    "C81_cuts",
    "C81_no_points_panics",
    "C81_two",
    "C81_three",
    "C81_divide_partial",
    "C81_one_point_diverges"
   ],
   "note": "C81_divide_partial carries any invariant of the pieces through the recursion; merge_hulls is the subject of C82; missing: that it returns sides at the ends and ends."
  },
  {
   "property": "C82",
   "status": "partial",
   "theorems": [
    "C82_merge_partial",
    "C82_triangulates_partial"
   ],
   "note": "Missing: that merge_hulls ends; that the sides it returns are ghost sides at the ends (C82_triangulates_partial supposes that they are ghost sides); the Delaunay property."
  },
  {
   "property": "C83",
   "status": "partial",
   "theorems": [
    "C83_fixup",
    "C83_constrained",
    "C83_insert",
    "C83_all_partial",
    "C83_form_partial",
    "C83_skeleton_partial",
    "C83_crossing_refuted",
    "C83_collision_refuted"
   ],
   "note": "C83_fixup is complete for the repair. C83_insert: a segment with no other point on its line is in the mesh, and the marked sides that were there still are, no others, unless its line goes between the ends of one within the border. C83_all_partial: the same for a list of segments; C83_form_partial: all of form_skeleton on a mesh without marks, after which exactly the sides of the segments have marks. A segment with a point between its ends may be marked only in part (C83_collision_refuted), and marks move off their lines when segments cross (C83_crossing_refuted). C83_constrained, C83_insert, C83_all_partial, C83_form_partial and C83_skeleton_partial suppose that no edge is flipped whose two points across are the same; missing besides: that the insertion ends, and the condition that the segments, not their lines, do not cross."
  }
 ]
}