# Formal model of gpf: design

Source: `/repo` (liukaizheng/gpf, Rust), read as text.  Prover: Coq 8.16.1.
All Coq files are under `rocq/theories`.  `properties.jsonl` lists the
properties, `MANIFEST.json` maps them to theorems, `seeded/LOG.jsonl` records
how the theorems react to wrong models.

Build: `cd rocq && coq_makefile -f _CoqProject -o Makefile && make -j4`.

## Modelling conventions

* Every Rust function is a total Gallina function.  A panic (index out of
  bounds, `unwrap` on `None`, integer underflow) is the value `None`; loops
  whose termination is not structural take fuel, running out of fuel is also
  `None`, and theorems show that the fuel supplied is always enough.
* `&mut self` becomes an extra result.  `usize` is `nat` (no wrap-around);
  `usize::MAX` sentinels become `option`/an explicit constructor.
* `f64` is Flocq's `binary_float 53 1024` (round to nearest even, single NaN)
  in the floating-point part, and exact numbers (`Z` or `R`) in the graph and
  geometry parts; each definition says which.
* Where one function calls another that has its own theorem, the caller may be
  modelled over the specification of the callee (for instance the geometric
  tests over the exact sign of `orient3d`); the comment of the definition and
  the table below say so.
* A model file contains definitions only; lemmas live in `*Proofs.v` files and
  the property theorems in `Prop_*.v` files next to their satisfiability
  examples and `Print Assumptions`.
* A claim that the faithful model does not satisfy is kept in view: the
  theorem `..._refuted` gives an input on which the model breaks it, and
  `..._partial` what does hold.

## Plan per property

| ids | model | proof idea |
|---|---|---|
| C01-C04 | parent/rank vectors, `find_set` with path compression, `link`, `output` | rank invariant gives termination; root function is invariant under compression; refinement to the equivalence closure of the merged pairs |
| C05-C08 | residual graph with arc/reverse indices, `init`, `push`, `relabel`, `global_relabel`, FIFO loop, exact arithmetic | preflow + valid-labelling invariant; at the end no residual arc leaves the source side; weak duality gives minimality; termination by the standard measure on labels, saturating and non-saturating pushes |
| C09 | `ArcBuilder` | induction over the `add_arc` calls |
| C10-C11 | Boykov-Kolmogorov search trees | flow invariants, the exhausted search trees give a cut; distance/time order of the trees gives termination of every walk |
| C12-C18, C54 | halfedge vectors of `SurfaceMesh` | next/sibling/incoming/outgoing maps are permutations whose cycles are the specified lists |
| C19-C24 | Shewchuk primitives over binary64 | Flocq error-free transformation theorems, induction over expansions, an invariant that implies nonoverlap |
| C25-C28, C53 | `IntervalNumber` and the interval filters | monotonicity of rounding + successor; refutations for the wrong cases |
| C29-C33 | generic formulas over a record of ring operations, dispatch tables as functions | `ring`/`field` identities over R, parity of permutations; refutation for `less_than` |
| C34-C35 | all stages of the explicit predicates over binary64 | exactness through C21; error analysis with Flocq; refutations by computed witnesses |
| C36-C37 | boolean predicates over an exact sign oracle; `max_comp_in_tri_normal` over binary64 | real-geometry lemmas (`nra`), error analysis |
| C38-C40 | renumbering, soup bookkeeping, triangle adjacency | list induction, case analysis on orientation |
| C41-C45, C50, C55 | version tables, bond/fsym, Hilbert split loops, flood fill, parity sort | computation over the finite tables lifted to all labellings, loop invariants |
| C58, C59 | `insert_vertex_bw`, the insertion loop, the compaction | invariant of the cavity search; every edge of the border meets exactly two of its faces (orbit of `fnext`), so the edge table pairs the new faces; induction over the insertions |
| C60-C64 | region search, ghosts, vertex map, turning around a vertex, marking a segment | invariant of the breadth-first search; orbits of the turns; induction over the recursion with a walk of marked sides |
| C65-C68 | the polyhedral complex: construction from the tetrahedra, cutting a cell, the run over the cells, the surface of the kept cells | invariant of a right complex (incidence, closed cells); the cut path as a chain of face cuts; weight of the inner triangles; signed counts of directed edges |
| C69-C71 | the outlines of the merged faces | turning around a vertex as an injective pairing of halfedges; counts of visited halfedges per vertex; maximal straight runs and their reversal as an involution |
| C72-C74 | tracing the constraints | an invariant of the walk (a place on the path, the collected tetrahedra); flooding with a list that is a prefix closed under processed neighbours; each mark as one place of one constraint |
| C46-C49, C51, C52, C56, C57 | `remove_duplicates`, triangle filter, orientation cache, virtual constraints, face search, sorted insertion, separating-line test, cut points | list induction, affine combinations over R, refutations by witness |
| C75 | the stages one after the other | the conclusions of C59, C73, C67, C66 and C68 are the hypotheses of the next stage |
| C76 | the numbering and emission loops over abstract numbers | invariant linking both index tables to the lists of first uses; slices of the segments by lengths |
| C77 | the cost loops, the graphs and the reading of the sides, over exact numbers | per-shell invariant on costs and marks; cut capacity = labelling cost; labels bounded below by a cut of capacity 0 |
| C78 | the tests of a face against a triangle, the centre, the area and the vertex off the plane, over the reals | sides as linear forms; positive combinations of corners; small moves keep strict inequalities; induction over the fan |
| C79 | `is_triangle_intersects_cell` over the reals | affine functions on hulls and triangles; small moves along the normal; refutation by witness |
| C80 | the front of `make_polyhedral_mesh` | induction over pairs; counting of ends; C38, C39 |
| C81 | `alternate_axes`, `div_conq_recurse` with `merge_hulls` as a parameter | induction over the recursion; the small meshes computed for any mesh before them |
| C82 | `merge_hulls` | an invariant of the mesh while two hulls are being joined, kept by each removal and each new triangle; the incircle determinant for the orientation of the triangles |
| C83 | `delaunay_fixup`, `constrained_edge`, `insert_segment`, `form_skeleton` | induction over the recursion of the repair, the effect of a flip from C40; the orientation tests show that the flips are legal |

## What is modelled

| file of the source | modelled | model file |
|---|---|---|
| `disjoint_set/mod.rs` | everything | `DisjointSet.v` |
| `graphcut/push_relabel_fifo.rs` | everything, capacities exact (`Z`) | `PushRelabel.v` |
| `graphcut/mod.rs` | `GraphCut` (all methods) and `ArcBuilder`, capacities exact (`Z`) | `GraphCut.v`, `PushRelabel.v` |
| `mesh/surface_mesh.rs`, `mesh/mesh.rs` | `new`, `split_edge`, `split_face`, `add_face_by_halfedges`, `he_prev`, `he_twin`, `he_sibling`, allocation of elements | `Mesh.v` |
| `mesh/element/*.rs` | circulators of vertices, edges, faces; `VNeiState`, `VVIter`, `VEIter` | `Mesh.v`, `MeshNei.v` |
| `predicates/predicates.rs` | everything: primitives, expansions, `orient2d`, `orient3d`, `incircle`, `insphere`, `orient4d` with all adaptive stages, over binary64 | `F64.v`, `Expansion.v`, `Explicit.v` |
| `predicates/expansion_number.rs` | everything, over binary64 | `Expansion.v` |
| `predicates/interval_number.rs` | everything, over binary64; the two SIMD lanes are a pair | `Interval.v` |
| `predicates/generic_point.rs` | `lpi_lambda`, `tpi_lambda`, dynamic filters (binary64), exact stage (exact arithmetic), `normalize_lambda3d` | `GenericFormulas.v`, `Filters.v`, `ExactStage.v` |
| `predicates/orient3d.rs`, `orient2d.rs`, `less_than.rs` | the generic formulas, the dispatch over all kinds, the filter and exact pipelines | `GenericFormulas.v`, `Dispatch.v`, `Filters.v`, `ExactStage.v` |
| `predicates/mod.rs` | all tests, over exact signs; `max_comp_in_tri_normal` with its stages over binary64 | `PointTests.v`, `MaxComp.v` |
| `triangle/triangle.rs` | `unique_indices`, `triangulate_polygon`, `triangulate_polygon_soup` (the planar triangulation is a parameter), `HEdge` moves, `bond`, `flip`, the region search of `triangulate` (41-93), `mark_ghost`, `make_vertex_map`, `find_direction`, `set_mark`, `scout_segment`, `make_triangle`, `alternate_axes`, `div_conq_recurse`, `merge_hulls`, `delaunay_fixup`, `constrained_edge`, `insert_segment`, `form_skeleton`, `triangulate` | `Soup.v`, `Flip.v`, `TriSeg.v`, `DivConq.v`, `MergeHulls.v`, `Skeleton.v` |
| `triangle/tetrahedron.rs` | tables, moves, `bond`, `incident`, `make_tet`, `initial_delaunay`, `insphere_s`, `hilbert_split`, `hilbert_sort`, `brio_multiscale_sort`, `tetrahedralize` with `locate_dt` and `insert_vertex_bw` | `Tet.v`, `SpatialSort.v` |
| `polygonlization/mod.rs` | `remove_duplicates`, the filter of degenerate triangles, the loop over the cells (66-79), `make_polyhedral_mesh` up to the triangles (82-113) | `Soup.v`, `Bsp.v`, `PolyMesh.v` |
| `polygonlization/conforming_mesh.rs` | everything; in `insert_constraints` and what it calls the geometric tests are parameters | `Virtual.v`, `TetFace.v`, `Trace.v` |
| `polygonlization/bsp_complex.rs` | `insert_coplanar_triangles`, `verts_orient_wrt_plane`, `is_point_built_from_plane`, `get_ef_clip_pt`, `three_planes_intersection`, `is_triangle_intersects_poly`, the copying of sides in `split_cell`; on vertex cycles, with the geometric tests as parameters: `BSPComplex::new` (126-187), `split_cell`, `split_face_verts`, `make_loop`, `separate_out_coplanar_triangles`, `cell_verts_and_edges`, `kept_faces` (740-755), `extract_faces_outlines`, `merge_colinear_edges`, `merge_faces` (the grouping by `DisjointSet` is a parameter) ; the choice of the kept cells in `complex_partition` (614-755) with exact costs; `point_in_face`, `face_intersects_tri`, `vert_in_tri`, `find_uncoplanar_verts`, `face_center`, `face_area`, `is_triangle_intersects_cell` over the reals; the output of `complex_partition` (757-840) and `poly_area`, with the arithmetic and `triangulate` as parameters | `Soup.v`, `Clip.v`, `Poly.v`, `Prop_Coplanar.v`, `Bsp.v`, `Outline.v`, `Emit.v`, `Partition.v`, `FaceTest.v`, `CellTest.v` |

Simplifications are said in the comment of each definition.  The main ones:

* Capacities of the two flow algorithms are integers, not `f64`.
* Coordinates in the geometric tests (`PointTests.v`, `Poly.v`, `Clip.v`,
  `Virtual.v`, `Tet.v`) are real numbers and the orientation predicates are
  exact signs.  C31-C35 and C53 say how far the code's predicates are that.
* A `HashMap` is a function or an association list; where the iteration order
  matters the theorem is for every order.
* Allocators (`Bump`) and `RefCell` memo caches are left out; a cached value is
  recomputed.
* `usize` does not wrap around; lists may be longer than memory.

## What is not modelled

* `triangle.rs`: all is modelled; that `merge_hulls` and `constrained_edge` end, and
  that the flips of `constrained_edge` are legal, is not proved.
* `tetrahedron.rs`: that `insert_vertex_bw` keeps the Delaunay property is not
  proved, nor that the cavities of exact predicates meet the two geometric
  conditions of C58 (`simple`, `exposed` in `BwSpec.v`); nor that the gluing of
  the branch for large cavities is right.
* `conforming_mesh.rs`: that the walk along a side comes to an end when the
  geometric tests are exact is not proved (C72 says that it ends in
  `unreachable!` only where no step on exists, and leaves open that it goes on
  for ever); nor that a segment between two points
  does not pass through the hull (`hull_closed` in `TraceSpec.v`).
* `bsp_complex.rs`: that the geometric tests of `split_cell` give what exact
  geometry of convex cells gives is a hypothesis of C65-C68 (`cuts_cell`,
  `regular` in `BspSpec.v`), not derived from the coordinates; the
  rounding of the coordinates, areas and centres in `complex_partition` (575-612;
  the tests of 625-678 are oracles in `Partition.v` and modelled over the reals in
  `FaceTest.v`).
* The static filters of the indirect predicates (`Filters.v` has the interval
  filters and the order of the stages only).
* `manifold_mesh.rs` (unfinished in the source), `math/mod.rs`, `lib.rs`.
* Compilation, memory, threads, and the floating-point environment (assumed to
  be IEEE binary64, round to nearest even, no extended precision).

## Findings

Places where the code does not do what its name or its callers suggest.  Those
marked (theorem) are proved of the model; the others were noticed while reading
and are not backed by a theorem.

1. `PushRelabelFifo`: a node can end with label n-1 without reaching the sink,
   so `is_sink` does not always describe a minimum cut (`pr_min_cut_refuted`).
   One more `global_relabel` at the end repairs it
   (`pr_min_cut_after_relabel`).  The labelling `complex_partition` reads off
   is therefore not always of minimal energy (`arc_builder_min_energy_refuted`):
   of two cubes with one square of the surface missing it drops one, at three
   times the least cost (`C77_least_refuted`).  If the minimum is 0 the result is
   right (`pr_min_cut_zero`, `C77_consistent`).
2. `GraphCut::max_flow`: the value is right, but `is_sink` of a node freed by
   the adoption keeps its old value, so the cut read from the flags need not
   be minimal (`C10_flags_refuted`).
3. `IntervalNumber::positive` and `negative` are exchanged
   (`iv_sign_queries_refuted`); `new` stores the lower bound without negating
   it (`iv_new_refuted`); `mul` returns the mirrored interval in two of its
   sign cases (`iv_mul_contains_refuted`).  In the filters of the indirect
   predicates the exchange cancels for an odd number of denominators and
   reverses the sign for an even number (`orient3d_llee_refuted`,
   `orient3d_llll_refuted`, `orient2d_lll_refuted`, `less_than_ll_refuted`).
4. `less_than_on_x/y/z`: (Explicit,LPI), (Explicit,TPI) and (TPI,LPI) return
   the opposite sign (`less_than_refuted`); `point_in_segment_general` inherits
   it (`point_in_segment_general_refuted`).  `less_than_ii`'s dynamic filter
   reads `pb_dynamic.x` for all three axes.
5. `expansion_sum`: the second loop runs over the first operand
   (`expansion_sum_refuted`).
6. `fast_expansion_sum_zeroelim` with an empty operand loses the other one or
   panics; `grow_expansion_zeroelim` returns an empty expansion for zero
   (`empty_operand_refuted`).
7. `orient3d_adapt`, last stage: `cdztail` is passed where `cdxtail` is meant
   (predicates.rs:731-733), so four coplanar points may be called
   non-coplanar (`C34_orient3d_refuted`).
8. `max_comp_in_tri_normal` never returns an axis along which the triangle
   degenerates, but not always the largest component
   (`C37_largest_refuted`).
9. `SurfaceMesh`: `split_edge` is wrong for an edge with equal ends
   (`C15_self_loop_refuted`); `split_face` is wrong when the face visits a
   vertex twice (`C16_repeated_vertex_refuted`) and panics if a vertex is
   missing; `new` panics for an empty soup or polygon; `VEIter` yields a
   self-loop twice (`C54_self_loop_refuted`).
10. `tetrahedralize`: the insertion loop stops at the first duplicate point and
    the renumbering of `p2t` then panics (`C45_duplicates_refuted`).
11. `triangle_at_tet`: `break` where `continue` is meant, so existing faces are
    missed (`C50_complete_refuted`).
12. `add_virtual_constraint`: the apex can be an end of the edge and the
    constraint is put on the next edge (`C49_support_refuted`).
13. `remove_duplicates` tests equality before rounding, so the output may
    contain equal points; `epsilon == 0` returns a map of length 3n; the empty
    list panics (`C46_distinct_refuted`, `C46_epsilon_zero`,
    `C46_empty_panics`).
14. `split_cell` tests coplanar triangles of either winding against one
    polygon, but the test needs equal windings (`C52_winding_refuted`); the
    sides it copies between coplanar triangles need the same projection axis
    (`C57_axes_refuted`).
15. `point_in_inner_triangle` accepts some points off the plane, and some of
    degenerate triangles (`point_in_inner_triangle_coplanarity_needed`,
    `point_in_inner_triangle_degenerate`).
16. `PushRelabelFifo::from`: a self-loop arc gets a wrong reverse index (read
    only; graphs with self-loops are outside the theorems).
17. `triangulate`: no point panics, one point recurses without end (read only).
18. `insert_vertex_bw`, branch for large cavities: `searchtet` and `p2t` are
    left pointing at a deleted tetrahedron (`C58_large_refuted`);
    `p2t[n_points]` is not renumbered (`C59_ghost_refuted`).
19. `vert_point_in_inner_triangle` calls `point_in_triangle`, so that a
    tetrahedron that only touches a constraint in a vertex on a side of it is
    marked to be cut (`C74_touch_refuted`); `set_improper_intersections` sizes
    `vert_oris` by the number of tetrahedra, hence a hypothesis of C73.
20. `merge_colinear_edges`: `edge_in_group` is never written, so the code for
    edge groups is dead; it has `idx = i + start_idx` without the modulus (read
    only); a panic when all edges are colinear (`C70_straight_panics`).
21. `BSPComplex::new`: the second time a face is met, the marks of its first
    tetrahedron are inserted again, so marks that only the second one carries
    are lost (`C67_other_side_refuted`).
22. `extract_faces_outlines`: `he_next_map` is indexed by the edge without a
    direction; an inner edge between two vertices that the outline passes twice
    gets two values, the later replaces the earlier, and the walk panics for
    some orders of the hash map (`C69_outlines_refuted`).
23. `merge_faces`: a vertex where the outline of one group touches itself stays
    in the loop of that group and is dropped from the loop of its neighbour, so
    the output has an edge on one side and two on the other
    (`C71_conforming_refuted`).
24. `complex_partition`: loops of one face that share a vertex give
    `triangulate` the same point twice (`C76_once_refuted`); that it does not
    expect this is read only.
25. `face_intersects_tri` rejects a face that is the triangle itself: its corners
    lie on the sides and no two sides cross (`C78_fallback_misses`).  It is used
    only if the rounded centre of the face is not strictly inside of it
    (`C78_center_needed`).
26. `is_triangle_intersects_cell` tries only the planes of the triangle and of the
    faces as separating planes, not those along two edges, so it also accepts
    triangles that miss the cell (`C79_exact_refuted`); the cell is then split
    more often than needed.
27. `triangulate` panics without points (`C81_no_points_panics`: the element
    selected is out of range) and recurses for ever on one point
    (`C81_one_point_diverges`). `make_polyhedral_mesh` calls it without points for
    a face all of whose edges are shorter than the tolerance
    (`C80_collapsed_panics`).
28. `constrained_edge` flips away segments already inserted when a later one
    crosses them, and leaves their marks on other sides, off their lines
    (`C83_crossing_refuted`: the segments 3-4 and 2-7 of nine points).
29. `constrained_edge` that meets a point on the segment goes on from there without
    marking the part up to it: the segment is left open, and the region search of
    `triangulate` goes through the gap (`C83_collision_refuted`: six points and one
    halfway, an edge in the way before and behind it; `C83_collision_rest`; the triangles that come out wrongly are in
    `C83_collision_output`).

Checked and found right, although suspected: `insphere`'s static filter
(`C35_insphere_filter`), `insphere_s` (C44), `hilbert_split` absent NaN (C42),
`incircle_adapt` (C34), `flip` (C40), the BK adoption (C11).

## Wrong programs

`seeded/LOG.jsonl` has one line per edit of a model definition that was tried in
a scratch copy. How to read it:

* `theorems_failed` lists the theorems of the manifest that depend on a proof
  which no longer compiles after the edit. It says that the proof script broke.
  It does not say that the statement was shown to be false of the edited program.
  An edit to a definition nearly always breaks the scripts that unfold it, so the
  absence of survivors is weak evidence that the statements are strong enough.
* Weak statements were found by reading them against an imagined wrong program.
  Example: until commit ef9161d, C72 and C73 held of a program that
  always ended in the panic of the walk. They now say when that panic can occur.
  In the same way they held of a program that always used up its steps; they now
  say that a sequence of as many steps must exist.
* An edit that built with all theorems intact: `axis_chunk` with six instead of nine
  coordinates. C39 now says which nine coordinates a polygon gets. In the same
  runs the edits noted as "equivalent" or "none" in the log break no claim.
* Lines written before 16:40 UTC come from a script that logged only edits with
  a failing theorem. The saved output of those runs shows no edit that built with
  all theorems intact. Seven edits could not be evaluated at that time, because
  the edited file used up the memory or an error fell outside a proof; they were
  not logged then. The script also took the place of a warning for the
  place of an error when a build was killed without one, so a line from that
  time may name a theorem too many.

## Trusted base

* Coq's kernel 8.16.1, including its `vm_compute` conversion.
* That the Gallina definitions say what the Rust text says (by reading; every
  definition cites file and lines).
* The standard-library axioms listed below, which come with the standard
  real numbers and with Flocq.  Nothing else is assumed: no axiom, parameter or
  section-less variable is declared, nothing is admitted, no kernel check is
  switched off.

`Print Assumptions` of the theorems named in `MANIFEST.json`:

* Closed under the global context (no axiom) (117 theorems):
  `ds_output_connected`, `ds_total`, `ds_n_groups`, `ds_output_n_groups`,
  `ds_output_partition`, `ds_out_of_range_panics`, `pr_flow_value`,
  `pr_source_side_is_cut`, `pr_min_cut_partial`, `pr_min_cut_after_relabel`,
  `pr_relabel_after_total`, `pr_min_cut_zero`, `pr_min_cut_refuted`,
  `pr_preflow`, `pr_labels_valid`, `pr_terminates`, `pr_deterministic`,
  `arc_builder_energy`, `arc_builder_valid`, `arc_builder_min_energy`,
  `arc_builder_min_energy_refuted`, `C10_value`, `C10_flags_partial`,
  `C10_flags_refuted`, `C11_forest`, `C11_terminates`, `C11_acyclic`,
  `C12_new_reproduces_polygons`, `C12_new_panics_otherwise`,
  `C13_edges_identify_pairs`, `C13_edge_iteration_reached`,
  `C14_vertex_circulators`, `C14_used_vertices`, `C15_split_edge`,
  `C15_self_loop_refuted`, `C16_split_face`, `C16_split_face_missing`,
  `C16_repeated_vertex_refuted`, `C17_add_face`, `C18_he_prev`, `C18_he_twin`,
  `iv_of_signs`, `C38_unique_indices`, `C40_flip`, `C40_shared_refuted`,
  `C41_moves`, `C41_versions`, `C41_all_versions`, `C41_bond`, `C41_fnext`,
  `C41_fnext_turns`, `C42_octants`, `C43_incident`, `C45_duplicate_panics`,
  `C45_duplicates_refuted`, `C46_epsilon_zero`, `C49_edge_map`, `C50_sound`,
  `C50_complete_partial`, `C50_complete_refuted`, `C51_insert_coplanar`,
  `C54_vertex_edges`, `C54_self_loop_refuted`, `C55_initial`,
  `C58_insertion_partial`, `C58_large_refuted`, `C59_run`, `C59_compact`,
  `C59_tetrahedralize_partial`, `C59_ghost_refuted`, `C60_regions`,
  `C60_consistent`, `C61_ghosts`, `C62_vertex_map`, `C63_direction`,
  `C63_ends`, `C64_scout`, `C65_split`, `C65_parts`, `C66_terminates`,
  `C66_complex`, `C67_complex`, `C67_marks`, `C67_other_side_refuted`,
  `C68_closed`, `C68_pipeline`, `C69_outlines_partial`, `C69_outlines_refuted`,
  `C70_corners`, `C70_straight_panics`, `C71_conforming_partial`,
  `C71_loops_found`, `C71_conforming_refuted`, `C72_sides`, `C72_steps`,
  `C73_marks`, `C74_side_rows_partial`, `C74_interior_rows`,
  `C74_touch_refuted`, `C75_mesh_partial`, `C75_surface_partial`, `C76_output`,
  `C76_mirror`, `C76_once`, `C76_once_refuted`, `C77_costs`, `C77_outside`,
  `C77_kept_partial`, `C77_consistent`, `C77_relabelled`, `C77_least_refuted`,
  `C80_edges`, `C80_odd_panics`, `C80_closed`, `C81_no_points_panics`,
  `C81_two`, `C81_one_point_diverges`.
* Axioms `ClassicalDedekindReals.sig_forall_dec`, `FunctionalExtensionality.functional_extensionality_dep` (85 theorems):
  `iv_of_contains`, `iv_of_exact`, `iv_neg_contains`, `iv_new_denotes`,
  `lpi_denominator`, `lpi_is_intersection`, `tpi_denominator`,
  `tpi_is_intersection`, `orient3d_ieee_formula`, `orient3d_iiee_formula`,
  `orient3d_iiie_formula`, `orient3d_iiii_formula`, `orient2d_iee_formula`,
  `orient2d_iie_formula`, `orient2d_iii_formula`, `less_than_ie_formula`,
  `less_than_ii_formula`, `orient3d_dispatch`, `orient3d_exact_correct`,
  `orient3d_degenerate_undefined`, `orient2d_dispatch`,
  `orient2d_exact_correct`, `less_than_dispatch`, `less_than_partial`,
  `less_than_refuted`, `less_than_exact_partial`, `less_than_exact_refuted`,
  `point_in_inner_segment_spec`, `point_in_segment_spec`,
  `point_in_inner_triangle_spec`, `point_in_inner_triangle_coplanarity_needed`,
  `point_in_inner_triangle_degenerate`, `point_in_triangle_spec`,
  `inner_segment_cross_inner_triangle_spec`, `inner_segments_cross_spec`,
  `inner_segment_cross_triangle_sound`, `inner_segment_cross_triangle_spec`,
  `point_in_segment_general_partial`, `point_in_segment_general_refuted`,
  `C41_orientation`, `C47_degenerate`, `C48_exact`, `C49_placed_partial`,
  `C49_support_refuted`, `C44_determinant`, `C44_sphere`,
  `C44_symbolic_perturbation`, `C44_decides`, `C44_alternating`, `C52_false`,
  `C52_overlap`, `C52_exact`, `C52_winding_refuted`, `C56_clip_line`,
  `C56_clip_planes`, `C57_copied`, `C57_axes_refuted`, `C63_cone`, `C64_line`,
  `C78_in_face`, `C78_center`, `C78_in_tri`, `C78_hits`, `C78_exact`,
  `C78_fallback`, `C78_fallback_iff`, `C78_fallback_misses`,
  `C78_center_needed`, `C78_uncoplanar`, `C79_iff`, `C79_met`,
  `C79_exact_refuted`, `C81_cuts`, `C81_three`, `C81_divide_partial`,
  `C82_merge_partial`, `C82_triangulates_partial`, `C83_fixup`,
  `C83_constrained`, `C83_insert`, `C83_all_partial`, `C83_form_partial`,
  `C83_skeleton_partial`, `C83_crossing_refuted`, `C83_collision_refuted`.
* Axioms `ClassicalDedekindReals.sig_forall_dec`, `ClassicalDedekindReals.sig_not_dec`, `FunctionalExtensionality.functional_extensionality_dep` (1 theorems):
  `C78_area`.
* Axioms `ClassicalDedekindReals.sig_forall_dec`, `ClassicalDedekindReals.sig_not_dec`, `Classical_Prop.classic`, `FunctionalExtensionality.functional_extensionality_dep` (92 theorems):
  `two_sum_exact`, `two_diff_exact`, `two_diff_tail_exact`,
  `fast_two_sum_exact`, `fast_two_diff_exact`, `two_sum_no_overflow`,
  `exact_init_ok`, `two_product_exact`, `two_product_pre_split_same`,
  `two_product_normal`, `square_exact`, `product_no_overflow`,
  `two_product_underflow_refuted`, `operand_valid`, `single_valid`,
  `fast_sum_exact`, `fast_diff_exact`, `scale_exact`, `mul_exact`,
  `invert_exact`, `grow_exact`, `grow_zeroelim_exact`, `two_two_sum_exact`,
  `two_two_diff_exact`, `two_one_product_exact`, `run_exact`,
  `operations_total`, `run_total`, `valid_nonoverlapping`, `valid_last_sign`,
  `run_sign`, `expansion_sum_value`, `expansion_sum_refuted`,
  `empty_operand_refuted`, `iv_add_contains`, `iv_sub_contains`,
  `iv_mul_total`, `iv_mul_contains_partial`, `iv_mul_mirrored`, `iv_add_signs`,
  `iv_sub_signs`, `iv_mul_signs`, `iv_mul_contains_refuted`,
  `iv_not_zero_sound`, `iv_not_zero_complete`, `iv_positive_means_negative`,
  `iv_negative_means_positive`, `iv_sign_queries_refuted`, `iv_new_refuted`,
  `C34_insphere_exact`, `C34_orient4d_exact`, `C34_orient2d`, `C34_incircle`,
  `C34_insphere`, `C34_orient4d`, `C34_orient3d_value`, `C34_orient3d_partial`,
  `C34_orient3d_refuted`, `C35_orient2d`, `C35_orient3d_filter`,
  `C35_incircle_filter`, `C35_insphere_filter`, `C35_orient4d_filter`,
  `C35_incircle_partial`, `C35_insphere_partial`, `C35_orient4d_partial`,
  `C35_orient3d_partial`, `C37_projection`, `C37_largest_refuted`,
  `C38_triangulate_polygon`, `C39_soup`, `C42_insertion_order`,
  `C42_sort_permutes`, `C42_split`, `C46_merge_partial`,
  `C46_distinct_refuted`, `C46_empty_panics`, `dyn_ieee_partial`,
  `dyn_iiie_partial`, `dyn_iee_partial`, `dyn_iie_partial`, `dyn_ie_partial`,
  `dyn_iiee_reversed`, `dyn_iiii_reversed`, `dyn_iii_reversed`,
  `dyn_ii_reversed`, `orient3d_llee_refuted`, `orient3d_llll_refuted`,
  `orient2d_lll_refuted`, `less_than_ll_refuted`, `C80_prepare`,
  `C80_collapsed_panics`.
