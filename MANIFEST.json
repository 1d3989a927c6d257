{
 "claims": [
  {
   "property": "C01",
   "status": "proved",
   "theorems": [
    "C01_parameter_count",
    "C01_parameter_count_circle",
    "C01_vertices_have_points",
    "C01_resolution_zero"
   ],
   "note": "polygonal and circular domains; resolution 0 boundary stated"
  },
  {
   "property": "C02",
   "status": "proved",
   "theorems": [
    "C02_triangles_valid",
    "C02_triangles_valid_circle",
    "C02_triangle_count",
    "C02_vertices_used"
   ],
   "note": "polygonal and circular domains; vertex use and triangle counts included"
  },
  {
   "property": "C03",
   "status": "proved",
   "theorems": [
    "C03_oriented_manifold",
    "C03_oriented_manifold_circle",
    "C03_euler"
   ],
   "note": "no directed edge twice; partners of non-boundary edges follow with C04 (boundary edges are exactly the loop); Euler count"
  },
  {
   "property": "C04",
   "status": "proved",
   "theorems": [
    "C04_boundary_loop",
    "C04_boundary_loop_circle"
   ],
   "note": "onEdge equals loop membership; the rounded square root is a parameter required to be exact on squares (discharged for doubles in C05)"
  },
  {
   "property": "C05",
   "status": "proved",
   "theorems": [
    "C05_double_sqrt",
    "C05_double_boundary"
   ],
   "note": "binary64 square root via Flocq rounding, indices with 8*index+9 < 2^53"
  },
  {
   "property": "C06",
   "status": "proved",
   "theorems": [
    "C06_edge_parameters",
    "C06_edge_parameters_onto",
    "C06_interior_parameters"
   ],
   "note": "onEdge vertices on sides at i/r, onto, and interior vertices strictly inside"
  },
  {
   "property": "C07",
   "status": "proved",
   "theorems": [
    "C07_parameters_in_hull",
    "C07_center"
   ],
   "note": "for every polygon of positive perimeter"
  },
  {
   "property": "C08",
   "status": "proved",
   "theorems": [
    "C08_no_flipped_triangles",
    "C08_no_flipped_triangles_star"
   ],
   "note": "strictly convex polygons; star-shaped variant for five or more sides"
  },
  {
   "property": "C09",
   "status": "proved",
   "theorems": [
    "C09_circular_cache",
    "C09_angular_cache",
    "C09_regular_cache",
    "C09_any_layout",
    "C09_circle_fixed_count",
    "C09_circle_refuted"
   ],
   "note": "histories over an abstract layout, instantiated with the three polygonal classes; circular parameter domain refuted by a witness and right for a fixed number of sides"
  },
  {
   "property": "C10",
   "status": "proved",
   "theorems": [
    "C10_round_trip",
    "C10_axes",
    "C10_height"
   ],
   "note": "round trips, axes, sign of the centre; signed height on convex polygons"
  },
  {
   "property": "C11",
   "status": "proved",
   "theorems": [
    "C11_hit",
    "C11_crossing_found",
    "C11_no_false_hit",
    "C11_backward_hits",
    "C11_backward_hit_exists"
   ],
   "note": "tolerance epsilon is any positive number"
  },
  {
   "property": "C12",
   "status": "proved",
   "theorems": [
    "C12_regular_convex",
    "C12_circular_convex",
    "C12_circular_angles",
    "C12_regular_update"
   ],
   "note": "circular domain for positive arc lengths"
  },
  {
   "property": "C13",
   "status": "proved",
   "theorems": [
    "C13_closed",
    "C13_box",
    "C13_rescale_similar",
    "C13_convexity_test",
    "C13_accepted",
    "C13_concave_accepted"
   ],
   "note": "exact characterisation of the convexity test, and a concave polygon that the whole update accepts"
  },
  {
   "property": "C14",
   "status": "proved",
   "theorems": [
    "C14_binomial",
    "C14_subsets",
    "C14_exact_division",
    "C14_wrong_below_64_bits"
   ],
   "note": "64-bit wrap around modelled; subsets counted as duplicate-free sublists"
  },
  {
   "property": "C15",
   "status": "proved",
   "theorems": [
    "C15_list",
    "C15_single",
    "C15_partition",
    "C15_nonnegative",
    "C15_symmetric"
   ],
   "note": "both evaluators; the single one is undefined exactly for i > n"
  },
  {
   "property": "C16",
   "status": "proved",
   "theorems": [
    "C16_end_values",
    "C16_end_derivatives",
    "C16_blend"
   ],
   "note": "derivatives as limits"
  },
  {
   "property": "C17",
   "status": "proved",
   "theorems": [
    "C17_elevate"
   ],
   "note": ""
  },
  {
   "property": "C18",
   "status": "proved",
   "theorems": [
    "C18_eval",
    "C18_derivatives",
    "C18_reverse",
    "C18_reverse_twice"
   ],
   "note": "derivatives as limits of the coordinate functions, to any order"
  },
  {
   "property": "C19",
   "status": "proved",
   "theorems": [
    "C19_wachspress",
    "C19_mean_value"
   ],
   "note": "Wachspress on strictly convex polygons; mean value coordinates as well, away from the vertices"
  },
  {
   "property": "C20",
   "status": "proved",
   "theorems": [
    "C20_linear_precision",
    "C20_near_vertex"
   ],
   "note": "all three types; near-vertex branch stated separately"
  },
  {
   "property": "C21",
   "status": "proved",
   "theorems": [
    "C21_linear_on_side"
   ],
   "note": ""
  },
  {
   "property": "C22",
   "status": "proved",
   "theorems": [
    "C22_barycentric",
    "C22_barycentric_ends",
    "C22_triangle_corner",
    "C22_constrained",
    "C22_bilinear",
    "C22_bilinear_regular",
    "C22_interconnected_regular",
    "C22_parallel_regular",
    "C22_circular"
   ],
   "note": "any strictly convex polygon for the barycentric kinds and (with the solver tolerance as hypothesis) bilinear; regular domain with explicit tolerance for bilinear, interconnected and parallel; the corner exception of the barycentric fallback is exhibited on triangles"
  },
  {
   "property": "C23",
   "status": "proved",
   "theorems": [
    "C23_bilinear_inverse",
    "C23_regular"
   ],
   "note": "solver tolerance conditions as hypotheses, discharged on the regular domain"
  },
  {
   "property": "C24",
   "status": "proved",
   "theorems": [
    "C24_cache_invisible",
    "C24_entries",
    "C24_stale_without_update"
   ],
   "note": "all call histories with update after a domain change; stale answers otherwise"
  },
  {
   "property": "C25",
   "status": "proved",
   "theorems": [
    "C25_range",
    "C25_bracket",
    "C25_root",
    "C25_distance_range"
   ],
   "note": "including closeness to a zero for continuous functions"
  },
  {
   "property": "C26",
   "status": "proved",
   "theorems": [
    "C26_partition",
    "C26_near_sides",
    "C26_monotone"
   ],
   "note": "includes the equal split among near sides and monotonicity"
  },
  {
   "property": "C27",
   "status": "proved",
   "theorems": [
    "C27_total",
    "C27_partition",
    "C27_on_side",
    "C27_nonadjacent_zero",
    "C27_three_consecutive",
    "C27_inside"
   ],
   "note": "with the two exceptional configurations stated as theorems of their own; C27_inside shows that they do not occur with Wachspress coordinates anywhere in a closed convex polygon, for tolerances up to 1/3"
  },
  {
   "property": "C28",
   "status": "proved",
   "theorems": [
    "C28_weight",
    "C28_patch"
   ],
   "note": "for the weight and for the side-based patch, componentwise in any direction"
  },
  {
   "property": "C29",
   "status": "proved",
   "theorems": [
    "C29_gamma",
    "C29_side",
    "C29_correction",
    "C29_corner_interpolant"
   ],
   "note": "corner data as computed by update() from compatible ribbons"
  },
  {
   "property": "C30",
   "status": "proved",
   "theorems": [
    "C30_defined",
    "C30_frames",
    "C30_sorted",
    "C30_eval_defined",
    "C30_eval_negative",
    "C30_eval_start",
    "C30_eval_end",
    "C30_eval_tangent",
    "C30_ribbon"
   ],
   "note": "RMF::update, eval, nextFrame, rotateFrame and Ribbon::update as in the code, for every resolution and tolerance; the curve is three arbitrary functions. Exact perpendicularity needs that no step falls under the second tolerance test (all_settled); without it the stated bound holds."
  },
  {
   "property": "C31",
   "status": "proved",
   "theorems": [
    "C31_isometry",
    "C31_axis",
    "C31_turn",
    "C31_compose"
   ],
   "note": "The matrix of rmf.cc, all unit axes and angles."
  },
  {
   "property": "C32",
   "status": "proved",
   "theorems": [
    "C32_ribbon",
    "C32_compatible",
    "C32_compatible_ends",
    "C32_handler",
    "C32_handler_ends",
    "C32_handler_middle",
    "C32_perpendicular",
    "C32_perpendicular_ends",
    "C32_fence"
   ],
   "note": "Compatible, handler and perpendicular ribbons, with an arbitrary fence, and with the one from Ribbon::update (C32_fence). Degenerate tangents of the perpendicular and handler classes (division by zero) are excluded by the successful update."
  },
  {
   "property": "C33",
   "status": "proved",
   "theorems": [
    "C33_coons_ribbon",
    "C33_far_side"
   ],
   "note": "including the far side"
  },
  {
   "property": "C34",
   "status": "proved",
   "theorems": [
    "C34_multiplier",
    "C34_handler",
    "C34_fence",
    "C34_reset",
    "C34_new_curve"
   ],
   "note": "all histories without copies (for copies see C39); the handler is the normalised vector, a zero vector is undefined"
  },
  {
   "property": "C35",
   "status": "proved",
   "theorems": [
    "C35_orients",
    "C35_closed",
    "C35_faithful"
   ],
   "note": "n >= 3; the curve is reversed as the record of its functions"
  },
  {
   "property": "C36",
   "status": "proved",
   "theorems": [
    "C36_shared_curve"
   ],
   "note": "general theorem, and two adjacent squares"
  },
  {
   "property": "C37",
   "status": "proved",
   "theorems": [
    "C37_counts",
    "C37_last_curve",
    "C37_last_curves",
    "C37_never_set",
    "C37_count",
    "C37_setup_defined"
   ],
   "note": "histories without copies, including updates, settings and setupLoop in between"
  },
  {
   "property": "C38",
   "status": "proved",
   "theorems": [
    "C38_local",
    "C38_session",
    "C38_idempotent",
    "C38_first",
    "C38_new_curve",
    "C38_new_curve_neighbours",
    "C38_stale",
    "C38_defined"
   ],
   "note": "compatible, handler and perpendicular ribbon classes; equality of the whole state. C38_defined asks for explicit handlers in the handler class"
  },
  {
   "property": "C39",
   "status": "proved",
   "theorems": [
    "C39_shared",
    "C39_visible",
    "C39_domain",
    "C39_corners"
   ],
   "note": "the parameterization object shared by copies is not part of the object model"
  },
  {
   "property": "C40",
   "status": "proved",
   "theorems": [
    "C40_side_based",
    "C40_side_based_corner",
    "C40_side_based_regular",
    "C40_elastic"
   ],
   "note": "side-based on any convex domain and, with explicit tolerance, on regular domains; elastic on its regular domain, the linear solver is not reached"
  },
  {
   "property": "C41",
   "status": "proved",
   "theorems": [
    "C41_corner_based",
    "C41_generalized_coons",
    "C41_composite_ribbon"
   ],
   "note": "composite ribbon on any convex domain; corner-based and generalized Coons on the regular domain they use"
  },
  {
   "property": "C42",
   "status": "proved",
   "theorems": [
    "C42_boundary",
    "C42_overshoot",
    "C42_missed"
   ],
   "note": "both classes; includes the exact overshoot within the tolerance of a corner"
  },
  {
   "property": "C43",
   "status": "proved",
   "theorems": [
    "C43_boundary",
    "C43_regular",
    "C43_weights"
   ],
   "note": ""
  },
  {
   "property": "C44",
   "status": "proved",
   "theorems": [
    "C44_deficiency",
    "C44_interpolates",
    "C44_default",
    "C44_quad"
   ],
   "note": "both classes, all histories; independence of the request for n=4"
  },
  {
   "property": "C45",
   "status": "proved",
   "theorems": [
    "C45_last_write",
    "C45_consistent",
    "C45_out_of_range",
    "C45_init",
    "C45_init_same"
   ],
   "note": "all histories of setControlPoint, setIndividualControlPoint, the central setter and initNetwork-style fresh nets; C45_out_of_range is the access outside the net"
  },
  {
   "property": "C46",
   "status": "proved",
   "theorems": [
    "C46_formula",
    "C46_nonnegative",
    "C46_corner",
    "C46_corner_variant",
    "C46_inside"
   ],
   "note": "non-negativity on the regular domain with Wachspress coordinates (the class's own setting); the corner variant for odd degrees"
  },
  {
   "property": "C47",
   "status": "proved",
   "theorems": [
    "C47_boundary",
    "C47_ends",
    "C47_degree_one"
   ],
   "note": "C47_ends needs consistent nets (the corner is stored twice); C47_degree_one is the exception"
  },
  {
   "property": "C48",
   "status": "proved",
   "theorems": [
    "C48_side",
    "C48_boundary",
    "C48_triangle"
   ],
   "note": "odd degrees (the class initialises only those); C48_triangle is a witness for every odd degree and side"
  },
  {
   "property": "C49",
   "status": "proved",
   "theorems": [
    "C49_count",
    "C49_exactly_once"
   ],
   "note": "every n >= 1 and every degree"
  },
  {
   "property": "C50",
   "status": "proved",
   "theorems": [
    "C50_round_trip",
    "C50_lossless",
    "C50_without_setup",
    "C50_squared"
   ],
   "note": "tokens instead of characters; printing and parsing of one number is an arbitrary function"
  },
  {
   "property": "C51",
   "status": "proved",
   "theorems": [
    "C51_faces"
   ],
   "note": "every n >= 1, degree >= 1; the cells of the net are written out independently of the search"
  },
  {
   "property": "C52",
   "status": "proved",
   "theorems": [
    "C52_values",
    "C52_boundary",
    "C52_squared",
    "C52_without_setup"
   ],
   "note": "every n >= 1, degree >= 1"
  },
  {
   "property": "C53",
   "status": "proved",
   "theorems": [
    "C53_inside",
    "C53_multinomial",
    "C53_net",
    "C53_convex",
    "C53_boundary",
    "C53_registered",
    "C53_shifted"
   ],
   "note": "every n >= 3, depth <= 20 (beyond that the 64-bit factorials overflow), nets as results of any setControlPoint sequence"
  },
  {
   "property": "C54",
   "status": "proved",
   "theorems": [
    "C54_registered",
    "C54_ribbons",
    "C54_boundary",
    "C54_near_corner",
    "C54_four_sided",
    "C54_needs_update",
    "C54_stale"
   ],
   "note": "every n >= 3, all control points and fullness values; the exact value near corners is stated for n > 6, where the boundary is only met up to the tolerance"
  },
  {
   "property": "C55",
   "status": "proved",
   "theorems": [
    "C55_result",
    "C55_more_iterations",
    "C55_success",
    "C55_extremes",
    "C55_step",
    "C55_values",
    "C55_no_contraction"
   ],
   "note": "The optimizer always returns a point of the dimension of the start, never worse than the start simplex; more iterations are never worse and change nothing after success; success means small variance of the values; one iteration is given in closed form. Finding: the second highest vertex is wrong when the first vertex is the highest, so contraction is skipped."
  },
  {
   "property": "C56",
   "status": "proved",
   "theorems": [
    "C56_boundary_side",
    "C56_boundary_vertices",
    "C56_solvable",
    "C56_harmonic",
    "C56_harmonic_linear",
    "C56_harmonic_hull",
    "C56_propagation",
    "C56_biharmonic",
    "C56_biharmonic_flat"
   ],
   "note": "Domain d from domainFrames of a strictly convex polygon; rsqrt must be exact on perfect squares for n=3 (C05 shows this for double below 2^53). The Eigen solvers are an oracle assumed exact for invertible matrices; LinSolve.v shows that such a solver exists. C56_propagation is a finding: the first stage of the biharmonic patch is the harmonic patch."
  },
  {
   "property": "C57",
   "status": "proved",
   "theorems": [
    "C57_laplacian",
    "C57_laplacian_degenerate",
    "C57_linear",
    "C57_voronoi_sum",
    "C57_voronoi_areas",
    "C57_voronoi_region"
   ],
   "note": "Angles by acos/tan as in the code; C57_voronoi_region compares with the area of the region bounded by edge midpoints and circumcentre (or the split of obtuse triangles). Indices of each triangle distinct where stated."
  },
  {
   "property": "C58",
   "status": "proved",
   "theorems": [
    "C58_lop",
    "C58_lop_truncated",
    "C58_lop_cut",
    "C58_lop_empty",
    "C58_spatch",
    "C58_spatch_short",
    "C58_superd",
    "C58_superd_truncated",
    "C58_superd_missing"
   ],
   "note": "Complete, truncated and empty files for the three readers. The S-patch count is that of C14, hence the 64-bit hypothesis."
  },
  {
   "property": "C59",
   "status": "proved",
   "theorems": [
    "C59_plain",
    "C59_no_face",
    "C59_index",
    "C59_sticky",
    "C59_undefined",
    "C59_slash"
   ],
   "note": "Plain files, index wrap-around, sticky failure and the undefined cases."
  },
  {
   "property": "C60",
   "status": "proved",
   "theorems": [
    "C60_polar",
    "C60_behind",
    "C60_surface"
   ],
   "note": "C60_polar is the intended geometry, for any fence defined at the requested parameter; C60_behind and C60_surface state the two defects."
  },
  {
   "property": "C61",
   "status": "proved",
   "theorems": [
    "C61_angle",
    "C61_near",
    "C61_interior",
    "C61_side",
    "C61_inverse_sides",
    "C61_inverse_undoes",
    "C61_inverse",
    "C61_hits",
    "C61_inverse_unset"
   ],
   "note": "mapToRibbon and inverse of the polar parameterization; C61_inverse is stated for runs that return a value, C61_hits says when a side is found, C61_inverse_unset is the case in which q stays uninitialised"
  },
  {
   "property": "C62",
   "status": "proved",
   "theorems": [
    "C62_points",
    "C62_edge",
    "C62_hcircle",
    "C62_hcircle_line",
    "C62_hcircle_ends",
    "C62_deviation"
   ],
   "note": "the continuity of the bisected function is not shown: C62_deviation says what its roots are, C25 that the bisection brackets a sign change"
  },
  {
   "property": "C63",
   "status": "proved",
   "theorems": [
    "C63_opposite",
    "C63_inside",
    "C63_side",
    "C63_odd"
   ],
   "note": "Wachspress coordinates for C63_inside and C63_side; C63_opposite for every kind of coordinates that sum to one"
  },
  {
   "property": "C64",
   "status": "proved",
   "theorems": [
    "C64_corner_data",
    "C64_linear",
    "C64_correction",
    "C64_interpolant_d",
    "C64_object",
    "C64_object_data"
   ],
   "note": "cross derivatives are functions on [0,1]; C64_correction is stated without the gamma correction"
  },
  {
   "property": "C65",
   "status": "proved",
   "theorems": [
    "C65_end_corner",
    "C65_start_corner",
    "C65_corner_based",
    "C65_generalized_coons"
   ],
   "note": "First-order contact as an explicit bound in every direction; gamma switched off. The term K/10000 shows that tangential continuity holds only up to the finite difference error unless the neighbouring cross derivatives are linear."
  },
  {
   "property": "C66",
   "status": "proved",
   "theorems": [
    "C66_affine",
    "C66_boundary",
    "C66_start",
    "C66_degree_one"
   ],
   "note": "hybridEval is a fold over sides, rows and columns exactly like the source. The values within eps of the end of a side (1-eps < s < 1) are not stated: the side parameter of the previous side is not determined there."
  },
  {
   "property": "C67",
   "status": "proved",
   "theorems": [
    "C67_drift",
    "C67_polynomial",
    "C67_first",
    "C67_second",
    "C67_defined",
    "C67_side",
    "C67_vertex"
   ],
   "note": "Model of the polar patch in PolarPatchModel.v; uniqueness of polynomial interpolation in BernPoly.v. The evaluation on a side, at a vertex, the two ribbons, definedness for any solver, and the exact condition for a zero drift. The flatness condition is stated with the vertices alone (clear_domain) and shown for the unit square."
  },
  {
   "property": "C68",
   "status": "proved",
   "theorems": [
    "C68_minimal",
    "C68_recovers",
    "C68_two_rows",
    "C68_three_rows",
    "C68_degree_two",
    "C68_degree_one",
    "C68_corners_lost"
   ],
   "note": "system rows are the differences S(uv)-p and smoothing*bump as linear forms in the movable points (C68_minimal); least squares solver as a parameter with an instance (Gram-Schmidt, project_least_squares); isApprox tolerance kept in the statement; degrees 1 and 2 and three fixed rows fail as stated"
  },
  {
   "property": "C69",
   "status": "proved",
   "theorems": [
    "C69_formula",
    "C69_over",
    "C69_convex",
    "C69_beside",
    "C69_degenerate",
    "C69_on_mesh",
    "C69_flat"
   ],
   "note": "closestTriangle of libgeom is a parameter with its specification (finds_closest); the formula with absolute values is proved for every point"
  },
  {
   "property": "C70",
   "status": "proved",
   "theorems": [
    "C70_rotation",
    "C70_polygon",
    "C70_curve",
    "C70_defined",
    "C70_undefined",
    "C70_search"
   ],
   "note": "fitClassA with an arbitrary optimizer: shape of the polygon, gap at the second point, end directions, domain of definition; the Nelder-Mead instance is not worse than its start"
  },
  {
   "property": "C71",
   "status": "proved",
   "theorems": [
    "C71_bounds",
    "C71_exact",
    "C71_moved",
    "C71_reversed"
   ],
   "note": "arcLength: bounds, exactness of the quadrature up to the table digits, similarities, reversal"
  },
  {
   "property": "C72",
   "status": "proved",
   "theorems": [
    "C72_minimum",
    "C72_affine",
    "C72_spanning",
    "C72_regular",
    "C72_near"
   ],
   "note": "C72_minimum: the value is the unique point of least total bending energy among all bundles of beams (any twice differentiable curves). C72_affine: affine data are reproduced. C72_spanning: the directions to interior points of the sides of a convex polygon are never all parallel, so the system is regular. C72_regular: all hypotheses hold in the interior of the regular domain with n >= 4 and a point outside of the tolerance of the sides. C72_near: within the tolerance the boundary point is returned. The solver (colPivHouseholderQr) is any exact solver of regular systems; gaussSolver is one."
  },
  {
   "property": "C73",
   "status": "proved",
   "theorems": [
    "C73_defined",
    "C73_summary",
    "C73_order_free",
    "C73_quartiles",
    "C73_median",
    "C73_histogram",
    "C73_sparse",
    "C73_bars"
   ],
   "note": "C73_defined: defined exactly for four or more numbers. C73_summary, C73_order_free, C73_quartiles: the summary is right and independent of the order. C73_median: finding, the second quartile is above the median. C73_histogram and C73_sparse: when the histogram is right, and what it is for sparse data (finding). C73_bars: the bars. Text output is not modelled."
  },
  {
   "property": "C74",
   "status": "proved",
   "theorems": [
    "C74_fence",
    "C74_fence_empty",
    "C74_fence_points",
    "C74_ribbons",
    "C74_ribbon_points",
    "C74_positional",
    "C74_interpolating",
    "C74_inwards",
    "C74_angle",
    "C74_tangential",
    "C74_rows",
    "C74_deviation",
    "C74_under_reports"
   ],
   "note": "C74_fence, C74_fence_points, C74_ribbons, C74_ribbon_points: the meshes. C74_fence_empty: no end with resolution 0. C74_positional, C74_interpolating, C74_inwards, C74_angle, C74_tangential: what the errors are, and that zero means contact at the samples. C74_deviation, C74_under_reports: the deviation is the distance to the plane of the closest triangle (finding)."
  },
  {
   "property": "C75",
   "status": "proved",
   "theorems": [
    "C75_normals",
    "C75_cross",
    "C75_half_turn",
    "C75_history",
    "C75_domains",
    "C75_side_based",
    "C75_corner_based",
    "C75_origin",
    "C75_midpoint",
    "C75_nets",
    "C75_spatch",
    "C75_superd",
    "C75_c0coons",
    "C75_rigid"
   ],
   "note": "Rigid motions of the whole world of curves, ribbons, domains and surfaces; affine maps of all patches. Reflections fail for a side with opposite end normals (C75_half_turn), and the corner based patches stay at the origin near two sides without a common corner (C75_origin)."
  },
  {
   "property": "C76",
   "status": "proved",
   "theorems": [
    "C76_contact",
    "C76_wachspress"
   ],
   "note": "Explicit second order bound against the surface spanned by rows 0 and 1, for the evaluator with arbitrary ribbon coordinates near a side and for Wachspress coordinates on every convex polygon. Degree three and above, where row 1 exists."
  },
  {
   "property": "C77",
   "status": "proved",
   "theorems": [
    "C77_generalized_bezier_inside",
    "C77_relabel",
    "C77_center",
    "C77_corners",
    "C77_central",
    "C77_motion",
    "C77_motion_center",
    "C77_regular",
    "C77_circular",
    "C77_c0coons",
    "C77_generalized_bezier",
    "C77_hybrid",
    "C77_disc",
    "C77_superd",
    "C77_polar",
    "C77_polar_regular",
    "C77_elastic"
   ],
   "note": "Relabelling and plane motions for all patch classes; on the regular and circular domains and on the disc this says that shifting the boundary turns the patch. Super-D patches are on the regular domain only, where their single multiplier (taken from side 0) does not matter; the n-sided test class, which evaluates ribbon 3 only, is left out. C77_generalized_bezier_inside has no hypothesis on the corners for points of the polygon."
  },
  {
   "property": "C78",
   "status": "proved",
   "theorems": [
    "C78_composite_ribbon_at",
    "C78_midpoint_at",
    "C78_midpoint_coons_at",
    "C78_composite_ribbon",
    "C78_midpoint",
    "C78_midpoint_coons"
   ],
   "note": "Seen along a normal of the ribbon. The bounds hold for any ribbon coordinates beside the side; the coordinates of the two parameterizations the surfaces use are shown to be such. For the midpoint Coons patch the point must be close to the side, and its coordinates with respect to the far sides (those not next to the side) must stay off the ends that they do not share with a neighbour of the side; on quadrilaterals and triangles that says nothing. The gamma parameterization is off, as in the constructors."
  },
  {
   "property": "C79",
   "status": "proved",
   "theorems": [
    "C79_binary64",
    "C79_exact",
    "C79_bernstein",
    "C79_bernstein_same",
    "C79_bezier_ends",
    "C79_affine",
    "C79_bezier",
    "C79_bezier_double"
   ],
   "note": "The rounded functions repeat those of the exact model operation by operation, with the rounding function applied to every result. C79_binary64 shows that the doubles with rounding to nearest satisfy what is assumed of the rounding. Overflow is not represented."
  },
  {
   "property": "C80",
   "status": "proved",
   "theorems": [
    "C80_normalised",
    "C80_ribbon_parameters",
    "C80_side_recognised",
    "C80_side_blends",
    "C80_side_patch",
    "C80_side_boundary",
    "C80_corner_blends"
   ],
   "note": "std::pow is an oracle: its result is a double and, where closeness to the exact weights is claimed, has relative error at most rho at the distances that occur. For the corner blends only the range of the weights and their sum are bounded, not the distance from the exact weights."
  },
  {
   "property": "C81",
   "status": "proved",
   "theorems": [
    "C81_samples",
    "C81_ribbons",
    "C81_cross",
    "C81_handler",
    "C81_between"
   ],
   "note": "well_sampled asks for sample points further apart than the square root of epsilon and tangents not turning by a half circle between samples, which is when no step of the frame loop takes a shortcut. The agreement is at the 101 sample parameters; C81_between shows that it does not extend to the parameters in between."
  },
  {
   "property": "C82",
   "status": "proved",
   "theorems": [
    "C82_rim",
    "C82_rim_circle",
    "C82_seam",
    "C82_closed",
    "C82_resolutions",
    "C82_composite_ribbon",
    "C82_midpoint",
    "C82_corner_based",
    "C82_generalized_coons",
    "C82_side_based",
    "C82_c0coons",
    "C82_generalized_bezier",
    "C82_gb_corner",
    "C82_spatch",
    "C82_superd",
    "C82_hybrid"
   ],
   "note": "resolved asks that epsilon times the resolution is below sin(2 pi/n) sin(pi/n), so that no sample falls into the tolerance bands at the corners. The three sided corner version of the generalized Bezier patch does not follow its boundary (C48) and is excluded. Real arithmetic: with rounding the two meshes agree up to rounding errors."
  },
  {
   "property": "C83",
   "status": "proved",
   "theorems": [
    "C83_normals",
    "C83_cross",
    "C83_nsided",
    "C83_inner",
    "C83_leaves",
    "C83_update",
    "C83_patches",
    "C83_central",
    "C83_nets",
    "C83_spatch",
    "C83_superd",
    "C83_c0coons"
   ],
   "note": "flat_curve asks for the plane at every parameter of the curve functions, also outside [0,1] (true for Bezier curves). The statements about patches hold wherever they have a value; the corner based ones where the corner blends add up to one (C27). Polar, elastic, harmonic and concave patches are not included. C83_leaves is about compatible ribbons; the other kinds use the same normals (C83_inner)."
  },
  {
   "property": "C84",
   "status": "proved",
   "theorems": [
    "C84_polygon",
    "C84_domain",
    "C84_barycentric",
    "C84_coordinates",
    "C84_bilinear",
    "C84_regular_coordinates",
    "C84_composite_ribbon",
    "C84_midpoint",
    "C84_c0coons",
    "C84_generalized_bezier",
    "C84_hybrid",
    "C84_spatch",
    "C84_side_based",
    "C84_regular",
    "C84_superd",
    "C84_circle",
    "C84_thin"
   ],
   "note": "The polygon is any strictly convex one with a center inside (the computed one is, C07); corner based, generalized Coons and Super-D patches on the regular domain of their class. Real arithmetic: the stuck points are those of the exact formulas. Elastic, harmonic, polar, n-sided and concave patches are not included."
  },
  {
   "property": "C85",
   "status": "proved",
   "theorems": [
    "C85_surface",
    "C85_opposite",
    "C85_report",
    "C85_rows",
    "C85_cloud",
    "C85_polygon",
    "C85_convex",
    "C85_polygon_report"
   ],
   "note": "Curves are those of the model (point, derivative, arc length); reading the file is C46/C72. The side based, corner based, generalized Coons, composite ribbon and the two midpoint classes are included. The fence and the tangential error (C74) and the output text are left out. For four sides the midpoint error of a midpoint surface is a value, not zero (C44)."
  },
  {
   "property": "C86",
   "status": "proved",
   "theorems": [
    "C86_coordinates",
    "C86_patches",
    "C86_inside",
    "C86_bezier",
    "C86_jump",
    "C86_discontinuous",
    "C86_regular",
    "C86_c0coons",
    "C86_hybrid",
    "C86_inside_c0",
    "C86_inside_hybrid"
   ],
   "note": "Curves and cross derivatives are assumed continuous (steady). Continuity is sequential. The side based, corner based, generalized Coons, composite ribbon, midpoint, C0 Coons, hybrid, generalized Bezier and S-patches are included; the elastic, polar and harmonic ones are not."
  },
  {
   "property": "C87",
   "status": "proved",
   "theorems": [
    "C87_coordinates",
    "C87_domain",
    "C87_tensor",
    "C87_tensor_corner",
    "C87_central",
    "C87_quadratic",
    "C87_center",
    "C87_same",
    "C87_midpoint",
    "C87_midpoint_corner",
    "C87_c0coons",
    "C87_c0coons_cubic"
   ],
   "note": "The domain is the square of regularVertices 4. Coons patches are stated with explicit formulas for ribbons and corner terms (FourSpec.v); the quotient in the twist term is the one of the code. Composite ribbon and side based patches with four sides are not compared with classical surfaces."
  },
  {
   "property": "C88",
   "status": "proved",
   "theorems": [
    "C88_even",
    "C88_odd",
    "C88_quadratic",
    "C88_repeated"
   ],
   "note": "The value statements are for the patch with four sides, plain weights and the square of regularVertices 4; with other numbers of sides only the boundary curves are compared (C88_repeated, C52)."
  },
  {
   "property": "C89",
   "status": "proved",
   "theorems": [
    "C89_fit"
   ],
   "note": "The linear solver is an oracle: the LU solution is accepted only if it is exact (tolerance 0), the SVD solution is a least squares solution; an instance of such a solver is proved (LeastSquares.v). Only four sides."
  },
  {
   "property": "C90",
   "status": "proved",
   "theorems": [
    "C90_patch",
    "C90_corners",
    "C90_corners_gap",
    "C90_mirror",
    "C90_center",
    "C90_central",
    "C90_convex",
    "C90_regular",
    "C90_c0coons",
    "C90_linear",
    "C90_stuck",
    "C90_net",
    "C90_bezier_patch",
    "C90_hybrid_patch",
    "C90_bezier",
    "C90_hybrid",
    "C90_bezier_regular",
    "C90_disc",
    "C90_bezier_low"
   ],
   "note": "Exact arithmetic. Side, corner, generalized Coons, composite ribbon, midpoint, midpoint Coons, C0 Coons, generalized Bezier, hybrid and corner variant patches; the super-D, polar and elastic ones are not treated. The tolerances do prefer a direction: C90_linear and C90_stuck say where, and the hypotheses of the other theorems (balancedAt, settledAt) exclude just these branches. Bezier and hybrid patches need degree 3 or more; for degrees 1 and 2 the Bezier patch does prefer a direction, and C90_bezier_low is the exact difference."
  },
  {
   "property": "C91",
   "status": "proved",
   "theorems": [
    "C91_tradeoff",
    "C91_bezier",
    "C91_low_degree",
    "C91_mesh_fit",
    "C91_degenerate",
    "C91_quads",
    "C91_bezier_names",
    "C91_mesh_fit_names"
   ],
   "note": "Exact arithmetic. closestTriangle is any function that returns a triangle; the theorems ask that this triangle be one of the mesh and not degenerate, and C91_degenerate shows what happens otherwise. The tradeoff and the four sided statements are for tol = 0 and a solver that returns least squares solutions. Timing output is not modelled."
  },
  {
   "property": "C92",
   "status": "proved",
   "theorems": [
    "C92_atoi",
    "C92_printed",
    "C92_arguments",
    "C92_resolution",
    "C92_distinct",
    "C92_overwrites",
    "C92_models",
    "C92_shared",
    "C92_spatch",
    "C92_superd",
    "C92_fullness",
    "C92_written",
    "C92_reads",
    "C92_spatch_run",
    "C92_superd_run"
   ],
   "note": "strtod is any function from strings to reals; atoi is modelled. `writes` lists the files of a run that comes to its end (a missing or empty .lop file ends a run early, as in test.cc:163-165). What the runs for class-a, hybrid and bezier-corner write is the subject of C93."
  },
  {
   "property": "C93",
   "status": "proved",
   "theorems": [
    "C93_reuse",
    "C93_model",
    "C93_model_empty",
    "C93_boundary",
    "C93_hybrid",
    "C93_corner",
    "C93_corner_stops",
    "C93_class_a_curves",
    "C93_class_a_defined",
    "C93_class_a_stops",
    "C93_class_a",
    "C93_deviation",
    "C93_written"
   ],
   "note": "A run is a function to the names and contents of its files, None where the code asserts, divides by zero or reads out of range. Arc lengths of Bezier curves, the optimizer of the class A fit and the closest triangle of a mesh are oracles; the errors that showDeviations prints are the subject of C74 and C85, here only its reads matter. Hypotheses on loops are those of C85 (good_loop, all_bisected)."
  },
  {
   "property": "C94",
   "status": "proved",
   "theorems": [
    "C94_inside",
    "C94_midpoint_inside",
    "C94_spatch",
    "C94_generalized_bezier",
    "C94_side_based",
    "C94_side_sharp",
    "C94_corner_based",
    "C94_generalized_coons",
    "C94_composite_ribbon",
    "C94_midpoint",
    "C94_central",
    "C94_corner_data",
    "C94_twist_sharp",
    "C94_updated",
    "C94_bezier_curve",
    "C94_c0coons"
   ],
   "note": "`apart` is the Euclidean distance; `within` also allows that neither evaluation has a value. The local parameters are in the unit square (unit_params); C94_inside, C94_midpoint_inside, C94_spatch, C94_c0coons and C94_generalized_bezier are about the classes on any convex domain, at every point of the closed polygon, where this is proved. The sum of the corner blends is one in the cases of C27_partition. For generalized Bezier patches the point is off the corners in the sense of C46."
  },
  {
   "property": "C95",
   "status": "proved",
   "theorems": [
    "C95_distances",
    "C95_values",
    "C95_distance_jumps",
    "C95_patch_jumps",
    "C95_grid"
   ],
   "note": "`steady_at` is `continuous_at` of C86 for any kind of values. The list is obtained by recursion over the steps of the bisection, so it is finite but not computed. The boundary ring of radius above 1 - epsilon, where the distance is a formula (C22), is excluded."
  }
 ]
}