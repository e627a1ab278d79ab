{"claims": [
  {"property": "C01", "status": "proved", "theorems": ["C01_normalize_unit"], "note": "exact arithmetic"},
  {"property": "C02", "status": "partial", "theorems": ["C02_normalize_method_refuted", "C02_normalize_method_nonzero_partial"], "note": "REFUTED as stated: the in-place method leaves NaN in the zero vector (binary64). What holds: agreement in every arithmetic whenever Norm2(v)==0 is false."},
  {"property": "C03", "status": "proved", "theorems": ["C03_intersect_plane"], "note": "exact arithmetic"},
  {"property": "C04", "status": "proved", "theorems": ["C04_distance_metric", "C04_norm_is_magnitude"], "note": "exact arithmetic; Norm=Magnitude in every arithmetic"},
  {"property": "C05", "status": "proved", "theorems": ["C05_cross_laws", "C05_triangle_normal", "C05_right_handed"], "note": "exact arithmetic"},
  {"property": "C06", "status": "partial", "theorems": ["C06_distance_to_plane_refuted", "C06_plane_through_origin", "C06_zero_set", "C06_when_correct", "C06_newPlane", "C06_det2D"], "note": "REFUTED as stated: the function adds |n|^2 instead of the plane's Distance. What holds: its zero set is the plane through -normal; it is right exactly when the origin satisfies n.o = -|n|^2; newPlane itself stores the right plane equation."},
  {"property": "C07", "status": "proved", "theorems": ["C07_interpolate"], "note": "exact arithmetic"},
  {"property": "C08", "status": "proved", "theorems": ["C08_methods_agree", "C08_isunit"], "note": "every arithmetic; IsUnit characterised in exact arithmetic as an extra"},
  {"property": "C09", "status": "proved", "theorems": ["C09_orient3d"], "note": "exact arithmetic"},
  {"property": "C10", "status": "proved", "theorems": ["C10_insphere", "C10_circumsphere_exists", "C10_insphere_determinant"], "note": "exact arithmetic"},
  {"property": "C11", "status": "proved", "theorems": ["C11_fast_or_zero", "C11_exact"], "note": "C11_fast_or_zero in every arithmetic; C11_exact gives the exact-arithmetic value with the real error constant (zero answers only below the bound)"},
  {"property": "C12", "status": "proved", "theorems": ["C12_filter_sign", "C12_filter_geometric"], "note": "IEEE binary64 (Flocq); no-overflow/underflow made precise: coordinates are multiples of 2^-180 of magnitude at most 2^200. Verifies the constant (16+224 eps) eps."},
  {"property": "C13", "status": "proved", "theorems": ["C13_area", "C13_inCircle"], "note": "exact arithmetic; the library's positive orientation is clockwise"},
  {"property": "C14", "status": "proved", "theorems": ["C14_circumcircle"], "note": "exact arithmetic"},
  {"property": "C15", "status": "proved", "theorems": ["C15_hashKey_valid", "C15_pseudoAngle_monotone"], "note": "exact arithmetic"},
  {"property": "C16", "status": "proved", "theorems": ["C16_returns"], "note": "Exact arithmetic (reals with Inf/NaN), any sorting function that sorts, points of one horizontal plane, length other than 1 and below 2^63 (hash size is computed by Ceil/Sqrt)."},
  {"property": "C17", "status": "proved", "theorems": ["C17_error_iff_collinear"], "note": "Exact arithmetic, planar input of two or more points. On error the triangulation is empty; otherwise it is not."},
  {"property": "C18", "status": "proved", "theorems": ["C18_paired"], "note": "Exact arithmetic, planar input."},
  {"property": "C19", "status": "proved", "theorems": ["C19_well_formed"], "note": "Exact arithmetic, planar input. Also: vertices are pairwise distinct in XY."},
  {"property": "C20", "status": "proved", "theorems": ["C20_delaunay"], "note": "Exact arithmetic, planar input."},
  {"property": "C21", "status": "proved", "theorems": ["C21_hull"], "note": "Exact arithmetic, planar input. Encloses: every vertex of the triangulation is on the left of or on every edge of ConvexHull."},
  {"property": "C22", "status": "proved", "theorems": ["C22_no_point_lost", "C22_every_point"], "note": "Exact arithmetic, planar input. Second theorem: if no two input points are that close, every index is a vertex."},
  {"property": "C23", "status": "proved", "theorems": ["C23_counts"], "note": "Exact arithmetic, planar non-empty input without error."},
  {"property": "C24", "status": "proved", "theorems": ["C24_areas"], "note": "Exact arithmetic, planar input."},
  {"property": "C25", "status": "proved", "theorems": ["C25_flip_terminates", "C25_binary64", "C25_exact"], "note": "Any Arith with a null_like predicate; instances for binary64 and exact arithmetic. The mesh hypothesis is not shown to hold at every call during a triangulation of non-planar binary64 input (C26 shows it can fail there)."},
  {"property": "C26", "status": "partial", "theorems": ["C26_panic_refuted", "C26_inconsistent_refuted", "C26_unused_refuted"], "note": "REFUTED as stated: on binary64 points with different Z and a good XY projection Triangulate can panic, return inconsistent half-edges, or leave a point unused (computed counterexamples). What holds: planar input works in the computed example C26_planar_works."},
  {"property": "C27", "status": "partial", "theorems": ["C27_one_point_refuted", "C27_empty"], "note": "REFUTED as stated: Triangulate panics on every one-point list (it reads Vectors[1]). What holds: the empty list is fine."},
  {"property": "C28", "status": "proved", "theorems": ["C28_convex_hull"], "note": "exact arithmetic, every sort result; separated = XY-distinct and not near-duplicates"},
  {"property": "C29", "status": "partial", "theorems": ["C29_dropped_points_refuted", "C29_hull_linked_partial"], "note": "REFUTED as stated: a chain of points spaced below sqrt(2^-52) is dropped entirely, however long; its hull is empty. What holds: every input point is linked to a considered point by steps below the tolerance, and the hull encloses the considered points."},
  {"property": "C30", "status": "partial", "theorems": ["C30_single_point_refuted", "C30_collinear_refuted"], "note": "REFUTED as stated: a single point has an empty hull in every arithmetic; the hull of collinear points lists every inner point twice (exact characterisation proved)."},
  {"property": "C31", "status": "proved", "theorems": ["C31_validate_sound", "C31_validate_exact"], "note": "soundness: every arithmetic. C31_validate_exact: in exact arithmetic Validate returns nil exactly when the half-edges are twins and the three tolerance comparisons hold, stated with independent area/perimeter specs."},
  {"property": "C32", "status": "proved", "theorems": ["C32_polygonArea", "C32_polygonArea_fan", "C32_polygonPerimeter"], "note": "exact arithmetic"},
  {"property": "C33", "status": "proved", "theorems": ["C33_face_hash"], "note": ""},
  {"property": "C34", "status": "proved", "theorems": ["C34_tetra_hash", "C34_addTetra"], "note": ""},
  {"property": "C35", "status": "proved", "theorems": ["C35_indices_valid"], "note": "any arithmetic, any map iteration order"},
  {"property": "C36", "status": "partial", "theorems": ["C36_orientation_refuted", "C36_faces_of_connect"], "note": "REFUTED as stated: of the four tetrahedra built around an inner point two have the wrong orientation and select the points outside their circumsphere. What holds: the other two are right."},
  {"property": "C37", "status": "proved", "theorems": ["C37_bounding_box", "C37_bounding_box_b64"], "note": "exact arithmetic (coordinates within the float64 range) and binary64 (all finite coordinates)"},
  {"property": "C38", "status": "proved", "theorems": ["C38_initial_tetrahedron"], "note": "exact arithmetic"},
  {"property": "C39", "status": "proved", "theorems": ["C39_nearest", "C39_nearest_none", "C39_nearest_to_centroid"], "note": "exact arithmetic; distances at most MaxFloat64 (otherwise the zero vector is returned)"},
  {"property": "C40", "status": "partial", "theorems": ["C40_point_in_tetrahedron", "C40_complete", "C40_flat_refuted", "C40_flat_witness", "C40_point_in_tetrahedron_tri3", "C40_flat_tri3_refuted"], "note": "REFUTED as stated: a tetrahedron of zero volume accepts every point of space. What holds: equivalence for every tetrahedron of non-zero volume; convex combinations are always accepted. Both packages (mesh and triangulate3)."},
  {"property": "C41", "status": "proved", "theorems": ["C41_centroid", "C41_centroid_tri3"], "note": "packages mesh and triangulate3"},
  {"property": "C42", "status": "partial", "theorems": ["C42_flip14", "C42_second_flip_refuted"], "note": "REFUTED as stated: the indices are constants, after the second flip the new point is not referred to. What holds: valid exactly when the mesh has four vertices before."},
  {"property": "C43", "status": "proved", "theorems": ["C43_duplicateInReverse", "C43_two_sided"], "note": ""},
  {"property": "C44", "status": "proved", "theorems": ["C44_bounding_box", "C44_bounding_box_b64"], "note": "exact arithmetic and binary64"},
  {"property": "C45", "status": "partial", "theorems": ["C45_englobing_refuted", "C45_englobing_test_refuted"], "note": "REFUTED as stated, for every input: no non-empty list (coordinates in the float32 range) is enclosed by the tetrahedron returned, or the call panics. For points with y >= 0 the library's own test also rejects one of them. What holds: the four vertices are computed as proved in englobing_value."},
  {"property": "C46", "status": "partial", "theorems": ["C46_initial_tetra_partial", "C46_initial_tetra_refuted"], "note": "REFUTED as stated: the fourth vertex is the zero vector, not an input, when no point has negative signed volume. What holds: the first three vertices are input points and the third is furthest from the line; the fourth is the furthest from the plane among the points on the negative side when there is one."},
  {"property": "C47", "status": "proved", "theorems": ["C47_area", "C47_volume", "C47_distances"], "note": "exact arithmetic"},
  {"property": "C48", "status": "proved", "theorems": ["C48_findSpan", "C48_findSpan_b64"], "note": "exact arithmetic, and binary64 for knots below 2^53"},
  {"property": "C49", "status": "partial", "theorems": ["C49_findSpan_diverges_refuted", "C49_findSpan_diverges_b64_refuted", "C49_curvePoint_diverges_refuted"], "note": "REFUTED as stated: for every non-decreasing knot vector and every parameter outside [U[p], U[n+1]] the loop never ends (every fuel runs out). What holds: termination inside the domain (C48)."},
  {"property": "C50", "status": "proved", "theorems": ["C50_basis", "C50_basis_closed"], "note": "exact arithmetic; Cox-de Boor recursion with 0/0 = 0"},
  {"property": "C51", "status": "partial", "theorems": ["C51_curve_point", "C51_degenerate_end_refuted"], "note": "REFUTED as stated: at u = U[n+1] with U[n] = U[n+1] the point is NaN (knot vector taken from the repository's test). What holds: everything stated, for every other in-domain parameter (the only extra hypothesis is U[n] < U[n+1] when u = U[n+1])."},
  {"property": "C52", "status": "partial", "theorems": ["C52_ders_row0_refuted"], "note": "REFUTED as stated, for every valid input: row 0 is identically zero because ndu[0][0] is never set to 1, so it never equals the basis."},
  {"property": "C53", "status": "partial", "theorems": ["C53_sphere_center_ignored", "C53_sphere_partial", "C53_sphere_refuted"], "note": "REFUTED as stated: ConstructSphere never reads center, so for every center other than the origin (radius > 0, at least 3 sectors and 2 stacks) some vertex is off the sphere. What holds: for every radius > 0 and all counts below the uint32 limit all vertices are on the sphere around the origin, every normal has length 1 and vertex = radius * normal."},
  {"property": "C54", "status": "partial", "theorems": ["C54_sphere_indices_partial", "C54_torus_indices_partial", "C54_ConstructSphere", "C54_ConstructTorus", "C54_zero_sectors_refuted"], "note": "REFUTED as stated only for sectorCount = 0, where the constructors panic (integer division by zero). For every sectorCount >= 1, stackCount >= 2 below the uint32 limit the property holds in any arithmetic, with the exact index count; in particular for the fixed counts of ConstructSphere and ConstructTorus."},
  {"property": "C55", "status": "partial", "theorems": ["C55_torus_center_ignored", "C55_torus_partial", "C55_torus_refuted"], "note": "REFUTED as stated: ConstructTorus never reads center, so for every center other than the origin (even stack counts, at least 3 sectors) some vertex is off the torus. What holds: all vertices satisfy the torus equation around the origin when |tubeRadius| <= radius, and its quartic form always."},
  {"property": "C56", "status": "proved", "theorems": ["C56_circle", "C56_ellipse"], "note": "Exact arithmetic, any sector count from 1 to 2^32-2, any centre; the angle of each vertex is given."},
  {"property": "C57", "status": "partial", "theorems": ["C57_fan_indices_refuted"], "note": "REFUTED as stated: for every sector count the index len(Vertices), one past the end, occurs in the index list of circles and ellipses. What holds: no larger index occurs."},
  {"property": "C58", "status": "partial", "theorems": ["C58_texcoords_refuted", "C58_not_proportional_refuted"], "note": "REFUTED as stated: j/sectorCount and i/stackCount are integer divisions. The stored coordinate is exactly (1 if j = sectorCount else 0, 0), in any arithmetic, so every vertex with 0 < j < sectorCount or i > 0 gets a wrong coordinate."},
  {"property": "C59", "status": "partial", "theorems": ["C59_sphere_open_refuted", "C59_torus_open_refuted", "C142_sphere_boundary", "C142_torus_boundary"], "note": "REFUTED as stated: for all sectorCount >= 3, stackCount >= 2 below the uint32 limit the sphere (radius <> 0) and the torus (0 < tube < radius) have an edge on only one triangle, also after identifying coincident vertices. What holds: C142 gives exactly which edges are on only one triangle."},
  {"property": "C60", "status": "proved", "theorems": ["C60_export_structure"], "note": "About the arguments handed to the gltf library; the library itself and the file written are not modelled."},
  {"property": "C61", "status": "partial", "theorems": ["C61_float32_partial", "C61_float32_overflow_refuted"], "note": "REFUTED as stated for |x| >= 2^128 - 2^103, which is exported as an infinity. Below that (exact threshold) the result is finite and no float32 is nearer."},
  {"property": "C62", "status": "proved", "theorems": ["C62_getArguments_inverts_join", "C62_short_panics"], "note": ""},
  {"property": "C63", "status": "partial", "theorems": ["C63_getArguments_utf8_partial", "C63_getArguments_blank_refuted", "C63_getArguments_quote_refuted"], "note": "REFUTED as stated: a last argument with a non-ASCII character is cut, blanks before the semicolon leave a bracket in the last argument, and commas or brackets in quoted strings count. What holds: for UTF-8 arguments without quotes only the last argument is changed, to its first n bytes for n characters; it is right exactly if it is ASCII."},
  {"property": "C64", "status": "proved", "theorems": ["C64_getArray_inverts_print", "C64_getMatrix_inverts_print"], "note": "non-empty arrays; the empty list and the list of one empty element have the same text"},
  {"property": "C65", "status": "proved", "theorems": ["C65_lex_recovers_entities"], "note": "physical lines up to 4094 bytes with any line ends; longer lines in C74"},
  {"property": "C66", "status": "partial", "theorems": ["C66_lex_header_refuted"], "note": "REFUTED as stated: Lex panics on every file whose first non-empty line has no equals sign, so on every file that starts with ISO-10303-21. What holds: C65 for files without a header."},
  {"property": "C67", "status": "partial", "theorems": ["C67_key_is_reference_partial", "C67_key_is_reference_refuted"], "note": "REFUTED as stated: with blanks before the equals sign they are part of the key and the identifier is not found. What holds: without them the key is the identifier."},
  {"property": "C68", "status": "proved", "theorems": ["C68_parse_terminates_once"], "note": "at most 1 + 3 * (number of entries) steps per entry"},
  {"property": "C69", "status": "proved", "theorems": ["C69_parse_no_panic", "C69_lex_parse_no_panic"], "note": "wf_table in Spec_step spells out what each handler needs"},
  {"property": "C70", "status": "partial", "theorems": ["C70_parse_order_refuted", "C70_parse_order_partial"], "note": "REFUTED as stated: a table of two entities on which one order panics and the other does not. What holds: independence on well-formed tables."},
  {"property": "C71", "status": "partial", "theorems": ["C71_bridge_refuted", "C71_bridge_partial"], "note": "REFUTED as stated: the switch misspells both names, so these entities are skipped. What holds: the exact table of names that are dispatched."},
  {"property": "C72", "status": "proved", "theorems": ["C72_strip_exact", "C72_strip_identity", "C72_white_space", "C72_bytes", "C72_pieces_unique"], "note": "all byte strings C72_bytes: byte by byte, including damaged UTF-8."},
  {"property": "C73", "status": "proved", "theorems": ["C73_getLogical"], "note": ""},
  {"property": "C74", "status": "partial", "theorems": ["C74_line_length_partial", "C74_line_short", "C74_line_length_refuted"], "note": "REFUTED as stated: a definition with a second equals sign beyond the first 4096 bytes of the line panics, while the same with a shorter text is read. What holds: any length if no equals sign lies beyond the first 4096 bytes."},
  {"property": "C75", "status": "partial", "theorems": ["C75_hull_stacked_refuted", "C28_convex_hull"], "note": "REFUTED as stated: two stacked points on a reflex turn stop the chain from popping. What holds: C28 when no two different points share X and Y."},
  {"property": "C76", "status": "partial", "theorems": ["C76_mesh_nonempty_refuted"], "note": "REFUTED as stated: four affinely independent points with small integer coordinates (all float operations exact) give an empty mesh for every map order."},
  {"property": "C77", "status": "proved", "theorems": ["C35_indices_valid"], "note": ""},
  {"property": "C78", "status": "proved", "theorems": ["C78_cavity_boundary"], "note": ""},
  {"property": "C79", "status": "proved", "theorems": ["C79_order_independent"], "note": "any arithmetic"},
  {"property": "C80", "status": "proved", "theorems": ["C80_clamped_ends"], "note": "exact arithmetic"},
  {"property": "C81", "status": "proved", "theorems": ["C81_ders_returns"], "note": "exact arithmetic"},
  {"property": "C82", "status": "proved", "theorems": ["C82_disjoint", "C82_cover", "C82_within"], "note": "Exact arithmetic, planar input. Proved with signed ray crossings summed over all half-edges."},
  {"property": "C83", "status": "proved", "theorems": ["C83_hulls_agree"], "note": "exact arithmetic; planar, separated points"},
  {"property": "C84", "status": "proved", "theorems": ["C84_validate_accepts", "C84_collinear_rejected"], "note": "exact arithmetic; planar, separated points"},
  {"property": "C85", "status": "partial", "theorems": ["C85_first_derivative_refuted", "C85_scaling_partial"], "note": "REFUTED as stated, for every valid input with u below the span's right end: row 1 is identically zero (it inherits the missing ndu[0][0] = 1), while the first basis function of the span has negative slope. What holds: the final loop scales row k by p!/(p-k)!."},
  {"property": "C86", "status": "proved", "theorems": ["C86_returns"], "note": "binary64 (round to nearest even)"},
  {"property": "C87", "status": "proved", "theorems": ["C87_well_formed"], "note": "binary64"},
  {"property": "C88", "status": "proved", "theorems": ["C88_delaunay"], "note": "binary64; the predicates are exact on the grid, the seed search, the order and the hash are rounded"},
  {"property": "C89", "status": "proved", "theorems": ["C89_hull", "C89_no_point_lost", "C89_tiles"], "note": "binary64"},
  {"property": "C90", "status": "proved", "theorems": ["C90_hashKey_b64", "C90_hypotheses_needed"], "note": "binary64; without the hypotheses the key is negative"},
  {"property": "C91", "status": "partial", "theorems": ["C91_returns_refuted"], "note": "REFUTED as stated: the triangle (2^53,2^53),(2^53+2,2^53),(2^53,2^53+2) panics, its circumcenter is rounded onto a vertex and the hash index is int(NaN). What holds: C86 on grids, C16 in exact arithmetic. The index is int(NaN), which Go leaves to the implementation; the model uses amd64's result (the most negative integer), where the panic occurs."},
  {"property": "C92", "status": "proved", "theorems": ["C92_hull64"], "note": "binary64 (Flocq), coordinates k*2^e with |k| <= 2^24, -300 <= e <= 300; Z may vary as long as points are separated in XY. The run makes the same decisions as the exact one."},
  {"property": "C93", "status": "proved", "theorems": ["C93_hulls_agree64"], "note": "equality of values (a repeated point may be represented by +0 in one list and -0 in the other)"},
  {"property": "C94", "status": "proved", "theorems": ["C94_validate_accepts64"], "note": "e.g. up to 151 hull vertices for integer coordinates in [-128,128]; the bound covers the rounding error of both perimeter sums"},
  {"property": "C95", "status": "partial", "theorems": ["C95_validate_rejects_refuted", "C95_rejected_is_correct"], "note": "REFUTED as stated: the points (0,0), (102,7), (7,100), (100,102) times 2^14 (coordinates below 2 million) are triangulated correctly (Delaunay, paired half-edges, proved), but Validate returns an error, because the two perimeters, summed from different starting vertices, differ by one unit in the last place, which is more than the absolute tolerance 1e-9. What holds: C94."},
  {"property": "C96", "status": "proved", "theorems": ["C96_polygonArea64"], "note": ""},
  {"property": "C97", "status": "proved", "theorems": ["C97_bounds64", "C97_bounds", "C97_seed0", "C97_seed1", "C97_seed2"], "note": "seed0 assumes no distance to the centre is NaN; seed1 that some point is at a positive finite computed distance"},
  {"property": "C98", "status": "proved", "theorems": ["C98_Dot_comm", "C98_Add_comm", "C98_Distance_sym", "C98_Sub_Cross_anti"], "note": "NaN is a single value in the model (payloads are not modelled)"},
  {"property": "C99", "status": "proved", "theorems": ["C99_Norm_nan", "C99_Distance_nan", "C99_nonneg", "C99_Distance_self"], "note": ""},
  {"property": "C100", "status": "proved", "theorems": ["C100_Norm", "C100_Distance"], "note": ""},
  {"property": "C101", "status": "partial", "theorems": ["C101_separates_refuted", "C101_overflow_refuted", "C101_separates_mid"], "note": "REFUTED as stated: Distance of (2^-600,0,0) and the origin is 0, of (2^600,0,0) and the origin is +Inf. What holds: exact distances between 2^-480 and 2^480 (C101_separates_mid, C100)."},
  {"property": "C102", "status": "partial", "theorems": ["C102_normalize_refuted", "C102_normalize_zero_refuted", "C102_normalize_mid"], "note": "REFUTED as stated: Normalize returns the zero vector for (2^600,0,0) (the squared norm overflows) and for (2^-540,0,0) (it underflows). What holds: exact norms between 2^-480 and 2^480; then every component is within 7 * 2^-53 relatively plus 2^-1074."},
  {"property": "C103", "status": "proved", "theorems": ["C103_IsUnit_sound", "C103_IsUnit_complete"], "note": ""},
  {"property": "C104", "status": "partial", "theorems": ["C104_edge_isEqual", "C104_Less_order", "C104_Less_spec", "C104_Less_nan_refuted", "C104_Swap", "C104_Swap_Less_panic", "C104_boundingBox"], "note": "REFUTED as stated for Less: with distances 1, NaN, 2 incomparability is not transitive. What holds: everything else, and Less is a strict weak order when no distance is NaN."},
  {"property": "C105", "status": "proved", "theorems": ["C105_basis", "C105_basis_closed"], "note": "Binary64, round to nearest even, Go ints unbounded. Closed form covers the right end of a span."},
  {"property": "C106", "status": "proved", "theorems": ["C106_curve_point", "C106_exact"], "note": "Binary64; no fused multiply-add; vec3 Add/Scaled of the dependency modelled as coordinatewise operations."},
  {"property": "C107", "status": "partial", "theorems": ["C107_findSpan_nan", "C107_basis_nan", "C107_curve_nan", "C107_infinite_refuted"], "note": "REFUTED as stated: with an infinite parameter findSpan never returns (C107_infinite_refuted, for every knot vector). What holds: for NaN findSpan returns the middle span, and for degree at least 1 basisFuns and curvePoint return NaN everywhere."},
  {"property": "C108", "status": "proved", "theorems": ["C108_insert", "C108_bad"], "note": "For every Arith instance."},
  {"property": "C109", "status": "proved", "theorems": ["C109_run", "C109_test", "C109_small"], "note": "For every Arith instance; C109_test in exact arithmetic."},
  {"property": "C110", "status": "proved", "theorems": ["C110_insphere", "C110_orient", "C110_underflow"], "note": "float64 InSphereFast/orient3dfast on grids k*2^e"},
  {"property": "C111", "status": "proved", "theorems": ["C111_exact", "C111_run"], "note": "grid cube of 200 steps; C111_run adds the set-level specification of C109"},
  {"property": "C112", "status": "partial", "theorems": ["C112_refuted", "C112_grid"], "note": "REFUTED as stated: for (0,0,0),(0.7,0.7,0.7) the product 3*0.7 rounds down and the second point lies outside. What holds: the containment for points of grids (cubes of 2^18 steps)."},
  {"property": "C113", "status": "proved", "theorems": ["C113_indices", "C113_count"], "note": "any Arith, any sort function"},
  {"property": "C114", "status": "proved", "theorems": ["C114_total", "C114_Triangulate_Validate", "C114_area", "C114_panics"], "note": "any Arith, any sort functions"},
  {"property": "C115", "status": "proved", "theorems": ["C115_interpolate", "C115_ends", "C115_same"], "note": "binary64; accuracy for coordinates up to 2^1022, end points for all finite inputs, the last law for all inputs."},
  {"property": "C116", "status": "partial", "theorems": ["C116_between_refuted", "C116_monotone_refuted", "C116_between_partial"], "note": "REFUTED as stated: Interpolate(a, a, 0.2) with a = 3 gives 3.0000000000000004, and the result can decrease when t increases. What holds: it leaves the box of the end points by at most 4*2^-53*M + 3*2^-1074."},
  {"property": "C117", "status": "proved", "theorems": ["C117_centroid", "C117_box"], "note": "binary64, coordinates at most 2^1021; beyond that the sum overflows (Example C117_overflow)."},
  {"property": "C118", "status": "proved", "theorems": ["C118_nearest", "C118_accuracy", "C118_grid"], "note": "binary64; C118_nearest for all inputs."},
  {"property": "C119", "status": "proved", "theorems": ["C119_test", "C119_flat", "C119_rejects_inside", "C119_accepts_outside"], "note": "binary64 on grids."},
  {"property": "C120", "status": "proved", "theorems": ["C120_get2", "C120_get3", "C120_createInitialTetra"], "note": "binary64 on grids."},
  {"property": "C121", "status": "partial", "theorems": ["C121_parallel_refuted", "C121_meeting_refuted", "C121_panic_partial", "C121_returns"], "note": "REFUTED as stated: direction (1,1,1) and normal (-3,1,2) are orthogonal and a point is returned; direction (2^600,0,0) and normal (1,0,0) panic. What holds: for directions of length 2^-480..2^480 a panic implies |n.d|/|d| <= 12*2^-53*|n|_1 + 5*2^-1074*(1+|n|_1), and for moderate sizes |n.d|/|d| >= 2^-40*|n|_1 implies that a finite point is returned."},
  {"property": "C122", "status": "proved", "theorems": ["C122_intersect"], "note": "binary64; direction of length 2^-480..2^480, |n|_1 <= 2^1000, finite result (C121_returns gives conditions for that)."},
  {"property": "C123", "status": "proved", "theorems": ["C123_greedy", "C123_route", "C123_grid64"], "note": "exact arithmetic on planar input; binary64 on grids."},
  {"property": "C124", "status": "proved", "theorems": ["C124_edge", "C124_gabriel", "C124_nearest", "C124_bottleneck", "C124_grid64"], "note": "exact arithmetic on planar input; binary64 on grids. Vertices are the points that Triangulate keeps (C22)."},
  {"property": "C125", "status": "proved", "theorems": ["C125_triangle", "C125_triangles", "C125_order", "C125_grid64", "C125_order64"], "note": "exact arithmetic on planar input; binary64 on grids."},
  {"property": "C126", "status": "proved", "theorems": ["C126_optimal", "C126_cover", "C126_grid64"], "note": "exact arithmetic on planar input; binary64 on grids."},
  {"property": "C127", "status": "proved", "theorems": ["C127_deboor"], "note": "exact arithmetic; float64 error in C106"},
  {"property": "C128", "status": "proved", "theorems": ["C128_marsden", "C128_powers", "C128_linear_precision"], "note": "exact arithmetic"},
  {"property": "C129", "status": "proved", "theorems": ["C129_bezier"], "note": "exact arithmetic; u at the right knot only in the last span (C131 gives the limit)"},
  {"property": "C130", "status": "proved", "theorems": ["C130_derivative"], "note": "exact arithmetic"},
  {"property": "C131", "status": "proved", "theorems": ["C131_lipschitz", "C131_continuous"], "note": "exact arithmetic"},
  {"property": "C132", "status": "proved", "theorems": ["C132_reversal"], "note": "exact arithmetic"},
  {"property": "C133", "status": "proved", "theorems": ["C133_affine", "C133_local_control", "C133_unique"], "note": "exact arithmetic"},
  {"property": "C134", "status": "proved", "theorems": ["C134_monotone"], "note": "exact arithmetic"},
  {"property": "C135", "status": "partial", "theorems": ["C135_ends_refuted", "C135_start", "C135_end", "C135_lengths", "C135_scaled"], "note": "REFUTED as stated: with knots 0,0,49,49 the curve from (1,0,0) to (0,1,0) starts at (1-2^-53,0,0) and ends at (0,1-2^-53,0), because 49*(1/49) is not 1 in float64 (C135_ends_refuted). What holds, for all degrees and finite control points: an end is hit exactly for all control points if and only if fl(g*fl(1/g)) = 1 for the length g of the end span (C135_start, C135_end); this is so for all lengths 1..48 and all powers of two (C135_lengths); in all cases the end is the control point times one factor between 1-p*2^-52 and 1, rounded once (C135_scaled)."},
  {"property": "C136", "status": "proved", "theorems": ["C136_is_triangulation", "C136_max_min_angle", "C136_each_angle", "C136_grid64"], "note": "exact arithmetic on planar input; binary64 on grids."},
  {"property": "C137", "status": "proved", "theorems": ["C137_smallest_circles", "C137_grid64"], "note": "exact arithmetic on planar input; binary64 on grids."},
  {"property": "C138", "status": "partial", "theorems": ["C138_lost_refuted", "C138_delaunay_refuted", "C88_delaunay", "C89_no_point_lost"], "note": "REFUTED as stated: five integer points with coordinates below 2^28, of which Triangulate uses only four (C138_lost_refuted: a rounded area is zero and the point is skipped as a near-duplicate); four integer points with coordinates below 2^45 whose two triangles both contain the fourth point strictly inside the circumcircle (C138_delaunay_refuted). What holds: both parts, for coordinates that are 8-bit multiples of a power of two (C88_delaunay, C89_no_point_lost)."},
  {"property": "C139", "status": "proved", "theorems": ["C139_hull_members", "C139_hull_once", "C139_hull_members64"], "note": "exact arithmetic, and binary64 for coordinates k*2^e with |k| <= 2^24; boundary = a supporting line (Spec_hull.v), no reference to edges or chains. Points are separated as in C28."},
  {"property": "C140", "status": "proved", "theorems": ["C140_hull_stable", "C140_hull_idempotent", "C140_hull_stable64"], "note": "exact arithmetic, and binary64 for coordinates k*2^e with |k| <= 2^24. Collinear inputs are excluded: there the inner points are returned twice."},
  {"property": "C141", "status": "proved", "theorems": ["C141_oriented"], "note": "Any arithmetic."},
  {"property": "C142", "status": "proved", "theorems": ["C142_sphere_boundary", "C142_torus_boundary"], "note": "Exact arithmetic."},
  {"property": "C143", "status": "proved", "theorems": ["C143_sphere_outward", "C143_torus_outward"], "note": "Exact arithmetic."},
  {"property": "C144", "status": "partial", "theorems": ["C144_torus_normals_refuted", "C144_torus_normals"], "note": "REFUTED as stated: for every torus with positive radii the first normal is (1, 0, tube/radius), of length > 1, while the outward direction there is the z axis. What holds: each normal is the vertex position divided by radius."},
  {"property": "C145", "status": "proved", "theorems": ["C145_knot_insertion"], "note": "Exact arithmetic."},
  {"property": "C146", "status": "proved", "theorems": ["C146_variation"], "note": "Exact arithmetic."},
  {"property": "C147", "status": "proved", "theorems": ["C147_convex"], "note": "Exact arithmetic."},
  {"property": "C148", "status": "proved", "theorems": ["C148_sphere64", "C148_torus64"], "note": "binary64. Accuracy of math.Cos, math.Sin and the constants is a hypothesis of the theorem (trig_acc); TR_acc shows correctly rounded functions satisfy it. The points are on the surface centred at the origin (see C53, C55)."},
  {"property": "C149", "status": "proved", "theorems": ["C149_circle64", "C149_ellipse64"], "note": "binary64, same hypothesis on the library functions."},
  {"property": "C150", "status": "proved", "theorems": ["C150_normals64"], "note": "binary64, same hypothesis on the library functions."},
  {"property": "C151", "status": "partial", "theorems": ["C151_sphere_seam_refuted", "C151_torus_seam_refuted"], "note": "REFUTED as stated: for every sphere (rows below the pole) and every torus with radius at least twice the tube, whatever the mesh size, the first vertex of a row has y = 0 and the last one y <> 0, because no binary64 angle is close enough to 2 pi. What holds: the two differ by at most the tolerance of C148 (last conjunct of both theorems)."},
  {"property": "C152", "status": "proved", "theorems": ["C152_layout", "C152_denotes", "C152_crash", "C152_table", "C152_terminates"], "note": "Arbitrary bytes; the file contents are the model's input (opening and reading errors are not modelled)."},
  {"property": "C153", "status": "partial", "theorems": ["C153_footer_refuted", "C153_footer_partial"], "note": "REFUTED as stated: the text of the trailing lines, with the closing bracket and semicolon, becomes part of the last argument of the last definition. What holds: all other identifiers keep their definitions, and trailing empty lines change nothing."},
  {"property": "C154", "status": "proved", "theorems": ["C154_parse_exact", "C154_witness"], "note": "Sharpens C69 and C70: the exact condition, and for every violation an order that crashes."},
  {"property": "C155", "status": "proved", "theorems": ["C155_power", "C155_walk", "C155_stop", "C155_locate", "C155_grid64"], "note": "no general position needed: with equal circumcircles the arcs cut off by the crossed edges are nested. The walk is a specification (the library has no point location); the theorems are about Triangles and Halfedges as returned."},
  {"property": "C156", "status": "proved", "theorems": ["C156_edges", "C156_degree", "C156_grid64"], "note": "h is the length of the returned ConvexHull, n the number of different vertices of the triangles"},
  {"property": "C157", "status": "proved", "theorems": ["C157_gamma", "C157_orient2d", "C157_inCircle", "C157_orient3d", "C157_inSphere", "C157_products"], "note": "C157_cancellation is a case where the bound is needed: the exact value is 1, the float value 0"},
  {"property": "C158", "status": "proved", "theorems": ["C158_hull_exact", "C158_hull_convex"], "note": "generalises C92 and C139 from 25-bit grids to all 53-bit coordinates away from degeneracies"},
  {"property": "C159", "status": "proved", "theorems": ["C159_polygonArea", "C159_triArea", "C159_perimeter", "C159_distance"], "note": ""},
  {"property": "C160", "status": "proved", "theorems": ["C160_circumcenter", "C160_circumradius", "C160_degenerate", "C160_sides", "C160_cond"], "note": "binary64; bounds governed by the condition number cond = terms/|det| of the triangle"},
  {"property": "C161", "status": "proved", "theorems": ["C161_returns", "C161_well_formed", "C161_delaunay", "C161_hull", "C161_no_point_lost", "C161_tiles", "C161_certified"], "note": "binary64; inputs whose decisions exceed the rounding error bounds of C157 and C160"},
  {"property": "C162", "status": "proved", "theorems": ["C162_unique", "C162_exact"], "note": "binary64 against exact reals"},
  {"property": "C163", "status": "proved", "theorems": ["C163_hulls_agree", "C163_validate_accepts", "C163_validate_counts", "C163_validate_box"], "note": "binary64; sorts are oracles; needs the size bounds (C95 shows a bound is needed)"},
  {"property": "C164", "status": "proved", "theorems": ["C164_route", "C164_edges", "C164_interpolation", "C164_angles", "C164_circles", "C164_walk", "C164_counts"], "note": "binary64 on the inputs of C161"},
  {"property": "C165", "status": "proved", "theorems": ["C165_test", "C165_strict", "C165_determinant"], "note": "float64 model; clear_tetra says that eight determinants exceed gamma(8) times the sum of their absolute terms"},
  {"property": "C166", "status": "proved", "theorems": ["C166_almost_contains"], "note": "float64 model; complements the refuted C112"},
  {"property": "C167", "status": "proved", "theorems": ["C167_run"], "note": "float64 model; the hypothesis is on the exact in-sphere determinants of the input points and the computed initial vertices"},
  {"property": "C168", "status": "proved", "theorems": ["C168_choice", "C168_clear"], "note": "float64 model, no hypothesis on the position of the points in C168_choice"},
  {"property": "C169", "status": "proved", "theorems": ["C169_fields", "C169_well_formed", "C169_handler", "C169_reported", "C169_report_unique", "C169_report"], "note": "the job's fields against ISO 10303-42 text of the entity; .U. is read as false"},
  {"property": "C170", "status": "proved", "theorems": ["C170_sphere_inside", "C170_sphere_covered", "C170_torus_close", "C170_default_sphere"], "note": "exact arithmetic; the centre argument of the constructors is ignored by the code (C-series shape properties), so distances are from the origin"},
  {"property": "C171", "status": "proved", "theorems": ["C171_similar", "C171_translate", "C171_enlarge", "C171_scale64"], "note": "exact arithmetic for every similarity, float64 for powers of two (inputs away from underflow and overflow); C171_condition_needed shows that the proviso on near-duplicates cannot be dropped"},
  {"property": "C172", "status": "proved", "theorems": ["C172_hull", "C172_mesh", "C172_hull64", "C172_mesh64", "C172_sort_exact", "C172_sort64"], "note": "the sort of the hull is a parameter: the theorems hold for every sort that orders the moved points as the points, and insertion sort by X then Y is shown to be one; float64 coordinates are multiples of 2^-90 up to 2^90 before and after, so that no step under- or overflows"},
  {"property": "C173", "status": "proved", "theorems": ["C173_output", "C173_panic", "C173_face", "C173_unlinked", "C173_points", "C173_surface"], "note": "the address printed for a handler is a parameter; the trace of a panic goes to standard error and is not modelled"},
  {"property": "C174", "status": "proved", "theorems": ["C174_higher", "C174_smooth", "C174_polynomial", "C174_start", "C174_end", "C174_corner"], "note": "exact arithmetic; C174_needed shows a curve with a knot of multiplicity p that has no derivative there"},
  {"property": "C175", "status": "partial", "theorems": ["C175_shows", "C175_valid", "C175_sphere", "C175_torus", "C175_fan_refuted", "C175_large_refuted"], "note": "REFUTED as stated: no file exported for a circle or ellipse is valid, because the last triangle names a vertex that does not exist, and a sphere of radius 2^129 or more is written with infinite coordinates. What holds: every export shows exactly the vertices rounded to float32 with the triangles of the mesh; it is valid exactly when the mesh has whole triangles, existing corners and coordinates below the float32 limit; spheres and tori of radius up to 2^127 are exported validly with every position within relative 4 eps + 2^-23 and absolute 2^-149 of the ideal point. The behaviour of NewDocument and modeler.WriteXxx is modelled after the library's documentation, since the library is not in /repo; SaveBinary is not modelled."},
  {"property": "C176", "status": "proved", "theorems": ["C176_same", "C176_triangulate", "C176_triangulate_b64", "C176_legalize", "C176_hull", "C176_pop", "C176_findSpan", "C176_findSpan_b64"], "note": "Counts in-circle tests (Triangulate, legalize), cross products (ConvexHull) and rounds (findSpan); the walks along the hull, the sort and memory are not counted. Exactly one point is excluded, since Triangulate panics there (C16)."},
  {"property": "C177", "status": "proved", "theorems": ["C177_emit", "C177_order", "C177_rest", "C177_alone"], "note": "A Go channel is modelled as the list of values waiting in it; sends and receives are atomic steps. The only call of emit in the repository is inside a comment."},
  {"property": "C178", "status": "proved", "theorems": ["C178_exact", "C178_b64", "C178_length"], "note": "From C124 and C164 (paths whose edges are no longer than the distance) by exchanging links one at a time. Vertices are the points that occur in a triangle."},
  {"property": "C179", "status": "proved", "theorems": ["C179_exact", "C179_b64"], "note": "From C20/C82 (exact), C88/C89 (grids), C161 (clear inputs). Centres and radii are the exact ones of the returned triangles. A hull point is a weighted mean of three vertices."},
  {"property": "C180", "status": "proved", "theorems": ["C180_length", "C180_points", "C180_chord", "C180_length_b64"], "note": "Exact arithmetic; C180_length_b64: in float64 the broken line is longer than the control polygon by at most the rounding of its points. The point of the curve is P0 plus the sum of s_j(u) times the legs of the polygon, with s_j between 0 and 1 and non-decreasing in u (C134)."},
  {"property": "C181", "status": "proved", "theorems": ["C181_stable", "C181_ball", "C181_diameter", "C181_near", "C181_ball_b64", "C181_diameter_b64", "C181_stable_b64"], "note": "Exact arithmetic, and float64 (ball, diameter and stability) with the rounding bound of C106. A control point acts at u when u is between knots k and k+p+1."}
]}
