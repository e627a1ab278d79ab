# Formal model of geGoMetry in Rocq (Coq 8.16.1)

## 1. Approach

The Go code is transcribed function by function into total Gallina functions
(`rocq/theories/M_*.v`), each definition citing file and lines. Proofs live in
other files; the theorems that correspond to the properties live in
`Props_*.v`, which contain only statements closed by `exact`, non-vacuity
examples and `Print Assumptions`. Independent specifications (real vectors,
circumsphere, convex combination, Cox-de Boor, ...) are in `Spec_*.v` and do
not mention the model.

### Floating point

All numerical code is written once, against a record `Arith` (carrier,
`+ - * /`, `sqrt`, `abs`, the three comparisons, conversions, constants).
Instances:

* `XR` - exact arithmetic: real numbers extended by +Inf, -Inf and NaN with the
  IEEE rules for the special values, no rounding, no signed zero.  Theorems
  marked "exact arithmetic" are about this instance.  This is the idealisation
  of the geometric claims: rounding is not modelled there.
* `B64` - IEEE-754 binary64, round to nearest even, from Flocq's
  `BinarySingleNaN` (so NaN payloads are identified).  Counterexamples
  (`..._refuted`) are computed in this instance, i.e. with the rounding of the
  real program (amd64, where the Go compiler does not fuse multiply-add).
* any `Arith` - theorems quantified over every `Arith` hold whatever the
  floating-point unit does, NaN included.

### Control

* A Go panic (index out of range, nil dereference, explicit panic) is the
  value `Panic` of the result monad `res`; a loop or recursion without a
  structural bound runs on fuel and yields `Diverge` when the fuel runs out.
  Positive theorems exclude both.
* Slices are lists; an access is checked.  Where slices are updated in place
  while being read (hull filter, duplicateInReverse, basis functions) the
  model keeps the in-place update.
* Pointers into `nodes` are indices into the node array, nil is `None`.
* Map iteration order is a permutation argument over which theorems quantify.
* `sort.Sort`/`sort.Slice` are oracles constrained to return a permutation,
  which is sorted when the comparison is a strict weak order.
* `int` is unbounded `Z`; `uint32` conversion is `mod 2^32`.
* `fmt.Println` output is modelled only for Parse (`M_output.v`).  The
  `qmuntal/gltf` library is modelled only as far as `M_document.v` says; the file
  system and `bufio` (except the 4096-byte line prefix rule) are not modelled.

## 2. Plan per property

| id | model | proof |
|----|-------|-------|
| C01-C08 | r3 package over `Arith` | algebra over `XR`; C02, C06 expected false: refutations in `B64`/`XR`; C08 for every `Arith` |
| C09-C11 | predicates package | polynomial identities (`ring`/`nsatz`), sign analysis |
| C12 | inSphere with rounded operations (unbounded exponent) | forward error analysis with Flocq |
| C13-C15 | triangulate2/util.go, hashKey | polynomial identities, order reasoning |
| C16-C25 | full state-machine model of triangulator (triangles, halfedges, hull nodes, hash) | representation invariant of the doubly linked hull, half-edge invariant, pencil-of-circles argument for the Delaunay property, sweep argument for hull convexity |
| C26, C27 | same model in `B64` | counterexamples by `vm_compute` |
| C28-C30 | ConvexHull with in-place filter | monotone chain invariant; refutations |
| C31, C32 | Validate, polygonArea, polygonPerimeter | list induction |
| C33-C36 | meshing: hash strings, tetra map, bowyerWatson | injectivity of decimal printing; invariant over insertions and all map orders; orientation counterexample |
| C37-C43 | meshing helpers | folds, algebra |
| C44-C47 | triangulate3 | folds, algebra, universal refutation of C45 |
| C48-C52 | nurbs | binary-search invariant, divergence proof, loop invariant tying `basisFuns` to Cox-de Boor |
| C53-C59 | shape generators with abstract cos/sin (instantiated by the real ones) | list indexing lemmas, trigonometric identity |
| C60, C61 | transferModel; float64 to float32 by Flocq rounding | map lemmas, Flocq rounding theorems |
| C62-C67, C74 | step lexer over byte strings with UTF-8 decoding | induction on bracket depth; panics as values |
| C68-C71 | parser work list, all iteration orders | measure on unvisited keys; invariants |
| C72, C73 | string utilities | induction |
| C75 | ConvexHull on stacked points | refutation in `B64`; the positive part is C28 |
| C76-C79 | bowyerWatson | orientation counterexample; map-order induction; cavity boundary by face counting |
| C80, C81, C85 | nurbs | recursion on the degree; loop bounds; derivative row against Cox-de Boor |
| C82-C84 | triangulator result | area and side-of-line argument for the tiling; uniqueness of the convex hull; Validate computed on the result |
| C86-C91 | triangulator in binary64 | on a grid of 8-bit multiples of 2^e the predicates are exact; error bounds for radius, center and distances plus an integer gap show that the rounded seed search and order still satisfy the conditions of the exact proof; counterexample off the grid |
| C92-C96 | ConvexHull, polygonArea, Validate in binary64 | simulation of the exact chain by the rounded one on grids; error bounds of areas and perimeters against the tolerance 1e-9; counterexample with larger coordinates |
| C97-C104 | float64 laws of r3, triangulator seeds, mesh helpers | order laws shared by reals and binary64; case analysis of Flocq operations for symmetry, sign and NaN; relative-error calculus `nr`/`ap` for accuracy; concrete overflow and underflow counterexamples |
| C105-C107 | nurbs in float64 | relative/absolute error calculus `na`/`af` through the Cox-de Boor recursion; NaN propagation; divergence of the binary search at infinity |
| C108-C109 | bowyerWatson against a set-level specification (`Spec_bw.v`) | invariant of the map; faces seen exactly once = boundary of the cavity; in-sphere sign identity |
| C110-C112 | predicates and bowyerWatson in float64 on grids of space (`Spec_grid3.v`) | no rounding on grids; simulation of the float64 run by the real run; witness 3*0.7 |
| C113-C114 | index validity of Triangulate and panic-freedom of Validate, any arithmetic | invariant on ranges of triangles, half-edges and node pointers |
| C115-C118 | interpolation, centroids and nearest points in float64 | error bounds; monotone rounding and x+x+x+x = 4x exactly; total order on non-NaN floats; gap between rounded square roots of integers |
| C119-C120 | point-in-tetrahedron test and seed tetrahedron in float64 on grids | simulation of the exact run, as in C110-C112 |
| C121-C122 | IntersectPlane in float64 | error of a rounded dot product, accuracy of Normalize, residual of the plane equation |
| C123-C126 | completeness of the triangulation: greedy routing, required edges and triangles, order independence, optimal interpolation (`Spec_delaunay2.v`) | difference of two squared distances is affine; closed cover of the hull; barycentric weights |
| C127-C134 | nurbs curves against de Boor's algorithm (`Spec_spline.v`) | induction on the degree for the sum, Marsden's identity and the derivative; gluing of neighbouring pieces at a knot; mean value theorem |
| C135 | ends of clamped curves in binary64 | value-level reasoning: all but one basis value are zeros, the remaining one is an iterated x -> fl(g*fl(x/g)), monotone and at most one |
| C136-C137 | optimality among all triangulations of the vertices: smallest angle, enclosing circles (`Spec_delaunay3.v`) | inscribed angles; the other triangle found by a nudge a+e(b-a)+e^2(c-a) into a corner and pigeonhole; C126 at the centre of the smallest enclosing circle |
| C138 | triangulator in binary64 on larger integer coordinates | counterexamples by `vm_compute` |
| C139-C140 | which points ConvexHull returns and what the result depends on (`Spec_hull.v`) | a point off both chains lies strictly between a lower and an upper chord, so no line through it supports the set; uniqueness of the walk along supporting edges |
| C141-C144 | orientation, boundary and normals of the sphere and torus meshes (`Spec_shape2.v`) | triangles located by (row, column, kind); explicit partner across each edge; outward normal as a product of sines |
| C145-C147 | knot insertion, variation diminution, convexity of curves (`Spec_knotins.v`) | a round of de Boor's algorithm commutes with Boehm's insertion; inserting a parameter p times turns the curve point into a control point |
| C148-C151 | the meshes of package shape in binary64 (`Spec_shape64.v`: `trig_acc`, `sin_rel` are hypotheses of the theorems, met by correctly rounded functions) | absolute error calculus; no binary64 number is within 2^-53 of 2 pi (Machin-like series, `P_pi64.v`) |
| C152-C154 | lexer on arbitrary bytes and parser on arbitrary tables (`Spec_lexany.v`: `pieces`, `layout`, `cut`, `defines`, `safe_table`) | readLine refines `pieces`; the split loop refines `cut`; crash of the work list iff a first state or its first successor crashes |
| C155 | walking point location (`Spec_walk.v`: `beyond`, `towards`, `walk`) | the power of the query point is affine across an edge and does not increase; on one circle the arcs cut off are nested |
| C156 | edge count and a vertex of degree at most five (`joined` of `Spec_delaunay2.v`) | no directed edge occurs twice (two triangles on one side of an edge overlap); double counting of half-edges |
| C157 | rounding bounds of the determinants (`Spec_acc64.v`: `gamma`, `*_terms`) | a judgement `acc x e p k m M`: value within k roundings of e relative to p, multiple of 2^-m, at most 2^M; closed under the operations |
| C158 | hull away from degeneracies (`Spec_clear.v`) | every test agrees with the exact one, so the run simulates the exact run (`hull_sim`) |
| C159 | accumulated errors of areas and perimeter (`Spec_sum64.v`) | induction over the loop with `acc`, one more rounding per term |
| C160 | accuracy of circumcenter and circumradius in float64 (`Spec_circ64.v`) | `acc` for numerators and determinant, quotient bound through the condition number, degenerate triangles by exact cancellation |
| C161 | Triangulate in float64 on inputs clear of rounding errors (`Spec_cleartri.v`) | signs from C157, radii and center from C160, insertion order from relative errors of distances; then the exact proof of P_triang |
| C162 | the float64 triangulation is the exact one (`Spec_delaunay2.v`) | clear inputs have no four cocircular points; uniqueness of C125 on both sides |
| C163 | Validate accepts the float64 result on clear inputs (`Spec_sum64.v`, `Spec_cleartri.v`) | both hulls are the same cycle of points; the error bounds of C159 added up against the tolerance |
| C164 | edges, angles, circles, walks and counts of the float64 result on clear inputs (`Spec_delaunay2.v`, `Spec_delaunay3.v`, `Spec_walk.v`) | the lemmas behind C123-C126, C136-C137, C155-C156 from the facts of C161 |
| C165 | tetrahedron test in float64 clear of the faces (`Spec_clear3.v`, `Spec_mesh.v`) | error bound for Dot of Cross, then C40 |
| C166 | the initial tetrahedron contains every point up to 2^-50 of the largest coordinate (`Spec_clear3.v`) | exact extrema, three roundings per far corner |
| C167 | bowyerWatson in float64 on points clear of the spheres (`Spec_clear3.v`, `Spec_bw.v`) | C109 in any arithmetic, sign of InSphereFast by C157 |
| C168 | createInitialTetra in float64 is optimal up to rounding (`Spec_init3.v`) | fold invariant over finite floats, accuracy of Get2Ddist and Get3Ddist (C157) |
| C169 | STEP B-spline surfaces read field by field, their report (`Spec_surface.v`) | inversion of getMatrix/getArray on printed arguments, Parse in every map order, unique reading of the report |
| C170 | distance between the sphere/torus meshes and their surfaces (`Spec_tess.v`) | law of cosines on grid cells, convexity of the distance over a triangle |
| C171 | Triangulate on a moved and scaled input (`Spec_similar.v`, `Spec_scale64.v`) | simulation of two runs whose predicates agree (`P_same.v`), instantiated for exact similarities and for powers of two in float64 |
| C172 | ConvexHull and bowyerWatson on moved and scaled inputs (`Spec_similar.v`, `Spec_scale64.v`) | simulations of two runs (`P_same3.v`), instantiated for exact similarities and for powers of two in float64 |
| C173 | everything Parse prints (`M_output.v`, `Spec_output.v`) | the printing run simulates the silent one; only Parse itself puts a face on the work list |
| C174 | smoothness, polynomial pieces and tangents of B-spline curves (`Spec_smooth.v`) | iterating C130 and C131 on the hodograph; de Boor pieces as polynomials; one-sided limits at knots of full multiplicity |
| C175 | Export with the document it builds (`M_document.v`), what a valid glTF document is (`Spec_document.v`) | the document computed; C54, C57 and C148 plus the float32 rounding error |
| C176 | the loops with a counter of the tests they make (`M_cost.v`), proved equal to the uncounted ones | each flip brings a triangle into the star of the inserted point, so an insertion makes at most two tests for every triangle there was; the stacks of the hull are amortised; the search interval halves |
| C177 | the lexer's channel as the list of waiting symbols, an emitter and a receiver in any interleaving (`M_chan.v`) | an invariant of the steps; the resting states computed |
| C178 | networks of links and their costs (`Spec_mst.v`) | replacing a link outside the triangulation by an edge of C124's path that crosses between the two parts; a minimum over finitely many sublists |
| C179 | Voronoi corners and neighbours, empty circles, hull points (`Spec_voronoi.v`) | the difference of two squared distances is affine; the mean of the squared distances to the corners of a triangle is the squared radius minus the squared distance to the centre |
| C180 | length of a broken line (`Spec_polylength.v`) | the curve as a combination of the legs of the control polygon with coefficients that grow from 0 to 1 (C134), and the triangle inequality |
| C181 | which control points act at a parameter (`Spec_curvedist.v`) | one set of weights for all control points (C51), the norm of a weighted mean, C106 for float64 |

If a property is false of the code, the theorem `..._refuted` proves its
negation by a witness, and what does hold is proved beside it.

## 3. Trusted base

A reader who accepts the theorems relies on:

1. **Coq 8.16.1's kernel**, including the bytecode reduction machine behind
   `vm_compute`, which is used for the concrete `B64` counterexamples and
   non-vacuity examples.  `native_compute` is not used.
2. **The axioms listed in section 3.1**, all from the Coq standard library.
   There are none of our own.
3. **Flocq**, for the definition of binary64.  It adds no axiom beyond those in
   the table.  `B64` is `BinarySingleNaN.binary_float 53 1024` with
   round-to-nearest-even, so all NaNs are identified and the sign of zero is kept.
4. **The transcription** from Go to Gallina (section 4).  It was done by hand.
   Nothing checks it except reading, and the seeded-bug log which shows that
   the theorems notice when a definition changes.
5. **The statements**: `Props_*.v`, the definitions they mention in `M_*.v` and
   the specifications in `Spec_*.v`.

Nothing in `P_*.v` needs to be trusted: those files only contain proofs.

### 3.1 What `Print Assumptions` lists

| letter | axiom |
|--------|-------|
| D | `ClassicalDedekindReals.sig_forall_dec` (real numbers) |
| N | `ClassicalDedekindReals.sig_not_dec` (real numbers) |
| F | `FunctionalExtensionality.functional_extensionality_dep` |
| C | `Classical_Prop.classic` (excluded middle, through Flocq or the real number library) |

Every theorem named in `MANIFEST.json` appears below.  "none" means "Closed
under the global context".

| file | axioms | theorems |
|------|--------|----------|
| `Props_r3.v` | D, F, N | C01_normalize_unit, C03_intersect_plane, C04_distance_metric, C05_cross_laws, C05_triangle_normal, C05_right_handed, C06_distance_to_plane_refuted, C06_plane_through_origin, C06_zero_set, C06_when_correct, C06_newPlane, C06_det2D, C07_interpolate, C08_isunit |
| `Props_r3.v` | C, D, F, N | C02_normalize_method_refuted |
| `Props_r3.v` | none | C02_normalize_method_nonzero_partial, C04_norm_is_magnitude, C08_methods_agree |
| `Props_predicates.v` | D, F, N | C09_orient3d, C10_insphere, C10_insphere_determinant, C11_exact |
| `Props_predicates.v` | D, F | C10_circumsphere_exists |
| `Props_predicates.v` | none | C11_fast_or_zero |
| `Props_predicates.v` | C, D, F, N | C12_filter_sign, C12_filter_geometric |
| `Props_tri2.v` | D, F, N | C13_area, C13_inCircle, C14_circumcircle, C15_hashKey_valid, C15_pseudoAngle_monotone, C28_convex_hull, C29_dropped_points_refuted, C29_hull_linked_partial, C30_collinear_refuted, C32_polygonArea, C32_polygonArea_fan, C32_polygonPerimeter, C75_hull_stacked_refuted |
| `Props_tri2.v` | none | C30_single_point_refuted, C31_validate_sound |
| `Props_triangulator.v` | D, F, N | C16_returns, C17_error_iff_collinear, C18_paired, C19_well_formed, C20_delaunay, C21_hull, C22_no_point_lost, C22_every_point, C23_counts, C24_areas |
| `Props_legalize.v` | F | C25_flip_terminates |
| `Props_legalize.v` | C, D, F, N | C25_binary64, C26_panic_refuted, C26_inconsistent_refuted, C26_unused_refuted |
| `Props_legalize.v` | D, F, N | C25_exact |
| `Props_legalize.v` | none | C27_one_point_refuted, C27_empty |
| `Props_validate.v` | D, F, N | C31_validate_exact, C83_hulls_agree, C84_validate_accepts, C84_collinear_rejected |
| `Props_meshing.v` | none | C33_face_hash, C34_tetra_hash, C34_addTetra, C35_indices_valid, C36_faces_of_connect, C42_flip14, C42_second_flip_refuted, C43_duplicateInReverse, C43_two_sided, C78_cavity_boundary, C79_order_independent |
| `Props_meshing.v` | D, F, N | C36_orientation_refuted, C37_bounding_box, C38_initial_tetrahedron, C39_nearest, C39_nearest_none, C39_nearest_to_centroid, C40_point_in_tetrahedron, C40_complete, C40_flat_refuted, C40_flat_witness, C41_centroid |
| `Props_meshing.v` | C, D, F, N | C37_bounding_box_b64, C76_mesh_nonempty_refuted |
| `Props_tri3.v` | D, F, N | C40_point_in_tetrahedron_tri3, C40_flat_tri3_refuted, C41_centroid_tri3, C44_bounding_box, C45_englobing_refuted, C45_englobing_test_refuted, C46_initial_tetra_partial, C47_area, C47_volume, C47_distances |
| `Props_tri3.v` | C, D, F, N | C44_bounding_box_b64, C46_initial_tetra_refuted |
| `Props_nurbs.v` | D, F, N | C48_findSpan, C49_findSpan_diverges_refuted, C49_curvePoint_diverges_refuted, C50_basis, C50_basis_closed, C51_curve_point, C80_clamped_ends, C81_ders_returns, C85_first_derivative_refuted, C85_scaling_partial |
| `Props_nurbs.v` | C, D, F, N | C48_findSpan_b64, C49_findSpan_diverges_b64_refuted, C51_degenerate_end_refuted, C52_ders_row0_refuted |
| `Props_shape.v` | none | C53_sphere_center_ignored, C54_sphere_indices_partial, C54_torus_indices_partial, C54_ConstructSphere, C54_ConstructTorus, C54_zero_sectors_refuted, C55_torus_center_ignored, C57_fan_indices_refuted, C58_texcoords_refuted |
| `Props_shape.v` | D, F, N | C53_sphere_partial, C55_torus_partial, C56_circle, C56_ellipse, C58_not_proportional_refuted, C59_sphere_open_refuted, C59_torus_open_refuted |
| `Props_shape.v` | C, D, F, N | C53_sphere_refuted, C55_torus_refuted |
| `Props_shape2.v` | D, F, N | C142_sphere_boundary, C142_torus_boundary, C143_sphere_outward, C143_torus_outward, C144_torus_normals_refuted, C144_torus_normals |
| `Props_shape2.v` | none | C141_oriented |
| `Props_gltf.v` | C, D, F, N | C60_export_structure, C61_float32_partial, C61_float32_overflow_refuted |
| `Props_step.v` | none | C62_getArguments_inverts_join, C62_short_panics, C63_getArguments_utf8_partial, C63_getArguments_blank_refuted, C63_getArguments_quote_refuted, C64_getArray_inverts_print, C64_getMatrix_inverts_print, C65_lex_recovers_entities, C66_lex_header_refuted, C67_key_is_reference_partial, C67_key_is_reference_refuted, C68_parse_terminates_once, C69_parse_no_panic, C69_lex_parse_no_panic, C70_parse_order_refuted, C70_parse_order_partial, C71_bridge_refuted, C71_bridge_partial, C72_strip_exact, C72_strip_identity, C72_white_space, C73_getLogical, C74_line_length_partial, C74_line_short, C74_line_length_refuted |
| `Props_utf8.v` | none | C72_bytes, C72_pieces_unique |
| `Props_tiling.v` | D, F, N | C82_disjoint, C82_cover, C82_within |
| `Props_grid.v` | C, D, F, N | C86_returns, C87_well_formed, C88_delaunay, C89_hull, C89_no_point_lost, C89_tiles, C90_hashKey_b64, C90_hypotheses_needed, C91_returns_refuted |
| `Props_grid2.v` | C, D, F, N | C92_hull64, C93_hulls_agree64, C94_validate_accepts64, C95_validate_rejects_refuted, C95_rejected_is_correct, C96_polygonArea64 |
| `Props_float.v` | C, D, F, N | C97_bounds64, C97_seed0, C97_seed1, C97_seed2, C98_Dot_comm, C98_Add_comm, C98_Distance_sym, C98_Sub_Cross_anti, C99_Norm_nan, C99_Distance_nan, C99_nonneg, C99_Distance_self, C100_Norm, C100_Distance, C101_separates_refuted, C101_overflow_refuted, C101_separates_mid, C102_normalize_refuted, C102_normalize_zero_refuted, C102_normalize_mid, C103_IsUnit_sound, C103_IsUnit_complete, C104_Less_order, C104_Less_spec, C104_Less_nan_refuted |
| `Props_float.v` | D, F, N | C97_bounds |
| `Props_float.v` | none | C104_edge_isEqual, C104_Swap, C104_Swap_Less_panic, C104_boundingBox |
| `Props_nurbs64.v` | C, D, F, N | C105_basis, C105_basis_closed, C106_curve_point, C106_exact, C107_findSpan_nan, C107_basis_nan, C107_curve_nan, C107_infinite_refuted |
| `Props_bw.v` | none | C108_insert, C108_bad, C109_run, C109_small |
| `Props_bw.v` | D, F, N | C109_test |
| `Props_grid3.v` | C, D, F, N | C110_insphere, C110_orient, C110_underflow, C111_exact, C111_run, C112_refuted, C112_grid |
| `Props_index.v` | none | C113_indices, C113_count, C114_total, C114_Triangulate_Validate, C114_area, C114_panics |
| `Props_float2.v` | C, D, F, N | C115_interpolate, C115_ends, C115_same, C116_between_refuted, C116_monotone_refuted, C116_between_partial, C117_centroid, C117_box, C118_nearest, C118_accuracy, C118_grid, C119_test, C119_flat, C119_rejects_inside, C119_accepts_outside, C120_get2, C120_get3, C120_createInitialTetra |
| `Props_plane64.v` | C, D, F, N | C121_parallel_refuted, C121_meeting_refuted, C121_panic_partial, C121_returns, C122_intersect |
| `Props_delcomp.v` | C, D, F, N | C123_greedy, C123_route, C123_grid64, C124_edge, C124_gabriel, C124_nearest, C124_bottleneck, C124_grid64, C125_triangle, C125_triangles, C125_order, C125_grid64, C125_order64, C126_cover, C126_grid64 |
| `Props_delcomp.v` | D, F, N | C126_optimal |
| `Props_spline.v` | D, F, N | C127_deboor, C128_marsden, C128_powers, C128_linear_precision, C129_bezier, C130_derivative, C132_reversal, C133_affine, C133_local_control, C133_unique |
| `Props_spline.v` | C, D, F, N | C131_lipschitz, C131_continuous, C134_monotone |
| `Props_clamp64.v` | C, D, F, N | C135_ends_refuted, C135_start, C135_end, C135_lengths, C135_scaled |
| `Props_delangle.v` | C, D, F, N | C136_is_triangulation, C136_max_min_angle, C136_each_angle, C136_grid64, C137_grid64 |
| `Props_delangle.v` | D, F, N | C137_smallest_circles |
| `Props_offgrid.v` | C, D, F, N | C138_lost_refuted, C138_delaunay_refuted |
| `Props_hullset.v` | D, F, N | C139_hull_members, C139_hull_once, C140_hull_stable, C140_hull_idempotent |
| `Props_hullset.v` | C, D, F, N | C139_hull_members64, C140_hull_stable64 |
| `Props_knotins.v` | D, F, N | C145_knot_insertion, C146_variation, C147_convex |
| `Props_shape64.v` | C, D, F, N | C148_sphere64, C148_torus64, C149_circle64, C149_ellipse64, C150_normals64, C151_sphere_seam_refuted, C151_torus_seam_refuted |
| `Props_lexany.v` | none | C152_layout, C152_denotes, C152_crash, C152_table, C152_terminates, C153_footer_refuted, C153_footer_partial, C154_parse_exact, C154_witness |
| `Props_walk.v` | D, F, N | C155_power, C155_walk, C155_stop, C155_locate |
| `Props_walk.v` | C, D, F, N | C155_grid64 |
| `Props_edgecount.v` | D, F, N | C156_edges, C156_degree |
| `Props_edgecount.v` | C, D, F, N | C156_grid64 |
| `Props_acc64.v` | D, F | C157_gamma |
| `Props_acc64.v` | C, D, F, N | C157_orient2d, C157_inCircle, C157_orient3d, C157_inSphere, C157_products |
| `Props_clearhull.v` | C, D, F, N | C158_hull_exact, C158_hull_convex |
| `Props_sum64.v` | C, D, F, N | C159_polygonArea, C159_triArea, C159_perimeter, C159_distance |
| `Props_circ64.v` | C, D, F, N | C160_circumcenter, C160_circumradius, C160_degenerate |
| `Props_circ64.v` | D, F | C160_sides, C160_cond |
| `Props_cleartri.v` | C, D, F, N | C161_returns, C161_well_formed, C161_delaunay, C161_hull, C161_no_point_lost, C161_tiles, C161_certified, C162_unique, C162_exact |
| `Props_clearval.v` | C, D, F, N | C163_hulls_agree, C163_validate_accepts, C163_validate_counts, C163_validate_box |
| `Props_clearopt.v` | C, D, F, N | C164_route, C164_edges, C164_interpolation, C164_angles, C164_circles, C164_walk, C164_counts |
| `Props_clear3.v` | C, D, F, N | C165_test, C165_determinant, C166_almost_contains, C167_run |
| `Props_clear3.v` | D, F | C165_strict |
| `Props_init3.v` | C, D, F, N | C168_choice, C168_clear |
| `Props_job.v` | none | C169_fields, C169_well_formed, C169_handler, C169_reported, C169_report_unique, C169_report |
| `Props_tess.v` | C, D, F, N | C170_sphere_inside, C170_sphere_covered, C170_torus_close, C170_default_sphere |
| `Props_similar.v` | D, F, N | C171_similar, C171_translate, C171_enlarge |
| `Props_similar.v` | C, D, F, N | C171_scale64 |
| `Props_scale3.v` | D, F, N | C172_hull, C172_mesh, C172_sort_exact |
| `Props_scale3.v` | C, D, F, N | C172_hull64, C172_mesh64, C172_sort64 |
| `Props_output.v` | none | C173_output, C173_panic, C173_face, C173_unlinked, C173_points, C173_surface |
| `Props_smooth.v` | D, F, N | C174_higher, C174_polynomial, C174_start, C174_end, C174_corner |
| `Props_smooth.v` | C, D, F, N | C174_smooth |
| `Props_document.v` | C, D, F, N | C175_shows, C175_valid, C175_sphere, C175_torus, C175_fan_refuted, C175_large_refuted |
| `Props_cost.v` | none | C176_same, C176_hull, C176_pop |
| `Props_cost.v` | D, F, N | C176_triangulate, C176_findSpan |
| `Props_cost.v` | C, D, F, N | C176_triangulate_b64, C176_findSpan_b64 |
| `Props_cost.v` | F | C176_legalize |
| `Props_chan.v` | none | C177_emit, C177_order, C177_rest, C177_alone |
| `Props_mst.v` | C, D, F, N | C178_exact, C178_b64, C178_length |
| `Props_voronoi.v` | C, D, F, N | C179_exact, C179_b64 |
| `Props_polylength.v` | C, D, F, N | C180_length, C180_chord |
| `Props_polylength.v` | D, F, N | C180_points |
| `Props_curvedist.v` | C, D, F, N | C180_length_b64, C181_ball_b64, C181_diameter_b64, C181_stable_b64 |
| `Props_curvedist.v` | D, F, N | C181_stable, C181_ball, C181_diameter, C181_near |

## 4. What is modelled

Every definition in `M_*.v` cites its Go source.  Numbers are line numbers of
/repo at the pinned commit.

| package | modelled | model |
|---------|----------|-------|
| r3 | every function of vector.go, line.go; newPlane, plane helpers of plane.go | `M_r3.v` |
| predicates | orient3d.go, insphere.go, util.go | `M_predicates.v` |
| triangulate2 | node.go, util.go, hull.go, triangulation.go, triangulator.go: every function, with the linked list, the hash and the in-place slices | `M_tri2.v`, `M_triangulator.v` |
| triangulate3 | util.go, gdel3d.go, englober.go | `M_tri3.v` |
| meshing | mesh.go, helper.go, util.go, flip14 of flip.go | `M_meshing.v` |
| nurbs | basis.go, curve.go | `M_nurbs.v` |
| shape | sphere.go, torus.go, circle.go, ellipse.go, shape.go | `M_shape.v` |
| gltf export | model.go and export.go, with the float64 to float32 rounding; the document Export builds, with NewDocument and modeler.WriteXxx as documented | `M_gltf.v`, `M_document.v` |
| test counters | triangulate, legalize and ConvexHull again, returning also how many in-circle tests or cross products they evaluate (C176_same: the counter changes nothing); other costs (sorting, hull searches, memory) are not counted | `M_cost.v` |
| step | lex.go, util.go, parse.go, template.go and the bridge between them; job.go with its printed report; what Parse prints | `M_step.v`, `M_job.v`, `M_output.v` |
| step, channel | Symbol, initLexer, emit of lex.go, with sends and receives as atomic steps | `M_chan.v` |

### 4.1 What is not modelled

* `main` of r3/plane.go (23-28), the type-only r3/normal.go, main.go and the
  empty modeler/modeler.go.
* shape/icosphere.go: its whole body is commented out.
* Empty functions of meshing: `addPoint`, `flip41`, `flip32`, `flip23`.
* triangulate3/tessellator.go `tessellate`, which calls the modelled
  `createInitialTetra` and prints.
* step: `marshallToJSON`, `check`, opening of files and flag
  parsing; the lexer is modelled as a function
  on byte strings, with `bufio` reduced to its 4096-byte line prefix rule.
* The glTF library (`qmuntal/gltf`): NewDocument and modeler.WritePosition / WriteIndices / WriteColor are
  assumed to behave as documented (a document with one empty scene; each call appends one accessor and returns
  its index).  SaveBinary and the file are not modelled.
* `go3d`'s `vec3` operations are taken to be componentwise.
* Everything printed with `fmt` outside package step (`M_job.v`, `M_output.v`).

### 4.2 Simplifications inside the model

* `int` is unbounded; the 64-bit overflow of indices is out of scope because it
  needs slices of more than 2^62 elements.
* Sorting is an oracle (section 1); the theorems hold for every sort that
  returns a sorted permutation, stable or not.
* `math.Cos` and `math.Sin` are parameters of the shape model.  The exact
  theorems instantiate them with the real functions; theorems over every
  `Arith` hold for any pair of functions; the binary64 theorems C148-C151 carry
  the accuracy of the two functions as an explicit hypothesis.
* The conversion of a B64 number by `Floor` in `hashKey` follows Go's rules for
  finite arguments; a conversion of NaN or an out-of-range value to int is
  implementation-defined in Go and is a fixed value in the model.  `C91` relies
  on the amd64 behaviour, where int(NaN) is the most negative integer, so that
  `hashKey` is negative and the access to the hash panics.
* Fused multiply-add is excluded (true on amd64, not on arm64).

## 5. Seeded bugs

`seeded/LOG.jsonl` holds one line per deliberate error put into a model
definition in a scratch copy.  `theorems_failed` are the theorems in the
manifest that no longer prove.  When nothing failed (`survived`), the line
either names the theorems that were added or strengthened
(`theorems_tightened`), or says why the edit is not observable.
