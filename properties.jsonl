{"id": "C01", "title": "Normalize yields the unit vector of the same direction", "statement": "r3.Normalize(v) has norm exactly 1 and is a positive multiple of v for every non-zero v, and is the zero vector for v = 0 (exact arithmetic).", "quantifier": "every vector v", "why_tests_cant": "a unit test samples a handful of vectors; the claim ranges over all of R^3 (uncountably many)", "anchors": ["r3/vector.go:Normalize", "r3/vector.go:Norm2", "r3/vector.go:Scaled"]}
{"id": "C02", "title": "In-place Normalize agrees with Normalize", "statement": "v.Normalize() leaves in v exactly what r3.Normalize(v) returns, including for the zero vector and under IEEE-754 arithmetic.", "quantifier": "every vector v, every arithmetic", "why_tests_cant": "the failing inputs (zero, overflowing, underflowing vectors) are measure-zero corner cases of IEEE arithmetic", "anchors": ["r3/vector.go:(*Vector).Normalize", "r3/vector.go:Normalize"]}
{"id": "C03", "title": "Line/plane intersection is the intersection", "statement": "line.IntersectPlane(plane) panics exactly when the direction is orthogonal to the plane normal (or null); otherwise the result lies on the line and on the plane, and is the only such point.", "quantifier": "every line and every plane (exact arithmetic)", "why_tests_cant": "a unit test samples a handful of vectors; the claim ranges over all of R^3 (uncountably many)", "anchors": ["r3/line.go:IntersectPlane"]}
{"id": "C04", "title": "Distance is a metric", "statement": "r3.Distance is non-negative, symmetric, zero exactly on equal vectors, satisfies the triangle inequality, and SquaredDistance is its square; Norm and Magnitude coincide.", "quantifier": "all triples of vectors (exact arithmetic)", "why_tests_cant": "a unit test samples a handful of vectors; the claim ranges over all of R^3 (uncountably many)", "anchors": ["r3/vector.go:Distance", "r3/vector.go:SquaredDistance", "r3/vector.go:Norm", "r3/vector.go:Magnitude"]}
{"id": "C05", "title": "Cross and Dot obey the vector-algebra laws", "statement": "Cross(v,w) is orthogonal to v and w, antisymmetric, and |Cross|^2 = |v|^2|w|^2 - Dot^2, so it vanishes exactly on parallel vectors; the normal computed for a triangle is orthogonal to all its edges.", "quantifier": "all vectors (exact arithmetic)", "why_tests_cant": "a unit test samples a handful of vectors; the claim ranges over all of R^3 (uncountably many)", "anchors": ["r3/vector.go:Cross", "r3/vector.go:Dot", "r3/plane.go:calculateNormal"]}
{"id": "C06", "title": "Distance to plane measures distance to the plane", "statement": "v.CalculateDistanceToPlane(p) is zero for every v on the plane p and is the signed distance to p for unit normals.", "quantifier": "every vector and plane", "why_tests_cant": "holds for no sample by luck of the chosen sample; refutation must be a proved witness", "anchors": ["r3/vector.go:CalculateDistanceToPlane", "r3/plane.go:newPlane"]}
{"id": "C07", "title": "Interpolation hits its end points and stays on the segment", "statement": "Interpolate(a,b,0)=a, Interpolate(a,b,1)=b, for 0<=t<=1 the result splits the segment with |a-x| = t|a-b|; GetInterpolationVector(v,b,d) is Interpolate with the roles swapped.", "quantifier": "all vectors and parameters (exact arithmetic)", "why_tests_cant": "a unit test samples a handful of vectors; the claim ranges over all of R^3 (uncountably many)", "anchors": ["r3/vector.go:Interpolate", "r3/vector.go:GetInterpolationVector"]}
{"id": "C08", "title": "Mutating vector methods agree with the pure functions", "statement": "Add/Sub/Scale/Abs methods store in the receiver exactly what the pure functions Add/Sub/Scaled/Abs return, and leave the argument untouched, in every arithmetic (including NaN and infinities).", "quantifier": "every vector, every floating-point behaviour", "why_tests_cant": "2^384 float pairs", "anchors": ["r3/vector.go:(*Vector).Add", "r3/vector.go:(*Vector).Sub", "r3/vector.go:(*Vector).Scale", "r3/vector.go:(*Vector).Abs"]}
{"id": "C09", "title": "orient3d is the signed volume", "statement": "The orientation predicate is the 3x3 determinant of a-d,b-d,c-d: zero exactly for coplanar points, sign flips under every swap of two arguments, invariant under translation.", "quantifier": "all quadruples of points (exact arithmetic)", "why_tests_cant": "a unit test samples a handful of vectors; the claim ranges over all of R^3 (uncountably many)", "anchors": ["predicates/orient3d.go:orient3dfast"]}
{"id": "C10", "title": "InSphereFast decides circumsphere membership", "statement": "For a tetrahedron with negative orient3d, InSphereFast(a,b,c,d,e) is positive, zero, negative exactly when e is inside, on, outside the circumsphere; with positive orientation the sign is reversed.", "quantifier": "all quintuples of points (exact arithmetic)", "why_tests_cant": "a unit test samples a handful of vectors; the claim ranges over all of R^3 (uncountably many)", "anchors": ["predicates/insphere.go:InSphereFast"]}
{"id": "C11", "title": "inSphere only ever returns the fast determinant or zero", "statement": "The filtered predicate returns exactly InSphereFast's value when the filter accepts and a zero otherwise, in every floating-point arithmetic; with exact arithmetic and a zero error constant it equals InSphereFast.", "quantifier": "all quintuples, every floating-point behaviour", "why_tests_cant": "needs all float inputs, including NaN/Inf", "anchors": ["predicates/insphere.go:inSphere", "predicates/insphere.go:inSphereAdapt"]}
{"id": "C12", "title": "inSphere never returns the wrong sign", "statement": "Whenever the filtered predicate returns a non-zero value, its sign is the sign of the exact determinant, under rounded floating-point arithmetic (absence of overflow/underflow).", "quantifier": "all quintuples of floating-point points", "why_tests_cant": "rounding errors adversarially distributed over 2^960 inputs", "anchors": ["predicates/insphere.go:inSphere", "predicates/insphere.go:isperrboundA"]}
{"id": "C13", "title": "2D predicates mean what they say", "statement": "area(a,b,c) has constant sign per orientation and vanishes exactly on collinear triples; inCircle(a,b,c,p) is true exactly when p is strictly inside the circumcircle of a positively oriented triangle.", "quantifier": "all point quadruples (exact arithmetic)", "why_tests_cant": "a unit test samples a handful of vectors; the claim ranges over all of R^3 (uncountably many)", "anchors": ["triangulate2/util.go:area", "triangulate2/util.go:inCircle"]}
{"id": "C14", "title": "circumcenter/circumradius are correct", "statement": "For non-collinear a,b,c the circumcenter is equidistant from the three and circumradius is that squared distance; circumradius is infinite exactly for degenerate triples.", "quantifier": "all triples (exact arithmetic)", "why_tests_cant": "a unit test samples a handful of vectors; the claim ranges over all of R^3 (uncountably many)", "anchors": ["triangulate2/util.go:circumcenter", "triangulate2/util.go:circumradius"]}
{"id": "C15", "title": "Angular hash key is always a valid bucket", "statement": "For every point different from the centre the hash key is in [0, len(hash)), and pseudoAngle is monotone in the polar angle.", "quantifier": "every direction and every table size (exact arithmetic)", "why_tests_cant": "boundary cases sit at single angles", "anchors": ["triangulate2/util.go:pseudoAngle", "triangulate2/triangulator.go:hashKey"]}
{"id": "C16", "title": "Triangulate always returns on planar input", "statement": "For every list of points with a common Z and a length other than 1, Triangulate terminates without panicking (no index out of range, no nil dereference, no infinite loop). Exact arithmetic, fewer than 2^63 points.", "quantifier": "every planar point list of every length, duplicates and collinear runs included, every tie-breaking of the sort", "why_tests_cant": "unbounded n and all degenerate configurations", "anchors": ["triangulate2/triangulation.go:Triangulate", "triangulate2/triangulator.go:triangulate"]}
{"id": "C17", "title": "Triangulate fails exactly on collinear input", "statement": "On planar input of two or more points Triangulate reports an error if and only if all the points are collinear.", "quantifier": "every planar point list (exact arithmetic)", "why_tests_cant": "collinearity is a measure-zero condition", "anchors": ["triangulate2/triangulator.go:triangulate"]}
{"id": "C18", "title": "Half-edges are paired consistently", "statement": "In the returned triangulation Halfedges[Halfedges[e]] = e for every non-boundary e, the two twins join the same two points in opposite directions, and the paired triangles differ.", "quantifier": "every planar point list (exact arithmetic)", "why_tests_cant": "an invariant over every insertion/flip history", "anchors": ["triangulate2/triangulator.go:link", "triangulate2/triangulator.go:legalize", "triangulate2/triangulator.go:addTriangle"]}
{"id": "C19", "title": "Triangles are well formed and equally oriented", "statement": "len(Triangles)=len(Halfedges) is a multiple of 3, each entry indexes an input point, each triangle has positive area in the library's orientation.", "quantifier": "every planar point list (exact arithmetic)", "why_tests_cant": "an invariant over every insertion/flip history", "anchors": ["triangulate2/triangulator.go:addTriangle", "triangulate2/triangulator.go:legalize"]}
{"id": "C20", "title": "The triangulation is Delaunay", "statement": "No vertex of the triangulation lies strictly inside the circumcircle of any of its triangles.", "quantifier": "every planar point list (exact arithmetic)", "why_tests_cant": "global geometric property over all inputs", "anchors": ["triangulate2/triangulator.go:legalize", "triangulate2/triangulation.go:Triangulate"]}
{"id": "C21", "title": "The reported ConvexHull is the convex boundary", "statement": "Every vertex of the triangulation lies on the inner side of every edge of Triangulation.ConvexHull, whose vertices are exactly the end points of the boundary half-edges, in order.", "quantifier": "every planar point list (exact arithmetic)", "why_tests_cant": "all inputs, all hull-walk histories", "anchors": ["triangulate2/triangulator.go:convexHull", "triangulate2/node.go:newNode", "triangulate2/node.go:remove"]}
{"id": "C22", "title": "No point is lost", "statement": "Every input point is a vertex of the triangulation or lies within sqrt(2^-52) of one.", "quantifier": "every planar non-collinear point list (exact arithmetic)", "why_tests_cant": "silent dropping depends on near-coincidences", "anchors": ["triangulate2/triangulator.go:triangulate"]}
{"id": "C23", "title": "Euler count and buffer bound", "statement": "The number of triangles is 2m-2-h for m vertices and h hull vertices; it never exceeds the preallocated 2n-5.", "quantifier": "every planar point list (exact arithmetic)", "why_tests_cant": "all n", "anchors": ["triangulate2/triangulator.go:triangulate", "triangulate2/triangulator.go:addTriangle"]}
{"id": "C24", "title": "Triangle areas add up to the hull area", "statement": "The sum of the triangle areas equals the area of the ConvexHull polygon.", "quantifier": "every planar point list (exact arithmetic)", "why_tests_cant": "all n", "anchors": ["triangulate2/triangulation.go:area", "triangulate2/util.go:polygonArea"]}
{"id": "C25", "title": "Edge flipping always terminates", "statement": "Called on any consistently paired mesh with a well-formed hull ring, the recursive flip procedure returns without panicking and leaves the mesh consistently paired and the ring intact, in every floating-point arithmetic where x-x is zero or NaN and such values absorb products and are never negative (binary64 and exact arithmetic both qualify).", "quantifier": "every mesh state and every floating-point behaviour", "why_tests_cant": "termination over all inputs and roundings", "anchors": ["triangulate2/triangulator.go:legalize"]}
{"id": "C26", "title": "Triangulate works on points with different Z", "statement": "Triangulate of points that have a non-degenerate XY projection succeeds with consistent half-edges and uses all the points, whatever their Z.", "quantifier": "every list of 3D points", "why_tests_cant": "the failing Z patterns are specific", "anchors": ["triangulate2/triangulator.go:triangulate", "r3/vector.go:SquaredDistance"]}
{"id": "C27", "title": "Triangulate handles every input length", "statement": "Triangulate returns (possibly with an error) for lists of every length, including one point.", "quantifier": "every list", "why_tests_cant": "single-element list untested; proof settles all", "anchors": ["triangulate2/triangulator.go:triangulate"]}
{"id": "C28", "title": "ConvexHull encloses its input", "statement": "For input whose points are separated, every input point is on the inner side of every edge of the returned polygon, and every returned vertex is an input point.", "quantifier": "every point list without near-duplicates, every sort tie-breaking (exact arithmetic)", "why_tests_cant": "all inputs", "anchors": ["triangulate2/hull.go:ConvexHull"]}
{"id": "C29", "title": "ConvexHull ignores only near-duplicates", "statement": "Every input point is within sqrt(2^-52) of a point that was considered for the hull.", "quantifier": "every point list", "why_tests_cant": "needs long chains of close points", "anchors": ["triangulate2/hull.go:ConvexHull"]}
{"id": "C30", "title": "ConvexHull is a simple polygon on degenerate input", "statement": "A one-point list has a one-point hull and collinear lists have hulls without repeated vertices.", "quantifier": "every degenerate list", "why_tests_cant": "degenerate inputs untested", "anchors": ["triangulate2/hull.go:ConvexHull"]}
{"id": "C31", "title": "Validate soundness", "statement": "If Validate returns nil then every non-boundary half-edge is its twin's twin.", "quantifier": "every Triangulation value, every floating-point behaviour", "why_tests_cant": "all arrays", "anchors": ["triangulate2/triangulation.go:Validate"]}
{"id": "C32", "title": "Polygon measures are well defined", "statement": "polygonArea is invariant under cyclic rotation of the vertex list and translation, changes sign on reversal and equals the sum of fan triangles; polygonPerimeter is non-negative and rotation/reversal invariant.", "quantifier": "every polygon (exact arithmetic)", "why_tests_cant": "all lengths", "anchors": ["triangulate2/util.go:polygonArea", "triangulate2/util.go:polygonPerimeter"]}
{"id": "C33", "title": "Face hash identifies faces up to vertex order", "statement": "Two faces have the same hash exactly when they have the same vertices, in any order.", "quantifier": "all faces with arbitrary int indices", "why_tests_cant": "all pairs of faces", "anchors": ["meshing/mesh.go:face.hash"]}
{"id": "C34", "title": "Tetra hash never collides", "statement": "Two tetrahedra have equal hash only if their four vertex indices are equal in order, so addTetra never overwrites a different tetrahedron.", "quantifier": "all tetrahedra", "why_tests_cant": "all pairs", "anchors": ["meshing/mesh.go:tetraHash", "meshing/mesh.go:addTetra"]}
{"id": "C35", "title": "bowyerWatson returns valid triangle indices", "statement": "The returned index list has length divisible by 3, every index refers to an input point (0 <= i < n) and it never panics.", "quantifier": "all point lists, every map iteration order, every floating-point behaviour", "why_tests_cant": "map iteration order is randomised; all inputs", "anchors": ["meshing/mesh.go:bowyerWatson", "meshing/mesh.go:addFace", "meshing/mesh.go:isPartOfMesh"]}
{"id": "C36", "title": "bowyerWatson keeps tetrahedra consistently oriented", "statement": "Every tetrahedron built by connecting a face to a new point inside keeps the orientation its in-sphere test relies on.", "quantifier": "all insertions", "why_tests_cant": "all configurations", "anchors": ["meshing/mesh.go:connect", "meshing/mesh.go:bowyerWatson", "predicates/insphere.go:InSphereFast"]}
{"id": "C37", "title": "Bounding box contains all points and is tight", "statement": "After findExtremas every point is between min and max in each coordinate and each bound is attained by a point.", "quantifier": "all non-empty point lists with coordinates in the float64 range", "why_tests_cant": "all lists", "anchors": ["meshing/helper.go:findExtremas"]}
{"id": "C38", "title": "The initial tetrahedron englobes all points", "statement": "After englobe all input points (kept, shifted by four places) test inside the tetrahedron formed by the four prepended vertices.", "quantifier": "all non-empty point lists (exact arithmetic)", "why_tests_cant": "all lists", "anchors": ["meshing/mesh.go:englobe", "meshing/helper.go:computerInitialTetraPoints", "meshing/util.go:vectorInTetrahedron"]}
{"id": "C39", "title": "getNearestPoint returns a nearest point", "statement": "The result is an element of the list and no other element is closer; of several nearest the last is returned.", "quantifier": "all non-empty lists and query points (exact arithmetic)", "why_tests_cant": "all lists", "anchors": ["meshing/helper.go:getNearestPoint"]}
{"id": "C40", "title": "Point-in-tetrahedron test is correct", "statement": "VectorInTetrahedron(v1..v4,p) holds exactly when p is a convex combination of the four vertices.", "quantifier": "all tetrahedra and points (exact arithmetic)", "why_tests_cant": "a unit test samples a handful of vectors; the claim ranges over all of R^3 (uncountably many)", "anchors": ["triangulate3/util.go:VectorInTetrahedron", "triangulate3/util.go:SameSide", "meshing/util.go:vectorInTetrahedron"]}
{"id": "C41", "title": "Centroid lies inside", "statement": "findCentroid of four points passes the point-in-tetrahedron test and is equidistant-weighted (equal barycentric coordinates).", "quantifier": "all tetrahedra (exact arithmetic)", "why_tests_cant": "a unit test samples a handful of vectors; the claim ranges over all of R^3 (uncountably many)", "anchors": ["meshing/util.go:findCentroid", "triangulate3/util.go:findCentroid"]}
{"id": "C42", "title": "flip14 inserts the given point", "statement": "After flip14(p) the mesh indices refer to p, and to valid vertices, whatever the previous history of flips.", "quantifier": "every sequence of flip14 calls", "why_tests_cant": "call histories", "anchors": ["meshing/flip.go:flip14"]}
{"id": "C43", "title": "duplicateInReverse makes faces two-sided", "statement": "The result is the list followed by its reverse: every triangle of the input is followed by its mirror image.", "quantifier": "all index lists", "why_tests_cant": "all lengths; in-place growth while iterating", "anchors": ["meshing/util.go:duplicateInReverse"]}
{"id": "C44", "title": "3D bounding box is correct", "statement": "computeBoundingBoxForVectors bounds every input coordinate from below and above, and each bound is attained when coordinates stay within the float32 range.", "quantifier": "all lists", "why_tests_cant": "all lists, large coordinates", "anchors": ["triangulate3/englober.go:computeBoundingBoxForVectors"]}
{"id": "C45", "title": "constructEnglobingTetra encloses its points", "statement": "All input points are inside the tetrahedron returned.", "quantifier": "all non-empty lists (exact arithmetic)", "why_tests_cant": "all lists", "anchors": ["triangulate3/englober.go:constructEnglobingTetra", "triangulate3/englober.go:getTopVectorOfTetrahedron"]}
{"id": "C46", "title": "createInitialTetra picks input points", "statement": "The four vertices are input points, the third a furthest one from the line through the first two and the fourth a furthest one from the plane of the first three.", "quantifier": "all lists with four affinely independent points", "why_tests_cant": "side of the plane matters", "anchors": ["triangulate3/gdel3d.go:createInitialTetra", "triangulate3/gdel3d.go:getFurthestFromthreeVectors"]}
{"id": "C47", "title": "Get2Ddist/Get3Ddist measure area and volume", "statement": "Get2Ddist is the squared norm of the cross product of the edges (zero exactly for collinear points), Get3Ddist is the signed volume determinant (zero exactly for coplanar points).", "quantifier": "all points (exact arithmetic)", "why_tests_cant": "a unit test samples a handful of vectors; the claim ranges over all of R^3 (uncountably many)", "anchors": ["triangulate3/util.go:Get2Ddist", "triangulate3/util.go:Get3Ddist"]}
{"id": "C48", "title": "findSpan returns the knot span", "statement": "For a non-decreasing knot vector and U[p] <= u <= U[n+1] findSpan terminates without panic and returns the i with p <= i <= n and U[i] <= u < U[i+1] (n at the right end).", "quantifier": "all knot vectors, degrees and parameters (exact comparison)", "why_tests_cant": "loop termination over all inputs", "anchors": ["nurbs/basis.go:findSpan"]}
{"id": "C49", "title": "findSpan always terminates", "statement": "findSpan returns for every parameter value.", "quantifier": "all parameters, also outside the domain", "why_tests_cant": "non-termination cannot be observed by a test", "anchors": ["nurbs/basis.go:findSpan"]}
{"id": "C50", "title": "basisFuns computes the B-spline basis", "statement": "The p+1 values are the Cox-de Boor basis functions N_{i-p,p}(u)..N_{i,p}(u); they are non-negative and sum to 1.", "quantifier": "all degrees, knot vectors, spans and parameters in the span (exact arithmetic)", "why_tests_cant": "all degrees", "anchors": ["nurbs/basis.go:basisFuns"]}
{"id": "C51", "title": "Curve points are convex combinations of p+1 control points", "statement": "curvePoint returns the B-spline combination of the p+1 control points selected by the span: coordinates are bounded by theirs, and translating the control points translates the curve.", "quantifier": "all curves and in-domain parameters (exact arithmetic)", "why_tests_cant": "all inputs", "anchors": ["nurbs/curve.go:curvePoint"]}
{"id": "C52", "title": "dersBasisFuns row 0 is the basis", "statement": "Row 0 of dersBasisFuns equals basisFuns and so sums to 1.", "quantifier": "all inputs", "why_tests_cant": "all degrees", "anchors": ["nurbs/basis.go:dersBasisFuns"]}
{"id": "C53", "title": "Sphere vertices lie on the sphere", "statement": "Every vertex of ConstructSphere(center, radius) is at distance radius from center and every normal is the unit outward direction.", "quantifier": "all centres, radii, sector/stack counts (exact arithmetic)", "why_tests_cant": "all parameters", "anchors": ["shape/sphere.go:generateVertices", "shape/shape.go:ConstructSphere"]}
{"id": "C54", "title": "Sphere and torus meshes have valid indices", "statement": "Every index refers to an existing vertex, the index count is a multiple of 3, vertices/normals/texcoords have equal lengths.", "quantifier": "all sector counts >= 0 and stack counts >= 2 below the uint32 limit", "why_tests_cant": "all counts", "anchors": ["shape/sphere.go:generateIndices", "shape/torus.go:generateIndices"]}
{"id": "C55", "title": "Torus vertices lie on the torus", "statement": "Every vertex of ConstructTorus(center,R,r) satisfies (sqrt(x^2+y^2)-R)^2+z^2=r^2 relative to center.", "quantifier": "all centres, radii and counts (exact arithmetic)", "why_tests_cant": "all parameters", "anchors": ["shape/torus.go:generateVertices"]}
{"id": "C56", "title": "Circle and ellipse vertices lie on the curve", "statement": "All vertices but the first are on the circle/ellipse around center, the first is the center; there are sectorCount+1.", "quantifier": "all centres, radii and counts (exact arithmetic)", "why_tests_cant": "all parameters", "anchors": ["shape/circle.go:generateVertices", "shape/ellipse.go:generateVertices"]}
{"id": "C57", "title": "Circle and ellipse meshes have valid indices", "statement": "Every index refers to an existing vertex.", "quantifier": "all sector counts", "why_tests_cant": "all counts", "anchors": ["shape/circle.go:generateIndices", "shape/ellipse.go:generateIndices"]}
{"id": "C58", "title": "Texture coordinates span [0,1] proportionally", "statement": "The texture coordinate of the vertex (i,j) is (j/sectorCount, i/stackCount).", "quantifier": "all vertices and counts", "why_tests_cant": "all counts", "anchors": ["shape/sphere.go:generateVertices", "shape/torus.go:generateVertices"]}
{"id": "C59", "title": "Sphere and torus meshes are closed", "statement": "Every edge of the mesh is shared by two triangles (up to the identification of coincident vertices).", "quantifier": "all counts", "why_tests_cant": "all counts", "anchors": ["shape/sphere.go:generateIndices", "shape/torus.go:generateIndices"]}
{"id": "C60", "title": "Export passes the mesh through unchanged in structure", "statement": "The exported model has one position per vertex in order (each the float32 rounding of the vertex), the same indices, and one white colour per vertex.", "quantifier": "all meshes", "why_tests_cant": "all meshes", "anchors": ["glTF/model.go:transferModel", "glTF/export.go:Export"]}
{"id": "C61", "title": "Exported coordinates are accurate and finite", "statement": "Each exported coordinate is the float32 nearest to the mesh coordinate; finite coordinates export as finite values.", "quantifier": "all float64 coordinates", "why_tests_cant": "2^64 values", "anchors": ["glTF/model.go:transferModel"]}
{"id": "C62", "title": "Argument splitting inverts joining", "statement": "getArguments(a1,...,ak joined by commas followed by \");\") = [a1;...;ak] for arguments that are bracket-balanced and have no top-level comma (ASCII).", "quantifier": "all argument lists of all lengths and nesting depths", "why_tests_cant": "unbounded nesting", "anchors": ["step/util.go:getArguments"]}
{"id": "C63", "title": "Argument splitting works on any text", "statement": "The same for arguments in any UTF-8 text and with blanks before the final semicolon, and commas or brackets in quoted strings do not split.", "quantifier": "all texts", "why_tests_cant": "encoding corner cases", "anchors": ["step/util.go:getArguments"]}
{"id": "C64", "title": "Array/matrix parsing inverts printing", "statement": "getArray(\"(\"+join(es)+\")\") = es and getMatrix of a printed matrix is the matrix, for balanced elements.", "quantifier": "all arrays/matrices", "why_tests_cant": "unbounded nesting and sizes", "anchors": ["step/util.go:getArray", "step/util.go:getMatrix"]}
{"id": "C65", "title": "Lexing a printed entity list recovers it", "statement": "Lexing a file whose lines are definitions id=TYPE(args); (possibly broken over continuation lines without '=') yields exactly the map from id to (TYPE,args), the last definition of an id winning.", "quantifier": "all files of that form", "why_tests_cant": "unbounded files", "anchors": ["step/lex.go:Lex", "step/lex.go:add", "step/lex.go:tokenize"]}
{"id": "C66", "title": "Lex reads standard STEP files", "statement": "Lex does not panic on a STEP file with the mandatory ISO-10303-21 header section.", "quantifier": "all files with a header", "why_tests_cant": "all header contents", "anchors": ["step/lex.go:Lex"]}
{"id": "C67", "title": "Entity keys match references", "statement": "The key under which Lex stores an entity is the text by which other entities reference it.", "quantifier": "all definitions, whatever blanks surround '='", "why_tests_cant": "all spacings", "anchors": ["step/lex.go:add"]}
{"id": "C68", "title": "Parse terminates and visits each key at most once", "statement": "Parse terminates on every symbol table, also with cyclic references, and runs a handler at most once per key.", "quantifier": "all symbol tables and map iteration orders", "why_tests_cant": "cycles and orders", "anchors": ["step/parse.go:runInferenceModel", "step/parse.go:Parse"]}
{"id": "C69", "title": "Parse does not panic on well-formed tables", "statement": "If every entity has the arity its type requires and its references resolve to such entities, Parse does not panic in any iteration order.", "quantifier": "all tables, all orders", "why_tests_cant": "map order is random", "anchors": ["step/parse.go:Parse", "step/template.go"]}
{"id": "C70", "title": "Parse outcome is independent of map order", "statement": "Whether Parse panics does not depend on the iteration order of the symbol table.", "quantifier": "all tables and pairs of orders", "why_tests_cant": "Go randomises map order; a test sees one", "anchors": ["step/parse.go:Parse"]}
{"id": "C71", "title": "Every supported entity type is dispatched to its handler", "statement": "ADVANCED_FACE and AXIS2_PLACEMENT_3D entities are dispatched to their handlers.", "quantifier": "all definitions", "why_tests_cant": "string typos; all types", "anchors": ["step/bridge.go:bridge"]}
{"id": "C72", "title": "stripWhiteSpaces removes exactly the white space", "statement": "The output contains no white space, keeps all other characters in order and is idempotent.", "quantifier": "all strings", "why_tests_cant": "all strings", "anchors": ["step/util.go:stripWhiteSpaces"]}
{"id": "C73", "title": "getLogical decodes exactly .T.", "statement": "getLogical is true exactly for \".T.\".", "quantifier": "all strings", "why_tests_cant": "all strings", "anchors": ["step/util.go:getLogical"]}
{"id": "C74", "title": "Lexing does not depend on physical line length", "statement": "Lexing a definition line gives the same result whatever its length.", "quantifier": "all line lengths", "why_tests_cant": "the 4096-byte buffer boundary", "anchors": ["step/lex.go:Lex"]}
{"id": "C75", "title": "ConvexHull encloses points that share X and Y", "statement": "For points that are pairwise farther apart than the near-duplicate tolerance in space (possibly stacked above each other: equal X, Y, different Z), every input point is on the inner side of every edge of the returned polygon.", "quantifier": "every point list without 3D near-duplicates, every sort tie-breaking (exact arithmetic)", "why_tests_cant": "only happens when stacked points sit on a reflex turn of the chain", "anchors": ["triangulate2/hull.go:ConvexHull"]}
{"id": "C76", "title": "bowyerWatson meshes points in general position", "statement": "For four affinely independent points the returned mesh is not empty.", "quantifier": "all quadruples of affinely independent points", "why_tests_cant": "the failure depends on the position of the points; the one example in the code base happens to work", "anchors": ["meshing/mesh.go:bowyerWatson"]}
{"id": "C77", "title": "bowyerWatson returns proper triangles", "statement": "Each returned triangle has three different vertices.", "quantifier": "all point lists, every map iteration order, every floating-point behaviour", "why_tests_cant": "all inputs and iteration orders", "anchors": ["meshing/mesh.go:bowyerWatson", "meshing/mesh.go:connect"]}
{"id": "C78", "title": "The cavity boundary is found", "statement": "The polyhedron built from the bad tetrahedra consists of exactly the faces that occur once (up to vertex order) among the faces of the bad tetrahedra, each listed once; no lookup panics.", "quantifier": "all lists of bad tetrahedra, every map iteration order", "why_tests_cant": "all lists and iteration orders", "anchors": ["meshing/mesh.go:bowyerWatson", "meshing/mesh.go:face.hash"]}
{"id": "C79", "title": "bowyerWatson does not depend on map iteration order", "statement": "Two runs on the same points return the same triangles, with the same orientation, up to the order in which they are listed.", "quantifier": "all point lists, all pairs of map iteration orders, every floating-point behaviour", "why_tests_cant": "Go randomises map iteration: a test sees a few of the orders", "anchors": ["meshing/mesh.go:bowyerWatson"]}
{"id": "C80", "title": "Clamped curves interpolate their end control points", "statement": "With the first (last) p knots before the domain end equal, curvePoint at the left (right) end of the domain is exactly the first (last) control point.", "quantifier": "all degrees, clamped knot vectors and control points (exact arithmetic)", "why_tests_cant": "all degrees and knot vectors", "anchors": ["nurbs/curve.go:curvePoint", "nurbs/basis.go:basisFuns"]}
{"id": "C81", "title": "dersBasisFuns returns exactly for at most p derivatives", "statement": "For a valid non-empty span dersBasisFuns returns when n <= p and panics when n > p.", "quantifier": "all degrees, spans and derivative counts", "why_tests_cant": "absence of out-of-range accesses for all sizes", "anchors": ["nurbs/basis.go:dersBasisFuns"]}
{"id": "C82", "title": "The triangles tile the hull", "statement": "In the triangulation that Triangulate returns no point of the plane is strictly inside two triangles, every point strictly inside the ConvexHull polygon is in some triangle (interior or edge), and no triangle reaches outside the hull.", "quantifier": "every planar point list and every point of the plane (exact arithmetic)", "why_tests_cant": "quantifies over a continuum of query points and all inputs, cocircular ones included", "anchors": ["triangulate2/triangulator.go:triangulate", "triangulate2/triangulator.go:legalize", "triangulate2/triangulator.go:convexHull"]}
{"id": "C83", "title": "The triangulation's hull is the points' hull", "statement": "When Triangulate succeeds on separated planar points, the ConvexHull field of the result is the list that ConvexHull(points) computes (monotone chain), up to the choice of the first vertex: same vertices, same direction, also with points lying on hull edges.", "quantifier": "every separated planar point list, every sort that sorts (exact arithmetic)", "why_tests_cant": "two different algorithms must agree on all inputs, including collinear hull points", "anchors": ["triangulate2/triangulator.go:convexHull", "triangulate2/hull.go:ConvexHull"]}
{"id": "C84", "title": "Validate accepts what Triangulate returns", "statement": "For separated planar points, Validate returns nil on every triangulation that Triangulate returns without error, and an error on the value it returns together with an error.", "quantifier": "every separated planar point list (exact arithmetic)", "why_tests_cant": "completeness of the checker over all inputs", "anchors": ["triangulate2/triangulation.go:Validate", "triangulate2/triangulation.go:Triangulate"]}
{"id": "C85", "title": "dersBasisFuns row 1 is the derivative of the basis", "statement": "Row 1 of dersBasisFuns(i,u,p,n,U) holds the first derivatives of the basis functions at u.", "quantifier": "all degrees >= 1, spans, knot vectors and parameters", "why_tests_cant": "all knot vectors; derivatives of the real polynomial pieces", "anchors": ["nurbs/basis.go:dersBasisFuns"]}
{"id": "C86", "title": "Triangulate works in float64 on a grid", "statement": "In binary64, on points of a grid (coordinates k*2^e, |k| <= 128, -170 <= e <= 170, one common height), Triangulate returns; with at least two points it reports an error exactly when all points are on a line and otherwise returns at least one triangle.", "quantifier": "every list of grid points (repetitions included), every exponent, every sort that sorts", "why_tests_cant": "257^2 grid cells to any power of lists of any length; rounding of the circumcenter and of the distances decides the insertion order", "anchors": ["triangulate2/triangulator.go:triangulate", "triangulate2/triangulation.go:Triangulate", "triangulate2/util.go:circumradius", "triangulate2/triangulator.go:hashKey"]}
{"id": "C87", "title": "The float64 result is well formed", "statement": "Under the same conditions the half-edges of the result are paired, indices are in range, every triangle has positive orientation and no position is used by two indices.", "quantifier": "every list of grid points, every sort that sorts (binary64)", "why_tests_cant": "structural invariant of a mutable mesh under rounded arithmetic", "anchors": ["triangulate2/triangulator.go:addTriangle", "triangulate2/triangulator.go:legalize", "triangulate2/triangulator.go:link"]}
{"id": "C88", "title": "The float64 result is exactly Delaunay", "statement": "Under the same conditions no input point is strictly inside the circumcircle of any returned triangle, as a statement about the exact values of the inputs.", "quantifier": "every list of grid points, every sort that sorts (binary64)", "why_tests_cant": "global empty-circle property against every point; rounding", "anchors": ["triangulate2/triangulator.go:legalize", "triangulate2/util.go:inCircle"]}
{"id": "C89", "title": "The float64 result covers the hull and loses no point", "statement": "Under the same conditions the returned hull is the boundary of the mesh and encloses every vertex, the triangle areas add up to the hull's area, triangles do not overlap and fill the hull, and every input point is (within Eps) a vertex.", "quantifier": "every list of grid points, every sort that sorts, every point of the plane (binary64)", "why_tests_cant": "quantifies over the continuum of points inside the hull and over all inputs; rounding decides the visible edges", "anchors": ["triangulate2/triangulator.go:convexHull", "triangulate2/triangulator.go:triangulate"]}
{"id": "C90", "title": "The float64 hash key is a valid bucket", "statement": "In binary64, for every finite point and center whose difference is finite and which differ in X or Y, hashKey is in [0, n) for every table size 0 < n <= 2^53.", "quantifier": "all pairs of float64 points (2^256) and table sizes", "why_tests_cant": "rounding of floor and of the division near the ends of the unit interval; boundary cases sit at single bit patterns", "anchors": ["triangulate2/util.go:pseudoAngle", "triangulate2/triangulator.go:hashKey"]}
{"id": "C91", "title": "Triangulate returns on all planar float64 input", "statement": "In binary64, Triangulate does not panic on distinct points with finite coordinates in one horizontal plane.", "quantifier": "all lists of finite planar points", "why_tests_cant": "needs a point set whose circumcenter is rounded onto a vertex", "anchors": ["triangulate2/triangulator.go:triangulate", "triangulate2/triangulator.go:hashKey", "triangulate2/util.go:circumcenter"]}
{"id": "C92", "title": "ConvexHull is exact in float64 on grids", "statement": "In binary64, on points whose coordinates are k * 2^e with |k| <= 2^24, ConvexHull returns input points forming a polygon that has every input on the left of or on each edge and contains the leftmost and rightmost point; points must be pairwise separated.", "quantifier": "all such point lists of any length, all exponents -300..300, every sort that sorts", "why_tests_cant": "every cross product and squared distance must be shown exact for all 25-bit coordinates and all exponents", "anchors": ["triangulate2/hull.go:ConvexHull", "triangulate2/hull.go:cross2D"]}
{"id": "C93", "title": "The two hulls agree in float64 on grids", "statement": "In binary64, on grid points (257 x 257 grid, cell 2^e with e >= -26, one height) the ConvexHull stored by Triangulate and ConvexHull(points) list the same points in the same cyclic order.", "quantifier": "all lists of grid points, all cells, all sorts", "why_tests_cant": "two independent algorithms with rounding in one of them, quantified over all point sets", "anchors": ["triangulate2/triangulator.go:convexHull", "triangulate2/hull.go:ConvexHull"]}
{"id": "C94", "title": "Validate accepts Triangulate's float64 results on small grids", "statement": "In binary64, Validate accepts what Triangulate returns on grid points with cell 2^e (e >= -26) whenever m (m + 1) 2^e <= 23108, m the number of hull vertices: the areas are exact and the two perimeters differ by less than the tolerance.", "quantifier": "all lists of grid points meeting the bound, all sorts", "why_tests_cant": "accumulated rounding of a sum in two orders, for all polygons", "anchors": ["triangulate2/triangulation.go:Validate", "triangulate2/util.go:polygonPerimeter"]}
{"id": "C95", "title": "Validate accepts Triangulate's float64 results at any scale", "statement": "In binary64, Validate accepts what Triangulate returns on grid points of any cell size.", "quantifier": "all lists of grid points, all cell sizes, all sorts", "why_tests_cant": "the absolute tolerance 1e-9 fails only when two summation orders round differently", "anchors": ["triangulate2/triangulation.go:Validate", "triangulate2/util.go:polygonPerimeter"]}
{"id": "C96", "title": "polygonArea is exact in float64 on grids", "statement": "In binary64, polygonArea of grid points equals the shoelace area exactly.", "quantifier": "all polygons with up to 2^37 vertices on a 257 x 257 grid with any cell 2^e, -170 <= e <= 170", "why_tests_cant": "no rounding at any of the unboundedly many additions", "anchors": ["triangulate2/util.go:polygonArea"]}
{"id": "C97", "title": "Bounding box and seeds of the triangulator", "statement": "triangulate computes the exact minimum and maximum of the X and Y coordinates; the first seed minimises the computed distance to the box centre, the second the computed distance to the first among the points at a positive distance, the third the computed circumradius (or the radius stays infinite and no circumradius is finite).", "quantifier": "all inputs without NaN coordinates, in binary64 (box: also exact reals), including infinities and signed zeros", "why_tests_cant": "a minimum over all points for all inputs, with NaN comparisons silently false", "anchors": ["triangulate2/triangulator.go:triangulate", "triangulate2/util.go:circumradius"]}
{"id": "C98", "title": "Bitwise symmetry of vector operations", "statement": "In float64 Dot and Add are commutative bit for bit, Distance and SquaredDistance are symmetric bit for bit, Sub and Cross are antisymmetric up to the sign of zero.", "quantifier": "all float64 vectors, including NaN, infinities and signed zeros", "why_tests_cant": "2^384 pairs of inputs; rounding and signed zeros", "anchors": ["r3/vector.go:Dot", "r3/vector.go:Add", "r3/vector.go:Cross", "r3/vector.go:Distance"]}
{"id": "C99", "title": "Norms are never negative and NaN only when forced", "statement": "In float64 Norm and Distance are never negative (nor -0); Norm is NaN exactly when a component is NaN, Distance exactly when a component difference does not exist (NaN operand or equal infinities); the distance of a finite vector to itself is +0.", "quantifier": "all float64 vectors", "why_tests_cant": "a characterisation of NaN results over all inputs", "anchors": ["r3/vector.go:Norm", "r3/vector.go:Distance"]}
{"id": "C100", "title": "Accuracy of Norm and Distance", "statement": "In float64 Norm is finite and within 4 * 2^-53 of the exact norm relatively, Distance within 5 * 2^-53.", "quantifier": "all finite vectors whose exact norm (distance) is between 2^-480 and 2^480", "why_tests_cant": "worst-case error over all inputs", "anchors": ["r3/vector.go:Norm", "r3/vector.go:Distance"]}
{"id": "C101", "title": "Distance separates points", "statement": "In float64 distinct finite points have a positive finite distance.", "quantifier": "all pairs of finite vectors", "why_tests_cant": "fails only by underflow or overflow of the squares", "anchors": ["r3/vector.go:Distance"]}
{"id": "C102", "title": "Normalize gives a unit vector in float64", "statement": "In float64 Normalize of a finite non-zero vector passes IsUnit.", "quantifier": "all finite non-zero vectors", "why_tests_cant": "fails only by underflow or overflow of the squared norm", "anchors": ["r3/vector.go:Normalize", "r3/vector.go:IsUnit"]}
{"id": "C103", "title": "IsUnit decides the exact squared norm", "statement": "In float64 IsUnit implies a finite vector whose exact squared norm is within 6e-14 of 1, and holds whenever the exact squared norm is within 4e-14 of 1.", "quantifier": "all float64 vectors", "why_tests_cant": "relates a rounded test to an exact quantity for all inputs", "anchors": ["r3/vector.go:IsUnit"]}
{"id": "C104", "title": "Helpers of package mesh", "statement": "edge.isEqual is equality; distancePairList.Less is a strict weak order; Swap exchanges two entries and nothing else and panics exactly out of range; computeBoundingBox builds the eight corners, each once.", "quantifier": "all edges, lists, indices and boxes", "why_tests_cant": "order laws over all triples, including NaN distances", "anchors": ["meshing/mesh.go:isEqual", "meshing/helper.go:Less", "meshing/helper.go:Swap", "meshing/helper.go:computeBoundingBox"]}
{"id": "C105", "title": "basisFuns is accurate in float64", "statement": "In float64, for knots below 2^53 in absolute value, degree at most 200 and a parameter in a non-empty knot span, basisFuns returns finite non-negative numbers, each within a relative error of (6p+1)/2^53 plus 2^(5p-1015) of the B-spline basis function; their sum is that close to 1.", "quantifier": "all knot vectors, spans, degrees up to 200, all float64 parameters in the span", "why_tests_cant": "an error bound over all inputs", "anchors": ["nurbs/basis.go:basisFuns"]}
{"id": "C106", "title": "curvePoint is accurate in float64", "statement": "In float64 every coordinate of curvePoint is finite and within (8p+5)/2^53*M of the exact B-spline point, where M bounds the control coordinates; hence it stays that close to the bounding box of the p+1 control points of its span.", "quantifier": "all knot vectors, control points with 2^-900 <= M <= 2^900, degrees up to 180, all float64 parameters in the domain", "why_tests_cant": "an error bound over all inputs", "anchors": ["nurbs/curve.go:curvePoint", "nurbs/basis.go:findSpan", "nurbs/basis.go:basisFuns"]}
{"id": "C107", "title": "nurbs parameters that are not finite", "statement": "findSpan and curvePoint return for every float64 parameter that is NaN or infinite; for NaN the curve point is NaN in each coordinate.", "quantifier": "all knot vectors, control points, degrees", "why_tests_cant": "non-termination on infinite parameters", "anchors": ["nurbs/basis.go:findSpan", "nurbs/curve.go:curvePoint"]}
{"id": "C108", "title": "One insertion of bowyerWatson", "statement": "Inserting a point removes exactly the tetrahedra whose in-sphere test is non-negative and adds exactly one tetrahedron for each face belonging to exactly one removed tetrahedron, joined to the new point; map keys stay consistent.", "quantifier": "all tetrahedrisations satisfying the invariant, all points, all map orders, any arithmetic", "why_tests_cant": "set equality over all states and iteration orders", "anchors": ["meshing/mesh.go:bowyerWatson", "meshing/mesh.go:connect", "meshing/mesh.go:addTetra"]}
{"id": "C109", "title": "bowyerWatson is incremental insertion", "statement": "bowyerWatson starts from the initial tetrahedron, inserts the points in order as in C108 and returns exactly the faces without initial vertices of the final tetrahedra, renumbered, once per tetrahedron; in exact arithmetic the test selects the closed circumsphere for negatively oriented tetrahedra, the outside for positively oriented ones and every flat one.", "quantifier": "all point lists, all map orders, any arithmetic", "why_tests_cant": "full functional specification over all inputs", "anchors": ["meshing/mesh.go:bowyerWatson", "meshing/mesh.go:englobe", "meshing/mesh.go:isPartOfMesh", "meshing/mesh.go:addFace"]}
{"id": "C110", "title": "Float64 in-sphere and orientation determinants are exact on grids", "statement": "In float64 InSphereFast is finite and equals the exact in-sphere determinant for points of a grid k*2^e inside a cube of 600 steps, and orient3dfast equals the exact signed volume inside a cube of 100000 steps; with a much smaller grid step the volume underflows to zero.", "quantifier": "all grid exponents |e| <= 130, all cubes with a corner within 2^51 steps, all points in them", "why_tests_cant": "exactness over about 600^15 inputs per grid", "anchors": ["predicates/insphere.go:InSphereFast", "predicates/orient3d.go:orient3dfast"]}
{"id": "C111", "title": "bowyerWatson in float64 equals bowyerWatson over the reals on grids", "statement": "For points of a grid cube of 200 steps, bowyerWatson in float64 returns exactly the face list it returns in exact real arithmetic, and that list is what incremental insertion with the exact in-sphere determinant gives.", "quantifier": "all grids |e| <= 130, all point lists in the cube, all map orders", "why_tests_cant": "equality of whole runs for all point lists and iteration orders", "anchors": ["meshing/mesh.go:bowyerWatson", "meshing/mesh.go:englobe", "predicates/insphere.go:InSphereFast"]}
{"id": "C112", "title": "The initial tetrahedron contains all points in float64", "statement": "In float64 the four points computed by englobe form a tetrahedron that contains every input point.", "quantifier": "all finite points", "why_tests_cant": "fails by one unit in the last place for particular coordinates only", "anchors": ["meshing/mesh.go:englobe", "meshing/helper.go:computerInitialTetraPoints", "meshing/helper.go:findExtremas"]}
{"id": "C113", "title": "Triangulate's indices are always valid", "statement": "Whenever Triangulate returns, the triangle list consists of triples of valid point indices, the half-edge list has the same length with entries -1 or valid positions, the hull consists of input points, and without an error there are between 1 and 2n-5 triangles.", "quantifier": "all point lists (duplicates, collinear, Inf, NaN), any arithmetic, any sort function, error or not", "why_tests_cant": "index safety for all inputs including rounding-corrupted runs", "anchors": ["triangulate2/triangulator.go:triangulate", "triangulate2/triangulator.go:addTriangle", "triangulate2/triangulator.go:legalize", "triangulate2/triangulator.go:link", "triangulate2/triangulation.go:Triangulate"]}
{"id": "C114", "title": "Validate never panics on Triangulate's output", "statement": "Validate returns (an error or nil) on every triangulation with valid indices, hence on everything Triangulate returns; the area sum is computable exactly when the triangle list consists of triples of valid indices; half-edge entries below -1 make Validate panic.", "quantifier": "all triangulations, any arithmetic, any sort function", "why_tests_cant": "absence of panics for all inputs", "anchors": ["triangulate2/triangulation.go:Validate", "triangulate2/triangulation.go:area", "triangulate2/hull.go:ConvexHull", "triangulate2/util.go:polygonArea"]}
{"id": "C115", "title": "Interpolate in float64", "statement": "For finite end points with coordinates at most M <= 2^1022 and 0 <= t <= 1, Interpolate returns finite coordinates within 4*2^-53*M + 3*2^-1074 of the exact point of the segment; at t = 0 and t = 1 it returns the end points exactly, whatever their size; GetInterpolationVector(v, b, d) is Interpolate(b, v, d) bit for bit.", "quantifier": "all finite float64 vectors and parameters; the last law for all float64 inputs", "why_tests_cant": "rounding for all inputs", "anchors": ["r3/vector.go:Interpolate", "r3/vector.go:GetInterpolationVector"]}
{"id": "C116", "title": "Interpolate stays between its end points in float64", "statement": "For 0 <= t <= 1 every coordinate of Interpolate(a, b, t) lies between those of a and b, and it is monotone in t.", "quantifier": "all finite float64 vectors, all 0 <= t <= 1", "why_tests_cant": "violated only for particular parameters, e.g. a = b = 3, t = 0.2", "anchors": ["r3/vector.go:Interpolate"]}
{"id": "C117", "title": "findCentroid in float64", "statement": "For coordinates at most M <= 2^1021 the computed centroid is finite, within 4*2^-53*M + 2^-1074 of the exact mean, and lies in every axis-parallel box that contains the four points, without tolerance; the copies in packages mesh and triangulate3 agree.", "quantifier": "all float64 vectors in range", "why_tests_cant": "the box property holds only because of how rounding errors of x+x+x+x cancel", "anchors": ["meshing/util.go:findCentroid", "triangulate3/util.go:findCentroid"]}
{"id": "C118", "title": "getNearestPoint in float64", "statement": "For all inputs (NaN and infinities included) getNearestPoint returns the last point whose computed distance is the smallest finite one, the zero vector if no distance is finite; the point is nearest in exact arithmetic up to the factor (1-2^-53)^-8, and exactly nearest (last of several) for points of a grid cube of side 2^20.", "quantifier": "all lists of float64 vectors", "why_tests_cant": "NaN, infinity and ties for all lists; exact distances are irrational", "anchors": ["meshing/helper.go:getNearestPoint", "r3/vector.go:Distance"]}
{"id": "C119", "title": "The point-in-tetrahedron test on grids in float64", "statement": "For a non-flat tetrahedron and a point of a grid cube of side 100000, vectorInTetrahedron (both copies) is true exactly if the point lies in the exact tetrahedron; flat tetrahedra accept every point; in cubes of side 2*10^6 the test is wrong both ways.", "quantifier": "all grids with |e| <= 130, all five-tuples of points of the cube", "why_tests_cant": "10^75 inputs; off the grid the failures are rare", "anchors": ["meshing/util.go:vectorInTetrahedron", "meshing/util.go:sameSide", "triangulate3/util.go:VectorInTetrahedron", "triangulate3/util.go:SameSide"]}
{"id": "C120", "title": "Get2Ddist, Get3Ddist and createInitialTetra on grids in float64", "statement": "On a grid cube of side 5000 Get2Ddist is exactly the squared length of the cross product (zero iff the points are collinear), on a cube of side 100000 Get3Ddist is exactly the determinant (zero iff coplanar), and on a cube of side 5000 around the origin createInitialTetra chooses the vertices it chooses over the reals.", "quantifier": "all grids, all points of the cube, all non-empty lists", "why_tests_cant": "exactness for all inputs", "anchors": ["triangulate3/util.go:Get2Ddist", "triangulate3/util.go:Get3Ddist", "triangulate3/gdel3d.go:createInitialTetra", "triangulate3/gdel3d.go:computeExtremitiesForAxeX", "triangulate3/gdel3d.go:getFurthestFromTwoVectors", "triangulate3/gdel3d.go:getFurthestFromthreeVectors"]}
{"id": "C121", "title": "IntersectPlane panics exactly for lines parallel to the plane, in float64", "statement": "IntersectPlane panics if and only if the direction of the line is orthogonal to the normal.", "quantifier": "all finite lines and planes", "why_tests_cant": "depends on cancellation in the rounded dot product", "anchors": ["r3/line.go:IntersectPlane", "r3/vector.go:Normalize"]}
{"id": "C122", "title": "Accuracy of IntersectPlane in float64", "statement": "If IntersectPlane returns a finite point x and the coordinates of x, of the point of the line and of the point of the plane are at most M, then n.x differs from n.q by at most 48*2^-53*|n|_1*M and x is within 48*2^-53*M of a point of the line (plus multiples of 2^-1074).", "quantifier": "all lines with direction of length 2^-480..2^480, all planes with |n|_1 <= 2^1000", "why_tests_cant": "error bound over all inputs", "anchors": ["r3/line.go:IntersectPlane", "r3/vector.go:Normalize", "r3/vector.go:Dot"]}
{"id": "C123", "title": "Greedy routing works on the triangulation", "statement": "From every vertex of the triangulation that is not nearest to a point q of the plane, some edge leads to a vertex strictly nearer to q; following such edges ends at a nearest vertex.", "quantifier": "all planar inputs in exact arithmetic, all grid inputs in float64, all vertices and all points q", "why_tests_cant": "for all q and all inputs; local edges must guarantee a global minimum", "anchors": ["triangulate2/triangulation.go:Triangulate", "triangulate2/triangulator.go:legalize", "triangulate2/triangulator.go:triangulate"]}
{"id": "C124", "title": "Edges that a Delaunay triangulation must have", "statement": "Two vertices on a circle with all other vertices strictly outside are joined by an edge; so the Gabriel graph is contained, every vertex is joined to all its nearest vertices, and any two vertices are joined by a path of edges none of which is longer than their distance.", "quantifier": "all planar inputs in exact arithmetic, all grid inputs in float64, all pairs of vertices", "why_tests_cant": "global completeness statement", "anchors": ["triangulate2/triangulation.go:Triangulate", "triangulate2/triangulator.go:triangulate"]}
{"id": "C125", "title": "Triangles of the triangulation are determined by the points", "statement": "Every clockwise triangle of vertices whose circumcircle has all other vertices strictly outside is returned; without near-duplicates and cocircular quadruples the returned triangles are exactly those with an empty circumcircle, so they do not depend on the order of the points or on the sort.", "quantifier": "all planar inputs in exact arithmetic, all grid inputs in float64, all permutations, all sorts", "why_tests_cant": "n! orders; uniqueness needs a proof", "anchors": ["triangulate2/triangulation.go:Triangulate", "triangulate2/triangulator.go:triangulate"]}
{"id": "C126", "title": "Linear interpolation on the triangulation is optimal", "statement": "Every point q of the hull, boundary included, is a weighted mean of the corners of a returned triangle, and the weighted mean of the squared distances from q to the corners is at most that of any three vertices that contain q.", "quantifier": "all planar inputs in exact arithmetic, all grid inputs in float64, all points q, all weights", "why_tests_cant": "optimality over all triples and all points of the hull", "anchors": ["triangulate2/triangulation.go:Triangulate", "triangulate2/triangulator.go:legalize"]}
{"id": "C127", "title": "curvePoint agrees with de Boor's algorithm", "statement": "The point computed from basisFuns equals the result of de Boor's repeated weighted means of control points, for every parameter of the domain.", "quantifier": "all knot vectors, degrees, control points and parameters (exact arithmetic)", "why_tests_cant": "equality of two algorithms for all degrees", "anchors": ["nurbs/curve.go:curvePoint", "nurbs/basis.go:basisFuns", "nurbs/basis.go:findSpan"]}
{"id": "C128", "title": "B-splines reproduce polynomials", "statement": "The basis values satisfy Marsden's identity, so every polynomial of degree at most p is a curve; control points over the knot averages reproduce straight lines.", "quantifier": "all knot vectors, degrees, spans and parameters (exact arithmetic)", "why_tests_cant": "identity in two real variables for all degrees", "anchors": ["nurbs/basis.go:basisFuns", "nurbs/curve.go:curvePoint"]}
{"id": "C129", "title": "Bezier curves are a special case", "statement": "Between two neighbouring knots of multiplicity p the curve is the Bezier curve of its p+1 control points, with Bernstein weights.", "quantifier": "all degrees, knots, control points and parameters (exact arithmetic)", "why_tests_cant": "all degrees and parameters", "anchors": ["nurbs/basis.go:basisFuns", "nurbs/curve.go:curvePoint"]}
{"id": "C130", "title": "Derivative of the curve", "statement": "At every inner parameter that is not a knot of multiplicity p or more, the curve is differentiable and its derivative is curvePoint of degree p-1 for the scaled differences of the control points.", "quantifier": "all knot vectors, degrees, control points and parameters (exact arithmetic)", "why_tests_cant": "limits are not observable by tests", "anchors": ["nurbs/curve.go:curvePoint", "nurbs/basis.go:basisFuns"]}
{"id": "C131", "title": "Curves are Lipschitz continuous", "statement": "Without inner knots of multiplicity above p, a coordinate changes by at most p*L*|u-v| where L bounds the difference quotients of that coordinate of the control points; in particular the curve has no jumps at knots.", "quantifier": "all knot vectors, degrees, control points and pairs of parameters (exact arithmetic)", "why_tests_cant": "continuity is a statement about all pairs of parameters", "anchors": ["nurbs/curve.go:curvePoint", "nurbs/basis.go:findSpan"]}
{"id": "C132", "title": "Reversed data give the reversed curve", "statement": "Negating and reversing the knots and reversing the control points gives the same point at the negated parameter.", "quantifier": "all knot vectors, degrees, control points and parameters of multiplicity at most p (exact arithmetic)", "why_tests_cant": "metamorphic relation over all inputs", "anchors": ["nurbs/curve.go:curvePoint", "nurbs/basis.go:findSpan"]}
{"id": "C133", "title": "Affine invariance, local control, unique control points", "statement": "An affine map of the control points maps the curve; control point k has no effect outside knots k to k+p+1; two curves that agree inside one span have the same p+1 control points there.", "quantifier": "all affine maps, knot vectors, degrees, control points and parameters (exact arithmetic)", "why_tests_cant": "quantifies over all maps and all parameters", "anchors": ["nurbs/curve.go:curvePoint"]}
{"id": "C134", "title": "Monotone control coordinates give a monotone curve", "statement": "If one coordinate of the control points never decreases, that coordinate of the curve never decreases with the parameter.", "quantifier": "all knot vectors without inner knots of multiplicity above p, degrees, control points, pairs of parameters (exact arithmetic)", "why_tests_cant": "shape property over all pairs of parameters", "anchors": ["nurbs/curve.go:curvePoint"]}
{"id": "C135", "title": "Clamped curves interpolate their end control points in float64", "statement": "With clamped knots curvePoint returns exactly the first and the last control point at the two ends of the parameter range, in float64 arithmetic.", "quantifier": "all clamped knot vectors, degrees, finite control points", "why_tests_cant": "holds for the span lengths one tries; the shortest integer span length for which it fails is 49", "anchors": ["nurbs/curve.go:curvePoint", "nurbs/basis.go:basisFuns"]}
{"id": "C136", "title": "The triangulation maximises the smallest angle", "statement": "Triangulate returns a triangulation of its vertices, and among all triangulations of these vertices none has a larger smallest angle; each angle of the result is at least some angle of the other triangulation.", "quantifier": "all planar inputs in exact arithmetic, all grid inputs in float64, all other triangulations of the vertices", "why_tests_cant": "optimality over an exponential number of triangulations", "anchors": ["triangulate2/triangulation.go:Triangulate", "triangulate2/triangulator.go:legalize", "triangulate2/util.go:inCircle"]}
{"id": "C137", "title": "The triangulation minimises the largest enclosing circle of a triangle", "statement": "If all triangles of some triangulation of the vertices fit in circles of a given radius, so do all triangles that Triangulate returns.", "quantifier": "all planar inputs in exact arithmetic, all grid inputs in float64, all other triangulations of the vertices, all radii", "why_tests_cant": "optimality over an exponential number of triangulations", "anchors": ["triangulate2/triangulation.go:Triangulate", "triangulate2/triangulator.go:legalize", "triangulate2/util.go:inCircle"]}
{"id": "C138", "title": "Float64 triangulations of integer points are complete and Delaunay", "statement": "On planar points with distinct integer coordinates, not all on a line, Triangulate in float64 uses every point and no vertex lies strictly inside the circumcircle of a returned triangle.", "quantifier": "all lists of planar points with integer coordinates exactly representable in float64", "why_tests_cant": "needs inputs whose rounded predicates have the wrong sign", "anchors": ["triangulate2/triangulation.go:Triangulate", "triangulate2/util.go:inCircle", "triangulate2/util.go:area"]}
{"id": "C139", "title": "ConvexHull returns exactly the boundary points", "statement": "A point of the input is a vertex of the returned polygon if and only if some line through it has all input points on one side (points in the middle of a side included); unless all points lie on a line each is returned once and the polygon never turns right.", "quantifier": "every separated point list with two distinct points, every sort (exact arithmetic); float64 on 25-bit grids", "why_tests_cant": "both directions for all point sets, including collinear runs on the boundary", "anchors": ["triangulate2/hull.go:ConvexHull"]}
{"id": "C140", "title": "ConvexHull depends only on the boundary points", "statement": "Removing any input points that are not on the returned polygon, reordering or repeating points, or applying ConvexHull to its own result leaves the result unchanged, including the starting vertex.", "quantifier": "every separated point list not on a line, every list between the result and the input, every sort (exact arithmetic); float64 on 25-bit grids", "why_tests_cant": "quantifies over all sublists and orders", "anchors": ["triangulate2/hull.go:ConvexHull"]}
{"id": "C141", "title": "Sphere and torus meshes are consistently oriented", "statement": "In the index list of a sphere or torus mesh every directed side belongs to one triangle and no triangle repeats an index.", "quantifier": "all sectorCount >= 1, stackCount >= 2 below the uint32 limit, any arithmetic", "why_tests_cant": "all counts", "anchors": ["shape/sphere.go:generateIndices", "shape/torus.go:generateIndices"]}
{"id": "C142", "title": "Exact boundary of the sphere and torus meshes", "statement": "With coincident vertices identified, an edge of the sphere mesh lies on only one triangle exactly when both ends are on the last ring, at height -r cos(pi/stackCount); for the torus exactly when both ends are on the last ring or one end is on the first ring.", "quantifier": "all radii > 0 (0 < tube < radius for the torus), sectorCount >= 3, stackCount >= 2 below the uint32 limit (exact arithmetic)", "why_tests_cant": "every edge of every mesh size", "anchors": ["shape/sphere.go:generateIndices", "shape/torus.go:generateIndices", "shape/sphere.go:generateVertices", "shape/torus.go:generateVertices"]}
{"id": "C143", "title": "Sphere and torus triangles face outward", "statement": "Every triangle of the sphere mesh has positive orientation as seen from outside and is non-degenerate; the normal of every triangle of the torus mesh has a positive component along the outward direction at each of its corners.", "quantifier": "all radii > 0 (0 < tube < radius), sectorCount >= 3, stackCount >= 2 (torus: >= 3) below the uint32 limit (exact arithmetic)", "why_tests_cant": "every triangle of every mesh size", "anchors": ["shape/sphere.go:generateIndices", "shape/torus.go:generateIndices"]}
{"id": "C144", "title": "Torus normals are unit outward normals", "statement": "The normal stored for each torus vertex is the unit vector pointing away from the core circle of the tube.", "quantifier": "all radii and counts (exact arithmetic)", "why_tests_cant": "all radii and counts", "anchors": ["shape/torus.go:generateVertices"]}
{"id": "C145", "title": "Knot insertion does not change the curve", "statement": "Inserting an integer knot into a non-empty span and replacing the control points by Boehm's weighted means leaves every point returned by curvePoint unchanged.", "quantifier": "all degrees, knots, control points, inserted knots and parameters of the domain (exact arithmetic)", "why_tests_cant": "equality of two curves at every parameter for every knot vector", "anchors": ["nurbs/curve.go:curvePoint", "nurbs/basis.go:basisFuns", "nurbs/basis.go:findSpan"]}
{"id": "C146", "title": "Curves are variation diminishing", "statement": "If points of the curve at increasing parameters lie alternately on the two sides of a plane, then as many control points, in order, lie on the same sides; so no plane crosses the curve more often than the control polygon.", "quantifier": "all curves, planes and finite parameter lists (exact arithmetic)", "why_tests_cant": "quantifies over all planes and sample lists", "anchors": ["nurbs/curve.go:curvePoint", "nurbs/basis.go:basisFuns"]}
{"id": "C147", "title": "Convex control values give a convex curve", "statement": "If the control coordinates are the values of a convex function at the Greville abscissae, the coordinate of the curve is a convex function of the parameter and is nowhere below that function.", "quantifier": "all curves of degree at least 1, convex functions and pairs of parameters (exact arithmetic)", "why_tests_cant": "all parameters and convex functions", "anchors": ["nurbs/curve.go:curvePoint", "nurbs/basis.go:basisFuns"]}
{"id": "C148", "title": "Sphere and torus vertices are accurate in float64", "statement": "If math.Cos and math.Sin are correct to eps and the constants to a few units in the last place, every vertex of a sphere or torus mesh is finite and each coordinate is within (size)(3 eps + 130 * 2^-53) + 50 * 2^-1074 of a point exactly on the surface, for which an explicit formula is given.", "quantifier": "all library functions satisfying the accuracy bound, radii, sector and stack counts, vertices (float64)", "why_tests_cant": "all radii from 0 to 2^1000 and all mesh sizes up to 2^32 vertices", "anchors": ["shape/sphere.go:generateVertices", "shape/torus.go:generateVertices"]}
{"id": "C149", "title": "Circle and ellipse vertices are accurate in float64", "statement": "Under the same assumption the vertices of a circle or ellipse fan are finite, within (semi-axis + |centre|)(eps + 60 * 2^-53) + 3 * 2^-1074 of the exact points, and have exactly the centre's z.", "quantifier": "all library functions satisfying the accuracy bound, centres, semi-axes, sector counts, vertices (float64)", "why_tests_cant": "all centres and semi-axes up to 2^1000", "anchors": ["shape/circle.go:generateVertices", "shape/ellipse.go:generateVertices"]}
{"id": "C150", "title": "Sphere normals are nearly unit outward normals in float64", "statement": "Each stored normal of a sphere of radius between 2^-1000 and 2^1000 is, coordinate by coordinate, within 3 eps + 135 * 2^-53 of the unit outward normal.", "quantifier": "all library functions satisfying the accuracy bound, radii, mesh sizes, vertices (float64)", "why_tests_cant": "all radii over 2000 binades", "anchors": ["shape/sphere.go:generateVertices"]}
{"id": "C151", "title": "The seam of a sphere or torus mesh is closed in float64", "statement": "In every row of a sphere or torus mesh the last vertex is the same point as the first one, so the mesh is closed along the seam.", "quantifier": "all radii, mesh sizes and rows (float64)", "why_tests_cant": "concerns all mesh sizes and any accurate library sine", "anchors": ["shape/sphere.go:generateVertices", "shape/torus.go:generateVertices"]}
{"id": "C152", "title": "Exactly which files crash the lexer, and what it returns on all others", "statement": "Every byte sequence has exactly one layout: pieces as ReadLine cuts it, a head without equals signs and groups of pieces each starting with one. Lex terminates; it panics exactly if the head is not empty, there is no group, or some group does not denote a definition (identifier, equals sign, type, bracket, and a last argument of at least two characters); otherwise its table maps every identifier to its last definition.", "quantifier": "all byte sequences (no well-formedness, any length, invalid UTF-8, unbalanced brackets)", "why_tests_cant": "a biconditional over all files", "anchors": ["step/lex.go:Lex", "step/lex.go:add", "step/lex.go:tokenize", "step/util.go:getArguments"]}
{"id": "C153", "title": "Lines after the last definition do not change the table", "statement": "Appending lines without an equals sign (such as ENDSEC; and END-ISO-10303-21;) after the last definition of a file leaves the symbol table unchanged.", "quantifier": "all files of well-formed definitions and all such trailing lines", "why_tests_cant": "all files and trailing lines", "anchors": ["step/lex.go:Lex", "step/util.go:getArguments"]}
{"id": "C154", "title": "Exactly which symbol tables are parsed without a crash whatever the map order", "statement": "Parse returns normally for every iteration order of the map if and only if every definition of a handled type, and the definition it refers to unless it is itself, has the arguments (and the array or matrix texts) its handler reads.", "quantifier": "all symbol tables with distinct keys, all iteration orders", "why_tests_cant": "the map order is random; the claim is about all of them", "anchors": ["step/parse.go:Parse", "step/parse.go:runInferenceModel", "step/template.go", "step/bridge.go:bridge"]}
{"id": "C155", "title": "Point location by walking terminates and is correct", "statement": "On the triangulation Triangulate returns, a walk that repeatedly crosses any edge separating the current triangle from a query point never visits a triangle twice (points on one circle included), never increases the power of the point with respect to the circumcircle, and can only stop at a triangle that contains the point or at a hull edge the point is outside of; so it locates every point within the hull from any starting triangle.", "quantifier": "all inputs of Triangulate (exact arithmetic: all planar inputs; float64: 8-bit grids), all query points, all walks", "why_tests_cant": "all walks over all outputs; a cycle needs special point sets", "anchors": ["triangulate2/triangulation.go:Triangulate", "triangulate2/triangulator.go:addTriangle", "triangulate2/triangulator.go:link", "triangulate2/triangulator.go:legalize"]}
{"id": "C156", "title": "Number of edges and a vertex of degree at most five", "statement": "The triangulation of n vertices with h of them on the returned hull has exactly 3n-3-h edges, and some vertex is joined to at most five others.", "quantifier": "all inputs of Triangulate that are not collinear (exact arithmetic: all planar inputs; float64: 8-bit grids)", "why_tests_cant": "an exact count over all outputs", "anchors": ["triangulate2/triangulation.go:Triangulate", "triangulate2/triangulator.go:triangulate", "triangulate2/triangulator.go:addTriangle"]}
{"id": "C157", "title": "Accuracy and sign of the float64 determinants", "statement": "In float64, area, cross2D, orient3dfast, Get3Ddist, InSphereFast, Dot, Cross, SquaredDistance and Get2Ddist return a finite value whose error is at most ((1+2^-53)^k - 1) times the sum of the absolute values of the terms of the polynomial (k = 4, 4, 8, 8, 16, 3, 2, 5, 11), so the sign is right whenever the exact value exceeds that bound; inCircle classifies as in the plane every point whose determinant exceeds the bound with k = 11.", "quantifier": "all float64 points with coordinates that are multiples of 2^-180 of size at most 2^200 (every normal-size float), no grid", "why_tests_cant": "a bound over all float64 triples to quintuples; near-degenerate inputs are measure zero", "anchors": ["triangulate2/util.go:area", "triangulate2/util.go:inCircle", "triangulate2/hull.go:cross2D", "predicates/orient3d.go:orient3dfast", "predicates/insphere.go:InSphereFast", "triangulate3/util.go:Get2Ddist", "triangulate3/util.go:Get3Ddist", "r3/vector.go:Dot", "r3/vector.go:Cross", "r3/vector.go:SquaredDistance"]}
{"id": "C158", "title": "ConvexHull in float64 away from degeneracies", "statement": "If no three input points have an orientation within the rounding error of zero (other than repeated points and points on a common horizontal or vertical line) and no squared distance is within rounding of the threshold 2^-52, ConvexHull in float64 returns the points the exact algorithm returns: the convex hull of the input.", "quantifier": "all inputs with coordinates that are multiples of 2^-180 of size at most 2^200, any length, any sort", "why_tests_cant": "all inputs of any length with full 53-bit coordinates", "anchors": ["triangulate2/hull.go:ConvexHull", "triangulate2/hull.go:cross2D"]}
{"id": "C159", "title": "Accumulated error of polygon area, triangle area and perimeter", "statement": "In float64, polygonArea of n points is within ((1+2^-53)^(n+3)-1) of the shoelace area relative to the sum of the absolute values of its terms, the area of k triangles within (1+2^-53)^(k+4)-1 relative to the sum of their terms, and polygonPerimeter has relative error at most (n+7)/2^53; none of them overflows.", "quantifier": "all lists of up to 2^49 points with coordinates that are multiples of 2^-180 of size at most 2^200 (the perimeter figure up to 2^26-6 points)", "why_tests_cant": "a bound over all lists of any length", "anchors": ["triangulate2/util.go:polygonArea", "triangulate2/util.go:polygonPerimeter", "triangulate2/triangulation.go:area", "r3/vector.go:Distance"]}
{"id": "C160", "title": "Accuracy of circumcenter and circumradius in float64", "statement": "For three points with tame float64 coordinates whose triangle is mild (nonzero determinant, terms of the determinant at most 2^48 times the determinant, terms of the center at most 2^400), circumcenter returns finite coordinates with z = 0 at distance (|dx|+|dy|) at most 2^-48*cond*terms + 2^-53*(|ax|+|ay|) from the center of the circle through the three points; circumradius returns a finite value within 2^-47*cond*terms^2 of the squared radius whenever that bound is below the squared radius. Triangles with two coinciding vertices or with every determinant term zero get the radius +Inf.", "quantifier": "all float64 points with tame coordinates, all circles through them", "why_tests_cant": "the error depends on the flatness of the triangle over a continuum of inputs; tests compare a handful of well-shaped triangles only", "anchors": ["triangulate2/util.go:47-67", "triangulate2/util.go:69-83"]}
{"id": "C161", "title": "Triangulate in float64 away from degeneracies", "statement": "If no decision of Triangulate is within its rounding error (orientations, in-circle determinants, near-duplicate distances, radii on Gabriel edges, distances to the center of the empty seed circle), the float64 run never panics or loops, reports an error exactly for points on a line, and returns a paired, positively oriented Delaunay triangulation that tiles its hull and loses no point, with no tolerance. An integer test implies these conditions.", "quantifier": "all planar float64 inputs of any length with coordinates that are multiples of 2^-180 of size at most 2^200 and clear of rounding errors, any sort", "why_tests_cant": "all inputs of any length with full 53-bit coordinates; sampled inputs cannot show that rounding never changes the topology", "anchors": ["triangulate2/triangulator.go:triangulate", "triangulate2/triangulation.go:Triangulate", "triangulate2/util.go:inCircle", "triangulate2/util.go:circumradius"]}
{"id": "C162", "title": "Float64 triangulation equals the exact one", "statement": "On inputs clear of rounding errors without near-duplicates, the triangles returned by the float64 run are exactly those with an empty circumcircle, and the exact real-arithmetic run on the same points in any order and with any sort reports the same error flag and has the same triangles.", "quantifier": "all inputs of C161 whose points are pairwise different and not near-duplicates, all permutations, all sorts", "why_tests_cant": "compares a float64 program with a program over the reals, which cannot be run", "anchors": ["triangulate2/triangulator.go:triangulate", "triangulate2/triangulation.go:Triangulate"]}
{"id": "C163", "title": "Validate accepts in float64 away from degeneracies", "statement": "On inputs clear of rounding errors without near-duplicates, the hull of the triangulation and ConvexHull of the points list the same points in the same cyclic order, and Validate accepts the float64 result of Triangulate whenever the accumulated error bounds of the two hull areas, the triangle areas and the perimeters are at most 2^-30. For m hull vertices, k triangles and coordinates at most S: when 4m(m+4)S^2, (2m(m+4)+4k(k+5))S^2 and 6m(m+7)S are at most 2^23; for n points when 18(n+2)^2 S^2 and 6n(n+7)S are.", "quantifier": "all inputs of C161, not empty, with pairwise separated points, any sorts, within the size bounds", "why_tests_cant": "a tolerance of 1e-9 on sums of rounded terms can be exceeded only by rare inputs; the bound holds for every input of any length", "anchors": ["triangulate2/triangulation.go:Validate", "triangulate2/hull.go:ConvexHull", "triangulate2/util.go:polygonArea"]}
{"id": "C164", "title": "Delaunay properties of the float64 triangulation away from degeneracies", "statement": "On inputs clear of rounding errors the float64 result contains every edge with an empty circle (Gabriel edges, nearest neighbours, bottleneck paths), greedy routing reaches a nearest vertex, its smallest angle is the largest and its largest circle the smallest among all triangulations of its vertices, it interpolates |q|^2 best, walking towards a point never revisits a triangle and ends in a triangle that contains it, and it has 2v-2-h triangles and 3v-3-h edges.", "quantifier": "all inputs of C161 for which no error is reported, all query points, all other triangulations", "why_tests_cant": "quantifies over all inputs, all query points and all competing triangulations", "anchors": ["triangulate2/triangulator.go:triangulate", "triangulate2/triangulation.go:Triangulate"]}
{"id": "C165", "title": "Point-in-tetrahedron test in float64 away from the faces", "statement": "In float64 vectorInTetrahedron and VectorInTetrahedron accept exactly the points inside the tetrahedron when the determinants of the point and of the opposite vertex with respect to the four faces exceed the error of eight roundings; inside then means strictly inside, and each determinant is accurate to that error.", "quantifier": "all tetrahedra and points with tame coordinates clear of the faces", "why_tests_cant": "equivalence of a rounded test with a geometric predicate over all such inputs", "anchors": ["meshing/util.go:sameSide", "meshing/util.go:vectorInTetrahedron", "triangulate3/util.go:SameSide", "triangulate3/util.go:VectorInTetrahedron"]}
{"id": "C166", "title": "The initial tetrahedron contains all points up to rounding", "statement": "In float64 the tetrahedron built by englobe has finite vertices and every input point lies within 2^-50 of the largest coordinate of a point of the tetrahedron, although it can lie outside (C112).", "quantifier": "all non-empty lists of points that are multiples of 2^-180 and at most 2^197", "why_tests_cant": "error bound for all inputs", "anchors": ["meshing/mesh.go:englobe", "meshing/helper.go:computerInitialTetraPoints", "meshing/helper.go:findExtremas"]}
{"id": "C167", "title": "bowyerWatson in float64 away from degenerate positions", "statement": "When every point is clear of the spheres through four earlier points (including the four vertices computed in float64), bowyerWatson in float64 is incremental insertion with the sign of the exact in-sphere determinant, and returns the faces without initial vertices of the final tetrahedra.", "quantifier": "all point lists clear of such spheres, all map orders", "why_tests_cant": "whole runs for all point lists and iteration orders", "anchors": ["meshing/mesh.go:bowyerWatson", "meshing/mesh.go:englobe", "predicates/insphere.go:InSphereFast"]}
{"id": "C168", "title": "createInitialTetra in float64 is optimal up to rounding", "statement": "In float64 createInitialTetra takes the first two vertices from the input with least and greatest X, a third whose squared area no input point exceeds by more than the two rounding errors, and a fourth whose negated determinant no input point exceeds by more than the two rounding errors; where no candidate is positive beyond its error the origin is taken. Points that win by more than the errors are chosen and the tetrahedron is then not flat.", "quantifier": "all non-empty lists of tame points with X below MaxFloat32", "why_tests_cant": "optimality up to an error bound for all inputs", "anchors": ["triangulate3/gdel3d.go:createInitialTetra", "triangulate3/gdel3d.go:computeExtremitiesForAxeX", "triangulate3/gdel3d.go:getFurthestFromTwoVectors", "triangulate3/gdel3d.go:getFurthestFromthreeVectors", "triangulate3/util.go:Get2Ddist", "triangulate3/util.go:Get3Ddist"]}
{"id": "C169", "title": "B-spline surfaces of a STEP file are read field by field and their report determines them", "statement": "For every STEP file that defines a B_SPLINE_SURFACE_WITH_KNOTS, lexing the file and running the surface handler on its key yields a job whose twelve fields are the name, degrees, control point matrix, form, closedness flags, multiplicities and knots written in the file; the logical flags are true exactly for .T. (so .U. is read as false). The handler runs in every map iteration order exactly when no axis placement or product definition passes the key on. The printed report determines the job when its texts have no line ends and its list items no blanks or square brackets.", "quantifier": "all files of well-formed definitions, all surfaces, all map iteration orders, all pairs of readable jobs", "why_tests_cant": "quantifies over all files and all map iteration orders; injectivity of the printed report is a property of pairs of values", "anchors": ["step/job.go:print", "step/template.go:bSplineSurfaceWithKnots", "step/util.go:getMatrix", "step/util.go:getArray", "step/util.go:getLogical", "step/lex.go:Lex", "step/parse.go:Parse"]}
{"id": "C170", "title": "Sphere and torus meshes are close to the surfaces they stand for", "statement": "Every point of every triangle of the sphere mesh lies inside the sphere and its squared distance from the centre falls short of r^2 by at most a third of the squared grid step; every point of the sphere has a mesh point within one grid step; the torus mesh and the torus are within one grid step of each other in both directions; the mesh of ConstructSphere lies between 0.9998 r and r from its centre.", "quantifier": "all positive radii, all sector and stack counts whose vertices fit in uint32 indices, all points of all triangles and all points of the surface", "why_tests_cant": "a bound over the continuum of points of each triangle for every resolution", "anchors": ["shape/sphere.go:sphereConstruct", "shape/torus.go:torusConstruct", "shape/sphere.go:ConstructSphere"]}
{"id": "C171", "title": "The triangulation does not depend on the unit of length or the origin", "statement": "Multiplying all coordinates by a positive factor and moving them in the plane leaves the triangles, the half-edge links, the error and any panic of Triangulate unchanged and moves the hull points along, provided the near-duplicate test (squared distance below 2^-52) decides the same for every two points; moving alone needs no proviso, nor does enlarging points that are at least 2^-26 apart. In float64, multiplying by a power of two gives bit for bit the same triangles and half-edges and the hull points multiplied by that power.", "quantifier": "all point lists, all factors and offsets, every sort that looks only at the comparisons of its elements; in float64 all exponents and all finite coordinates that are multiples of 2^-90 up to 2^90 before and after", "why_tests_cant": "a relation between two runs for every input and every factor; a test compares a few pairs of runs", "anchors": ["triangulate2/triangulator.go:triangulate", "triangulate2/triangulator.go:hashKey", "triangulate2/util.go:pseudoAngle", "triangulate2/triangulation.go:Triangulate"]}
{"id": "C172", "title": "Neither the hull nor the tetrahedral mesh depends on the unit of length or the origin", "statement": "Multiplying all coordinates by a positive factor and moving them moves the points of ConvexHull along and leaves every other aspect of it unchanged, provided the near-duplicate test decides the same for every two points; the triangle list of bowyerWatson (or its panic) is exactly the same. In float64, multiplying by a power of two gives the same points of the hull multiplied by that power, and bit for bit the same triangle list of bowyerWatson, with no proviso on distances. Insertion sort by X then Y meets what the hull theorems ask of the sort on every input.", "quantifier": "all point lists, all positive factors, all offsets, all map iteration orders, every sort that orders the moved points as the points; in float64 all exponents and all finite coordinates that are multiples of 2^-90 up to 2^90 before and after", "why_tests_cant": "a relation between two runs for every input, factor and iteration order", "anchors": ["triangulate2/hull.go:ConvexHull", "meshing/mesh.go:bowyerWatson", "predicates/insphere.go:InSphereFast"]}
{"id": "C173", "title": "Everything Parse prints is determined by the handlers it runs", "statement": "The standard output of Parse is the concatenation of one block of lines per handler that was run, in the order of the run; if Parse panics the output is the blocks of the handlers before it followed by the first lines of the handler that panics. The work list printed for a face on a sphere always has exactly two entries, the face and the sphere. A table in which no definition passes keys on prints the block of each entry in the order of iteration. A file of n differently named definitions of one type without a handler prints n times the same line, in every iteration order. For every B-spline surface of a file whose key no definition passes on, its heading and its twelve-line report appear as one contiguous piece of the output in every iteration order.", "quantifier": "all symbol tables, all map iteration orders, all addresses of the handlers; all well-formed STEP files for the file-level parts", "why_tests_cant": "all iteration orders and all tables; the tests of the package print and check nothing", "anchors": ["step/parse.go:Parse", "step/parse.go:runInferenceModel", "step/template.go:advancedFace", "step/template.go:skipUtility", "step/template.go:bSplineSurfaceWithKnots", "step/job.go:print"]}
{"id": "C174", "title": "Smoothness of B-spline curves, their polynomial pieces and their tangents", "statement": "If no inner knot has multiplicity above m, the curve has p-m continuous derivatives on the open domain; the k-th derivative is curvePoint of degree p-k for the iterated difference quotients of the control points. On every knot span the curve is a polynomial of degree at most p. A clamped curve leaves its first and reaches its last control point along the first and last leg of the control polygon, with slope p times the difference of the control points over the length of the end span. At an inner knot of multiplicity p the curve passes through a control point, arrives and leaves along the legs of the control polygon, and has a derivative exactly if the two slopes agree.", "quantifier": "all knot vectors, degrees, control points, parameters and coordinates (exact arithmetic)", "why_tests_cant": "existence and continuity of derivatives are limits over the continuum of parameters", "anchors": ["nurbs/curve.go:curvePoint", "nurbs/basis.go:basisFuns", "nurbs/basis.go:findSpan"]}
{"id": "C175", "title": "Every exported shape is a valid glTF document that shows the shape", "statement": "Exporting the mesh of a sphere, torus, circle or ellipse gives a document in which every reference (scene, node, mesh, accessor) leads to an existing object of the right kind, every triangle corner names an existing position, positions and colours are equally many and all positions are finite float32 numbers; opening it shows exactly one primitive, whose positions lie within float32 rounding of the points of the shape.", "quantifier": "all meshes (validity and what is shown); all radii up to 2^127, sector and stack counts, and implementations of Sin and Cos of a given accuracy (spheres and tori); all circles and ellipses", "why_tests_cant": "the claim covers every mesh and every radius; the export test only checks that a file appears", "anchors": ["glTF/export.go:Export", "glTF/model.go:transferModel", "shape/sphere.go:Construct", "shape/torus.go:Construct", "shape/circle.go:Construct", "shape/ellipse.go:Construct"]}
{"id": "C176", "title": "Cost: quadratic triangulation, linear hull scan, logarithmic knot search", "statement": "Triangulating n points in a plane makes at most 2 (n-1) (n-3) in-circle tests and at least one for every triangle of the result but the first, one call of legalize makes fewer than two for every triangle there is and at least one for every two entries it changes, ConvexHull compares at most four cross products for every point kept and at least two for every one after the second (popping costs exactly one for every point popped and one more unless a single point is left), and findSpan finds the span in at most ceil(log2(number of spans)) + 1 rounds for every parameter in the domain.", "quantifier": "all planar inputs (exact arithmetic), all grid inputs and all inputs clear of rounding errors (float64), all sorts; legalize and ConvexHull in every arithmetic; all knot vectors and parameters in the domain, exact and float64", "why_tests_cant": "a test measures the running time on the inputs it has; the bound is about the worst input of every size", "anchors": ["triangulate2/triangulator.go:triangulate", "triangulate2/triangulator.go:legalize", "triangulate2/hull.go:ConvexHull", "nurbs/basis.go:findSpan"]}
{"id": "C177", "title": "The lexer's channel keeps the order and holds two symbols", "statement": "emit returns exactly when fewer than two symbols are waiting in the lexer's channel, and then the symbol is the last one waiting. With one goroutine emitting a list of symbols and another one receiving r times, in every interleaving what was received, what is waiting and what is still to be emitted are together the list, in its order; every run comes to rest, always in the same state: the first r symbols received, the next two waiting, and the emitter blocked for ever exactly when there are more than r + 2 symbols. Without a receiver (there is none in the repository) the third emit never returns.", "quantifier": "all lists of symbols, all numbers of receives, all interleavings of the two goroutines", "why_tests_cant": "a test runs one schedule; the statement is about every one, and about blocking for ever", "anchors": ["step/lex.go:initLexer", "step/lex.go:emit"]}
{"id": "C178", "title": "The triangulation contains a minimum spanning tree", "statement": "Call network any list of links between vertices of the triangulation that connects all of them, and let the cost of a link be any non-negative, non-decreasing function of its length. Every network can be replaced by one of edges of triangles with no more links, whose cost is not greater whatever the cost function (so neither the total length nor the longest link grows); and for every cost function some network of edges of triangles, from which no link can be left out, is at most as expensive as every network.", "quantifier": "all planar inputs (exact arithmetic), all grid inputs and all inputs clear of rounding errors (float64), all sorts, all networks, all cost functions", "why_tests_cant": "the claim compares with all networks on the vertices, of which there are exponentially many", "anchors": ["triangulate2/triangulation.go:Triangulate", "triangulate2/triangulator.go:legalize"]}
{"id": "C179", "title": "Circumcentres are the Voronoi corners and bound the empty circles", "statement": "The points of the plane whose nearest vertices do not all lie on one line are exactly the circumcentres of the returned triangles, also with cocircular vertices; vertices joined by an edge have a common point for which both are nearest, and two vertices that are the only nearest ones of some point are joined. Every circle centred in the hull with no vertex inside satisfies s^2 + |q-o|^2 <= r^2 for the circumcircle (o, r) of some triangle, so the largest empty circle centred in the hull is no larger than the largest circumcircle, and if no circumradius exceeds m every point of the hull has a vertex within m.", "quantifier": "all planar inputs (exact arithmetic), all grid inputs and all inputs clear of rounding errors (float64), all sorts, all points of the plane", "why_tests_cant": "the claim is about every point of the plane", "anchors": ["triangulate2/triangulation.go:Triangulate", "triangulate2/util.go:circumcenter", "triangulate2/util.go:circumradius"]}
{"id": "C180", "title": "A curve is no longer than its control polygon", "statement": "The broken line through any points returned by curvePoint, in the order of their parameters, is no longer than the broken line through the control points; so the curve has a length, at most that of the control polygon. In float64 the broken line is longer by at most twice the rounding bound of each of its points.", "quantifier": "all knot vectors, degrees at least 1, control points in space, inner knots of multiplicity at most the degree, all finite sequences of parameters in the domain in order (exact arithmetic); in float64 under the conditions of C106", "why_tests_cant": "the claim is about every sequence of parameters, of every length", "anchors": ["nurbs/curve.go:curvePoint", "nurbs/basis.go:basisFuns"]}
{"id": "C181", "title": "Curves stay close to the control points that act on them", "statement": "Moving the control points that act at a parameter by at most d moves the point returned by curvePoint by at most d; the point is in every ball that holds those control points; two points of a curve are no further apart than two control points that act on them; and every point is within (p+1)/2 legs of the control polygon, rounded down, of a control point. In float64 the stability, ball and distance bounds hold up to an explicit rounding term.", "quantifier": "all knot vectors, degrees, control points in space and parameters in the domain (exact arithmetic); in float64 all degrees up to 180, knots below 2^53, finite control points of size at most M, 2^-900 <= M <= 2^900, and finite parameters in the domain", "why_tests_cant": "the bounds are about every pair of control polygons and every parameter; a test sees one curve at a few parameters", "anchors": ["nurbs/curve.go:curvePoint", "nurbs/basis.go:basisFuns", "nurbs/basis.go:findSpan"]}
