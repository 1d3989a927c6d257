{"id": "C01", "title": "Parameter count equals mesh size", "statement": "For a domain with n>=3 sides and any resolution r>=1, the parameter list handed out by the domain has exactly meshSize(r) points, the same number as the vertices of meshTopology(r), so every mesh vertex gets exactly one surface point in Surface::eval(r). This holds for polygonal domains (3, 4 and more sides) and for the circular domain.", "quantifier": "all numbers of sides, all resolutions, all vertex positions", "why_tests_cant": "the three layouts are generated by nested loops whose counts must agree with a closed formula for every (n, r); tests sample a few", "anchors": ["src/transfinite/domain.cc:Domain::meshSize,parametersImpl,meshTopology", "src/transfinite/domain-circle.cc:DomainCircle::meshSize,parametersImpl", "src/transfinite/surface.cc:Surface::eval(size_t)"]}
{"id": "C02", "title": "Mesh triangles only use existing vertices", "statement": "Every triangle produced by meshTopology(r) refers to three pairwise different vertex indices, all smaller than meshSize(r), and the number of triangles is r^2 (3 sides), 2r^2 (4 sides) or n r^2 (otherwise).", "quantifier": "all numbers of sides n>=3, all resolutions", "why_tests_cant": "index arithmetic carries running counters over three nested loops; an off-by-one shows only for some (n, r)", "anchors": ["src/transfinite/domain.cc:Domain::meshTopology", "src/transfinite/domain-circle.cc:DomainCircle::meshTopology"]}
{"id": "C03", "title": "The mesh is a consistently oriented surface without T-junctions or duplicate faces", "statement": "In meshTopology(r) no directed edge is used by two triangles, so every edge has at most one triangle on each side, and every edge that is not on the outer boundary is used in both directions (by exactly two triangles).", "quantifier": "all numbers of sides n>=3, all resolutions r>=1, all pairs of mesh vertices", "why_tests_cant": "manifoldness is a statement about all pairs of triangles for unboundedly many meshes", "anchors": ["src/transfinite/domain.cc:Domain::meshTopology", "src/transfinite/domain-circle.cc:DomainCircle::meshTopology"]}
{"id": "C04", "title": "The mesh boundary is one closed loop running over exactly the onEdge vertices", "statement": "The directed edges of meshTopology(r) that have no opposite partner form one closed loop visiting n*r vertices, and these are exactly the vertices for which onEdge(r, index) is true.", "quantifier": "all numbers of sides n>=3, all resolutions r>=1, all vertex indices below meshSize(r)", "why_tests_cant": "onEdge and meshTopology are independent pieces of index arithmetic (one uses a perfect-square test); agreement must hold for every index and every resolution", "anchors": ["src/transfinite/domain.cc:Domain::onEdge,meshTopology", "src/transfinite/domain-circle.cc:DomainCircle::onEdge"]}
{"id": "C05", "title": "The perfect-square test in onEdge is exact in double precision", "statement": "For triangular domains the onEdge test, which rounds a double precision square root, gives the mathematically correct answer as long as 8*index+9 is below 2^53.", "quantifier": "all vertex indices below 2^50", "why_tests_cant": "rounding of sqrt could fail for a single huge index; no test enumerates 2^50 indices", "anchors": ["src/transfinite/domain.cc:Domain::onEdge"]}
{"id": "C06", "title": "Edge parameters lie on the domain sides", "statement": "For every mesh vertex index the parameter point lies on the polygon side k at fraction i/r (i.e. equals edgePoint(k, i/r) for some side k and 0<=i<=r) whenever onEdge says so, and all n*r such points are hit; interior indices are not of this form unless the polygon is degenerate.", "quantifier": "all numbers of sides n>=3, all resolutions r>=1, all vertex positions", "why_tests_cant": "relates parameter generation with edge classification for unboundedly many meshes", "anchors": ["src/transfinite/domain.cc:Domain::parametersImpl,onEdge,edgePoint"]}
{"id": "C07", "title": "Parameters stay inside the domain", "statement": "Every point returned by parameters(r) is a convex combination of the polygon vertices.", "quantifier": "all polygons with n>=3 vertices and positive perimeter, all resolutions r>=1, all indices", "why_tests_cant": "quantifies over all real polygons and all resolutions", "anchors": ["src/transfinite/domain.cc:Domain::parametersImpl,computeCenter"]}
{"id": "C08", "title": "No flipped mesh triangle in the parameter plane", "statement": "If the domain polygon is a counter-clockwise convex polygon (triangle, quadrilateral, or n-gon seen counter-clockwise from its center), every triangle of meshTopology(r) has strictly positive signed area when its vertices are placed at parameters(r).", "quantifier": "all convex polygons, all resolutions, all triangles", "why_tests_cant": "a geometric inequality for unboundedly many triangles and all real vertex positions", "anchors": ["src/transfinite/domain.cc:Domain::parametersImpl,meshTopology"]}
{"id": "C09", "title": "Parameter caching is invisible for polygonal domains, and leaks for the circular domain", "statement": "For polygonal domains, whatever sequence of updates (with new vertices) and parameters(r) queries happened before, parameters(r) returns the list freshly computed from the current vertices. For the circular domain this fails: after a change of the number of sides, update does not drop the cached list and a later query of equal size returns the old one.", "quantifier": "all histories of update / parameters calls with arbitrary resolutions and vertex sets", "why_tests_cant": "depends on the whole call history; the failing history needs a numerical coincidence of mesh sizes", "anchors": ["src/transfinite/domain.cc:Domain::parameters,update", "src/transfinite/domain-circle.cc:DomainCircle::update", "src/transfinite/domain-regular.cc:DomainRegular::update"]}
{"id": "C10", "title": "Local coordinate frames are inverse to each other and point inwards", "statement": "After update, converting a vector to the local system of side i and back gives the vector, and vice versa, whenever side i has nonzero length; side i itself has local coordinates (1,0); local axes are perpendicular, of equal length, and the domain center has non-negative second local coordinate relative to the side.", "quantifier": "all polygons, all sides, all vectors", "why_tests_cant": "real-valued universal statement", "anchors": ["src/transfinite/domain.cc:Domain::update,toLocal,fromLocal"]}
{"id": "C11", "title": "Line/edge intersection is sound but ignores the ray direction", "statement": "If intersectEdgeWithRay reports a hit, the reported point is on the closed side i, and it is on the line through p with direction v whenever the unclamped parameter is in [0,1]; if a proper crossing exists (not nearly parallel) a hit is reported. It also reports hits that lie behind the start point of the ray.", "quantifier": "all polygons, sides, points and directions, all positive tolerances", "why_tests_cant": "real-valued universal statement with tolerance branches", "anchors": ["src/transfinite/domain.cc:Domain::intersectEdgeWithRay"]}
{"id": "C12", "title": "Regular and circular domains are strictly convex counter-clockwise polygons", "statement": "For n>=3, the regular domain's and the arc-length-circular domain's vertices form a strictly convex counter-clockwise polygon: every vertex not on a side lies strictly to the left of it. Regular n-gon vertices lie on the unit circle (n<>4), and DomainRegular::update returns false exactly when the number of sides did not change, in which case the vertices are already right.", "quantifier": "all n>=3, all positive side lengths", "why_tests_cant": "trigonometric inequality for every n and every length distribution", "anchors": ["src/transfinite/domain-regular.cc:DomainRegular::update", "src/transfinite/domain-circular.cc:DomainCircular::update"]}
{"id": "C13", "title": "Angular domains close, fit in the unit box, and the convexity test has a blind spot", "statement": "The polygon laid out by DomainAngular from side lengths and corner angles is closed (its last vertex is the starting point before rescaling), the rescaled vertices are in [-1,1]x[-1,1], and when the convexity test accepts the polygon every corner whose incoming side is not horizontal turns left. A corner with a horizontal incoming side is not tested, so a non-convex domain can be accepted.", "quantifier": "all side lengths and corner angles", "why_tests_cant": "real-valued universal statement; the blind spot needs an exact coincidence", "anchors": ["src/transfinite/domain-angular.cc:DomainAngular::update"]}
{"id": "C14", "title": "binomial is exact until an intermediate product overflows", "statement": "binomial(n,k) equals the number of k-subsets of an n-set (0 for k>n) provided no intermediate product C(n,d-1)*(n-d+1) with d<=k exceeds 2^64-1; the divisions are always exact. There are arguments whose true value fits into 64 bits but whose returned value is wrong.", "quantifier": "all n, k below 2^64", "why_tests_cant": "64-bit wrap-around behaviour over the whole argument space", "anchors": ["src/transfinite/utilities.cc:binomial"]}
{"id": "C15", "title": "Bernstein evaluation is correct, non-negative and sums to one", "statement": "Both Bernstein evaluators return C(n,i) u^i (1-u)^(n-i); the list version has n+1 entries, they add up to 1, are non-negative for u in [0,1] and symmetric under u -> 1-u.", "quantifier": "all degrees, all indices, all real u", "why_tests_cant": "polynomial identity for every degree", "anchors": ["src/transfinite/utilities.cc:bernstein"]}
{"id": "C16", "title": "Hermite blend functions", "statement": "The four cubic Hermite blend functions have the end values and end derivatives of the C1 Hermite basis, except that function 2 has the opposite sign (its derivative at t=1 is -1); functions 0 and 3 add up to one, function 0 is decreasing on [0,1] with values in [0,1], and function 0 at 1-t equals function 3 at t.", "quantifier": "all real parameters", "why_tests_cant": "real-valued universal statement, derivatives", "anchors": ["src/transfinite/utilities.cc:hermite"]}
{"id": "C17", "title": "Degree elevation does not change the curve", "statement": "bezierElevate turns any control polygon of d+1>=1 points into one of d+2 points describing the same Bezier curve, with the same end points.", "quantifier": "all control polygons of all degrees, all parameters", "why_tests_cant": "identity for every degree and every real parameter", "anchors": ["src/transfinite/utilities.cc:bezierElevate"]}
{"id": "C18", "title": "Bezier curve class: evaluation, derivatives and reversal", "statement": "BCurve::eval computes the Bezier curve of its control points; the derivative overload returns a list of nr_der+1 vectors whose k-th entry is the k-th derivative of the curve (zero above the degree); reverse() turns the curve C(u) into C(1-u), twice gives the original curve.", "quantifier": "all control polygons, all degrees, all real parameters, all derivative orders", "why_tests_cant": "identity for every degree, derivative order and parameter", "anchors": ["src/utils/bezier.cc:BCurve::eval,derivativeControlPoints,reverse,bernstein,bernsteinAll"]}
{"id": "C19", "title": "Barycentric coordinates sum to one and are positive inside", "statement": "For every strictly convex polygon and every point strictly inside, the Wachspress coordinates are defined, strictly positive and add up to one.", "quantifier": "all strictly convex polygons with n>=3 vertices, all interior points", "why_tests_cant": "real-valued statement for every n and polygon", "anchors": ["src/transfinite/parameterization-barycentric.cc:barycentric"]}
{"id": "C20", "title": "Barycentric coordinates reproduce the point", "statement": "For all three coordinate types (Wachspress, mean value, discrete harmonic) the coordinate-weighted sum of the polygon vertices is the query point, whenever the point is off all side lines and the weights do not cancel.", "quantifier": "all polygons with n>=3 vertices, all points in general position", "why_tests_cant": "algebraic identity for every n", "anchors": ["src/transfinite/parameterization-barycentric.cc:barycentric"]}
{"id": "C21", "title": "Barycentric coordinates on a side are linear", "statement": "At the point dividing side i in ratio s:(1-s) the Wachspress coordinates are 1-s for the start vertex, s for the end vertex, and 0 for all others.", "quantifier": "all strictly convex polygons, all sides, all s in [0,1]", "why_tests_cant": "real-valued statement for every n and polygon", "anchors": ["src/transfinite/parameterization-barycentric.cc:barycentric", "src/transfinite/domain.cc:Domain::edgePoint"]}
{"id": "C22", "title": "Ribbon coordinates on the boundary (barycentric, bilinear, interconnected, constrained, parallel, circular)", "statement": "At the point dividing side i in ratio s:(1-s), the parameterization gives side i the coordinates (s,0); the neighbouring sides get side parameters 1 and 0, and for the constrained kinds distance parameters s and 1-s, and no division by zero happens. The circular parameterization returns the distance only: 0 for side i, s and 1-s for its neighbours, 1 for all others. Within epsilon of the last corner the barycentric fallback may give the previous side parameter 0 instead of 1; on a triangle it does.", "quantifier": "all admissible polygons, all sides, all s in [0,1], each parameterization", "why_tests_cant": "real-valued statement for every n, polygon, side and s", "anchors": ["src/transfinite/parameterization-barycentric.cc", "src/transfinite/parameterization-bilinear.cc", "src/transfinite/parameterization-interconnected.cc", "src/transfinite/parameterization-constrained-barycentric.cc", "src/transfinite/parameterization-parallel.cc", "src/transfinite/parameterization-circular.cc"]}
{"id": "C23", "title": "The bilinear parameterization inverts the bilinear map", "statement": "For a point in the convex quadrilateral spanned by side i and its two neighbours the bilinear parameterization returns the (s,d) whose bilinear image is the point.", "quantifier": "all quadrilateral configurations with non-degenerate discriminant, all points", "why_tests_cant": "quadratic root selection over all reals", "anchors": ["src/transfinite/parameterization-bilinear.cc:mapToRibbon"]}
{"id": "C24", "title": "Parameterization caches are invisible", "statement": "For any interleaving of updates and mapToRibbons queries, each query returns what an uncached computation on the current domain would return, and entry i equals mapToRibbon(i, uv).", "quantifier": "all call histories, all query points", "why_tests_cant": "history-dependent", "anchors": ["src/transfinite/parameterization.cc:mapToRibbons,update", "src/transfinite/parameterization-barycentric.cc:barycentric,update", "src/transfinite/parameterization-interconnected.cc:mapToRibbons"]}
{"id": "C25", "title": "Bisection stays in its bracket", "statement": "The bisection used by the circular parameterization always returns a value in the start interval after at most 100 steps, and if the function changes sign on the interval every intermediate interval contains a sign change; therefore the distance parameter of the circular parameterization is in [0,1] for every point of the disk.", "quantifier": "all functions (including ones with undefined values), all intervals, all disk points", "why_tests_cant": "quantifies over all functions", "anchors": ["src/transfinite/parameterization-circular.cc:bisect,mapToRibbon"]}
{"id": "C26", "title": "Singular side blends form a partition of unity", "statement": "blendSideSingular returns one weight per side, all non-negative, adding up to one, without ever dividing by zero; when some sides are closer than the tolerance all weight goes equally to them.", "quantifier": "all lists of ribbon coordinates of any length n>=1, all positive tolerances", "why_tests_cant": "real-valued inputs, branch on tolerance", "anchors": ["src/transfinite/surface.cc:Surface::blendSideSingular"]}
{"id": "C27", "title": "Corner blends form a partition of unity except where two non-adjacent sides are close", "statement": "blendCorner returns n non-negative weights without dividing by zero (n>=2); they add up to one if no side, exactly one side, or exactly two adjacent sides (n>=3) are within the tolerance. If two non-adjacent sides are within the tolerance all weights are zero, and if three consecutive ones are they add up to two. With Wachspress coordinates at a point of a closed convex polygon and a tolerance of at most 1/3 the weights always add up to one.", "quantifier": "all lists of ribbon coordinates, all positive tolerances", "why_tests_cant": "real-valued inputs, branch on tolerance", "anchors": ["src/transfinite/surface.cc:Surface::blendCorner"]}
{"id": "C28", "title": "Ribbon dominance near its side is quadratic", "statement": "When no side is within the tolerance, one minus the singular blend weight of side i is at most d_i^2 times the sum of the inverse squares of the other distances, so the patch agrees with ribbon i up to second order in the distance.", "quantifier": "all lists of positive distances", "why_tests_cant": "real inequality for every n", "anchors": ["src/transfinite/surface.cc:Surface::blendSideSingular"]}
{"id": "C29", "title": "Gamma correction and corner data are harmless on the boundary", "statement": "With or without gamma, distance 0 maps to 0, the map is increasing on [0,inf) with values below 1/2 (gamma on), the side interpolant at distance 0 is the boundary curve, and the corner correction at s2=0 equals the linear cross-boundary term of the neighbouring ribbon, so that the corner interpolant reproduces both of its boundary curves.", "quantifier": "all curves with compatible corner data, all parameters", "why_tests_cant": "real-valued universal statement", "anchors": ["src/transfinite/surface.cc:gamma,sideInterpolant,cornerCorrection,cornerInterpolant,cornerInterpolantD,rationalTwist"]}
{"id": "C30", "title": "Rotation minimizing frames stay orthonormal and hit both end normals", "statement": "update() succeeds on curves with non-zero derivative and increasing arc length that leave the tolerance of their start point at some sample. Every frame then lies at a curve point with the unit tangent there and a unit normal; frame i is perpendicular to the tangent up to i*sqrt(epsilon), and exactly if no mirrored tangent is (unequal but) within the tolerance of the new tangent. The frame list is sorted by parameter and starts at 0, so evaluation at any u>=0 finds a frame and gives a unit normal, while a negative u steps back from the beginning of the list. The normal at 0 is the start normal; at 1 it is the end normal, if that is perpendicular to the last frame's tangent. In between it is perpendicular to the tangent at u (or at an earlier parameter whose point is within the tolerance). For a ribbon these end normals are the unit normals of the planes of the curve and its neighbours.", "quantifier": "all curves, tolerances, resolutions, start and end normals, parameters", "why_tests_cant": "iterated real-valued construction, 100 steps of reflections", "anchors": ["src/transfinite/rmf.cc:RMF::update,eval,nextFrame,rotateFrame,rotationMatrix"]}
{"id": "C31", "title": "Rotation matrices are rotations", "statement": "The rotation matrix used for frame correction keeps lengths and angles, fixes its axis, turns perpendicular vectors by the given angle counterclockwise around the axis, and rotations around the same axis add up.", "quantifier": "all unit axes, all angles, all vectors", "why_tests_cant": "real-valued universal statement", "anchors": ["src/transfinite/rmf.cc:RMF::rotationMatrix"]}
{"id": "C32", "title": "Cross derivatives are tangent to the normal fence and compatible at the ends", "statement": "A ribbon is at parameter 0 its curve, and linear with the cross-derivative. For compatible ribbons (with or without handler) and perpendicular ribbons the cross-derivative is perpendicular to the ribbon normal at every parameter when the normal has unit length (for the perpendicular one, is perpendicular to the tangent), and at the two ends it equals the neighbours' end tangents if the normal there is perpendicular to them (and, for the perpendicular one, to the curve). The default handler is a unit vector in the middle tangent plane, and the cross-derivative there is this vector with the average tangent length times the multiplier. With the fence computed by update() the end conditions hold.", "quantifier": "all curves, handlers, multipliers and parameters", "why_tests_cant": "real-valued universal statement", "anchors": ["src/transfinite/ribbon-compatible.cc", "src/transfinite/ribbon-compatible-with-handler.cc", "src/transfinite/ribbon-perpendicular.cc", "src/transfinite/ribbon.cc:Ribbon::eval"]}
{"id": "C33", "title": "Coons ribbons interpolate all four of their boundaries", "statement": "A Coons ribbon built from three consecutive curves of a closed loop interpolates its base curve at d=0, the previous curve at s=0 and the next curve at s=1.", "quantifier": "all loops of curves with matching end points, n>=3, all parameters", "why_tests_cant": "real-valued universal statement", "anchors": ["src/transfinite/ribbon-coons.cc"]}
{"id": "C34", "title": "Ribbon settings behave like a register, except that reset keeps the normal fence", "statement": "After any sequence of setting calls, ribbonMultiplier(i) returns the last multiplier set since the last reset or curve change (1 initially) and ribbonHandler(i) the normalised last handler (nothing initially); other sides are unaffected. resetRibbon does not remove an overridden normal fence.", "quantifier": "all histories of setting calls", "why_tests_cant": "history-dependent", "anchors": ["src/transfinite/surface.cc:setRibbonHandler,setRibbonMultiplier,resetRibbon,overrideNormalFence", "src/transfinite/ribbon.cc:setHandler,reset,overrideNormalFence"]}
{"id": "C35", "title": "setupLoop orients any loop", "statement": "If consecutive curves share end points within a tolerance delta (each curve possibly running backwards) and the corner points are more than 4 delta apart, then after setupLoop every curve runs from corner i-1 to corner i within delta, each curve object is unchanged or reversed, no other curve object changes, the ribbons are linked cyclically, and calling setupLoop again changes nothing. With exact end points every curve ends where the next one starts. Turning curves keeps their data true: if every curve reports the derivatives of its points, every curve does so after setupLoop, and lengths are kept.", "quantifier": "all loops of n>=3 curves, all 2^n initial orientations", "why_tests_cant": "exponentially many orientations for unbounded n", "anchors": ["src/transfinite/surface.cc:Surface::setupLoop"]}
{"id": "C36", "title": "Reversal done by setupLoop is visible through shared curves", "statement": "setupLoop reverses curve objects in place: whenever two oriented loops share a curve object that they need in opposite directions, orienting the second surface breaks the loop of the first one at that curve.", "quantifier": "all pairs of surfaces with at least three sides sharing a curve object", "why_tests_cant": "aliasing between objects", "anchors": ["src/transfinite/surface.cc:Surface::setupLoop,setCurves"]}
{"id": "C37", "title": "Side count bookkeeping", "statement": "After any sequence of setCurve and setCurves calls on a fresh surface, the number of ribbons, the number of domain side curves and the side count used by evaluation agree, and the domain's side i is the curve last set for side i; a side never set is detectable as missing and setupLoop is defined only when no side is missing.", "quantifier": "all histories of setCurve / setCurves", "why_tests_cant": "history-dependent", "anchors": ["src/transfinite/surface.cc:setCurve,setCurves,setupLoop", "src/transfinite/domain.cc:setSide,setSides"]}
{"id": "C38", "title": "Partial update is equivalent to full update for ribbon-local changes only", "statement": "After a full update, changing the settings of side i and calling update(i) leaves the same state as a full update, over any sequence of such edits; update is idempotent, and it is defined after setupLoop on regular curves meeting at angles. Before any full update, update(i) is an access out of range; after a curve change and before setupLoop update(), update(i) and the updates of both neighbours dereference null or expired pointers; and after setupLoop update(i) leaves the next ribbon with the end tangent of the old curve.", "quantifier": "all surface states, all sides, all settings", "why_tests_cant": "history-dependent", "anchors": ["src/transfinite/surface.cc:update(size_t),update,updateCorner,updateCorners"]}
{"id": "C39", "title": "Copies of a surface are not independent", "statement": "Copying a surface object shares its domain and ribbons: as long as neither gets a new curve, the original and the copy have the same ribbon objects, so settings made on the copy are reported by the original; a curve set on the copy changes the domain of the original, but not its ribbons or its side count; an update through the copy does not update the corner data of the original.", "quantifier": "all histories before and after the copy", "why_tests_cant": "aliasing between objects", "anchors": ["src/transfinite/surface.hh:Surface"]}
{"id": "C40", "title": "Side-based patch interpolates its boundary", "statement": "Evaluating a side-based patch at the point of side i with fraction s gives the point of the i-th boundary curve at s, when all other sides are further than the tolerance; at a corner it gives the common point of the two curves. The elastic patch does so when the point is not within its domain tolerance of a side with a smaller index.", "quantifier": "all boundary loops, all sides, all s, any convex domain (and every regular domain with an explicit bound on the tolerance)", "why_tests_cant": "real-valued statement for all loops and n", "anchors": ["src/transfinite/surface-side-based.cc", "src/transfinite/surface-elastic.cc"]}
{"id": "C41", "title": "Corner-based, generalized Coons and composite ribbon patches interpolate their boundary", "statement": "Evaluating these patches at the point of side i with fraction s in [0,1] gives the point of the i-th boundary curve at s (for triangles, corner-based and generalized Coons: away from the far end of the side).", "quantifier": "all boundary loops with compatible corner data, all sides, all s in [0,1], every n>=3, every tolerance below an explicit bound depending on n (1/2 for composite ribbon, on any convex domain)", "why_tests_cant": "real-valued statement for all loops and n", "anchors": ["src/transfinite/surface-corner-based.cc", "src/transfinite/surface-generalized-coons.cc", "src/transfinite/surface-composite-ribbon.cc"]}
{"id": "C42", "title": "Midpoint and midpoint Coons patches interpolate their boundary", "statement": "Evaluating these patches at a corner, or at a point of side i at least the tolerance away (in s) from both corners, gives the point of the i-th boundary curve at s, whatever the central control point is. Strictly within the tolerance of a corner the value is p + (p - c)*k with k = s^2(3-2s) > 0 (and symmetrically at the other end), c being the central control point, so the boundary is missed unless c = p.", "quantifier": "all boundary loops with compatible corner data, all sides, all s, every n>=3, all central control points", "why_tests_cant": "real-valued statement for all loops and n", "anchors": ["src/transfinite/surface-midpoint.cc", "src/transfinite/surface-midpoint-coons.cc"]}
{"id": "C43", "title": "C0 Coons patch interpolates its boundary", "statement": "Evaluating the C0 Coons patch at the point of side i with fraction s gives the point of the i-th boundary curve at s (on regular domains with n >= 4 for every s in [0,1]; on any convex domain for s <= 1 - tolerance and s = 1); its side weights add up to one wherever the barycentric coordinates do.", "quantifier": "all closed boundary loops, all sides, all s, every n>=3", "why_tests_cant": "real-valued statement for all loops and n", "anchors": ["src/transfinite/surface-c0coons.cc", "src/transfinite/ribbon-coons.cc"]}
{"id": "C44", "title": "Midpoint control", "statement": "After update, setMidpoint(p) makes the midpoint (or midpoint Coons) patch pass through p at the domain center, and it keeps doing so through later updates until unsetMidpoint, for every number of sides except 4; without a request the patch passes through the average of the side interpolants at (1/2,1/2). On a regular domain the deficiency of the midpoint patch at the center is (1-2/n)(1-4/n); for n=4 the value at the center does not depend on the requested midpoint, so it is not interpolated.", "quantifier": "all n>=3, all boundary data, all midpoints, all histories of set/unset/update", "why_tests_cant": "history-dependent, real-valued, every n", "anchors": ["src/transfinite/surface-midpoint.cc:setMidpoint,unsetMidpoint,update,updateCentralControlPoint,deficiency"]}
{"id": "C45", "title": "Shared control points stay shared", "statement": "In generalized Bezier patches each control point position near a corner is stored for two sides; after any sequence of setControlPoint calls a read through either side returns the value last written through either side, and all other positions are unaffected.", "quantifier": "all numbers of sides, all degrees, all write histories", "why_tests_cant": "history-dependent, unbounded n and degree", "anchors": ["src/transfinite/surface-generalized-bezier.cc:setControlPoint,controlPoint,initNetwork", "src/transfinite/surface-generalized-bezier-corner.cc:setControlPoint"]}
{"id": "C46", "title": "The fast evaluator of generalized Bezier patches equals the weight formula", "statement": "Away from the corners, eval(uv) is the sum of weight(i,j,k,uv) times control point (i,j,k), plus the central control point times one minus the weight sum; weights are non-negative on the domain. At a corner both formulas give the corner control point. The corner-based variant is the weight formula over the corner quadrants, and its weights agree at both addresses of a control point. On every convex domain the weights are not negative at all points of the closed polygon off the corners.", "quantifier": "all degrees, numbers of sides, nets and parameter points", "why_tests_cant": "two independently coded branch structures compared over all indices", "anchors": ["src/transfinite/surface-generalized-bezier.cc:eval,weight"]}
{"id": "C47", "title": "Generalized Bezier patch interpolates its boundary Bezier curves", "statement": "For degree >=2, evaluating at the point of side i with fraction s between the tolerance and one minus the tolerance gives the Bezier curve of the first control row of side i at s; nearer to an end it gives the end point of that curve. For degree 1 the boundary is missed by a positive multiple of the difference of a third control point and the central one.", "quantifier": "all degrees >=2, all n>=3, all nets, all sides, all s", "why_tests_cant": "real-valued statement for all degrees and n", "anchors": ["src/transfinite/surface-generalized-bezier.cc:eval"]}
{"id": "C48", "title": "Corner-based generalized Bezier patch interpolates its boundary for four or more sides", "statement": "For odd degree and n>=4 sides the patch on the circular domain reproduces the Bezier curve of each first control row; for n=3 the opposite corner still contributes and the boundary is missed.", "quantifier": "all odd degrees, all n>=4, all nets; a witness for n=3", "why_tests_cant": "real-valued statement for all degrees and n", "anchors": ["src/transfinite/surface-generalized-bezier-corner.cc:eval", "src/transfinite/parameterization-circular.cc"]}
{"id": "C49", "title": "Control point files enumerate every control point exactly once", "statement": "The enumeration used for loading, saving and exporting visits n(1+d/2)l positions (l=(d+1)/2), every control point position or its shared twin exactly once.", "quantifier": "all n>=3 and all degrees", "why_tests_cant": "combinatorial claim for every n and degree", "anchors": ["src/utils/io.cc:loadBezier,saveBezier,writeBezierControlPoints"]}
{"id": "C50", "title": "Saving and loading a generalized Bezier patch is lossless up to number formatting", "statement": "Loading the file written by saveBezier, into a fresh surface or one of the same size, reproduces n, degree, the central control point and every control point, up to the printing and parsing of single numbers. The weight setting is not stored, and a patch saved before setupLoop is written as one without sides.", "quantifier": "all patches with shared control points, every number formatting", "why_tests_cant": "round trip over all n, degrees and nets", "anchors": ["src/utils/io.cc:loadBezier,saveBezier"]}
{"id": "C51", "title": "Exported control nets refer to existing points", "statement": "writeBezierControlPoints emits one vertex per control point and faces whose indices are valid (1-based, within range) and denote exactly the control points of the corresponding net cell.", "quantifier": "all n>=3, all degrees >=1", "why_tests_cant": "linear search by three-way match over all n and degrees", "anchors": ["src/utils/io.cc:writeBezierControlPoints"]}
{"id": "C52", "title": "Degree elevation of generalized Bezier patches keeps the boundary", "statement": "elevateDegree reads only existing control points and produces a consistent net of degree d+1 that at every address follows the tensor product elevation rule on the lattice continued across the sides, with the average of the innermost control points as centre; every boundary row describes the same curve as before. The weight setting is lost, and a patch that was not set up divides by zero.", "quantifier": "all n>=1, all degrees d>=1, all consistent nets", "why_tests_cant": "index-heavy loop over all n and degrees", "anchors": ["src/utils/gb-fit.cc:elevateDegree"]}
{"id": "C53", "title": "S-patch weights and boundary", "statement": "With a complete control net the multinomial weights are non-negative and add up to one at every point of the domain, so the patch is in the convex hull of its control points; on domain side i the patch is the Bezier curve of the control points of that side, but the curve registered for ribbon i by setupLoop is the one of domain side i+1. On every convex domain the value is a convex combination of the control points at every point of the closed polygon.", "quantifier": "all n>=3, depth at most 20, all nets, all domain points", "why_tests_cant": "multinomial theorem for every n and depth", "anchors": ["src/transfinite/surface-spatch.cc"]}
{"id": "C54", "title": "Super-D patch boundary", "statement": "A Super-D patch interpolates the quartic boundary curves built from its face, edge and vertex control points (with more than six sides except within the tolerance of corners), the curves registered by setupLoop are the same ones, neighbouring ribbons agree along their common edges, and a four-sided patch is one tensor product surface; evaluation only sees the ribbons of the last updateRibbons.", "quantifier": "all control points, fullness values, all n>=3, all boundary parameters, all points of the square", "why_tests_cant": "real-valued statement", "anchors": ["src/transfinite/surface-superd.cc", "src/transfinite/parameterization-superd.cc"]}
{"id": "C55", "title": "Nelder-Mead: monotone, total, and one step in closed form", "statement": "The optimizer returns after at most the given number of iterations a point of the dimension of the start point, whose objective value is not larger than at the start point and its axis displacements; more iterations never give a worse value, and after success change nothing; success means that the variance of the values over a simplex containing the result is below the tolerance. The value list always matches the simplex. One iteration is exactly reflection, expansion, contraction or shrinking towards the lowest vertex; but the second highest vertex is only found when the first vertex is not the highest, otherwise contraction is skipped.", "quantifier": "all objective functions, dimensions, start points, step sizes, tolerances", "why_tests_cant": "quantifies over all objective functions", "anchors": ["src/utils/nelder-mead.cc:optimize"]}
{"id": "C56", "title": "Harmonic and biharmonic patches", "statement": "Every boundary vertex of the mesh is assigned its own side and parameter (a corner to the side that ends there). On every strictly convex domain, at every resolution, the linear systems have exactly one solution; with an exact solver the harmonic patch interpolates the boundary curves at all boundary vertices, is the unique surface of least Dirichlet energy with its boundary values, extends affine data affinely, and over regular domains is in every half-space that contains the boundary points. The biharmonic patch exists exactly if no triangle of the harmonic patch is degenerate and then interpolates the boundary; it reproduces planes with constant normals; and because the inverse masses of the boundary vertices are set to zero its propagation stage yields the harmonic patch.", "quantifier": "all strictly convex domains with at least 3 sides, all resolutions >= 1, all boundary curves and normal functions, all exact solvers", "why_tests_cant": "holds for every mesh and all real boundary data; unique solvability is a statement about all matrices of the family", "anchors": ["src/transfinite/surface-harmonic.cc", "src/transfinite/surface-biharmonic.cc"]}
{"id": "C57", "title": "Cotangent Laplacian and Voronoi areas", "statement": "For triangle lists with valid indices and no degenerate triangle the assembled cotangent matrix exists, is symmetric with zero row sums, is the matrix of the Dirichlet energy, and annihilates linear functions at inner vertices; with a degenerate triangle the code divides by zero. The three Voronoi areas of a triangle are those of its Voronoi regions, add up to its area in the acute, right and obtuse cases, and their total over a mesh is the area of the mesh.", "quantifier": "all nondegenerate triangles, all triangle lists and vertex lists", "why_tests_cant": "real-valued universal statement", "anchors": ["src/transfinite/surface-harmonic.cc", "src/transfinite/surface-biharmonic.cc:voronoiArea"]}
{"id": "C58", "title": "Curve, S-patch and Super-D files: complete files are read back, damaged ones are silently completed or rejected", "statement": "A complete file of curves (degree, knots, control points), of an S-patch (one entry per index, in any order) or of Super-D patches is read back exactly, whatever follows in the file. readLOP and loadSuperDModel do not report a file that ends too early: missing curves are copies of the last one, missing points are copies of the last point, and with nothing to copy uninitialised variables are used. loadSPatch throws on a short file.", "quantifier": "all curve lists, control nets, patch lists and all positions of the end of the file", "why_tests_cant": "round trip over all inputs", "anchors": ["src/utils/io.cc:readLOP,loadSPatch,loadSuperDModel"]}
{"id": "C59", "title": "OBJ reading: points before the first face, all faces, sticky failure", "statement": "For a file whose vertex lines have three numbers and whose face lines have three whole numbers, the points are the vertices before the first face (no points if there is no face) and the triangles are all faces with indices reduced by one modulo 2^64; lines like vn count as vertices. A vertex-like line with two numbers makes every later face a copy of the last one before it; if this happens before the first face, or if the first face is written with slashes, uninitialised indices are used.", "quantifier": "all OBJ line sequences of the given form", "why_tests_cant": "round trip over all inputs", "anchors": ["src/utils/io.cc:readOBJ"]}
{"id": "C60", "title": "N-sided ribbons unroll the domain, but not behind their start with the computed fence", "statement": "With the perpendicular-polar map the n-sided ribbon adds to the curve point at the clamped parameter u the vector whose components in the frame (tangent, normal x tangent) are the local coordinates of the domain point relative to u, scaled by the curve length, on both polar parts and in between. With the fence computed by update(), evaluation is undefined at all points that project before the start of the side, as the normal is requested at a negative parameter. The n-sided patch is its ribbon 3: it is undefined for three sides, and independent of all other ribbons.", "quantifier": "all domains, sides, points, curves, fences", "why_tests_cant": "real-valued identity over all points; the failing case is undefined behaviour that may go unnoticed", "anchors": ["src/transfinite/parameterization-perp-polar.cc:mapToRibbon", "src/transfinite/ribbon-nsided.cc", "src/transfinite/rmf.cc:RMF::eval", "src/transfinite/surface-nsided.cc:eval"]}
{"id": "C61", "title": "The polar parameterization reads off the angle at the vertex, and its inverse finds the point again", "statement": "For a strictly convex domain the first polar coordinate at vertex i of a point in direction 'share t of the angle from the previous side to the next one' is t, every point of the domain other than the vertex lies in such a direction, and the second coordinate is the i-th mean value coordinate; both are in the unit interval inside. Within the tolerance of the vertex the result is (0,1). On a side the two end vertices see (0,s) and (1,1-s), all others distance 0. The inverse gives the points of the two sides back; between them it returns a point on the segment from the vertex to a side not touching it, one end of an interval of length 2^-20 on which the distance passes the target, and with exactly the requested share of the angle if the side was hit without clamping. A side is found unless the crossing is flatter than the tolerance; if all sides are shorter than the tolerance the target point is never set.", "quantifier": "all strictly convex polygons with at least 3 sides, all vertices, points, angles and tolerances", "why_tests_cant": "real-valued identities over all polygons and angles; the uninitialised case only occurs on degenerate domains", "anchors": ["src/transfinite/parameterization-polar.cc:mapToRibbon", "src/transfinite/parameterization-polar.cc:inverse"]}
{"id": "C62", "title": "Circular domain points and the circles of the circular parameterization", "statement": "Entry 0 of the parameters of the circular domain is the origin and entry 1 + n j (j-1)/2 + m is (radius j/r, angle 2 pi m/(n j)); the entries accepted by the edge test are those of radius 1 and they are edge points. The circle for distance h has its centre on the symmetry axis, passes through the boundary points at angles +-(2h+1) pi/n, and crosses the boundary there with the angle h pi; for h = 0 and h = 1 (four or more sides) it is the domain boundary; when it is too flat it is replaced by a vertical line. A root of the function that is bisected means that the point lies on that circle or line.", "quantifier": "all side counts, resolutions, indices, distances, points and tolerances", "why_tests_cant": "trigonometric identities over all h and n", "anchors": ["src/transfinite/domain-circle.cc:parametersImpl", "src/transfinite/domain-circle.cc:onEdge", "src/transfinite/domain-circle.cc:edgePoint", "src/transfinite/parameterization-circular.cc:hcircle", "src/transfinite/parameterization-circular.cc:mapToRibbon"]}
{"id": "C63", "title": "Overlap parameterization: opposite sides are complementary", "statement": "With an even number of sides the coordinates of opposite sides add up to one, each is strictly between 0 and 1 inside a convex domain, and counted from side i the coordinate is s on side i, 1 on the sides before the opposite one, 1-s on the opposite side and 0 after it. With an odd number of sides the assertion fails.", "quantifier": "all convex domains with an even number of sides, all sides, points, tolerances", "why_tests_cant": "identities over all points and polygons", "anchors": ["src/transfinite/parameterization-overlap.cc:mapToRibbon"]}
{"id": "C64", "title": "Corner data are the derivatives at the corner, and the distance-based corner interpolant contains its curves", "statement": "The corner data of corner i are the end point of curve i, its reversed end tangent, the start tangent of the next curve; every coordinate of the twists is the derivative of the cross derivative (of side i backwards, of the next side forwards) somewhere within 1e-4 of the corner, exactly the derivative when the cross derivative is linear. Next to its sides the correction term is linear with slope tangent + twist times parameter, up to a quadratic remainder. The corner interpolant on distances reproduces both boundary curves of its corner. A surface object after update stores exactly these data, computed from its own current curves and ribbons.", "quantifier": "all ribbons with differentiable cross derivatives, all corners, parameters, tolerances", "why_tests_cant": "statement about derivatives of arbitrary ribbons", "anchors": ["src/transfinite/surface.cc:updateCorner", "src/transfinite/surface.cc:cornerCorrection", "src/transfinite/surface.cc:cornerInterpolantD", "src/transfinite/surface.cc:rationalTwist"]}
{"id": "C65", "title": "Corner-based and generalized Coons patches leave a side like its ribbon, up to a quadratic term and the twist's difference quotient", "statement": "Seen along any direction v, the interpolants of the two corners of a side differ from the ribbon of that side by a quadratic term of the neighbouring side parameters, plus K/10000 times that parameter (K bounds the bending of the neighbours; it comes from the 1e-4 difference quotient used for the twist), plus the amount by which that parameter differs from the distance. The corner-based patch and the generalized Coons patch inherit the bound; all other corners together add a term quadratic in the distance from the side. For the generalized Coons patch the neighbouring distance parameters must follow the side parameter as well.", "quantifier": "all numbers of sides, compatible ribbons, directions, tolerances, and parameters away from the corners", "why_tests_cant": "first-order contact is a statement about all points near the side of arbitrary ribbons", "anchors": ["src/transfinite/surface.cc:cornerInterpolant", "src/transfinite/surface-corner-based.cc:eval", "src/transfinite/surface-generalized-coons.cc:eval", "src/transfinite/surface.cc:blendCorner", "src/transfinite/surface.cc:updateCorner"]}
{"id": "C66", "title": "Hybrid patches combine ribbons and inner control points affinely and interpolate their boundary curves from degree two on", "statement": "The value of a hybrid patch is an affine combination of the ribbons, the control points of the third and later rows, and the central control point: moving all of them by a vector moves the patch by that vector. On the regular domain, at parameter s of side e with eps <= s <= 1-eps and degree at least 2, the value is the boundary curve's point at s. For 0 <= s < eps it is the mean of the curve's point at s and the previous ribbon at (1, s), which at the corner is the corner itself. At degree 1 the boundary is missed: the value is the curve point plus a positive multiple of the difference between the previous ribbon at (1, s) and the central control point.", "quantifier": "all numbers of sides n >= 3, degrees, control nets, ribbons with defined cross derivatives, tolerances 0 < eps <= 1/2", "why_tests_cant": "a test picks particular networks and sample points; a wrong index of a corner or a row changes only some of them", "anchors": ["src/transfinite/surface-hybrid.cc:eval", "src/transfinite/surface-generalized-bezier.cc:weight"]}
{"id": "C67", "title": "What polar patches do on their sides and corners, and by how much they miss their boundary", "statement": "A polar patch has, at every vertex of its domain, the corner as value, whatever its linear solver returns. On a side, away from its ends, its value at s is I(s) + drift * s(1-s)^2/(s^2+(1-s)^2), where I is the polynomial of degree max_degree that agrees with the boundary curve at the equidistant parameters j/max_degree. The drift depends only on the chords a and b of the two curves that meet at the start of the side, and is zero exactly when these chords are perpendicular or parallel. So the boundary is interpolated exactly when the curve is a polynomial of degree at most max_degree and the chords are perpendicular or parallel. Both ribbons of the side have this form, and on a domain whose sweep lines are not too flat to the far sides every ribbon is defined and starts in its corner.", "quantifier": "all strictly convex domains with n >= 3 sides without flat sweeps, all maximal degrees, all closed loops of curves, tolerances 0 < eps <= 1/2, exact linear solvers (any solver for the corners and for being defined)", "why_tests_cant": "tests use nearly perpendicular boundary chords and low degree curves, for which the error is hidden in the tolerance", "anchors": ["src/transfinite/surface-polar.cc:eval", "src/transfinite/surface-polar.cc:polarRibbon", "src/transfinite/surface-polar.cc:bezierRefit"]}
{"id": "C68", "title": "Fitting a generalized Bezier patch minimizes distance plus roughness among the patches with the same outer rows", "statement": "For n >= 3 sides and degree at least three, fitWithOriginal with one or two fixed rows always succeeds. The result keeps these rows of the original patch at all their addresses, and among all patches with default weights that do so it minimizes the sum of the squared distances of the samples plus smoothing squared times the roughness (the squared deviations of the movable control points from the mean of their four neighbours in the mirrored control point lattice, and of the central one from the mean of the innermost ones), up to the tolerance with which the LU solution is accepted. Without smoothing, if some patch with these rows goes through all samples then so does the result, and it is that patch if there is only one. Only the first two rows of the original count. With three fixed rows the third one is not taken from the original but is whatever a new point contains; for degree two the copying reads out of range; for degree one the default of two fixed rows writes out of range and with one fixed row the corners are lost.", "quantifier": "all side counts >= 3, degrees, shaped and consistent nets, sample lists away from or exactly at the corners, smoothing weights, any LU solver and every least squares solver", "why_tests_cant": "the minimum is over a continuum of nets, and the uninitialized rows and out of range accesses need degrees and row counts that are not used by the tests", "anchors": ["src/utils/gb-fit.cc:fitWithOriginal"]}
{"id": "C69", "title": "Parameterizing points by the closest triangle is exact on the mesh and drops the signs of barycentric coordinates beside it", "statement": "For a triangle with nonzero area, parameterizePoints maps a point to the parameters weighted by the absolute values of the barycentric coordinates of its orthogonal projection, divided by their sum. So a point over the triangle gets exactly the parameter of its projection, every point gets a convex combination of the three parameters, and a point beside the triangle gets a parameter that moves back inside the further out the point is, not that of the nearest point of the triangle. A triangle without area gives no parameter. If the closest triangle is found correctly, points of a mesh get parameters at which the piecewise linear mesh has these points, and on a flat mesh (the affine image of its parameters) exactly the parameters that were mapped.", "quantifier": "all triangles, points, parameters, meshes without degenerate triangles and correct closest triangle searches", "why_tests_cant": "sampled points lie on the patch, so that their projections fall into the closest triangle and the lost signs do not show", "anchors": ["src/utils/gb-fit.cc:parameterizePoints"]}
{"id": "C70", "title": "Class A fitting interpolates both points and the first direction, and meets the second direction up to the search error if the search angle has nonnegative cosine", "statement": "Whatever the optimizer returns, a result of fitClassA is a Bezier curve of the given degree times a power of two that starts at pa in the direction va and ends at pb. All legs of its polygon but the last one come from the first by repeating one rotation and one scaling; continuing so misses pb by exactly sqrt(2 err) |pb - pa|. The degree is doubled exactly after the searches that end with an error above 1/1000 below degree 50. The rotation carries the first direction to the second one iff the cosine of the angle phi found by the search is nonnegative; then the end derivative differs from a multiple of vb by degree * sqrt(2 err) |pb - pa|, and with a negative cosine the end direction is wrong even if the error is zero. The fit is defined for non-parallel directions, different points, degree at least two and a nonnegative scaling, and undefined for parallel directions, equal points or degree below two. With Nelder-Mead the error is at most that of the start and its two neighbours.", "quantifier": "all points, directions, degrees and all optimizers", "why_tests_cant": "the program fits one hard-coded configuration and shows it, where the optimizer ends near its start with a positive cosine", "anchors": ["src/utils/bezier.cc:BCurve::fitClassA", "src/utils/nelder-mead.cc:optimize"]}
{"id": "C71", "title": "The arc length of a Bezier curve is a four point Gauss rule: exact to the digits of its table for polynomial speed up to degree seven", "statement": "BCurve::arcLength is zero for an empty interval and otherwise between the interval length times the lower and upper bounds of the speed inside it. When the speed is a polynomial of degree at most seven, it is the integral of the speed up to 1e-9 times the interval length times the sum of the three even coefficients beyond the constant; constant and odd terms are integrated exactly. It is multiplied by the factor of a similarity of space, and does not change when the curve is reversed.", "quantifier": "all control polygons, intervals and similarities", "why_tests_cant": "a wrong digit in the table of nodes and weights changes lengths too little for a visual test", "anchors": ["src/utils/bezier.cc:BCurve::arcLength"]}
{"id": "C72", "title": "The elastic patch is where cubic beams from the boundary meet with the least bending energy", "statement": "SurfaceElastic::eval with an exact linear solver returns the unique point for which beams, one from each foot point of the sides leaving with the cross derivative and arriving with the derivative of one common tangent plane map, have the least total bending energy among all twice differentiable beams. The 3x3 system is regular exactly because inside a convex domain the directions to interior points of the sides are not all parallel; on the regular domain with at least four sides this holds at every interior point that is not within the tolerance of a side. Affine data are reproduced. Within the tolerance of a side the boundary point of the first such side is returned.", "quantifier": "all surfaces, domain points, tolerances and exact solvers", "why_tests_cant": "optimality and uniqueness among all beams cannot be tested on samples", "anchors": ["src/transfinite/surface-elastic.cc:SurfaceElastic::eval"]}
{"id": "C73", "title": "What the statistics of the test driver are", "statement": "printStatistics prints exactly for four or more numbers (fewer make it read behind the end of the vector). Mean, deviation, minimum and maximum are right, the five numbers are in order, and nothing depends on the order of the data. Quartile i has more than i quarters of the numbers at or below it, but the second quartile is never the median of distinct numbers, it is strictly above. The histogram counts the numbers of each bin when neighbouring numbers are at most a bin apart; when they are all more than a bin apart it puts one number into each bin no matter what the data are. The bars are the counts scaled so that the longest has 15 characters, rounded down.", "quantifier": "all lists of real numbers", "why_tests_cant": "the output looks plausible for every data set; the wrong histograms appear only with sparse data", "anchors": ["src/test/test.cc:printStatistics"]}
{"id": "C74", "title": "The meshes and error measures of the test driver are what they claim, up to the deviation from a mesh", "statement": "The fence of ribbonTest is a closed band: an oriented manifold with proper triangles whose boundary is the two loops of lower and upper points, each point at its place; with an empty domain or resolution 0 its loop does not end. The ribbon mesh is one oriented strip per side, with separate points. The positional error of showDeviations is the largest distance at the samples, so it is 0 for patches interpolating the boundary. The direction of the tangential test is a unit vector perpendicular to the side, into the domain; the tangential error is 0 exactly if at all samples the step inside stays in the tangent plane of the ribbon and goes to its proper side, and the normal of the second row of a generalized Bezier patch does the same job where that row stands for the ribbon. deviationFromMesh measures the distance to the plane of the closest triangle, not to the triangle, so it is 0 for every point of that plane.", "quantifier": "all domains with the center inside, resolutions, steps, surfaces, triangles and points", "why_tests_cant": "the driver is itself the test; whether a reported zero means contact can only be shown in general", "anchors": ["src/test/test.cc:ribbonTest", "src/test/test.cc:showDeviations", "src/test/test.cc:deviationFromMesh"]}
{"id": "C75", "title": "Moving the boundary moves the patch", "statement": "If all curves (and handlers and normal fences) are turned and shifted, then after any sequence of calls on any number of surfaces everything that is computed - frames, normals, cross derivatives, corner data, patches - is turned and shifted in the same way, and the domains made from the curves stay the same; reflections behave likewise, normals changing sign, as long as no side has opposite normals at its two ends, in which case the frame makes its half turn in a fixed direction and the mirror image of the input does not give the mirror image of the normals. Given ribbons and corner data, the side based patch, the midpoint patches with their central control point, generalized Bezier, corner-variant, hybrid, S- and super-D and C0 Coons patches commute with every affine map, and corner based, generalized Coons and composite ribbon patches wherever the corner blends add up to one; near two sides without a common corner the corner based and composite ribbon patches have the origin of space as their value, wherever the curves are.", "quantifier": "all linear isometries (rotations; reflections without half turns), all translations, all call sequences; for patches all affine maps, all ribbon coordinates", "why_tests_cant": "the statement compares two runs for every rigid motion and every history of calls; floating point runs never agree exactly and only finitely many motions can be tried", "anchors": ["src/transfinite/rmf.cc:27-108", "src/transfinite/ribbon.cc:68-100", "src/transfinite/surface.cc", "src/transfinite/surface-side-based.cc:22-29", "src/transfinite/surface-corner-based.cc:22-29", "src/transfinite/surface-generalized-bezier.cc", "src/transfinite/surface-hybrid.cc", "src/transfinite/surface-superd.cc", "src/transfinite/surface-spatch.cc", "src/transfinite/surface-c0coons.cc"]}
{"id": "C76", "title": "Two rows of control points fix position and tangent planes of a generalized Bezier patch along a side", "statement": "For degree d at least three and a net whose two addresses of each shared point agree, the patch and the surface c0(s) + d h (c1(s) - c0(s)), with c0 and c1 the Bezier curves of the first two rows of control points of the side, differ by at most a constant times h squared at distance h from the side, whatever the other control points are; the constant is given by the number of sides, the degree, the extent of the net and how near the ends of the side are. With Wachspress coordinates on a convex polygon the constant depends only on a lower bound of the barycentric coordinates of the two ends of the side.", "quantifier": "all n>=3, d>=3, nets, both weight variants, all points of a convex polygon away from the ends of the side", "why_tests_cant": "an order of contact is a statement about all distances h down to zero, where samples are dominated by rounding, and about every control net", "anchors": ["src/transfinite/surface-generalized-bezier.cc:55-108", "src/transfinite/parameterization-barycentric.cc"]}
{"id": "C77", "title": "No side of a patch is special", "statement": "Listing the vertices of the domain and the ribbons from another side leaves every patch where it is, with the same centre, the same corner data and the same central control point. Moving the domain in the plane leaves the patch where it is, too. So on a regular domain a patch whose ribbons are shifted by one is the patch evaluated at the point turned by one side; a circular domain turns back by the arc of the side that was first. This holds for side-based, corner-based, generalized Coons, composite ribbon, midpoint, midpoint Coons, C0 Coons, elastic, polar, generalized Bezier (both variants), hybrid and super-D patches.", "quantifier": "all domains, numbers of sides, ribbons or control nets, domain points and tolerances up to 1; generalized Bezier points near at most one corner, elastic points away from the boundary with an exact solver, polar domains without vertices that coincide up to the tolerance", "why_tests_cant": "a symmetry over all inputs; tests fix one numbering of the sides", "anchors": ["src/transfinite/parameterization-parallel.cc", "src/transfinite/parameterization-bilinear.cc", "src/transfinite/parameterization-interconnected.cc", "src/transfinite/parameterization-barycentric.cc", "src/transfinite/parameterization-polar.cc", "src/transfinite/parameterization-circular.cc", "src/transfinite/domain.cc", "src/transfinite/domain-regular.cc", "src/transfinite/domain-circular.cc", "src/transfinite/surface.cc", "src/transfinite/surface-generalized-bezier.cc", "src/transfinite/surface-elastic.cc", "src/transfinite/surface-polar.cc", "src/transfinite/surface-superd.cc"]}
{"id": "C78", "title": "Composite ribbon and midpoint patches keep the tangent plane of the ribbons", "statement": "Let v be normal to the ribbon of a side at a boundary point P away from the ends of the side. The composite ribbon, midpoint and midpoint Coons surfaces approach the plane through P normal to v quadratically in the distance parameter of the side, with an explicit constant; the only linear term has the factor 1/10000 of the curvature bound of the neighbours and comes from the difference quotients that replace the twist vectors. So the patches have the tangent plane of the ribbon, up to that term.", "quantifier": "all numbers of sides, ribbons with bounded curvature, convex domains, points of the domain whose Wachspress coordinates with respect to the two ends of the side are at least some constant, central control points and tolerances below that constant", "why_tests_cant": "a limit statement with a constant, over all inputs; tests only compare meshes visually", "anchors": ["src/transfinite/surface-composite-ribbon.cc", "src/transfinite/surface-midpoint.cc", "src/transfinite/surface-midpoint-coons.cc", "src/transfinite/surface.cc", "src/transfinite/parameterization-barycentric.cc", "src/transfinite/parameterization-constrained-barycentric.cc"]}
{"id": "C79", "title": "Rounding in Bernstein values and Bezier curves", "statement": "With every operation rounded to double, the computed Bernstein values are nonnegative doubles within an explicit relative error (3n roundings and a subnormal remainder) of the exact ones, a computed Bezier curve starts and ends exactly in its end control points, and in between a computed point is within (4n+2)u/(1-(4n+2)u) times the largest coordinate of the exact point. The single and list versions of bernstein compute the same doubles. affineCombine is exact at 0 and 1 and three roundings off in between.", "quantifier": "all degrees with (4n+2)u < 1, all doubles in [0,1], all control points, all rounding functions that are monotone, symmetric and have relative error u (and absolute error eta near zero), in particular binary64", "why_tests_cant": "a bound over all doubles", "anchors": ["src/transfinite/utilities.cc", "src/transfinite/bezier.cc"]}
{"id": "C80", "title": "Rounding in weights, ribbon parameters and the side based patch", "statement": "With every operation rounded to double, normalised weights lie in [0,1], add up to 1 up to (n+1)u/(1-(n+1)u) + n eta and are as close to the exact quotients; the side parameter computed from barycentric coordinates lies in [0,1] and is exact at the two ends of a side; on a side the computed distance is within a few roundings of zero, so the side counts as near for every larger epsilon. The singular side blends and the corner blends inherit the bounds; at a corner the corner blends are exactly 0 and 1. A computed point of the side based patch is within an explicit bound of the exact combination, and on the boundary, where just one side counts as near and its computed distance is zero or negative, it is exactly the point of the boundary curve.", "quantifier": "all numbers of sides n with (n+1)u < 1, all doubles, all ribbons, all rounding functions as in C79, all pow functions with relative error rho at the distances that occur", "why_tests_cant": "a bound over all doubles", "anchors": ["src/transfinite/surface.cc", "src/transfinite/surface-side-based.cc", "src/transfinite/parameterization-barycentric.cc"]}
{"id": "C81", "title": "The normal fences of neighbouring patches agree at the sample parameters, but not between them", "statement": "Let two ribbons share a curve in opposite directions, with matching corner normals. The rotation minimizing frames computed from the two ends, each corrected by its own twist angle, give the same unit normal at every sample parameter (even when the correction angle is a half turn). So two neighbouring patches have the same tangent planes there, and when the neighbouring sides continue each other smoothly the cross derivatives of compatible, handler, perpendicular and n-sided ribbons are exactly opposite. Between the samples the two fences differ: for every number of samples there is a cubic curve where they do.", "quantifier": "all curves, end normals, numbers of samples and tolerances, for curves that are regular and resolved by the samples", "why_tests_cant": "a statement about all pairs of curves and their reversals", "anchors": ["src/transfinite/rmf.cc:RMF::update", "src/transfinite/rmf.cc:RMF::eval", "src/transfinite/ribbon.cc:Ribbon::update", "src/transfinite/ribbon-perpendicular.cc", "src/transfinite/ribbon-compatible.cc"]}
{"id": "C82", "title": "The meshes of neighbouring patches fit together without gaps exactly at equal resolutions", "statement": "The rim of the triangle mesh of a patch consists exactly of the chords of its boundary curves between consecutive samples. When two patches share a side in opposite directions and are evaluated at the same resolution, every mesh edge along the side occurs in both meshes, with opposite orientations; in a network of patches where every side is shared, every edge of every triangle has a triangle on its other side. The patches of the library (composite ribbon, midpoint family, corner based, generalized Coons, side based, C0 Coons, generalized Bezier, its corner version from 4 sides, S-patch, Super-D, hybrid) satisfy what is needed for this. At different resolutions the finer mesh has vertices on the common side that the other one does not have, so there are gaps along any curved side.", "quantifier": "all networks of patches, numbers of sides, ribbons and resolutions", "why_tests_cant": "unbounded resolutions and arbitrary curves", "anchors": ["src/transfinite/surface.cc:Surface::eval", "src/transfinite/domain.cc:Domain::parameters", "src/transfinite/domain.cc:Domain::meshTopology", "src/transfinite/domain-circle.cc"]}
{"id": "C83", "title": "Plane boundaries give plane patches, except between an outer and an inner corner", "statement": "If all boundary curves lie in a plane and all corners turn to the same side, then all normals are the normal of the plane, all cross derivatives (compatible, with handler, perpendicular, n-sided; any multiplier and handler) are directions of the plane, and every value of every patch made from these ribbons lies in the plane (side based, corner based, generalized Coons, composite ribbon, midpoint family with its default centre); so do generalized Bezier, corner based generalized Bezier, hybrid, S-patch, Super-D and C0 Coons patches of plane control points and curves. If one end of a side is an outer and the other one an inner corner, the fence makes a half turn: at a sample the normal is turned about the tangent by pi times the fraction of the arc length, and the compatible ribbon leaves the plane, although the boundary is plane.", "quantifier": "all planes, plane curves, tolerances, resolutions of the frames and numbers of sides", "why_tests_cant": "arbitrary plane curves", "anchors": ["src/transfinite/ribbon.cc:Ribbon::update", "src/transfinite/rmf.cc:RMF::update", "src/transfinite/ribbon-compatible.cc", "src/transfinite/ribbon-compatible-with-handler.cc", "src/transfinite/ribbon-perpendicular.cc", "src/transfinite/ribbon-nsided.cc", "src/transfinite/surface-side-based.cc"]}
{"id": "C84", "title": "Every patch has a value in the whole closed domain and a mesh at every resolution; the bilinear map is undefined exactly at its stuck points", "statement": "In a closed convex polygon (the hull of its vertices) Wachspress coordinates exist, are not negative and add up to one, and the ribbon coordinates of the barycentric and constrained kinds are in the unit square. Hence composite ribbon, midpoint, midpoint Coons (with their central control point), C0 Coons, generalized Bezier, hybrid and S-patches have a value at every point of the domain and meshes of the right size at every resolution. The bilinear coordinates of a side are undefined at a point of the polygon if and only if the difference of the neighbouring heights reaches the tolerance, the discriminant is below it and the two heights of the point add up to those of the neighbouring vertices; the side based patch is undefined exactly at these points. On regular domains there are none: side based, corner based, generalized Coons and Super-D patches are total; so is the corner based generalized Bezier patch on the disk. There are convex quadrilaterals for every small tolerance with such a point at a vertex, for which the side based patch has no mesh at any resolution.", "quantifier": "all strictly convex polygons, all points of them, all tolerances, ribbons, control nets and resolutions", "why_tests_cant": "undefined values occur on a set of measure zero", "anchors": ["src/transfinite/parameterization-barycentric.cc", "src/transfinite/parameterization-constrained-barycentric.cc", "src/transfinite/parameterization-bilinear.cc:11", "src/transfinite/parameterization-parallel.cc", "src/transfinite/surface.cc:Surface::eval", "src/transfinite/surface-side-based.cc", "src/transfinite/surface-midpoint.cc", "src/transfinite/surface-generalized-bezier.cc"]}
{"id": "C85", "title": "From curve files to reports: loops in any directions give patches whose mesh rims, ribbon rows and reported errors are right; boundaries with opposite inward tangents give nothing", "statement": "Let the curves of a file be the sides of a closed loop of at least three regular curves that advance from sample to sample and meet at nonzero angles, each in either of its directions. setCurves, setupLoop and update build a surface whose curves are those of the loop in one direction, with compatible ribbons and matching corner data: for simple ribbons always, and for ribbons with the default handler if and only if on every side the bisector of the inward tangents is not along the normal in the middle. surfaceTest then writes ribbon rows that start on the curves, a mesh with the expected number of points whose rim consists exactly of the chords of the curves, and reports a positional error of zero, and a midpoint error of zero unless there are four sides; cloudTest writes one row per parameter with the point at it, and the rows of the boundary parameters have the points of the curves. writePCP is defined exactly if there are at least as many points as parameters. Plane polygons with long enough sides that turn to the left satisfy all conditions. If the neighbours of a side run in the same direction at its ends, as in an L shape, surfaceTest and cloudTest compute with values that are not numbers for every class.", "quantifier": "all loops of curves, all directions in the file, all patch classes listed, tolerances, numbers of samples and resolutions", "why_tests_cant": "tests run a few files; the failing boundaries are special", "anchors": ["src/test/test.cc:surfaceTest", "src/test/test.cc:cloudTest", "src/test/io.cc:writePCP", "src/transfinite/surface.cc:Surface::setCurves", "src/transfinite/surface.cc:Surface::setupLoop", "src/transfinite/surface.cc:Surface::update", "src/transfinite/ribbon-compatible-with-handler.cc", "src/transfinite/rmf.cc"]}
{"id": "C86", "title": "Patches are continuous where no tolerance test switches; the side based patch jumps at the tolerance line", "statement": "Let the boundary curves and the cross derivatives be continuous. At every point where a patch has a value and no test against the tolerance is on its switching value, the ribbon coordinates and the side based, corner based, generalized Coons, composite ribbon, midpoint, C0 Coons and hybrid patches are continuous. Inside a convex domain with all Wachspress coordinates above the tolerance the composite ribbon, midpoint, C0 Coons, hybrid and generalized Bezier patches are continuous; S-patches are continuous on the whole closed polygon; on regular domains the side based, corner based and generalized Coons patches are. Where the distance of exactly one side passes through the tolerance, the side based patch has the limit r_i (the ribbon of the side) from the near side, and the value r_i plus the weighted sum of the differences r_j - r_i at the line: it is discontinuous there unless this sum is zero, e.g. on the square with the ribbons of a skew quadrilateral for every tolerance up to 1/4.", "quantifier": "all convex domains, points, tolerances, continuous ribbons and sequences of parameters", "why_tests_cant": "continuity is about all sequences converging to a point; the jump is as small as the tolerance squared", "anchors": ["src/transfinite/surface.cc:Surface::blendSideSingular", "src/transfinite/surface.cc:Surface::blendCorner", "src/transfinite/surface-side-based.cc", "src/transfinite/surface-corner-based.cc", "src/transfinite/surface-generalized-coons.cc", "src/transfinite/surface-composite-ribbon.cc", "src/transfinite/surface-midpoint.cc", "src/transfinite/parameterization-bilinear.cc", "src/transfinite/surface-generalized-bezier.cc", "src/transfinite/surface-spatch.cc", "src/transfinite/surface-c0coons.cc", "src/transfinite/surface-hybrid.cc"]}
{"id": "C87", "title": "With four sides the patches are the classical ones: tensor product Bezier surfaces and Coons patches; where they are not", "statement": "For four sides the domain is a square and the bilinear, parallel, interconnected, Wachspress and constrained parameterizations all give the coordinates (u,v), (v,1-u), (1-u,1-v), (1-v,u) on the whole closed square. A generalized Bezier patch of degree at least 3 with a consistent net is the tensor product Bezier surface of its control points (with plain and with squared weights), except that within the tolerance (sum of two distances) of a corner it is constant; for odd degrees the central control point has no influence. Degree 2 is not the biquadratic surface: the middle points of the sides lose weight to the central control point, by an explicit formula. Corner based and generalized Coons patches coincide, and so do midpoint and midpoint Coons patches; the latter are the Coons patch of the ribbons with cubic blending, for every central control point, except within the tolerance of two sides, where the difference is given. The C0 Coons patch is the Coons patch of the curves plus v(1-v)/2 and u(1-u)/2 times what opposite curves differ from the cubics with the same end data, hence the Coons patch for cubics. At the centre of a regular domain with n sides a cubic patch gives the central control point the weight (1-2/n)(1-4/n), which is negative for three sides, so the patch can leave the convex hull of its control points.", "quantifier": "all degrees, consistent nets, ready ribbons, closed loops of curves, tolerances and points of the closed square", "why_tests_cant": "equality of surfaces at all points, for all control nets and degrees", "anchors": ["src/transfinite/surface-generalized-bezier.cc:SurfaceGeneralizedBezier::eval", "src/transfinite/surface-midpoint.cc", "src/transfinite/surface-midpoint-coons.cc", "src/transfinite/surface-corner-based.cc", "src/transfinite/surface-generalized-coons.cc", "src/transfinite/surface-c0coons.cc", "src/transfinite/ribbon-coons.cc", "src/transfinite/parameterization-barycentric.cc", "src/transfinite/parameterization-constrained-barycentric.cc", "src/transfinite/parameterization-bilinear.cc", "src/transfinite/parameterization-parallel.cc", "src/transfinite/parameterization-interconnected.cc"]}
{"id": "C88", "title": "What degree elevation does to generalized Bezier patches with four sides, and what repeated elevation keeps", "statement": "For four sides and an even degree of at least 4, elevateDegree leaves the patch as it is on the whole closed square. For an odd degree 2m-1 of at least 3 the patch changes: the new central control point is the mean of its eight neighbours instead of the one that keeps the surface, so the elevated patch differs by (m-1)/(2m) times the product of the two middle Bernstein polynomials times an explicit combination of control points, which need not vanish. The elevated quadratic patch is the biquadratic surface, which the quadratic patch itself is not. Any number of elevations, with any number of sides, has a value, raises the degree by one each time and keeps every boundary curve.", "quantifier": "all degrees, consistent nets, tolerances, points of the closed square, numbers of elevations", "why_tests_cant": "equality of surfaces at all points for all degrees and nets", "anchors": ["src/utils/gb-fit.cc:elevateDegree", "src/test/test.cc:bezierTest", "src/transfinite/surface-generalized-bezier.cc:SurfaceGeneralizedBezier::eval"]}
{"id": "C89", "title": "Fitting the elevated patch to the mesh of the original patch gives the original patch back (four sides)", "statement": "The sequence of bezierTest - mesh of the patch, degree elevation, fit of the elevated patch to the mesh points at the mesh parameters with the default arguments - always has a result for four sides and degrees from three on, and if a row of the mesh has at least as many points as the elevated patch has control points, the result is the original patch on the whole closed square, although elevation itself changes patches of odd degree (C88).", "quantifier": "all degrees from three on, consistent nets, resolutions larger than the degree with steps of at least the tolerance, least squares solvers", "why_tests_cant": "equality of surfaces for all nets, degrees and resolutions", "anchors": ["src/test/test.cc:bezierTest", "src/utils/gb-fit.cc:fitWithOriginal", "src/utils/gb-fit.cc:elevateDegree"]}
{"id": "C90", "title": "Patches do not depend on the direction in which the boundary is gone round, except where the tolerances decide", "statement": "With the sides in reversed order, every curve run through backwards and the domain mirrored, the corner data, the centre of the domain, the central control point and every patch are the same as before; on regular domains with at least four sides at every point of the closed polygon, so that the patch of the reversed boundary is the mirror image of the patch on the same domain. The corners need curves that meet. Where the heights of the neighbours of a side differ by less than the tolerance without being equal the quadratic equation of the bilinear parameterization is solved without its quadratic term and the two directions agree in the middle of the side only, and where the linear term vanishes as well both directions report their own start. Generalized Bezier and hybrid patches of degree 3 or more (at every point of the closed polygon for regular domains with four sides or more) and the corner variant on the disc (every degree) do not depend on the direction either; Bezier patches of degree 1 and 2 do, since their middle control points are weighted with the distance from the previous side only, and the difference of the two directions is the corresponding sum over the sides.", "quantifier": "all loops of ribbons, all domains and domain points outside the tolerance branches, tolerances up to 1, all numbers of sides", "why_tests_cant": "equality of two evaluations for all boundaries, domains and points", "anchors": ["src/transfinite/parameterization-bilinear.cc", "src/transfinite/parameterization-barycentric.cc", "src/transfinite/surface.cc:updateCorners", "src/transfinite/surface-side-based.cc", "src/transfinite/surface-corner-based.cc", "src/transfinite/surface-generalized-coons.cc", "src/transfinite/surface-composite-ribbon.cc", "src/transfinite/surface-midpoint.cc", "src/transfinite/surface-midpoint-coons.cc", "src/transfinite/ribbon-coons.cc", "src/transfinite/surface-generalized-bezier.cc:eval", "src/transfinite/surface-generalized-bezier-corner.cc:eval", "src/transfinite/surface-hybrid.cc:eval", "src/transfinite/parameterization-circular.cc"]}
{"id": "C91", "title": "The generalized Bezier runs of the test driver write all their files, with one and the same rim, and smoother fits are further from the data", "statement": "For a readable control net with at least three sides and degree at least three the bezier run writes its thirteen files and the mesh-fit run its fourteen files, under distinct names; all meshes have the chords of the boundary curves of the loaded patch as their rim, all nets are nets of patches with this boundary, and the written control nets can be loaded again. The fits keep the boundary and the tangent rows, and from the unsmoothed to the most smoothed fit the sum of squared distances grows and the roughness falls. For patches with four sides the mesh of the elevated patch fitted to the mesh equals the mesh. For degrees one and two the bezier run reads a row of control points that does not exist. If the nearest triangle is degenerate the run divides by a zero length. The bezier run never overwrites its input; the mesh-fit run does so exactly for the listed names.", "quantifier": "all files, resolutions, file names, data points, solvers and uninitialised contents", "why_tests_cant": "statements about all control nets, point sets and least squares solvers", "anchors": ["src/test/test.cc:bezierTest", "src/test/test.cc:meshFitTest", "src/utils/gb-fit.cc"]}
{"id": "C92", "title": "What the command line of the test driver asks for, which files are read and written, and what the S-patch and super-D runs write", "statement": "The command chosen for a list of arguments is exactly the one described by the usage text with its defaults; it is undefined exactly if a resolution is given that an int cannot hold. A resolution without digits is 0, for which the fence loop does not end, and a negative one becomes 2^64 minus its value. No run writes a file twice; only mesh-fit can overwrite its own input, for the listed names; runs for different models or of different kinds write different files, except that hybrid and the plain run of the same model share fence and ribbons. For complete files the S-patch run writes one mesh whose rim consists of chords of the Bezier curves of its sides and the super-D run one mesh per patch, numbered from 0, with the chords of quartic curves of fullness 1/2 as its rim, whatever fullness is given as an argument. The bezier, bezier-corner and hybrid modes read the named .gbp file, cloud and plain models the .lop file, spatch the .sp file, superd the .sdm file, mesh-fit and deviation a second .obj file, and class-a always pocket6sided.lop; spatch and superd evaluate their patches at resolution 15.", "quantifier": "all argument lists, all strings, all numbers of patches, all complete files", "why_tests_cant": "equivalence of a parser with a grammar over all strings; distinctness of names over all model names", "anchors": ["src/test/test.cc:main", "src/test/test.cc:spatchTest", "src/test/test.cc:superDTest"]}
{"id": "C93", "title": "What the plain, hybrid, corner, class A and deviation runs of the test driver compute, and that a surface object can be used again", "statement": "setCurves, setupLoop and update on a surface of any history without copies give the surface that a new object with these curves would have, apart from use_gamma_, and leave other curves alone. For a good loop the plain run writes a fence along the normals, ribbons of the given length, and a mesh of the expected size whose rim consists of the chords of the boundary; without curves it writes nothing. For every complete file the outer rows of the net are curves that meet at their ends; if they form a good loop, the hybrid run writes fence, ribbons, a mesh along these curves, and the net. The corner run writes two meshes on the circle and the net for every complete file of an odd degree of at least three; the rim follows the outer rows, except that for three sides the opposite corner is added; for even degrees and degree one it stops. The class A run is defined exactly if no curve has parallel end tangents or equal ends (for a search with nonnegative scalings); it writes two meshes of one and the same surface object, each with the chords of its own loop, and the cubics keep ends and end derivatives. The deviation run prints the statistics of the distances of the points from the planes of their triangles. All runs write the files named by the command line model.", "quantifier": "all histories, loops, complete files, resolutions, patches, optimizers, closest triangles", "why_tests_cant": "quantifies over all control nets, all loops of curves and all histories of a surface object", "anchors": ["src/test/test.cc:ribbonTest", "src/test/test.cc:surfaceTest", "src/test/test.cc:hybridTest", "src/test/test.cc:cornerBezierTest", "src/test/test.cc:classATest", "src/test/test.cc:deviationTest"]}
{"id": "C94", "title": "How far patches move when their boundary data move", "statement": "If curves move by at most e and cross derivatives by at most k, the side based patch moves by at most e + x k where x is 1/3 with and 1 without use_gamma_; this is reached for every number of sides. If corner tangents move by at most t and twists by at most w, the corner based, generalized Coons and composite ribbon patches move by at most the sum of the blends times 3e + 2x(k + t) + x^2 w; the midpoint patches by the same with the sum W of the deficient blends, plus |1 - W| times the move of the central control point. Corner data taken from the ribbons move by at most e, t and 20000 k, and the factor 20000 is reached. Bezier curves move by at most what their control points move, their derivatives by at most 2d times that; a generalized Bezier patch moves by at most W delta + |1 - W| m with the sum W of its weights, an S-patch by at most delta. The central control point of a midpoint patch moves by at most (M + W B)/|1 - W|, where M bounds the move of the midpoint, W is the sum of the blends at the centre and B the bound above; where |1 - W| is below the tolerance, by at most M. On every convex domain the composite ribbon patch moves by at most 3e + 2x(k + t) + x^2 w at every point of the closed polygon. On every convex domain the C0 Coons patch moves by at most 3e + t/3 at every point of the closed polygon if its curves move by at most e and their derivatives at the two ends by at most t.", "quantifier": "all pairs of ribbons and corner data, numbers of sides, local parameters in the unit square, control nets, degrees", "why_tests_cant": "compares all pairs of data at once; a test sees single pairs and no worst case", "anchors": ["src/transfinite/surface.cc:sideInterpolant", "src/transfinite/surface.cc:cornerInterpolant", "src/transfinite/surface.cc:cornerCorrection", "src/transfinite/surface.cc:updateCorners", "src/transfinite/surface-side-based.cc:eval", "src/transfinite/surface-corner-based.cc:eval", "src/transfinite/surface-generalized-coons.cc:eval", "src/transfinite/surface-composite-ribbon.cc:eval", "src/transfinite/surface-midpoint.cc:eval", "src/transfinite/surface-midpoint-coons.cc:eval", "src/transfinite/surface-generalized-bezier.cc:eval", "src/transfinite/surface-c0coons.cc:eval", "src/transfinite/ribbon-coons.cc:eval"]}
{"id": "C95", "title": "Inside the disk the circular parameterization takes finitely many values, so patches over it are step functions", "statement": "One finite list contains every distance that the circular parameterization returns at a point of radius at most 1 - epsilon, for all tolerances, numbers of sides, sides and points: they are midpoints of a bisection with at most 100 steps from a fixed interval. Hence a corner-based generalized Bezier patch takes finitely many values there, and whenever the distance of a side (or the patch) differs at two such points, it is discontinuous somewhere on the way between them. Beyond the middle of the disk, seen from the side, the distances are on the grid 2/10 + (8/10) k / 2^(m+1) for every m below 100 with 2 < epsilon 2^m. For every tolerance up to 1/4 a patch with four sides and a single control point off the origin jumps on the way from the middle of the disk towards the corner of that control point.", "quantifier": "all tolerances, numbers of sides, sides, patches, and pairs of points of the disk", "why_tests_cant": "the steps are of the order of the tolerance; finiteness and discontinuity are about all points", "anchors": ["src/transfinite/parameterization-circular.cc:bisection", "src/transfinite/parameterization-circular.cc:ParameterizationCircular::mapToRibbon", "src/transfinite/surface-generalized-bezier-corner.cc"]}
