{"id": "C01", "title": "Predicted number of smooth basis functions is the number actually produced (gsSmoothInterfaces)", "statement": "For a multipatch whose patches are tensor bases with at least 4 functions per direction, the number of degrees of freedom that gsSmoothInterfaces predicts while initialising equals the number of free degrees of freedom of the mapper it builds, so the smoothing matrix has exactly as many rows as there are free degrees of freedom and compute() does not stop on the size check.", "quantifier": "every number of patches, every gluing of sides into interfaces and boundaries (any valence, any orientation), all patch sizes >= 4 matching along interfaces, every choice of sharp vertices", "why_tests_cant": "The count is a closed formula summed over patches, sides and vertices while the mapper eliminates functions one by one; the two agree only if a counting argument over all gluings holds (vertex valences, boundary fans). Tests sample a handful of meshes.", "anchors": ["src/gsSmoothInterfaces.hpp:_countDoFs", "src/gsDPatchBase.hpp:_computeMapper", "src/gsDPatchBase.hpp:_computeInterfaceMapper", "src/gsDPatchBase.hpp:_computeVertexMapper"]}
{"id": "C02", "title": "compute() handles every side, every vertex and every basis function (gsSmoothInterfaces)", "statement": "For such a multipatch, building the smoothing matrix ends with every side, every patch corner and every row of the matrix marked as handled: none of the completeness checks fails and no internal error is raised.", "quantifier": "every topology, sizes >= 4, every choice of sharp vertices", "why_tests_cant": "Completeness of a case analysis over all local configurations (corner, regular boundary vertex, irregular boundary vertex, interior vertex, interface, boundary, interior).", "anchors": ["src/gsDPatchBase.hpp:_computeSmoothMatrix", "src/gsDPatchBase.hpp:_performChecks", "src/gsDPatchBase.hpp:_handleVertex"]}
{"id": "C03", "title": "Partition of unity of the interface-smooth basis", "statement": "Every column of the matrix returned by gsSmoothInterfaces::matrix() sums to exactly 1 (in exact arithmetic), so the smooth functions form a partition of unity whenever the local bases do.", "quantifier": "every topology in which no patch is glued to itself along sides sharing a corner, sizes >= 4, every choice of sharp vertices, every column", "why_tests_cant": "A column collects contributions from several independently handled vertices/interfaces; the sum is 1 only if each contribution is written once, with last-write-wins storage, for every valence.", "anchors": ["src/gsDPatchBase.hpp:_handleInteriorVertex", "src/gsDPatchBase.hpp:_handleInterface", "src/gsDPatchBase.hpp:_handleBoundary", "src/gsDPatchBase.hpp:_handleInterior", "src/gsDPatchBase.h:_push"]}
{"id": "C04", "title": "Smoothing matrix is non-negative and its rows are linearly independent", "statement": "All entries of the gsSmoothInterfaces matrix lie in [0,1], and the smooth functions are linearly independent: a combination of rows that vanishes has all coefficients zero.", "quantifier": "every topology, sizes >= 4, every choice of sharp vertices, every coefficient vector", "why_tests_cant": "Rank of an unbounded family of matrices.", "anchors": ["src/gsDPatchBase.hpp:_computeSmoothMatrix", "src/gsSmoothInterfaces.hpp"]}
{"id": "C05", "title": "Exported geometry is C1 across interfaces", "statement": "For any coefficients of the smooth basis, the control points that the exported patches have along an interface coincide on both sides and are the midpoint of the two neighbouring rows of control points (the C1 condition for equal knot spans), for all control points of the interface except those belonging to a sharp vertex, to a boundary vertex of valence > 2, or (for the midpoint condition at the vertex itself) to an interior vertex of valence other than 4.", "quantifier": "every topology, every interface and orientation, every position along the interface, every coefficient vector", "why_tests_cant": "Relation between independently stored patches for all gluings; needs the indexing from corners, the orientation mapping and the weights to agree.", "anchors": ["src/gsDPatchBase.hpp:_handleInterface", "src/gsDPatchBase.hpp:_handleInteriorVertex", "src/gsDPatchBase.hpp:_handleRegularBoundaryVertexSmooth", "src/gsDPatchBase.hpp:exportPatch"]}
{"id": "C06", "title": "Exported geometry is continuous at every vertex", "statement": "For any coefficients of the smooth basis the exported patches meet continuously at every shared vertex (their corner control points coincide), including sharp vertices and boundary vertices of valence > 2.", "quantifier": "every topology, every vertex, every coefficient vector", "why_tests_cant": "Universally quantified over topologies and coefficients; a mesh without sharp or irregular boundary vertices never exercises the failing branch.", "anchors": ["src/gsDPatchBase.hpp:_computeMapperRegularBoundaryVertexNonSmooth_v2", "src/gsDPatchBase.hpp:_handleIrregularBoundaryVertexNonSmooth"]}
{"id": "C07", "title": "Indices counted from a corner are valid, injective and symmetric", "statement": "The function index reached by going 'index' steps from a corner along one of its sides and 'offset' rows inward is a valid index of the patch, determines (index, offset) uniquely for given corner and side, is the corner function for (0,0), and for the (1,1) function and the (0,0) function does not depend on which of the two sides is used; exchanging the two sides exchanges index and offset.", "quantifier": "every patch size, every corner, both sides of the corner, every index and offset below the respective sizes", "why_tests_cant": "Arithmetic on all sizes; a wrong branch only shows on non-square patches with particular sides.", "anchors": ["src/gsDPatchBase.hpp:_indexFromVert", "src/gsDPatchBase.hpp:_indexFromVert_impl"]}
{"id": "C08", "title": "A corner combined with a side it does not touch is rejected", "statement": "Asking for an index counted from a corner along a side that does not contain the corner raises an error instead of returning an index, unless index and offset are both 0, in which case the corner function is returned.", "quantifier": "every corner, every side, every index/offset", "why_tests_cant": "Total case analysis over all pairs, including the short-cut for (0,0).", "anchors": ["src/gsDPatchBase.hpp:_indexFromVert", "src/gsDPatchBase.hpp:_indexFromVert_impl"]}
{"id": "C09", "title": "Side and corner numbers identify sides and corners", "statement": "The flat number of a patch side (and of a patch corner) is injective and fills exactly the range 0..4*nPatches-1, so marking one side or corner as processed never marks another; when the topology is consistent, the array of side marks (2*interfaces + boundaries entries) has exactly that length.", "quantifier": "every number of patches, every consistent topology", "why_tests_cant": "Injectivity and range over unbounded patch counts.", "anchors": ["src/gsDPatchBase.h:_sideIndex", "src/gsDPatchBase.h:_vertIndex", "src/gsDPatchBase.hpp:_initChecks"]}
{"id": "C10", "title": "Selecting the lowest indices and removing them are complementary", "statement": "For a list of distinct (patch, index) pairs, 'get the n lowest' and 'remove the n lowest' split the list into two disjoint parts whose union is the list, every kept-low element being smaller than every removed-low remainder, for every n up to the length.", "quantifier": "every duplicate-free list, every n <= length (and the behaviour for n > length is stated explicitly)", "why_tests_cant": "Sorting/resizing over arbitrary lists; the n > length case silently pads.", "anchors": ["src/gsDPatchBase.hpp:_getLowestIndices", "src/gsDPatchBase.hpp:_removeLowestIndices", "src/gsDPatchBase.hpp:_getLowestCorners", "src/gsDPatchBase.hpp:_removeLowestCorners"]}
{"id": "C11", "title": "Sharp-corner detection marks whole vertices", "statement": "The sharp-corner flags are constant on each vertex (all patch corners meeting at a vertex get the same flag), interior vertices are never sharp, and a boundary vertex is sharp exactly when its two boundary normals differ from being parallel by more than the tolerance.", "quantifier": "every topology, every geometry of boundary normals, every tolerance", "why_tests_cant": "Loop with early marking over arbitrary vertex classes.", "anchors": ["src/gsDPatchBase.hpp:getSharpCorners"]}
{"id": "C12", "title": "Patch blocks of exported coefficients tile the global coefficient vector", "statement": "Exporting patch p reads the rows [offset_p, offset_p + size_p) where the blocks of different patches are disjoint and together cover all rows, and each local coefficient is read from the row of its own global number.", "quantifier": "every number of patches and every sizes", "why_tests_cant": "Offset arithmetic over unbounded lists.", "anchors": ["src/gsDPatchBase.hpp:exportPatch", "src/gsDPatchBase.h:exportToPatches"]}
{"id": "C13", "title": "Coefficients exported without recomputation are those last computed", "statement": "exportPatch(p, false) called after exporting from a different set of coefficients or before any export yields coefficients consistent with the current geometry; in particular a recomputation is done when nothing has been cached.", "quantifier": "every history of exportPatch calls", "why_tests_cant": "History dependent caching.", "anchors": ["src/gsDPatchBase.hpp:exportPatch"]}
{"id": "C14", "title": "compute() may be called repeatedly", "statement": "Calling compute() a second time gives the same bases, mapper and matrix as calling it once.", "quantifier": "every input, every number of calls, each of the subclasses", "why_tests_cant": "Re-entrancy of accumulated member state; unit tests call compute once.", "anchors": ["src/gsDPatchBase.hpp:compute", "src/gsDPatchBase.hpp:_initTHB", "src/gsDPatch.hpp:_initTHB", "src/gsSmoothInterfaces.hpp:_initBasis"]}
{"id": "C15", "title": "D-patch projection matrix reproduces constants", "statement": "The matrix used to project the control points around an extraordinary vertex has all row sums 1, for both choices of the Pi option, so projected control points are affine combinations.", "quantifier": "every valence >= 2, every beta, both options", "why_tests_cant": "Trigonometric sums over arbitrary valence.", "anchors": ["src/gsDPatch.hpp:_makePi"]}
{"id": "C16", "title": "The Pi option does what its documentation says", "statement": "Option Pi=0 is documented as 'Non-negative' and Pi=1 as 'Idempotent': with Pi=0 all entries of the projection matrix are non-negative and with Pi=1 applying it twice equals applying it once.", "quantifier": "every valence >= 3, every beta in the admissible range", "why_tests_cant": "Universal claim on a parametric matrix family.", "anchors": ["src/gsDPatch.hpp:_makePi", "src/gsDPatch.hpp:defaultOptions"]}
{"id": "C17", "title": "D-patch: predicted size equals number of free functions", "statement": "For gsDPatch the predicted number of degrees of freedom equals the number of free degrees of freedom of the mapper for every topology whose smooth boundary vertices have valence <= 3; for larger valences an error is raised.", "quantifier": "every topology, sizes >= 4, every choice of sharp vertices", "why_tests_cant": "Counting over all gluings.", "anchors": ["src/gsDPatch.hpp:_countDoFs", "src/gsDPatch.hpp:_computeVertexMapper"]}
{"id": "C18", "title": "Almost-C1: predicted size equals number of free functions", "statement": "For gsAlmostC1 the predicted number of degrees of freedom equals the number of free degrees of freedom of the mapper, including the coupled and kept-lowest corner functions.", "quantifier": "every topology, sizes >= 4, every choice of sharp vertices", "why_tests_cant": "Counting over all gluings.", "anchors": ["src/gsAlmostC1.hpp:_countDoFs", "src/gsAlmostC1.hpp:_computeVertexMapper"]}
{"id": "C19", "title": "Almost-C1 triangle weights are barycentric", "statement": "The weights attached to the control points around an extraordinary vertex are non-negative and sum to one, so the three triangle functions per vertex reproduce the control points as convex combinations.", "quantifier": "every valence, every configuration of control points for which the triangle is non-degenerate", "why_tests_cant": "Geometric inequality over reals.", "anchors": ["src/gsAlmostC1.hpp:_makeTriangle", "src/gsAlmostC1.hpp:_computeEVs"]}
{"id": "C20", "title": "Rotation between two directions is a rotation", "statement": "The matrix computed to rotate one non-zero direction onto another is orthogonal with determinant one and maps the first normalised direction to the second.", "quantifier": "every pair of non-zero vectors in 3D (the anti-parallel pair is a stated special case)", "why_tests_cant": "Universal over real vectors; degenerate directions are measure-zero and never sampled.", "anchors": ["src/gsAlmostC1.hpp:_getRotationMatrix"]}
{"id": "C21", "title": "Refinement around extraordinary vertices terminates and treats each corner once", "statement": "The propagation of refinement boxes from extraordinary vertices across interfaces terminates, marks every corner it must and no corner twice, and all boxes lie inside the index range of their patch.", "quantifier": "every topology, every set of extraordinary vertices, every refinement level", "why_tests_cant": "Worklist termination over arbitrary graphs.", "anchors": ["src/gsDPatch.hpp:_refBoxes", "src/gsAlmostC1.hpp:_refBoxes"]}
{"id": "C22", "title": "Re-parameterising a patch and mapping back is the identity", "statement": "For the sequences of operations performed by the edge and vertex constructions (an optional axis swap followed by at most one rotation), mapping basis coefficients back returns them in the original parameterisation: coefficient (i,j) of the original grid ends at (i,j) again.", "quantifier": "every grid size (n x m), every coefficient array, every admissible history", "why_tests_cant": "Permutation of arbitrary non-square grids.", "anchors": ["src/gsPatchReparameterized.h:rotateParamClock", "src/gsPatchReparameterized.h:rotateParamAntiClock", "src/gsPatchReparameterized.h:rotateParamAntiClockTwice", "src/gsPatchReparameterized.h:swapAxis", "src/gsPatchReparameterized.h:parametrizeBasisBack", "src/gsG1AuxiliaryPatch.h"]}
{"id": "C23", "title": "Mapping back inverts any sequence of re-parameterisations", "statement": "After any sequence of swapAxis and rotate calls, parametrizeBasisBack returns coefficients to the original parameterisation.", "quantifier": "every sequence of operations", "why_tests_cant": "Histories are unbounded; the failing histories have length >= 2.", "anchors": ["src/gsPatchReparameterized.h:checkRotation", "src/gsPatchReparameterized.h:parametrizeBasisBack", "src/gsPatchReparameterized.h:swapAxis"]}
{"id": "C24", "title": "The side map follows the geometry", "statement": "After an admissible re-parameterisation, the reported local number of each original side is the side of the rotated patch whose control points are those of the original side.", "quantifier": "every grid size, every side, every admissible history", "why_tests_cant": "Needs agreement of an index table with a permutation of all control points.", "anchors": ["src/gsPatchReparameterized.h:getMapIndex", "src/gsPatchReparameterized.h:rotateParamClock"]}
{"id": "C25", "title": "Edge and vertex constructions bring the requested side/corner to the canonical place", "statement": "After the reparametrisation for an interface, the first patch has the interface on its west side and the second on its south side; for a boundary side it lies west; for a vertex the requested corner lies at the south-west; for every side/corner and both orientations.", "quantifier": "every side/corner, swapped or not", "why_tests_cant": "Case tables that must agree with a permutation of arbitrary grids.", "anchors": ["src/gsApproxC1Edge.hpp:reparametrizeInterfacePatches", "src/gsApproxC1Edge.hpp:reparametrizeSinglePatch", "src/gsApproxC1Vertex.hpp:reparametrizeVertexPatches"]}
{"id": "C26", "title": "Rows reserved equal rows filled (gsApproxC1Spline)", "statement": "The number of rows reserved for the basis equals the number of rows filled by compute(), for interior, interface, boundary and vertex functions, so no row is written out of range and none stays empty by counting.", "quantifier": "every number of patches, interfaces, boundaries and vertices, and all univariate space dimensions", "why_tests_cant": "Two independent formulas, equal only under inequalities on the dimensions.", "anchors": ["src/gsApproxC1Spline.hpp:init", "src/gsApproxC1Spline.hpp:compute", "src/gsApproxC1Edge.hpp:compute"]}
{"id": "C27", "title": "Coefficients of each function land in the column block of its patch and space", "statement": "Each coefficient of an interior, edge or vertex function is written in the column range belonging to its patch and to the sub-space it was computed in; ranges of different patches and sub-spaces are disjoint, and no matrix position is inserted twice.", "quantifier": "every number of patches, all sub-space sizes", "why_tests_cant": "Offset arithmetic over unbounded lists of sizes.", "anchors": ["src/gsApproxC1Spline.hpp:compute", "src/gsContainerBasis.h:size"]}
{"id": "C28", "title": "Container basis concatenates its pieces", "statement": "The size of a container basis is the sum of the sizes of its pieces; evaluation rows and active indices are aligned: row r of the evaluation belongs to the function whose global number is listed in row r, and global numbers of different pieces never collide.", "quantifier": "every number of pieces, all sizes, all evaluation points", "why_tests_cant": "Index shifts over unbounded lists.", "anchors": ["src/gsContainerBasis.h:size", "src/gsContainerBasis.h:active_into", "src/gsContainerBasis.h:eval_into"]}
{"id": "C29", "title": "Boundary functions of a container basis belong to the right pieces", "statement": "boundaryOffset(side, k) and functionAtCorner(c) return indices of the edge piece of that side and of the vertex pieces of its corners only, in range and without repetition.", "quantifier": "every side, offset and piece sizes", "why_tests_cant": "Shift arithmetic for all sizes.", "anchors": ["src/gsContainerBasis.h:boundaryOffset", "src/gsContainerBasis.h:functionAtCorner"]}
{"id": "C30", "title": "Support of a container basis function is the support of that function", "statement": "support(i) returns the support of the i-th function of the container for every valid i.", "quantifier": "every i below size()", "why_tests_cant": "Fails only for indices beyond the first piece.", "anchors": ["src/gsContainerBasis.h:support"]}
{"id": "C31", "title": "Local/global numbering of a multipatch B-spline basis is a bijection", "statement": "Converting a global local-function number to (patch, patch-local number) and back is the identity both ways, patches own consecutive disjoint ranges, and out-of-range numbers are reported.", "quantifier": "every number of patches, all patch sizes", "why_tests_cant": "Offset search over unbounded lists.", "anchors": ["src/gsMPBESMapTensor.h:_getPatch", "src/gsMPBESMapTensor.h:_getPatchIndex", "src/gsMPBESMapTensor.h:_getFirstLocalIndex", "src/gsMPBESMapTensor.h:_getLastLocalIndex"]}
{"id": "C32", "title": "Block enumeration visits each point exactly once", "statement": "Stepping through a block of local functions visits every multi-index of the box exactly once and then stops.", "quantifier": "every dimension and all lengths", "why_tests_cant": "Odometer loop over unbounded boxes.", "anchors": ["src/gsMPBESMapTensor.h:_nextPoint", "src/gsMPBESMapTensor.h:_addBlockToMap"]}
{"id": "C33", "title": "Every patch-local function is assigned by exactly one region", "statement": "The division of a patch into corner blocks, edge strips and middle assigns each local function to exactly one region, for every choice of corner distances and interface flags.", "quantifier": "every patch size, all corner distances, all interface flags", "why_tests_cant": "Coverage/disjointness of nine inequality-defined regions.", "anchors": ["src/gsMPBESMapTensor.h:_setTensorMappingOfPatch"]}
{"id": "C34", "title": "Edge weights behave like a map", "statement": "Setting the weight of an interface side makes it the weight returned for that side, leaves all other weights unchanged, returns 1 for never-set sides, and is ignored (reporting failure) for sides that are not interfaces.", "quantifier": "every sequence of set operations", "why_tests_cant": "Histories are unbounded.", "anchors": ["src/gsMPBESBasis.hpp:setWeight", "src/gsMPBESBasis.hpp:getWeight"]}
{"id": "C35", "title": "Marking a vertex special marks all its corners and nothing else", "statement": "After setC0 on a corner, isSpecialVertex is true for all corners of that vertex and unchanged for all other vertices, for every topology and any number of calls.", "quantifier": "every topology, every sequence of calls", "why_tests_cant": "History and topology dependent.", "anchors": ["src/gsMPBESBasis.hpp:setC0", "src/gsMPBESBasis.hpp:isSpecialVertex"]}
{"id": "C36", "title": "Distances of two vertices on an edge never overlap", "statement": "When two vertices of an edge claim distances along it, the computed values never add up to more than the available length, and distances that fit are left unchanged.", "quantifier": "every claimed distances and available length", "why_tests_cant": "Arithmetic with unsigned halving for all values.", "anchors": ["src/gsMPBESBasis.hpp:_determineValues"]}
{"id": "C37", "title": "The control mesh joins exactly the neighbouring functions", "statement": "isConnected(i,j) decides whether two functions of the combined basis are joined: uncombined functions when they are neighbours in the grid of one patch, an uncombined and a combined one when it neighbours one of its local functions, two combined ones when one shares all but one of its local functions with the other or they share nothing and all local functions of one have neighbours in the other. The relation is symmetric and irreflexive, and connectivity() adds exactly one edge per joined pair.", "quantifier": "every list of patch bases, every pair of ascending lists of local functions", "why_tests_cant": "A decision over all pairs of arbitrary index sets.", "anchors": ["src/gsMPBESBasis.hpp:isConnected", "src/gsMPBESBasis.hpp:connectivity", "src/gsMPBESBSplineBasis.hpp:isLocallyConnected"]}
{"id": "C38", "title": "repairPatches makes interface knots agree", "statement": "repairPatches (from all patches, or from one patch when the interfaces away from it already match) terminates; afterwards the knots along every interface are the same on both sides, and every patch has exactly the knots it had before and those carried to it over interfaces. This needs simple interior knots and equal degrees along interfaces: with a double knot the loop ends although the knots differ, with different degrees the comparison reads beyond the end of a knot vector.", "quantifier": "every consistent topology, all open knot vectors with simple interior knots, any number of patches", "why_tests_cant": "Worklist fixpoint on arbitrary knot vectors; fails only with multiplicities above one.", "anchors": ["src/gsMPBESBSplineBasis.hpp:repairPatches", "src/gsMPBESBSplineBasis.hpp:_knotsMatchNeighbours"]}
{"id": "C39", "title": "Distances stored for an interface are those of its own two corners", "statement": "The record of parametric distances of an interface stores the distance of the first corner for the first and of the second corner for the second.", "quantifier": "every pair of distances", "why_tests_cant": "Visible only when the two corners have different distances.", "anchors": ["src/gsMPBESBasis.hpp:distances"]}
{"id": "C40", "title": "C1 gluing functions satisfy the gluing condition", "statement": "Along an edge, the trace function built from a spline N has the value N, the derivative N' along the edge and the cross derivative -beta N'; the normal derivative function has value 0 and cross derivative +-alpha N. Hence the functions of both sides of an interface have equal values and cross derivatives satisfying the gluing condition for any data alpha, beta. With the gluing data computed from two planar geometries with a common edge (or two surfaces with common edge and unit normal), both sides have the same gradient in the physical domain, so the pair is continuously differentiable.", "quantifier": "all open spline bases of degree at least 1, all function numbers, all gluing data, all geometries, all points on the interface", "why_tests_cant": "Identity over all real functions.", "anchors": ["src/gsApproxC1Utils.h:gsTraceBasis", "src/gsApproxC1Utils.h:gsNormalDerivBasis"]}
{"id": "C41", "title": "Rotation to the tangent plane is a rotation", "statement": "The matrix used to rotate the patches around a surface vertex is a rotation that turns the normal upright when the horizontal part of the (not normalised) normal has length 1, and the identity when the normal is upright. It is orthogonal for no other normals but the vertical ones, because the rotation axis is not normalised; for a normal pointing down it is a point reflection. Rotating coefficients keeps the first one and, with an orthogonal matrix, all distances.", "quantifier": "every normal vector, all coefficient lists", "why_tests_cant": "Universal over real normals; unit-length-axis normals hide the defect.", "anchors": ["src/gsApproxC1Vertex.h:gsApproxC1Vertex"]}
{"id": "C42", "title": "Mapping a re-parameterised geometry back restores its knots", "statement": "When the geometry of a re-parameterised patch is mapped back with parametrizeBasisBack, the result has the control points and the knot vectors of the original patch.", "quantifier": "all patches, all histories with rotation counter in -1..2", "why_tests_cant": "holds for every symmetric knot vector, in particular all uniform ones used in examples; fails only for non-symmetric knots combined with a rotation", "anchors": ["src/gsPatchReparameterized.h:parametrizeBasisBack", "src/gsPatchReparameterized.h:rotateParamAntiClockTwice"]}
{"id": "C43", "title": "Exporting to patches is a projection", "statement": "Exporting a multipatch whose control points come from coefficients of the smooth basis returns the same control points; exporting any multipatch twice gives the same control points as exporting once.", "quantifier": "every well-formed topology and bases, every set of control points, every cache state", "why_tests_cant": "universal over control points, topologies and sizes; a test sees finitely many geometries", "anchors": ["src/gsDPatchBase.h:exportToPatches", "src/gsDPatchBase.hpp:exportPatch", "src/gsSmoothInterfaces.hpp:_preCoefficients"]}
{"id": "C44", "title": "Projected control points around an extraordinary vertex form one planar star", "statement": "After the D-patch projection the three rings of control points around an extraordinary vertex of valence v are an affine image of one fixed planar configuration: the v points (1,1) coincide, the points (2,1) lie at the angles of a regular v-gon and the points (1,2) at the following angle reduced by twice atan(beta sin(2 pi/v)).", "quantifier": "every valence >= 2, every beta and refinement level, both options, all control values", "why_tests_cant": "Trigonometric identities for arbitrary valence and arbitrary data.", "anchors": ["src/gsDPatch.hpp:_makePi", "src/gsDPatch.hpp:_computeEVs"]}
{"id": "C45", "title": "Re-parameterisation does not change the surface", "statement": "After any sequence of axis swaps and rotations the re-parameterised patch describes the same surface: evaluating it at the moved parameter gives the value of the original patch at the original parameter.", "quantifier": "all tensor B-spline patches (all degrees, knots, sizes, control points), all sequences of operations, all parameters off the knot lines", "why_tests_cant": "needs non-uniform, non-symmetric knot vectors and all rotations; the examples use symmetric knots, for which a missing knot reversal is invisible", "anchors": ["src/gsPatchReparameterized.h:rotateParamAntiClock", "src/gsG1AuxiliaryPatch.h:rotateParamAntiClock"]}
{"id": "C46", "title": "Rows reserved equal rows filled (gsC1SurfSpline)", "statement": "init() of gsC1SurfSpline reserves exactly the number of rows that compute() fills if and only if every edge space keeps at least six functions after the continuity is raised; the size check made by init() does not ensure this.", "quantifier": "every number of patches, interfaces, boundaries and vertices, all knot vectors", "why_tests_cant": "The two formulas agree for the usual refinements; the negative contribution only appears for multiple inner knots on coarse meshes.", "anchors": ["src/gsC1SurfSpline.hpp:init", "src/gsC1SurfSpline.hpp:compute", "src/gsC1SurfBasisEdge.h"]}
{"id": "C47", "title": "Coefficients of gsC1SurfSpline functions land in the row of the function and the columns of the patch", "statement": "In the assembled matrix, the entry in the row of an inner, interface, boundary or vertex function and the column of a patch basis function is the sum of the coefficients of that function there.", "quantifier": "every number of patches, interfaces, boundaries and vertices, all sizes", "why_tests_cant": "Offset arithmetic over unbounded lists of sizes; duplicates are summed by setFromTriplets.", "anchors": ["src/gsC1SurfSpline.hpp:compute", "src/gsC1SurfEdge.h", "src/gsC1SurfVertex.h"]}
{"id": "C48", "title": "Each function of a patch is treated according to its position", "statement": "Functions in the strip of one interface are combined across that interface, in two strips across both, functions near a special vertex only continuously, all others stay free; each function exactly once.", "quantifier": "every patch size and degree, every combination of interfaces and special vertices, all fitting distances", "why_tests_cant": "Nine overlapping case distinctions with all flag combinations; unequal degrees are rarely tested.", "anchors": ["src/gsMPBESMapTensor.h:_setTensorMappingOfPatch"]}
{"id": "C49", "title": "Lines across an interface are the same from both sides", "statement": "The functions combined across an interface from one side are those combined from the other side in reverse order, at the same position along the interface, and the combination is added exactly once.", "quantifier": "every topology, all four by four side pairs and both orientations, all positions and lengths", "why_tests_cant": "All orientations, positions and lengths.", "anchors": ["src/gsMPBESMapTensor.h:_addCombinedLineToMap", "src/gsMPBESMapTensor.h:_travelUVSteps", "src/gsMPBESMapTensor.h:_transformToNeighbour", "src/gsMPBESMapTensor.h:_alreadyHandled"]}
{"id": "C50", "title": "Blocks around a regular vertex are the same from all four patches", "statement": "The functions combined around a regular interior vertex are the same set from each of the four patches and from both orders of directions, and the combination is added exactly once.", "quantifier": "every four patches around a vertex with all side numberings and orientations, all positions and lengths", "why_tests_cant": "Composition of interface transformations over all orientations; fails only for opposite sides joined in reverse.", "anchors": ["src/gsMPBESMapTensor.h:_addCombinedBlockToMap", "src/gsMPBESMapTensor.h:_transformStepsToNeighbour", "src/gsMPBESMapTensor.h:_travelUVSteps"]}
{"id": "C51", "title": "Functions on the interfaces at a vertex", "statement": "Collecting the interface functions of a vertex at depth d > 0 returns exactly the functions of all corners at that vertex that lie on the outermost row of a side which is an interface, d steps from the corner, each once when patches are large enough; at depth 0 it returns exactly the corner functions of the vertex.", "quantifier": "every consistent topology, every vertex, every depth and all basis sizes above the depth", "why_tests_cant": "all topologies, orientations, depths and sizes; boundary and interface sides are mixed around a vertex", "anchors": ["src/gsDPatchBase.hpp:_getInterfaceIndices", "src/gsDPatchBase.hpp:_getAllInterfaceIndices"]}
{"id": "C52", "title": "Making a vertex C0 sets the distance along its sides", "statement": "After setC0 on a corner the number of merely continuous functions is the minimal distance along the interfaces at that corner, seen from both patches, and along the boundary sides at the vertex. Interfaces at the same vertex that do not touch the patch of the given corner keep their old distance.", "quantifier": "every topology, every knot vectors with simple knots matching along the interface, every minimal distance that fits", "why_tests_cant": "Depends on the topology around the vertex and on the orientation of every side.", "anchors": ["src/gsMPBESBasis.hpp:setC0", "src/gsMPBESBasis.hpp:setParamDist", "src/gsMPBESMapB2D.h:getDistanceOfVertex"]}
{"id": "C53", "title": "Distances counted in functions and in parameters agree", "statement": "The parameter found for n functions is counted back as n functions, and the two sides of an interface count the same number, for open knot vectors on [0,L] with simple interior knots. Shifted parameter intervals and multiple knots break this.", "quantifier": "every open knot vector with simple knots, every topology, every state reached from the constructor by setC0", "why_tests_cant": "Holds for all knot vectors of a class; fails for others only silently.", "anchors": ["src/gsMPBESBSplineBasis.hpp:findParameter", "src/gsMPBESMapB2D.h:getDistanceOfVertex", "src/gsMPBESBasis.hpp:getParametricDistanceOfVertex"]}
{"id": "C54", "title": "Vertex functions interpolate a quadratic and glue smoothly", "statement": "Along each of the two edges at the vertex, every one of the six functions computed by gsVertexBasis is a combination of the first three functions of the plus space, its cross derivative is -beta times its derivative plus or minus alpha times a combination of the first two functions of the minus space, and both combinations are fixed by the derivatives of the monomial at the vertex. Therefore all derivatives up to order two at the vertex are those of the monomial composed with the geometry, and two patches whose transversal vectors agree have the same value and compatible cross derivatives along the whole common edge; with the exact gluing data of planar geometries the gradients agree.", "quantifier": "for all open spline bases (degrees at least 1, 2, 1), all gluing data differentiable at the vertex with alpha(0) nonzero, all combinations of interface and boundary edges, planar and surface geometries, all sigma, all six functions, all points of the edge", "why_tests_cant": "The claim is an identity of functions on a whole edge for all geometries and gluing data; samples of one geometry cannot establish it", "anchors": ["src/gsApproxC1Utils.h:474-803", "src/gsApproxC1Vertex.h:69-77", "src/gsApproxC1Vertex.h:143-151"]}
{"id": "C55", "title": "Functions coupled across an interface are smooth", "statement": "The weights that _getBoehmCoefs computes for an interface are positive and at most one, and the combination of functions of the two patches with these weights is a function that is degree - 1 times continuously differentiable across the interface, in the parameter in which each patch is stretched by the weight of its side.", "quantifier": "for all open knot vectors of equal degree with inner knots of any multiplicity, all positive side weights, all four combinations of sides, all numbers of coupled functions from 1 to the degree, all distances from the interface; the second knot vector starts in 0", "why_tests_cant": "Smoothness is a statement about limits at the interface for arbitrary knots and weights; tests evaluate finitely many points of finitely many knot vectors", "anchors": ["src/gsMPBESMapTensor.h:390-430", "src/gsMPBESMapTensor.h:571-600"]}
{"id": "C56", "title": "Coupling weights form a partition of unity", "statement": "For every function within reach of an interface, the weights with which the coupled functions use it add up to one, on the first and on the second patch.", "quantifier": "for all open knot vectors of equal degree, all positive side weights, all combinations of sides, all numbers of coupled functions from 1 to the degree, all distances", "why_tests_cant": "The sum runs over weights of different calls with arbitrary knots; a test only sees particular knots and rounding hides small defects", "anchors": ["src/gsMPBESMapTensor.h:390-430"]}
{"id": "C57", "title": "Gluing data on surfaces are stationary points", "statement": "A solution of the 7x7 system of gsC1SurfGluingData is a stationary point of the functional integral |alpha_R DvF_L + alpha_L DuF_R + beta DvF_R|^2 - lambda((alpha_R-1)^2+(alpha_L-1)^2), a solution of the 4x4 system one of integral (alpha_L beta_R + alpha_R beta_L - beta)^2 - lambda(beta_R^2+beta_L^2). Exact data solve the first system only if alpha_R = alpha_L = 1, an exact splitting the second only if beta_R = beta_L = 0; the solution need not be a minimum because of the sign of the penalty; evalBeta is not the beta of the systems.", "quantifier": "for all geometries (derivatives along the interface), penalties, elements, quadrature nodes and weights, all coefficient vectors", "why_tests_cant": "The 49 + 16 matrix entries are written by hand and the error of a wrong entry or sign is of the size of the penalty or depends on the geometry; tests compare errors of a solution within tolerances", "anchors": ["src/gsC1SurfGluingDataVisitor.h:42-310", "src/gsC1SurfGluingData.h:50-293"]}
{"id": "C58", "title": "Edge functions on surfaces fit together", "statement": "The functions at an interface of the C1 construction on surfaces have the same trace on both patches, and what they miss of the gluing condition is exactly the error of the splitting of beta (plus functions) or the difference of the slopes of the second functions (minus functions); with exact data and equal slopes they have common values and gradients. The least squares projection of a function of the space has its values at all nodes. With different first elements the minus functions, and with a simple first inner knot the plus functions, do not fit together.", "quantifier": "for all geometries, all gluing data, all open spline bases, all functions and all points of the interface", "why_tests_cant": "Continuity of the gradient at every point of an interface for arbitrary geometries and data is not observable by evaluating finitely many points; tests use matching meshes with double knots", "anchors": ["src/gsC1SurfVisitorBasisEdge.h:44-190", "src/gsC1SurfBasisEdge.h:100-291", "src/gsC1SurfGluingData.h:50-84"]}
{"id": "C59", "title": "Surface vertex functions interpolate quadratics and glue smoothly", "statement": "In the C1 construction on surfaces, each of the six functions at a vertex has, at the vertex, the derivatives up to order two of one of the monomials 1, x, y, x^2/2, xy, y^2/2 (scaled) composed with the geometry. Along an interface with exact linear gluing data and matching spaces the functions of the two patches have the same value and the same surface gradient, even though the vertex functions are computed from rotated copies of the patches and the gluing data from the originals.", "quantifier": "for all geometries (given by their derivatives), all open knot vectors, all gluing data with alpha different from zero at the vertex, all linear maps applied to both patches, all points of the interface", "why_tests_cant": "Tests evaluate a few geometries at quadrature points; the claim is about all geometries, all spline spaces and every point of the edge, and depends on signs and factors that cancel for flat or symmetric examples.", "anchors": ["src/gsC1SurfVisitorBasisVertex.h:53-422", "src/gsC1SurfVertex.h:584-730"]}
{"id": "C60", "title": "Each patch at a vertex gets the gluing data of its own edges", "statement": "selectGD gives every patch around a vertex the coefficients of its own two edges: those of the interface as seen from the left patch for its south edge, as seen from the right patch for its west edge, and alpha=1, beta=0 on the boundary, with no entry left uninitialised. kindOfVertex classifies a vertex as internal exactly if every side at the vertex is an interface, provided that all interfaces between the patches contain the vertex. Without that proviso it fails: for two half rings a boundary vertex counts as internal and entries stay uninitialised.", "quantifier": "for all numbers of patches, all orders and orientations of the interface list, all gluing data", "why_tests_cant": "The result depends on the order and direction of the computed interfaces and on topologies (rings, cones) that do not occur in the test geometries.", "anchors": ["src/gsC1SurfVertex.h:80-91", "src/gsC1SurfVertex.h:446-582"]}
{"id": "C61", "title": "Vertex functions at the boundary are combined so that those kept vanish there", "statement": "computeKernel builds a matrix whose kernel consists exactly of the combinations of the six vertex functions whose coefficients next to the boundary vanish on all patches at once; the kernel is completed to six independent columns, so that the combined functions span the same space; those from the kernel vanish along every boundary side of every patch, with their cross derivatives when the first derivatives are fixed.", "quantifier": "for all numbers and sizes of patches at the vertex, all coefficients, all combinations of interfaces and boundary sides, all kernels", "why_tests_cant": "The kernel is computed numerically with a threshold; tests see a few vertices only and cannot see whether a wrong row was used, as the rows are redundant in simple configurations.", "anchors": ["src/gsApproxC1Vertex.hpp:114-343", "src/gsC1SurfVertex.h:846-1033"]}
{"id": "C62", "title": "The spaces along edges and at vertices contain the functions to be represented", "statement": "On a geometry without inner knots and with a first inner knot of least multiplicity, the space createEdgeSpace builds at an interface contains the products of gluing data with minus functions and with derivatives of plus functions, and the plus functions themselves; at the boundary it contains plus and minus functions; the vertex space is the edge space on interfaces and contains the basis. At the inner knots of the geometry the plus, minus and gluing data spaces get exactly the multiplicities that belong to the smoothness of the geometry. The inclusion fails at inner knots of the geometry and for knots of smaller multiplicity than the first one.", "quantifier": "for all degrees, all inner knots and multiplicities, all degrees and smoothness of gluing data, all piecewise polynomials in the spaces", "why_tests_cant": "The functions are projected into the space: when the space is too small, the projection still succeeds and only the rate of convergence suffers; tests use uniform simple knots.", "anchors": ["src/gsApproxC1Utils.cpp:21-57", "src/gsApproxC1Utils.cpp:59-135", "src/gsApproxC1Utils.cpp:137-308"]}
{"id": "C63", "title": "The map of the basis with enhanced smoothness: rows sum to one, columns are independent", "statement": "makeMapper succeeds on every multi-patch tensor B-spline basis whose interfaces join different patches compatibly (same number of functions, same degree, same distances at special vertices, four patches at regular inner vertices, no patch twice at a special vertex). The matrix has at most as many columns as rows, every column contains some local functions, each once, with positive weights; the weights of every local function sum to one over all columns, so the global functions form a partition of unity; the columns are linearly independent. If a patch meets a special vertex twice the row sums there are two.", "quantifier": "for all numbers of patches, all topologies, sizes, degrees, knots, side weights, special vertices and smoothness", "why_tests_cant": "The partition of unity and the independence involve all patches, both sides of all interfaces and all kinds of regions at once; a test checks single configurations and cannot see a start that is handled twice or missed in another configuration.", "anchors": ["src/gsMPBESMapTensor.h:62-77", "src/gsMPBESMapTensor.h:103-331", "src/gsMPBESMapTensor.h:442-471", "src/gsMPBESMapTensor.h:507-622", "src/gsMPBESMapB2D.h"]}
{"id": "C64", "title": "At extraordinary vertices all functions get the D-patch structure and still sum to one", "statement": "gsDPatch::_computeEVs walks around every extraordinary vertex, meeting each corner once and coming back to the first; it succeeds, and afterwards the coefficients of every function at the vertex are: one value for the four coefficients next to the corner in all patches, the next ones on the two circles of a planar star around that value, with the angle between the circles given by beta, and the coefficients on the interfaces are the averages of their neighbours for two more rows. The star coefficients are the projection makePi of the refined coefficients. Rows of functions that do not belong to a vertex and columns away from the vertices keep the refined values. If the functions sum to one before and the refinement does, they still do. If a patch meets a vertex twice the construction fails.", "quantifier": "for all numbers of patches, all consistent topologies, all valences, all betas and refinement levels, both projections, all matrices and all numberings", "why_tests_cant": "The order of the walk, the positions in the index arrays, three groups of entries written one after the other and the angles must fit together for every valence and orientation; a test sees single meshes and reads values that depend on floating-point cosines.", "anchors": ["src/gsDPatch.hpp:331-577", "src/gsDPatchBase.h:321-330"]}
{"id": "C65", "title": "Functions of a hierarchical basis are counted from a corner in the order of their distance", "statement": "For a hierarchical basis refined in a box at a corner, _indexFromVert(index, corner, side, offset) returns the index-th function in use on the line parallel to the side at the given offset: first the functions of the finer level whose support lies in the box, then those of the coarser level, with non-decreasing ends of support, no function twice, and an error past the end, provided the rows of both levels at this offset lie in the box. In the D-patch construction indices 0-2 and offsets 0-1 on the bases before refinement give functions of the level with multiplicity p-1 (for degree two without extra refinement index 2 gives function 2 of level 0), and indices 0-3 and offsets 0-1 after refinement give functions of the finest level; farther indices fail there because only one coarser level is searched. If the row of the coarser level leaves the box the order is lost.", "quantifier": "for all bases with two levels, all sizes, degrees, refinement levels, corners, sides, offsets and indices", "why_tests_cant": "The result depends on how many functions of each level are active, which changes with degree, multiplicity, box size and offset; tests use one or two degrees and the loops do not end when the assumption fails.", "anchors": ["src/gsDPatchBase.hpp:280-304", "src/gsDPatchBase.hpp:370-422", "src/gsDPatch.hpp:144-326"]}
{"id": "C66", "title": "D-patch matrix before the extraordinary vertices: unit column sums, independent rows and averaged control points", "statement": "For every multipatch on hierarchical or tensor-product bases whose two outer rings are regular and whose boundary vertices have at most three patches, the smoothing matrix of gsDPatch is built with all checks passing; its size is that of the mapper; its columns sum to one with entries in [0,1]; its rows are linearly independent. For all coefficients: control points on an interface are the midpoint of the two neighbours across it, also one step from every vertex; corner control points of an interior vertex are the mean of the control points next to it; at a boundary vertex with two patches they are the midpoint of the neighbours on the boundary if the vertex is smooth and free if it is sharp; at a boundary vertex with three patches one additional function e joins, corner control points being the mean of e and the three inner ones and boundary control points the midpoint of e and their inner neighbour. All other functions keep a row of their own. A boundary vertex with more than three patches is an error.", "quantifier": "for all topologies, orientations, numbers of patches, basis sizes, sharp-corner lists and coefficients", "why_tests_cant": "Tests check a few geometries for small errors of a fit; a wrong weight, a row written twice or a neighbour taken from the wrong side changes results only at some vertices or orientations.", "anchors": ["src/gsDPatchBase.hpp:905-1206", "src/gsDPatchBase.hpp:1547-1678", "src/gsDPatch.hpp:893-1109"]}
{"id": "C67", "title": "AlmostC1 matrix before the special vertices: unit column sums, independent rows and averaged control points", "statement": "For every multipatch on hierarchical or tensor-product bases whose two outer rings are regular and whose interior vertices have at least three patches, the smoothing matrix of gsAlmostC1 is built with all checks passing; its size is that of the mapper; its columns sum to one with entries in [0,1]; every row is the row of one function or has no entries, and the rows with entries are linearly independent. For all coefficients: control points on an interface are the midpoint of the two neighbours across it, also one step from every vertex; corner control points of an interior vertex are the mean of the control points next to it; at a smooth boundary vertex, with any number of patches above one, they are the midpoint of the two neighbours on the boundary. Corner functions of sharp boundary vertices, functions on the boundary, at corners of one patch and off the boundary of their patch keep a row of their own. An interior vertex with fewer than three patches is an error.", "quantifier": "for all topologies, orientations, numbers of patches, basis sizes, sharp-corner lists and coefficients", "why_tests_cant": "Tests check a few geometries for small errors of a fit; a wrong weight, a row written twice or a neighbour taken from the wrong side changes results only at some vertices or orientations.", "anchors": ["src/gsAlmostC1.hpp:565-1065", "src/gsDPatchBase.hpp:905-1206"]}
{"id": "C68", "title": "AlmostC1 special vertices: planar control points, unit column sums and independence unless a sharp vertex has more than three patches", "statement": "For every multipatch accepted by gsAlmostC1 and every refinement around its special vertices the final matrix is computed. At a special vertex the columns of the refined functions around it hold the coordinates of their control points in one triangle (in the plane of the mean normal on surfaces), in three rows of the matrix: those of the three lowest corner functions, or with two patches those of the two corner functions and the lowest interface function next to them; all other rows are zero there. So the control points around the vertex are one affine function of the projected old ones, for all coefficients. All other columns are those of the refinement; without special vertices nothing changes. Columns keep unit sums and stay non-negative. Vertices share no row, and every row left empty before belongs to a special vertex. The functions are linearly independent if sharp boundary vertices have at most three patches; at a sharp boundary vertex with more patches a function is lost.", "quantifier": "for all topologies, orientations, numbers of patches, bases, sharp-corner lists, refinements, control points and coefficients", "why_tests_cant": "Tests use a few geometries with interior vertices of valence 3 and 5; rows taken from the wrong functions, shared between vertices, or lost at sharp vertices with many patches show up only as a singular system in other geometries.", "anchors": ["src/gsAlmostC1.hpp:85-222", "src/gsAlmostC1.hpp:591-682", "src/gsDPatchBase.hpp:25-36"]}
{"id": "C69", "title": "AlmostC1 exports the refined geometry unchanged when it is flat at the special vertices", "statement": "For every multipatch accepted by gsAlmostC1: freeCoefficients takes for each row the control point of the function that keeps the row; setCoefficients cuts a coefficient matrix into the patches in order and refuses one of the wrong size; the local patches of _makeTHB are the columns of the matrix applied to the free coefficients. _preCoefficients succeeds and changes only the rows of special vertices. The exported control points around a special vertex are those of the refined patches, projected to one plane; all others are those of the refined local patches. So if the refined local patches lie in that plane around each special vertex, and always in the plane, the exported geometry equals the refined local geometry; without special vertices it equals the local geometry. False: exporting given patches (_preCoefficients(patches) of gsAlmostC1) ignores them and exports the geometry of the constructor.", "quantifier": "for all topologies, orientations, numbers of patches, bases, sharp-corner lists, geometries, refinements", "why_tests_cant": "Tests export one or two geometries and look at them; a control point written into the wrong row at a special vertex moves the surface only there, and the ignored argument shows only when the given patches differ from those of the constructor.", "anchors": ["src/gsAlmostC1.hpp:260-393", "src/gsAlmostC1.hpp:512-515", "src/gsAlmostC1.h:83-87", "src/gsDPatchBase.hpp:185-207"]}
{"id": "C70", "title": "D-Patch coefficients reproduce the refined geometry and correct the boundary vertices of three patches", "statement": "For every multipatch accepted by gsDPatch and every geometry: _preCoefficients succeeds with one coefficient per row; every function with a row of its own gets its control point on the refined patch. At a boundary vertex of three patches the extra row is set so that the corner control point is the midpoint of the neighbouring control points of the two outer patches. False as intended: the sharp-corner test compares the flags with the corner number, so vertices whose corners are all number 1 are skipped as soon as any corner anywhere is sharp, and a sharp vertex with a corner of another number is corrected anyway.", "quantifier": "for all topologies, orientations, numbers of patches, bases, sharp-corner lists, transfer matrices, geometries", "why_tests_cant": "Tests run domains without sharp corners; the skipped correction depends on the numbering of the corners and on a flag at an unrelated vertex.", "anchors": ["src/gsDPatch.hpp:62-138"]}
{"id": "C71", "title": "Refining a patch of gsMPBESBSplineBasis by boxes: knots inserted, interfaces matched, surface unchanged", "statement": "For every consistent topology and clamped bases with simple interior knots: refine inserts the midpoint of every span once per box whose range contains it, nothing else; if no midpoint lies in two ranges the refinement ends, all interfaces match, and every patch has exactly its old knots, the midpoints, and what is carried over interfaces; refine_withCoefs keeps the surface of every patch. False as intended: disjoint boxes side by side insert a knot twice and leave an interface unmatched; refineElements takes element indices for parameters and ignores the level; refineAndSmooth does not repair; a later refinement with update does not repair an earlier one without.", "quantifier": "for all topologies, numbers of patches, orientations, degrees, knot vectors with even spans, boxes, coefficients", "why_tests_cant": "Whether the interfaces match depends on the positions of all boxes and the history of the refinements; tests refine a single box.", "anchors": ["src/gsMPBESBSplineBasis.hpp:179-315", "src/gsMPBESBSplineBasis.hpp:338-366", "src/gsMPBESBasis.hpp:238-268", "src/gsMPBESSpline.hpp:168-186"]}
{"id": "C72", "title": "Refining all patches and constructing a gsMPBESSpline keep the surfaces", "statement": "Uniform refinement divides every span, keeps matched interfaces matched and keeps the surface of every patch, whatever the multiplicity; refining every patch by its own boxes ends with matched interfaces, exactly the expected knots and the same surfaces; so does the constructor from a multi-patch. False as intended: the constructor with sharp corners uses the coefficients before the repair and so fails exactly if the repair changes a size; uniformRefineAndSmooth passes false as multiplicity and never refines.", "quantifier": "for all topologies, numbers of patches, degrees, knot vectors with divisible spans, boxes, coefficients, numbers of knots", "why_tests_cant": "The failing constructor needs interfaces that do not match at the start; that nothing is refined shows only in the sizes, which no test looks at.", "anchors": ["src/gsMPBESBasis.hpp:136-177", "src/gsMPBESSpline.hpp:31-82", "src/gsMPBESSpline.hpp:143-166"]}
{"id": "C73", "title": "gsDPatch from the topology to the final matrix", "statement": "For every supported topology and bases with two regular rings whose rows are matched up to the fourth function, with refined bases in which the functions near different corners differ and a transfer matrix that acts near the vertices by knot insertion: compute succeeds, both column-sum checks pass, the final matrix has the D-patch structure at every extraordinary vertex with the projected coefficients of the refined smoothing matrix, and is the refined smoothing matrix elsewhere; without extraordinary vertices the smoothing matrix itself is the result. In every case a result is returned only if all column sums are one up to 1e-8.", "quantifier": "for all topologies, numbers of patches, valences, orientations, basis sizes, transfer matrices, vertices, projection options, beta, refinement levels", "why_tests_cant": "The chain mapper, smoothing, refinement, projection works only if all index conventions agree for all corners and orientations; tests look at single meshes.", "anchors": ["src/gsDPatchBase.hpp:25-36", "src/gsDPatchBase.hpp:553-565", "src/gsDPatch.hpp:327-760"]}
{"id": "C74", "title": "Repairing the patches of a hierarchical multi-patch basis", "statement": "For every consistent topology and hierarchical bases with matching level-0 discretisation along the interfaces: no patch asks for boxes exactly if the same functions of every level are active on both sides of every interface; after a matching step the patch has every function that is active in a neighbour on a common side; boxes are only added; whenever repairPatches ends, at every interface one patch has all active functions of the other; bases that match and have suitable inner boxes are left unchanged. The stronger claims that repairPatches always ends, and ends with matching interfaces and suitable inner boxes, are false.", "quantifier": "for all topologies, numbers of patches, orientations, degrees, element numbers, refinement boxes of any levels, smoothness degrees, starting patches", "why_tests_cant": "The loop goes over patches until nothing is left to check; whether it ends, and in which state, depends on the interplay of all boxes at vertices and interfaces, which single refinements do not show.", "anchors": ["src/gsMPBESHSplineBasis.hpp:330-563"]}
{"id": "C75", "title": "The map of a multi-patch basis of hierarchical splines", "statement": "Let every level be a proper multi-patch tensor basis, let of the functions in a row across an interface all or none be active, and let the corner function at a special vertex be active on one level only. Then the map of the hierarchical basis is built without error, its columns are exactly the columns of the tensor maps of the levels that consist of active functions (renumbered), the entries of every row sum to one, weights are positive and the columns are linearly independent; the numbering of the active functions is a bijection. Without the condition on rows a function with number -1 is looked up; without the condition on corners a column is added twice; isLocallyConnected reads beyond its index vector.", "quantifier": "for all topologies, numbers of patches and levels, sizes, knot vectors, weights, sets of active functions", "why_tests_cant": "The construction goes through every function of every level and patch; a wrong number of a neighbour gives a matrix of the right size that is singular only for particular refinements.", "anchors": ["src/gsMPBESMapHB2D.h:69-253", "src/gsMPBESMapTensor.h:62-750", "src/gsMPBESHSplineBasis.hpp:194-214"]}
{"id": "C76", "title": "Distances along interfaces of hierarchical bases", "statement": "For a hierarchical basis the number of functions on a side is the number of active functions of all levels; findParameter returns the n-th smallest end of a support among the active functions seen from the corner, and reads beyond its vector exactly when there are fewer than n functions; getDistanceOfVertex counts the functions of one level that end before the parameter, seen from the other end of the side, hence correctly for symmetric knots, where on one level the parameter found for n functions is counted back as n; both sides of an interface with matching knots count the same number. Without symmetric knots the number counted differs from the number asked for.", "quantifier": "for all degrees, numbers of levels, knot vectors, sets of active functions, sides, corners, parameters and levels", "why_tests_cant": "The two functions reverse the knots under opposite conditions; on the uniform knots used in the examples this cannot be seen.", "anchors": ["src/gsMPBESHSplineBasis.hpp:178-192", "src/gsMPBESHSplineBasis.hpp:563-595", "src/gsMPBESMapHB2D.h:112-135"]}
{"id": "C77", "title": "Least squares systems of the C1 construction on surfaces", "statement": "The systems assembled for the functions at a vertex and at an edge do not depend on the number of threads nor on the order in which their elements enter the critical section; their entries are the weighted products of the functions that are kept; if the solver solves them, the coefficients returned are those of weighted least squares approximations of the right-hand sides among the splines whose eliminated coefficients vanish, and right-hand sides in this space are reproduced at all nodes. At an edge exactly the first two rows or columns of functions are kept, at a vertex all. A second call of setG1BasisVertex on one object fails.", "quantifier": "for all bases, elements, active functions, quadrature nodes, weights, numbers of threads, interleavings and sets of eliminated functions", "why_tests_cant": "Tests run with a fixed number of threads and compare the outcome of the whole construction up to a tolerance.", "anchors": ["src/gsC1SurfBasisVertex.h:124-273", "src/gsC1SurfBasisEdge.h:130-291", "src/gsC1SurfVisitorBasisVertex.h:420-465", "src/gsC1SurfVisitorBasisEdge.h:161-190"]}
{"id": "C78", "title": "Refining and repairing hierarchical bases with coefficients", "statement": "If refining one hierarchical basis with coefficients keeps its spline, then repairPatches with coefficients, and refine_withCoefs and refineElements_withCoefs of a multi-patch hierarchical basis, lead to the same bases as without coefficients (or do not end either) and to coefficients, as many as there are functions, of the same spline on every patch; without repair the rows of the other patches stay as they are; too few coefficients are an error, superfluous ones are dropped.", "quantifier": "for all topologies, hierarchical bases, boxes, coefficients, starting patches and numbers of rounds", "why_tests_cant": "The coefficients are cut into blocks, refined block by block during an iteration of unknown length, and put together with the new sizes; tests see a few refinements of small examples.", "anchors": ["src/gsMPBESHSplineBasis.hpp:216-370", "src/gsMPBESBasis.hpp:198-275"]}
{"id": "C79", "title": "Spaces both patches of an interface work with", "statement": "At an interface with geometries without inner knots the gluing data and edge functions of both patches are taken in the spaces of the coarser patch, the ones for which init() created the pieces, and the piece of each patch contains plus, minus and their products with the gluing data; the same holds at every corner of a patch at a vertex, and two patches at a vertex use the same spaces on their common edge. It fails if both sides have equally many elements but different knots, or if the geometry has inner knots. A function mapped back has the value of the mapped one at the moved parameter if the knots are symmetric, and not in general.", "quantifier": "for all degrees, knots, sides, corners, orientations at vertices and gluing-data options", "why_tests_cant": "The spaces are computed three times (init, gluing data, edge/vertex) from differently re-parameterised geometries and bases; tests use matching uniform knots, for which all of them are trivially equal.", "anchors": ["src/gsApproxC1Spline.hpp:101-231", "src/gsApproxC1GluingData.h:47-110", "src/gsApproxC1Edge.hpp:30-238", "src/gsApproxC1Vertex.h:153-250", "src/gsApproxC1Vertex.hpp:26-66", "src/gsContainerBasis.h:105-128"]}
{"id": "C80", "title": "Scaling of the data prescribed at vertices", "statement": "The factor sigma of the approximate C1 construction is positive, and on average over the patches sigma times the largest derivative of the geometry at the vertex is the degree divided by the length of the smallest first element of the pieces of the first patch; magnifying the geometry leaves sigma times the derivatives unchanged, also on surfaces, where the length is the largest end of a second element. The pieces of the other patches are not regarded, so sigma depends on the order of the patches; with different degrees it depends on the order even for equal patches and may read outside of the knots; on surfaces a second call gives another value. Values are prescribed with factor 1, first derivatives with sigma, second derivatives with its square.", "quantifier": "for all numbers of patches, degrees, knots, derivatives and factors", "why_tests_cant": "sigma only scales basis functions, so tests of the spanned space never notice a wrong patch, a wrong knot or a wrong power.", "anchors": ["src/gsApproxC1Vertex.hpp:70-105", "src/gsApproxC1Vertex.h:68-77", "src/gsC1SurfVertex.h:109-133", "src/gsC1SurfVertex.h:590-602"]}
{"id": "C81", "title": "Systems of one patch at a vertex on the boundary", "statement": "In gsC1SurfVertex the two flags of a patch tell, after re-parameterisation and in both orientations, whether its south and west sides are on the boundary. The matrices of one patch are filled within their sizes; the kernel of the big ones are the combinations of functions with zero coefficients in two layers along the boundary sides, that of the small ones those with zero coefficients along the sides. The choice of combinations yields six independent columns, beginning with the big kernel and continuing with columns that span the small kernel. The third number returned with them is not the number of remaining functions.", "quantifier": "for all numbers of coefficients, functions, flags, corners, orientations and kernels", "why_tests_cant": "The functions are no longer called (computeKernel replaced them), so no test reaches them; index expressions for two layers along two sides are wrong in single rows only.", "anchors": ["src/gsC1SurfVertex.h:134-443", "src/gsC1SurfVertex.h:724-790"]}
{"id": "C82", "title": "Solver of the biharmonic equation: data, numbering, boundary projection, solution and errors", "statement": "In gsBiharmonicAssembler2 the default source, gradient and Laplacian are those of the default solution. Exactly the functions listed for the Dirichlet sides and the second layer of the Neumann sides are prescribed, and the projection numbers them as the equation reads them. The prescribed coefficients minimise the weighted distance to the boundary data, the others solve the discrete equation with these values and minimise the energy; a spline that satisfies conditions and equation is found exactly. The three errors increase, are equivalent to the norms of the differences and vanish only with them. The values on the boundary alone are not a best approximation when slopes are prescribed at the same functions.", "quantifier": "for all points, numbers of functions, lists of prescribed functions, elements, nodes, weights and data", "why_tests_cant": "A permuted numbering of the prescribed functions still gives a solution that converges to something; a test compares with one solution on a few geometries, where many boundary values are equal.", "anchors": ["src/gsBiharmonicAssembler2.h:28-60", "src/gsBiharmonicAssembler2.h:86-145", "src/gsBiharmonicAssembler2.h:151-212"]}
{"id": "C83", "title": "Projection of the functions at an edge onto the two layers of the edge piece", "statement": "In setC1BasisEdge exactly the functions of the first two layers at the edge are free. The result lists the functions of the plus space without three at either end, then those of the minus space without two; each vanishes outside the two layers and is a best approximation of the trace or normal function it stands for. Functions contained in the edge piece are found exactly, with the expected coefficients in the two layers, normal functions vanish at the edge, and across an interface the two patches have the same coefficients at the edge.", "quantifier": "for all numbers of functions, both directions, all elements, nodes, weights, plus and minus spaces and gluing data", "why_tests_cant": "A projection with one layer too many or a shifted list of functions still gives smooth functions whose error falls under refinement; a test sees only the final error on a few geometries.", "anchors": ["src/gsApproxC1Edge.hpp:52-184"]}
{"id": "C84", "title": "Hierarchical bases, refinement boxes and transfer matrix around extraordinary vertices", "statement": "_initTHB gives every patch its basis, made hierarchical, at its place, unless a basis is of another kind: then it is left out and the patches after it have wrong numbers. The boxes of the corners are handed to the refinement one level (in the second step of the D-Patch two levels) further down and cover the same region. When the refinement of every basis comes with its transfer matrix, the matrix assembled in _makeTHB has a column for every function before and a row for every function after, acts on each patch alone and leaves the function on every patch the same; the product of the construction's matrix with its transpose describes the same functions row by row, and columns that sum to one still do.", "quantifier": "for all numbers of patches, bases, boxes, transfer matrices, coefficients and matrices", "why_tests_cant": "With patches of equal size or refinement on one patch only, a wrong offset of the blocks or boxes on a wrong level go unnoticed; tests compare only final errors.", "anchors": ["src/gsDPatch.hpp:270-330", "src/gsAlmostC1.hpp:405-422", "src/gsAlmostC1.hpp:519-549", "src/gsDPatchBase.hpp:829-843"]}
{"id": "C85", "title": "Constructors, copies, assignment and degree elevation of composite bases", "statement": "Every constructor of gsMPBESBSplineBasis and gsMPBESHSplineBasis sets smoothness and distance by the rule, computes vertices and distances with them and ends with the mapper of the repaired bases; those that use the check end only with suitable bases, the others accept unsuitable ones, and a smoothness below -1 gives an enormous distance. A copy has the same contents and mapper but no weights. Assignment copies everything but weights and mapper; the object cannot be used before it is updated; an object assigned to itself loses its bases. Degree elevation keeps smoothness and distances, so that the object is not the one constructed from the elevated bases.", "quantifier": "for all topologies, bases, mappers, weights, objects and memories, whatever the functions called compute", "why_tests_cant": "The bases are constructed once and passed by reference in the tests, which never assign, copy objects with weights, or construct from unsuitable bases.", "anchors": ["src/gsMPBESBSplineBasis.hpp:22-141", "src/gsMPBESHSplineBasis.hpp:20-179", "src/gsMPBESBasis.h:101-106", "src/gsMPBESBasis.hpp:179-195"]}
{"id": "C86", "title": "Projection of the gluing data and of the functions at a vertex", "statement": "With no coefficient prescribed, the projections of alpha and beta of gsApproxC1GluingData and of the six functions of gsApproxC1Vertex succeed, each result is closest to its function among all splines in the norm of the nodes, a function that is a spline in the nodes keeps its coefficients, and the projection is linear; setGlobalGluingData changes the entries of its direction only, and the vertex gets its six functions in order.", "quantifier": "for all numbers of splines, elements, nodes, weights, values and functions, containers and directions, and any solver that solves the system", "why_tests_cant": "The tests see the projections only through convergence rates of the whole method; an interchanged function or an approximation that is not the closest still converges.", "anchors": ["src/gsApproxC1GluingData.h:100-193", "src/gsApproxC1Vertex.h:266-337"]}
{"id": "C87", "title": "Interpolation of the functions at edges and vertices", "statement": "With the option interpolation of the approximate C1 construction, each function at an edge or vertex becomes the spline with its values in the anchors; at an edge it has coefficients only in the two layers at the edge, found by univariate interpolation of trace and slope, so the two patches at an interface have the same coefficients there even if the functions are not splines, normal functions vanish there, and in the anchors along the interface the condition of first-order smoothness holds; the functions kept are all there, in order.", "quantifier": "for all univariate bases, evaluations, gluing data, plus and minus spaces, directions, functions at the vertex, and any solver that solves collocation systems with unique solutions", "why_tests_cant": "Examples run with the option on and look at convergence only; that interpolation of a function that is not a spline still keeps to two layers and is continuous across the interface needs an argument about all spaces.", "anchors": ["src/gsApproxC1Edge.hpp:115-176", "src/gsApproxC1Vertex.h:300-316", "src/gsApproxC1Utils.h:292-318", "src/gsApproxC1Utils.h:380-406"]}
{"id": "C88", "title": "Internal vertices are recognised by counting interfaces", "statement": "A vertex is internal if every side around it is on an interface. When the patches around the vertex have no interface with each other elsewhere, counting the interfaces of the auxiliary topology decides this correctly, in gsC1SurfVertex::kindOfVertex and in gsApproxC1Vertex, where the functions are combined by computeKernel exactly at vertices that are not internal. Without that condition the count fails in both directions: two patches forming an annulus, two patches joined along all sides.", "quantifier": "for all numbers of patches, corners, interfaces, functions, computeKernel and parametrizeBasisBack", "why_tests_cant": "The tested geometries have no two patches with two interfaces.", "anchors": ["src/gsApproxC1Vertex.h:338-353", "src/gsC1SurfVertex.h:44-56", "src/gsC1SurfVertex.h:80-91"]}
{"id": "C89", "title": "The composite basis matches the bases of the patches", "statement": "getCompBasisFromMultiPatch makes the composite tensor product basis if all bases are tensor product B-splines, the composite hierarchical basis if all are hierarchical, from all bases in order, and fails its assertion (without assertions: returns the null pointer) otherwise. It never frees an object twice or reads a freed one, and leaves other objects alone. For tensor product bases every copy is freed; for hierarchical ones one copy per patch is leaked, for mixed ones every copy of the wrong kind.", "quantifier": "for all lists of bases, dynamic types, constructors and heaps", "why_tests_cant": "A leak does not change results, and mixed multipatches are not tested.", "anchors": ["src/gsMPBESUtils.h:15-45", "src/gsMPBESUtils.h:48-83"]}
{"id": "C90", "title": "The unused helpers of the MPBES classes", "statement": "getNrOfSpecialKnots counts no more knots than there are new knots up to the knot number distance+degree, exactly these if the new knots come one by one between the old ones, and treats both ends alike. That it counts all of them is false for two new knots in one element. _flipOverCorner passes to the other side of the patch at the same corner and undoes itself.", "quantifier": "for all degrees, ascending lists of knots and of new knots, distances, sides, patches and flags", "why_tests_cant": "Nothing calls these functions, so no test runs them.", "anchors": ["src/gsMPBESBSplineBasis.hpp:317-337", "src/gsMPBESMapTensor.h:473-495"]}
