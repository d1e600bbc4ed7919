{"id": "C01", "title": "A successfully constructed mesh is a valid half-edge mesh", "statement": "Whenever Mesh(vertices, indices) (or construct) returns normally, the mesh it built is structurally valid: every half-edge has an opposite one which is different from it and whose opposite is itself; following next() from a half-edge stays in its face and comes back to it, having visited every half-edge of that face; src/dst of opposite half-edges are exchanged; the half-edges leaving one vertex form one rotation cycle (no bow-tie vertices); no edge is a loop and no two half-edges join the same ordered pair of vertices; each non-hole face is a triangle; index() of every element equals its position in the mesh; nothing refers to an element outside the mesh.", "quantifier": "all vertex arrays and all index arrays on which construction returns normally", "why_tests_cant": "the inputs are unbounded triangle soups; a test only sees the files it loads, and the failure modes (several boundary loops, fans meeting at a vertex, duplicated edges) combine freely", "anchors": ["src/tinymesh/core/mesh.cpp: Mesh::construct (both overloads)", "src/tinymesh/core/halfedge.h"]}
{"id": "C02", "title": "Construction reproduces exactly the accepted triangles", "statement": "After a successful construction from positions without NaN, the non-hole faces of the mesh are exactly the input triangles that were accepted, each with its three corner positions in the input's cyclic order, in input order if the input has no degenerate triangle (dropping a degenerate triangle moves the last one into its place); faces that were skipped are precisely the ones reusing an already present directed edge.", "quantifier": "all vertex and index arrays on which construction returns normally", "why_tests_cant": "equality with the whole input for every size and every order of triangles", "anchors": ["src/tinymesh/core/mesh.cpp: Mesh::construct", "src/tinymesh/core/mesh.cpp: Mesh::getVertexIndices"]}
{"id": "C03", "title": "Every consistently oriented manifold triangle soup is accepted", "statement": "If every index is in range, the triangles have distinct corners, no directed edge occurs twice, and the triangles around each vertex form a single fan (open or closed), then construction succeeds: no Error, no undefined behaviour, and it terminates.", "quantifier": "all such inputs, of any size, genus and number of boundary loops", "why_tests_cant": "completeness over an infinite family of inputs, including termination of three pointer-chasing loops", "anchors": ["src/tinymesh/core/mesh.cpp: Mesh::construct"]}
{"id": "C04", "title": "Non-manifold vertices are rejected", "statement": "If no directed edge occurs twice but the triangles around some vertex do not form a single fan, construction ends in Error and never returns a mesh.", "quantifier": "all such inputs", "why_tests_cant": "the detection works by counting half-edges after the holes were closed; that no count can coincide by accident is a statement about all inputs", "anchors": ["src/tinymesh/core/mesh.cpp: Mesh::construct (manifold check)"]}
{"id": "C05", "title": "A triangle that repeats a directed edge is skipped and nothing else", "statement": "Processing the triangles in order, a triangle is skipped if and only if one of its three directed edges already belongs to an accepted triangle.", "quantifier": "all index arrays", "why_tests_cant": "depends on the whole history of accepted triangles", "anchors": ["src/tinymesh/core/mesh.cpp: Mesh::construct (Check polygon duplication)"]}
{"id": "C06", "title": "Degenerate triangles are dropped", "statement": "Triangles with two equal corners are removed before the half-edge structure is built, so they neither appear in the mesh nor make construction fail.", "quantifier": "all index arrays with any number of degenerate triangles at any positions", "why_tests_cant": "depends on the relative positions of all degenerate triangles in the array", "anchors": ["src/tinymesh/core/mesh.cpp: Mesh::construct (first loop)"]}
{"id": "C07", "title": "construct replaces the previous contents", "statement": "Calling construct(vertices, indices) on a mesh object gives the same mesh as constructing a fresh object from the same arrays, whatever the object held before; the same holds for load.", "quantifier": "all previous contents and all new arrays", "why_tests_cant": "quantifies over histories of one object", "anchors": ["src/tinymesh/core/mesh.cpp: Mesh::construct(vertices, indices)", "src/tinymesh/core/mesh.cpp: Mesh::load", "src/tinymesh/core/mesh.cpp: Mesh::loadOBJ", "src/tinymesh/core/mesh.cpp: Mesh::loadPLY"]}
{"id": "C08", "title": "Equal positions become one vertex, and every vertex is used", "statement": "After construction from positions that compare equal to themselves (no NaN), no two vertices have equal positions, every vertex position occurs among the referenced input positions and vice versa, and vertices are numbered by first use.", "quantifier": "all vertex and index arrays without NaN", "why_tests_cant": "all arrays, with any pattern of coincident positions", "anchors": ["src/tinymesh/core/mesh.cpp: Mesh::construct(vertices, indices)"]}
{"id": "C09", "title": "Construction from in-range arrays has no undefined behaviour", "statement": "If the number of indices is a multiple of three and all are in range, construction either returns a mesh or calls Error; it never dereferences a null or dangling pointer, reads out of bounds or loops forever.", "quantifier": "all such arrays", "why_tests_cant": "absence of undefined behaviour over all inputs; a test cannot even observe some violations", "anchors": ["src/tinymesh/core/mesh.cpp: Mesh::construct"]}
{"id": "C10", "title": "Each boundary loop becomes exactly one hole face", "statement": "After construction the hole faces cover every directed edge that has no opposite triangle exactly once (reversed), each hole face has at least three corners and visits distinct vertices; a closed input gives no hole face, numFaces() = #triangles and numHalfedges() = 3 #triangles.", "quantifier": "all inputs on which construction returns normally", "why_tests_cant": "any number and length of boundary loops", "anchors": ["src/tinymesh/core/mesh.cpp: Mesh::construct (boundary components)"]}
{"id": "C11", "title": "Circulating a vertex visits every incident half-edge exactly once", "statement": "On a valid mesh, iterating he_begin()..he_end(), v_begin()..v_end(), f_begin()..f_end() of a vertex terminates and yields each half-edge leaving the vertex (its end point, its face) exactly once; degree() is their number.", "quantifier": "all valid meshes and all their vertices", "why_tests_cant": "termination and coverage for every valence", "anchors": ["src/tinymesh/core/vertex.h", "src/tinymesh/core/vertex.cpp"]}
{"id": "C12", "title": "Circulating a face visits every corner exactly once", "statement": "On a valid mesh, iterating a face terminates and yields each of its half-edges exactly once; numCorners() is their number, it is 3 for non-hole faces, prev() terminates and is inverse to next().", "quantifier": "all valid meshes and all their faces, including hole faces of any length", "why_tests_cant": "termination and coverage for every face size", "anchors": ["src/tinymesh/core/face.cpp", "src/tinymesh/core/halfedge.h: Halfedge::prev"]}
{"id": "C13", "title": "numEdges counts undirected edges", "statement": "On a valid mesh numHalfedges() is even, numEdges() = numHalfedges() / 2, and getMeanEdgeLength() averages over each undirected edge once.", "quantifier": "all valid meshes", "why_tests_cant": "any mesh size and any order of the half-edge array", "anchors": ["src/tinymesh/core/mesh.cpp: Mesh::numEdges", "src/tinymesh/core/mesh.cpp: Mesh::getMeanEdgeLength"]}
{"id": "C14", "title": "isBoundary reports exactly the boundary", "statement": "After construction a vertex reports isBoundary() exactly if it is the end of an edge used by only one triangle, and a half-edge reports it exactly if its edge is used by only one triangle.", "quantifier": "all inputs on which construction returns normally", "why_tests_cant": "any topology", "anchors": ["src/tinymesh/core/vertex.cpp: Vertex::isBoundary", "src/tinymesh/core/mesh.cpp: Mesh::construct"]}
{"id": "C15", "title": "splitHE inserts one vertex at the midpoint and keeps the mesh valid", "statement": "On a valid mesh splitHE terminates without undefined behaviour; when it returns true the mesh is again valid and has one more vertex, two more faces and six more half-edges, the new vertex is at the midpoint of the edge and has degree 4, the two opposite vertices gain one neighbour, and no other vertex, position, lock or face is affected.", "quantifier": "all valid meshes and all their half-edges", "why_tests_cant": "pointer surgery on an arbitrary mesh; aliasing between the touched elements depends on the mesh", "anchors": ["src/tinymesh/core/mesh.cpp: Mesh::splitHE"]}
{"id": "C16", "title": "flipHE on an interior edge replaces the diagonal and keeps the mesh valid", "statement": "On a valid mesh, flipHE on a half-edge whose two faces are triangles terminates without undefined behaviour; when it returns true the mesh is valid, has the same numbers of vertices, half-edges and faces, the edge now joins the two opposite vertices, the two end points lose one neighbour and the two opposite vertices gain one, and nothing else changes.", "quantifier": "all valid meshes and all their interior half-edges", "why_tests_cant": "pointer surgery on an arbitrary mesh", "anchors": ["src/tinymesh/core/mesh.cpp: Mesh::flipHE"]}
{"id": "C17", "title": "flipHE is safe on every half-edge", "statement": "On a valid mesh flipHE keeps the mesh valid whatever half-edge it is given, in particular it leaves boundary edges alone.", "quantifier": "all valid meshes with boundary and all their half-edges", "why_tests_cant": "depends on the length of the boundary loop the edge lies on", "anchors": ["src/tinymesh/core/mesh.cpp: Mesh::flipHE"]}
{"id": "C18", "title": "collapseHE removes one vertex and keeps the mesh valid", "statement": "On a valid mesh collapseHE terminates without undefined behaviour or failing assertion; when it returns true the mesh is again valid (in particular no two half-edges join the same ordered pair of vertices), has one vertex, two faces and six half-edges fewer, the neighbours of the removed vertex are attached to the remaining end point, no vertex position changes, and no remaining element refers to a removed one.", "quantifier": "all valid meshes, all positions and all their half-edges", "why_tests_cant": "the guards (degrees, number of shared neighbours, face-flip test) must exclude every aliasing that would break the structure", "anchors": ["src/tinymesh/core/mesh.cpp: Mesh::collapseHE", "src/tinymesh/core/mesh.cpp: removeVertex/removeHalfedge/removeFace"]}
{"id": "C19", "title": "collapseHE keeps the surface a manifold with boundary", "statement": "On a valid mesh in which every vertex has at most one boundary gap, collapseHE leaves a mesh in which every vertex has at most one boundary gap.", "quantifier": "all valid meshes with boundary", "why_tests_cant": "depends on how the boundary runs near the edge", "anchors": ["src/tinymesh/core/mesh.cpp: Mesh::collapseHE"]}
{"id": "C20", "title": "A refused edit leaves the mesh untouched", "statement": "When splitHE, flipHE or collapseHE returns false nothing of the mesh has changed.", "quantifier": "all meshes (valid or not) and half-edges", "why_tests_cant": "all states", "anchors": ["src/tinymesh/core/mesh.cpp: splitHE, flipHE, collapseHE"]}
{"id": "C21", "title": "collapseFace is all or nothing", "statement": "collapseFace on a triangle of a valid mesh never has undefined behaviour and leaves a valid mesh; when it returns false the mesh is unchanged.", "quantifier": "all valid meshes and triangles", "why_tests_cant": "two edits in sequence, the second on a half-edge that must survive the first", "anchors": ["src/tinymesh/core/mesh.cpp: Mesh::collapseFace"]}
{"id": "C22", "title": "Any sequence of edits keeps the mesh valid", "statement": "Starting from a constructed mesh, any sequence of splitHE, collapseHE and collapseFace calls on its half-edges and faces, and of flipHE calls on its interior half-edges, terminates without undefined behaviour and ends in a valid mesh; half-edges, vertices and faces handed out by the mesh are always live.", "quantifier": "all inputs, all finite sequences of edits", "why_tests_cant": "unbounded histories", "anchors": ["src/tinymesh/core/mesh.cpp: Mesh"]}
{"id": "C23", "title": "Edits preserve the Euler characteristic", "statement": "numVertices() - numEdges() + numFaces() is the same before and after any sequence of splitHE, flipHE, collapseHE, collapseFace calls, whether they succeed or are refused; so is it under fillHoles.", "quantifier": "all valid meshes, all finite sequences of edits", "why_tests_cant": "unbounded histories", "anchors": ["src/tinymesh/core/mesh.cpp: Mesh", "src/tinymesh/core/completion.cpp"]}
{"id": "C24", "title": "verify() accepts exactly the valid meshes", "statement": "verify() returns true on every valid mesh with finite positions, and true only on valid meshes.", "quantifier": "all meshes", "why_tests_cant": "all states", "anchors": ["src/tinymesh/core/mesh.cpp: Mesh::verify, Mesh::verifyVertex"]}
{"id": "C25", "title": "fillHoles triangulates every hole", "statement": "fillHoles on a valid mesh terminates without undefined behaviour; a hole with n corners is replaced by exactly n-2 triangles with the hole's corners as vertices that cover the hole's boundary half-edges exactly once; the other faces, the vertices and their positions are unchanged and the half-edge structure stays valid.", "quantifier": "all valid meshes, any number of holes of any length, all positions", "why_tests_cant": "dynamic program over holes of every length; all weight patterns", "anchors": ["src/tinymesh/core/mesh.cpp: Mesh::fillHoles", "src/tinymesh/core/completion.cpp: holeFillMinDihedral_, addNewTriangle"]}
{"id": "C26", "title": "After fillHoles nothing is reported as boundary", "statement": "After fillHoles no vertex, half-edge or face reports isBoundary() and no face reports isHole().", "quantifier": "all valid meshes with holes", "why_tests_cant": "all hole shapes", "anchors": ["src/tinymesh/core/completion.cpp: holeFillMinDihedral_, addNewTriangle", "src/tinymesh/core/mesh.cpp: Mesh::fillHoles"]}
{"id": "C27", "title": "clone is an independent copy of the same surface", "statement": "clone() of a mesh obtained by construction gives a mesh with the same triangles (corner positions in the same cyclic order, same face order) and the same vertex positions, and does not touch the original.", "quantifier": "all constructed meshes", "why_tests_cant": "all topologies", "anchors": ["src/tinymesh/core/mesh.cpp: Mesh::clone, getVertices, getVertexIndices"]}
{"id": "C28", "title": "getVertexIndices lists every triangle", "statement": "getVertexIndices() returns, for every triangle the mesh was constructed from, its three vertex numbers in cyclic order, and nothing for holes.", "quantifier": "all constructed meshes", "why_tests_cant": "all topologies", "anchors": ["src/tinymesh/core/mesh.cpp: Mesh::getVertexIndices", "src/tinymesh/core/face.cpp: Face::isHole"]}
{"id": "C29", "title": "Saving and loading gives back the mesh", "statement": "Writing a mesh to a file and loading that file gives a mesh with the same triangles over the positions as rounded by the file format.", "quantifier": "all constructed meshes, both formats, all previous contents of the loading object", "why_tests_cant": "all meshes and all rounding patterns", "anchors": ["src/tinymesh/core/mesh.cpp: saveOBJ, savePLY, loadOBJ, loadPLY"]}
{"id": "C30", "title": "Smoothing leaves connectivity, locked and boundary vertices alone", "statement": "smoothLaplacian and smoothTaubin change nothing but positions, and positions of locked vertices and of boundary vertices never change.", "quantifier": "all meshes, strengths, iteration counts", "why_tests_cant": "any number of iterations", "anchors": ["src/tinymesh/filters/smooth.cpp: smoothLaplacian, smoothTaubin"]}
{"id": "C31", "title": "Parallel smoothing is deterministic", "statement": "The result of smoothLaplacian and smoothTaubin does not depend on the order in which the iterations of their OpenMP loops are executed.", "quantifier": "all meshes and all schedules of each parallel loop", "why_tests_cant": "all schedules", "anchors": ["src/tinymesh/filters/smooth.cpp"]}
{"id": "C32", "title": "Laplacian smoothing stays in the bounding box", "statement": "smoothLaplacian with strength in [0,1] and uniform weights never moves a coordinate outside the range the coordinates had before, for any number of iterations (exact arithmetic).", "quantifier": "all meshes, positions, iteration counts, 0 <= strength <= 1", "why_tests_cant": "all real positions", "anchors": ["src/tinymesh/filters/smooth.cpp: smoothLaplacian"]}
{"id": "C33", "title": "Every filter respects locked vertices", "statement": "No smoothing or denoising filter moves a locked vertex.", "quantifier": "all meshes, all filters", "why_tests_cant": "all inputs", "anchors": ["src/tinymesh/filters/smooth.cpp", "src/tinymesh/filters/denoise.cpp"]}
{"id": "C34", "title": "The mesh Laplacian annihilates constants and is symmetric", "statement": "getMeshLaplacian returns for the adjacency, the cotangent and the Belkin operator a symmetric matrix all of whose rows sum to zero; off-diagonal entries are 0 for vertices that are not neighbours and minus the weight of the edge for neighbours: 1, half the sum of the cotangents opposite to the edge, or exp(-d^2/4h)/(4 pi h) with the mean edge length h; for the adjacency operator the diagonal is the vertex degree; the quadratic form of the first and last operator is non-negative (exact arithmetic).", "quantifier": "all valid meshes and positions", "why_tests_cant": "matrices of every size", "anchors": ["src/tinymesh/ops/operators.cpp", "src/tinymesh/core/halfedge.cpp: Halfedge::cotWeight"]}
{"id": "C35", "title": "simplifyQEM terminates and respects its target", "statement": "simplifyQEM terminates; the face count only decreases, in steps of two, and never goes more than one below the target.", "quantifier": "all valid meshes, all targets, all cost functions and queue orders", "why_tests_cant": "unbounded number of passes", "anchors": ["src/tinymesh/remesh/simplify.cpp: simplifyQEM"]}
{"id": "C36", "title": "simplifyQEM never touches freed memory and leaves a valid mesh", "statement": "On a valid mesh simplifyQEM never dereferences a half-edge it has already removed, never indexes out of range and leaves a valid mesh, whatever costs the edges have.", "quantifier": "all valid meshes, all cost functions and queue orders", "why_tests_cant": "the queue holds raw pointers across removals; all histories", "anchors": ["src/tinymesh/remesh/simplify.cpp: simplifyQEM", "src/tinymesh/core/mesh.cpp: collapseHE"]}
{"id": "C37", "title": "remeshTriangular keeps locked vertices and validity", "statement": "remeshTriangular on a valid mesh leaves a valid mesh in which every vertex that was locked (or that it locked as a feature) is still present at the same position, for every random shuffle.", "quantifier": "all valid meshes, parameters and random permutations", "why_tests_cant": "all shuffles", "anchors": ["src/tinymesh/remesh/remesh.cpp: remeshTriangular"]}
{"id": "C38", "title": "Triangle::closestPoint returns the closest point of the triangle", "statement": "Triangle::closestPoint(p) lies in the triangle and no point of the triangle is closer to p (exact arithmetic).", "quantifier": "all triangles and query points", "why_tests_cant": "all real inputs", "anchors": ["src/tinymesh/core/triangle.cpp: closestPoint"]}
{"id": "C39", "title": "A BVH query agrees with exhaustive search", "statement": "BVH::closestPoint(q) returns a candidate whose distance is the minimum over all triangles of the distance to that triangle's own closestPoint, if that minimum is below 1e20 (otherwise the origin); pruning never loses the minimum (exact arithmetic).", "quantifier": "all triangle lists, trees and queries", "why_tests_cant": "all trees and queries", "anchors": ["src/tinymesh/core/bvh.cpp", "src/tinymesh/core/bounds.h"]}
{"id": "C40", "title": "Building a BVH terminates and stores every triangle once", "statement": "Building a BVH over any non-empty list of triangles terminates, every recursive call gets a strictly smaller non-empty range, every triangle is in exactly one leaf, and every node's box contains its triangles (exact arithmetic).", "quantifier": "all non-empty triangle lists, any behaviour of nth_element and partition the C++ standard allows", "why_tests_cant": "all lists; recursion depth unbounded", "anchors": ["src/tinymesh/core/bvh.cpp: constructRec"]}
{"id": "C41", "title": "The Hausdorff distance is a symmetric distance", "statement": "For meshes with at least one face, getHausdorffDistance(a,b) = getHausdorffDistance(b,a), it is non-negative and never below the distance of a vertex of one mesh to the other surface, and getHausdorffDistance(a,a) = 0 (exact arithmetic, meshes nearer than 1e20).", "quantifier": "all meshes", "why_tests_cant": "all inputs", "anchors": ["src/tinymesh/ops/metrics.cpp"]}
{"id": "C42", "title": "Principal curvatures and directions are the eigenpairs of the tensor", "statement": "getPrincipalCurvatures returns k_max >= k_min with k_max + k_min the trace and k_max k_min the determinant of the curvature tensor, and the returned directions are eigenvectors for the respective curvatures (exact arithmetic).", "quantifier": "all symmetric 2x2 tensors and orthonormal frames", "why_tests_cant": "all real inputs", "anchors": ["src/tinymesh/ops/features.cpp: getPrincipalCurvaturesFromTensors"]}
{"id": "C43", "title": "Mixed Voronoi areas partition the surface", "statement": "For every triangular face the three areas volonoiArea attributes to its corners sum to the triangle's area, up to at most 1e-20/2 (the guard of cot), exactly if the triangle is obtuse (exact arithmetic).", "quantifier": "all triangular faces of well-formed meshes, all positions", "why_tests_cant": "all real inputs", "anchors": ["src/tinymesh/core/vertex.cpp: Vertex::volonoiArea", "src/tinymesh/core/vec.h: cot, obtuse"]}
{"id": "C44", "title": "Vector arithmetic obeys the vector-space laws", "statement": "+, -, scalar *, / satisfy the usual laws, v - s subtracts s from every component, dot is symmetric and bilinear, cross is antisymmetric and orthogonal to its arguments, length(normalize(v)) = 1 for v != 0 and normalize(0) raises (exact arithmetic).", "quantifier": "all vectors", "why_tests_cant": "all real inputs", "anchors": ["src/tinymesh/core/vec.h"]}
{"id": "C45", "title": "Constructing a vector stays inside its storage", "statement": "Vec<Float,Dims>(x,y,z) writes only to the Dims components of the vector.", "quantifier": "all dimensions and arguments", "why_tests_cant": "out-of-bounds writes are not observable by tests", "anchors": ["src/tinymesh/core/vec.h: Vec constructor"]}
{"id": "C46", "title": "dihedral is an angle", "statement": "dihedral(a,b,c,d) is in [0, pi] for non-degenerate configurations, never evaluates acos outside [-1,1], and does not depend on the orientation of the shared edge (exact arithmetic).", "quantifier": "all points", "why_tests_cant": "all real inputs", "anchors": ["src/tinymesh/core/vec.h: dihedral"]}
{"id": "C47", "title": "Bounding boxes bound", "statement": "A Bounds3 contains every point merged into it, is the smallest box doing so, and the distance to the box is a lower bound of the distance to any point inside it.", "quantifier": "all point sequences in |x| <= 1e20 and queries", "why_tests_cant": "all sequences", "anchors": ["src/tinymesh/core/bounds.h"]}
{"id": "C48", "title": "The progress bar never fails", "statement": "Calling step() on a ProgressBar never raises, the line shown is a bar of 40 characters that tells how much is done, and finish() completes it.", "quantifier": "all totals and all step sequences the library issues", "why_tests_cant": "all histories", "anchors": ["src/tinymesh/core/progress.h", "src/tinymesh/remesh/simplify.cpp"]}
{"id": "C49", "title": "Vertex areas partition the surface", "statement": "The sum of volonoiArea() over all vertices equals the sum of the areas of the faces (exact arithmetic, up to 1e-20/2 per face).", "quantifier": "all valid meshes", "why_tests_cant": "meshes of every size and all real positions", "anchors": ["src/tinymesh/core/vertex.cpp: Vertex::volonoiArea", "src/tinymesh/core/face.cpp: Face::area"]}
{"id": "C50", "title": "getVertexIndices describes the current surface after any edits", "statement": "On every valid mesh, also after any sequence of edits, getVertexIndices() returns exactly three vertex numbers for every face that is not reported as a hole, in face order and in the face's cyclic order, and changes nothing.", "quantifier": "all valid meshes", "why_tests_cant": "all histories of edits", "anchors": ["src/tinymesh/core/mesh.cpp: Mesh::getVertexIndices"]}
{"id": "C51", "title": "Area, normal and corners of a face", "statement": "Face::area of a triangular face is half the length of the cross product of two of its edge vectors, and Face::normal is the unit vector along that cross product if the area is positive, whichever corner the face starts at (exact arithmetic).  Face::toTriangle returns its three corners, in the order of the face.", "quantifier": "all well-formed meshes, triangular faces and positions", "why_tests_cant": "all real positions", "anchors": ["src/tinymesh/core/face.cpp: Face::area, Face::normal, Face::toTriangle"]}
{"id": "C52", "title": "simplifyQEM leaves the boundary in place", "statement": "When a mesh with boundary is simplified, every boundary vertex is still there afterwards, still on the boundary and at exactly the same position, whatever is collapsed, flipped or smoothed inside.", "quantifier": "all valid meshes, targets, cost functions and queue orders", "why_tests_cant": "all meshes and all orders of collapses and flips", "anchors": ["src/tinymesh/remesh/simplify.cpp: simplifyQEM", "src/tinymesh/filters/smooth.cpp: smoothLaplacian, smoothTaubin"]}
{"id": "C53", "title": "Simplification and remeshing keep the topology", "statement": "The number of vertices minus edges plus faces is the same before and after simplifyQEM and remeshTriangular.", "quantifier": "all valid meshes, parameters, cost functions and shuffles", "why_tests_cant": "unbounded sequences of splits, collapses and flips", "anchors": ["src/tinymesh/remesh/simplify.cpp: simplifyQEM", "src/tinymesh/remesh/remesh.cpp: remeshTriangular"]}
{"id": "C54", "title": "fillHoles creates no duplicate edges", "statement": "If no two edges of a mesh join the same two vertices, this is still so after fillHoles; the filled mesh satisfies every condition of a valid mesh, so that it can be edited, cloned and saved.", "quantifier": "all valid meshes with any holes", "why_tests_cant": "all hole shapes and all connections outside of the hole", "anchors": ["src/tinymesh/core/completion.cpp: holeFillMinDihedral_, addNewTriangle"]}
{"id": "C55", "title": "A collapse turns no triangle over", "statement": "When collapseHE returns true, every triangle that was attached to the removed vertex and remains has, seen from the mean normal of the triangles around the removed vertex, the same orientation as before; in particular no normal is reversed.", "quantifier": "all valid meshes, all positions and all half-edges on which collapseHE succeeds", "why_tests_cant": "the face-flip test compares signs of consecutive triangles in the order given by the stored half-edge, so it depends on a hidden choice and on all shapes of the ring", "anchors": ["src/tinymesh/core/mesh.cpp: Mesh::collapseHE (face flip check)"]}
{"id": "C56", "title": "collapseHE succeeds exactly on collapsible edges", "statement": "On a valid mesh collapseHE returns false and changes nothing exactly if one of its conditions fails: the edge lies between two triangles without boundary half-edges, the end point that remains (the one with the smaller degree, else where the half-edge starts) has degree above 3, the two opposite vertices have degrees above 4, the end points have no common neighbours but these two, and no two consecutive triangles around the removed vertex get opposite orientations.  Otherwise it performs the collapse (or stops at the assertion, if a position is NaN).", "quantifier": "all valid meshes, all positions and all their half-edges", "why_tests_cant": "both directions must hold for all connectivities around the edge; a collapse that refuses too often or too seldom passes example tests", "anchors": ["src/tinymesh/core/mesh.cpp: Mesh::collapseHE"]}
{"id": "C57", "title": "Smoothing moves vertices towards the weighted mean of their neighbours", "statement": "smoothLaplacian(mesh, eps, cot, n) performs n passes; in each pass every vertex that is neither locked nor on the boundary moves the fraction eps of the way to the weighted mean of its neighbours (weights 1, or half the sum of the two opposite cotangents), all computed from the positions before the pass.  smoothTaubin performs 2n such passes with the factors shrink and -inflate in turn (exact arithmetic).", "quantifier": "all valid meshes, positions, factors, numbers of passes and all schedules of the parallel loops", "why_tests_cant": "a test compares a few meshes; the claim is about the formula for every connectivity and schedule", "anchors": ["src/tinymesh/filters/smooth.cpp: smoothLaplacian, smoothTaubin", "src/tinymesh/core/halfedge.cpp: Halfedge::cotWeight"]}
{"id": "C58", "title": "Implicit fairing performs backward Euler steps of cotangent diffusion", "statement": "If its linear systems are solved exactly, each iteration of implicitFairing changes positions only, and the new position p' of a vertex that is not on the boundary and whose weights do not add up to 0 satisfies p' = p + eps (c' - p'), where c' is the cotangent-weighted mean of the new positions of its neighbours.", "quantifier": "all valid meshes, positions, eps and numbers of iterations", "why_tests_cant": "matrices of every size and connectivity", "anchors": ["src/tinymesh/filters/smooth.cpp: implicitFairing"]}
{"id": "C59", "title": "Gaussian curvature is the angle defect and obeys Gauss-Bonnet", "statement": "At a vertex that is not on the boundary and whose triangles are not degenerate, K() is 2 pi minus the sum of the angles of its triangles at the vertex, divided by volonoiArea(), which is positive.  On a closed mesh without degenerate triangles the sum of K() * volonoiArea() over the vertices is 2 pi times the Euler characteristic (exact arithmetic).", "quantifier": "all valid (closed) meshes with real positions and all their vertices", "why_tests_cant": "an identity over all connectivities, genera and positions; a test shows it for a few shapes up to rounding", "anchors": ["src/tinymesh/core/vertex.cpp: Vertex::K, Vertex::volonoiArea"]}
{"id": "C60", "title": "Vertex normals are weighted means of face normals, exact on spheres", "statement": "At a vertex that is not on the boundary and whose triangles are not degenerate, normal() is the normalised sum of the cross products of consecutive edges divided by the squares of their lengths (it throws if that sum is zero).  If all triangles at the vertex are seen from the front in a direction, it exists and points to that side.  If the vertex and its neighbours lie on a sphere, it is the direction of the radius (exact arithmetic).", "quantifier": "all valid meshes with real positions and all their vertices", "why_tests_cant": "holds for every ring of neighbours of every size", "anchors": ["src/tinymesh/core/vertex.cpp: Vertex::normal"]}
{"id": "C61", "title": "Mean curvature is the cotangent Laplacian along the normal", "statement": "At a vertex that is not on the boundary and whose triangles are not degenerate, H() is minus the inner product of normal() with the sum over the neighbours of (cot alpha + cot beta) times the edge vector, divided by twice volonoiArea().  It is 0 if the neighbours lie in a plane through the vertex (exact arithmetic).", "quantifier": "all valid meshes with real positions and all their vertices", "why_tests_cant": "holds for every ring of neighbours of every size", "anchors": ["src/tinymesh/core/vertex.cpp: Vertex::H", "src/tinymesh/core/vec.h: cot"]}
{"id": "C62", "title": "Mean face area and mean dihedral angle", "statement": "getMeanFaceArea() is the sum of the areas of the faces over their number; getMeanDihedralAngle() is the sum over the edges, each counted once, of the dihedral angle between the two faces at the edge, over their number.  Faces that only fill holes are not counted.", "quantifier": "all valid meshes", "why_tests_cant": "every edge must be counted once for every connectivity", "anchors": ["src/tinymesh/core/mesh.cpp: Mesh::getMeanFaceArea, Mesh::getMeanDihedralAngle"]}
{"id": "C63", "title": "What the normal filters compute", "statement": "denoiseNormalGaussian and denoiseNormalBilateral repeat: three Taubin smoothing iterations, then one pass in which each triangle gets the direction of the mean of its neighbours' normals, weighted by area and by a kernel of the distance of the centroids (bilateral: times a kernel of the distance of the normals), and every vertex moves by the area-weighted mean of its offsets, along these directions, from the planes through the centroids of the triangles around it.  Connectivity is unchanged.  On a closed mesh an iteration succeeds unless the smoothing before it flattens a triangle (exact arithmetic).", "quantifier": "all valid meshes with real positions, all parameters, iteration counts and thread schedules", "why_tests_cant": "every connectivity, every position and every schedule of the parallel loops", "anchors": ["src/tinymesh/filters/denoise.cpp: denoiseNormalGaussian, denoiseNormalBilateral, K"]}
{"id": "C64", "title": "Farther neighbours count less", "statement": "The kernel of the normal filters never grows with the distance: a neighbour farther away never has a larger weight than a closer one.", "quantifier": "all distances and all positive values of sigma", "why_tests_cant": "all pairs of real distances", "anchors": ["src/tinymesh/filters/denoise.cpp: K"]}
{"id": "C65", "title": "What denoiseL0Smooth computes", "statement": "With a solver that returns solutions, denoiseL0Smooth runs rounds with weights alpha and beta (times the mean edge length) that are halved and multiplied by the square root of two after each round, until beta has reached 1000 mean edge lengths.  Each round replaces the values of the edge operator whose squared length is below lambda / beta by zero and moves the vertices to the unique minimum of the sum of squared distances to the given positions, alpha times the squared regularity terms p1 - p2 + p3 - p4 and beta times the squared distance of the edge operator to these values.  The edge operator is zero exactly where the two triangles at the edge have the same normal.  Connectivity is unchanged (exact arithmetic).", "quantifier": "all valid meshes with real positions, all alpha, beta >= 0, every order in which the edges are listed", "why_tests_cant": "minimality over all positions, for every mesh", "anchors": ["src/tinymesh/filters/denoise.cpp: denoiseL0Smooth"]}
{"id": "C66", "title": "denoiseL0Smooth ends", "statement": "Every call of denoiseL0Smooth ends, and its result does not depend on the order in which the edges are listed (exact arithmetic).", "quantifier": "all valid meshes with real positions and all alpha >= 0 and beta", "why_tests_cant": "termination for every parameter", "anchors": ["src/tinymesh/filters/denoise.cpp: denoiseL0Smooth"]}
{"id": "C67", "title": "What the edge costs of simplifyQEM are", "statement": "At the start of each trial every half-edge gets a position and a cost.  The cost is the sum of the squared distances of the position to the planes of the triangles at the two ends of the edge (triangles with a half-edge flagged as boundary are left out, triangles at the edge count twice).  Where the normals of these triangles are spread out (determinant at least 1e-8) the position is the only point of least error, otherwise it is the middle of the edge (exact arithmetic and an exact solver).", "quantifier": "all valid meshes with real positions, all half-edges", "why_tests_cant": "minimality over all points of space, for every mesh", "anchors": ["src/tinymesh/remesh/simplify.cpp: computeQEM, simplifyQEM"]}
{"id": "C68", "title": "simplifyQEM contracts the cheapest edge first and returns a valid mesh", "statement": "The first edge that a trial contracts is one that may be contracted and no edge of smaller cost may be: its ends lie inside the surface and have degree at least four, as have their common neighbours, and the normals of the two triangles at the edge do not turn by a right angle or more when one of its ends goes to the new position.  If there is no such edge the trial contracts nothing.  The call returns a valid mesh with the same Euler characteristic, whatever the linear solver answers.", "quantifier": "all valid meshes with real positions, all targets and trial counts, every order of edges with equal cost", "why_tests_cant": "every mesh, every tie", "anchors": ["src/tinymesh/remesh/simplify.cpp: computeQEM, simplifyQEM"]}
{"id": "C69", "title": "simplifyQEM does not turn triangles over", "statement": "No contraction made by simplifyQEM turns a remaining triangle over.", "quantifier": "all valid meshes, all edges", "why_tests_cant": "every geometry", "anchors": ["src/tinymesh/remesh/simplify.cpp: computeQEM, simplifyQEM"]}
{"id": "C70", "title": "holeFillAdvancingFront fills the hole and leaves the rest of the mesh intact", "statement": "If holeFillAdvancingFront(mesh, hole) returns, the mesh is still a closed half-edge structure with the same Euler characteristic, the hole has been replaced by triangles with three different corners, none of which is a hole, no new hole has appeared, all other faces keep their half-edges and corners in order, vertices and faces keep their indices, vertices that are not corners of the hole keep position and lock, and no memory is accessed wrongly.", "quantifier": "all well-formed meshes without loops, all faces with at least three different corners, every number of steps, any positions given to the inner vertices", "why_tests_cant": "every mesh and geometry; the front takes any number of steps, each adding or merging vertices", "anchors": ["src/tinymesh/core/completion.cpp: Mesh::holeFillAdvancingFront_", "src/tinymesh/restore/completion.cpp: holeFillAdvancingFront"]}
{"id": "C71", "title": "holeFillAdvancingFront does not move the vertices of the mesh", "statement": "After holeFillAdvancingFront every vertex the mesh had before, in particular every corner of the hole, is where it was.", "quantifier": "all meshes, all holes", "why_tests_cant": "whether a corner moves depends on distances to new vertices", "anchors": ["src/tinymesh/core/completion.cpp: Mesh::holeFillAdvancingFront_", "src/tinymesh/restore/completion.cpp: holeFillAdvancingFront"]}
{"id": "C72", "title": "Boundary flags after holeFillAdvancingFront", "statement": "After holeFillAdvancingFront a vertex says that it is on the boundary only if it is a corner of a remaining hole; no face of the filling says that it is a hole.", "quantifier": "all meshes, all holes", "why_tests_cant": "every mesh and every sequence of steps of the front", "anchors": ["src/tinymesh/core/completion.cpp: Mesh::holeFillAdvancingFront_", "src/tinymesh/restore/completion.cpp: holeFillAdvancingFront"]}
{"id": "C73", "title": "holeFillContextCoherent starts by filling every hole", "statement": "The first part of holeFillContextCoherent (locking all vertices, then an advancing front for each face that is a hole, while the list of faces grows) leaves no hole, keeps the Euler characteristic and all faces that were no holes, moves no vertex that is not a corner of a hole, and locks exactly the old vertices; if no edge lies between two holes, every hole becomes triangles.", "quantifier": "all well-formed meshes without loops whose holes have at least three different corners and share no edge", "why_tests_cant": "any number of holes, each filled in a mesh changed by the fillings before", "anchors": ["src/tinymesh/restore/completion.cpp: holeFillContextCoherent (first part)"]}
{"id": "C74", "title": "Curvature tensors are fitted to the faces and carried to the vertices", "statement": "On a closed surface of non-degenerate triangles, the curvature tensor of each face is the bilinear form in its plane that best fits, in the sense of least squares, the changes of the vertex normals along its edges; the tensor of each vertex is the mean of the forms of the faces around it, weighted with the parts of their areas that belong to the vertex and carried over by the rotations that take the vertex normal to the face normals. The mesh is not changed, memory is not accessed wrongly, and an exception can come only from a division by zero, which does not happen if every normal is on the front side of the triangles around it and is not the direction of an edge and neighbouring normals do not point the other way.", "quantifier": "all valid closed meshes without degenerate triangles, all positions, all exact solvers", "why_tests_cant": "optimality over all forms, every mesh and every position", "anchors": ["src/tinymesh/ops/features.cpp: getCurvatureTensors, getPrincipalCurvatures, getPrincipalCurvaturesFromTensors", "src/tinymesh/core/utils.h: rotationFromTwoVectors, rotationAxisAngle"]}
{"id": "C75", "title": "Principal curvatures of a sphere", "statement": "On a closed triangle mesh whose vertices lie on a sphere of radius r and whose triangles face outwards, getPrincipalCurvatures returns k_max = k_min = 1/r at every vertex.", "quantifier": "all meshes inscribed in a sphere, all radii", "why_tests_cant": "every mesh, every radius; a test with a tolerance accepts small errors", "anchors": ["src/tinymesh/ops/features.cpp: getCurvatureTensors, getPrincipalCurvatures, getPrincipalCurvaturesFromTensors", "src/tinymesh/core/utils.h: rotationFromTwoVectors, rotationAxisAngle"]}
{"id": "C76", "title": "Principal curvatures of every mesh", "statement": "getPrincipalCurvatures returns a value for each vertex of every mesh that has been constructed, also of a mesh with boundary.", "quantifier": "all constructed meshes", "why_tests_cant": "every mesh", "anchors": ["src/tinymesh/ops/features.cpp: getCurvatureTensors, getPrincipalCurvatures, getPrincipalCurvaturesFromTensors", "src/tinymesh/core/utils.h: rotationFromTwoVectors, rotationAxisAngle"]}
{"id": "C77", "title": "Heat kernel signatures are the truncated heat kernel", "statement": "getHeatKernelSignatures(L, K, nTimes) returns one row for each vertex and one column for each time; the entry for vertex x and time t is the sum over the K eigenpairs of exp(-t lambda) u(x)^2, and the times grow in equal ratios from 4 ln 10 / lambda(K-1) to 4 ln 10 / lambda(1), with eigenvalues below 1e-12 replaced by 1e-12.", "quantifier": "all matrices, all K and nTimes from 2, all results of the eigenvalue solver", "why_tests_cant": "every matrix, every K, every number of times", "anchors": ["src/tinymesh/ops/features.cpp: getHeatKernelSignatures"]}
{"id": "C78", "title": "Heat kernel signatures behave like heat", "statement": "For a mesh and its adjacency operator, or a closed mesh and its cotangent operator, every signature is between 0 and 1, it does not grow with time, the sum over the vertices is at most K, and on a mesh whose second eigenvalue is positive no signature falls below 1/n.", "quantifier": "all valid meshes, all positions, all exact solvers, all K and nTimes from 2", "why_tests_cant": "inequalities over every mesh and every eigenbasis", "anchors": ["src/tinymesh/ops/features.cpp: getHeatKernelSignatures", "src/tinymesh/ops/operators.cpp: getMeshLaplacian"]}
{"id": "C79", "title": "Heat kernel signatures depend on the operator only", "statement": "Two exact solvers give the same signatures although their eigenvectors may differ, and renumbering the vertices renumbers the rows of the result; in particular vertices that a symmetry of the operator exchanges have the same signature.", "quantifier": "all symmetric positive semidefinite operators, all pairs of exact solvers, all renumberings", "why_tests_cant": "every choice of eigenvectors", "anchors": ["src/tinymesh/ops/features.cpp: getHeatKernelSignatures"]}
{"id": "C80", "title": "Heat kernel signatures for every number of eigenvalues and times", "statement": "getHeatKernelSignatures returns finite signatures whenever the solver finds the K eigenvalues, for every K from 1 below the number of vertices and every nTimes from 1.", "quantifier": "all matrices, all K, all nTimes", "why_tests_cant": "every K and nTimes; undefined behaviour", "anchors": ["src/tinymesh/ops/features.cpp: getHeatKernelSignatures"]}
{"id": "C81", "title": "The cotangent operator is positive semidefinite", "statement": "The quadratic form of getMeshLaplacian(mesh, MeshLaplace::Cotangent) is never negative: it is the Dirichlet energy of the function on the mesh.", "quantifier": "all meshes, all positions, also with degenerate triangles, all functions on the vertices", "why_tests_cant": "every mesh and every function", "anchors": ["src/tinymesh/ops/operators.cpp: getMeshLaplacian, getMeshLaplacianCotangent", "src/tinymesh/core/halfedge.cpp: Halfedge::cotWeight"]}
{"id": "C82", "title": "Derivatives of principal curvatures", "statement": "getPrincipalCurvaturesWithDerivatives returns the curvatures and directions of getPrincipalCurvatures and, for each vertex, the derivatives along the two directions: the values of a trilinear form that is the average, weighted with Voronoi areas, of the forms of the faces around the vertex carried over by rotations, where the form of a face is the best fit to the changes, along its edges, of the bilinear forms of its corners. With smoothing, the tensors are first averaged with those of the neighbours. If a face or a hole is not a triangle nothing is returned.", "quantifier": "all closed non-degenerate triangle meshes, all positions, all exact solvers, with and without smoothing", "why_tests_cant": "a least-squares optimum over every mesh", "anchors": ["src/tinymesh/ops/features.cpp: getPrincipalCurvaturesWithDerivatives, smoothingTensors"]}
{"id": "C83", "title": "The form that is differentiated", "statement": "The bilinear form whose changes give the derivatives of the curvatures at a vertex is its second fundamental form, the one of getCurvatureTensors.", "quantifier": "all frames and tensors; all meshes", "why_tests_cant": "every tensor and every frame", "anchors": ["src/tinymesh/ops/features.cpp: getPrincipalCurvaturesWithDerivatives, smoothingTensors"]}
{"id": "C84", "title": "Edges crossed by ridges and valleys", "statement": "An edge counts as crossed by a ridge exactly if its ends are not umbilic, the maximal curvature dominates at both, its derivatives along directions turned the same way have opposite signs, and it rises from both ends towards the other; by a valley exactly if the minimal curvature dominates and the maximal curvature falls. The answer depends neither on the order of the ends nor on which of the two opposite principal directions was chosen.", "quantifier": "all positions, curvatures, directions and derivatives", "why_tests_cant": "every pair of samples", "anchors": ["src/tinymesh/ops/features.cpp: getFeatureLineField, getFeatureLineFieldWithFlags"]}
{"id": "C85", "title": "Flags and directions of getFeatureLineField", "statement": "On a closed surface of proper triangles getFeatureLineField either throws or flags exactly the ends of the edges that separate a face without sign from its only neighbour with one (ridge faces have ridge edges and no valley edges, and the other way round), gives them the mean of the directions pointing from ridges or into valleys, and extends the directions to the other vertices.", "quantifier": "all closed triangle meshes, all exact solvers", "why_tests_cant": "every surface and every curvature distribution", "anchors": ["src/tinymesh/ops/features.cpp: getFeatureLineField, getFeatureLineFieldWithFlags"]}
{"id": "C86", "title": "Harmonic extension of directions", "statement": "The directions at vertices that are not flagged come from the one extension on which the cotangent operator vanishes; each is made a unit vector and the call throws exactly if one of them is zero. This extension exists and is unique if every vertex can reach a flagged one.", "quantifier": "all closed triangle meshes, all marks", "why_tests_cant": "every mesh and every set of flagged vertices", "anchors": ["src/tinymesh/ops/features.cpp: getFeatureLineField, getFeatureLineFieldWithFlags"]}
{"id": "C87", "title": "Every closed surface has a direction field", "statement": "getFeatureLineField returns a field for every closed surface whose curvatures and derivatives can be computed.", "quantifier": "all closed triangle meshes", "why_tests_cant": "every surface", "anchors": ["src/tinymesh/ops/features.cpp: getFeatureLineField, getFeatureLineFieldWithFlags"]}
{"id": "C88", "title": "Valleys are ridges seen from inside", "statement": "An edge is crossed by a valley exactly if it is crossed by a ridge of the surface turned inside out, where curvatures change sign and the maximal ones become the minimal ones.", "quantifier": "all positions, curvatures, directions and derivatives", "why_tests_cant": "every pair of samples", "anchors": ["src/tinymesh/ops/features.cpp: getFeatureLineField, getFeatureLineFieldWithFlags"]}
{"id": "C89", "title": "Patch radius from a mixture of curvatures", "statement": "holeFillContextCoherent chooses the size of its patches from the curvatures of the mesh. For all curvatures, each of the twenty iterations gives a mixture of three Gaussian densities (positive weights with sum one, positive variances) that has the mean and the variance of the curvatures, explains them at least as well as the one before, and has its means inside their range; the radius is at least two edges.", "quantifier": "all meshes, that is all lists of curvatures, and every iteration", "why_tests_cant": "every distribution of curvatures, including equal ones", "anchors": ["src/tinymesh/restore/completion.cpp: holeFillContextCoherent"]}
{"id": "C90", "title": "Rigid alignment of patches", "statement": "Two patches are aligned by pairing every source vertex with the target vertex that has the closest heat kernel signature. The motion found is a rotation without reflection and a translation, no other rigid motion has a smaller mean squared distance of the pairs, and the error, by which candidates are compared, is that distance.", "quantifier": "all patches, signatures and positions", "why_tests_cant": "every point set, including degenerate ones", "anchors": ["src/tinymesh/restore/completion.cpp: solveRigidICP", "src/tinymesh/core/eigen.cpp: eigenSVD"]}
{"id": "C91", "title": "Repair of the mesh while completing", "statement": "After every update of the filled region, holeFillContextCoherent splits long edges, flips edges, and collapses edges and faces at the vertices it may move. All loops end, the mesh stays a closed valid triangle mesh with the same Euler number, vertices that survive stay where they are, after the splits no edge at such a vertex is longer than one and a half times the average, the locked part of the mesh is not touched, and every vertex has a signature afterwards.", "quantifier": "all closed meshes, positions and sets of vertices to repair", "why_tests_cant": "every mesh and every order of edits", "anchors": ["src/tinymesh/restore/completion.cpp: holeFillContextCoherent"]}
{"id": "C92", "title": "Patches of a mesh", "statement": "The patch that holeFillContextCoherent forms around a vertex consists of exactly the faces that can be reached from the faces at the vertex by crossing fewer edges than the radius, and of exactly the corners of these faces, each once, whatever order the hash tables use.", "quantifier": "all well-formed meshes, vertices, radii and orders of hash tables", "why_tests_cant": "breadth first search has to be right on every mesh and for every order of the hash tables; tests run one implementation on few meshes", "anchors": ["src/tinymesh/restore/completion.cpp: holeFillContextCoherent", "src/tinymesh/core/face.h: FaceIterator"]}
{"id": "C93", "title": "Descriptors of patches and their candidates", "statement": "A patch is described by the mean and the standard deviation of the heat kernel signatures of its vertices, each scaled so that its largest entry is 1. The candidates for a target are the sources with the closest descriptions, as many as asked for.", "quantifier": "all patches, signatures, meshes and sets of sources", "why_tests_cant": "the nearest sources have to be found for every set of descriptors, and the deviation is a statement about every patch size", "anchors": ["src/tinymesh/restore/completion.cpp: holeFillContextCoherent"]}
{"id": "C94", "title": "A step of the completed part", "statement": "One iteration moves every completed vertex a tenth of the way to the weighted mean of the closest points of the matched patches, corrected by an offset that is harmonic on the completed part and at the original vertices equals the error of the match. Original vertices do not move and nothing but positions changes.", "quantifier": "all closed meshes, matches and exact solvers", "why_tests_cant": "a linear system of the size of the mesh is solved; tests compare numbers for one mesh", "anchors": ["src/tinymesh/restore/completion.cpp: holeFillContextCoherent"]}
{"id": "C95", "title": "Context coherent completion returns", "statement": "holeFillContextCoherent works for every mesh with holes: it returns with the holes filled and the boundary flags cleared, whatever the number of iterations.", "quantifier": "all meshes, numbers of iterations and solvers", "why_tests_cant": "the smallest mesh on which it works depends on constants deep in the code; tests use large scans", "anchors": ["src/tinymesh/restore/completion.cpp: holeFillContextCoherent", "src/tinymesh/ops/metrics.cpp: getHeatKernelSignatures"]}
{"id": "C96", "title": "Relaxation inside a filled hole", "statement": "After fillHoles by advancing fronts, the new vertices are moved to the one solution of a Poisson equation for the cotangent operator, with the surrounding vertices fixed. The right-hand side at a vertex is the mean of the turned sides of its triangles. Nothing else happens, except that an exception is thrown if a normal cannot be computed. A flat region stays as it is.", "quantifier": "all closed meshes without degenerate faces, all sets of inner vertices that are surrounded by others and all exact solvers", "why_tests_cant": "a linear system of the size of the region is solved; that it has one solution is a statement about every mesh", "anchors": ["src/tinymesh/core/completion.cpp: Mesh::holeFillAdvancingFront_"]}
{"id": "C97", "title": "Relaxation aligns the surface with its normals", "statement": "Sides are turned by the rotation that takes the normal of a triangle to the mean of the smoothed normals of its corners. Triangles that have these normals already stay where they are, and a vertex is not pushed through the surface.", "quantifier": "all pairs of unit normals, all meshes and regions", "why_tests_cant": "a rotation has to be right for all axes and angles; where vertices end up depends on the shape of the mesh", "anchors": ["src/tinymesh/core/completion.cpp: Mesh::holeFillAdvancingFront_"]}
{"id": "C98", "title": "The cotangent operator and the area", "statement": "On a closed mesh, the cotangent operator that getMeshLaplacian returns, applied to the positions of the vertices, is the gradient of the total area of the faces, and its quadratic form at the positions is twice the total area.", "quantifier": "all closed meshes, vertices and directions in which a vertex is moved", "why_tests_cant": "derivatives are limits over all small motions; tests compare finite differences on a few meshes up to a tolerance", "anchors": ["src/tinymesh/ops/operators.cpp: getMeshLaplacian", "src/tinymesh/core/halfedge.cpp: Halfedge::cotWeight", "src/tinymesh/core/face.cpp: Face::area"]}
{"id": "C99", "title": "Filling a hole with an advancing front, from the first step to the relaxed positions", "statement": "If holeFill with the advancing front returns, the hole is filled with triangles, the rest of the mesh is intact, and the only undefined behaviour is an index of -1 when no angle compares below 1e20. The relaxation moves exactly the new vertices that one gets to from the last triangle through unlocked vertices, to the positions that solve its Poisson equation. A hole with three corners becomes one triangle and no vertex moves.", "quantifier": "all well-formed meshes, holes with at least three different corners, numbers of steps, number systems and solvers (exact arithmetic for the positions)", "why_tests_cant": "the loop may take any number of steps and the relaxation reads the mesh the loop left, so that its safety depends on every history of steps", "anchors": ["src/tinymesh/core/completion.cpp: holeFillAdvancingFront", "src/tinymesh/core/face.cpp", "src/tinymesh/core/halfedge.cpp: Halfedge::cotWeight"]}
{"id": "C100", "title": "Building, editing and filling commute with rigid motions", "statement": "Building a mesh from turned and shifted vertices, splitting, flipping and collapsing edges, collapsing faces, filling holes and advancing a front give the same elements, results and errors as before the motion, with the resulting positions turned and shifted: nothing depends on where the mesh lies, on its distance from the origin or on the coordinate axes.", "quantifier": "all rotations and translations, all meshes, also damaged ones, all elements and arguments; exact arithmetic", "why_tests_cant": "there are infinitely many motions, and a test only compares a few of them up to rounding", "anchors": ["src/tinymesh/core/mesh.cpp", "src/tinymesh/core/completion.cpp"]}
{"id": "C101", "title": "Measurements commute with rigid motions", "statement": "Edge lengths, dihedral angles, cotangent weights, face areas, Voronoi areas, Gaussian and mean curvatures, the mean lengths, angles and areas, and the adjacency, cotangent and Belkin operators of a turned and shifted mesh are those of the mesh; the normals of its faces and vertices are the turned normals.", "quantifier": "all rotations and translations, all meshes, also damaged ones, all elements; exact arithmetic", "why_tests_cant": "there are infinitely many motions, and a test only compares a few of them up to rounding", "anchors": ["src/tinymesh/core/halfedge.cpp", "src/tinymesh/core/face.cpp", "src/tinymesh/core/vertex.cpp", "src/tinymesh/core/mesh.cpp", "src/tinymesh/ops/operators.cpp"]}
{"id": "C102", "title": "Filters and remeshing commute with rigid motions", "statement": "Laplacian and Taubin smoothing, the Gaussian and bilateral filters of normals and remeshing can do to the turned and shifted mesh exactly what they can do to the mesh, with the turned and shifted result.", "quantifier": "all rotations and translations, all well-formed meshes, parameters, numbers of iterations, schedules of the threads and random orders; exact arithmetic", "why_tests_cant": "there are infinitely many motions and schedules", "anchors": ["src/tinymesh/filters/smooth.cpp", "src/tinymesh/filters/denoise.cpp", "src/tinymesh/remesh/remesh.cpp"]}
{"id": "C103", "title": "Distances between meshes do not depend on where the two meshes lie", "statement": "The distances from the vertices of one mesh to the surface of another and the Hausdorff distance stay the same when both meshes are turned and shifted together, whatever trees of boxes are built for them.", "quantifier": "all rotations and translations, all pairs of valid meshes with a surface, all ways to build the trees; exact arithmetic", "why_tests_cant": "the trees before and after the motion have nothing in common: their boxes, splits and orders of traversal differ, so equal results need a proof about all trees", "anchors": ["src/tinymesh/core/bvh.cpp: BVH::distance, BVH::closestPoint", "src/tinymesh/ops/metrics.cpp: getHausdorffDistance, getPerVertexShortestDistances", "src/tinymesh/core/triangle.cpp: Triangle::closestPoint"]}
{"id": "C104", "title": "Simplification commutes with rigid motions", "statement": "Quadric error simplification of a turned and shifted mesh contracts the same edges in the same orders and gives the turned and shifted result: it can end there exactly as it can end on the mesh itself.", "quantifier": "all rotations and translations, all valid meshes, targets, numbers of trials, choices among equal costs; exact arithmetic", "why_tests_cant": "quadrics are sums of outer products in homogeneous coordinates: that their minimisers and costs move along with the mesh is an identity over all positions, and that the queue then makes the same choices needs induction over the whole run", "anchors": ["src/tinymesh/remesh/simplify.cpp: computeQEM, simplifyQEM"]}
{"id": "C105", "title": "Implicit fairing commutes with rigid motions", "statement": "Implicit fairing of a turned mesh gives the turned result of fairing the mesh; with a translation too, as long as no vertex has cotangent weights that add up to 0.", "quantifier": "all rotations and translations, all well-formed meshes, steps and numbers of iterations, all solutions of the linear systems; exact arithmetic", "why_tests_cant": "all positions are unknowns of one linear system; that its solutions move along with the mesh is a fact about all systems the function can set up", "anchors": ["src/tinymesh/filters/smooth.cpp: implicitFairing"]}
{"id": "C106", "title": "Holes in flat regions are filled without folds", "statement": "If the triangles around a hole lie in one plane and face the same way, and the corners of the hole can be joined by triangles that face that way too, then hole filling puts such triangles in: the patch lies in the plane and has no folds. This holds for every bound on the angles.", "quantifier": "all valid meshes, all holes in flat regions with any number of corners, convex or not, all bounds; exact arithmetic", "why_tests_cant": "the number of ways to cut a polygon grows exponentially with its corners and the choice is made by a table over all intervals of corners; that the table never prefers a fold needs an induction over it", "anchors": ["src/tinymesh/core/completion.cpp: Mesh::holeFillMinDihedral_", "src/tinymesh/restore/restore.h: holeFillMinDihedral", "src/tinymesh/core/mesh.cpp: fillHoles, triangulate"]}
{"id": "C107", "title": "Holes are filled with the smallest possible bends", "statement": "Among all ways to join the corners of a hole by triangles, minimum dihedral hole filling takes one whose sharpest bend, between two of its triangles or against a neighbour of the hole, is smallest.", "quantifier": "all valid meshes, all holes, all bounds; exact arithmetic", "why_tests_cant": "the claim compares the result with all other ways to fill the hole; for a wrong choice the hole, its neighbours and the bound must fit together", "anchors": ["src/tinymesh/core/completion.cpp: Mesh::holeFillMinDihedral_", "src/tinymesh/restore/restore.h: holeFillMinDihedral", "src/tinymesh/core/mesh.cpp: fillHoles"]}
{"id": "C108", "title": "With the default bound, holes are filled with the smallest area", "statement": "With the bound Pi, hole filling works as Barequet's method: among all ways to join the corners of a hole by triangles it takes one with the smallest total area.", "quantifier": "all valid meshes, all holes; exact arithmetic", "why_tests_cant": "the claim compares the result with all other ways to fill the hole; on flat and nearly flat holes it is true", "anchors": ["src/tinymesh/restore/restore.h: holeFillMinDihedral", "src/tinymesh/core/completion.cpp: Mesh::holeFillMinDihedral_", "src/tinymesh/core/mesh.cpp: fillHoles"]}
{"id": "C109", "title": "Building, editing and filling do not depend on the unit of length", "statement": "Building a mesh, splitting, flipping and collapsing edges, collapsing faces, verifying the mesh, filling holes and advancing the front give the same mesh in the new unit when all coordinates are multiplied by a positive number, and fail in the same way on the same inputs.", "quantifier": "all positive factors, all meshes, valid or not, all arguments; exact arithmetic", "why_tests_cant": "a threshold that is not relative to the mesh shows only on meshes of the right size; the claim is about all sizes at once", "anchors": ["src/tinymesh/core/mesh.cpp: Mesh::construct, splitHE, flipHE, collapseHE, collapseFace, verify, fillHoles", "src/tinymesh/core/completion.cpp: Mesh::holeFillMinDihedral_", "src/tinymesh/restore/completion.cpp: holeFillAdvancingFront"]}
{"id": "C110", "title": "Lengths and areas scale, normals and angles do not", "statement": "When all coordinates are multiplied by a positive number, edge lengths and their mean are multiplied by it, face areas and their mean by its square, and normals of faces and vertices, dihedral angles and their mean stay the same.", "quantifier": "all positive factors, all meshes, valid or not, all faces, vertices and half-edges; exact arithmetic", "why_tests_cant": "a threshold or a wrong power shows only on meshes of the right size", "anchors": ["src/tinymesh/core/halfedge.cpp: Halfedge::length", "src/tinymesh/core/face.cpp: Face::area, Face::normal", "src/tinymesh/core/vertex.cpp: Vertex::normal", "src/tinymesh/core/mesh.cpp: getMeanEdgeLength, getMeanFaceArea, getMeanDihedralAngle"]}
{"id": "C111", "title": "Smoothing, denoising and remeshing do not depend on the unit of length", "statement": "Smoothing with uniform weights, Taubin smoothing, both normal filters and remeshing give the same mesh in the new unit when all coordinates are multiplied by a positive number, with the same parameters.", "quantifier": "all positive factors, all well-formed meshes, all parameters, all orders of the parallel loops and all shuffles; exact arithmetic", "why_tests_cant": "the outcomes of all interleavings and shuffles are compared, on meshes of every size", "anchors": ["src/tinymesh/filters/smooth.cpp: smoothLaplacian, smoothTaubin", "src/tinymesh/filters/denoise.cpp: denoiseNormalGaussian, denoiseNormalBilateral", "src/tinymesh/remesh/remesh.cpp: remeshTriangular"]}
{"id": "C112", "title": "Cotangent weights do not depend on the unit of length", "statement": "Cotangents depend on angles only: cotangent weights, the cotangent operator and smoothing with cotangent weights do not change when all coordinates are multiplied by a positive number.", "quantifier": "all positive factors, all closed meshes; exact arithmetic", "why_tests_cant": "the claim fails only when triangles are smaller than an absolute threshold", "anchors": ["src/tinymesh/core/halfedge.cpp: Halfedge::cotWeight", "src/tinymesh/ops/operators.cpp: getMeshLaplacian", "src/tinymesh/filters/smooth.cpp: smoothLaplacian"]}
{"id": "C113", "title": "The surface does not depend on the order of the input", "statement": "Two inputs that list the same oriented triangles in space, in any order, each begun at any corner, with the points numbered in any way, listed more than once or not used at all, give the same surface or are both refused.", "quantifier": "all pairs of vertex and index arrays with the same triangles, all orders", "why_tests_cant": "the number of orders grows with the factorial of the number of triangles", "anchors": ["src/tinymesh/core/mesh.cpp: Mesh::Mesh, Mesh::construct"]}
{"id": "C114", "title": "Measurements do not depend on the order of the input", "statement": "In two meshes built from the same triangles listed in different orders, the number of edges and the mean edge length are equal, and the degree, the Voronoi area, the Gaussian curvature, the normal and the mean curvature at the same point inside the surface are equal (exact arithmetic, no degenerate triangle at the vertex); if the normal cannot be formed, both throw.", "quantifier": "all pairs of meshes with the same triangles, all inner vertices", "why_tests_cant": "the number of orders grows with the factorial of the number of triangles, and each starts the walk around the vertex elsewhere", "anchors": ["src/tinymesh/core/vertex.cpp: Vertex::degree, volonoiArea, K, normal, H", "src/tinymesh/core/mesh.cpp: Mesh::numEdges, getMeanEdgeLength"]}
{"id": "C115", "title": "Smoothing does not depend on the order of the input", "statement": "Smoothing two meshes built from the same triangles listed in different orders, with uniform or cotangent weights or with Taubin's method, moves each point to the same place in both (exact arithmetic, the same vertices locked).", "quantifier": "all pairs of meshes with the same triangles, all weights and numbers of iterations, all schedules of the parallel loops", "why_tests_cant": "the number of orders grows with the factorial of the number of triangles, each gives the loops another order", "anchors": ["src/tinymesh/filters/smooth.cpp: smoothLaplacian, smoothTaubin"]}
{"id": "C116", "title": "Denoising does not depend on the order of the input", "statement": "Denoising two closed meshes built from the same triangles listed in different orders with the Gaussian or the bilateral normal filter moves each point to the same place in both (exact arithmetic, the same vertices locked).", "quantifier": "all pairs of closed meshes with the same triangles, all parameters and numbers of iterations, all schedules of the parallel loops", "why_tests_cant": "the number of orders grows with the factorial of the number of triangles, each gives the loops another order", "anchors": ["src/tinymesh/filters/denoise.cpp: denoiseNormalGaussian, denoiseNormalBilateral"]}
