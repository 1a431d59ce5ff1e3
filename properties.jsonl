{"id": "C01", "title": "Edge endpoints always name existing nodes", "statement": "After any sequence of add_node, add_edge, remove_edge and remove_node calls on a fresh PlanarGraph that does not panic, both indices returned by every edge's get_node_indices() are smaller than node_count(), so get_vertex on them is Some.", "quantifier": "every finite history of public operations, every argument, every f32 position including NaN and infinities, every node/edge payload type", "why_tests_cant": "histories are unbounded and index renumbering depends on the whole past; tests try a handful of scripts", "anchors": ["src/graph/planar_graph.rs: PlanarGraph::{add_node,add_edge,remove_edge,remove_node}"]}
{"id": "C02", "title": "No two nodes closer than epsilon", "statement": "In every graph reachable through the public operations, two different nodes never have f32 distance below f32::EPSILON (the duplicate threshold documented by add_node).", "quantifier": "every history, every f32 position, every pair of nodes", "why_tests_cant": "needs an invariant over all histories plus bitwise symmetry of the f32 distance", "anchors": ["src/graph/planar_graph.rs: add_node, split_edges_along_edge", "src/geometry/utils.rs: find_closest_to"]}
{"id": "C03", "title": "add_node reuses or appends", "statement": "add_node(p, data) returns the index of an existing node exactly when some existing node is at distance < epsilon from p, and then the graph is unchanged and the reported edge list is empty; otherwise it appends one node with exactly p and data, returns the old node_count(), and leaves every old node as it was.", "quantifier": "every reachable graph, every f32 position (including NaN/inf) and payload", "why_tests_cant": "the closest-node scan and the duplicate test must agree for all inputs, including NaN distances", "anchors": ["src/graph/planar_graph.rs: add_node", "src/geometry/utils.rs: find_closest_to"]}
{"id": "C04", "title": "add_node splits exactly the touched edges", "statement": "When add_node appends node k, each edge whose open segment contains the new position (is_on_line_segment) becomes src-k in its old slot and one new edge dst-k at the end, both with the old edge's data and an empty label; every other edge keeps its slot and contents; the reported list is exactly the changed and new slots.", "quantifier": "every reachable graph and position; any number of edges touched", "why_tests_cant": "number and order of touched edges is unbounded", "anchors": ["src/graph/planar_graph.rs: add_node, split_edges_at_node"]}
{"id": "C05", "title": "Adding never panics", "statement": "add_node and add_edge never panic on a graph built by the public operations, whatever indices and positions are passed.", "quantifier": "every reachable graph, every index, every f32 position", "why_tests_cant": "internal indexing self.nodes[edge.src] is only safe because of the whole-history invariant", "anchors": ["src/graph/planar_graph.rs: add_node, add_edge, split_edges_at_node, split_edges_along_edge"]}
{"id": "C06", "title": "add_edge rejects and ignores cleanly", "statement": "add_edge returns Err(NoSuchVertex) iff an endpoint does not exist (and no such edge is stored), leaving the graph unchanged; it returns two empty lists and leaves the graph unchanged iff an edge between the two nodes, in either direction, already exists.", "quantifier": "every reachable graph, all index pairs", "why_tests_cant": "all index values must be covered", "anchors": ["src/graph/planar_graph.rs: add_edge, has_edge_between_nodes"]}
{"id": "C07", "title": "add_edge reports exactly the new nodes", "statement": "On success the first list returned by add_edge is exactly old_count, old_count+1, ..., new_count-1 (the nodes created at crossings); every previously existing node keeps index, position, data and label; created nodes carry T::default().", "quantifier": "every reachable graph, every pair of endpoints, any number of crossings", "why_tests_cant": "the number of crossings is unbounded and nodes are appended while edges are being split", "anchors": ["src/graph/planar_graph.rs: add_edge, split_edges_along_edge"]}
{"id": "C08", "title": "add_edge's reported edges are sound and complete", "statement": "Every edge index reported by add_edge is a valid slot, and every slot whose edge differs from before the call (including the slot of the new edge) is reported.", "quantifier": "every reachable graph and endpoints", "why_tests_cant": "the report is assembled over several splits; a caller caching edges relies on it for every configuration", "anchors": ["src/graph/planar_graph.rs: add_edge, split_edges_along_edge"]}
{"id": "C09", "title": "Planarity is maintained", "statement": "After every add_edge/add_node no two stored edges cross or overlap except at shared end nodes, and no node lies in the interior of an edge.", "quantifier": "every history of additions, every position", "why_tests_cant": "planarity is a property of all histories and geometric configurations", "anchors": ["src/graph/planar_graph.rs: add_edge, split_edges_along_edge, split_edges_at_node", "src/geometry/utils.rs: calculate_line_segment_intersection, unique_points_among, is_on_line_segment"]}
{"id": "C10", "title": "Edge data provenance", "statement": "Every edge of a reachable graph carries a data value that was passed to some successful add_edge of the history; splitting copies the data of the edge being split to both halves and no operation changes data.", "quantifier": "every history", "why_tests_cant": "splits of splits of unbounded depth", "anchors": ["src/graph/planar_graph.rs: split_edges_at_node, add_edge"]}
{"id": "C11", "title": "Additions never disconnect", "statement": "If two nodes are joined by a path of edges before add_node/add_edge, the same two indices are joined by a path afterwards; after a successful add_edge(a,b), a and b are joined by a path.", "quantifier": "every graph, every arithmetic behaviour of the geometry predicates", "why_tests_cant": "paths have unbounded length and edges are rewritten in place", "anchors": ["src/graph/planar_graph.rs: split_edges_at_node, split_edges_along_edge, add_edge"]}
{"id": "C12", "title": "remove_node removes exactly what it documents", "statement": "remove_node(id) deletes node id, exactly the edges touching it, and exactly those neighbours that have no other edge; surviving nodes keep their relative order, position, data and label; surviving edges keep their order, data and label and still join the same two nodes (through their renumbered indices).", "quantifier": "every reachable self-loop-free graph and every id with an incident edge; with the behaviour on self-loops characterised separately", "why_tests_cant": "renumbering by counting deleted predecessors must be right for every set of deleted nodes", "anchors": ["src/graph/planar_graph.rs: remove_node, remove_edges_incident_to_node"]}
{"id": "C13", "title": "Removing an existing node never panics", "statement": "remove_node(id) does not panic for any index in any reachable graph.", "quantifier": "every reachable graph and index", "why_tests_cant": "only whole-domain reasoning finds or excludes the panicking states", "anchors": ["src/graph/planar_graph.rs: remove_node"]}
{"id": "C14", "title": "remove_edge removes exactly one edge and its stray ends", "statement": "When it returns, remove_edge(id) has deleted precisely the edge at id plus those of its end nodes that had no other edge; all other edges still join the same nodes with the same data.", "quantifier": "every reachable self-loop-free graph and edge index", "why_tests_cant": "swap-removal and node renumbering interact differently for every configuration", "anchors": ["src/graph/planar_graph.rs: remove_edge, remove_node"]}
{"id": "C15", "title": "Removing an edge never panics", "statement": "remove_edge(id) does not panic for any index in any reachable graph.", "quantifier": "every reachable graph and index", "why_tests_cant": "the failing configurations (last slot, both ends shared) are missed by small tests", "anchors": ["src/graph/planar_graph.rs: remove_edge"]}
{"id": "C16", "title": "Removal leaves no stray nodes", "statement": "A node that had an incident edge before remove_node/remove_edge and survives still has an incident edge afterwards.", "quantifier": "every graph without parallel edges and self-loops, every index", "why_tests_cant": "depends on degrees of all neighbours", "anchors": ["src/graph/planar_graph.rs: remove_edges_incident_to_node"]}
{"id": "C17", "title": "No parallel edges and no self-loops", "statement": "A reachable graph never stores two edges between the same two nodes, and stores a self-loop only if the caller asked for one with add_edge(a, a).", "quantifier": "every history", "why_tests_cant": "splitting creates edges without consulting has_edge_between_nodes", "anchors": ["src/graph/planar_graph.rs: add_edge, split_edges_at_node"]}
{"id": "C18", "title": "Queries describe the stored graph", "statement": "get_vertex/get_edge/has_node_at_index/has_edge_at_index are true exactly for stored indices; has_edge_between_nodes is symmetric and true exactly for joined pairs; number_of_edges_incident_to is None exactly for missing nodes and otherwise the number of edges touching the node.", "quantifier": "every graph and index", "why_tests_cant": "boundary indices over all sizes", "anchors": ["src/graph/planar_graph.rs: get_vertex, get_edge, has_node_at_index, has_edge_at_index, has_edge_between_nodes, number_of_edges_incident_to"]}
{"id": "C19", "title": "Removal reports cover the changes", "statement": "Every node slot (and every edge slot, up to endpoint renumbering) not listed by remove_node/remove_edge is the same before and after, and slots below the smallest reported one never move.", "quantifier": "every reachable graph and index", "why_tests_cant": "depends on arbitrary sets of deleted slots", "anchors": ["src/graph/planar_graph.rs: remove_node, remove_edge"]}
{"id": "C20", "title": "find_closest_to is the first minimum", "statement": "find_closest_to(t, points) returns the smallest index whose distance is minimal together with that distance, ignoring NaN distances; on an empty list or when no distance is below f32::MAX it returns (0, f32::MAX).", "quantifier": "every target and list of points, including NaN/inf", "why_tests_cant": "ordering with NaN over lists of any length", "anchors": ["src/geometry/utils.rs: find_closest_to"]}
{"id": "C21", "title": "Segment intersection is correct", "statement": "In exact arithmetic calculate_line_segment_intersection(a,b,c,d) returns Some(p) iff the segments are not parallel and share a point, and then p is the unique common point of both closed segments; with zero denominator it returns None, in exact arithmetic and in f32.", "quantifier": "all segments", "why_tests_cant": "an iff over all real configurations", "anchors": ["src/geometry/utils.rs: calculate_line_segment_intersection"]}
{"id": "C22", "title": "unique_points_among keeps one of each cluster", "statement": "The result is a subsequence of the input, no two results are within epsilon, and every input point is within epsilon of some result.", "quantifier": "every list of points", "why_tests_cant": "lists of any length with arbitrary coincidences", "anchors": ["src/geometry/utils.rs: unique_points_among, close_to"]}
{"id": "C23", "title": "Point-on-segment test", "statement": "is_on_line_segment(a,b,p) accepts every point of the exact segment further than epsilon from both ends, rejects the end points, is symmetric in a and b, accepts only points whose detour |ap|+|pb| is within epsilon of |ab|, and honours include_endpoints.", "quantifier": "all points and segments", "why_tests_cant": "tolerances must hold on the whole plane", "anchors": ["src/geometry/utils.rs: is_on_line_segment"]}
{"id": "C24", "title": "Incenter and inradius", "statement": "For a non-degenerate triangle calculate_triangle_incenter returns the point strictly inside it whose distance to all three side lines is the returned inradius; it returns None exactly for degenerate triangles.", "quantifier": "all triangles (exact arithmetic)", "why_tests_cant": "geometric identity over all triples with square roots", "anchors": ["src/geometry/utils.rs: calculate_triangle_incenter, is_degenerate_triangle"]}
{"id": "C25", "title": "Degeneracy test", "statement": "In exact arithmetic is_degenerate_triangle(a,b,c) is true exactly when the three points are collinear (coincident points included).", "quantifier": "all triples", "why_tests_cant": "equality case of the triangle inequality for all reals", "anchors": ["src/geometry/utils.rs: is_degenerate_triangle"]}
{"id": "C26", "title": "Perpendicular foot", "statement": "calculate_perpendicular_point(a,b,p) lies on line ab, and the vector to p is perpendicular to ab; it is the closest point of the line to p. For a=b it is not a finite point.", "quantifier": "all a<>b, p", "why_tests_cant": "identity over all reals", "anchors": ["src/geometry/utils.rs: calculate_perpendicular_point"]}
{"id": "C27", "title": "Midpoint and perpendicular bisector", "statement": "The midpoint is equidistant from the ends and symmetric; both returned bisector points are equidistant from a and b, and the second is offset units away from line ab as documented.", "quantifier": "all segments and offsets", "why_tests_cant": "identity over all reals incl. horizontal/vertical special cases", "anchors": ["src/geometry/utils.rs: calculate_midpoint, calculate_perpendicular_bisector"]}
{"id": "C28", "title": "Line intersection", "statement": "calculate_line_intersection returns the intersection of the infinite lines whenever they are not parallel; whatever it returns lies on both lines.", "quantifier": "all pairs of lines", "why_tests_cant": "all configurations including crossing outside the segments", "anchors": ["src/geometry/utils.rs: calculate_line_intersection"]}
{"id": "C29", "title": "Parallel test", "statement": "In exact arithmetic parallel(a,b,c,d) holds for all parallel directions, is symmetric, invariant under reversal, positive scaling and translation, and is false for degenerate segments; when it holds the sine of the angle is below sqrt(2*epsilon).", "quantifier": "all segments", "why_tests_cant": "tolerance over the whole plane", "anchors": ["src/geometry/utils.rs: parallel"]}
{"id": "C30", "title": "Orientation predicates", "statement": "area2 is the signed double area: left/left_on/collinear decide the strict/weak/zero sign, area2 is invariant under translation and cyclic permutation and flips sign under swaps; in f32 the swap of the last two arguments flips the sign exactly.", "quantifier": "all triples of points", "why_tests_cant": "algebraic laws over all reals / all f32 bit patterns", "anchors": ["src/geometry/polygon.rs: area2, left, left_on, collinear"]}
{"id": "C31", "title": "Segment predicates are exact", "statement": "In exact arithmetic between(a,b,c) iff c is on the closed segment ab; intersect_prop iff the open segments cross at one interior point; intersect iff the closed segments share a point.", "quantifier": "all points (non-degenerate segments)", "why_tests_cant": "iff over all real configurations", "anchors": ["src/geometry/polygon.rs: between, intersect_prop, intersect"]}
{"id": "C32", "title": "Polygon::new normalises orientation", "statement": "Polygon::new returns Err(Degenerate) iff there are fewer than 3 vertices; otherwise the vertices are the input or its reversal, and the signed area of the result is non-negative (CCW).", "quantifier": "all vertex lists", "why_tests_cant": "lists of any length", "anchors": ["src/geometry/polygon.rs: Polygon::new, area_poly2"]}
{"id": "C33", "title": "Polygon area", "statement": "area() equals half the absolute value of the shoelace sum, is independent of the starting vertex, of direction, and of translation, scales by s^2, and is the exact triangle area for triangles.", "quantifier": "all vertex lists (exact arithmetic)", "why_tests_cant": "sum over lists of any length", "anchors": ["src/geometry/polygon.rs: area, area_poly2"]}
{"id": "C34", "title": "Transforms", "statement": "uniform_scale and translate act on every vertex and keep order and count; they keep the CCW orientation for every scale s (also negative); center() is the average vertex and commutes with both.", "quantifier": "all polygons, all s and t", "why_tests_cant": "lists of any length", "anchors": ["src/geometry/polygon.rs: uniform_scale, translate, center"]}
{"id": "C35", "title": "Regular polygons", "statement": "For sides>=3 and a positive radius, regular() returns sides vertices at distance circumradius from center at equal angles, in CCW order, strictly convex, with area n/2 r^2 sin(2pi/n) and center() equal to the given center; for sides<3 it panics.", "quantifier": "every number of sides, radius, center (exact arithmetic)", "why_tests_cant": "every n", "anchors": ["src/geometry/polygon.rs: Polygon::regular"]}
{"id": "C36", "title": "diagonal is sound", "statement": "diagonal(i,j) is symmetric, false for i=j and for neighbouring vertices, and when true the open segment meets no polygon edge that does not share an endpoint with it and points into the interior cone at both ends.", "quantifier": "all polygons and index pairs", "why_tests_cant": "any number of edges", "anchors": ["src/geometry/polygon.rs: diagonal, in_cone, get_neighbor_indices, are_neighbors"]}
{"id": "C37", "title": "Triangulation partition", "statement": "If triangulate returns, it returns n-2 triangles, each with three vertices taken from the polygon and CCW, and their areas sum to the area of the polygon.", "quantifier": "all polygons of any size", "why_tests_cant": "any number of vertices and any clipping order", "anchors": ["src/geometry/polygon.rs: triangulate"]}
{"id": "C38", "title": "Triangulation terminates", "statement": "triangulate returns for every simple polygon (in particular every strictly convex one, every regular one).", "quantifier": "all simple polygons", "why_tests_cant": "non-termination cannot be observed by tests; the outer while loop has no progress guarantee", "anchors": ["src/geometry/polygon.rs: triangulate"]}
{"id": "C39", "title": "f32 predicates are exact on grid coordinates", "statement": "For integer coordinates of magnitude at most 2048 all orientation and segment predicates, diagonal and triangulate compute in f32 exactly what they compute in exact real arithmetic.", "quantifier": "all integer points in the box, all polygon sizes", "why_tests_cant": "2^44 triples; and triangulation over all polygons", "anchors": ["src/geometry/polygon.rs: area2, left, left_on, collinear, between, intersect_prop, intersect, in_cone, diagonal, triangulate"]}
{"id": "C40", "title": "Geometric products implement Cl(3,0)", "statement": "Vector*Vector, Vector*Bivector, Bivector*Bivector, Rotor*Rotor, Rotor*Vector and Trivector*Trivector are the products of the Clifford algebra of Euclidean 3-space; hence rotor multiplication is associative with identity and distributes over addition.", "quantifier": "all values over every commutative ring of scalars", "why_tests_cant": "polynomial identities over all values", "anchors": ["src/math/vector.rs: Mul", "src/math/bivector.rs: Mul", "src/math/trivector.rs: Mul", "src/math/rotor.rs: Mul, Mul<Vector3>"]}
{"id": "C41", "title": "Wedge products are exterior products", "statement": "u^v is bilinear, antisymmetric, zero iff u and v are linearly dependent; (u^v)^w is the determinant of the three vectors; the bivector wedge is the exterior product.", "quantifier": "all vectors", "why_tests_cant": "identities over all values", "anchors": ["src/math/vector.rs: Exterior::wedge", "src/math/bivector.rs: Exterior::wedge", "src/math/trivector.rs: Exterior::wedge"]}
{"id": "C42", "title": "Dot products and norms", "statement": "dot is symmetric and is the grade-0 part of the product; norm_squared is the product with the reversal, is non-negative and zero only for zero; |u^v|^2 = |u|^2|v|^2-(u.v)^2; normalize gives norm 1.", "quantifier": "all values (exact), symmetric also bitwise in f32", "why_tests_cant": "identities over all values", "anchors": ["src/math/vector.rs: dot, norm, norm_squared, normalize", "src/math/bivector.rs: dot, norm_squared", "src/math/trivector.rs: dot, norm_squared", "src/math/rotor.rs: dot, norm_squared"]}
{"id": "C43", "title": "Inverses", "statement": "For every non-zero vector, bivector and trivector, inverse() is a two-sided inverse under the geometric product; for rotors inverse() is a two-sided inverse.", "quantifier": "all non-zero values", "why_tests_cant": "identities over all values", "anchors": ["src/math/vector.rs: inverse", "src/math/bivector.rs: inverse", "src/math/trivector.rs: inverse", "src/math/rotor.rs: inverse"]}
{"id": "C44", "title": "Projection and reflection", "statement": "project(u,v) is parallel to v with u-project orthogonal to v, idempotent; reflect(u,v) equals 2*project-u, fixes v, negates vectors orthogonal to v, is an isometric involution, and its discarded trivector part is zero.", "quantifier": "all u, all non-zero v", "why_tests_cant": "identities over all values", "anchors": ["src/math/vector.rs: project, reflect"]}
{"id": "C45", "title": "rotate is the rotor sandwich", "statement": "rotate(R,u) is R u R~; it is linear, scales dot products by |R|^4, so is an isometry for unit rotors, preserves orientation, is undone by the inverse rotor and composes: rotate(R1*R2,u)=rotate(R1,rotate(R2,u)).", "quantifier": "all rotors and vectors over every commutative ring", "why_tests_cant": "degree-3 polynomial identities", "anchors": ["src/math/rotor.rs: rotate, inverse, Mul, identity"]}
{"id": "C46", "title": "Rotor from two vectors", "statement": "from_vectors(u,v) is a unit rotor that takes u to v and fixes everything orthogonal to both, and its inverse is from_vectors(v,u).", "quantifier": "all pairs of unit vectors not opposite; and what happens otherwise", "why_tests_cant": "all pairs, singular case", "anchors": ["src/math/rotor.rs: from_vectors"]}
{"id": "C47", "title": "Rotor from angle and plane", "statement": "from_angle_plane(t,B) for unit B rotates vectors of the plane by t and fixes the normal; angles add under composition; a full turn acts as identity; the xy/xz/yz constructors rotate e1 towards e2, e1 towards e3, e2 towards e3.", "quantifier": "all angles and unit planes", "why_tests_cant": "trigonometric identities over all reals", "anchors": ["src/math/rotor.rs: from_angle_plane, from_xy_rotation, from_xz_rotation, from_yz_rotation"]}
{"id": "C48", "title": "Angle between vectors", "statement": "angle(u,v) is symmetric, in [0,pi], satisfies |u||v|cos = u.v, and is a number for all non-zero finite vectors.", "quantifier": "all non-zero vectors (exact and f32)", "why_tests_cant": "rounding may leave the domain of acos for rare bit patterns", "anchors": ["src/math/vector.rs: angle"]}
{"id": "C49", "title": "Componentwise algebra", "statement": "Add/Sub/Neg/scalar Mul/Div of vectors, bivectors, trivectors and rotors satisfy the vector-space laws, the assign operators agree with the binary ones, Zero is the unit of addition and is_zero decides it.", "quantifier": "all values over every commutative ring", "why_tests_cant": "laws over all values", "anchors": ["src/math/vector.rs", "src/math/bivector.rs", "src/math/trivector.rs", "src/math/rotor.rs"]}
{"id": "C50", "title": "Approximate equality", "statement": "abs_diff_eq/relative_eq/ulps_eq of vectors, bivectors, trivectors and rotors hold exactly when they hold in every component; they are symmetric, reflexive on finite values, and false as soon as a component is NaN.", "quantifier": "all f32 values", "why_tests_cant": "all bit patterns", "anchors": ["src/math/vector.rs: approx impls", "src/math/bivector.rs: approx impls", "src/math/trivector.rs: approx impls", "src/math/rotor.rs: approx impls"]}
{"id": "C51", "title": "Line membership", "statement": "Line::contains(x) in exact arithmetic accepts exactly the points whose wedge with the direction is within epsilon per component, hence every point of the line; in f32 it accepts the base point and rejects NaN; it accepts every point base+t*direction computed in f32.", "quantifier": "all lines and points", "why_tests_cant": "all bit patterns", "anchors": ["src/geometry/line.rs: Line::contains, Line::intersect"]}
{"id": "C52", "title": "Basis blade counts", "statement": "number_of_basis_blades(n,k) is the binomial coefficient for all 0<=k<=n whose numerator fits usize; total_number_of_basis_blades(n)=2^n when it fits; the counts over k sum to the total.", "quantifier": "all n, k, both overflow modes, 32- and 64-bit usize", "why_tests_cant": "large n,k and overflow boundaries", "anchors": ["src/math/blade.rs: total_number_of_basis_blades, number_of_basis_blades, binomial_coefficient, factorial"]}
{"id": "C53", "title": "FOLD save/load round trip", "statement": "Serialising a Fold to JSON and deserialising it yields the same value.", "quantifier": "all field values", "why_tests_cant": "all documents", "anchors": ["src/fold/fold.rs: Fold (serde attributes)"]}
{"id": "C54", "title": "FOLD loading is tolerant and total", "statement": "Missing fields take their default, unknown fields are ignored and field order is irrelevant; a malformed field makes from_file panic rather than return Err; an unreadable file is returned as Err.", "quantifier": "all JSON objects", "why_tests_cant": "all documents", "anchors": ["src/fold/fold.rs: Fold, from_file"]}
{"id": "C55", "title": "FOLD validation", "statement": "validate() accepts exactly documents whose parallel arrays have equal (or zero) lengths; resolve() leaves given data unchanged.", "quantifier": "all Fold values", "why_tests_cant": "all documents", "anchors": ["src/fold/fold.rs: validate, resolve"]}
{"id": "C56", "title": "Exactly when remove_node panics", "statement": "On a graph built by the public operations remove_node(id) panics iff node id exists and either no edge touches it, or id is 0, its only edge is a self-loop and the graph has another node.", "quantifier": "every reachable graph and index", "why_tests_cant": "An iff over all histories: a test can exhibit a panic but not show that nothing else panics.", "anchors": ["src/graph/planar_graph.rs: remove_node, remove_edges_incident_to_node"]}
{"id": "C57", "title": "Exactly when remove_edge panics", "statement": "On a graph built by the public operations remove_edge(id) panics iff edge id exists and either both its ends have another edge and it is stored in the last slot, or it is a self-loop at node 0 that is node 0's only edge and the graph has another node.", "quantifier": "every reachable graph and index", "why_tests_cant": "An iff over all histories.", "anchors": ["src/graph/planar_graph.rs: remove_edge, remove_node"]}
{"id": "C58", "title": "Which points unique_points_among keeps", "statement": "unique_points_among returns, in input order, exactly the input points that have no other input point (at a different position) within epsilon; all members of a near-duplicate cluster are dropped.", "quantifier": "every list of f32 points, NaN and infinities included", "why_tests_cant": "Holds for lists of any length and any cluster arrangement.", "anchors": ["src/geometry/utils.rs: unique_points_among, close_to"]}
{"id": "C59", "title": "Exact acceptance region of is_on_line_segment", "statement": "In exact arithmetic is_on_line_segment(a,b,p,_) holds iff |ap|+|pb| < |ab|+epsilon and both |ap| and |pb| exceed epsilon; the include_endpoints argument never changes the result.", "quantifier": "all points, segments and flag values", "why_tests_cant": "An iff over the whole plane.", "anchors": ["src/geometry/utils.rs: is_on_line_segment"]}
{"id": "C60", "title": "Where the second bisector point lies", "statement": "For a segment that is not axis-parallel, in exact arithmetic, the second point of calculate_perpendicular_bisector has x-coordinate midpoint.x + offset, is equidistant from both ends, and its distance from line ab is |offset|*|ab|/|b.y-a.y|.", "quantifier": "all segments with distinct x and distinct y, all offsets", "why_tests_cant": "Universal over a continuum of inputs.", "anchors": ["src/geometry/utils.rs: calculate_perpendicular_bisector"]}
{"id": "C61", "title": "calculate_line_intersection intersects segments", "statement": "In exact arithmetic calculate_line_intersection(a,b,c,d) = Some(p) iff the absolute cross product of the directions exceeds epsilon and p is on both closed segments; above that threshold it agrees with calculate_line_segment_intersection.", "quantifier": "all pairs of segments", "why_tests_cant": "An iff over a continuum of inputs.", "anchors": ["src/geometry/utils.rs: calculate_line_intersection, calculate_line_segment_intersection"]}
{"id": "C62", "title": "Polygon::new in any arithmetic", "statement": "Whatever the arithmetic, Polygon::new fails exactly below 3 vertices and otherwise keeps the vertex list or its exact reversal, reversing exactly when the computed area_poly2 is negative; in f32, triangles with grid coordinates (k*2^e, |k|<=2048) always come out counterclockwise in the exact sense.", "quantifier": "every vertex list, f32 included; all grid triangles", "why_tests_cant": "The list length is unbounded and the grid has far too many triangles to enumerate.", "anchors": ["src/geometry/polygon.rs: Polygon::new, area_poly2"]}
{"id": "C63", "title": "Areas in a triangulation", "statement": "In exact arithmetic, whenever triangulate returns, the signed areas of the clipped triples add up to the signed area of the polygon, all triangles but the last are counterclockwise, and the areas add up to at least the area of the polygon. For strictly convex polygons it does return, after at most n rounds, with n-2 triangles of positive area adding up exactly to the area; on the f32 grid the same holds for the f32 code.", "quantifier": "all polygons of any size (exact arithmetic), all strictly convex polygons, all grid polygons in f32", "why_tests_cant": "Polygon size and coordinates are unbounded.", "anchors": ["src/geometry/polygon.rs: Polygon::triangulate, area, diagonal"]}
{"id": "C64", "title": "When triangulate hangs", "statement": "If no vertex of a polygon with more than 3 vertices is an ear, triangulate never returns, in any arithmetic; Polygon::new accepts such polygons (four collinear points). Once triangulate has returned a result, the result does not depend on the number of rounds allowed.", "quantifier": "every polygon, every number of rounds", "why_tests_cant": "Non-termination cannot be observed by a test.", "anchors": ["src/geometry/polygon.rs: Polygon::triangulate, Polygon::new"]}
{"id": "C65", "title": "What the bivector wedge computes", "statement": "Bivector wedge is not the exterior product (which vanishes in three dimensions): over every commutative ring it is the grade-2 part of the geometric product A*B, half the commutator, antisymmetric, and satisfies the Jacobi identity; the dot product is the grade-0 part and the two together are the whole product.", "quantifier": "all pairs of bivectors over every commutative ring", "why_tests_cant": "Polynomial identity over all values.", "anchors": ["src/math/bivector.rs: Exterior::wedge"]}
{"id": "C66", "title": "Rotor inverse is the reversal", "statement": "Rotor inverse() always equals reversal, so R*inverse(R) is the scalar |R|^2; norm_squared is multiplicative; inverse() is a one- or two-sided inverse exactly for rotors with norm_squared 1.", "quantifier": "all rotors", "why_tests_cant": "An iff over all values.", "anchors": ["src/math/rotor.rs: inverse, norm_squared"]}
{"id": "C67", "title": "Rotor from two vectors, any lengths", "statement": "from_vectors(u,v) has no finite value exactly when v = -u/|u|^2; for all other inputs, of any lengths, it is a unit rotor whose inverse is from_vectors(v,u), it fixes everything orthogonal to both, and it takes u to ((1-|u|^2|v|^2)u + 2|u|^2(1+u.v)v)/(1+2u.v+|u|^2|v|^2). For independent u, v that image is along v exactly when |u||v| = 1.", "quantifier": "all pairs of real vectors", "why_tests_cant": "Universal over a continuum, with a singular surface.", "anchors": ["src/math/rotor.rs: from_vectors"]}
{"id": "C68", "title": "Angle: symmetry, domain and special angles", "statement": "In f32 angle(u,v)=angle(v,u) bit for bit for all inputs, NaN included; in exact arithmetic the result is finite iff both vectors are non-zero; it is 0 exactly for parallel, pi exactly for opposite and pi/2 exactly for orthogonal vectors.", "quantifier": "all f32 vectors; all real vectors", "why_tests_cant": "All bit patterns and a continuum.", "anchors": ["src/math/vector.rs: angle"]}
{"id": "C69", "title": "Line membership region and distance", "statement": "In f32, contains(x) holds exactly when each of the three rounded components of (x-p)^d has magnitude at most EPSILON (the ulps bound never matters). In exact arithmetic, with D the least squared distance of x from the line, D*|d|^2 <= eps^2 is accepted and D*|d|^2 > 3 eps^2 is rejected; so the tolerance depends on the length of the direction, and a zero direction accepts every point. intersect always returns None.", "quantifier": "all f32 lines and points; all real lines and points", "why_tests_cant": "Every bit pattern and a continuum.", "anchors": ["src/geometry/line.rs: Line::contains, Line::intersect"]}
{"id": "C70", "title": "Basis blade counts, exactly", "statement": "number_of_basis_blades(n,0) panics. For 1<=k<=n it is the binomial coefficient when n(n-1)..(n-k+1) fits usize and panics in debug builds otherwise; for k=n+1 it is 0 if k! fits; for larger k it panics in debug builds. Release builds return the quotient of the wrapped numerator and wrapped factorial, panicking when the latter is 0. total_number_of_basis_blades overflows to a panic (debug) or 0 (release) and cuts the dimension to 32 bits. When n! fits, the counts for k=1..n add up to the total minus 1.", "quantifier": "all n, k, both build profiles, every usize width", "why_tests_cant": "Large n, k and overflow boundaries.", "anchors": ["src/math/blade.rs: number_of_basis_blades, binomial_coefficient, factorial, total_number_of_basis_blades"]}
{"id": "C71", "title": "FOLD save and load, exactly", "statement": "Saving then loading a Fold succeeds exactly when all coordinates and edge lengths are finite (else it panics) and then gives the same value except that file_frames, edges_foldangles, faceorders and edgeorders are emptied; the round trip is the identity exactly when those were empty already; a second round trip changes nothing. Everything loaded holds in-range i32 values.", "quantifier": "all Fold values", "why_tests_cant": "All documents; lists of any length.", "anchors": ["src/fold/fold.rs: Fold (serde attributes)"]}
{"id": "C72", "title": "Which FOLD documents load", "statement": "from_file returns a Fold exactly for JSON objects in which no known key is repeated and every known key present holds a value of its type, and for arrays of at most 24 positional values of the right types; an unreadable file is Err and everything else panics.", "quantifier": "all file contents", "why_tests_cant": "All documents.", "anchors": ["src/fold/fold.rs: Fold, from_file"]}
{"id": "C73", "title": "FOLD values that panic", "statement": "A file_spec that is not an integer literal (such as the format's 1.1), null for any known key, and any vertex, edge or face id outside i32 make from_file panic, whatever else the document holds.", "quantifier": "all JSON objects", "why_tests_cant": "All documents.", "anchors": ["src/fold/fold.rs: Fold, from_file"]}
{"id": "C74", "title": "Orientation of simple polygons", "statement": "For every simple vertex list (distinct vertices, edges meeting only at shared ends, straight and reflex vertices allowed) the shoelace sum is non-zero and its sign tells the direction: off the boundary every point has winding number 0 or the sign of the area. Polygon::new therefore returns a polygon with positive area and a non-empty inside, and a point seen from a vertex is inside exactly when it lies in the interior angle that in_cone tests.", "quantifier": "all simple polygons of any size, all points (exact arithmetic)", "why_tests_cant": "All polygon shapes and a continuum of points; amounts to the Jordan curve theorem for polygons.", "anchors": ["src/geometry/polygon.rs: Polygon::new, area_poly2, in_cone"]}
{"id": "C75", "title": "diagonal is exact on simple polygons", "statement": "For every simple polygon made by Polygon::new and every pair of vertices, diagonal(i,j) is true exactly when i and j differ and every point strictly between the two vertices is inside the polygon; on the f32 grid the same holds for the f32 code.", "quantifier": "all simple polygons, all index pairs (exact arithmetic; grid coordinates in f32)", "why_tests_cant": "All polygon shapes; inside is a global notion.", "anchors": ["src/geometry/polygon.rs: diagonal, in_cone, intersect, get_neighbor_indices"]}
{"id": "C76", "title": "Ears of simple polygons", "statement": "Every simple polygon with more than 3 vertices has an ear away from any given edge, so at least two ears; cutting an ear off leaves a simple polygon of smaller area, and vertices that are not neighbours of the cut keep their ear status, so the flags triangulate keeps instead of recomputing are right.", "quantifier": "all simple polygons of any size, every ear (exact arithmetic)", "why_tests_cant": "Two-ears theorem: all polygon shapes.", "anchors": ["src/geometry/polygon.rs: triangulate, diagonal"]}
{"id": "C77", "title": "Triangulation tiles simple polygons", "statement": "For every simple polygon made by Polygon::new, triangulate returns within n rounds n-2 counterclockwise triangles of positive area on the polygon's vertices whose areas sum to the area; interior points of the triangles are inside the polygon, no point is interior to two triangles, and every inside point lies in some triangle. On the f32 grid the same holds for the f32 code.", "quantifier": "all simple polygons of any size (exact arithmetic; grid coordinates in f32)", "why_tests_cant": "All polygon shapes and all points of the plane.", "anchors": ["src/geometry/polygon.rs: triangulate, area"]}
{"id": "C78", "title": "Exact regions of the approximate comparisons", "statement": "On finite f32 components: abs_diff_eq holds iff the rounded difference is at most epsilon; relative_eq iff also equal or the rounded difference is at most the rounded product of the larger magnitude and max_relative; ulps_eq iff also equal signs and at most max_ulps representable steps apart. Infinities are never within an absolute tolerance, relatively equal only to themselves, and in ulps one step from f32::MAX.", "quantifier": "all finite f32 values and tolerances (max_relative at most 1 in magnitude), all infinities", "why_tests_cant": "2^64 pairs of components and all tolerances.", "anchors": ["src/math/vector.rs: approx impls", "src/math/bivector.rs: approx impls", "src/math/trivector.rs: approx impls", "src/math/rotor.rs: approx impls"]}
{"id": "C79", "title": "Drawing an edge in general position keeps the drawing planar", "statement": "If the nodes are more than epsilon apart, no node is in the needle of an edge and the drawing is planar, then add_edge of a segment in general position (it passes no other node; each inner crossing is away from all nodes, other edges and other crossings) returns a drawing with the same qualities that covers exactly the old picture and the new segment, and every node it adds stands at an inner crossing.", "quantifier": "every planar drawing with real coordinates, every segment in general position", "why_tests_cant": "Infinitely many drawings; each call splits along any number of crossings in sequence and must not disturb earlier splits.", "anchors": ["src/graph/planar_graph.rs: add_edge, split_edges_along_edge, split_edges_at_node", "src/geometry/utils.rs: calculate_line_segment_intersection, unique_points_among, is_on_line_segment"]}
{"id": "C80", "title": "Adding a node keeps the drawing planar", "statement": "add_node at a point that is within epsilon of a node, or away from all nodes and exactly on every edge in whose needle it is, keeps the drawing planar and the picture unchanged, and the reported node is within epsilon of the requested point.", "quantifier": "every planar drawing with real coordinates, every such point", "why_tests_cant": "All drawings and positions.", "anchors": ["src/graph/planar_graph.rs: add_node, split_edges_at_node"]}
{"id": "C81", "title": "Removals keep the drawing planar", "statement": "remove_node and remove_edge (when they do not panic) keep the drawing planar; the remaining picture is exactly that of the edges not incident to the node, respectively of the edges in the other slots.", "quantifier": "every planar drawing, every index", "why_tests_cant": "Arbitrary drawings and renumberings.", "anchors": ["src/graph/planar_graph.rs: remove_node, remove_edge"]}
{"id": "C82", "title": "Unambiguous histories yield planar drawings", "statement": "Every history of additions and removals in which each add_node has a good place and each add_edge joins different nodes and is ignored or in general position ends in a planar drawing without parallel edges and without self-loops.", "quantifier": "every such history, of any length", "why_tests_cant": "All histories.", "anchors": ["src/graph/planar_graph.rs: add_node, add_edge, remove_node, remove_edge"]}
{"id": "C83", "title": "add_edge reports exactly the changed slots in general position", "statement": "Under the hypotheses of C79 the reported edge indices are exactly the slots of the result whose edge differs from before (the slot of the new edge included) and the reported nodes are exactly the new ones.", "quantifier": "every planar drawing with real coordinates, every segment in general position", "why_tests_cant": "The report is assembled over several splits.", "anchors": ["src/graph/planar_graph.rs: add_edge, split_edges_along_edge"]}
{"id": "C84", "title": "Removal reports cover the changes unless a self-loop was requested", "statement": "After any history without a request for a self-loop, every node slot and every edge slot (up to renumbering of its ends) not listed by remove_node or remove_edge is the same before and after.", "quantifier": "every f32 history without add_edge(a, a), every index", "why_tests_cant": "All histories and sets of deleted slots.", "anchors": ["src/graph/planar_graph.rs: remove_node, remove_edge"]}
{"id": "C85", "title": "Integer polygons in f32, from construction to triangles", "statement": "If the coordinates are k*2^e with |k| <= K <= 2048 and 4*K^2*(n-2) <= 2^24, Polygon::new in f32 returns what it returns in exact arithmetic: the given vertices or their reversal, counterclockwise; and if they form a simple polygon (in either direction), triangulate on the result returns n-2 positively oriented triangles that tile it.", "quantifier": "every vertex list on such a grid, any number of vertices within the bound", "why_tests_cant": "All polygons; sums of any length must stay exact for the sign to be right.", "anchors": ["src/geometry/polygon.rs: Polygon::new, area_poly2, triangulate"]}
{"id": "C86", "title": "Area and center of integer polygons in f32", "statement": "On such grids area() in f32 is exactly the real area (no rounding), and center() is the correctly rounded mean of the vertices in each coordinate.", "quantifier": "every vertex list on such a grid", "why_tests_cant": "Rounding depends on every partial sum.", "anchors": ["src/geometry/polygon.rs: area, center"]}
{"id": "C87", "title": "Segment intersection in f32 on integer grids", "statement": "If the coordinates are k*2^e with |k| <= K and 8*K^2 <= 2^24, calculate_line_segment_intersection in f32 returns None exactly when the segments are parallel or have no common point, ends included; otherwise the returned point is finite and within 6*K*2^(e-24) of the exact crossing in each coordinate.", "quantifier": "every four points on such a grid", "why_tests_cant": "The quotients are rounded; no test can rule out a quotient rounded across 0 or 1.", "anchors": ["src/geometry/utils.rs: calculate_line_segment_intersection"]}
{"id": "C88", "title": "The closest point in f32 on integer grids", "statement": "On grids with |k| <= 724 find_closest_to in f32 returns the first of the points at minimal exact distance, with the correctly rounded distance. On the grid with |k| <= 765 it does not.", "quantifier": "every target and every non-empty point list on such a grid", "why_tests_cant": "Different distances whose rounded roots coincide are rare.", "anchors": ["src/geometry/utils.rs: find_closest_to"]}
{"id": "C89", "title": "Points on segments and grid crossings in f32", "statement": "On grids with |k| <= 6, is_on_line_segment in f32 holds exactly for the inner points of the segment, if the segment is horizontal or vertical and the spacing is 2^-19 to 2^51, or for all segments if the spacing is 2^-9 to 2^-5; segments that cross in a grid point are computed to cross exactly there. With spacing 1 the point (2,1) is not on the segment (0,0)-(6,3), and at 13 units crossings are displaced.", "quantifier": "every point and segment on such a grid", "why_tests_cant": "The detour is compared with an absolute epsilon; whether roundings exceed it depends on every distance.", "anchors": ["src/geometry/utils.rs: is_on_line_segment, calculate_line_segment_intersection"]}
{"id": "C90", "title": "Drawing on small f32 grids is exact", "statement": "Every history that adds nodes at points of a grid with |k| <= 6 and edges along grid lines (spacing 2^-19 to 2^51) or along grid lines and even diagonals (box pleating; spacing 2^-9 to 2^-5), with any removals, gives in f32 the same graph as in exact arithmetic, with the same panics; every further such call returns the same answer.", "quantifier": "every such history, any length", "why_tests_cant": "Errors could accumulate over a history; exactness must hold for every one of them.", "anchors": ["src/graph/planar_graph.rs: add_node, add_edge, remove_node, remove_edge"]}
{"id": "C91", "title": "Drawing on small f32 grids yields planar drawings", "statement": "If moreover each requested edge exists already, has a missing end, or passes no node and meets the edges in points that are on one edge only, the f32 graph is a planar drawing with distinct node positions, without parallel edges or self-loops; each such edge adds exactly its segment to the picture and is reported exactly; each node added leaves the picture unchanged and stands exactly where it was asked for.", "quantifier": "every such history, any length", "why_tests_cant": "Planarity of the stored f32 graph after arbitrary histories.", "anchors": ["src/graph/planar_graph.rs: add_node, add_edge, remove_node, remove_edge"]}
{"id": "C92", "title": "Products in floating point are accurate", "statement": "In f32, in f64 and in any other binary format, the products Vector*Vector, Vector*Bivector, Bivector*Bivector, Rotor*Rotor, Rotor*Vector, Trivector*Trivector and all dot and wedge products of finite values give, unless the product of the two lengths exceeds the format's range, finite coefficients that differ from the exact Clifford product by at most ((1+u)^n - 1)(|x||y| + n t), where n <= 4, u is the unit roundoff (2^-24 in f32) and t the smallest normal number; rotate satisfies the same with n = 7 and 2|R|^2|v|.", "quantifier": "every binary floating-point format (f32 and f64 among them), all finite components in the stated range", "why_tests_cant": "rounding errors depend on all bits of up to eight numbers", "anchors": ["src/math/vector.rs: Mul, Mul<Bivector3>, dot, wedge", "src/math/bivector.rs: Mul, dot, wedge", "src/math/trivector.rs: Mul, dot", "src/math/rotor.rs: Mul, Mul<Vector3>, dot, rotate"]}
{"id": "C93", "title": "norm and normalize are accurate", "statement": "In any binary format with at least 11 bits of precision, for every vector, bivector, trivector and rotor whose length L has a square that neither underflows nor overflows (f32: 2^-51 <= L <= 2^63, f64: 2^-484 <= L <= 2^511): norm() is within 3.2uL of L, every component of normalize() is finite and within 5u of the exact one, and the length of the result is within 5u of 1. Outside the range this fails: in f32 the norm of (2^64,0,0) is infinite and normalize gives 0.", "quantifier": "every binary floating-point format (f32 and f64 among them), all finite components in the stated range", "why_tests_cant": "all exponents and mantissas; the squares underflow and overflow at lengths no test uses", "anchors": ["src/math/vector.rs: norm, normalize", "src/math/bivector.rs: norm, normalize", "src/math/trivector.rs: norm, normalize", "src/math/rotor.rs: norm, normalize"]}
{"id": "C94", "title": "inverse is accurate", "statement": "For the same formats and lengths L: every component of inverse() of a vector, bivector or trivector is within 5.4u/L of the exact inverse, and the product of the inverse with the value, computed with the crate's product, has scalar part within 9u of 1 and every other part within 9u of 0.", "quantifier": "every binary floating-point format (f32 and f64 among them), all finite components in the stated range", "why_tests_cant": "all exponents and mantissas", "anchors": ["src/math/vector.rs: inverse", "src/math/bivector.rs: inverse", "src/math/trivector.rs: inverse"]}
{"id": "C95", "title": "project, reflect and angle are accurate", "statement": "For the same formats and lengths of both vectors: project(s, r) is within 10u|s| of the exact projection of s on the line of r in every component, reflect(s, r) within 16u|s| of the exact mirror image, and angle(a, b) is acos of a finite number within 14u of the cosine of the angle.", "quantifier": "every binary floating-point format (f32 and f64 among them), all finite components in the stated range", "why_tests_cant": "all exponents and mantissas of six numbers", "anchors": ["src/math/vector.rs: project, reflect, angle"]}
{"id": "C96", "title": "Normalized rotors rotate accurately", "statement": "For the same formats and lengths of a rotor q, let r = normalize(q). The scalar part of r * r.inverse() is within 15u of 1 and its bivector part is exactly 0; r.rotate(v) is finite and within 25u|v| in every component of the exact rotation of v by q/|q|.", "quantifier": "every binary floating-point format (f32 and f64 among them), all finite components in the stated range", "why_tests_cant": "all exponents and mantissas of seven numbers", "anchors": ["src/math/rotor.rs: normalize, inverse, Mul, rotate"]}
{"id": "C97", "title": "from_vectors rotates one direction onto the other in floating point", "statement": "For the same formats (f32 and f64 among them) and lengths of a and b, let h be the length of a/|a| + b/|b|, at least 1000u. The rotor from_vectors(normalize(a), normalize(b)) has length within 5u of 1 and rotates normalize(a) to within 160u/h of b/|b| in every component. For opposite directions every component is a NaN.", "quantifier": "every binary floating-point format (f32 and f64 among them), all finite components in the stated range, except directions within 1000u of opposite", "why_tests_cant": "the error grows without bound towards opposite directions", "anchors": ["src/math/rotor.rs: from_vectors, rotate", "src/math/vector.rs: normalize"]}
{"id": "C98", "title": "Exact facts of src/math in every format", "statement": "In every binary format and for all bit patterns: dot of vectors, bivectors, trivectors and rotors and angle are symmetric bit for bit; is_zero holds exactly when every component is +0 or -0. For every finite rotor whose square is in range the bivector part of R * R.inverse() is exactly zero.", "quantifier": "every binary format, all bit patterns (NaN and infinities included for the first two)", "why_tests_cant": "the number of bit patterns", "anchors": ["src/math/vector.rs: dot, angle, is_zero", "src/math/bivector.rs: dot, is_zero", "src/math/trivector.rs: dot, is_zero", "src/math/rotor.rs: dot, inverse, Mul"]}
{"id": "C99", "title": "Distances in f32 are accurate", "statement": "For all points with finite f32 coordinates the distance computed in f32 differs from the exact Euclidean distance d by at most 3.2*2^-24*d + 2^-73 if d <= 2^63; beyond 2^63 it is infinite or at least 2^62.", "quantifier": "all finite f32 points in the stated range (off any grid), every libm", "why_tests_cant": "2^128 pairs of points; underflow and overflow of the squares", "anchors": ["src/geometry/utils.rs: find_closest_to, close_to, is_on_line_segment"]}
{"id": "C100", "title": "The f32 tolerance separates nodes by true distance", "statement": "With e = f32::EPSILON and u = 2^-24, for finite coordinates: two different nodes of any graph built by any history are more than e(1-4u) apart in exact distance; add_node returns an old node nearer than e(1+4u), or makes a node and then every old node is further than e(1-4u) away; find_closest_to returns a point whose exact distance exceeds the minimum by at most the factor 1+7u and 2^-71; close_to holds below e(1-4u) and fails from e(1+4u) on.", "quantifier": "all finite f32 points in the stated range (off any grid), every libm; all histories", "why_tests_cant": "coincidence thresholds are only hit by adversarial coordinates; all histories", "anchors": ["src/graph/planar_graph.rs: add_node", "src/geometry/utils.rs: find_closest_to, close_to, unique_points_among"]}
{"id": "C101", "title": "What is_on_line_segment accepts and rejects in f32", "statement": "For f32 points of magnitude at most 2^60 and L = |ab|: an accepted point makes a detour of at most f32::EPSILON(1+6u) + 8uL, is within sqrt(e(2L+e))/2 of the segment (e that detour) and more than EPSILON(1-4u) from both ends; a point more than EPSILON(1+4u) from both ends whose detour is less than EPSILON(1-6u) - 8u(|ap|+|pb|) is accepted, in particular every point exactly on a segment of length at most 1/5.", "quantifier": "all finite f32 points in the stated range (off any grid), every libm", "why_tests_cant": "the boundary of the accepted region depends on the rounding of three square roots", "anchors": ["src/geometry/utils.rs: is_on_line_segment"]}
{"id": "C102", "title": "A forward error bound certifies the f32 orientation predicates", "statement": "For f32 points of magnitude at most 2^60 area2 differs from the exact determinant D by at most 3.1u(M + 2^-125) + 1.1u|D|, M the sum of the magnitudes of its two products. If among a set of points every three different ones satisfy |D| > 3.1u(M + 2^-125), then left, left_on, collinear, between, intersect_prop and intersect applied to points of the set give the exact geometric answer. Without it they can be wrong.", "quantifier": "all finite f32 points in the stated range (off any grid), every libm", "why_tests_cant": "the sign of a rounded determinant is wrong only for nearly collinear triples", "anchors": ["src/geometry/polygon.rs: area2, left, left_on, collinear, between, intersect_prop, intersect"]}
{"id": "C103", "title": "f32 polygons in robust position: area, orientation, tiling", "statement": "For every f32 polygon with coordinates of magnitude at most 2^60 (and no overflow of the sum of its fan's products M): area() differs from the exact area by at most ((1+u)^(n+3)-1)(M/2+2^-126); Polygon::new orients it counterclockwise unless |2*area| <= ((1+u)^(n+2)-1)M. If it is simple and its vertices are in the robust position of C102, triangulate returns n-2 positively oriented triangles on the polygon's vertices, which tile it exactly.", "quantifier": "all finite f32 points in the stated range (off any grid), every libm; all simple polygons in robust position, any number of vertices", "why_tests_cant": "all polygons; the loop could diverge or return overlapping triangles after one wrong sign", "anchors": ["src/geometry/polygon.rs: new, area, triangulate, diagonal, in_cone, is_ear"]}
{"id": "C104", "title": "Segment crossings in f32", "statement": "For f32 points of magnitude at most 2^60: a point returned by calculate_line_segment_intersection lies on the first segment up to 3.1u(|x|+|dx|+2^-126) in each coordinate, whatever the angle of the segments. Let K = (|ab||cd|+2^-100)/|ab x cd| with 100uK <= 1. If the exact crossing has parameters at least 6uK(|ac|/|ab|+1) (resp. /|cd|) away from 0 and 1, it is reported; and a reported point is that near to the exact crossing of the lines, which is on both segments or only that far beyond their ends.", "quantifier": "all finite f32 points in the stated range (off any grid), every libm", "why_tests_cant": "error growth at small angles; eight coordinates", "anchors": ["src/geometry/utils.rs: calculate_line_segment_intersection"]}
{"id": "C105", "title": "Crossings in f32 drawings get nodes", "statement": "For every f32 graph with coordinates of magnitude at most 2^60: every node made by add_edge lies on an old edge up to the rounding of its coordinates, and within the bound of C104 of the exact crossing with the new edge if that is well conditioned. A well conditioned crossing of the new edge with an old edge, away from the ends by the bound of C104 and with no other reported crossing within the tolerance, has a node within the bound of C104 plus f32::EPSILON(1+4u) afterwards. The two edges need not be split at it: at lengths 2.24 and 1.42 they are not.", "quantifier": "all finite f32 points in the stated range (off any grid), every libm; every graph", "why_tests_cant": "rounded crossings; found: integer coordinates 0..2 already give a drawing whose edges cross without being split", "anchors": ["src/graph/planar_graph.rs: add_edge, split_edges_along_edge, add_node", "src/geometry/utils.rs: calculate_line_segment_intersection, is_on_line_segment"]}
{"id": "C106", "title": "Midpoints and polygon centres in f32", "statement": "For all finite f32 points whose coordinate sums do not overflow, each coordinate of calculate_midpoint differs from the exact mean (x+y)/2 by at most u|x+y|/2 + 2^-150 (u = 2^-24) and lies between the coordinates of the two points. When a sum overflows the midpoint is not finite although both points are. For every polygon of n <= 2^24 vertices of magnitude at most 2^60, each coordinate of center() differs from the exact mean of the vertices by at most ((1+u)^(n+1)-1) times the mean magnitude, plus 2^-150.", "quantifier": "all finite f32 points in the stated range (off any grid), every libm; polygons of any size up to 2^24", "why_tests_cant": "overflow and subnormal sums; error accumulates with the number of vertices", "anchors": ["src/geometry/utils.rs: calculate_midpoint", "src/geometry/polygon.rs: center"]}
{"id": "C107", "title": "The perpendicular foot in f32", "statement": "For f32 points of magnitude at most 2^60 with |ab| >= 2^-40, each coordinate of calculate_perpendicular_point(a, b, p) differs from that of the point of line ab whose connection to p is perpendicular to ab by at most 13u|ap| + u|p_x| + 2^-86 (resp. p_y). For a and b different but 2^-76 apart the result is not finite.", "quantifier": "all finite f32 points in the stated range (off any grid), every libm", "why_tests_cant": "division by a rounded squared length; six coordinates", "anchors": ["src/geometry/utils.rs: calculate_perpendicular_point"]}
{"id": "C108", "title": "Line intersection in f32", "statement": "For f32 points of magnitude at most 2^60, K = (|ab||cd|+2^-100)/|ab x cd| with 100uK <= 1, and E = 4.1u(|ab||cd|+2^-125): if |ab x cd| > f32::EPSILON + E and the exact crossing is at least 6uK(|ac|/|ab|+1) (resp. /|cd|) inside both segments in parameter, calculate_line_intersection returns a point; any returned point is within the bounds of C104 of the exact crossing, which is on both segments or only that far beyond, and |ab x cd| > EPSILON - E. Segments with |ab||cd| <= EPSILON/2 are never reported to meet, even if they cross.", "quantifier": "all finite f32 points in the stated range (off any grid), every libm", "why_tests_cant": "the absolute tolerance on the determinant makes the answer depend on scale; found: all short crossing segments are missed", "anchors": ["src/geometry/utils.rs: calculate_line_intersection"]}
{"id": "C109", "title": "Incenter and degeneracy test in f32", "statement": "For f32 points of magnitude at most 2^60, not collinear, with sides at least 2^-40: if calculate_triangle_incenter returns a point, each of its coordinates differs from that of the centre of the inscribed circle by at most 17u (u = 2^-24) times the side-weighted mean of the magnitudes of that coordinate, plus 2^-100. If each two sides exceed the third by more than 4.5u times the perimeter, is_degenerate_triangle is false and an incenter is returned. Without that margin the test errs both ways: (0,0), (1,6), (5,30) are collinear and get an incenter with inradius above 0.0029; (0,0), (1,2^-13), (2,0) are not collinear and are rejected.", "quantifier": "all f32 points in the stated range (off any grid), every libm", "why_tests_cant": "the test compares rounded lengths exactly, so its answer on flat triangles depends on rounding; found: collinear triples that are accepted", "anchors": ["src/geometry/utils.rs: calculate_triangle_incenter", "src/geometry/utils.rs: is_degenerate_triangle"]}
{"id": "C110", "title": "Inradius in f32", "statement": "For f32 points of magnitude at most 2^28 with sides at least 2^-20, s half the perimeter, and k with s <= k(s - side) for the three sides and 1000uk <= 1: calculate_triangle_incenter returns a result, and its radius differs from the radius r of the inscribed circle by at most 26ukr. For larger triangles (legs 2^33) the returned radius is not finite.", "quantifier": "all f32 points in the stated range (off any grid), every libm", "why_tests_cant": "Heron's formula cancels for flat triangles; the error grows with the flatness k; overflow of a product of four lengths", "anchors": ["src/geometry/utils.rs: calculate_triangle_incenter"]}
{"id": "C111", "title": "The parallel test in f32", "statement": "For f32 points of magnitude at most 2^60 and segments ab, cd of length at least 2^-40: the dot product of the normalised directions that parallel computes differs from the cosine of the angle by at most 14.01u (u = 2^-24); if parallel returns true, the cosine is at least 1 - 17u in absolute value and the sine at most 0.0015. The answer false carries no information: the segment (0,0)-(1,4) is not parallel to itself.", "quantifier": "all f32 points in the stated range (off any grid), every libm", "why_tests_cant": "the tolerance 2u is below the rounding error of the computed cosine; found: about a quarter of the segments with small integer direction are reported not parallel to themselves", "anchors": ["src/geometry/utils.rs: parallel"]}
{"id": "C112", "title": "Horizontal and vertical segments in f32", "statement": "For f32 points of magnitude at most 2^60 with equal x or equal y and distance at least 2^-60: distance is finite and is the correctly rounded exact distance. For two such segments (each horizontal or vertical) parallel returns true exactly when the exact directions are parallel. Below that length it fails: the length of (0,0)-(2^-80,0) is computed as 0.", "quantifier": "all f32 points in the stated range (off any grid), every libm", "why_tests_cant": "square then square root must return the number itself for every mantissa; underflow of the square", "anchors": ["src/geometry/utils.rs: parallel", "src/geometry/utils.rs: is_on_line_segment (distance)"]}
{"id": "C113", "title": "Second point of the perpendicular bisector in f32", "statement": "For f32 points a, b of magnitude at most 2^30 with |bx - ax| and |by - ay| at least 2^-30 and |offset| at most 2^30: let (mx, my) be the exact midpoint, k = |bx - ax|/|by - ay|, and q the point with x = mx + offset at equal distance from a and b. The second point of calculate_perpendicular_bisector is finite; its x differs from that of q by at most 2.01u(|mx| + |offset|) + 2^-140, its y by at most 9.01u(|my| + k(2|mx| + |offset|)) + 2^-80. The error is relative to the distance from the origin: for (2^23,0), (2^23+2,3) and offset 1 it exceeds 0.3.", "quantifier": "all f32 points in the stated range (off any grid), every libm", "why_tests_cant": "the y-intercept cancels: accuracy is lost with distance from the origin even when segment and offset are small", "anchors": ["src/geometry/utils.rs: calculate_perpendicular_bisector"]}
{"id": "C114", "title": "Regular polygons in f32", "statement": "Let the platform's sin and cos be within 2u (u = 2^-24) of the exact values on [-7,7]. Corner i of regular(n, r, c), n up to 2^24, r in [2^-80, 2^60], |c| up to 2^60, differs from c + r(cos, sin)(2 pi i/n) by at most u(20.1r + |c|) in each coordinate. For 3 <= n <= 100, r in [2^-40, 2^40] and centre coordinates of magnitude at most 16r: regular returns a polygon with the n corners in this order (not reversed), each within 37ur; it is strictly convex, and triangulate returns n-2 counterclockwise triangles that tile it. The bound on the centre is needed: the triangle of radius 1 around (2^26,0) has area 0.", "quantifier": "all f32 radii and centres in the stated range, every libm with sin and cos accurate to 2u on [-7,7]", "why_tests_cant": "needs error bounds for PI, the quotient i/n and sin/cos at every i and n, and that they stay below the curvature of the polygon", "anchors": ["src/geometry/polygon.rs: regular", "src/geometry/polygon.rs: new", "src/geometry/polygon.rs: triangulate"]}
{"id": "C115", "title": "Area of regular polygons in f32", "statement": "Under the same assumptions area() of regular(n, r, c) is finite and differs from (n/2) r^2 sin(2 pi/n) by at most u n (310 + 5n) r^2.", "quantifier": "all f32 radii and centres in the stated range, every libm with sin and cos accurate to 2u on [-7,7]", "why_tests_cant": "accumulated over all corners and all triangles of the fan", "anchors": ["src/geometry/polygon.rs: area", "src/geometry/polygon.rs: regular"]}
{"id": "C116", "title": "Line::contains in f32 with rounding errors", "statement": "Let W_ij be the exact components of the wedge (x - p) ^ d and T_ij the sum of the magnitudes of its two terms. If contains(x) answers true then |W_ij| <= 2^-23 + e_ij with e_ij = 3.01u(T_ij + 2^-125), u = 2^-24, for all three components; if |W_ij| + e_ij <= 2^-23 for all three it answers true. An accepted point is at distance at most sqrt(3)(2^-23 + e)/|d| from the line. A point computed in f32 as p + d*t is accepted whenever the coordinates |p_i| + |d_i t| are at most M, the |d_i| at most D, and M*D <= 3/16.", "quantifier": "all f32 base points, directions and query points with finite components of magnitude at most 2^60 (2^50 for computed points), all f32 t", "why_tests_cant": "the decision depends on three rounded cross terms; the set of accepted points and the 3/16 limit need error bounds over all inputs", "anchors": ["src/geometry/line.rs: contains", "src/geometry/line.rs: new", "src/math/vector.rs: wedge"]}
{"id": "C117", "title": "Rotors from an angle and a plane in floating point", "statement": "Let the platform's sin and cos be within 2u on [-A,A]. For a finite angle with |angle| <= 2A - 1 and a bivector whose length is in the working range of the format, from_angle_plane(angle, b.normalize()) has every component within 9u of cos(angle/2) - sin(angle/2) b/|b|, its length is within 9u of 1, and rotate(v) is finite and within 33u|v| of the exact rotation of v. from_xy_rotation, from_xz_rotation and from_yz_rotation turn v by the angle in their plane within 33u|v| per coordinate. Without accuracy of sin and cos nothing holds.", "quantifier": "every binary format of at least 11 bits of precision (f32, f64), all angles, planes and vectors in the stated range, every libm with the stated accuracy", "why_tests_cant": "composition of libm, normalization, scaling and the sandwich product for all angles and planes", "anchors": ["src/math/rotor.rs: from_angle_plane", "src/math/rotor.rs: from_xy_rotation", "src/math/rotor.rs: from_xz_rotation", "src/math/rotor.rs: from_yz_rotation", "src/math/rotor.rs: rotate"]}
{"id": "C118", "title": "translate and uniform_scale in f32", "statement": "Both keep the number and order of the vertices. translate moves each coordinate to within u (u = 2^-24, relative) of the exact sum; uniform_scale is within u relative plus 2^-150. Scaling by a power of two is exact as long as every coordinate is 0 or its image is in the normal range. translate keeps a counterclockwise triple of vertices counterclockwise when its cross product exceeds 8uMD + 8(uM)^2, M bounding the moved coordinates and D the coordinate differences.", "quantifier": "all f32 polygons, vectors and factors whose exact results do not overflow", "why_tests_cant": "bounds over every vertex list; the orientation claim needs the worst case of six roundings", "anchors": ["src/geometry/polygon.rs: translate", "src/geometry/polygon.rs: uniform_scale"]}
{"id": "C119", "title": "add_edge in f32 splits exactly at the true crossings when there is room to spare", "statement": "Take an f32 drawing with coordinates up to M in which nodes are dl apart and dl away from the edges they are not an end of, exactly planar, where M, dl and the conditioning K of the crossings are such that the code's absolute tolerance 2^-23 covers the rounding errors and does not cover dl (for instance M = 2^-9, K = 4, dl = 2^-15; the coordinates need not be on any grid). Let the new segment keep dl from the other nodes and meet every edge in a common end, not at all (one beside the other by dl), or in a crossing that is dl away from all nodes and other edges and conditioned up to K. Then add_edge appends exactly one node per true crossing point of the new segment with the drawing, each within 2^-24 M (14 + 34K) of the true point; the resulting f32 drawing is exactly planar, spaced by dl minus twice that error, and its edges, with the new nodes moved back to the true crossings, cover exactly the old drawing and the new segment.", "quantifier": "all f32 graphs, coordinates, payloads and edges meeting the stated distances", "why_tests_cant": "crossings are computed with rounding at positions that are not representable; the claim needs error bounds for every pair of edges and every split", "anchors": ["src/graph/planar_graph.rs: add_edge", "src/graph/planar_graph.rs: split_edges_along_edge", "src/graph/planar_graph.rs: split_edges_at_node", "src/geometry/utils.rs: calculate_line_segment_intersection", "src/geometry/utils.rs: is_on_line_segment"]}
{"id": "C120", "title": "add_node in f32 when there is room to spare", "statement": "In such a drawing, add_node at a finite point that is within 2^-23(1 - 2^-22) of a node, or within the slip 2^-24 M (14 + 34K) of a point that keeps dl from all nodes and from every edge not passing through it, either returns the graph unchanged with the index of a node within 2^-23(1 + 2^-22), or appends one node at exactly the given coordinates; then the drawing stays exactly planar and spaced by dl minus twice the slip, and with the node moved to that nearby point its edges cover exactly what they covered.", "quantifier": "all f32 graphs, points and payloads meeting the stated distances", "why_tests_cant": "on-segment tests with rounding for every edge; the covered point set is infinite", "anchors": ["src/graph/planar_graph.rs: add_node", "src/graph/planar_graph.rs: split_edges_at_node", "src/geometry/utils.rs: find_closest_to", "src/geometry/utils.rs: is_on_line_segment"]}
{"id": "C121", "title": "Histories in f32 with room to spare stay planar, off any grid", "statement": "For every history of add_node, add_edge, remove_node and remove_edge from the empty graph such that before every call the coordinates are at most M, the nodes and edges keep the distance dl, and the call has room to spare as in C119 and C120 (nothing is assumed about edges crossing edges), the resulting f32 drawing is exactly planar, without loops and parallel edges, its nodes more than 2^-23 apart.", "quantifier": "all histories of any length meeting the stated distances", "why_tests_cant": "induction over unbounded histories with rounded crossings", "anchors": ["src/graph/planar_graph.rs: add_node", "src/graph/planar_graph.rs: add_edge", "src/graph/planar_graph.rs: remove_node", "src/graph/planar_graph.rs: remove_edge"]}
{"id": "C122", "title": "A plane drawing is determined by its nodes and its picture", "statement": "Two plane drawings (nodes at different points, no loops, no node on an edge it does not end, edges meeting only in common ends) with the same set of node positions whose edges cover the same points of the plane are the same drawing: as many nodes and edges, and every edge of one joins the same two points as an edge of the other. So what the graph stores is, up to numbering and direction, a function of what is drawn. The node positions are needed: a segment with and without a node in its middle is the same picture.", "quantifier": "all pairs of plane drawings with any numbers of nodes and edges", "why_tests_cant": "the covered point set is infinite and the drawings are arbitrary", "anchors": ["src/graph/planar_graph.rs: PlanarGraph", "src/graph/planar_graph.rs: Node", "src/graph/planar_graph.rs: Edge"]}
{"id": "C123", "title": "The order in which edges are drawn does not matter", "statement": "From a planar drawing, draw a list of segments between existing nodes with add_edge, each in general position when it is drawn and not yet an edge. The result is planar, its edges cover the old drawing and the segments and nothing else, and its nodes are the old ones and one at every point where a segment meets the old drawing or another segment. Drawing the same segments in any other order that also is in general position gives the same drawing, up to the numbering and direction of nodes and edges.", "quantifier": "all graphs in exact arithmetic, lists of segments of any length and all their permutations", "why_tests_cant": "all orders of unboundedly many calls; each order creates and splits different intermediate edges", "anchors": ["src/graph/planar_graph.rs: add_edge", "src/graph/planar_graph.rs: split_edges_along_edge", "src/graph/planar_graph.rs: split_edges_at_node", "src/geometry/utils.rs: calculate_line_segment_intersection"]}
{"id": "C124", "title": "Bookkeeping of the total edge length", "statement": "In exact arithmetic, on a planar drawing: add_node leaves the total length of the edges as it is, add_edge in general position adds exactly the distance of the two nodes (however many edges it crosses and splits), remove_edge takes away exactly the length of the removed edge, and remove_node exactly the lengths of the edges incident to it; so no piece of an edge is lost or stored twice.", "quantifier": "all planar drawings and all four operations", "why_tests_cant": "splitting happens at arbitrarily many crossings; equality of real sums", "anchors": ["src/graph/planar_graph.rs: add_node", "src/graph/planar_graph.rs: add_edge", "src/graph/planar_graph.rs: remove_edge", "src/graph/planar_graph.rs: remove_node", "src/graph/planar_graph.rs: split_edges_at_node"]}
{"id": "C125", "title": "On a drawing with room to spare add_edge in f32 does what add_edge in real arithmetic does", "statement": "On a planar f32 drawing in which nodes and edges keep their distance, for a new segment that keeps its distance and crosses well-conditioned, add_edge does not panic, returns the same report (including which edges were split, in the same order) and produces the same list of edges, with the same ends, data and labels, as the same program on the same coordinates in real arithmetic; the lists of nodes match one by one, and each f32 node is within the rounding bound of the exact one.", "quantifier": "all f32 graphs and segments with room to spare, any number of crossings", "why_tests_cant": "real arithmetic cannot be run; unboundedly many crossings, all of f32", "anchors": ["src/graph/planar_graph.rs: add_edge", "src/graph/planar_graph.rs: split_edges_along_edge", "src/graph/planar_graph.rs: split_edges_at_node", "src/graph/planar_graph.rs: add_node", "src/geometry/utils.rs: calculate_line_segment_intersection", "src/geometry/utils.rs: find_closest_to", "src/geometry/utils.rs: is_point_on_line_segment"]}
{"id": "C126", "title": "Histories of calls in f32 follow the history in real arithmetic", "statement": "Run a history of add_node, add_edge, remove_node and remove_edge calls from a planar f32 drawing in f32, and the same history in real arithmetic. If every drawing of the real-arithmetic run keeps its distances, with crossings conditioned up to K and crossings of crossings up to a fixed depth, both runs panic at the same call or not at all, every call gives the same answer, the edges are the same, and every f32 node is within a bound on the drift (that depends on the depth of the node) of the exact one. If the exact drawing at the end also keeps its distances, the f32 drawing at the end is exactly planar. Nothing is assumed of the f32 run.", "quantifier": "all histories of any length, all f32 coordinates within the stated bounds", "why_tests_cant": "unboundedly long histories; rounding errors pass from crossing to crossing", "anchors": ["src/graph/planar_graph.rs: add_node", "src/graph/planar_graph.rs: add_edge", "src/graph/planar_graph.rs: remove_node", "src/graph/planar_graph.rs: remove_edge", "src/graph/planar_graph.rs: split_edges_along_edge", "src/graph/planar_graph.rs: split_edges_at_node", "src/geometry/utils.rs: calculate_line_segment_intersection"]}
{"id": "C127", "title": "In f32 the order in which segments are drawn matters only up to the drift", "statement": "From a planar f32 drawing, draw a list of segments between its nodes (no two of them and no edge joining the same nodes) with add_edge in two different orders, both with room to spare at every step of the exact run. Neither run panics, and the two f32 results are the same drawing up to numbering, direction, and moving nodes by at most twice the drift: as many nodes and edges, every node of one is near a node of the other, and every edge of one has its ends near those of an edge of the other.", "quantifier": "all f32 drawings with room to spare, lists of segments of any length and all pairs of orders", "why_tests_cant": "all orders of unboundedly many calls; each order splits different intermediate edges and rounds differently", "anchors": ["src/graph/planar_graph.rs: add_edge", "src/graph/planar_graph.rs: split_edges_along_edge", "src/graph/planar_graph.rs: split_edges_at_node", "src/geometry/utils.rs: calculate_line_segment_intersection"]}
{"id": "C128", "title": "In exact arithmetic the graph code does not depend on where the drawing lies or how it is turned", "statement": "Take any graph and any history of add_node, add_edge, remove_node and remove_edge calls, and any map of the plane that preserves distances (translation, rotation, reflection, glide reflection). Running the moved calls on the moved graph gives the moved result of running the calls on the graph: the same panics, the same returned indices, the same edges, and every node at the image of its position.", "quantifier": "all graphs (valid or not), all histories of any length, all isometries", "why_tests_cant": "needs every isometry, including irrational rotations, and exact real arithmetic", "anchors": ["src/graph/planar_graph.rs: add_node", "src/graph/planar_graph.rs: add_edge", "src/graph/planar_graph.rs: remove_node", "src/graph/planar_graph.rs: remove_edge", "src/geometry/utils.rs: calculate_line_segment_intersection", "src/geometry/utils.rs: is_on_line_segment"]}
{"id": "C129", "title": "The f32 graph code commutes bit for bit with the symmetries of the square", "statement": "In f32, for each of the eight maps that swap the two coordinates or not and change the sign of each or not (zero coordinates becoming +0), running moved calls on a moved graph gives exactly the moved result: same panics, same indices, same edges, node positions equal bit for bit to the moved ones. In particular +0 and -0 are never told apart. This does not hold for translations or scalings: moved by 2^24 or scaled by 2^-24, two nodes at distance 1 become one node.", "quantifier": "all f32 graphs (NaN, infinities and signed zeros included), all histories of any length, all eight symmetries, every libm", "why_tests_cant": "all 2^64 points per node and unboundedly long histories", "anchors": ["src/graph/planar_graph.rs: add_node", "src/graph/planar_graph.rs: add_edge", "src/graph/planar_graph.rs: remove_node", "src/graph/planar_graph.rs: remove_edge", "src/geometry/utils.rs: calculate_line_segment_intersection", "src/geometry/utils.rs: is_on_line_segment"]}
{"id": "C130", "title": "In exact arithmetic triangulating and transforming a polygon commute", "statement": "For an affine map of positive determinant, triangulating the moved polygon gives the moved triangles in the same order, provided the vertices are different; Polygon::new of moved vertices is the moved polygon (reversed if the determinant is negative); the area is multiplied by the absolute value of the determinant. For translate and uniform_scale (by any s other than 0, also negative) this holds for every polygon without any condition. With repeated vertices a rotation can change the answer of between, which compares only y coordinates when the two ends have equal x.", "quantifier": "all polygons, simple or not, all affine maps (resp. all translations and scalings)", "why_tests_cant": "all polygons of any size and all real affine maps", "anchors": ["src/geometry/polygon.rs: triangulate", "src/geometry/polygon.rs: diagonal", "src/geometry/polygon.rs: new", "src/geometry/polygon.rs: area", "src/geometry/polygon.rs: translate", "src/geometry/polygon.rs: uniform_scale", "src/geometry/polygon.rs: between"]}
{"id": "C131", "title": "f32 polygons under quarter turns and reflections", "statement": "In f32, bit for bit: the area of a polygon does not change under any of the eight symmetries of the square; left, left_on, collinear, intersect_prop and Polygon::new commute with the four rotations; triangulate commutes with the half turn for every polygon whatever (also with NaN, infinities and repeated vertices), and with the quarter turns for polygons with different vertices on a grid. Off the grid between can change its answer under a quarter turn, since a rounded area of 0 need not mean collinear and the code then compares one coordinate only.", "quantifier": "all f32 polygons of any size, every libm; the quarter turns of triangulate on every grid step 2^e with 4096 by 4096 points", "why_tests_cant": "all f32 vertices and polygons of any size; the failing case needs two adjacent f32 numbers", "anchors": ["src/geometry/polygon.rs: triangulate", "src/geometry/polygon.rs: left", "src/geometry/polygon.rs: left_on", "src/geometry/polygon.rs: collinear", "src/geometry/polygon.rs: intersect_prop", "src/geometry/polygon.rs: new", "src/geometry/polygon.rs: area", "src/geometry/polygon.rs: between"]}
{"id": "C132", "title": "add_node is idempotent, except at points that are not finite", "statement": "After add_node(p) returned node i, add_node(p) again (with any data) returns node i with an empty list of edges and changes nothing, for every finite f32 point p, also if the first call split edges. A point with a NaN or infinite coordinate is appended as a new node by every call and never touches an edge.", "quantifier": "all f32 graphs and finite points; all reachable graphs and non-finite points; exact arithmetic too", "why_tests_cant": "all f32 points, including signed zeros, subnormals, NaN and infinities", "anchors": ["src/graph/planar_graph.rs: add_node", "src/geometry/utils.rs: find_closest_to", "src/geometry/utils.rs: is_on_line_segment"]}
{"id": "C133", "title": "Removing what was just added never restores the graph; redrawing a removed edge does", "statement": "If add_edge(s, d) crossed nothing, remove_edge of the new edge panics when both ends had edges before; otherwise it gives the old graph without the ends that had no edge. If add_node appended node k, remove_node(k) panics when k touched no edge; otherwise it gives the old graph without the edges k touched and without their ends that had no other edge. So neither ever gives back the graph. A surviving node is left without edges by remove_node exactly when all its edges went to the removed node (possible only with parallel edges, or if it had none). In exact arithmetic on a plane drawing, removing an edge (not the last, both ends with other edges) and adding it again gives the same nodes and the same edges with that edge moved to the end of the list, and reports just that slot.", "quantifier": "all reachable graphs (no self-loops for add_node), any arithmetic; all plane drawings for redrawing", "why_tests_cant": "pairs of calls on all reachable graphs of any size", "anchors": ["src/graph/planar_graph.rs: add_edge", "src/graph/planar_graph.rs: remove_edge", "src/graph/planar_graph.rs: add_node", "src/graph/planar_graph.rs: remove_node"]}
{"id": "C134", "title": "Number of nodes and edges of a drawing", "statement": "In exact arithmetic, add_edge of a segment in general position adds one node for each point outside the nodes where the segment meets an edge, and 1 + 2k edges if there are k such points; add_node away from the nodes adds one edge if the point lies on an edge and none otherwise. n segments drawn into m edges add k <= n*m + n(n-1)/2 nodes and n + 2k edges. f32 drawings with room to spare have the same sizes. Whatever the input, one add_edge adds at most as many nodes as there were edges, and multiplies the number of edges plus one by at most 2^k.", "quantifier": "all well-drawn graphs and all sequences of segments in general position (exact arithmetic); all calm histories of add_edge (f32); all graphs and scalars (last sentence)", "why_tests_cant": "The counts hold for every drawing and every number of segments; a test sees single drawings, and never the worst case of n segments.", "anchors": ["src/graph/planar_graph.rs:204-239", "src/graph/planar_graph.rs:260-366", "src/graph/planar_graph.rs:153-201"]}
{"id": "C135", "title": "The geometry helpers commute with the symmetries of the square (f32)", "statement": "For the eight symmetries of the square (exchange of the coordinates, changes of sign), applied to all arguments: distance, parallel, is_degenerate_triangle, is_on_line_segment, find_closest_to give the same answer bit for bit, unique_points_among and calculate_line_segment_intersection the image of the answer; midpoint, perpendicular point, incenter, polygon center, translate and uniform_scale give the image up to the sign of zeros, the inradius is the same bit for bit. The perpendicular bisector only commutes with the changes of sign (the offset changing sign with x), for segments that are neither vertical nor horizontal.", "quantifier": "all f32 points, including NaN and infinities; all eight symmetries", "why_tests_cant": "all bit patterns of up to four points and all eight symmetries; rounding, overflow and division by zero included", "anchors": ["src/geometry/utils.rs:5-18", "src/geometry/utils.rs:21-63", "src/geometry/utils.rs:66-133", "src/geometry/utils.rs:172-194", "src/geometry/polygon.rs:136-152"]}
{"id": "C136", "title": "The geometry helpers commute with isometries (exact arithmetic)", "statement": "In exact arithmetic, parallel and is_degenerate_triangle are invariant under every isometry of the plane, and perpendicular point and incenter (with its radius) commute with it, also where they are undefined; midpoint and the center of a polygon with a vertex commute with every affine map.", "quantifier": "all isometries of the plane (as maps preserving distances), all affine maps, all real points", "why_tests_cant": "a continuum of maps and points", "anchors": ["src/geometry/utils.rs:5-18", "src/geometry/utils.rs:21-63", "src/geometry/utils.rs:85-96", "src/geometry/polygon.rs:150-152"]}
{"id": "C137", "title": "Edges drawn through existing nodes", "statement": "In exact arithmetic, let add_edge draw a segment that may pass through nodes of a well-drawn graph, but meets the rest of the drawing without near misses and overlaps no edge. Then the picture gains exactly the segment, new nodes stand exactly at its crossings with edges outside the nodes, and the new edge is split at a node it passes exactly if that node has one edge: through a passed node with no edge, or with two or more, an edge of the result runs unsplit. Hence the result is a planar drawing if and only if every passed node has exactly one edge. General position is the case without passed nodes.", "quantifier": "all well-drawn graphs, all unambiguous segments between distinct non-adjacent nodes", "why_tests_cant": "whether a node is missed depends on the number of its edges, for every drawing; tests see single pictures", "anchors": ["src/graph/planar_graph.rs:204-239", "src/graph/planar_graph.rs:260-366", "src/geometry/utils.rs:172-194"]}
{"id": "C138", "title": "Unit rotors are the rotations of space", "statement": "In exact arithmetic, the maps of space that keep lengths, angles and handedness are exactly the maps Rotor3::rotate of unit rotors, and two unit rotors rotate alike exactly if they are equal or opposite; the maps that reverse handedness are exactly rotate of the negated vector. Every unit rotor is from_angle_plane of some angle in [0, 2 pi] and unit plane, and the product of two unit vectors, and rotates as reflecting in the two does. Dot, norm, angle, normalize, inverse, project and reflect are compatible with every map that keeps lengths and angles, also where they have no finite value, and from_vectors of rotated vectors is the conjugated rotor.", "quantifier": "all maps of space, all unit rotors, all vectors", "why_tests_cant": "a statement about all maps of space: completeness of the rotor representation cannot be sampled", "anchors": ["src/math/rotor.rs:57-91", "src/math/rotor.rs:169-204", "src/math/rotor.rs:269-291", "src/math/vector.rs:106-174"]}
{"id": "C139", "title": "Planar drawings through existing nodes", "statement": "A history of adding and removing nodes and edges yields planar drawings, without parallel edges and loops, also if its edges are drawn through existing nodes, provided every node passed has exactly one edge when it is passed: in exact arithmetic for edges without near misses and overlaps, and in f32 as computed for histories on the small grids of C90, where an edge need only meet each other edge in at most one point, which is a node or on no other edge. After such a history in f32, one more edge through any nodes adds exactly its segment to the picture, leaves a passed node lying on an edge exactly if that node does not have exactly one edge, and yields a planar drawing if and only if every passed node has exactly one edge.", "quantifier": "all histories, all such segments; f32 on grids and exact arithmetic", "why_tests_cant": "the condition is on every intermediate graph of every history; tests see single pictures", "anchors": ["src/graph/planar_graph.rs:180-239", "src/graph/planar_graph.rs:260-490", "src/geometry/utils.rs:172-194"]}
{"id": "C140", "title": "The order of removals does not matter", "statement": "From a graph whose edges end at existing nodes, without loops or parallel edges, any sequence of remove_node and remove_edge calls that does not panic leaves the nodes in their old order except those that had edges and lost all of them, together with the surviving edges under the new node indices. What is left is therefore determined, up to the slots of the edges, by which edges survive: removing the same edges in any order gives the same graph up to edge slots, and remove_node(i) gives the same graph as removing the edges at i one by one. Calling remove_edge(0) as often as there are edges never panics and leaves exactly the nodes that had no edge. Whether a call panics does depend on the order, and with parallel edges remove_node and removing the edges one by one differ.", "quantifier": "all graphs that are valid and have no loops or parallel edges; all sequences of removals; all permutations of the removed edges; any arithmetic", "why_tests_cant": "There are exponentially many sequences of removals of a graph, and the slots named by the calls change with every swap_remove and renumbering; a test follows one of them.", "anchors": ["src/graph/planar_graph.rs:369-408", "src/graph/planar_graph.rs:412-484", "src/graph/planar_graph.rs:491-515"]}
{"id": "C141", "title": "A drawing can be built again from its nodes and edges", "statement": "Take a graph and call add_node once for each of its nodes and then add_edge once for each of its edges, in the order of the slots, starting from the empty graph. In exact arithmetic this gives the same graph back, with the same slots, directions and data, whenever the graph is a planar drawing with nodes more than epsilon apart and no node within the tolerance of an edge; so the histories of unambiguous calls lead exactly to these drawings. In f32 it gives the same graph back bit for bit after every history of C139 on the grids of C90, and for every drawing with room to spare (C119). All labels of any graph a caller can hold are the default one. With parallel edges (which can arise from overlapping edges) the graph is not rebuilt: add_edge refuses the second edge.", "quantifier": "all well-drawn graphs (exact); all histories on the grids of C90, and all drawings of any size with room to spare (f32); all node and edge data", "why_tests_cant": "A test rebuilds one drawing; that no call of the second history snaps to another node, splits an edge or finds a crossing has to hold for every pair of edges of every drawing and every prefix.", "anchors": ["src/graph/planar_graph.rs:180-198", "src/graph/planar_graph.rs:204-237", "src/graph/planar_graph.rs:119-127"]}
{"id": "C142", "title": "Nodes and edges may be added in any order", "statement": "Let two histories of add_node and add_edge calls start from the same graph and ask for the same points and for the same segments, in any order (a call to add_edge between joined or missing nodes asks for nothing). If every call is unambiguous in the sense of C139, both draw the same: the same points are nodes and the same pairs of points are joined. What is drawn is determined by what was asked for: the edges cover the old edges and the segments; the nodes are the old ones, the points asked for, and the common points of a segment with an old edge or with another segment. This holds in exact arithmetic and in f32 on the grids of C90; slot numbers, directions and data may differ. The restriction matters: a node without edges added before a segment that runs across it does not split it, the same node added afterwards does.", "quantifier": "all pairs of histories of additions that meet C139 and ask for the same strokes, from any graph built so; exact arithmetic, and f32 on the grids of C90; all data", "why_tests_cant": "There are factorially many orders of the calls, each with different intermediate graphs, splits and returned indices; a test compares two of them.", "anchors": ["src/graph/planar_graph.rs:180-198", "src/graph/planar_graph.rs:204-237", "src/graph/planar_graph.rs:298-366"]}
{"id": "C143", "title": "The calls are operations on sets of points; slots do not matter", "statement": "Describe a drawing by two sets: the points that are nodes and the points that edges cover. Then each unambiguous call (C139) acts on these sets alone: add_node adds its point unless a node is closer than epsilon; add_edge adds the segment to the covered points and adds as nodes its points that were covered before (nothing changes if the nodes are joined already); remove_edge uncovers the segment except what other edges cover, and drops those ends that are not covered any more; remove_node does so for all edges at the node and drops the node. Two nodes are joined exactly if the segment between them is covered and has no other node on it. Hence the effect of any history of calls, also with removals, can be computed from the points it names, and on two graphs with the same drawing, with any numbering of slots, directions and data, calls naming the same points lead to the same drawing. In exact arithmetic, and in f32 on the grids of C90. Only whether a removal panics depends on the slots.", "quantifier": "all histories of the four mutating calls whose additions are unambiguous, on all drawings; exact arithmetic, and f32 on the grids of C90", "why_tests_cant": "Quantifies over all histories and over all numberings of the slots of every intermediate graph; a test fixes one history and one numbering.", "anchors": ["src/graph/planar_graph.rs:180-198", "src/graph/planar_graph.rs:204-237", "src/graph/planar_graph.rs:369-410", "src/graph/planar_graph.rs:412-489"]}
{"id": "C144", "title": "Off the grids, f32 calls are operations on sets of points up to rounding", "statement": "On drawings with room to spare (coordinates up to M, distances at least dl, crossings at angles bounded by K, in the sense of C126), every history of the four mutating calls in f32 ends with a graph that has the edges, slot by slot, of a drawing of exactly the points that the words of the history make of the first drawing (C143), with each node within a computed drift of its exact place. Two f32 graphs with the same drawing but other slots, directions and data, on which calls name the same points, end alike: nodes and edges correspond one to one, with nodes no further apart than twice the drift. And nodes and segments may be added in any order (C142) with the same effect up to twice the drift.", "quantifier": "all f32 graphs and all histories of the four mutating calls whose exact drawings have room to spare, and all numberings of slots", "why_tests_cant": "Quantifies over all histories, numberings of slots and orders of additions, and bounds the difference for all of them; a test compares two runs.", "anchors": ["src/graph/planar_graph.rs:180-198", "src/graph/planar_graph.rs:204-237", "src/graph/planar_graph.rs:298-366", "src/graph/planar_graph.rs:369-410", "src/graph/planar_graph.rs:412-489"]}
{"id": "C145", "title": "Edges drawn along existing edges", "statement": "In exact arithmetic, let add_edge draw a segment between two non-adjacent nodes of a well-drawn graph that may pass through nodes and run along existing edges, but has no near misses. Then the picture gains exactly the segment, and new nodes stand exactly at its crossings, outside the nodes, with edges not parallel to it. The new edge is split at a node it passes exactly if exactly one edge at that node is not parallel to the segment; edges of the result run through no other nodes. An edge along which the segment runs is not noticed: every point of it is covered by two edges of the result, and two edges of the result meet outside common ends only there or in an unsplit passed node. Hence the result is a planar drawing if and only if the segment runs along no edge and every passed node has exactly one edge; the segments of C137 are those that run along no edge.", "quantifier": "all well-drawn graphs, all segments without near misses between distinct non-adjacent nodes", "why_tests_cant": "overlapping edges arise for every length and position of the overlap; a test sees one picture and the covered set looks right", "anchors": ["src/graph/planar_graph.rs:204-239", "src/graph/planar_graph.rs:260-366", "src/geometry/utils.rs:66-82", "src/geometry/utils.rs:172-194"]}
{"id": "C146", "title": "Drawings in which edges run through nodes", "statement": "In exact arithmetic, call a graph loosely drawn if nodes are further apart than EPSILON, a node in the needle of an edge lies on it, and two edges meet only in nodes; edges may run through nodes. Every history of additions from the empty graph in which nodes get good places and edges are unambiguous gives a loosely drawn graph, and its picture is planar exactly if no edge runs through a node. In a loosely drawn graph add_edge adds exactly its segment to the picture, creates nodes exactly at the points of the segment on edges that are no nodes, and afterwards an edge runs through a node exactly if one did before or the segment passes it, and the node is not on exactly one edge not parallel to the segment. So a node on a single edge that runs through it is repaired by the first edge that reaches it from elsewhere; but a node that an edge runs through and whose edges go in three directions keeps an edge running through it in every further history. add_node changes neither the picture nor which nodes have edges running through them.", "quantifier": "all loosely drawn graphs, all unambiguous segments, all histories of additions of any length", "why_tests_cant": "whether an unsplit node is repaired depends on all edges there and on everything drawn later; no finite set of drawings covers it", "anchors": ["src/graph/planar_graph.rs:180-200", "src/graph/planar_graph.rs:204-239", "src/graph/planar_graph.rs:260-366", "src/geometry/utils.rs:172-194"]}
{"id": "C147", "title": "Edges running through nodes in f32 on grids", "statement": "On the grids of C90, in f32: every history of additions whose requested edges exist already, have a missing end, or share at most one point with each edge gives a loosely drawn graph (C146), which is planar exactly if no edge runs through a node. After such a history add_edge adds exactly its segment to the picture, the nodes become the old ones and the points of the segment on edges, and the nodes with an edge running through them are given by the rule of C146; add_node adds its point and changes nothing else; and a node that an edge runs through and whose edges go in three directions keeps an edge running through it in every such continuation.", "quantifier": "all grids and histories of C90 with additions only, of any length, all f32 libm functions", "why_tests_cant": "f32 histories are unbounded; the unsplit nodes arise from the order of the requests", "anchors": ["src/graph/planar_graph.rs:180-200", "src/graph/planar_graph.rs:204-239", "src/graph/planar_graph.rs:260-366", "src/geometry/utils.rs:172-194"]}
{"id": "C148", "title": "Removals where edges run through nodes", "statement": "Let edges run through nodes as in C146 and let remove_node or remove_edge return. The nodes that stay are the others than the removed node and the ends left without an edge; the picture becomes the union of the remaining edges; and remaining edges run through remaining nodes exactly where they did. The result is loosely drawn again if and only if no deleted node is one that two of the remaining edges run through; if there is one, the two edges are left crossing at a point that is no node. Every history of additions as in C146 and removals that delete no such node gives a loosely drawn graph, in exact arithmetic, and in f32 on the grids of C90, where the result is planar exactly if no edge runs through a node.", "quantifier": "all loosely drawn graphs, all removals that return, all histories of any length", "why_tests_cant": "the lost crossing needs two unsplit edges through one node followed by its removal; tests of single calls do not reach it", "anchors": ["src/graph/planar_graph.rs:369-408", "src/graph/planar_graph.rs:412-484", "src/graph/planar_graph.rs:491-515", "src/graph/planar_graph.rs:180-200", "src/graph/planar_graph.rs:204-239"]}
{"id": "C149", "title": "Order of drawing where edges run through nodes", "statement": "Two histories of additions as in C146 that ask for the same nodes and the same segments, in any order and each segment from either end, give graphs with the same node positions and the same picture. The edges may differ, but the number of edges plus the number of pairs of an edge and a node it runs through is the same for both; so the histories differ only in which edges are left unsplit at which nodes. If in neither result an edge runs through a node, the edges are the same up to numbering and direction; in particular C142 holds with segments drawn from either end. In exact arithmetic, and in f32 on the grids of C90.", "quantifier": "all loosely drawn graphs, all pairs of histories of any length with the same strokes", "why_tests_cant": "which edges are left unsplit depends on the whole order of the calls; a test fixes one order and cannot count what all orders have in common", "anchors": ["src/graph/planar_graph.rs:180-200", "src/graph/planar_graph.rs:204-239", "src/graph/planar_graph.rs:242-366"]}
{"id": "C150", "title": "Exactly which f32 histories stay planar", "statement": "On the grids of C90, in f32: let a history of add_node, add_edge, remove_node and remove_edge calls start from the empty graph. The graph after every call is a planar drawing if and only if every add_edge call is for an edge that exists already, has a missing end, or runs along no edge and passes only nodes with exactly one edge. After such a history any further add_edge between existing non-adjacent nodes, whatever it meets, adds exactly its segment to the picture and exactly its crossings with edges not parallel to it to the nodes; it is split at a passed node exactly if exactly one edge there is not parallel to it; every edge it runs along is then covered twice; and the result is planar exactly if it runs along no edge and each passed node has one edge.", "quantifier": "all grids of C90, all f32 histories of any length on them, all further edges", "why_tests_cant": "a necessary and sufficient condition: both the histories that stay planar and those that do not are infinitely many, and the edges that spoil planarity do not panic or change the look of the picture", "anchors": ["src/graph/planar_graph.rs:180-200", "src/graph/planar_graph.rs:204-239", "src/graph/planar_graph.rs:242-366", "src/graph/planar_graph.rs:369-515", "src/geometry/utils.rs:66-82", "src/geometry/utils.rs:172-194"]}
{"id": "C151", "title": "Exactly which histories stay planar in exact arithmetic", "statement": "In exact arithmetic, off the grids: let a history of add_node, add_edge, remove_node and remove_edge calls start from the empty graph, with nodes added at good places and every requested edge between two different nodes that exists already, has a missing end, or has no near misses (C145). The graph after every call is a planar drawing if and only if every add_edge call is for an edge that exists already, has a missing end, or runs along no edge and passes only nodes with exactly one edge. In particular a single add_edge between existing non-adjacent nodes of a planar drawing, without near misses, leaves a planar drawing exactly if it runs along no edge and passes only nodes with exactly one edge.", "quantifier": "all drawings with real coordinates, all histories of any length without near misses, all requested edges", "why_tests_cant": "a necessary and sufficient condition over all real-valued drawings; the edges that spoil planarity neither panic nor change the look of the picture", "anchors": ["src/graph/planar_graph.rs:180-200", "src/graph/planar_graph.rs:204-239", "src/graph/planar_graph.rs:242-366", "src/graph/planar_graph.rs:369-515", "src/geometry/utils.rs:66-82", "src/geometry/utils.rs:172-194"]}
{"id": "C152", "title": "Loops do not take part in splitting", "statement": "Call an edge from a node to itself a loop. add_edge(s, s, data) for an existing node s without a loop appends the edge (s, s) with that data, reports no new nodes and exactly the new slot, and changes nothing else; for a node that has a loop, or does not exist, it changes nothing. add_node and add_edge between different nodes treat a graph exactly as if its loops were not there: with the loops left out they make the same nodes at the same indices and leave the same graph without the loops, and they never split, move, create or drop a loop. So leaving the requests for loops out of any history of additions yields the same graph without the loops, every loop of the result was there or was requested, and which edges get split at a passed node is decided by the edges that are not loops (on the grids of C90 the drawing without the loops is planar if the other requests are clear in the sense of C150). This holds in f32 for all coordinates, including infinities and NaN. Removals do see loops: a neighbour with a loop is not removed along with its last other edge.", "quantifier": "all graphs (not only reachable ones), exact and f32 arithmetic, all coordinates, all histories of additions of any length", "why_tests_cant": "an equality of two runs for all graphs and coordinates, resting on 0/0 = NaN and on 2x > x in f32 for every x above epsilon", "anchors": ["src/graph/planar_graph.rs:180-200", "src/graph/planar_graph.rs:204-239", "src/graph/planar_graph.rs:242-293", "src/graph/planar_graph.rs:298-366", "src/geometry/utils.rs:66-82", "src/geometry/utils.rs:121-133"]}
{"id": "C153", "title": "Edges between nodes not a finite distance apart do not take part in splitting", "statement": "In f32, for any graph whose edges name existing nodes: call two nodes apart if the difference of their x or of their y coordinates is infinite or NaN, because a coordinate is or because the difference of finite coordinates overflows. add_edge between nodes that are apart and not yet adjacent appends that edge, reports no new nodes and exactly the new slot, and changes nothing else, whatever the edge passes or crosses. add_node (at any position, finite or not) and add_edge between nodes that are not apart treat the graph exactly as if the edges between nodes that are apart were not there: with them left out they make the same nodes at the same indices and leave the same graph without them, and they never split, create, move or drop such an edge. So leaving the requests for such edges out of any history of additions yields the same graph without them: infinities, NaN and overflow never leak into the rest of the drawing.", "quantifier": "all valid graphs with any f32 coordinates, all histories of additions of any length", "why_tests_cant": "an equality of two runs for all graphs and all bit patterns of the coordinates; overflow makes every comparison in the geometry silently false rather than panic", "anchors": ["src/graph/planar_graph.rs:180-200", "src/graph/planar_graph.rs:204-239", "src/graph/planar_graph.rs:242-293", "src/graph/planar_graph.rs:298-366", "src/geometry/utils.rs:66-82", "src/geometry/utils.rs:121-133"]}
{"id": "C154", "title": "Data and labels are carried, never read", "statement": "In every arithmetic and for all data types: applying any functions to the data of all nodes and edges (changing their types if wanted), and to their labels (leaving the default label as it is), commutes with every call of add_node, add_edge, remove_node and remove_edge, panics and reports included, and hence with every history. So which nodes and edges a call makes, splits, moves or removes, what it reports and whether it panics depends on positions and indices only: two histories that differ in the data only, possibly of different types, both panic or lead to graphs that differ in the data only.", "quantifier": "all arithmetics, data types, functions on data and labels, graphs (not only reachable ones) and histories of any length", "why_tests_cant": "a relation between the runs of a generic program at all types and all functions between them; labels are a concrete type, so the Rust type checker does not give it either", "anchors": ["src/graph/planar_graph.rs:15-24", "src/graph/planar_graph.rs:41-53", "src/graph/planar_graph.rs:180-200", "src/graph/planar_graph.rs:204-239", "src/graph/planar_graph.rs:242-293", "src/graph/planar_graph.rs:298-366", "src/graph/planar_graph.rs:369-408", "src/graph/planar_graph.rs:412-484", "src/graph/planar_graph.rs:491-515"]}
{"id": "C155", "title": "Edges that a call does not meet may be left out", "statement": "In every arithmetic, for any choice of edges to leave out: if no node of the graph counts as lying on a chosen edge, and neither does the point of the new node (add_node), or no crossing of the requested edge with any edge does, the chosen edge itself is not crossed and does not join the two nodes (add_edge), then the call on the graph without the chosen edges succeeds whenever the call on the full graph does, makes the same nodes, and gives the same graph without the chosen edges; the chosen edges keep their order, ends, data and labels. The same holds for series of additions. In exact arithmetic it suffices that a chosen edge and the segment between the two nodes have no common point, and that neither this segment nor a node comes into the thin needle around the chosen edge in which points count as lying on it. Leaving out an edge that is met does change the result.", "quantifier": "all arithmetics, graphs, selections of edges, calls meeting the conditions, and histories of additions of any length", "why_tests_cant": "quantifies over all graphs, all subsets of their edges and all calls; a local change that must be the same in every surrounding", "anchors": ["src/graph/planar_graph.rs:180-200", "src/graph/planar_graph.rs:204-239", "src/graph/planar_graph.rs:242-293", "src/graph/planar_graph.rs:298-366", "src/geometry/utils.rs:172-194"]}
{"id": "C156", "title": "Removals look at indices only", "statement": "In every arithmetic: replacing every node by any other (other positions, NaN included, other data and labels, even in another arithmetic) while the edges keep their ends commutes with remove_node and remove_edge, panics and reports included, and with every series of them; node_count, edge_count, number_of_edges_incident_to, has_edge_between_nodes, has_node_at_index and has_edge_at_index do not change. So two graphs with equally many nodes whose edges join the same slots, wherever their nodes are, both panic or have edges joining the same slots after the same removals. Additions do look at positions.", "quantifier": "all arithmetics, graphs (not only reachable ones), replacements of the nodes, and series of removals of any length", "why_tests_cant": "relates the runs on two graphs for all replacements of the nodes, also between arithmetics", "anchors": ["src/graph/planar_graph.rs:110-117", "src/graph/planar_graph.rs:139-156", "src/graph/planar_graph.rs:160-165", "src/graph/planar_graph.rs:369-408", "src/graph/planar_graph.rs:412-484", "src/graph/planar_graph.rs:491-515"]}
{"id": "C157", "title": "The order of the edge slots", "statement": "In every arithmetic, for two graphs with the same nodes in the same slots and the same edges in any order: add_node and remove_node both panic or both succeed, report the same node (nodes), and lead again to graphs that differ in the order of the edges only. Removing the same edge from both, from whatever slots, does so too if neither call panics. Counts, degrees, has_edge_between_nodes and the node positions agree. The exceptions are exactly visible: add_edge numbers the new nodes in the order of the slots it crosses, and remove_edge panics on the last slot when no end becomes stray, so there the order does matter.", "quantifier": "all arithmetics, graphs (remove_edge: valid graphs), orders of the edges, and calls", "why_tests_cant": "quantifies over all graphs and all permutations of their edges; the slot order is an artefact of the history which tests fix", "anchors": ["src/graph/planar_graph.rs:148-156", "src/graph/planar_graph.rs:160-165", "src/graph/planar_graph.rs:180-200", "src/graph/planar_graph.rs:242-293", "src/graph/planar_graph.rs:369-408", "src/graph/planar_graph.rs:412-484", "src/graph/planar_graph.rs:491-515"]}
{"id": "C158", "title": "The direction of the edges", "statement": "For two graphs with the same nodes in the same slots and the same edges in any order and any direction (source and destination exchanged): add_node (in f32, in exact arithmetic and in every arithmetic with the order laws) and remove_node (in every arithmetic) both panic or both succeed, report the same node (nodes), and lead again to graphs that differ in the order and direction of the edges only. Removing the same edge from both, from whatever slots and in whatever direction, does so too if neither call panics; this includes an edge that stands alone, where the direction decides which end is removed first. Counts, degrees, has_edge_between_nodes and the node positions agree. add_edge in f32 is different: the computed position of a crossing can depend in the last bits on the direction of the edge that is cut.", "quantifier": "all graphs (not only reachable ones; remove_edge: valid graphs), orders and directions of the edges, points and indices", "why_tests_cant": "quantifies over all graphs and all reorderings and reversals of their edges, in floating point bit for bit", "anchors": ["src/graph/planar_graph.rs:41-53", "src/graph/planar_graph.rs:148-156", "src/graph/planar_graph.rs:160-165", "src/graph/planar_graph.rs:180-200", "src/graph/planar_graph.rs:242-293", "src/graph/planar_graph.rs:369-408", "src/graph/planar_graph.rs:412-484", "src/graph/planar_graph.rs:491-515", "src/geometry/utils.rs:121-133"]}
{"id": "C159", "title": "Exactly which nodes add_edge makes", "statement": "Between two existing nodes that are not yet joined add_edge succeeds, the old nodes keep their slots and the nodes appended after them are exactly these, in the order of the edge slots: the computed intersections of the new segment with the edges, without those that have another computed intersection within epsilon, and without those that have a node nearer than epsilon. Each has default data and the default label, and the call reports exactly their indices, in order. Nothing else gets a node and none of these is left out; in particular points made earlier in the same call never stop a later one from being made. For two graphs that differ in the order of the edges only, both calls report the same node indices and the nodes afterwards are the same up to order.", "quantifier": "all graphs with valid edges (not only reachable ones), node pairs, data; f32, exact arithmetic and every arithmetic with the order laws", "why_tests_cant": "an equality of the whole node list for every graph, in floating point bit for bit; tests see single configurations", "anchors": ["src/graph/planar_graph.rs:204-238", "src/graph/planar_graph.rs:298-365", "src/geometry/utils.rs:66-81", "src/geometry/utils.rs:137-163", "src/geometry/utils.rs:167-195"]}
