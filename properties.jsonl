{"id": "C01", "title": "divide_into_shapes is total", "statement": "divide_into_shapes returns normally (no assertion failure, no out-of-range bit access, no endless loop) whatever edge list it is given, including empty, odd-length, duplicated, self-looped and disconnected lists.", "quantifier": "every list of vertex indices", "why_tests_cant": "the panics and endless loops would hide in graph topologies nobody thought of; only an argument over all graphs excludes them", "anchors": ["src/shape.rs: divide_into_shapes", "src/shape.rs: unwind_line"]}
{"id": "C02", "title": "divide_into_shapes only follows input edges", "statement": "Every pair of consecutive indices in every returned shape is an edge (in one direction or the other) of the input list, provided no input edge joins a vertex to itself.", "quantifier": "every edge list without self-loops", "why_tests_cant": "a bogus edge needs a specific adjacency pattern; a finite set of graphs cannot cover all of them", "anchors": ["src/shape.rs: divide_into_shapes", "src/shape.rs: unwind_line"]}
{"id": "C03", "title": "divide_into_shapes uses every edge exactly once", "statement": "Every distinct undirected input edge occurs exactly once among the consecutive pairs of all returned shapes: nothing is lost and duplicates are removed (no self-loops in the input).", "quantifier": "every edge list without self-loops", "why_tests_cant": "losing or repeating an edge depends on visiting order over arbitrary graphs", "anchors": ["src/shape.rs: divide_into_shapes"]}
{"id": "C04", "title": "shapes are maximal chains", "statement": "In every returned shape all interior vertices have exactly two distinct neighbours in the input, and either the shape is a closed loop or both its ends are vertices that do not have exactly two neighbours (no self-loops).", "quantifier": "every edge list without self-loops", "why_tests_cant": "maximality is a statement about all chains of all graphs", "anchors": ["src/shape.rs: divide_into_shapes", "src/shape.rs: termination_candidate_nodes"]}
{"id": "C05", "title": "divide_into_shapes bit vector", "statement": "The returned bit vector has one bit per vertex id from 0 to the highest id, and a bit is set exactly when that vertex has exactly two neighbours (unconnected and junction vertices are false) (no self-loops).", "quantifier": "every edge list without self-loops", "why_tests_cant": "whether every chain vertex gets visited depends on the whole traversal", "anchors": ["src/shape.rs: divide_into_shapes", "src/shape.rs: SetVob"]}
{"id": "C06", "title": "divide_into_shapes with self-loops", "statement": "With self-loop edges allowed the edge-soundness and completeness guarantees would have to hold as well.", "quantifier": "every edge list", "why_tests_cant": "the failing graphs are rare; a proof either excludes them or exhibits one", "anchors": ["src/shape.rs: divide_into_shapes"]}
{"id": "C07", "title": "RDP keeps a subsequence with both ends", "statement": "simplify_rdp (2D and 3D) terminates and returns a subsequence of the input points, in order, beginning with the first point and ending with the last one; inputs of at most two points come back unchanged. Holds for any coordinates including NaN and infinities.", "quantifier": "every point list, every tolerance, every scalar type", "why_tests_cant": "recursion splits depend on arbitrary coordinates and NaN comparisons", "anchors": ["src/linestring_2d/simplify.rs: simplify_rdp_recursive", "src/linestring_2d.rs: simplify_rdp", "src/linestring_3d/simplify.rs: simplify_rdp"]}
{"id": "C08", "title": "RDP respects the tolerance (2D)", "statement": "Every input point of a 2D polyline lies within the given distance of some segment of the simplified polyline (exact arithmetic).", "quantifier": "every list of real points and every tolerance", "why_tests_cant": "a distance bound over all polylines", "anchors": ["src/linestring_2d/simplify.rs: simplify_rdp_recursive", "src/linestring_2d.rs: distance_to_line_squared_safe"]}
{"id": "C09", "title": "RDP is idempotent", "statement": "Simplifying an already simplified polyline with the same tolerance changes nothing.", "quantifier": "every point list and tolerance with totally ordered distances", "why_tests_cant": "depends on tie-breaking of the farthest point for every polyline", "anchors": ["src/linestring_2d/simplify.rs: simplify_rdp_recursive"]}
{"id": "C10", "title": "RDP drops only redundant points", "statement": "A polyline none of whose interior points may be dropped is unchanged, and with tolerance zero only points that lie exactly on the retained polyline are dropped (2D, exact arithmetic).", "quantifier": "every list of real points", "why_tests_cant": "quantifies over all polylines", "anchors": ["src/linestring_2d/simplify.rs: simplify_rdp_recursive"]}
{"id": "C11", "title": "indexed RDP agrees with RDP", "statement": "indexed_simplify_rdp (2D and 3D) selects exactly the vertices simplify_rdp would keep for the polyline spelled by the indices; its result is a subsequence of the index list.", "quantifier": "every vertex buffer with at least three vertices, every valid index list with at least two entries, every tolerance", "why_tests_cant": "relates two implementations on all inputs", "anchors": ["src/linestring_2d/simplify.rs: indexed_simplify_rdp", "src/linestring_3d/simplify.rs: indexed_simplify_rdp"]}
{"id": "C12", "title": "indexed RDP on degenerate index lists", "statement": "indexed_simplify_rdp returns a subsequence of the index list also for empty and one-element lists, and also when the vertex buffer has fewer than three vertices.", "quantifier": "every vertex buffer and index list", "why_tests_cant": "boundary cases interact with the size of the vertex buffer, not of the index list", "anchors": ["src/linestring_2d/simplify.rs: indexed_simplify_rdp"]}
{"id": "C13", "title": "RDP respects the tolerance (3D)", "statement": "Every input point of a 3D polyline lies within the given distance of some segment of the simplified polyline.", "quantifier": "every list of real 3D points and every tolerance", "why_tests_cant": "a distance bound over all polylines", "anchors": ["src/linestring_3d/simplify.rs: simplify_rdp_recursive", "src/linestring_3d.rs: distance_to_line_squared_safe"]}
{"id": "C14", "title": "VW removes exactly the requested number of points", "statement": "simplify_vw (2D) removes exactly min(points_to_delete, available) points, where available is n-4 for an open line of n>=4 points, 1 for an open line of three points, and n-3 for a closed one; lists of up to two points are unchanged.", "quantifier": "every polyline with comparable areas, every count, every tie-breaking of the heap", "why_tests_cant": "the lazy-deletion heap must never skip or double-delete, for every sequence of areas", "anchors": ["src/linestring_2d/simplify.rs: simplify_vw"]}
{"id": "C15", "title": "VW keeps a subsequence and the end points", "statement": "simplify_vw (2D) returns a subsequence of the input that starts with the first point, and for an open line ends with the last point.", "quantifier": "every polyline, every count, every heap order", "why_tests_cant": "quantifies over all inputs and heap orders", "anchors": ["src/linestring_2d/simplify.rs: simplify_vw"]}
{"id": "C16", "title": "VW is the greedy smallest-area algorithm", "statement": "simplify_vw (2D) behaves as: repeatedly delete a vertex whose triangle with its current neighbours has the smallest area among all deletable vertices.", "quantifier": "every polyline with comparable areas, every count, every heap order", "why_tests_cant": "stale heap entries must never be mistaken for current ones in any run", "anchors": ["src/linestring_2d/simplify.rs: simplify_vw"]}
{"id": "C17", "title": "VW keeps closed lines closed", "statement": "simplify_vw (2D) of a closed line string is closed.", "quantifier": "every closed polyline and count", "why_tests_cant": "needs the area ordering to reach the closing vertex", "anchors": ["src/linestring_2d/simplify.rs: simplify_vw"]}
{"id": "C18", "title": "VW never panics on finite areas", "statement": "simplify_vw (2D) never indexes out of range and never fails, provided no triangle area is NaN.", "quantifier": "every polyline, every count", "why_tests_cant": "out-of-range indices would only show up for particular deletion orders", "anchors": ["src/linestring_2d/simplify.rs: simplify_vw", "src/linestring_2d/impls.rs: PriorityDistance"]}
{"id": "C19", "title": "VW in 3D", "statement": "simplify_vw (3D) returns a subsequence starting at the first point, is the greedy smallest-area algorithm on the interior points, deletes exactly min(points_to_delete, n-2) of them, and keeps the last point.", "quantifier": "every 3D polyline with comparable areas, every count, every heap order", "why_tests_cant": "quantifies over all inputs and heap orders", "anchors": ["src/linestring_3d/simplify.rs: simplify_vw"]}
{"id": "C20", "title": "AABB contains its points", "statement": "After building or updating an Aabb2/Aabb3 with any sequence of points and boxes, contains_point_inclusive is true for every point added so far, and contains_aabb_inclusive for every non-empty box added.", "quantifier": "every sequence of updates with comparable coordinates", "why_tests_cant": "over all update histories", "anchors": ["src/linestring_2d.rs: Aabb2", "src/linestring_3d.rs: Aabb3"]}
{"id": "C21", "title": "AABB is the smallest box", "statement": "The corners of the box are coordinates of added points: low is the per-axis minimum and high the per-axis maximum, so any box containing the points contains the AABB.", "quantifier": "every sequence of updates with comparable coordinates", "why_tests_cant": "over all update histories", "anchors": ["src/linestring_2d.rs: Aabb2::update_with_point", "src/linestring_2d.rs: Aabb2::update_with_points", "src/linestring_3d.rs: Aabb3::update_with_point"]}
{"id": "C22", "title": "AABB updates are order independent", "statement": "with_points, repeated update_with_point, update_with_points in any chunks, and merging boxes with update_with_aabb give the same box, for every order of the same points.", "quantifier": "every permutation and partition of every point list", "why_tests_cant": "the number of orders is unbounded", "anchors": ["src/linestring_2d.rs: Aabb2", "src/linestring_3d.rs: Aabb3"]}
{"id": "C23", "title": "AABB outline", "statement": "The outline of an Aabb2 (convex_hull or conversion to a line string) is a closed counter-clockwise rectangle, and for a box with positive width and height containment in that outline (as a convex hull) is the same as containment in the box (exact arithmetic).", "quantifier": "every box, every point", "why_tests_cant": "for all real boxes and points", "anchors": ["src/linestring_2d.rs: Aabb2::convex_hull", "src/linestring_2d/impls.rs: From<Aabb2> for Vec"]}
{"id": "C24", "title": "degenerate AABB outline", "statement": "Containment in the outline of an Aabb2 equals containment in the box also for boxes of zero width or height.", "quantifier": "every degenerate box, every point", "why_tests_cant": "for all boxes and points", "anchors": ["src/linestring_2d.rs: Aabb2::convex_hull", "src/linestring_2d/convex_hull.rs: contains_point_inclusive"]}
{"id": "C25", "title": "affine transforms are inverse", "statement": "transform_ba(transform_ab(p)) = p and transform_ab(transform_ba(p)) = p for a transform built by SimpleAffine::new (exact arithmetic), and the four-scalar array variants transform the two embedded points exactly as the point variants do.", "quantifier": "every pair of non-empty boxes, every point", "why_tests_cant": "for all real inputs", "anchors": ["src/linestring_2d.rs: SimpleAffine"]}
{"id": "C26", "title": "affine fit", "statement": "SimpleAffine::new maps the centre of the source box to the centre of the destination box and every point of the source box into the destination box (exact arithmetic), when the destination is at least one unit wide and high.", "quantifier": "every pair of non-empty boxes", "why_tests_cant": "for all real inputs", "anchors": ["src/linestring_2d.rs: SimpleAffine::new"]}
{"id": "C27", "title": "affine never returns non-finite points", "statement": "transform_ab, transform_ba and the array variants return Ok only with finite coordinates, and SimpleAffine::new fails exactly when one of the boxes is empty.", "quantifier": "every transform, every point, every scalar including NaN and infinities", "why_tests_cant": "all IEEE inputs", "anchors": ["src/linestring_2d.rs: SimpleAffine"]}
{"id": "C28", "title": "affine fit for tiny destinations", "statement": "The source box is mapped into the destination box for every non-empty destination box.", "quantifier": "every pair of non-empty boxes", "why_tests_cant": "for all real inputs", "anchors": ["src/linestring_2d.rs: SimpleAffine::new"]}
{"id": "C29", "title": "segment intersection is correct", "statement": "Line2::intersection_point returns None exactly when the two segments share no point; Intersection(p) exactly when p is their only common point; Overlap(s) exactly when their common points form the non-degenerate segment s (exact arithmetic, including point-like segments).", "quantifier": "every pair of real segments", "why_tests_cant": "all relative positions of two segments, including every degenerate one", "anchors": ["src/linestring_2d.rs: Line2::intersection_point", "src/linestring_2d.rs: intersect_line_point"]}
{"id": "C30", "title": "segment intersection is symmetric", "statement": "Swapping the two segments or the ends of either never changes whether an intersection is found, nor the set of points it describes (exact arithmetic).", "quantifier": "every pair of real segments", "why_tests_cant": "all pairs", "anchors": ["src/linestring_2d.rs: Line2::intersection_point"]}
{"id": "C31", "title": "point on segment", "statement": "intersect_line_point reports an intersection exactly when the point lies on the segment, and then returns that point (exact arithmetic).", "quantifier": "every real segment and point", "why_tests_cant": "all inputs", "anchors": ["src/linestring_2d.rs: intersect_line_point"]}
{"id": "C32", "title": "point to segment distance", "statement": "distance_to_line_squared_safe (2D) is the squared distance from the point to the nearest point of the segment (exact arithmetic).", "quantifier": "every real segment and point", "why_tests_cant": "minimum over a continuum", "anchors": ["src/linestring_2d.rs: distance_to_line_squared", "src/linestring_2d.rs: distance_to_line_squared_safe"]}
{"id": "C33", "title": "point to line distance in 3D", "statement": "distance_to_line_squared_safe (3D) is the squared distance from the point to the infinite line through two distinct points (exact arithmetic).", "quantifier": "every real segment and point", "why_tests_cant": "minimum over a continuum", "anchors": ["src/linestring_3d.rs: distance_to_line_squared", "src/linestring_3d.rs: distance_to_line_squared_safe"]}
{"id": "C34", "title": "ray against edge", "statement": "ray_edge_intersection returns Some(t) for a non-parallel edge exactly when origin + t*dir is on the edge and t >= 0; for a collinear edge it returns the smaller of the parameters of the two edge ends (exact arithmetic).", "quantifier": "every ray with non-zero direction and every edge", "why_tests_cant": "all inputs", "anchors": ["src/linestring_2d.rs: ray_edge_intersection"]}
{"id": "C35", "title": "closest ray intersection", "statement": "closest_ray_intersection returns a point on the line string in front of the ray, and no edge that is not parallel to the ray is hit at a smaller positive parameter; it returns None only if no non-parallel edge is hit in front (exact arithmetic).", "quantifier": "every line string, every ray with non-zero direction", "why_tests_cant": "all inputs", "anchors": ["src/linestring_2d.rs: closest_ray_intersection"]}
{"id": "C36", "title": "line string against line", "statement": "find_all_intersections returns the intersections of exactly the edges that meet the line, in edge order; intersection returns the first of them; find_two_intersections returns the first two distinct points.", "quantifier": "every line string, every line, every scalar", "why_tests_cant": "relates three loops on all inputs", "anchors": ["src/linestring_2d.rs: find_all_intersections", "src/linestring_2d.rs: intersection", "src/linestring_2d.rs: find_two_intersections"]}
{"id": "C37", "title": "straight lines are not self-intersecting", "statement": "is_self_intersecting is false for a straight line string of distinct points visited in order.", "quantifier": "every straight line string", "why_tests_cant": "direction and position dependent", "anchors": ["src/linestring_2d.rs: is_self_intersecting", "src/linestring_2d.rs: Line2::intersection_point3"]}
{"id": "C38", "title": "self-intersection of short lines", "statement": "For line strings of fewer than ten points is_self_intersecting is true exactly when two non-consecutive edges meet elsewhere than at shared end points or consecutive edges overlap (exact arithmetic).", "quantifier": "every line string of up to nine points", "why_tests_cant": "all inputs", "anchors": ["src/linestring_2d.rs: is_self_intersecting", "src/linestring_2d.rs: Line2::intersection_point3"]}
{"id": "C39", "title": "discretize keeps points and bounds steps", "statement": "discretize(d) for d > 0 ends after finitely many points, contains all original points in order starting with the first and ending with the last, has all other points on the edges, and consecutive points are at most d apart with equal steps on each edge (exact arithmetic).", "quantifier": "every point list (2D and 3D) and every positive step", "why_tests_cant": "for all inputs", "anchors": ["src/linestring_2d.rs: DiscreteLineSegmentIterator", "src/linestring_3d.rs: DiscreteLineSegmentIterator"]}
{"id": "C40", "title": "discretize with non-positive step", "statement": "discretize contains the original points for every step length.", "quantifier": "every point list and step", "why_tests_cant": "needs the saturating float-to-integer conversion", "anchors": ["src/linestring_2d.rs: DiscreteLineSegmentIterator"]}
{"id": "C41", "title": "window and chunk iterators", "statement": "window_iter yields one edge per adjacent pair in order (n-1 edges) and consecutive edges share their point; chunk_iter yields the disjoint pairs, floor(n/2) of them, and remainder is the odd last point.", "quantifier": "every point list, 2D and 3D", "why_tests_cant": "for all lengths", "anchors": ["src/linestring_2d.rs: WindowIterator", "src/linestring_2d.rs: ChunkIterator"]}
{"id": "C42", "title": "connectedness and point count", "statement": "is_connected is true exactly when first equals last (or empty) and point_count is the length minus one for closed lists of more than two points, the length otherwise.", "quantifier": "every point list", "why_tests_cant": "for all lengths", "anchors": ["src/linestring_2d.rs: is_connected", "src/linestring_2d.rs: point_count"]}
{"id": "C43", "title": "2D/3D copies are reversible", "statement": "copy_to_3d followed by copy_to_2d with the same plane gives back every point, for single points, lines and line strings; the axis not in the plane is zero.", "quantifier": "every plane, every point list, every scalar", "why_tests_cant": "for all inputs", "anchors": ["src/linestring_2d.rs: copy_to_3d", "src/linestring_3d.rs: copy_to_2d", "src/linestring_3d.rs: Plane"]}
{"id": "C44", "title": "line and line string copies agree", "statement": "Copying a line string to 3D and copying its lines to 3D give the same points.", "quantifier": "every plane, every line string", "why_tests_cant": "one of the three planes", "anchors": ["src/linestring_2d.rs: Line2::copy_to_3d", "src/linestring_2d.rs: copy_to_3d", "src/linestring_3d.rs: Line3::copy_to_2d"]}
{"id": "C45", "title": "plane detection", "statement": "get_plane returns a plane exactly when one axis of the box is flat and the other two are not, and it is the plane of the other two axes; then projecting to 2D and back moves points of a box lying in that coordinate plane nowhere (exact arithmetic).", "quantifier": "every box", "why_tests_cant": "for all boxes", "anchors": ["src/linestring_3d.rs: Plane::get_plane", "src/linestring_3d.rs: Plane::get_plane_relaxed"]}
{"id": "C46", "title": "Graham scan computes the convex hull", "statement": "graham_scan on at least four points (after dropping a closing point) returns a closed list of input points starting at the lowest-x (then lowest-y) point such that every input point is left of or on every edge, and consecutive edges turn strictly left unless all points are collinear (exact arithmetic, exact atan2, any sort consistent with the comparator).", "quantifier": "every real point list, every sorting outcome", "why_tests_cant": "for all point sets", "anchors": ["src/linestring_2d/convex_hull.rs: graham_scan", "src/linestring_2d.rs: convex_hull"]}
{"id": "C47", "title": "hulls consist of input points", "statement": "Whatever the coordinates (including NaN), every point or index returned by graham_scan, graham_scan_wo_atan2, gift_wrap and the indexed variants is one of the inputs, and the functions do not index out of range for valid indices.", "quantifier": "every point list, every scalar, every sorting outcome", "why_tests_cant": "all IEEE inputs", "anchors": ["src/linestring_2d/convex_hull.rs: graham_scan", "src/linestring_2d/convex_hull.rs: gift_wrap", "src/linestring_2d/convex_hull.rs: indexed_graham_scan", "src/linestring_2d/convex_hull.rs: indexed_gift_wrap"]}
{"id": "C48", "title": "hulls are closed", "statement": "The list returned by convex_hull/graham_scan has identical first and last elements.", "quantifier": "every input of at least three distinct points", "why_tests_cant": "boundary sizes", "anchors": ["src/linestring_2d/convex_hull.rs: graham_scan", "src/linestring_2d/convex_hull.rs: indexed_graham_scan"]}
{"id": "C49", "title": "indexed Graham scan", "statement": "indexed_graham_scan on pairwise distinct vertices selects the convex hull: same guarantees as graham_scan on the selected vertices (exact arithmetic).", "quantifier": "every vertex buffer and valid index list with pairwise distinct points", "why_tests_cant": "for all point sets", "anchors": ["src/linestring_2d/convex_hull.rs: indexed_graham_scan", "src/linestring_2d/convex_hull.rs: indexed_graham_scan_no_loop"]}
{"id": "C50", "title": "indexed Graham scan with duplicates", "statement": "indexed_graham_scan computes the convex hull also when the lowest point occurs twice.", "quantifier": "every vertex buffer and index list", "why_tests_cant": "duplicate of the start point", "anchors": ["src/linestring_2d/convex_hull.rs: indexed_graham_scan_no_loop"]}
{"id": "C51", "title": "gift wrapping terminates and computes the hull", "statement": "gift_wrap and indexed_gift_wrap on at least four pairwise distinct points terminate and return the convex hull: every input point left of or on every edge, no hull vertex repeated, closed (exact arithmetic).", "quantifier": "every list of pairwise distinct real points", "why_tests_cant": "termination and correctness for all point sets", "anchors": ["src/linestring_2d/convex_hull.rs: gift_wrap", "src/linestring_2d/convex_hull.rs: indexed_gift_wrap"]}
{"id": "C52", "title": "gift wrapping with duplicates", "statement": "gift_wrap and indexed_gift_wrap compute the convex hull also when the start point occurs twice.", "quantifier": "every point list", "why_tests_cant": "duplicates of the start point", "anchors": ["src/linestring_2d/convex_hull.rs: gift_wrap", "src/linestring_2d/convex_hull.rs: indexed_gift_wrap_no_loop"]}
{"id": "C53", "title": "hull algorithms agree", "statement": "graham_scan, gift_wrap and the indexed variants return the same hull, vertex for vertex, for pairwise distinct points (exact arithmetic).", "quantifier": "every list of at least four pairwise distinct real points", "why_tests_cant": "relates different algorithms on all inputs", "anchors": ["src/linestring_2d/convex_hull.rs: graham_scan", "src/linestring_2d/convex_hull.rs: gift_wrap", "src/linestring_2d/convex_hull.rs: indexed_graham_scan"]}
{"id": "C54", "title": "parallel hull", "statement": "convex_hull_par returns the convex hull for every chunk size and every way rayon may split the reduction.", "quantifier": "every point list, chunk size, reduction tree", "why_tests_cant": "schedules and all inputs", "anchors": ["src/linestring_2d/convex_hull.rs: convex_hull_par", "src/linestring_2d/convex_hull.rs: combine_indexed_convex_hull"]}
{"id": "C55", "title": "parallel hull returns input indices", "statement": "For every reduction tree, when convex_hull_par returns, every returned index is one of the given indices and the result is closed or a single index.", "quantifier": "every vertex buffer, index list, chunk size, reduction tree", "why_tests_cant": "all schedules", "anchors": ["src/linestring_2d/convex_hull.rs: convex_hull_par", "src/linestring_2d/convex_hull.rs: combine_indexed_convex_hull"]}
{"id": "C56", "title": "point in convex hull (inclusive)", "statement": "contains_point_inclusive on a strictly convex counter-clockwise polygon (closed or not) is true exactly when the point is left of or on every edge (exact arithmetic).", "quantifier": "every strictly convex polygon of at least three vertices, every point", "why_tests_cant": "binary search over all polygon sizes", "anchors": ["src/linestring_2d/convex_hull.rs: contains_point_inclusive"]}
{"id": "C57", "title": "point in convex hull (exclusive), soundness", "statement": "If contains_point_exclusive is true for a strictly convex counter-clockwise polygon then the point is strictly left of every edge; and it is never true for a point outside or on the boundary (exact arithmetic).", "quantifier": "every strictly convex polygon, every point", "why_tests_cant": "binary search over all polygon sizes", "anchors": ["src/linestring_2d/convex_hull.rs: contains_point_exclusive"]}
{"id": "C58", "title": "point in convex hull (exclusive), completeness", "statement": "contains_point_exclusive is true for every strictly interior point.", "quantifier": "every strictly convex polygon, every point", "why_tests_cant": "interior points on search diagonals", "anchors": ["src/linestring_2d/convex_hull.rs: contains_point_exclusive"]}
{"id": "C59", "title": "containment in degenerate hulls", "statement": "contains_point_inclusive is true only for points of the hull also when the hull is a single repeated point or a segment there and back.", "quantifier": "every degenerate hull, every point", "why_tests_cant": "degenerate sizes", "anchors": ["src/linestring_2d/convex_hull.rs: contains_point_inclusive"]}
{"id": "C60", "title": "hull in hull", "statement": "contains_convex_hull(a,b) for a strictly convex counter-clockwise polygon a holds exactly when every vertex of b is left of or on every edge of a, and contains_convex_hull_par agrees with it for any evaluation order (exact arithmetic).", "quantifier": "every polygon a, every non-empty b", "why_tests_cant": "all sizes", "anchors": ["src/linestring_2d/convex_hull.rs: contains_convex_hull", "src/linestring_2d/convex_hull.rs: contains_convex_hull_par"]}
{"id": "C61", "title": "orientation predicates", "statement": "point_orientation, is_point_left and is_point_left_allow_collinear agree with the sign of twice the signed triangle area; cyclic rotation of the three points keeps the answer and swapping two points mirrors it (exact arithmetic).", "quantifier": "every three real points", "why_tests_cant": "all inputs", "anchors": ["src/linestring_2d/convex_hull.rs: point_orientation", "src/linestring_2d/convex_hull.rs: cross_2d", "src/linestring_2d/convex_hull.rs: is_point_left"]}
{"id": "C62", "title": "Graham scan without atan2", "statement": "graham_scan_wo_atan2 gives the same guarantees as graham_scan (exact arithmetic).", "quantifier": "every real point list of at least four points, every sort consistent with the comparator", "why_tests_cant": "for all point sets", "anchors": ["src/linestring_2d/convex_hull.rs: graham_scan_wo_atan2"]}
{"id": "C63", "title": "sweep-line reports only real intersections", "statement": "Every position reported by IntersectionData::compute lies on every line listed with it (exact arithmetic).", "quantifier": "every set of lines, every hash-set iteration order, every option", "why_tests_cant": "all event histories", "anchors": ["src/linestring_2d/intersection.rs: IntersectionData::compute", "src/linestring_2d/intersection.rs: handle_event", "src/linestring_2d/intersection.rs: find_new_events"]}
{"id": "C64", "title": "sweep-line terminates", "statement": "IntersectionData::compute handles at most one event per end point or pairwise intersection point and then stops; it never panics (exact arithmetic).", "quantifier": "every set of lines, every iteration order, every option", "why_tests_cant": "termination over all inputs", "anchors": ["src/linestring_2d/intersection.rs: IntersectionData::compute"]}
{"id": "C65", "title": "sweep-line output order", "statement": "The reported positions are strictly increasing in (y, x) and hence pairwise distinct, and each line list is sorted.", "quantifier": "every set of lines, every iteration order, every option", "why_tests_cant": "all event histories", "anchors": ["src/linestring_2d/intersection.rs: report_intersections_to_result", "src/linestring_2d/intersection.rs: SiteEventKey"]}
{"id": "C66", "title": "sweep-line finds shared end points", "statement": "Without the ignore-end-points option every point where end points of two or more lines coincide is reported with all those lines (exact arithmetic).", "quantifier": "every set of lines, every iteration order", "why_tests_cant": "all event histories", "anchors": ["src/linestring_2d/intersection.rs: with_lines", "src/linestring_2d/intersection.rs: handle_event"]}
{"id": "C67", "title": "sweep-line completeness in general position", "statement": "When no end point lies on another line and no three lines meet in a point, and no line is horizontal or degenerate, compute reports every crossing of two lines (exact arithmetic).", "quantifier": "every set of lines in general position, every iteration order", "why_tests_cant": "all arrangements of lines", "anchors": ["src/linestring_2d/intersection.rs: handle_event", "src/linestring_2d/intersection.rs: find_new_events"]}
{"id": "C68", "title": "sweep-line completeness", "statement": "compute reports every point where two lines meet.", "quantifier": "every set of lines", "why_tests_cant": "touching configurations", "anchors": ["src/linestring_2d/intersection.rs: handle_event"]}
{"id": "C69", "title": "stop at first intersection", "statement": "With stop_at_first_intersection the result has at most one position, and it is the first one the full run reports.", "quantifier": "every set of lines, every iteration order", "why_tests_cant": "all event histories", "anchors": ["src/linestring_2d/intersection.rs: IntersectionData::compute"]}
{"id": "C70", "title": "sweep-line rejects non-finite input", "statement": "with_lines / with_edges fail with InvalidData exactly when some coordinate of the input is not finite, and never put a non-finite end point in the event queue.", "quantifier": "every set of lines, every scalar", "why_tests_cant": "all IEEE inputs", "anchors": ["src/linestring_2d/intersection.rs: with_lines", "src/linestring_2d/indexed_intersection.rs: with_edges"]}
{"id": "C71", "title": "indexed sweep-line", "statement": "IntersectionTester::compute keeps all input vertices in place (only appends), every reported index is valid and its vertex lies on every line listed with it (exact arithmetic).", "quantifier": "every vertex buffer, edge list, iteration order", "why_tests_cant": "all event histories", "anchors": ["src/linestring_2d/indexed_intersection.rs: IntersectionTester::compute"]}
{"id": "C72", "title": "parabola sampling end points", "statement": "discretize_2d/discretize_3d return a list starting exactly with start_point and ending exactly with end_point (any scalar), whenever they return.", "quantifier": "every arc and tolerance, every scalar", "why_tests_cant": "all inputs", "anchors": ["src/linestring_2d.rs: VoronoiParabolicArc::discretize_2d", "src/linestring_2d.rs: VoronoiParabolicArc::discretize_3d"]}
{"id": "C73", "title": "parabola samples lie on the curve", "statement": "Every intermediate sample of discretize_2d is equidistant from the cell point and the line of the segment (exact arithmetic).", "quantifier": "every non-degenerate arc", "why_tests_cant": "all inputs", "anchors": ["src/linestring_2d.rs: VoronoiParabolicArc::discretize_2d"]}
{"id": "C74", "title": "parabola sampling error", "statement": "Every point of the arc between two consecutive samples is within max_dist of the chord (exact arithmetic).", "quantifier": "every non-degenerate arc and tolerance", "why_tests_cant": "a continuum of points", "anchors": ["src/linestring_2d.rs: VoronoiParabolicArc::discretize_2d"]}
{"id": "C75", "title": "parabola sampling terminates", "statement": "discretize_2d terminates for every positive tolerance when the ends of the arc project to different points of the segment line (exact arithmetic).", "quantifier": "every non-degenerate arc and positive tolerance", "why_tests_cant": "termination", "anchors": ["src/linestring_2d.rs: VoronoiParabolicArc::discretize_2d"]}
{"id": "C76", "title": "parabola sampling of zero-length arcs", "statement": "discretize_2d terminates for every arc.", "quantifier": "every arc", "why_tests_cant": "0/0 in the bisection", "anchors": ["src/linestring_2d.rs: VoronoiParabolicArc::discretize_2d"]}
{"id": "C77", "title": "obj export refers to the right vertices", "statement": "In the file written by save_to_obj_file every 'l a b' record refers (1-based) to vertex records that are exactly the formatted start and end of that line, vertex records are pairwise distinct, and there is one 'l' record per line in order.", "quantifier": "every list of line strings, every float formatting", "why_tests_cant": "all inputs", "anchors": ["src/linestring_3d.rs: save_to_obj_file"]}
{"id": "C78", "title": "lowest point", "statement": "The start vertex used by the hull algorithms is the lexicographically smallest (x, then y) input point, and a NaN x coordinate after the first point is rejected with an error instead of a wrong answer.", "quantifier": "every point list, every scalar", "why_tests_cant": "all IEEE inputs", "anchors": ["src/linestring_2d/convex_hull.rs: find_lowest_x", "src/linestring_2d/convex_hull.rs: indexed_find_lowest_x"]}
{"id": "C79", "title": "approximate line equality", "statement": "The approximate comparisons of two lines (abs_diff_eq, ulps_eq) are reflexive and symmetric and ignore the direction of a line; line strings compare equal only when lengths match.", "quantifier": "every pair of lines, every scalar with a symmetric reflexive comparison", "why_tests_cant": "all inputs", "anchors": ["src/linestring_2d/impls.rs: AbsDiffEq for Line2", "src/linestring_2d/impls.rs: UlpsEq for Line2", "src/linestring_2d.rs: Approx"]}
{"id": "C80", "title": "small crossings are misjudged in floating point", "statement": "Scaling two crossing segments down must not change the kind of intersection reported.", "quantifier": "every pair of segments and scale", "why_tests_cant": "absolute epsilon in the parallel test", "anchors": ["src/linestring_2d.rs: Line2::intersection_point"]}
{"id": "C81", "title": "straight line version of an arc", "statement": "discretize_3d_straight_line returns exactly the two arc ends; the z of the first is minus its exact distance to the closed segment, the z of the second minus its distance to the cell point, and both are the depth of the curve when the start's foot lies on the segment.", "quantifier": "every arc (exact arithmetic)", "why_tests_cant": "all inputs", "anchors": ["src/linestring_2d.rs: VoronoiParabolicArc::discretize_3d_straight_line"]}
{"id": "C82", "title": "hull depends only on the set of points", "statement": "Two inputs of convex_hull::graham_scan that contain the same points, in any order and with any repetitions, give the same hull, point for point.", "quantifier": "every pair of inputs with the same set of points and at least four points, every order an unstable sort may return", "why_tests_cant": "all permutations and multiplicities", "anchors": ["src/linestring_2d/convex_hull.rs: graham_scan"]}
{"id": "C83", "title": "a hull contains its own points", "statement": "Every input point of a non-collinear input is reported by contains_point_inclusive to be inside the hull computed from that input.", "quantifier": "every non-collinear input, every input point", "why_tests_cant": "all inputs; couples two algorithms", "anchors": ["src/linestring_2d/convex_hull.rs: graham_scan", "src/linestring_2d/convex_hull.rs: contains_point_inclusive"]}
{"id": "C84", "title": "the hull is the smallest convex region", "statement": "Every half plane that contains all input points contains every point inside the hull.", "quantifier": "every input, half plane and point", "why_tests_cant": "all inputs and all half planes", "anchors": ["src/linestring_2d/convex_hull.rs: graham_scan"]}
{"id": "C85", "title": "self-intersection of long line strings", "statement": "For line strings of ten or more points is_self_intersecting always returns, and is true exactly when a point in the interior of one edge lies on another edge (exact arithmetic).", "quantifier": "every line string of ten or more points, every iteration order", "why_tests_cant": "all event histories", "anchors": ["src/linestring_2d.rs: is_self_intersecting", "src/linestring_2d/intersection.rs: IntersectionData::compute"]}
{"id": "C86", "title": "indexed sweep-line completeness", "statement": "IntersectionTester::compute reports every point where two edges meet, with all the edges through it (exact arithmetic).", "quantifier": "every vertex buffer, edge list, iteration order", "why_tests_cant": "all arrangements of edges", "anchors": ["src/linestring_2d/indexed_intersection.rs: IntersectionTester::compute"]}
{"id": "C87", "title": "adding lines in several calls", "statement": "Calling with_lines several times is the same as calling it once with all the lines; options may be set before or after the lines.", "quantifier": "every split of every list of lines", "why_tests_cant": "all call histories", "anchors": ["src/linestring_2d/intersection.rs: with_lines", "src/linestring_2d/indexed_intersection.rs: with_edges"]}
{"id": "C88", "title": "intersections involve two lines", "statement": "Every position reported by compute lies on two different lines of the list reported with it.", "quantifier": "every set of lines, every iteration order, every option", "why_tests_cant": "all event histories, degenerate lines", "anchors": ["src/linestring_2d/intersection.rs: handle_event"]}
{"id": "C89", "title": "self-intersection is kept when a point is added", "statement": "A self-intersecting line string remains self-intersecting when a point is appended.", "quantifier": "every line string and point", "why_tests_cant": "the algorithm changes at ten points", "anchors": ["src/linestring_2d.rs: is_self_intersecting"]}
{"id": "C90", "title": "box containment is exact", "statement": "A bounding box reports containing a point, a line or another box exactly when every position of that thing has all its coordinates between the corners of the box; the empty box contains nothing and is contained in nothing.", "quantifier": "every box, point, line and box, in 2D and 3D", "why_tests_cant": "real-valued input; boundary values", "anchors": ["src/linestring_2d.rs: Aabb2::contains_point, contains_line, contains_aabb", "src/linestring_3d.rs: Aabb3::contains_*"]}
{"id": "C91", "title": "box accessors", "statement": "For a box built from points by any sequence of constructors and updates, low and high are the coordinatewise least and greatest points, extents returns them with their difference, and center is the midpoint and lies in the box; for a box built from no points all accessors return nothing.", "quantifier": "every construction history", "why_tests_cant": "all histories", "anchors": ["src/linestring_2d.rs: Aabb2::low, high, extents, center", "src/linestring_3d.rs: Aabb3::get_low, get_high, extents, center"]}
{"id": "C92", "title": "transforming a box", "statement": "Applying a map to a bounding box gives a box that contains the image of every point it was built from.", "quantifier": "every map and every construction history", "why_tests_cant": "all maps", "anchors": ["src/linestring_2d.rs: Aabb2::apply", "src/linestring_3d.rs: Aabb3::apply"]}
{"id": "C93", "title": "3D box from two corners", "statement": "The 3D box made from two points (or six numbers) contains both points.", "quantifier": "every pair of points", "why_tests_cant": "all orderings of the coordinates", "anchors": ["src/linestring_3d.rs: From<[T;2]> for Aabb3, From<[Scalar;6]> for Aabb3"]}
{"id": "C94", "title": "documented unit of the simplification tolerance", "statement": "simplify_rdp removes only points whose squared distance to the result is within the given threshold, as its documentation says.", "quantifier": "every line string and threshold", "why_tests_cant": "real-valued input", "anchors": ["src/linestring_2d.rs: simplify_rdp"]}
{"id": "C95", "title": "iterators step by step", "statement": "After k calls of next the window and chunk iterators have returned the first k pairs (then nothing), and len, is_empty and remainder describe what is left.", "quantifier": "every list and every number of calls, also beyond the end", "why_tests_cant": "all call histories", "anchors": ["src/linestring_2d.rs: WindowIterator, ChunkIterator", "src/linestring_3d.rs: WindowIterator, ChunkIterator"]}
{"id": "C96", "title": "apply on line strings", "statement": "apply maps every point, keeps the number and order of points, edges and chunks, and a closed line string stays closed.", "quantifier": "every map and line string", "why_tests_cant": "all maps and lengths", "anchors": ["src/linestring_2d.rs: apply", "src/linestring_3d.rs: apply, Line3::apply"]}
{"id": "C97", "title": "single and closest intersection point", "statement": "single and closest of a reported intersection lie on both segments; for an overlap, closest is the end of the overlap nearest to the given position.", "quantifier": "every pair of segments and every position", "why_tests_cant": "real-valued input, degenerate segments", "anchors": ["src/linestring_2d.rs: Intersection::single, Intersection::closest"]}
{"id": "C98", "title": "box equality", "statement": "Equality of 2D boxes is an equivalence that identifies boxes containing the same points.", "quantifier": "every pair and triple of boxes", "why_tests_cant": "all triples", "anchors": ["src/linestring_2d.rs: PartialEq for Aabb2"]}
{"id": "C99", "title": "size_hint of the window iterators", "statement": "size_hint of the window iterators returns the exact number of remaining windows, as an ExactSizeIterator requires.", "quantifier": "every iterator state", "why_tests_cant": "all states", "anchors": ["src/linestring_2d.rs: WindowIterator", "src/linestring_3d.rs: WindowIterator"]}
{"id": "C100", "title": "simplification tolerances are nested", "statement": "simplify_rdp with a larger tolerance keeps a subsequence of the points kept with a smaller tolerance.", "quantifier": "every line string and pair of tolerances, 2D and 3D", "why_tests_cant": "recursion over all inputs", "anchors": ["src/linestring_2d/simplify.rs: simplify_rdp_recursive", "src/linestring_3d/simplify.rs: simplify_rdp_recursive"]}
{"id": "C101", "title": "simplification of moved and scaled lines", "statement": "simplify_rdp commutes with translations, rotations, reflections and uniform scaling (the tolerance scaled alike).", "quantifier": "every similarity, line string and tolerance, 2D and 3D", "why_tests_cant": "all maps", "anchors": ["src/linestring_2d/simplify.rs: simplify_rdp_recursive", "src/linestring_3d/simplify.rs: simplify_rdp_recursive"]}
{"id": "C102", "title": "more deletions keep fewer points", "statement": "simplify_vw with a larger number of deletions keeps a subsequence of the points kept with a smaller number.", "quantifier": "every line string, every pair of counts, every behaviour of the heap on equal keys (the same in both runs), 2D and 3D", "why_tests_cant": "all runs of the priority queue", "anchors": ["src/linestring_2d/simplify.rs: simplify_vw", "src/linestring_3d/simplify.rs: simplify_vw"]}
{"id": "C103", "title": "Visvalingam-Whyatt under affine maps", "statement": "simplify_vw commutes with every invertible affine map in 2D and every similarity in 3D.", "quantifier": "every map, line string, count and heap that only compares keys", "why_tests_cant": "all maps", "anchors": ["src/linestring_2d/simplify.rs: simplify_vw", "src/linestring_3d/simplify.rs: simplify_vw"]}
{"id": "C104", "title": "float orientation is exact on a grid", "statement": "On f64 and f32 points whose coordinates are small multiples of one power of two, point_orientation, is_point_left and is_point_left_allow_collinear give the exact sign of the area: no rounding, and ulps_eq accepts only exact zero.", "quantifier": "every triple of points with coordinates k*2^s with integer k, |k| <= 2^25 and -25 <= s <= 485 in f64, |k| <= 1448 and -11 <= s <= 51 in f32 (integer coordinates: s = 0)", "why_tests_cant": "2^150 triples per scale", "anchors": ["src/linestring_2d/convex_hull.rs: point_orientation", "src/linestring_2d/convex_hull.rs: is_point_left", "src/linestring_2d/convex_hull.rs: is_point_left_allow_collinear", "src/linestring_2d/convex_hull.rs: cross_2d"]}
{"id": "C105", "title": "float gift wrapping returns the exact hull", "statement": "On distinct f64 (f32) points on such a grid, gift_wrap and indexed_gift_wrap return the exact convex hull of the points (counter-clockwise, closed, lowest point first), made of input points.", "quantifier": "every list of at least four distinct points with coordinates k*2^s with integer k, |k| <= 2^25 and -25 <= s <= 485 in f64, |k| <= 1448 and -11 <= s <= 51 in f32 (integer coordinates: s = 0)", "why_tests_cant": "all point sets", "anchors": ["src/linestring_2d/convex_hull.rs: gift_wrap", "src/linestring_2d/convex_hull.rs: indexed_gift_wrap"]}
{"id": "C106", "title": "the float scan without atan2 returns the exact hull", "statement": "On distinct f64 (f32) grid points graham_scan_wo_atan2 never panics and returns the exact convex hull, whatever order sort_unstable leaves equal points in.", "quantifier": "every list of at least four distinct points with coordinates k*2^s with integer k, |k| <= 2^25 and -25 <= s <= 485 in f64, |k| <= 1448 and -11 <= s <= 51 in f32 (integer coordinates: s = 0), every sort result", "why_tests_cant": "all point sets and sort orders", "anchors": ["src/linestring_2d/convex_hull.rs: graham_scan_wo_atan2"]}
{"id": "C107", "title": "float convex_hull is exact when atan2 orders the directions", "statement": "On f64 (f32) grid points, repeated points included, graham_scan (LineString2::convex_hull) returns the exact convex hull if the platform's atan2 puts the directions from the lowest point in their exact order.", "quantifier": "every list of at least four points with coordinates k*2^s with integer k, |k| <= 2^25 and -25 <= s <= 485 in f64, |k| <= 1448 and -11 <= s <= 51 in f32 (integer coordinates: s = 0), every atan2 function, every sort result", "why_tests_cant": "all point sets; atan2 is a platform function", "anchors": ["src/linestring_2d/convex_hull.rs: graham_scan", "src/linestring_2d.rs: convex_hull"]}
{"id": "C108", "title": "float containment is exact on a grid", "statement": "On f64 (f32) grid points and a strictly convex polygon, contains_point_inclusive and contains_convex_hull give the exact answer, and contains_point_exclusive accepts only interior points.", "quantifier": "every polygon and point with coordinates k*2^s with integer k, |k| <= 2^25 and -25 <= s <= 485 in f64, |k| <= 1448 and -11 <= s <= 51 in f32 (integer coordinates: s = 0)", "why_tests_cant": "all polygons and points", "anchors": ["src/linestring_2d/convex_hull.rs: contains_point_inclusive", "src/linestring_2d/convex_hull.rs: contains_point_exclusive", "src/linestring_2d/convex_hull.rs: contains_convex_hull"]}
{"id": "C109", "title": "float Visvalingam-Whyatt is the exact greedy algorithm on a grid", "statement": "On f64 (f32) grid points, simplify_vw removes one after another the interior point whose exact triangle area is smallest, on the exact values, although the areas it compares are floats.", "quantifier": "every line of at least three points with coordinates k*2^s, integer k; 2D: |k| <= 2^24 in f64, 2^10 in f32; 3D: |k| <= 2^11 in f64, 2^4 in f32; s in [-255,228] (f64), [-31,19] (f32); every number of removals; every order in which the heap pops equal areas", "why_tests_cant": "all lines; one rounded area could reorder the removals", "anchors": ["src/linestring_2d/simplify.rs: simplify_vw", "src/linestring_3d/simplify.rs: simplify_vw"]}
{"id": "C110", "title": "float Ramer-Douglas-Peucker keeps its tolerance up to a machine epsilon", "statement": "On f64 (f32) grid points, every point simplify_rdp drops lies within tolerance times (1 + epsilon) of the segment (2D) or line (3D) between the kept points around it; in 2D a line that bends by more than that everywhere is returned unchanged.", "quantifier": "every nonempty line with coordinates k*2^s, integer k, |k| <= 2^24 in f64, 2^10 in f32; s in [-255,228] (f64), [-31,19] (f32); every tolerance that is zero or between 2^-511 and 2^511 (f64), 2^-63 and 2^63 (f32)", "why_tests_cant": "all lines and tolerances; rounding happens in the distance computation", "anchors": ["src/linestring_2d/simplify.rs: simplify_rdp", "src/linestring_2d.rs: distance_to_line_squared", "src/linestring_3d/simplify.rs: simplify_rdp"]}
{"id": "C111", "title": "hulls of moved, scaled and sheared points", "statement": "Moving the points, scaling either axis by a positive factor, or shearing in y moves the convex hull in exactly the same way: same corners, same order, same start.", "quantifier": "every point list with at least four points, every such map", "why_tests_cant": "all inputs and all maps", "anchors": ["src/linestring_2d/convex_hull.rs: graham_scan", "src/linestring_2d/convex_hull.rs: gift_wrap"]}
{"id": "C112", "title": "points between other points do not change the hull", "statement": "Adding (or removing) points that lie in triangles or segments spanned by the other points does not change the convex hull.", "quantifier": "every point list, every set of spanned points", "why_tests_cant": "all inputs", "anchors": ["src/linestring_2d/convex_hull.rs: graham_scan"]}
{"id": "C113", "title": "the hull of a hull is the hull", "statement": "Computing the convex hull of a convex hull returns the same list.", "quantifier": "every point list", "why_tests_cant": "all inputs", "anchors": ["src/linestring_2d/convex_hull.rs: graham_scan"]}
{"id": "C114", "title": "more points, a larger hull", "statement": "The hull of a set of points is contained (contains_convex_hull, also the parallel version in any visiting order) in the hull of any larger set that is not collinear.", "quantifier": "every two point lists, one containing the other", "why_tests_cant": "all inputs", "anchors": ["src/linestring_2d/convex_hull.rs: graham_scan", "src/linestring_2d/convex_hull.rs: contains_convex_hull", "src/linestring_2d/convex_hull.rs: contains_convex_hull_par"]}
{"id": "C115", "title": "divide_into_shapes depends only on the set of edges", "statement": "The shapes do not depend on the order, direction or repetition of the edges: two inputs with the same undirected edges give the same chains (up to order, direction, and the start of closed chains) and the same bit vector.", "quantifier": "every two edge lists without self-loops that have the same edges", "why_tests_cant": "all inputs and orders", "anchors": ["src/shape.rs: divide_into_shapes"]}
{"id": "C116", "title": "line constructors agree", "statement": "Lines built from a flat array, from nested arrays and from points are equal, and copies between 2D and 3D commute with them.", "quantifier": "every list of coordinates, every plane", "why_tests_cant": "all inputs", "anchors": ["src/linestring_2d/impls.rs: From<[T::Scalar; 4]> for Line2", "src/linestring_3d/impls.rs: From<[T::Scalar; 6]> for Line3"]}
{"id": "C117", "title": "float segment intersection has the exact kind", "statement": "Line2::intersection_point on two f64 (f32) segments with distinct ends returns None exactly when the segments share no point, a single point exactly when they share one point and an overlap exactly when they share more; the reported coordinates are within 2^(s-26) (f64) or 2^(s-11) (f32) of the exact ones, twice that for the far end of an overlap.", "quantifier": "every pair of segments with different end points on the grid k*2^s, integer k, |k| <= 2^24 in f64, 2^10 in f32; s in [-25,228] (f64), [-11,19] (f32)", "why_tests_cant": "all coordinates on the grid; rounding happens in the division, the product and the sum, and the kind is decided by float comparisons", "anchors": ["src/linestring_2d.rs: Line2::intersection_point", "src/linestring_2d.rs: Line2::precedes"]}
{"id": "C118", "title": "float point-on-segment test", "statement": "intersect_line_point on f64 (f32) grid points never misses a point of the segment; a point it reports is within 2^-25 (f64) or 2^-10 (f32) of the segment's length of the segment; and for coordinates of at most 2^10 (f64) or 2^3 (f32) steps the answer is exact. Line2::intersection_point with a segment of one point gives the same answer. On the larger grid the answer is not exact.", "quantifier": "every segment and point on the grid k*2^s, |k| <= 2^24 in f64, 2^10 in f32; s >= -25 (f64), -11 (f32) for 'never misses', s >= 0 for the other two", "why_tests_cant": "square roots and a sum are rounded and compared with an ulps tolerance; all grid inputs", "anchors": ["src/linestring_2d.rs: intersect_line_point", "src/linestring_2d.rs: Line2::intersection_point"]}
{"id": "C119", "title": "Rounding never changes whether a short line string on a grid is reported as self-intersecting", "statement": "For a line string of 3 to 9 points whose coordinates are integer multiples of a power of two (at most 2^23 steps from 0 in f64, 2^8 in f32), with consecutive points distinct and no three consecutive points for which the code would divide zero by zero or read the sign of a zero, is_self_intersecting in floats answers true only if two edges that are not neighbours share a point other than a common end, or two neighbouring edges satisfy the slope condition the code tests, evaluated exactly; it always answers true in the latter case, and in the former when the two edges meet in one point. Outside that exclusion the answer is not a function of the coordinate values: replacing 0 by -0 can flip it.", "quantifier": "every list of grid points meeting the exclusions, every scale, in both f64 and f32", "why_tests_cant": "Every comparison and division may round; a test samples a few line strings and cannot rule out a pair of nearly parallel or nearly touching edges for which rounding flips the answer.", "anchors": ["src/linestring_2d.rs: LineString2::is_self_intersecting, Line2::intersection_point, Line2::intersection_point3"]}
{"id": "C120", "title": "The sweep never panics in f32 or f64", "statement": "Whatever f32 or f64 lines it is given (NaN, infinities, subnormals included), whatever the iteration order of its hash sets, whatever the two options and however the ordered map is built, IntersectionData either returns points with finite coordinates, each with indices of input lines, or the error InvalidData; it never panics (no unwrap of a None, no missing key, no InternalError). The error occurs only if a coordinate of the input is not finite or the intersection point computed for two of the lines is not finite (possible for finite input near the largest f64). The indexed IntersectionTester, given edges that refer to existing vertices, behaves the same and only appends vertices. As stated this is FALSE: the key comparison is not transitive in floats, and with std's BTreeMap eighteen lines with integer coordinates of at most 30 make the call panic. It holds when the key comparison is consistent. Without that assumption everything holds except that the call may also panic or return InternalError. The key comparison is consistent on an input if, on the end points of the lines and the finite intersection points computed for two of them, it is a total order (up to keys it calls equal); it tolerates a few units in the last place, so in floats this can fail when such points are nearly equal.", "quantifier": "all lists of f64 or f32 lines, all iteration orders, both options, every lawful ordered map, any number of events", "why_tests_cant": "Which branch the sweep takes depends on rounded comparisons between computed points; a test fixes a handful of inputs and iteration orders.", "anchors": ["src/linestring_2d/intersection.rs: IntersectionData::with_lines, IntersectionData::compute, handle_event, SiteEventKey", "src/linestring_2d/indexed_intersection.rs: IntersectionTester::with_edges, IntersectionTester::compute"]}
{"id": "C121", "title": "The sweep succeeds on coordinates of moderate size", "statement": "If every coordinate is finite and of absolute value at most 2^500 (f64) or 2^60 (f32), IntersectionData::compute, the indexed IntersectionTester and is_self_intersecting (any number of points) return a result: no error, no panic, no endless loop. As stated this is FALSE: with std's BTreeMap a call on ten lines with integer coordinates of at most 21 returns InternalError, and one on eighteen lines panics (C120). It holds when the key comparison is consistent on the input (see C120), whatever the ordered map.", "quantifier": "all lists of such lines, vertices or points; all iteration orders and options; every lawful ordered map", "why_tests_cant": "The range of coordinates is astronomically large; overflow of an intermediate product or a division by an underflowed length shows only on special pairs.", "anchors": ["src/linestring_2d/intersection.rs: IntersectionData::with_lines, IntersectionData::compute, handle_event, SiteEventKey", "src/linestring_2d/indexed_intersection.rs: IntersectionTester::with_edges, IntersectionTester::compute", "src/linestring_2d.rs: Line2::intersection_point, LineString2::is_self_intersecting"]}
{"id": "C122", "title": "The sweep terminates in f32 and f64", "statement": "On every list of f32 or f64 lines the event loop of IntersectionData ends after finitely many events, whatever the iteration order and the ordered map, even though computed intersection points are queued as new events and the order of the queue tolerates a few units in the last place. So does the indexed IntersectionTester. Proved when the key comparison is consistent on the input (see C120).", "quantifier": "all inputs, finite or not, with consistent keys; all iteration orders and options; every lawful ordered map; no bound on the number of events", "why_tests_cant": "Termination is not observable by a finite test; rounding could in principle queue an endless series of new events.", "anchors": ["src/linestring_2d/intersection.rs: IntersectionData::with_lines, IntersectionData::compute, handle_event, SiteEventKey", "src/linestring_2d/indexed_intersection.rs: IntersectionTester::with_edges, IntersectionTester::compute"]}
{"id": "C123", "title": "Reported intersections are real in f32 and f64, up to a stated error", "statement": "For lines that are not single points and whose coordinates are integer multiples of a power of two 2^s (at most 2^24 steps from 0 in f64, 2^10 in f32), every point IntersectionData reports is within 2^(s-23) (f64) or 2^(s-8) (f32) in each coordinate of a point of every line listed with it. The same holds for the indexed IntersectionTester. Holds for every lawful ordered map, without any assumption on the key comparison.", "quantifier": "all such inputs and scales; all iteration orders and options; every lawful ordered map; f64 and f32", "why_tests_cant": "Rounding errors of intersection points that are merged with other events could accumulate; no finite set of inputs bounds them.", "anchors": ["src/linestring_2d/intersection.rs: IntersectionData::with_lines, IntersectionData::compute, handle_event, SiteEventKey", "src/linestring_2d/indexed_intersection.rs: IntersectionTester::with_edges, IntersectionTester::compute"]}
{"id": "C124", "title": "Shared end points are reported in f32 and f64", "statement": "On the inputs of C123, without the two options, every point that is an end of two different lines is reported: some reported point is within 2^(s-24) (f64) or 2^(s-9) (f32) of it in each coordinate and lists all lines that end there. The same holds for the indexed IntersectionTester. Holds for every lawful ordered map, without any assumption on the key comparison; when that comparison is consistent on the input (see C120) the bound is half as large.", "quantifier": "all such inputs and scales, all iteration orders; every lawful ordered map; f64 and f32", "why_tests_cant": "A computed point a few units in the last place away may be merged with the shared end; tests do not meet such coincidences.", "anchors": ["src/linestring_2d/intersection.rs: IntersectionData::with_lines, IntersectionData::compute, handle_event, SiteEventKey", "src/linestring_2d/indexed_intersection.rs: IntersectionTester::with_edges, IntersectionTester::compute"]}
{"id": "C125", "title": "With end points ignored, only real crossings are reported in f32 and f64; long line strings", "statement": "On the inputs of C123, IntersectionData with ignore_end_point_intersections reports something only if, in exact arithmetic, an interior point of one line lies on another line; if there is no such point it terminates and reports nothing. Hence is_self_intersecting on a line string of ten or more grid points without repeated consecutive points answers true only if an interior point of one edge lies on another edge, and answers false on every line string whose edges meet at common end points only. All this holds for every lawful ordered map, std's included, without any assumption on the key comparison.", "quantifier": "all such inputs and scales, all iteration orders; every lawful ordered map; f64 and f32", "why_tests_cant": "Neighbouring edges always share an end; one rounding error that moves a computed point off that end would make every line string self-intersecting.", "anchors": ["src/linestring_2d/intersection.rs: IntersectionData::with_lines, IntersectionData::compute, handle_event, SiteEventKey", "src/linestring_2d/indexed_intersection.rs: IntersectionTester::with_edges, IntersectionTester::compute", "src/linestring_2d.rs: LineString2::is_self_intersecting"]}
{"id": "C126", "title": "The sweep does not depend on the ordered map", "statement": "In exact arithmetic the result, error or panic of IntersectionData, of the indexed IntersectionTester (edges referring to existing vertices) and of is_self_intersecting does not depend on how the ordered map is implemented: any two search trees that guarantee what every search tree does (a key reported as present was compared and found equal; a search that fails ended between two compared neighbours; insert, update and remove do what they say at that place) give the same. std's B-tree is such a map, over exact numbers and over floats, so C63-C71 and C85-C88 hold of the code with std's map, including its search for the first key to remove it and its third search after an insertion.", "quantifier": "all inputs, iteration orders and options; all lawful maps, with no bound on their size or shape", "why_tests_cant": "The shape of a B-tree depends on all earlier insertions and removals; tests reach a handful of shapes.", "anchors": ["src/linestring_2d/intersection.rs: IntersectionData::with_lines, IntersectionData::compute, report_intersections_to_result", "src/linestring_2d/indexed_intersection.rs: IntersectionTester::with_edges, IntersectionTester::compute", "src/linestring_2d.rs: LineString2::is_self_intersecting"]}
{"id": "C127", "title": "A report lists two different lines in f32 and f64", "statement": "On the inputs of C123, every report of IntersectionData and of the indexed IntersectionTester lists at least two different lines. As stated this is FALSE: with std's BTreeMap, 29 lines with integer coordinates of at most 36 give a report with an empty list. A report that lists any line lists two different ones, whatever the ordered map; and every report does when the key comparison is consistent (see C120).", "quantifier": "all such inputs and scales; all iteration orders and options; every lawful ordered map; f64 and f32", "why_tests_cant": "An empty report needs a search that ends at another key than the one just inserted; it depends on the shape of the tree and on rounding.", "anchors": ["src/linestring_2d/intersection.rs: IntersectionData::with_lines, IntersectionData::compute, handle_event, report_intersections_to_result, SiteEventKey", "src/linestring_2d/indexed_intersection.rs: IntersectionTester::with_edges, IntersectionTester::compute"]}
{"id": "C128", "title": "No point is reported twice in f32 and f64", "statement": "The reports of IntersectionData and of the indexed IntersectionTester come in sweep order, so no two of them are at the same point: not even the crate's own tolerant comparison of points identifies two of them. As stated this is FALSE in floats (in exact arithmetic it holds, C65): five lines with integer coordinates of at most 43 make IntersectionData report the very same point with the very same two lines twice. It holds when the key comparison is consistent on the input (see C120), whatever the ordered map.", "quantifier": "all inputs with consistent keys; all iteration orders and options; every lawful ordered map; f64 and f32", "why_tests_cant": "Two equal reports need an event that is queued again after the sweep has passed it, because another event compares as equal to it or out of order; tests do not meet this.", "anchors": ["src/linestring_2d/intersection.rs: IntersectionData::with_lines, IntersectionData::compute, handle_event, report_intersections_to_result, SiteEventKey", "src/linestring_2d/indexed_intersection.rs: IntersectionTester::with_edges, IntersectionTester::compute"]}
{"id": "C129", "title": "Hull of three points", "statement": "Given three points that are not on a line, as an open or a closed list, gift_wrap, graham_scan and graham_scan_wo_atan2 return those three points as the counter-clockwise hull (an open list); for three indices of such points, open or closed, indexed_gift_wrap and indexed_graham_scan return the counter-clockwise triangle closed, and convex_hull_par returns it open, whatever the chunk size. Holds in exact arithmetic and in f64 and f32 for coordinates on the grid of C104. Three points on a line all come back, also the one in the middle (the third given point second).", "quantifier": "all triples of points, in any order and orientation; open and closed; all fuel, sort results, chunk sizes; reals, f64 and f32", "why_tests_cant": "The early return for three points is a separate branch in each of the six functions, with its own orientation test and its own order of the output.", "anchors": ["src/linestring_2d/convex_hull.rs: gift_wrap, indexed_gift_wrap, graham_scan, indexed_graham_scan, graham_scan_wo_atan2, convex_hull_par"]}
{"id": "C130", "title": "Centre and size of a box in f32 and f64", "statement": "For a box built from points with finite coordinates of absolute value at most 2^1022 (f64) or 2^126 (f32), in any way the API offers, Aabb2 and Aabb3 return as centre, in each coordinate, the float nearest to the exact middle, it lies between low and high, and contains_point_inclusive of the centre is true; extents returns the nearest floats to the exact differences. For all finite coordinates this is FALSE: the sum overflows, and the centre of the box of the single point (3*2^1022, 0) is infinite and not in the box.", "quantifier": "all sequences of box constructions; all finite coordinates within the bound; 2D and 3D; f64 and f32", "why_tests_cant": "Double rounding of (low + high) / 2 near the subnormal range and overflow at the other end need particular floats.", "anchors": ["src/linestring_2d.rs: Aabb2::center, Aabb2::extents, Aabb2::contains_point_inclusive", "src/linestring_3d.rs: Aabb3::center, Aabb3::extents"]}
{"id": "C131", "title": "A line string against a line", "statement": "For any line string and any line in exact arithmetic, the set of points find_all_intersections stands for is exactly the set of common points, intersection returns the first answer, an answer exists exactly if there is a common point, and find_two_intersections returns common points, two different ones unless there is only one (none if there is none). In f64 and f32 the same holds up to a stated error (2^(s-25) in f64, 2^(s-10) in f32, in each coordinate) for coordinates that are multiples of 2^s up to 2^24 (2^10) steps from 0, if consecutive points differ and the line is not a single point: whether there is a common point is always decided correctly.", "quantifier": "all line strings of any length and all lines; the grid of C117 in floats; f64 and f32", "why_tests_cant": "Every edge is a separate float intersection test; a single misjudged edge loses or invents an answer.", "anchors": ["src/linestring_2d.rs: LineString2::intersection, find_two_intersections, find_all_intersections, Line2::intersection_point"]}
{"id": "C132", "title": "Affine transforms in f32 and f64 stay close to the exact ones", "statement": "SimpleAffine::new between two boxes with finite coordinates of absolute value at most A (source) and B (destination), 1 <= A, B <= 2^200 (f64) or 2^20 (f32), succeeds; transform_ab of a point with coordinates up to A returns a point within 32u(sigma*A + B) of the exact transform, transform_ba of a point with coordinates up to C >= B within 32u(C/sigma + A), transform_ba after transform_ab returns to within 256u(A + B/sigma) of the start (u = 2^-53 or 2^-24, sigma the exact scale). So a point of the source box lands in the destination box up to that error (destination at least 1 by 1, see C28).", "quantifier": "all boxes and points within the bounds; f64 and f32", "why_tests_cant": "The error depends on the relative size and position of the two boxes; tests compare a few values with a tolerance.", "anchors": ["src/linestring_2d.rs: SimpleAffine::new, SimpleAffine::transform_ab, SimpleAffine::transform_ba"]}
{"id": "C133", "title": "Discretizing keeps the corners and the step in floating point", "statement": "discretize on an f64 or f32 line string (2D or 3D) with a positive step returns every corner of the line in order, first and last included, cuts every edge into equal steps, and no two neighbouring points are further apart than the step, up to rounding errors proportional to the coordinates.", "quantifier": "all line strings with finite coordinates of at most M, all steps d with M <= 2^(p-4) d (p = 53 or 24), both within 2^-500..2^500 (f64) or 2^-50..2^50 (f32)", "why_tests_cant": "the rounding of length, quotient, ceil, step and product differs for every input; a test sees only a few", "anchors": ["src/linestring_2d.rs: DiscreteLineSegmentIterator::initialize_step, DiscreteLineSegmentIterator::next, discretize", "src/linestring_3d.rs: DiscreteLineSegmentIterator, discretize"]}
{"id": "C134", "title": "Indexed Graham scan and parallel hull in floats", "statement": "indexed_graham_scan (and convex_hull_par, run with at most one chunk per task) on f64 or f32 vertices whose coordinates are small multiples of a power of two returns indices that select exactly the convex hull of the selected points: start at the lowest-x vertex, counter-clockwise, no collinear vertices, closed.", "quantifier": "every f64 / f32 vertex list on the grid, every index list without repeated points, every chunk size, every result of the unstable sort, every reduction tree with one chunk per task, every atan2 that orders the directions occurring in the input like the exact one", "why_tests_cant": "the result depends on sort order, schedule and rounding of every orientation and distance test; tests sample a few inputs and schedules", "anchors": ["src/linestring_2d/convex_hull.rs: indexed_graham_scan, indexed_graham_scan_no_loop, convex_hull_par, combine_indexed_convex_hull"]}
{"id": "C135", "title": "The atan2 scans are exact for an accurate atan2", "statement": "If the platform's atan2 is within one unit in the last place of 1 of the exact angle and gives equal results for equal angles (the correctly rounded one does), then graham_scan, indexed_graham_scan and convex_hull_par (one chunk per task) return the exact hull for all f64 points with coordinates k*2^s, |k| <= 2^23 (f32: |k| <= 724): no assumption on the input's angles is left. Without the condition on equal angles this is FALSE: with an atan2 of the same accuracy graham_scan of (0,0), (4,1), (8,2), (0,1) loses the corner (8,2).", "quantifier": "every such point list without a -0 x coordinate, every index list, chunk size, sort result, reduction tree with one chunk per task, every atan2 that is accurate in this sense", "why_tests_cant": "that no two directions of the grid are closer than the rounding error of atan2 is a statement about all pairs of points", "anchors": ["src/linestring_2d/convex_hull.rs: graham_scan, indexed_graham_scan, convex_hull_par"]}
{"id": "C136", "title": "Reported intersections do not depend on how the lines are numbered, directed, placed or scaled (exact arithmetic)", "statement": "In exact arithmetic, giving the sweep-line finder the same lines in another order, or with start and end exchanged, yields the same points in the same order, each with the new numbers of the same lines. Moving all lines by (b, d) and scaling them by c > 0, also by different positive factors in x and y, moves the reported points along and leaves the lists of lines as they are. For the finder on edges of a vertex list the same holds for another order of the edges, another numbering of the vertices, and moved and scaled vertices.", "quantifier": "every list of lines / edges, every renumbering, every positive scale and shift, both options, every iteration order of the hash set in either run", "why_tests_cant": "Tests compare two particular runs; here every input, renumbering, scale and hash order is covered, also where the finder misses intersections.", "anchors": ["src/linestring_2d/intersection.rs:IntersectionData::with_lines", "src/linestring_2d/intersection.rs:IntersectionData::compute", "src/linestring_2d/indexed_intersection.rs:IntersectionTester::with_edges", "src/linestring_2d/indexed_intersection.rs:IntersectionTester::compute"]}
{"id": "C137", "title": "Two runs on the same lines report the same intersections", "statement": "Running the finder twice on the same lines gives the same result, although the active lines are kept in a hash set whose iteration order differs from run to run. As stated this is FALSE in f64: ulps_eq is not transitive, and three upright lines 4 ulps apart crossed by a slanted one are reported as two points or as one, depending on the iteration order. It holds in exact arithmetic.", "quantifier": "every list of lines, both options, every pair of iteration orders", "why_tests_cant": "A test sees the iteration orders that happen to occur.", "anchors": ["src/linestring_2d/intersection.rs:IntersectionData::handle_event", "src/linestring_2d/intersection.rs:MinMax::update", "src/linestring_2d/intersection.rs:MinMaxSlope::update_left"]}
{"id": "C138", "title": "Mirrored, turned or sheared lines have the mirrored, turned or sheared intersections", "statement": "Applying an invertible linear map and a shift to all lines maps the reported points by the same map, with the same lists of lines; exchanging the ends of an edge changes nothing. As stated this is FALSE already for two or three lines with small integer coordinates (mirrored, turned by a quarter, sheared; with indexed edges, one edge reversed). It holds when both sets of lines meet the conditions of C68; for positive scaling and shifts see C136.", "quantifier": "every list of lines and every invertible affine map", "why_tests_cant": "Tests try some orientations; the claim is about all of them.", "anchors": ["src/linestring_2d/intersection.rs:IntersectionData::compute", "src/linestring_2d/indexed_intersection.rs:IntersectionTester::compute"]}
{"id": "C139", "title": "Self-intersection does not depend on where the line string lies, its scale or its direction", "statement": "is_self_intersecting gives the same answer for a line string, for the same line string moved and scaled, and for its reversal, whatever the hash order. As stated this is FALSE for fewer than ten points, where three points suffice. In exact arithmetic it holds for ten points and more, and for fewer points as long as x and y are shifted by the same amount.", "quantifier": "every line string, every shift and positive scale, every iteration order", "why_tests_cant": "Tests try single line strings at single places.", "anchors": ["src/linestring_2d.rs:LineString2::is_self_intersecting", "src/linestring_2d.rs:Line2::intersection_point3"]}
{"id": "C140", "title": "closest ray intersection in floats", "statement": "With f64 coordinates that are multiples of 2^s (s >= -25) of at most 2^24 steps, or f32 coordinates of at most 2^10 steps (s >= -11), and a non-zero direction, closest_ray_intersection misses no edge that the exact ray hits (except an edge along the ray that reaches back to its origin), the point it returns is within 2^(s-24) (f64) or 2^(s-9) (f32) per coordinate of a point of the line string in front of the ray, and every hit before that one is within the same distance of it. For one edge, ray_edge_intersection hits exactly the same edges as exact arithmetic, on the same side of the origin.", "quantifier": "every line string, origin and direction on the grid", "why_tests_cant": "Tests try single rays; rounding has to be bounded for all of them.", "anchors": ["src/linestring_2d.rs: closest_ray_intersection, ray_edge_intersection"]}
{"id": "C141", "title": "segment intersection depends only on the common points", "statement": "The result of intersecting two line segments depends only on the points they have in common: not on their order, their directions or where they extend otherwise; an overlap is reported from left to right (upwards if vertical). Moved, scaled, turned or sheared segments have the moved, scaled, turned or sheared intersection. As stated this is FALSE in f64, where order and direction change the last bits; it holds in exact arithmetic (C117 bounds the difference in floats).", "quantifier": "every two pairs of segments with the same common points; every invertible affine map", "why_tests_cant": "Tests compare single pairs of segments.", "anchors": ["src/linestring_2d.rs: Line2::intersection_point, Line2::precedes"]}
{"id": "C142", "title": "line string intersections and representation", "statement": "Intersecting a line string with a line gives the same result for either direction of the line; the line string walked backwards has the same intersections in the opposite order; and with both moved, scaled by positive factors or sheared vertically, all intersections, the first one and the first two points are the moved ones (exact arithmetic).", "quantifier": "every line string and line, every such map", "why_tests_cant": "Tests try single places.", "anchors": ["src/linestring_2d.rs: LineString2::intersection, LineString2::find_two_intersections, LineString2::find_all_intersections"]}
{"id": "C143", "title": "rays and representation", "statement": "closest_ray_intersection moves along with every invertible affine map of line string, origin and direction, does not depend on the length of the direction, and is the same for the line string given backwards (exact arithmetic).", "quantifier": "every line string, origin, non-zero direction and invertible affine map", "why_tests_cant": "Tests try single rays.", "anchors": ["src/linestring_2d.rs: closest_ray_intersection, ray_edge_intersection"]}
{"id": "C144", "title": "simplifying a line given backwards (Ramer-Douglas-Peucker)", "statement": "Simplifying a line given backwards gives the simplified line backwards. As stated this is FALSE: of two points equally far from the chord the later one is kept. When no two points that exceed the tolerance tie for farthest it holds, in 2D and 3D (exact arithmetic).", "quantifier": "every line and tolerance", "why_tests_cant": "Tests simplify lines in one direction.", "anchors": ["src/linestring_2d.rs: LineString2::simplify_rdp, rdp", "src/linestring_3d.rs: LineString3::simplify_rdp"]}
{"id": "C145", "title": "Visvalingam-Whyatt: direction and heap do not matter", "statement": "The simplified line does not depend on the order in which equally small entries leave the heap, and simplifying a line given backwards gives the simplified line backwards. As stated this is FALSE: with two equally small triangles direction and heap decide, and in 3D the last point is lost (C19). Without such ties the result is determined by the line, in any scalar type; and backwards gives the reversed result: open lines exactly, closed lines as rings, 3D up to the lost last point (exact arithmetic).", "quantifier": "every line, number of deletions and heap", "why_tests_cant": "Tests simplify lines in one direction.", "anchors": ["src/linestring_2d.rs: LineString2::simplify_vw", "src/linestring_3d.rs: LineString3::simplify_vw"]}
{"id": "C146", "title": "discretizing: backwards, again, moved, planar", "statement": "Discretizing a line given backwards yields the discretized line backwards; discretizing the result again with the same distance changes nothing; a line moved, turned, mirrored or scaled (with its distance) yields the result mapped the same way; and a 3D line in a horizontal plane yields what the 2D line yields (exact arithmetic, 2D and 3D).", "quantifier": "every line, positive distance and similarity", "why_tests_cant": "Tests discretize one line.", "anchors": ["src/linestring_2d.rs: DiscreteLineSegmentIterator, discretize", "src/linestring_3d.rs: DiscreteLineSegmentIterator, discretize"]}
{"id": "C147", "title": "hulls under every invertible affine map", "statement": "The hull of points mapped by any invertible affine map (turned, mirrored, sheared, stretched) is the hull of the points, mapped: it has the same corners and the same number of entries, and the same sides, in the same direction when the map keeps turns and in the opposite direction when it mirrors them. For the Graham scan of any points, degenerate ones too, and for gift wrapping of pairwise different points (exact arithmetic).", "quantifier": "every list of at least four points and every invertible affine map", "why_tests_cant": "Tests do not map their inputs.", "anchors": ["src/linestring_2d/convex_hull.rs: graham_scan, gift_wrap"]}
{"id": "C148", "title": "containment under affine maps and any start", "statement": "Whether a list contains a point or another list does not change when both are mapped by an affine map that keeps turns, for any lists, inclusive and exclusive; the hull of mapped points contains a mapped point exactly when the hull of the points contains the point, for every invertible affine map; and the inclusive answer for a convex outline does not depend on the corner it starts at nor on whether it is closed (exact arithmetic).", "quantifier": "every outline, point and map", "why_tests_cant": "Tests use fixed outlines.", "anchors": ["src/linestring_2d/convex_hull.rs: contains_point_inclusive, contains_point_exclusive, contains_convex_hull", "src/linestring_2d.rs: LineString2::contains_point_inclusive, contains_point_exclusive"]}
{"id": "C149", "title": "parabolic arcs: segment, direction and similarities", "statement": "The samples of a parabolic arc depend on the segment only through its line: another piece of the line, or the segment with its ends exchanged, gives the same samples. With the ends of the arc exchanged the samples come in the opposite order. An arc moved, turned, mirrored or scaled, with the tolerance scaled, gives the samples mapped (z scaled along in 3D). In each case the loop takes as many steps (exact arithmetic).", "quantifier": "every proper arc, tolerance and map", "why_tests_cant": "Tests sample a few arcs.", "anchors": ["src/linestring_2d.rs: VoronoiParabolicArc, discretize_2d, discretize_3d"]}
{"id": "C150", "title": "distance to a segment or line as a function", "statement": "The squared distance of a point to a segment (2D) does not depend on the direction of the segment, is zero exactly on the segment, is at most the squared distance to either end, is no smaller for a part of the segment, is scaled by every map that scales all distances, and its root changes by at most the distance the point moves. The same in 3D for the line, where any two of its points will do. In a horizontal plane the 3D value is at most the 2D one (exact arithmetic).", "quantifier": "every segment, point and map", "why_tests_cant": "Tests check a few distances.", "anchors": ["src/linestring_2d.rs: distance_to_line_squared, distance_to_line_squared_safe", "src/linestring_3d.rs: distance_to_line_squared, distance_to_line_squared_safe"]}
{"id": "C151", "title": "parabola sampling ends in f64 and f32", "statement": "As stated this is FALSE: for every proper arc whose two ends are on the parabola and every positive max_dist, discretize_2d and discretize_3d return in f64 and in f32. Refuted: for an arc over the x axis with focus (4, 2), from (-116, 3601) to (-96, 2501) and max_dist 2^-49 (f64; in f32 focus (0, 2), from (-16, 65) to (4, 5) and 2^-22) the loop never ends, while exact arithmetic returns. What holds: exact arithmetic returns for every proper arc and non-zero tolerance, and if a call in floats returns, so does the same call with any larger tolerance.", "quantifier": "every arc, tolerance and number of iterations", "why_tests_cant": "A test that hangs is not a test, and the loop ends for most arcs.", "anchors": ["src/linestring_2d.rs: VoronoiParabolicArc, discretize_2d, discretize_3d"]}
{"id": "C152", "title": "a larger tolerance keeps a subsequence of the samples", "statement": "If discretize_2d (or discretize_3d) returns for one tolerance, it returns for every larger one, after no more iterations, and what it returns then is a subsequence of what it returned for the smaller tolerance: the same ends, and some of the same samples in the same order, each the same to the last bit. In exact arithmetic larger means larger absolute value; in floats the squared tolerances times the squared segment length are compared as the code rounds them.", "quantifier": "every arc, pair of tolerances and scalar type with a transitive order", "why_tests_cant": "Tests check single tolerances.", "anchors": ["src/linestring_2d.rs: VoronoiParabolicArc, discretize_2d, discretize_3d"]}
{"id": "C153", "title": "simplifying a discretized line", "statement": "Discretizing a line and then simplifying it (Ramer-Douglas-Peucker) gives exactly what simplifying the line gives, for every step and tolerance, in 2D and 3D (exact arithmetic). More generally, any points inserted on the edges, any number and in any order, do not change the result; and the points discretize adds are of this kind.", "quantifier": "every line, step, tolerance and set of added points", "why_tests_cant": "Tests simplify a few lines; rounding hides what should hold.", "anchors": ["src/linestring_2d/simplify.rs: simplify_rdp_recursive", "src/linestring_2d.rs: discretize, simplify_rdp", "src/linestring_3d/simplify.rs: simplify_rdp"]}
{"id": "C154", "title": "Visvalingam-Whyatt removes added points first", "statement": "If no inner corner is collinear with its neighbours, Visvalingam-Whyatt run on the line with points added on its edges (e.g. discretized) deletes the added points first, whatever the heap does with ties; deleting as many points as were added gives back the line (in 3D without its last point, C19), and further deletions are greedy deletions from the line itself: the same result as from the line if there are no ties. Open 2D lines of at least four points, 3D lines of at least three (exact arithmetic).", "quantifier": "every line, set of added points, number of deletions and heap order", "why_tests_cant": "Tests run one heap on a few lines.", "anchors": ["src/linestring_2d/simplify.rs: simplify_vw", "src/linestring_2d.rs: discretize", "src/linestring_3d/simplify.rs: simplify_vw"]}
{"id": "C155", "title": "bounding boxes of derived lines", "statement": "A line with points added on its edges, e.g. discretized, has the bounding box of the line (2D, 3D); the convex hull has the bounding box of its points; the box of a line simplified by Ramer-Douglas-Peucker with tolerance d is inside the box of the line, and no side moves in by more than d (2D). Exact arithmetic.", "quantifier": "every line, step and tolerance", "why_tests_cant": "Tests compute a few boxes.", "anchors": ["src/linestring_2d.rs: Aabb2, discretize, simplify_rdp", "src/linestring_3d.rs: Aabb3, discretize", "src/linestring_2d/convex_hull.rs: graham_scan"]}
{"id": "C156", "title": "intersections of a discretized line", "statement": "A line string and the same line string discretized have the same intersections with a line and the same closest intersection with a ray. As stated this is FALSE: a corner is reported by both edges that meet there, so added points multiply entries; a piece of an overlap is shorter than the overlap; and a ray that starts on an edge and runs along it misses the edge but not the pieces ahead of it. What holds for every number of added points (exact arithmetic): the reported intersections cover the same points, so one is found for the one exactly when one is found for the other; if the line meets the edges in points only, the first intersection and the first two are the same, and the list of all is the same with entries repeated; and a ray that does not start on an edge along it has the same closest hit.", "quantifier": "every line string, step, set of added points, line and ray", "why_tests_cant": "Tests try a few lines without overlaps.", "anchors": ["src/linestring_2d.rs: intersection, find_two_intersections, find_all_intersections, closest_ray_intersection, discretize"]}
{"id": "C157", "title": "hulls of derived lines", "statement": "A line with points added on its edges, e.g. discretized, has the convex hull of the line; the hull of a line contains the hull of the simplified line (Ramer-Douglas-Peucker or Visvalingam-Whyatt); and the hull of the outline of a box is that outline, for Graham scan, the scan without atan2 and gift wrapping. Lists of at least four points, exact arithmetic.", "quantifier": "every line, step, tolerance, number of deletions and box", "why_tests_cant": "Tests compute a few hulls.", "anchors": ["src/linestring_2d/convex_hull.rs: graham_scan, gift_wrap, graham_scan_wo_atan2, contains_convex_hull", "src/linestring_2d.rs: discretize, simplify_rdp, simplify_vw, Aabb2::convex_hull"]}
{"id": "C158", "title": "computed distances", "statement": "The squared distance from a point to a segment (2D) or line (3D) computed in floating point is a finite number within two (2D) or four (3D) relative rounding errors of the exact smallest squared distance. As stated for any coordinates this is FALSE: ends closer than the machine epsilon count as one point, so an end of a segment can have a positive distance to it. For f64 and f32 coordinates that are small multiples of a power of two it holds, in both directions: for distance_to_line_squared whenever the ends differ, for the _safe variants when the power of two exceeds the machine epsilon.", "quantifier": "every segment and point with coordinates k * 2^s, |k| <= 2^24 (f64) or 2^10 (f32), every exponent s of the stated range", "why_tests_cant": "Tests compare a few distances with a tolerance.", "anchors": ["src/linestring_2d.rs: distance_to_line_squared, distance_to_line_squared_safe", "src/linestring_3d.rs: distance_to_line_squared, distance_to_line_squared_safe"]}
{"id": "C159", "title": "straight lines in floats", "statement": "If every interior point of a line is within d (1 - epsilon) of the segment (3D: line) between its ends, Ramer-Douglas-Peucker with tolerance d in f64 or f32 keeps the two ends only; together with C110 the tolerance is respected up to a machine epsilon from both sides.", "quantifier": "every line with coordinates k * 2^s, |k| <= 2^24 (f64) or 2^10 (f32) and a power of two above the machine epsilon; every tolerance in the stated range", "why_tests_cant": "Tests simplify a few lines.", "anchors": ["src/linestring_2d/simplify.rs: simplify_rdp", "src/linestring_3d/simplify.rs: simplify_rdp"]}
{"id": "C160", "title": "float lines given backwards", "statement": "If wherever two interior points tie in the computed distance both are within the tolerance or a third point is farther, Ramer-Douglas-Peucker in f64 or f32 applied to the reversed line returns the reversed result: the direction in which a line is given does not matter, bit for bit.", "quantifier": "every line with coordinates k * 2^s, |k| <= 2^24 (f64) or 2^10 (f32), and a power of two above the machine epsilon; every tolerance in the stated range", "why_tests_cant": "Tests never reverse a line.", "anchors": ["src/linestring_2d/simplify.rs: simplify_rdp", "src/linestring_3d/simplify.rs: simplify_rdp"]}
{"id": "C161", "title": "float lines scaled by a power of two", "statement": "Multiplying every coordinate and the tolerance by the same power of two multiplies every coordinate of the result of Ramer-Douglas-Peucker in f64 or f32 by it: the same points are kept, whatever the unit.", "quantifier": "every line with coordinates k * 2^s, |k| <= 2^24 (f64) or 2^10 (f32), and a power of two above the machine epsilon; every tolerance in the stated range; every integer exponent k for which the scaled line is on such a grid too", "why_tests_cant": "Tests use one unit.", "anchors": ["src/linestring_2d/simplify.rs: simplify_rdp", "src/linestring_3d/simplify.rs: simplify_rdp"]}
{"id": "C162", "title": "float lines moved, turned and mirrored", "statement": "If the coordinates of a line and of the moved, turned or mirrored line are both small multiples of a power of two, Ramer-Douglas-Peucker in f64 or f32 keeps the same points of both: in 2D for every distance-preserving map of the plane, in 3D for shifts combined with mirroring of coordinates.", "quantifier": "every line and every such map for which both lines have coordinates k * 2^s, |k| <= 2^24 (f64) or 2^10 (f32), with powers of two above the machine epsilon (not necessarily the same); every tolerance in the stated range", "why_tests_cant": "Tests never move a line before simplifying it.", "anchors": ["src/linestring_2d/simplify.rs: simplify_rdp", "src/linestring_3d/simplify.rs: simplify_rdp", "src/linestring_2d.rs: distance_to_line_squared_safe", "src/linestring_3d.rs: distance_to_line_squared_safe"]}
{"id": "C163", "title": "float Visvalingam-Whyatt under affine maps and backwards", "statement": "If, in exact arithmetic, the smallest triangle of the line is unique before each deletion, Visvalingam-Whyatt in f64 or f32 keeps the same points of the line and of its image under any invertible affine map (moved, scaled, turned, sheared, mirrored), and of an open line and the same line given backwards, whatever the order in which the heap returns equal entries.", "quantifier": "every line of at least three points and every invertible affine map for which line and image have coordinates k * 2^s, |k| <= 2^24 (f64) or 2^10 (f32) (not necessarily the same power of two); every number of deletions; any two heaps that pop a smallest entry; open and closed lines (backwards: open)", "why_tests_cant": "Tests simplify a few fixed lines.", "anchors": ["src/linestring_2d/simplify.rs: simplify_vw"]}
