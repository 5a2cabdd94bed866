{"id": "C01", "title": "Relation.complement is an involution with the documented table", "statement": "For every Relation r, r.complement.complement is r; complement swaps COMPONENT/COMPOSITE, ENCLOSED/ENCLOSES, COVER/WITHIN and fixes CROSS, DISJOINT, EQUAL, OVERLAP, TOUCH.", "quantifier": "every Relation member", "why_tests_cant": "Settled by exhaustion; listed because every other symmetry property is stated through it.", "anchors": ["rene/_enums.py: Relation.complement"]}
{"id": "C02", "title": "Points are totally ordered, lexicographically, consistently with ==", "statement": "For all points p, q exactly one of p < q, p == q, q < p holds; p <= q iff p < q or p == q; p > q iff q < p; < is transitive; the order is by x and then by y; equal points have equal hashes.", "quantifier": "all pairs and triples of points with exact rational coordinates", "why_tests_cant": "Infinitely many points; every sort, sweep and arg-min relies on totality.", "anchors": ["rene/_geometries/base_point.py: BasePoint.__lt__, __le__, __gt__, __ge__, __eq__, __hash__"]}
{"id": "C03", "title": "Box predicates mean what they say about the covered points", "statement": "For all valid boxes a, b: a.disjoint_with(b) iff no point is in both; a.touches(b) iff they share a point but no interior-to-interior point in the box sense; a.covers(b) iff every point of b is strictly inside a; a.within(b) iff b.covers(a); a.enclosed_by(b)/a.encloses(b) iff containment with exactly partial boundary contact; a.equals_to(b)/== iff same bounds.", "quantifier": "all pairs of valid boxes with rational bounds, including degenerate (zero width/height) ones", "why_tests_cant": "Boundary coincidences form 13x13 interval configurations over unbounded values.", "anchors": ["rene/_geometries/base_box.py: covers, disjoint_with, enclosed_by, encloses, equals_to, overlaps, touches, within"]}
{"id": "C04", "title": "Box.relate_to is exactly the interval-algebra classification", "statement": "For all valid boxes, a.relate_to(b) equals the relation obtained from the two axis interval configurations, i.e. it is EQUAL, DISJOINT, TOUCH, COVER, WITHIN, ENCLOSES, ENCLOSED or OVERLAP exactly when the corresponding predicate method answers True, and exactly one predicate answers True.", "quantifier": "all pairs of valid non-degenerate boxes", "why_tests_cant": "The decision tree has several dozen leaves; a wrong leaf is reached only by particular coincidences.", "anchors": ["rene/_geometries/base_box.py: relate_to"]}
{"id": "C05", "title": "Box.relate_to is symmetric up to complement", "statement": "a.relate_to(b) is b.relate_to(a).complement for all valid boxes.", "quantifier": "all pairs of valid boxes", "why_tests_cant": "As above.", "anchors": ["rene/_geometries/base_box.py: relate_to"]}
{"id": "C06", "title": "Box prefilters never lose common points", "statement": "If two geometries share a point their bounding boxes are not disjoint; if two segments share a non-degenerate piece, their boxes have a common continuum; the area/continuum filters used by the clipping operations and their negated twins are exact complements of each other.", "quantifier": "all pairs of boxes / segments", "why_tests_cant": "Prefilters silently drop operands; a wrong filter is invisible unless the dropped part mattered.", "anchors": ["rene/_utils.py: do_boxes_have_common_area, do_boxes_have_no_common_area, do_boxes_have_common_continuum, do_boxes_have_no_common_continuum, to_boxes_ids_with_*"]}
{"id": "C07", "title": "The orientation predicate is exact and alternating", "statement": "orient(v, p, q) is COLLINEAR iff the three points lie on one line, is invariant under cyclic rotation of arguments and translation, and flips when two arguments are exchanged.", "quantifier": "all triples of points", "why_tests_cant": "Exactness on (nearly) collinear inputs.", "anchors": ["rene/_exact/context.py: orient", "rene/_utils.py: cross_multiply, to_sign"]}
{"id": "C08", "title": "Point membership in a segment is exact", "statement": "For every segment and point, `point in segment` / segment.locate(point) is BOUNDARY iff point = start + t*(end - start) for some 0 <= t <= 1, and EXTERIOR otherwise; the answer does not depend on the direction of the segment.", "quantifier": "all segments and points", "why_tests_cant": "Needs every rational t.", "anchors": ["rene/_utils.py: locate_point_in_segment", "rene/_geometries/base_segment.py: locate, __contains__"]}
{"id": "C09", "title": "Segments are equal iff they cover the same points", "statement": "s == t iff the sets of points of s and t coincide iff endpoints coincide up to order; equal segments have equal hashes.", "quantifier": "all pairs of segments", "why_tests_cant": "Quantifies over all points.", "anchors": ["rene/_geometries/base_segment.py: __eq__, __hash__"]}
{"id": "C10", "title": "Segment.relate_to(Segment) is the topological relation", "statement": "For all non-degenerate segments a, b: EQUAL iff same points; DISJOINT iff no common point; COMPONENT iff a is a proper subset of b; COMPOSITE iff b is a proper subset of a; OVERLAP iff they share infinitely many points and neither contains the other; CROSS iff they share exactly one point which is interior to both; TOUCH iff they share exactly one point which is an endpoint of at least one of them. No other relation is returned.", "quantifier": "all pairs of non-degenerate segments", "why_tests_cant": "Decision tree over orientation signs and coordinate ties.", "anchors": ["rene/_relating/segment_endpoints.py: relate_to_segment_endpoints", "rene/_geometries/base_segment.py: relate_to"]}
{"id": "C11", "title": "Segment.relate_to(Segment) is symmetric up to complement and direction-independent", "statement": "a.relate_to(b) is b.relate_to(a).complement, and replacing a or b by the reversed segment does not change the relation.", "quantifier": "all pairs of non-degenerate segments", "why_tests_cant": "As above.", "anchors": ["rene/_relating/segment_endpoints.py: relate_to_segment_endpoints"]}
{"id": "C12", "title": "Crossing point is exact", "statement": "For segments whose endpoints are strictly on opposite sides of each other, the computed intersection point lies on both segments, strictly between their endpoints, and is their only common point.", "quantifier": "all pairs of crossing segments", "why_tests_cant": "Exact arithmetic identity over all rationals.", "anchors": ["rene/_exact/context.py: intersect_segments", "rene/_utils.py / _exact: to_segments_intersection_scale"]}
{"id": "C13", "title": "Segment & Segment is the common continuum", "statement": "a & b is the segment whose points are exactly the common points of a and b when they share more than one point, and Empty otherwise (a single common point yields Empty).", "quantifier": "all pairs of non-degenerate segments", "why_tests_cant": "All points, all collinear configurations.", "anchors": ["rene/_clipping/intersection.py: intersect_segment_with_segment, intersect_segments_with_common_continuum_bounding_boxes"]}
{"id": "C14", "title": "Segment | Segment covers exactly both operands", "statement": "The segments of a | b cover exactly the points of a or b; crossing operands are split at the crossing point; collinear overlapping or end-to-end operands are merged into one segment.", "quantifier": "all pairs of non-degenerate segments", "why_tests_cant": "All points.", "anchors": ["rene/_clipping/union.py: unite_segment_with_segment"]}
{"id": "C15", "title": "Segment - Segment is the closure of the set difference", "statement": "Every point of a outside b is covered by a - b; every point of a - b is in a; no interior point of a segment of a - b is in a common continuum of a and b; a - b is Empty iff a is contained in b.", "quantifier": "all pairs of non-degenerate segments", "why_tests_cant": "All points.", "anchors": ["rene/_clipping/difference.py: subtract_segment_from_segment"]}
{"id": "C16", "title": "Segment ^ Segment is the closure of the symmetric difference", "statement": "The segments of a ^ b cover every point in exactly one operand, only points of a or b, and no interior point of a common continuum; Empty iff a == b.", "quantifier": "all pairs of non-degenerate segments", "why_tests_cant": "All points.", "anchors": ["rene/_clipping/symmetric_difference.py: symmetric_subtract_segment_from_segment"]}
{"id": "C17", "title": "Contour equality is rotation/reversal equivalence", "statement": "For contours with pairwise distinct vertices, c == d iff the vertex sequence of d is a rotation of the vertex sequence of c or of its reversal; == is reflexive, symmetric and transitive.", "quantifier": "all vertex sequences of any length", "why_tests_cant": "Unbounded sequence length and rotations.", "anchors": ["rene/_geometries/base_contour.py: __eq__, _are_non_empty_unique_sequences_rotationally_equivalent"]}
{"id": "C18", "title": "Equal contours have equal hashes", "statement": "For contours without repeated vertices and without three consecutive collinear vertices c == d implies hash(c) == hash(d) (for other contours this can fail).", "quantifier": "all pairs of non-degenerate contours", "why_tests_cant": "Unbounded sequences; degenerate arg-min vertices.", "anchors": ["rene/_geometries/base_contour.py: __hash__"]}
{"id": "C19", "title": "Equality and hashing of compound geometries ignore representation", "statement": "Multisegment, Polygon and Multipolygon equality does not depend on the order of segments/holes/polygons nor on direction of segments or rotation/orientation of contours, is an equivalence, and equal objects have equal hashes (for non-degenerate contours).", "quantifier": "all such geometries", "why_tests_cant": "Permutations of unbounded collections.", "anchors": ["rene/_geometries/base_multisegment.py: __eq__, __hash__", "rene/_geometries/base_polygon.py: __eq__, __hash__", "rene/_geometries/base_multipolygon.py: __eq__, __hash__"]}
{"id": "C20", "title": "bounding_box is the least box covering the geometry", "statement": "For a segment, contour, multisegment, polygon and multipolygon: every point of the geometry is in its bounding_box, and any box containing every vertex contains the bounding box; the box is valid.", "quantifier": "all geometries of any size", "why_tests_cant": "Unbounded sizes.", "anchors": ["rene/_geometries/base_segment.py: bounding_box", "rene/_geometries/base_contour.py: bounding_box", "rene/_geometries/base_multisegment.py: bounding_box", "rene/_geometries/base_polygon.py: bounding_box", "rene/_geometries/base_multipolygon.py: bounding_box", "rene/_utils.py: merge_boxes"]}
{"id": "C21", "title": "Contour.orientation is representation independent", "statement": "For contours with distinct vertices orientation does not depend on which vertex comes first, and reversing the vertices flips it (COLLINEAR stays COLLINEAR); CLOCKWISE/COUNTERCLOCKWISE agrees with the sign of the signed area for triangles and convex contours.", "quantifier": "all vertex sequences", "why_tests_cant": "Unbounded sequences.", "anchors": ["rene/_geometries/base_contour.py: orientation", "rene/_utils.py: to_contour_orientation, to_arg_min"]}
{"id": "C22", "title": "Contour and Multisegment point location is exact", "statement": "locate(point) is BOUNDARY (and `point in` is True) iff the point lies on one of the segments, EXTERIOR otherwise.", "quantifier": "all contours/multisegments and points", "why_tests_cant": "All points, unbounded sizes.", "anchors": ["rene/_geometries/base_contour.py: locate", "rene/_geometries/base_multisegment.py: locate"]}
{"id": "C23", "title": "Point-in-region: BOUNDARY exactly on edges", "statement": "Polygon(border, []).locate(p) is BOUNDARY iff p lies on an edge of the border.", "quantifier": "all borders of any size and all points", "why_tests_cant": "All points, unbounded sizes.", "anchors": ["rene/_utils.py: locate_point_in_region"]}
{"id": "C24", "title": "Point-in-region does not depend on the representation of the border", "statement": "Rotating or reversing the vertices of the border does not change the location of any point (so equal borders give equal answers).", "quantifier": "all borders, points", "why_tests_cant": "Unbounded.", "anchors": ["rene/_utils.py: locate_point_in_region"]}
{"id": "C25", "title": "Point-in-region changes only across the boundary", "statement": "If a segment between two points meets no point of the border then both its endpoints have the same location; points outside the bounding box of the border are EXTERIOR; a point with an even (odd) number of proper edge crossings towards a far away point is EXTERIOR (INTERIOR).", "quantifier": "all borders (even self-intersecting), all pairs of points", "why_tests_cant": "Jordan-curve style statement over all points.", "anchors": ["rene/_utils.py: locate_point_in_region"]}
{"id": "C26", "title": "Triangle/convex location agrees with half-planes", "statement": "For a triangular border, INTERIOR iff the point is strictly on the same side of all three edges.", "quantifier": "all non-degenerate triangles and points", "why_tests_cant": "All points.", "anchors": ["rene/_utils.py: locate_point_in_region"]}
{"id": "C27", "title": "Polygon and Multipolygon location is compositional", "statement": "Polygon.locate: EXTERIOR/BOUNDARY of border decides; otherwise a point inside a hole is EXTERIOR, on a hole is BOUNDARY, else INTERIOR. Multipolygon.locate: the location in the first polygon not EXTERIOR; `in` iff locate is not EXTERIOR.", "quantifier": "all polygons with any number of holes, multipolygons with any number of polygons", "why_tests_cant": "Unbounded.", "anchors": ["rene/_geometries/base_polygon.py: locate, __contains__", "rene/_geometries/base_multipolygon.py: locate, __contains__"]}
{"id": "C28", "title": "Segment & Multisegment/Contour (both orders) is exact", "statement": "The segments of the result cover exactly the points that belong to a common continuum (more than one point) of the segment and a component segment.", "quantifier": "all segments and multisegments/contours of any size", "why_tests_cant": "All points and sizes.", "anchors": ["rene/_clipping/intersection.py: intersect_segment_with_multisegmental, intersect_multisegmental_with_segment"]}
{"id": "C29", "title": "Multisegment/Contour - Segment is exact", "statement": "The result covers every point of the minuend not in the subtrahend, only points of the minuend, and shares no continuum with the subtrahend (for minuends whose segments do not overlap each other).", "quantifier": "all sizes", "why_tests_cant": "All points and sizes.", "anchors": ["rene/_clipping/difference.py: subtract_segment_from_multisegmental"]}
{"id": "C30", "title": "Segment | Multisegment/Contour (both orders) covers exactly both operands", "statement": "The segments of the result cover exactly the points of the operands.", "quantifier": "all sizes", "why_tests_cant": "All points and sizes.", "anchors": ["rene/_clipping/union.py: unite_multisegmental_with_segment, unite_segment_with_multisegmental"]}
{"id": "C31", "title": "The plane sweep preserves the operands", "statement": "Whatever order events are processed in, every piece produced by a sweep lies on the input segment it is attributed to, and the pieces of one input segment together cover exactly that segment.", "quantifier": "all inputs, all sweep histories", "why_tests_cant": "Unbounded histories with data-dependent subdivision.", "anchors": ["rene/_bentley_ottmann/events_registry.py: EventsRegistry", "rene/_clipping/linear.py: Operation._divide, _detect_intersection"]}
{"id": "C32", "title": "Sweeps terminate", "statement": "Processing the event queue always finishes, because a piece is only divided strictly inside and only at one of finitely many points.", "quantifier": "all inputs", "why_tests_cant": "Unbounded.", "anchors": ["rene/_bentley_ottmann/events_registry.py", "rene/_clipping/linear.py: Operation.__iter__"]}
{"id": "C33", "title": "Multisegment/Contour union by sweep covers exactly both operands", "statement": "For valid multisegments/contours a, b: a | b returns without assertion failure, its segments cover exactly the points of a or b, and no two of them cross or overlap.", "quantifier": "all valid operands of any size, any balance of the search tree", "why_tests_cant": "All points and sizes.", "anchors": ["rene/_clipping/union.py: LinearUnion, unite_multisegmental_with_multisegmental"]}
{"id": "C34", "title": "Multisegment/Contour intersection by sweep is exact", "statement": "For valid multisegments/contours a, b: a & b covers exactly the points of the pieces of positive length common to a segment of a and a segment of b; its segments do not cross or overlap.", "quantifier": "all valid operands of any size, any balance of the search tree", "why_tests_cant": "All points and sizes.", "anchors": ["rene/_clipping/intersection.py: LinearIntersection, intersect_multisegmental_with_multisegmental"]}
{"id": "C35", "title": "Multisegment/Contour difference by sweep", "statement": "For valid linear operands: a - b covers exactly the closure of the points of a that are not in b; so it lies in a and every point of a is covered by a - b or by b; its segments do not cross or overlap.", "quantifier": "all valid operands of any size, any balance of the search tree", "why_tests_cant": "All points and sizes.", "anchors": ["rene/_clipping/difference.py: LinearDifference, subtract_multisegmental_from_multisegmental, subtract_multisegmental_from_segment"]}
{"id": "C36", "title": "Multisegment/Contour symmetric difference by sweep", "statement": "For valid linear operands: a ^ b covers exactly the closures of a without b and of b without a; so it lies in a or b and each point of a or b is covered by a ^ b or common to both; its segments do not cross or overlap.", "quantifier": "all valid operands of any size, any balance of the search tree", "why_tests_cant": "All points and sizes.", "anchors": ["rene/_clipping/symmetric_difference.py: LinearSymmetricDifference, symmetric_subtract_multisegmental_from_multisegmental"]}
{"id": "C37", "title": "Multisegment.is_valid accepts exactly the segments meeting at common endpoints", "statement": "multisegment.is_valid() is True iff any two of its segments (at different positions) have in common at most a point that is an endpoint of both; the sweep behind it ends on every input, and the answer True depends neither on the balancing of the search tree nor on the order of equal queue events. (As documented by the relation names one would expect segments which only TOUCH to be accepted: the T-junction refutes that. Over a multisegment that is not valid the call may raise an AssertionError instead of answering False: also shown.)", "quantifier": "all multisegments of any size", "why_tests_cant": "Depends on the sweep history.", "anchors": ["rene/_geometries/base_multisegment.py: is_valid", "rene/_bentley_ottmann/base.py: sweep", "rene/_bentley_ottmann/events_registry.py"]}
{"id": "C38", "title": "relate_to is symmetric up to complement between linear geometries of different kinds", "statement": "s.relate_to(g) is r iff g.relate_to(s) is r.complement, for a segment s and a multisegment or contour g. (The same claim with a polygon for g is false of the code, in three independent ways, each proved by a counterexample: Polygon.relate_to(segment) returns the relation of the segment to the polygon without complementing it; its sweep never removes a segment from the sweep line, so a segment outside the polygon may be reported WITHIN; it takes every border for counterclockwise.)", "quantifier": "all segments, all valid multisegments, all simple contours of any size; the polygon claim: refuted", "why_tests_cant": "The repo's own hypothesis test runs two examples on CI.", "anchors": ["rene/_relating/segment.py", "rene/_relating/multisegment.py", "rene/_relating/contour.py", "rene/_relating/polygon.py: relate_to_segment", "rene/_relating/mixed.py: ShapedLinearOperation, to_relation, _remove"]}
{"id": "C39", "title": "relate_to depends only on the operand, not on its representation", "statement": "s.relate_to(g) and g.relate_to(s) do not depend on the representation: reversing s, permuting and reversing the segments of a multisegment g, rotating and reversing the vertices of a simple contour g change nothing. (The same claim for polygons is false of the code: a diagonal of a square is ENCLOSED or TOUCH depending on the orientation of the border; proved as a counterexample.)", "quantifier": "all segments, all valid multisegments, all simple contours of any size, all equal representations", "why_tests_cant": "Representation changes (rotation, reversal).", "anchors": ["rene/_relating/segment_endpoints.py: relate_to_contour_segments, relate_to_multisegment_segments, relate_to_region", "rene/_relating/segment.py", "rene/_relating/contour.py: relate_to_segment", "rene/_relating/multisegment.py: relate_to_segment"]}
{"id": "C40", "title": "Difference of a linear and a shaped geometry is a valid linear geometry", "statement": "multisegment - polygon, contour - polygon contain no segment twice, not even reversed, and nothing the polygon covers. (False of the code, proved by counterexamples: the left and the right event of each piece are recorded, so that the result holds a piece and its reversal; segments lying on a side of the polygon are returned unchanged.)", "quantifier": "all operands; refuted by concrete ones", "why_tests_cant": "All inputs.", "anchors": ["rene/_clipping/difference.py: subtract_polygon_from_segment, subtract_polygon_from_multisegmental, subtract_multipolygon_from_segment", "rene/_clipping/mixed.py: Operation.reduce_events"]}
{"id": "C41", "title": "Trapezoidation.locate agrees with the geometry", "statement": "Trapezoidation.from_multisegment(multisegment, seeder) ends without error and its locate(point) is multisegment.locate(point) for every point and every seed. Trapezoidation.from_polygon(polygon, seeder) ends without error too and its locate(point) is BOUNDARY exactly on the boundary of the polygon; agreement elsewhere is false of the code (the flag of the edge closing a contour is inverted): an interior point is answered INTERIOR exactly when neither of the sides next below and next above it closes a contour, an exterior point is answered INTERIOR exactly when both of them exist and close contours.", "quantifier": "all valid multisegments, all valid polygons whose sides meet only at their ends, points, seeds", "why_tests_cant": "The existing test only checks the result type.", "anchors": ["rene/_seidel/trapezoidation.py: _populate_from_contour, from_polygon, locate", "rene/_seidel/*.py"]}
{"id": "C42", "title": "Seeds are validated and select permutations", "statement": "validate_seed raises TypeError for non-integers, ValueError for negative, OverflowError above the machine limit, and accepts all others; permuting by any seed is a permutation of the edges, every permutation is selected by exactly one seed below n!, and seeds equal modulo n! select the same permutation.", "quantifier": "all seeds and all sequences of any length", "why_tests_cant": "n! permutations.", "anchors": ["rene/_utils.py: permute, validate_seed"]}
{"id": "C43", "title": "Circle location predicate is exact", "statement": "For a counterclockwise triangle, the predicate reports INTERIOR/BOUNDARY/EXTERIOR iff the point is strictly inside / on / strictly outside its circumcircle.", "quantifier": "all triangles and points", "why_tests_cant": "Degree-4 polynomial sign over all rationals.", "anchors": ["rene/_utils.py: locate_point_in_point_point_point_circle"]}
{"id": "C44", "title": "Triangulation output is well formed", "statement": "Every triangle of Delaunay(points).triangles() has its three vertices among the given points, pairwise distinct, counterclockwise (positive area) and starting with its least vertex; no triangle is listed twice.", "quantifier": "all point lists", "why_tests_cant": "All inputs.", "anchors": ["rene/_triangulation/delaunay.py: DelaunayTriangulation.triangles_vertices, from_points", "rene/_triangulation/mesh.py"]}
{"id": "C45", "title": "Quad-edge structure invariants", "statement": "The triangulation's edge structure remains a valid quad-edge structure (rotations and neighbour maps are mutually inverse permutations) after any sequence of edge creation, splicing, connection, deletion and diagonal swap; swapping keeps endpoints consistent.", "quantifier": "all operation histories", "why_tests_cant": "Unbounded histories.", "anchors": ["rene/_triangulation/mesh.py: Mesh.create_edge, splice_edges, connect_edges, delete_edge, swap_diagonal", "rene/_triangulation/quad_edge.py"]}
{"id": "C46", "title": "Divide-and-conquer bookkeeping uses every point once", "statement": "to_base_cases solves 2*s + 3*t = n for all n >= 2, and ceil_log2(k) merging rounds reduce k sub-triangulations to one.", "quantifier": "all n >= 2", "why_tests_cant": "All n.", "anchors": ["rene/_triangulation/mesh.py: to_base_cases, build_delaunay_triangulation", "rene/_utils.py: ceil_log2"]}
{"id": "C47", "title": "Empty is neutral/absorbing", "statement": "Empty & g = g & Empty = Empty; Empty | g = g | Empty = g; g - Empty = g; Empty - g = Empty; Empty ^ g = g ^ Empty = g; Empty contains no point; relate_to with Empty is DISJOINT or EQUAL as documented; all Empty are equal. An operator raises TypeError exactly for unsupported combinations of linear and shaped operands.", "quantifier": "every geometry", "why_tests_cant": "Every class.", "anchors": ["rene/_geometries/base_empty.py", "rene/_geometries/base_*.py: __and__, __or__, __sub__, __xor__"]}
{"id": "C48", "title": "Result collection picks the right class", "statement": "Clipping results with no part are Empty, with one part are that part itself, with several parts are a Multisegment/Multipolygon holding exactly these parts in order; constructors reject fewer than 3 vertices, 2 segments, 2 polygons.", "quantifier": "all result lists", "why_tests_cant": "All sizes.", "anchors": ["rene/_utils.py: collect_*", "rene/_exact/*.py"]}
{"id": "C49", "title": "Removing collinear vertices preserves the outline", "statement": "shrinking collinear vertices of a closed polyline keeps a subsequence of the vertices starting with the first, leaves no three consecutive collinear vertices up to the last-to-first seam, and keeps the covered outline for monotone collinear runs.", "quantifier": "all vertex lists", "why_tests_cant": "Unbounded.", "anchors": ["rene/_utils.py: shrink_collinear_vertices"]}
{"id": "C50", "title": "Edges of a polygon are enumerated once with the interior on a known side", "statement": "polygon edges given to sweeps are exactly the edges of the border and the holes as undirected segments, with the border directed counterclockwise and holes clockwise at their least vertex.", "quantifier": "all polygons", "why_tests_cant": "Unbounded.", "anchors": ["rene/_utils.py: to_oriented_segments, polygon_to_correctly_oriented_segments, to_contour_segments, rotate_sequence"]}
{"id": "C51", "title": "Immutable vertex/segment sequences behave like Python sequences", "statement": "Indexing (also negative, IndexError out of range), iteration, reversal, len, count, index, contains and slicing with non-negative bounds on the exposed vertices/segments/holes/polygons sequences agree with the tuple of elements.", "quantifier": "all sequences, indices", "why_tests_cant": "All indices.", "anchors": ["rene/_exact/contour.py:_ContourSegments", "rene/_exact/contour.py:_ContourVertices", "rene/_exact/multisegment.py:_MultisegmentSegments", "rene/_exact/polygon.py:_PolygonHoles", "rene/_exact/multipolygon.py:_MultipolygonPolygons"]}
{"id": "C52", "title": "The triangulation boundary is a closed walk over given points", "statement": "DelaunayTriangulation(points).border, for points with at least two distinct ones, ends without error and lists the starts of a closed chain of mesh edges, each continuing to the right where the previous ends, no edge passed twice. (For fewer distinct points the code raises an AssertionError although a branch for this case exists.)", "quantifier": "all point lists", "why_tests_cant": "The walk is an unbounded loop over a mesh built by an unbounded number of merges.", "anchors": ["rene/_triangulation/delaunay.py: DelaunayTriangulation.to_boundary_points", "rene/_exact/triangulation.py: DelaunayTriangulation.border"]}
{"id": "C53", "title": "Vertices of a contour are checked for straight angles everywhere", "statement": "The check of the vertices used by Contour.is_valid accepts a vertex list of length >= 3 iff no vertex lies on the line through its two neighbours, cyclically (also over the seam between the last and the first vertex).", "quantifier": "all vertex lists of length at least 3", "why_tests_cant": "Every position of the straight angle in lists of every length.", "anchors": ["rene/_utils.py: are_contour_vertices_non_degenerate", "rene/_geometries/base_contour.py: is_valid"]}
{"id": "C54", "title": "Relation of a segment and a multisegment", "statement": "segment.relate_to(multisegment) never fails an assertion and returns exactly the relation its documentation describes in terms of points: EQUAL/COMPONENT/COMPOSITE iff the point sets are equal / included / including, OVERLAP iff they share a continuum but neither includes the other, CROSS iff they share no continuum but the multisegment passes from one side of the segment to the other at an inner point, TOUCH iff they meet otherwise, DISJOINT iff they have no common point; multisegment.relate_to(segment) returns the complement. The relations exclude each other.", "quantifier": "all segments and all valid multisegments of any size", "why_tests_cant": "The loop accumulates subsets covered by any number of segments in any order.", "anchors": ["rene/_relating/segment_endpoints.py: relate_to_multisegment_segments", "rene/_relating/segment.py: relate_to_multisegment", "rene/_relating/multisegment.py: relate_to_segment"]}
{"id": "C55", "title": "Relation of a segment and a contour", "statement": "segment.relate_to(contour) for a simple contour without straight angles never fails an assertion and returns exactly the relation its documentation describes in terms of points (see C54), contour.relate_to(segment) returns the complement.", "quantifier": "all segments and all simple contours of any size", "why_tests_cant": "Depends on which consecutive edges are touched in which order, over the seam as well.", "anchors": ["rene/_relating/segment_endpoints.py: relate_to_contour_segments", "rene/_relating/segment.py: relate_to_contour", "rene/_relating/contour.py: relate_to_segment"]}
{"id": "C56", "title": "Contour.is_valid accepts exactly the simple contours", "statement": "contour.is_valid() of a contour with at least three vertices is True iff no vertex is repeated, no three consecutive vertices are collinear and two different edges have in common at most a common endpoint; the sweep behind it ends on every input.", "quantifier": "all vertex lists of length at least 3, of any shape", "why_tests_cant": "The count of intersections and the neighbour test must agree with simplicity for every arrangement of edges and every history of the sweep.", "anchors": ["rene/_geometries/base_contour.py: is_valid, _neighbour_segments_vertices_touch", "rene/_bentley_ottmann/base.py: sweep", "rene/_bentley_ottmann/events_registry.py"]}
{"id": "C57", "title": "Intersection of polygons", "statement": "polygon & polygon never raises, and a point on neither outline is inside the contours of the result exactly if it is inside both operands.", "quantifier": "all pairs of valid polygons (simple contours without straight angles, edges of different contours meeting at most at an endpoint of one of them, holes inside the border and apart), any shape of the sweep line tree, all points", "why_tests_cant": "The sweep divides and overlaps edges in unboundedly many configurations; a missed or doubled boundary piece shows only at particular arrangements.", "anchors": ["rene/_clipping/intersection.py: intersect_polygon_with_polygon", "rene/_clipping/shaped.py: Operation, Operation.reduce_events, _events_to_connectivity, _compute_relations", "rene/_exact/polygon.py: __and__, __or__, __sub__, __xor__"]}
{"id": "C58", "title": "Union of polygons", "statement": "polygon | polygon never raises, and a point on neither outline is inside the contours of the result exactly if it is inside one of the operands.", "quantifier": "all pairs of valid polygons (simple contours without straight angles, edges of different contours meeting at most at an endpoint of one of them, holes inside the border and apart), any shape of the sweep line tree, all points", "why_tests_cant": "The sweep divides and overlaps edges in unboundedly many configurations; a missed or doubled boundary piece shows only at particular arrangements.", "anchors": ["rene/_clipping/union.py: unite_polygon_with_polygon", "rene/_clipping/shaped.py: Operation, Operation.reduce_events, _events_to_connectivity, _compute_relations", "rene/_exact/polygon.py: __and__, __or__, __sub__, __xor__"]}
{"id": "C59", "title": "Difference of polygons", "statement": "polygon - polygon never raises, and a point on neither outline is inside the contours of the result exactly if it is inside the minuend and not inside the subtrahend.", "quantifier": "all pairs of valid polygons (simple contours without straight angles, edges of different contours meeting at most at an endpoint of one of them, holes inside the border and apart), any shape of the sweep line tree, all points", "why_tests_cant": "The sweep divides and overlaps edges in unboundedly many configurations; a missed or doubled boundary piece shows only at particular arrangements.", "anchors": ["rene/_clipping/difference.py: subtract_polygon_from_polygon", "rene/_clipping/shaped.py: Operation, Operation.reduce_events, _events_to_connectivity, _compute_relations", "rene/_exact/polygon.py: __and__, __or__, __sub__, __xor__"]}
{"id": "C60", "title": "Symmetric difference of polygons", "statement": "polygon ^ polygon never raises, and a point on neither outline is inside the contours of the result exactly if it is inside exactly one of the operands.", "quantifier": "all pairs of valid polygons (simple contours without straight angles, edges of different contours meeting at most at an endpoint of one of them, holes inside the border and apart), any shape of the sweep line tree, all points", "why_tests_cant": "The sweep divides and overlaps edges in unboundedly many configurations; a missed or doubled boundary piece shows only at particular arrangements.", "anchors": ["rene/_clipping/symmetric_difference.py: symmetric_subtract_polygon_from_polygon", "rene/_clipping/shaped.py: Operation, Operation.reduce_events, _events_to_connectivity, _compute_relations", "rene/_exact/polygon.py: __and__, __or__, __sub__, __xor__"]}
{"id": "C61", "title": "Shape of the results of set operations on polygons", "statement": "The four operations on two polygons return Empty, a Polygon or a Multipolygon of at least two polygons; the contours of the result have at least three vertices and no straight angles and lie on the outlines of the operands.", "quantifier": "all pairs of valid polygons (simple contours without straight angles, edges of different contours meeting at most at an endpoint of one of them, holes inside the border and apart), any shape of the sweep line tree, all points", "why_tests_cant": "The sweep divides and overlaps edges in unboundedly many configurations; a missed or doubled boundary piece shows only at particular arrangements.", "anchors": ["rene/_clipping/shaped.py: _contour_events_to_vertices", "rene/_clipping/shaped.py: Operation, Operation.reduce_events, _events_to_connectivity, _compute_relations", "rene/_exact/polygon.py: __and__, __or__, __sub__, __xor__"]}
{"id": "C62", "title": "Nesting of the contours of results of set operations on polygons", "statement": "locate of the result of polygon & | - ^ polygon agrees with the operation: every hole of the result is a hole of the polygon of the result that contains it. (False of the code: see the refutation.)", "quantifier": "all pairs of valid polygons (simple contours without straight angles, edges of different contours meeting at most at an endpoint of one of them, holes inside the border and apart), any shape of the sweep line tree, all points", "why_tests_cant": "The wrong parent shows only when the event that a contour starts with has below it an edge that is divided at the same point afterwards.", "anchors": ["rene/_clipping/shaped.py: _compute_relations, _compute_left_event_fields (_below_event_from_result)", "rene/_clipping/intersection.py: intersect_polygon_with_polygon"]}
{"id": "C63", "title": "Intersection of multipolygons", "statement": "A polygon or multipolygon & a polygon or multipolygon never raises, and a point on neither outline is inside the contours of the result (even-odd) exactly if locate says it is inside both of the operands.", "quantifier": "all pairs of a valid polygon or multipolygon (of at least two valid polygons, whose edges meet at most at an endpoint of one of them and no point inside two of them) with another one, any shape of the sweep line tree, all points", "why_tests_cant": "The drivers filter polygons and edges by boxes, stop at a limit and reattach what was filtered; a wrong filter shows only at particular arrangements of the polygons.", "anchors": ["rene/_clipping/intersection.py: intersect_multipolygon_with_multipolygon, intersect_multipolygon_with_polygon, intersect_polygon_with_multipolygon", "rene/_geometries/base_multipolygon.py, base_polygon.py: __and__, __or__, __sub__, __xor__", "rene/_clipping/shaped.py: Operation"]}
{"id": "C64", "title": "Union of multipolygons", "statement": "A polygon or multipolygon | a polygon or multipolygon never raises, and a point on neither outline is inside the contours of the result (even-odd) exactly if locate says it is inside at least one of the operands.", "quantifier": "all pairs of a valid polygon or multipolygon (of at least two valid polygons, whose edges meet at most at an endpoint of one of them and no point inside two of them) with another one, any shape of the sweep line tree, all points", "why_tests_cant": "The drivers filter polygons and edges by boxes, stop at a limit and reattach what was filtered; a wrong filter shows only at particular arrangements of the polygons.", "anchors": ["rene/_clipping/union.py: unite_multipolygon_with_multipolygon, unite_multipolygon_with_polygon, unite_polygon_with_multipolygon", "rene/_geometries/base_multipolygon.py, base_polygon.py: __and__, __or__, __sub__, __xor__", "rene/_clipping/shaped.py: Operation"]}
{"id": "C65", "title": "Difference of multipolygons", "statement": "A polygon or multipolygon - a polygon or multipolygon never raises, and a point on neither outline is inside the contours of the result (even-odd) exactly if locate says it is inside the first operand and not the second one.", "quantifier": "all pairs of a valid polygon or multipolygon (of at least two valid polygons, whose edges meet at most at an endpoint of one of them and no point inside two of them) with another one, any shape of the sweep line tree, all points", "why_tests_cant": "The drivers filter polygons and edges by boxes, stop at a limit and reattach what was filtered; a wrong filter shows only at particular arrangements of the polygons.", "anchors": ["rene/_clipping/difference.py: subtract_multipolygon_from_multipolygon, subtract_multipolygon_from_polygon, subtract_polygon_from_multipolygon", "rene/_geometries/base_multipolygon.py, base_polygon.py: __and__, __or__, __sub__, __xor__", "rene/_clipping/shaped.py: Operation"]}
{"id": "C66", "title": "Symmetric difference of multipolygons", "statement": "A polygon or multipolygon ^ a polygon or multipolygon never raises, and a point on neither outline is inside the contours of the result (even-odd) exactly if locate says it is inside exactly one of the operands.", "quantifier": "all pairs of a valid polygon or multipolygon (of at least two valid polygons, whose edges meet at most at an endpoint of one of them and no point inside two of them) with another one, any shape of the sweep line tree, all points", "why_tests_cant": "The drivers filter polygons and edges by boxes, stop at a limit and reattach what was filtered; a wrong filter shows only at particular arrangements of the polygons.", "anchors": ["rene/_clipping/symmetric_difference.py: symmetric_subtract_multipolygon_from_multipolygon, symmetric_subtract_multipolygon_from_polygon, symmetric_subtract_polygon_from_multipolygon", "rene/_geometries/base_multipolygon.py, base_polygon.py: __and__, __or__, __sub__, __xor__", "rene/_clipping/shaped.py: Operation"]}
{"id": "C67", "title": "Shape of the results of set operations on multipolygons", "statement": "The operations of C63-C66 return Empty, a Polygon or a Multipolygon of at least two polygons; the contours of the result have at least three vertices and no straight angles and lie on the outlines of the operands.", "quantifier": "all pairs of a valid polygon or multipolygon (of at least two valid polygons, whose edges meet at most at an endpoint of one of them and no point inside two of them) with another one, any shape of the sweep line tree, all points", "why_tests_cant": "The drivers filter polygons and edges by boxes, stop at a limit and reattach what was filtered; a wrong filter shows only at particular arrangements of the polygons.", "anchors": ["rene/_clipping/shaped.py: Operation.reduce_events, _contour_events_to_vertices", "rene/_utils.py: collect_maybe_empty_polygons, collect_non_empty_polygons", "rene/_geometries/base_multipolygon.py, base_polygon.py: __and__, __or__, __sub__, __xor__"]}
{"id": "C68", "title": "Relation between multisegments and contours", "statement": "For two operands each a multisegment or a contour, relate_to never raises and returns the relation between the two point sets: EQUAL, COMPONENT or COMPOSITE exactly for equal sets, a proper subset and a proper superset, OVERLAP if a segment of positive length is common and neither contains the other, CROSS or TOUCH if only finitely many points are common, DISJOINT if none.", "quantifier": "all pairs of multisegments or contours whose segments meet at endpoints only and where no segment of one operand has just the points of the other, all shapes of the sweep line tree; false without these hypotheses and as to never raising (see the refuted theorems)", "why_tests_cant": "The answer is assembled from local flags over a sweep that divides segments and stops early; whether the flags describe infinitely many points depends on the arrangement of arbitrarily many segments.", "anchors": ["rene/_relating/linear.py: Operation", "rene/_relating/multisegmental.py", "rene/_relating/multisegment.py", "rene/_relating/contour.py"]}
{"id": "C69", "title": "Exchanging the operands complements the relation (linear)", "statement": "For two operands each a multisegment or a contour, b.relate_to(a) is a.relate_to(b).complement.", "quantifier": "all pairs of multisegments or contours", "why_tests_cant": "The two calls run different sweeps on different filtered inputs; agreement has to hold for all configurations of segments around the common points.", "anchors": ["rene/_relating/linear.py: Operation", "rene/_relating/multisegmental.py", "rene/_enums.py: Relation.complement"]}
{"id": "C70", "title": "Relation of two polygons", "statement": "relate_to between two polygons never raises and returns the relation between the two sets of points: DISJOINT or TOUCH if there is no common point or no common interior point, OVERLAP if the interiors meet and neither contains the other, EQUAL, and for a proper part WITHIN, ENCLOSED or COMPONENT according to whether the outlines are apart, meet, or one is drawn along the other (COVER, ENCLOSES, COMPOSITE the other way round).", "quantifier": "all pairs of valid polygons with borders drawn counterclockwise and holes clockwise, all shapes of the sweep line tree", "why_tests_cant": "The answer is assembled from flags of edges met during a sweep that stops early and leaves out holes; that they describe infinitely many points depends on the arrangement of arbitrarily many edges.", "anchors": ["rene/_relating/shaped.py: Operation, RelationState", "rene/_relating/polygon.py: relate_to_polygon", "rene/_relating/utils.py: polygon_to_segments", "rene/_geometries/base_polygon.py: BasePolygon.relate_to"]}
{"id": "C71", "title": "Equal polygons are related alike", "statement": "If two polygons compare equal by ==, relate_to between them is EQUAL (it is not: the relation depends on the direction in which the contours are drawn, which no constructor checks).", "quantifier": "all pairs of valid polygons", "why_tests_cant": "The relation is assembled from the sides of edges on which the interior lies, for all arrangements of edges; tests use generators that orient the contours.", "anchors": ["rene/_relating/shaped.py: Operation", "rene/_relating/polygon.py: relate_to_polygon", "rene/_geometries/base_polygon.py: BasePolygon.relate_to"]}
{"id": "C72", "title": "Exchanging the operands complements the relation (polygons)", "statement": "For two polygons b.relate_to(a) is a.relate_to(b).complement.", "quantifier": "all pairs of valid polygons with borders drawn counterclockwise and holes clockwise", "why_tests_cant": "The two calls run different sweeps, with other tie breaks and early exits.", "anchors": ["rene/_relating/shaped.py: Operation, RelationState", "rene/_relating/polygon.py: relate_to_polygon", "rene/_relating/utils.py: polygon_to_segments", "rene/_geometries/base_polygon.py: BasePolygon.relate_to", "rene/_enums.py: Relation.complement"]}
{"id": "C73", "title": "Relation of polygons and multipolygons", "statement": "relate_to between polygons and multipolygons, in any combination, never raises and returns the relation between the two sets of points, by the same rules as for two polygons.", "quantifier": "all pairs of valid polygons and multipolygons with borders drawn counterclockwise and holes clockwise, no polygon of a multipolygon partly in a hole of another; all shapes of the sweep line tree", "why_tests_cant": "Polygons and holes away from the other operand are left out of the sweep, and what remains must still be a multipolygon whose edges have the right sides; this depends on how arbitrarily many polygons nest.", "anchors": ["rene/_relating/multipolygon.py: relate_to_multipolygon, relate_to_polygon", "rene/_relating/polygon.py: relate_to_multipolygon, relate_to_polygon", "rene/_relating/shaped.py: Operation, RelationState", "rene/_relating/utils.py: polygon_to_segments", "rene/_geometries/base_multipolygon.py: BaseMultipolygon.relate_to", "rene/_geometries/base_polygon.py: BasePolygon.relate_to"]}
{"id": "C74", "title": "Exchanging the operands complements the relation (multipolygons)", "statement": "For polygons and multipolygons b.relate_to(a) is a.relate_to(b).complement.", "quantifier": "as for C73", "why_tests_cant": "The two calls leave out different polygons and run different sweeps.", "anchors": ["rene/_relating/multipolygon.py: relate_to_multipolygon, relate_to_polygon", "rene/_relating/polygon.py: relate_to_multipolygon, relate_to_polygon", "rene/_relating/shaped.py: Operation, RelationState", "rene/_relating/utils.py: polygon_to_segments", "rene/_geometries/base_multipolygon.py: BaseMultipolygon.relate_to", "rene/_geometries/base_polygon.py: BasePolygon.relate_to", "rene/_enums.py: Relation.complement"]}
{"id": "C75", "title": "Relating a multipolygon with a linear geometry never raises", "statement": "relate_to between a valid multipolygon and a valid multisegment or contour never raises. (Refuted: the multipolygon's relate_to takes the maximum of no numbers when its polygons are all away from the linear geometry and the boxes of the whole geometries are not; relate_to of the linear geometry fails an assertion too when the polygons near it end left of its segments near the multipolygon. With a single segment neither order raises that way.)", "quantifier": "all pairs of a valid multipolygon and a valid multisegment or contour", "why_tests_cant": "The failure needs a particular position of many boxes; only a proof could exclude that there is one.", "anchors": ["rene/_relating/multipolygon.py: relate_to_multisegmental, relate_to_segment", "rene/_relating/multisegmental.py: relate_to_multipolygon", "rene/_relating/segment.py: relate_to_multipolygon", "rene/_relating/polygon.py: relate_to_multisegmental", "rene/_relating/mixed.py: Operation, RelationState"]}
{"id": "C76", "title": "Linear geometries reported WITHIN are inside", "statement": "If relate_to between a linear geometry and a polygon or multipolygon is WITHIN, every point of the linear geometry is in the polygon or the multipolygon. (Refuted: segments right of what the sweep reaches are dropped and taken for inside; segments that the sweep line has left stay in it.)", "quantifier": "all pairs of a valid linear geometry and a valid polygon or multipolygon", "why_tests_cant": "The answer depends on the order in which arbitrarily many segments are dropped, swept and left.", "anchors": ["rene/_relating/multipolygon.py: relate_to_multisegmental, relate_to_segment", "rene/_relating/multisegmental.py: relate_to_multipolygon", "rene/_relating/segment.py: relate_to_multipolygon", "rene/_relating/polygon.py: relate_to_multisegmental", "rene/_relating/mixed.py: Operation, RelationState"]}
{"id": "C77", "title": "Intersecting a linear and a shaped geometry gives exactly the pieces inside", "statement": "a & b and b & a for a segment, multisegment or contour a and a valid polygon or multipolygon b never raise and consist of exactly the points on those pieces of positive length of a all of whose points are in b (according to `in`), given by segments that do not cross or overlap; so the result lies in both operands and contains every point of a in the interior of b; pieces along the border count, isolated touching points do not.", "quantifier": "all pairs of a segment, or a multisegment or contour without crossings and overlaps, and a valid polygon or multipolygon; every shape of the search trees of the sweep", "why_tests_cant": "The result depends on the arrangement of arbitrarily many segments, on the boxes that filter them and on the order of events; a test fixes finitely many arrangements.", "anchors": ["rene/_clipping/intersection.py: intersect_segment_with_polygon, intersect_segment_with_multipolygon, intersect_multisegmental_with_polygon, intersect_multisegmental_with_multipolygon, intersect_polygon_with_segment, intersect_polygon_with_multisegmental, intersect_multipolygon_with_segment, intersect_multipolygon_with_multisegmental", "rene/_clipping/mixed.py: Operation, LinearShapedIntersection, ShapedLinearIntersection", "rene/_geometries/base_polygon.py: __and__", "rene/_geometries/base_multipolygon.py: __and__", "rene/_geometries/base_segment.py: __and__"]}
{"id": "C78", "title": "Locating a point in a polygon or a multipolygon is topologically exact", "statement": "For a valid polygon or multipolygon locate(x) is BOUNDARY exactly if x is on a contour of one of its polygons, INTERIOR exactly if x is inside one of the polygons and EXTERIOR otherwise, so that `x in g` tells whether x belongs to one of the polygons; a point inside a hole is on no other hole.", "quantifier": "all valid polygons and multipolygons and all points", "why_tests_cant": "locate looks at the holes and the polygons one after another and stops at the first that answers; that no later one would answer otherwise follows from validity only, for arbitrarily many of them.", "anchors": ["rene/_geometries/base_polygon.py: locate, __contains__", "rene/_geometries/base_multipolygon.py: locate, __contains__", "rene/_utils.py: locate_point_in_region"]}
{"id": "C79", "title": "Subtracting a shaped geometry from a linear one keeps exactly what is outside, as a point set", "statement": "a - b for a multisegment or contour a and a valid polygon or multipolygon b never raises; no point of the result is in the interior of b and every point of a in the exterior of b is in the result; unless the bounding boxes of the operands only touch, the result is, as a set of points, exactly the closure of a without b. Its segments are segments of a that were not swept and non-overlapping pieces, each of the latter listed twice, once in either direction (C40).", "quantifier": "all multisegments and contours without crossings and overlaps, all valid polygons and multipolygons, every shape of the search trees of the sweep", "why_tests_cant": "The result depends on the arrangement of arbitrarily many segments, the boxes that filter them and the limit of the sweep; tests fix finitely many.", "anchors": ["rene/_clipping/difference.py: subtract_polygon_from_multisegmental, subtract_multipolygon_from_multisegmental, LinearShapedDifference", "rene/_clipping/mixed.py: Operation", "rene/_geometries/base_multisegment.py: __sub__", "rene/_geometries/base_contour.py: __sub__"]}
{"id": "C80", "title": "A constrained triangulation is made of well-formed triangles on the polygon's vertices", "statement": "If ConstrainedDelaunayTriangulation.from_polygon(p) returns, then reading its triangles and its border raises nothing and ends; every triangle has three vertices of p, positive area and its least vertex first; no triangle has the three vertices of a triangular hole of p; the border is read off a closed walk along the edges of the mesh that passes no edge twice. The mesh is a consistent quad-edge structure over the distinct vertices of p in increasing order.", "quantifier": "all polygons, valid or not, with any number of contours and vertices, repeated vertices included", "why_tests_cant": "The mesh is rewired by arbitrarily long sequences of swaps and deletions that depend on all the coordinates; tests see finitely many.", "anchors": ["rene/_triangulation/constrained_delaunay.py: ConstrainedDelaunayTriangulation.from_polygon, constrain, bound, cut, triangles_vertices, to_boundary_points", "rene/_triangulation/mesh.py: swap_diagonal, delete_edge", "rene/_exact/triangulation.py: triangles, border"]}
{"id": "C81", "title": "Equal polygons have the same triangles, made of points of the polygon (refuted)", "statement": "from_polygon(p) and from_polygon(q) list the same triangles when p == q, and the triangles lie in the polygon. This fails for valid polygons with a hole of four or more vertices drawn counterclockwise: the triangles within the hole are listed.", "quantifier": "all pairs of equal valid polygons", "why_tests_cant": "It relates the results for all ways to write down a polygon.", "anchors": ["rene/_triangulation/constrained_delaunay.py: cut, is_segment_inside_hole, angle_contains_point"]}
{"id": "C82", "title": "Adjacent triangles of the constrained triangulation satisfy the Delaunay criterion (refuted)", "statement": "For two listed triangles with a common side that is not a side of the polygon, the vertex of one of them is not inside the circle through the vertices of the other. This fails for a valid polygon without holes.", "quantifier": "all valid polygons and all pairs of listed triangles with a common side", "why_tests_cant": "It is a claim about every pair of triangles after arbitrarily many swaps.", "anchors": ["rene/_triangulation/constrained_delaunay.py: restore_delaunay_criterion, resolve_crossings, edge_should_be_swapped"]}
{"id": "C83", "title": "The outline of the result of a set operation is the boundary of its region", "statement": "For valid polygons and multipolygons a, b and each of a & b, a | b, a - b, a ^ b: a point lies on a contour of the result if and only if arbitrarily near to it, off the outlines of a and b, there are both points that the operation takes and points that it does not. So the result has no doubled or stray edges and misses none.", "quantifier": "all valid polygons and multipolygons, all points, all distances", "why_tests_cant": "It quantifies over all points of the plane and all distances; tests compare finitely many results.", "anchors": ["rene/_clipping/intersection.py, union.py, difference.py, symmetric_difference.py", "rene/_clipping/shaped.py: Operation"]}
{"id": "C84", "title": "A set operation returns EMPTY exactly if there is nothing to return", "statement": "a & b is EMPTY iff no point is inside both; a - b is EMPTY iff every point of a belongs to b; a ^ b is EMPTY iff each of a and b contains the other; a | b is never EMPTY.", "quantifier": "all valid polygons and multipolygons", "why_tests_cant": "The condition ranges over all points of the plane.", "anchors": ["rene/_clipping/intersection.py, union.py, difference.py, symmetric_difference.py", "rene/_clipping/shaped.py: Operation"]}
{"id": "C85", "title": "Laws of the set operations", "statement": "Exchanging the operands of &, |, ^ and changing the shape of the sweep line's tree leave the region and the outline the same; if a is a part of b then a & b = a, a | b = b, a - b = EMPTY, a ^ b = b - a as regions (in particular for a = b); if the interiors have no common point then a & b = EMPTY, a - b = a and a | b = a ^ b.", "quantifier": "all valid polygons and multipolygons, all priorities of the tree", "why_tests_cant": "It relates results for all inputs and all random priorities.", "anchors": ["rene/_clipping/intersection.py, union.py, difference.py, symmetric_difference.py", "rene/_clipping/shaped.py: Operation"]}
{"id": "C86", "title": "relate_to agrees with the set operations", "statement": "a.relate_to(b) is DISJOINT or TOUCH iff a & b is EMPTY; EQUAL, WITHIN, ENCLOSED or COMPONENT iff a - b is EMPTY; EQUAL, COVER, ENCLOSES or COMPOSITE iff b - a is EMPTY; EQUAL iff a ^ b is EMPTY.", "quantifier": "all valid polygons and multipolygons with borders counterclockwise and holes clockwise", "why_tests_cant": "It relates two independent sweeps for all inputs.", "anchors": ["rene/_clipping/intersection.py, union.py, difference.py, symmetric_difference.py", "rene/_clipping/shaped.py: Operation", "rene/_relating/shaped.py: Operation"]}
{"id": "C87", "title": "The operators between linear geometries obey the laws of sets", "statement": "Any expression built from valid linear geometries with &, |, -, ^ and with & of a polygon or multipolygon evaluates without an exception to a valid linear geometry whose points are, but for finitely many, those of the set operation it denotes; two expressions that denote the same set operation (exchanged, regrouped, distributed, reduced operands, ...) come to exactly the same points, whatever the balance of the sweep lines' trees.", "quantifier": "all expressions, all valid operands (Empty, segments, multisegments, contours; polygons and multipolygons to the side of &), all priorities of the trees", "why_tests_cant": "It ranges over all expressions and chains results of one sweep into another.", "anchors": ["rene/_geometries/base_segment.py, base_multisegment.py, base_contour.py, base_empty.py: __and__, __or__, __sub__, __xor__", "rene/_clipping/intersection.py, union.py, difference.py, symmetric_difference.py", "rene/_clipping/linear.py: Operation"]}
{"id": "C88", "title": "relate_to of linear geometries agrees with their set operations", "statement": "a & b is EMPTY iff no segments of a and b overlap, a - b iff every point of a is one of b, a ^ b iff they have the same points, a | b iff both are; and a.relate_to(b) is DISJOINT, TOUCH or CROSS iff a & b is EMPTY, EQUAL or COMPONENT iff a - b is EMPTY, EQUAL or COMPOSITE iff b - a is EMPTY, EQUAL iff a ^ b is EMPTY; if it raises (C68) then a & b is EMPTY.", "quantifier": "all valid linear geometries for the first part; for the second two segments, a segment and a multisegment or simple contour in either order, two simple contours, and multisegments under the hypotheses of C68", "why_tests_cant": "It relates independent loops and sweeps for all inputs.", "anchors": ["rene/_geometries/base_segment.py, base_multisegment.py, base_contour.py, base_empty.py: __and__, __or__, __sub__, __xor__", "rene/_clipping/intersection.py, union.py, difference.py, symmetric_difference.py", "rene/_clipping/linear.py: Operation", "rene/_relating/segment.py, multisegment.py, contour.py, linear.py"]}
{"id": "C89", "title": "& and - with a shaped operand split a linear geometry", "statement": "For a multisegment or contour a and a polygon or multipolygon b, a & b and a - b together cover exactly a and (unless the boxes only touch) have finitely many common points, all on the border of b; a & b is EMPTY iff no piece of a of positive length is in b, has the points of a iff every point of a is in b, and then (and only then) a - b is EMPTY; a - b has the points of a - (a & b); (a | c) - b those of a - b and c - b, and the same with &, - and ^ but for finitely many points. It holds for a that is itself the value of any expression of linear operators, and expressions that denote the same points outside b leave the same points.", "quantifier": "all valid multisegments and contours, all expressions with such a value, all valid polygons and multipolygons, all priorities of the trees", "why_tests_cant": "It relates the results of several sweeps for all inputs and expressions.", "anchors": ["rene/_geometries/base_multisegment.py, base_contour.py: __and__, __sub__", "rene/_clipping/intersection.py, difference.py: the functions with polygon or multipolygon and multisegmental", "rene/_clipping/mixed.py: Operation"]}
{"id": "C90", "title": "`in` of a result of a set operation follows from `in` of the operands", "statement": "For valid polygons or multipolygons a, b and a valid result r: x in a | b iff x in a or x in b, for every point x; x in a & b implies both and follows if x is in both and inside one of them; x in a - b implies x in a and x not inside b and follows if x is in a and not in b; x in a ^ b implies x in a or b and not inside both and follows if x is in exactly one.", "quantifier": "all valid polygons and multipolygons whose result is valid, all points (those on the borders, too), all priorities of the tree", "why_tests_cant": "It ranges over all operands and all points, those on the borders included.", "anchors": ["rene/_geometries/base_polygon.py, base_multipolygon.py: __and__, __or__, __sub__, __xor__, __contains__, locate", "rene/_clipping/shaped.py: Operation, reduce_events"]}
{"id": "C91", "title": "Clipping with results of set operations and with multipolygons", "statement": "For the value e of any expression of linear operators: e & (multipolygon of p1, ..., pn) has the points of (e & p1) | ... | (e & pn); e & (g | h) those of (e & g) | (e & h); (e & (g - h)) | (e & g & h) those of e & g; (e & (g ^ h)) | (e & g & h) those of (e & g) | (e & h); e & (g & h) lies in e & g & h; e - (g | h) has the points of e - (e & g) - (e & h).", "quantifier": "all expressions of valid linear operands, all valid polygons and multipolygons whose result is valid, all priorities of the trees", "why_tests_cant": "It relates the sweeps between shaped geometries to those with linear ones for all inputs.", "anchors": ["rene/_geometries/base_multisegment.py, base_contour.py: __and__, __sub__", "rene/_clipping/intersection.py, difference.py: the functions with polygon or multipolygon and multisegmental", "rene/_clipping/mixed.py: Operation", "rene/_geometries/base_polygon.py, base_multipolygon.py: __and__, __or__, __sub__, __xor__, __contains__, locate", "rene/_clipping/shaped.py: Operation, reduce_events"]}
{"id": "C92", "title": "Contours of results of set operations are simple", "statement": "For valid polygons and multipolygons a, b and each of a & b, a | b, a - b, a ^ b: every contour of the result, border or hole, is simple: no repeated vertices, no straight angles, and two different edges have at most a common endpoint in common. So Contour.is_valid accepts every one of them, and the polygon with that border and no holes is a valid operand again.", "quantifier": "all pairs of valid polygons or multipolygons, all priorities of the trees", "why_tests_cant": "Where contours meet depends on the walk round every vertex that several pieces share; tests see finitely many configurations.", "anchors": ["rene/_clipping/shaped.py: reduce_events, _to_contour_events, _contour_events_to_vertices, _events_to_connectivity, _to_next_event_id", "rene/_utils.py: shrink_collinear_vertices", "rene/_geometries/base_polygon.py, base_multipolygon.py: __and__, __or__, __sub__, __xor__", "rene/_geometries/base_contour.py: is_valid"]}
{"id": "C93", "title": "Edges of results of set operations do not cross", "statement": "For valid polygons and multipolygons a, b: the edges of all of the contours of a & b neither cross nor overlap: any two of them, of one contour or of two, have at most one point in common, which is an endpoint of one of them. The same holds of a - b when a is a polygon, and of a | b and a ^ b when a and b are polygons.", "quantifier": "all pairs of valid polygons or multipolygons (polygons, for |, ^ and the minuend of -), all priorities of the trees", "why_tests_cant": "Contours that share a vertex could pass through each other there, depending on how the walk round the vertex pairs the pieces; after the removal of collinear vertices the crossing would be in the middle of two edges. Tests see finitely many configurations.", "anchors": ["rene/_clipping/shaped.py: reduce_events, _to_contour_events, _events_to_connectivity, _to_next_event_id", "rene/_utils.py: shrink_collinear_vertices", "rene/_geometries/base_polygon.py, base_multipolygon.py: __and__, __or__, __sub__, __xor__"]}
