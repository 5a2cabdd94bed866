{
 "claims": [
  {
   "property": "C01",
   "status": "proved",
   "theorems": [
    "c01_complement_involutive",
    "c01_complement_table"
   ],
   "note": ""
  },
  {
   "property": "C02",
   "status": "proved",
   "theorems": [
    "c02_order_is_lexicographic",
    "c02_total_order"
   ],
   "note": "equal hashes: the hashed key is equal"
  },
  {
   "property": "C03",
   "status": "proved",
   "theorems": [
    "c03_valid_iff_has_points",
    "c03_disjoint_with",
    "c03_covers_within",
    "c03_encloses_enclosed",
    "c03_equals_to",
    "c03_touches_overlaps"
   ],
   "note": "touches/overlaps are stated for boxes with a non-empty interior (they speak of interiors); the rest for all valid boxes"
  },
  {
   "property": "C04",
   "status": "proved",
   "theorems": [
    "c04_relate_iff_meaning",
    "c04_relate_total",
    "c04_relate_iff_predicate",
    "c04_exclusive_degenerate_refuted"
   ],
   "note": "characterisation and exclusivity for solid boxes, totality for all valid boxes; for degenerate boxes exclusivity is false (c04_exclusive_degenerate_refuted)"
  },
  {
   "property": "C05",
   "status": "proved",
   "theorems": [
    "c05_relate_complement"
   ],
   "note": ""
  },
  {
   "property": "C06",
   "status": "proved",
   "theorems": [
    "c06_common_point_not_disjoint",
    "c06_common_continuum_kept",
    "c06_filters_complementary",
    "c06_filters_exact",
    "c06_merge_is_least_cover"
   ],
   "note": ""
  },
  {
   "property": "C07",
   "status": "proved",
   "theorems": [
    "c07_collinear_iff_on_line",
    "c07_sign_of_area",
    "c07_alternating"
   ],
   "note": ""
  },
  {
   "property": "C08",
   "status": "proved",
   "theorems": [
    "c08_segment_location"
   ],
   "note": ""
  },
  {
   "property": "C09",
   "status": "proved",
   "theorems": [
    "c09_equal_iff_same_points",
    "c09_equal_hash"
   ],
   "note": "equal hashes: the hashed sets of endpoints are equal"
  },
  {
   "property": "C10",
   "status": "proved",
   "theorems": [
    "c10_relate_iff_meaning",
    "c10_relate_total"
   ],
   "note": ""
  },
  {
   "property": "C11",
   "status": "proved",
   "theorems": [
    "c11_relate_complement",
    "c11_relate_direction"
   ],
   "note": ""
  },
  {
   "property": "C12",
   "status": "proved",
   "theorems": [
    "c12_crossing_point"
   ],
   "note": ""
  },
  {
   "property": "C13",
   "status": "proved",
   "theorems": [
    "c13_intersection_exact"
   ],
   "note": ""
  },
  {
   "property": "C14",
   "status": "proved",
   "theorems": [
    "c14_union_exact",
    "c14_union_merges_collinear"
   ],
   "note": ""
  },
  {
   "property": "C15",
   "status": "proved",
   "theorems": [
    "c15_difference_exact"
   ],
   "note": "the closure of the difference is in_difference of Spec_Clip"
  },
  {
   "property": "C16",
   "status": "proved",
   "theorems": [
    "c16_symmetric_difference_exact"
   ],
   "note": ""
  },
  {
   "property": "C17",
   "status": "proved",
   "theorems": [
    "c17_equal_iff_same_cycle",
    "c17_equivalence"
   ],
   "note": ""
  },
  {
   "property": "C18",
   "status": "proved",
   "theorems": [
    "c18_equal_hash",
    "c18_equal_hash_degenerate_refuted"
   ],
   "note": "for non-degenerate contours (as restated); c18_equal_hash_degenerate_refuted shows the claim false for contours whose least vertex is in the middle of a straight angle"
  },
  {
   "property": "C19",
   "status": "proved",
   "theorems": [
    "c19_multisegment_equal",
    "c19_multisegment_hash",
    "c19_polygon_equal",
    "c19_polygon_hash",
    "c19_multipolygon_equal",
    "c19_multipolygon_hash",
    "c19_equivalences"
   ],
   "note": "polygons and multipolygons with non-degenerate contours and pairwise different holes; a hash is identified with what is hashed"
  },
  {
   "property": "C20",
   "status": "proved",
   "theorems": [
    "c20_bounding_box_least"
   ],
   "note": ""
  },
  {
   "property": "C21",
   "status": "proved",
   "theorems": [
    "c21_rotation_invariant",
    "c21_reversal_flips",
    "c21_triangle",
    "c21_convex"
   ],
   "note": "signed area: triangles and strictly convex contours"
  },
  {
   "property": "C22",
   "status": "proved",
   "theorems": [
    "c22_polyline_location"
   ],
   "note": "exact for segments, multisegments and contours, both locate and `in`"
  },
  {
   "property": "C23",
   "status": "proved",
   "theorems": [
    "c23_region_boundary"
   ],
   "note": "for every border, simple or not"
  },
  {
   "property": "C24",
   "status": "proved",
   "theorems": [
    "c24_region_representation"
   ],
   "note": "for every border"
  },
  {
   "property": "C25",
   "status": "proved",
   "theorems": [
    "c25_constant_off_the_border",
    "c25_exterior_outside_box",
    "c25_crossing_parity",
    "c25_crossing_parity_applies"
   ],
   "note": "constancy off the border, EXTERIOR outside the box, crossing parity; the parity theorem applies to every point off the border"
  },
  {
   "property": "C26",
   "status": "proved",
   "theorems": [
    "c26_triangle",
    "c26_convex"
   ],
   "note": "triangles of non-zero area in either direction; strictly convex borders in any representation"
  },
  {
   "property": "C27",
   "status": "proved",
   "theorems": [
    "c27_polygon",
    "c27_polygon_sets",
    "c27_multipolygon",
    "c27_contains",
    "c27_multipolygon_contains"
   ],
   "note": "polygons with holes, multipolygons, `in`"
  },
  {
   "property": "C28",
   "status": "proved",
   "theorems": [
    "c28_intersection_exact"
   ],
   "note": ""
  },
  {
   "property": "C29",
   "status": "proved",
   "theorems": [
    "c29_difference_exact"
   ],
   "note": "covering is stated for minuends whose segments do not overlap each other (as the property says); the result is non-crossing when the minuend is"
  },
  {
   "property": "C30",
   "status": "proved",
   "theorems": [
    "c30_union_exact"
   ],
   "note": ""
  },
  {
   "property": "C31",
   "status": "proved",
   "theorems": [
    "c31_any_history",
    "c31_sweep"
   ],
   "note": "For the linear sweep (rene/_clipping/linear.py): any history of pops, line updates and examinations, hence the sweep itself with any tree shape."
  },
  {
   "property": "C32",
   "status": "proved",
   "theorems": [
    "c32_sweep_terminates"
   ],
   "note": "Explicit bound on the iterations, cubic in the number of input segments, for every tree shape and limit."
  },
  {
   "property": "C33",
   "status": "proved",
   "theorems": [
    "c33_union_exact"
   ],
   "note": "for valid operands (no two segments of one operand cross or overlap); exact description of the covered points, the result's segments do not cross, no assertion fails and the loop ends; any tree shape"
  },
  {
   "property": "C34",
   "status": "proved",
   "theorems": [
    "c34_intersection_exact"
   ],
   "note": "for valid operands (no two segments of one operand cross or overlap); exact description of the covered points, the result's segments do not cross, no assertion fails and the loop ends; any tree shape"
  },
  {
   "property": "C35",
   "status": "proved",
   "theorems": [
    "c35_difference_exact",
    "c35_segment_difference_exact"
   ],
   "note": "for valid operands (no two segments of one operand cross or overlap); exact description of the covered points, the result's segments do not cross, no assertion fails and the loop ends; any tree shape; multisegment/contour minus multisegment/contour and segment minus multisegment/contour (the third function is C29)"
  },
  {
   "property": "C36",
   "status": "proved",
   "theorems": [
    "c36_symmetric_difference_exact",
    "c36_segment_first_exact",
    "c36_segment_second_exact"
   ],
   "note": "for valid operands (no two segments of one operand cross or overlap); exact description of the covered points, the result's segments do not cross, no assertion fails and the loop ends; any tree shape; all three functions of symmetric_difference.py with a sweep over linear operands"
  },
  {
   "property": "C37",
   "status": "proved",
   "theorems": [
    "c37_multisegment_is_valid",
    "c37_ends",
    "c37_touching_refuted",
    "c37_raises_refuted"
   ],
   "note": "lists of non-degenerate segments; True iff they meet at common endpoints only; *_refuted theorems show the T-junction and an AssertionError on an invalid input"
  },
  {
   "property": "C38",
   "status": "proved",
   "theorems": [
    "c38_segment_multisegment",
    "c38_segment_contour",
    "c38_polygon_refuted",
    "c38_stale_refuted",
    "c38_clockwise_refuted"
   ],
   "note": "proved for a segment against a multisegment or a contour (as restated); the claim for polygons is refuted on the faithful model by three c38_*_refuted theorems"
  },
  {
   "property": "C39",
   "status": "proved",
   "theorems": [
    "c39_multisegment",
    "c39_contour",
    "c39_polygon_refuted"
   ],
   "note": "for segments against multisegments and contours in both directions; the claim for polygons is refuted on the faithful model (c39_polygon_refuted)"
  },
  {
   "property": "C40",
   "status": "proved",
   "theorems": [
    "c40_segment_refuted",
    "c40_multisegment_refuted",
    "c40_side_refuted"
   ],
   "note": "the claim is false of the code: refuted on the faithful model of the mixed sweep (c40_*_refuted); no positive part is claimed"
  },
  {
   "property": "C41",
   "status": "proved",
   "theorems": [
    "c41_multisegment",
    "c41_polygon_refuted",
    "c41_polygon"
   ],
   "note": "Trapezoidation.from_multisegment: proved for every multisegment whose segments meet only at endpoints, every seed and every point that the construction ends without an error and that locate answers as Multisegment.locate. Trapezoidation.from_polygon: agreement with Polygon.locate is refuted (the flag of the closing edge of a contour is inverted); c41_polygon proves for every valid polygon whose sides only meet at ends, every seed and every point what it does answer: never an error, BOUNDARY exactly on the boundary, and elsewhere the right answer unless the side next below or above the point is a closing one, in which case the wrong answer is characterised exactly."
  },
  {
   "property": "C42",
   "status": "proved",
   "theorems": [
    "c42_validation",
    "c42_permutation",
    "c42_every_permutation",
    "c42_exactly_one_seed",
    "c42_modulo_factorial"
   ],
   "note": ""
  },
  {
   "property": "C43",
   "status": "proved",
   "theorems": [
    "c43_circle_location",
    "c43_circle_exists"
   ],
   "note": ""
  },
  {
   "property": "C44",
   "status": "proved",
   "theorems": [
    "c44_triangles",
    "c44_no_reordered_triangle",
    "c44_mesh"
   ],
   "note": "for every list of points: the construction and the listing end, never fail, triangles well formed, none repeated in any order; the mesh is a quad-edge structure over the sorted distinct points"
  },
  {
   "property": "C45",
   "status": "proved",
   "theorems": [
    "c45_histories",
    "c45_neighbours",
    "c45_create",
    "c45_splice",
    "c45_connect",
    "c45_delete",
    "c45_swap"
   ],
   "note": "Every operation on a quad-edge mesh never fails on edges of the mesh, keeps the structure and has exactly its described effect; all histories from Mesh.from_points."
  },
  {
   "property": "C46",
   "status": "proved",
   "theorems": [
    "c46_base_cases",
    "c46_ceil_log2",
    "c46_rounds"
   ],
   "note": ""
  },
  {
   "property": "C47",
   "status": "proved",
   "theorems": [
    "c47_empty",
    "c47_empty_relate",
    "c47_empty_points",
    "c47_supported"
   ],
   "note": "the functions computing non-empty pairs are parameters of the theorems"
  },
  {
   "property": "C48",
   "status": "proved",
   "theorems": [
    "c48_constructors",
    "c48_collect_segments",
    "c48_collect_polygons"
   ],
   "note": ""
  },
  {
   "property": "C49",
   "status": "proved",
   "theorems": [
    "c49_subsequence",
    "c49_no_collinear_triple",
    "c49_nondegenerate",
    "c49_outline"
   ],
   "note": "subsequence, no collinear triple, outline preserved for outlines that do not turn back"
  },
  {
   "property": "C50",
   "status": "proved",
   "theorems": [
    "c50_edges_once",
    "c50_directions"
   ],
   "note": "edges with multiplicity, count, directions"
  },
  {
   "property": "C51",
   "status": "proved",
   "theorems": [
    "c51_getitem",
    "c51_iteration",
    "c51_search",
    "c51_slice"
   ],
   "note": "slices with non-negative bounds and unit step"
  },
  {
   "property": "C52",
   "status": "proved",
   "theorems": [
    "c52_boundary",
    "c52_boundary_of_few_points_refuted"
   ],
   "note": "for at least two distinct points; with fewer the faithful model raises an AssertionError (c52_boundary_of_few_points_refuted)"
  },
  {
   "property": "C53",
   "status": "proved",
   "theorems": [
    "c53_contour_vertices_non_degenerate"
   ],
   "note": ""
  },
  {
   "property": "C54",
   "status": "proved",
   "theorems": [
    "c54_segment_to_multisegment",
    "c54_total",
    "c54_multisegment_to_segment",
    "c54_exclusive"
   ],
   "note": "proper segment, valid multisegment of at least two segments (the class's own requirement)"
  },
  {
   "property": "C55",
   "status": "proved",
   "theorems": [
    "c55_segment_to_contour",
    "c55_total",
    "c55_contour_to_segment"
   ],
   "note": "simple contour without straight angles (a valid contour)"
  },
  {
   "property": "C56",
   "status": "proved",
   "theorems": [
    "c56_contour_is_valid",
    "c56_ends"
   ],
   "note": "contours with at least three vertices"
  },
  {
   "property": "C57",
   "status": "proved",
   "theorems": [
    "c57_polygons_intersection"
   ],
   "note": "two valid polygons; inside is by the even-odd rule over the contours of the result (the nesting of the contours is a separate matter)"
  },
  {
   "property": "C58",
   "status": "proved",
   "theorems": [
    "c58_polygons_union"
   ],
   "note": "two valid polygons; inside is by the even-odd rule over the contours of the result (the nesting of the contours is a separate matter)"
  },
  {
   "property": "C59",
   "status": "proved",
   "theorems": [
    "c59_polygons_difference"
   ],
   "note": "two valid polygons; inside is by the even-odd rule over the contours of the result (the nesting of the contours is a separate matter)"
  },
  {
   "property": "C60",
   "status": "proved",
   "theorems": [
    "c60_polygons_symmetric_difference"
   ],
   "note": "two valid polygons; inside is by the even-odd rule over the contours of the result (the nesting of the contours is a separate matter)"
  },
  {
   "property": "C61",
   "status": "proved",
   "theorems": [
    "c61_polygons_shape"
   ],
   "note": "two valid polygons"
  },
  {
   "property": "C62",
   "status": "proved",
   "theorems": [
    "c62_nesting_refuted"
   ],
   "note": "the claim is false of the code: refuted on the faithful model for two holes of an operand that touch within an edge of the other one (c62_nesting_refuted); the even-odd statement that does hold is C57-C60"
  },
  {
   "property": "C63",
   "status": "proved",
   "theorems": [
    "c63_multipolygons_intersection"
   ],
   "note": "for all valid operands, polygon or multipolygon on either side; by the even-odd rule (nesting into holes is C62)"
  },
  {
   "property": "C64",
   "status": "proved",
   "theorems": [
    "c64_multipolygons_union"
   ],
   "note": "for all valid operands, polygon or multipolygon on either side; by the even-odd rule (nesting into holes is C62)"
  },
  {
   "property": "C65",
   "status": "proved",
   "theorems": [
    "c65_multipolygons_difference"
   ],
   "note": "for all valid operands, polygon or multipolygon on either side; by the even-odd rule (nesting into holes is C62)"
  },
  {
   "property": "C66",
   "status": "proved",
   "theorems": [
    "c66_multipolygons_symmetric_difference"
   ],
   "note": "for all valid operands, polygon or multipolygon on either side; by the even-odd rule (nesting into holes is C62)"
  },
  {
   "property": "C67",
   "status": "proved",
   "theorems": [
    "c67_multipolygons_shape"
   ],
   "note": "for the four operations and all valid operands"
  },
  {
   "property": "C68",
   "status": "proved",
   "theorems": [
    "c68_equal_refuted",
    "c68_overlap_refuted",
    "c68_touch_refuted",
    "c68_raises_refuted",
    "c68_relation",
    "c68_contours",
    "c68_exclusive"
   ],
   "note": "positive theorem for operands whose segments meet at endpoints only and none of which has just the points of the other operand (no hypothesis but simplicity for two contours); CROSS and TOUCH are one case (c69 refutes any symmetric reading); false of the code without these hypotheses and as to never raising (c68_*_refuted)"
  },
  {
   "property": "C69",
   "status": "proved",
   "theorems": [
    "c69_symmetry_refuted",
    "c69_contour_symmetry_refuted"
   ],
   "note": "the claim is false of the code: refuted on the faithful model for two multisegments and for a contour and a multisegment"
  },
  {
   "property": "C70",
   "status": "proved",
   "theorems": [
    "c70_polygons_relation",
    "c70_exclusive"
   ],
   "note": "for all pairs of valid polygons with counterclockwise borders and clockwise holes and all shapes of the sweep line tree; false without the orientation (C71)"
  },
  {
   "property": "C71",
   "status": "proved",
   "theorems": [
    "c71_orientation_refuted"
   ],
   "note": "the claim is false of the code: refuted on the faithful model by a square and the same square drawn the other way round"
  },
  {
   "property": "C72",
   "status": "proved",
   "theorems": [
    "c72_polygons_exchange"
   ],
   "note": "for all pairs of valid polygons with counterclockwise borders and clockwise holes"
  },
  {
   "property": "C73",
   "status": "proved",
   "theorems": [
    "c73_multipolygons_relation",
    "c73_exclusive"
   ],
   "note": "for all valid polygons and multipolygons with counterclockwise borders and clockwise holes, each polygon of a multipolygon within a hole of another altogether or not at all; all shapes of the sweep line tree"
  },
  {
   "property": "C74",
   "status": "proved",
   "theorems": [
    "c74_multipolygons_exchange"
   ],
   "note": "for the same operands as C73"
  },
  {
   "property": "C75",
   "status": "proved",
   "theorems": [
    "c75_multisegment_refuted",
    "c75_contour_refuted",
    "c75_segment",
    "c75_either_refuted"
   ],
   "note": "refuted: Multipolygon.relate_to of a multisegment or a contour raises when no polygon's box meets the box of the linear geometry. c75_either_refuted: for some of them both orders raise (the assertion that some segments are left fails). c75_segment: with a single segment neither order raises this way."
  },
  {
   "property": "C76",
   "status": "proved",
   "theorems": [
    "c76_beyond_refuted",
    "c76_stale_refuted",
    "c76_polygon_refuted"
   ],
   "note": "refuted: a linear geometry partly or altogether outside is reported WITHIN a polygon or a multipolygon"
  },
  {
   "property": "C77",
   "status": "proved",
   "theorems": [
    "c77_intersection_exact",
    "c77_intersection_points"
   ],
   "note": "every driver of the intersection of a linear and a shaped geometry, both orders, through the sweep of mixed.py"
  },
  {
   "property": "C78",
   "status": "proved",
   "theorems": [
    "c78_location_exact",
    "c78_contains_exact",
    "c78_holes_apart"
   ],
   "note": "locate and contains of valid polygons and multipolygons"
  },
  {
   "property": "C79",
   "status": "proved",
   "theorems": [
    "c79_difference_points",
    "c79_difference_exact",
    "c79_difference_segments"
   ],
   "note": "as point sets; how often the segments occur is C40 (refuted) and c79_difference_segments"
  },
  {
   "property": "C80",
   "status": "proved",
   "theorems": [
    "c80_constrained_mesh",
    "c80_constrained_triangles",
    "c80_constrained_border",
    "c80_constrained_function"
   ],
   "note": "for every polygon for which the construction returns; that it always does, and that the triangles cover the polygon, is not claimed"
  },
  {
   "property": "C81",
   "status": "proved",
   "theorems": [
    "c81_hole_orientation_refuted"
   ],
   "note": "refuted: a counterexample is proved"
  },
  {
   "property": "C82",
   "status": "proved",
   "theorems": [
    "c82_delaunay_refuted"
   ],
   "note": "refuted: a counterexample is proved"
  },
  {
   "property": "C83",
   "status": "proved",
   "theorems": [
    "c83_intersection",
    "c83_union",
    "c83_difference",
    "c83_symmetric_difference",
    "c83_operand"
   ],
   "note": "Theorems on geometries by the even-odd rule; the converse direction uses that the parity is constant round a point off the contours."
  },
  {
   "property": "C84",
   "status": "proved",
   "theorems": [
    "c84_intersection",
    "c84_union",
    "c84_difference",
    "c84_symmetric_difference"
   ],
   "note": "Full statement."
  },
  {
   "property": "C85",
   "status": "proved",
   "theorems": [
    "c85_exchange_intersection",
    "c85_exchange_union",
    "c85_exchange_symmetric_difference",
    "c85_any_tree",
    "c85_part",
    "c85_self",
    "c85_apart"
   ],
   "note": "Regions: the same points on the contours and the same points inside by the even-odd rule; the contours may be cut up differently where they touch."
  },
  {
   "property": "C86",
   "status": "proved",
   "theorems": [
    "c86_relation_operators"
   ],
   "note": "As C73: settled multipolygons (each polygon in a hole of another altogether or not at all) and oriented contours."
  },
  {
   "property": "C87",
   "status": "proved",
   "theorems": [
    "c87_operators",
    "c87_expressions",
    "c87_same_denotation",
    "c87_exchange",
    "c87_grouping",
    "c87_distribution",
    "c87_reduction",
    "c87_symmetric_difference",
    "c87_inside"
   ],
   "note": "Operands valid (no two segments of one operand cross or overlap); difference with a polygon or multipolygon is not part of the expressions, for its results are not valid (C40)."
  },
  {
   "property": "C88",
   "status": "proved",
   "theorems": [
    "c88_empty_results",
    "c88_segments",
    "c88_segment_multisegment",
    "c88_segment_contour",
    "c88_contours",
    "c88_several"
   ],
   "note": "Between multisegments the relation is only right under the hypotheses of C68, so the agreement is claimed there."
  },
  {
   "property": "C89",
   "status": "proved",
   "theorems": [
    "c89_parts",
    "c89_nothing_inside",
    "c89_nothing_outside",
    "c89_all_inside",
    "c89_outside",
    "c89_same_outside",
    "c89_rest",
    "c89_distribution"
   ],
   "note": "Where the boxes only touch a - b is a (C40, C79), so those laws are stated for boxes that meet; a - b lists pieces twice (C40) and is compared as a set of points."
  },
  {
   "property": "C90",
   "status": "proved",
   "theorems": [
    "c90_union",
    "c90_intersection",
    "c90_difference",
    "c90_symmetric_difference"
   ],
   "note": "For results that are valid (the nesting of the contours may be wrong, C62)."
  },
  {
   "property": "C91",
   "status": "proved",
   "theorems": [
    "c91_multipolygon",
    "c91_union",
    "c91_difference",
    "c91_symmetric_difference",
    "c91_intersection",
    "c91_outside_union"
   ],
   "note": "For results that are valid (C62); points that differ between e & (g & h) and e & g & h lie on pieces along both borders, so only an inclusion holds."
  },
  {
   "property": "C92",
   "status": "proved",
   "theorems": [
    "c92_simple",
    "c92_accepted",
    "c92_operands"
   ],
   "note": "Each contour by itself; how the contours are nested may be wrong (C62)."
  },
  {
   "property": "C93",
   "status": "proved",
   "theorems": [
    "c93_and",
    "c93_sub",
    "c93_polygons"
   ],
   "note": "For &, for a polygon minus anything, and for | and ^ of two polygons; operations that keep polygons of a multipolygon aside are not covered."
  }
 ]
}