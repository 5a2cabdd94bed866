{
 "C01": [
  "proved",
  ""
 ],
 "C02": [
  "proved",
  "equal hashes: the hashed key is equal"
 ],
 "C03": [
  "proved",
  "touches/overlaps are stated for boxes with a non-empty interior (they speak of interiors); the rest for all valid boxes"
 ],
 "C04": [
  "proved",
  "characterisation and exclusivity for solid boxes, totality for all valid boxes; for degenerate boxes exclusivity is false (c04_exclusive_degenerate_refuted)"
 ],
 "C05": [
  "proved",
  ""
 ],
 "C06": [
  "proved",
  ""
 ],
 "C07": [
  "proved",
  ""
 ],
 "C08": [
  "proved",
  ""
 ],
 "C09": [
  "proved",
  "equal hashes: the hashed sets of endpoints are equal"
 ],
 "C10": [
  "proved",
  ""
 ],
 "C11": [
  "proved",
  ""
 ],
 "C12": [
  "proved",
  ""
 ],
 "C20": [
  "proved",
  ""
 ],
 "C13": [
  "proved",
  ""
 ],
 "C14": [
  "proved",
  ""
 ],
 "C15": [
  "proved",
  "the closure of the difference is in_difference of Spec_Clip"
 ],
 "C16": [
  "proved",
  ""
 ],
 "C28": [
  "proved",
  ""
 ],
 "C30": [
  "proved",
  ""
 ],
 "C29": [
  "proved",
  "covering is stated for minuends whose segments do not overlap each other (as the property says); the result is non-crossing when the minuend is"
 ],
 "C17": [
  "proved",
  ""
 ],
 "C18": [
  "proved",
  "for non-degenerate contours (as restated); c18_equal_hash_degenerate_refuted shows the claim false for contours whose least vertex is in the middle of a straight angle"
 ],
 "C19": [
  "proved",
  "polygons and multipolygons with non-degenerate contours and pairwise different holes; a hash is identified with what is hashed"
 ],
 "C21": [
  "proved",
  "signed area: triangles and strictly convex contours"
 ],
 "C42": [
  "proved",
  ""
 ],
 "C43": [
  "proved",
  ""
 ],
 "C46": [
  "proved",
  ""
 ],
 "C47": [
  "proved",
  "the functions computing non-empty pairs are parameters of the theorems"
 ],
 "C48": [
  "proved",
  ""
 ],
 "C51": [
  "proved",
  "slices with non-negative bounds and unit step"
 ],
 "C22": [
  "proved",
  "exact for segments, multisegments and contours, both locate and `in`"
 ],
 "C23": [
  "proved",
  "for every border, simple or not"
 ],
 "C24": [
  "proved",
  "for every border"
 ],
 "C25": [
  "proved",
  "constancy off the border, EXTERIOR outside the box, crossing parity; the parity theorem applies to every point off the border"
 ],
 "C26": [
  "proved",
  "triangles of non-zero area in either direction; strictly convex borders in any representation"
 ],
 "C27": [
  "proved",
  "polygons with holes, multipolygons, `in`"
 ],
 "C49": [
  "proved",
  "subsequence, no collinear triple, outline preserved for outlines that do not turn back"
 ],
 "C50": [
  "proved",
  "edges with multiplicity, count, directions"
 ],
 "C31": [
  "proved",
  "For the linear sweep (rene/_clipping/linear.py): any history of pops, line updates and examinations, hence the sweep itself with any tree shape."
 ],
 "C32": [
  "proved",
  "Explicit bound on the iterations, cubic in the number of input segments, for every tree shape and limit."
 ],
 "C33": [
  "proved",
  "for valid operands (no two segments of one operand cross or overlap); exact description of the covered points, the result's segments do not cross, no assertion fails and the loop ends; any tree shape"
 ],
 "C34": [
  "proved",
  "for valid operands (no two segments of one operand cross or overlap); exact description of the covered points, the result's segments do not cross, no assertion fails and the loop ends; any tree shape"
 ],
 "C35": [
  "proved",
  "for valid operands (no two segments of one operand cross or overlap); exact description of the covered points, the result's segments do not cross, no assertion fails and the loop ends; any tree shape; multisegment/contour minus multisegment/contour and segment minus multisegment/contour (the third function is C29)"
 ],
 "C36": [
  "proved",
  "for valid operands (no two segments of one operand cross or overlap); exact description of the covered points, the result's segments do not cross, no assertion fails and the loop ends; any tree shape; all three functions of symmetric_difference.py with a sweep over linear operands"
 ],
 "C45": [
  "proved",
  "Every operation on a quad-edge mesh never fails on edges of the mesh, keeps the structure and has exactly its described effect; all histories from Mesh.from_points."
 ],
 "C44": [
  "proved",
  "for every list of points: the construction and the listing end, never fail, triangles well formed, none repeated in any order; the mesh is a quad-edge structure over the sorted distinct points"
 ],
 "C52": [
  "proved",
  "for at least two distinct points; with fewer the faithful model raises an AssertionError (c52_boundary_of_few_points_refuted)"
 ],
 "C39": [
  "proved",
  "for segments against multisegments and contours in both directions; the claim for polygons is refuted on the faithful model (c39_polygon_refuted)"
 ],
 "C53": [
  "proved",
  ""
 ],
 "C54": [
  "proved",
  "proper segment, valid multisegment of at least two segments (the class's own requirement)"
 ],
 "C55": [
  "proved",
  "simple contour without straight angles (a valid contour)"
 ],
 "C38": [
  "proved",
  "proved for a segment against a multisegment or a contour (as restated); the claim for polygons is refuted on the faithful model by three c38_*_refuted theorems"
 ],
 "C37": [
  "proved",
  "lists of non-degenerate segments; True iff they meet at common endpoints only; *_refuted theorems show the T-junction and an AssertionError on an invalid input"
 ],
 "C56": [
  "proved",
  "contours with at least three vertices"
 ],
 "C40": [
  "proved",
  "the claim is false of the code: refuted on the faithful model of the mixed sweep (c40_*_refuted); no positive part is claimed"
 ],
 "C41": [
  "proved",
  "Trapezoidation.from_multisegment: proved for every multisegment whose segments meet only at endpoints, every seed and every point that the construction ends without an error and that locate answers as Multisegment.locate. Trapezoidation.from_polygon: agreement with Polygon.locate is refuted (the flag of the closing edge of a contour is inverted); c41_polygon proves for every valid polygon whose sides only meet at ends, every seed and every point what it does answer: never an error, BOUNDARY exactly on the boundary, and elsewhere the right answer unless the side next below or above the point is a closing one, in which case the wrong answer is characterised exactly."
 ],
 "C57": [
  "proved",
  "two valid polygons; inside is by the even-odd rule over the contours of the result (the nesting of the contours is a separate matter)"
 ],
 "C58": [
  "proved",
  "two valid polygons; inside is by the even-odd rule over the contours of the result (the nesting of the contours is a separate matter)"
 ],
 "C59": [
  "proved",
  "two valid polygons; inside is by the even-odd rule over the contours of the result (the nesting of the contours is a separate matter)"
 ],
 "C60": [
  "proved",
  "two valid polygons; inside is by the even-odd rule over the contours of the result (the nesting of the contours is a separate matter)"
 ],
 "C61": [
  "proved",
  "two valid polygons"
 ],
 "C62": [
  "proved",
  "the claim is false of the code: refuted on the faithful model for two holes of an operand that touch within an edge of the other one (c62_nesting_refuted); the even-odd statement that does hold is C57-C60"
 ],
 "C63": [
  "proved",
  "for all valid operands, polygon or multipolygon on either side; by the even-odd rule (nesting into holes is C62)"
 ],
 "C64": [
  "proved",
  "for all valid operands, polygon or multipolygon on either side; by the even-odd rule (nesting into holes is C62)"
 ],
 "C65": [
  "proved",
  "for all valid operands, polygon or multipolygon on either side; by the even-odd rule (nesting into holes is C62)"
 ],
 "C66": [
  "proved",
  "for all valid operands, polygon or multipolygon on either side; by the even-odd rule (nesting into holes is C62)"
 ],
 "C67": [
  "proved",
  "for the four operations and all valid operands"
 ],
 "C68": [
  "proved",
  "positive theorem for operands whose segments meet at endpoints only and none of which has just the points of the other operand (no hypothesis but simplicity for two contours); CROSS and TOUCH are one case (c69 refutes any symmetric reading); false of the code without these hypotheses and as to never raising (c68_*_refuted)"
 ],
 "C69": [
  "proved",
  "the claim is false of the code: refuted on the faithful model for two multisegments and for a contour and a multisegment"
 ],
 "C71": [
  "proved",
  "the claim is false of the code: refuted on the faithful model by a square and the same square drawn the other way round"
 ],
 "C70": [
  "proved",
  "for all pairs of valid polygons with counterclockwise borders and clockwise holes and all shapes of the sweep line tree; false without the orientation (C71)"
 ],
 "C72": [
  "proved",
  "for all pairs of valid polygons with counterclockwise borders and clockwise holes"
 ],
 "C73": [
  "proved",
  "for all valid polygons and multipolygons with counterclockwise borders and clockwise holes, each polygon of a multipolygon within a hole of another altogether or not at all; all shapes of the sweep line tree"
 ],
 "C74": [
  "proved",
  "for the same operands as C73"
 ],
 "C75": [
  "proved",
  "refuted: Multipolygon.relate_to of a multisegment or a contour raises when no polygon's box meets the box of the linear geometry. c75_either_refuted: for some of them both orders raise (the assertion that some segments are left fails). c75_segment: with a single segment neither order raises this way."
 ],
 "C76": [
  "proved",
  "refuted: a linear geometry partly or altogether outside is reported WITHIN a polygon or a multipolygon"
 ],
 "C77": [
  "proved",
  "every driver of the intersection of a linear and a shaped geometry, both orders, through the sweep of mixed.py"
 ],
 "C78": [
  "proved",
  "locate and contains of valid polygons and multipolygons"
 ],
 "C79": [
  "proved",
  "as point sets; how often the segments occur is C40 (refuted) and c79_difference_segments"
 ],
 "C80": [
  "proved",
  "for every polygon for which the construction returns; that it always does, and that the triangles cover the polygon, is not claimed"
 ],
 "C81": [
  "proved",
  "refuted: a counterexample is proved"
 ],
 "C82": [
  "proved",
  "refuted: a counterexample is proved"
 ],
 "C83": [
  "proved",
  "Theorems on geometries by the even-odd rule; the converse direction uses that the parity is constant round a point off the contours."
 ],
 "C84": [
  "proved",
  "Full statement."
 ],
 "C85": [
  "proved",
  "Regions: the same points on the contours and the same points inside by the even-odd rule; the contours may be cut up differently where they touch."
 ],
 "C86": [
  "proved",
  "As C73: settled multipolygons (each polygon in a hole of another altogether or not at all) and oriented contours."
 ],
 "C87": [
  "proved",
  "Operands valid (no two segments of one operand cross or overlap); difference with a polygon or multipolygon is not part of the expressions, for its results are not valid (C40)."
 ],
 "C88": [
  "proved",
  "Between multisegments the relation is only right under the hypotheses of C68, so the agreement is claimed there."
 ],
 "C89": [
  "proved",
  "Where the boxes only touch a - b is a (C40, C79), so those laws are stated for boxes that meet; a - b lists pieces twice (C40) and is compared as a set of points."
 ],
 "C90": [
  "proved",
  "For results that are valid (the nesting of the contours may be wrong, C62)."
 ],
 "C91": [
  "proved",
  "For results that are valid (C62); points that differ between e & (g & h) and e & g & h lie on pieces along both borders, so only an inclusion holds."
 ],
 "C92": [
  "proved",
  "Each contour by itself; how the contours are nested may be wrong (C62)."
 ],
 "C93": [
  "proved",
  "For &, for a polygon minus anything, and for | and ^ of two polygons; operations that keep polygons of a multipolygon aside are not covered."
 ]
}