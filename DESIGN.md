# A Rocq (Coq 8.16.1) model of lycantropos/rene

## 1. Layout

All files are in `rocq/theories/` (logical name `Verif`).

* `QcTac.v` - support only: `lra`/`nra`/`nia` on canonical rationals.
* `Model_*.v` - the program, function by function; each definition cites the
  file and lines of /repo it models, and says where it simplifies. No theorem, no
  proof.
* `Spec_*.v` - the independent vocabulary of the properties: `lerp`, `on_seg`
  (there is t in [0,1]), strict interiors, box point sets, `same_cycle`,
  `non_crossing`, `simple_contour`, ... None of it mentions a model function.
* `Proof_*.v` - lemmas.
* `Prop_*.v` - the theorems of the properties (each is `exact lemma`), each with
  an `Example` showing that a concrete non-trivial case meets its hypotheses, and
  with `Print Assumptions`.
* `tools/manifest.py` regenerates MANIFEST.json and the appendix of this file from
  the `Theorem cNN_...` lines; `tools/mutate.py` and `tools/seedlog.py` run the
  seeded bugs of `seeded/LOG.jsonl` in a scratch copy.

A theorem named `cNN_..._refuted` states that the faithful model does *not* have
some stronger form of the property: it exhibits an input on which the program (as
modelled) breaks it. The property in properties.jsonl is then the strongest true
form, and the refuted form is a finding (section 6).

## 2. Modelling decisions

* **Scalars** are `Qc` (canonical rationals, Leibniz equality): `rene.exact` uses
  the normalised exact `Fraction` of rithm. Conversions int/float -> Fraction are
  not modelled. Every `orient`/`incircle` is exact, as in `rene/_exact/__init__.py`.
* **Python identity and enums**: `is` on enums is `location_is`, `orientation_is`,
  `relation_is`.
* **Exceptions**: an `assert`/`raise`/index error inside modelled code is an explicit
  outcome (`None`, `AssertionFails`, `ValidityRaises`, `Raise` of the `res` monad of
  Model_Mesh), never a default value. Theorems say that it does not happen, or
  (findings) that it does.
* **Loops**: structural recursion, or explicit fuel with the outcome "out of fuel"
  kept apart from every other outcome, and a theorem giving an amount of fuel that
  is always enough (C32, C33-C37, C44).
* **Mutable structures**: state passing over lists indexed by `nat` (events) or by
  `Z`-like edge numbers (quad-edge arrays). A Python negative index is modelled where
  the code can produce one (C51, `item`).
* **Hashes**: a hash is identified with the value that is hashed; `frozenset`/`set`
  of hashable values is a list compared as a set.
* **prioq.PriorityQueue**: the queue is the list of pushed and not yet popped
  events; `pop` takes an element whose key no other element's key precedes. For
  `_clipping/linear.py` ties cannot matter (the key is a total order up to events that
  denote the same end of the same piece; the model scans in insertion order). For
  `_bentley_ottmann` the model takes an arbitrary `pick` among the minimal events, and
  the theorems hold for all of them.
* **dendroid red-black tree**: the sweep line is a sorted list and a search goes
  through an *arbitrary* binary tree over it (`shape : list event -> nat` chooses the
  root of every subtree), comparing keys only where that tree does. The theorems
  quantify over every `shape`, hence hold for every balanced tree, including the one
  the library builds. The rebalancing code itself is not modelled.
* **Valid operands**: clipping and relating sweeps are stated for operands the library
  calls valid (segments of one multisegment meet only in endpoints; contours simple,
  without straight angles where said). Invalid operands are outside the documented
  contract; the code does misbehave there (finding 9).
* **Type dispatch** (`singledispatch`, `isinstance` chains) is modelled by one function
  per pair of types; operators of `base_*.py` for `Empty` by Model_Operators with the
  non-empty case as a parameter of the theorems.

## 3. Trusted base

* Coq's kernel, version 8.16.1, including `vm_compute` (used for `Example`s and for
  `_refuted` theorems, which evaluate the model on literals).
* `Print Assumptions` answers **"Closed under the global context" for every theorem**
  of the manifest (list in the appendix): no axiom at all, neither own nor from the
  standard library (no functional extensionality, classical logic or reals).
* No functor, module type, `Declare Module`, plugin or disabled check. Sections with
  `Variable`/`Hypothesis` are all closed; what they assume appears as a premise of the
  generalised lemma.
* The hand translation Python -> Gallina in `Model_*.v`, and the reading of the English
  property in `Spec_*.v`.

## 4. What is modelled

| Gallina file | code |
|---|---|
| Model_Base | `_enums.py` (Relation, Location, Orientation), `base_point.py`, `orient`/`to_segments_intersection_point`/segment location of `_utils.py`, `_exact/__init__.py` |
| Model_Box | `base_box.py` (all predicates, `relate_to`), `do_boxes_*`, `merge_boxes`, bounding boxes of all geometries |
| Model_Segment | `base_segment.py` eq/hash/locate, segment x segment and segment x multisegmental parts of `_clipping/{intersection,union,difference}.py` |
| Model_Contour | `base_contour.py`, `base_multisegment.py`, `base_polygon.py`, `base_multipolygon.py`: eq, hash, locate, orientation; `locate_point_in_region`, `shrink_collinear_vertices`, `to_contour_orientation`, ... of `_utils.py` |
| Model_Geometry, Model_Operators | result collection (`collect_*`), constructors' checks, operators with `Empty` |
| Model_Utils | `permute`, seeds, `ceil_log2`, sequence wrappers of `_exact/{contour,multisegment,...}.py` |
| Model_Linear | the whole of `_clipping/linear.py` with `event.py`, `events_queue_key.py`, `sweep_line_key.py`, and the drivers in `union.py`, `intersection.py`, `difference.py`, `symmetric_difference.py` for multisegments, contours and segments |
| Model_Mesh | `_triangulation/{quad_edge,mesh,delaunay}.py`: every mesh operation, divide and conquer merge, triangles, boundary |
| Model_Relate | `_relating/segment_endpoints.py` (segment against segment, multisegment, contour, polygon border/region), `_relating/segment.py`, `multisegment.py`, `contour.py` for segments |
| Model_BentleyOttmann | the whole of `_bentley_ottmann` (`events_registry.py`, `base.py`, keys), `is_valid` of multisegments and contours |
| Model_Mixed | the whole of `_clipping/mixed.py` but contour events, `_relating/mixed.py`; polygon minus/and segment and multisegmental drivers, `Polygon.relate_to(Segment)` |
| Model_Seidel | the whole of `_seidel` |
| Model_Shaped | the whole of `_clipping/shaped.py` (sweep with interior flags, `reduce_events`), the shaped classes and the polygon x polygon drivers of `intersection.py`, `union.py`, `difference.py`, `symmetric_difference.py` |
| Model_RelateLinear | `_relating/linear.py`, `event.py`, `sweep_line_key.py`, `events_queue_key.py`, `multisegmental.py`, and `relate_to` of multisegments and contours with one another |
| Model_RelateShaped | `_relating/shaped.py`, `polygon.py`: `relate_to` between two polygons (the sweep is the one of Model_Shaped, the sources repeat it) |
| Model_RelateMultipolygon | `_relating/multipolygon.py`, `polygon.py`: `relate_to` between polygons and multipolygons |
| Model_RelateMixed | `_relating/multipolygon.py`, `multisegmental.py`, `segment.py`, `polygon.py`: `relate_to` between linear geometries and multipolygons, `Polygon.relate_to` of multisegments and contours |
| Model_MixedClip | the drivers of `intersection.py` for a linear geometry with a polygon or a multipolygon in either order, and their dispatch by `__and__` |
| Model_MixedDiff | `difference.py` for a linear geometry minus a multipolygon, and the dispatch of `__sub__` |
| Model_LinearOperators | the dispatch of `__and__`, `__or__`, `__sub__`, `__xor__` of segments, multisegments, contours and Empty to the functions of Model_Segment and Model_Linear, and of `__and__` with shaped geometries to Model_MixedClip |
| Model_Constrained | the whole of `_triangulation/constrained_delaunay.py` and `vertices.py`, `triangles` and `border` of `ConstrainedDelaunayTriangulation` |
| Model_Multipolygon | the twelve multipolygon drivers of the same modules: box filters, limits, shortcuts and reattached polygons |

## 5. What is not modelled

`rene.rust` bindings, hypothesis strategies, `__repr__`/`__str__`, conversions of
scalars, object identity, numeric hash values, heaps and red-black trees (abstracted as
above), `subtract_multipolygon_from_segment` (never called: `Segment.__sub__` supports no
shaped operands; union and symmetric difference of linear with shaped geometries do not exist).

## 6. Findings about the program

Confirmed by evaluating the faithful model (theorems `*_refuted`) unless said otherwise.

1. `Multisegment.is_valid` is `False` for two segments one of which starts in the
   interior of the other (T-junction), although their relation is TOUCH
   (`c37_touching_refuted`).
2. `Multisegment.is_valid` raises `AssertionError` on some overlapping inputs (five nested
   segments with a common start, listed in decreasing length; `c37_raises_refuted`).
3. `Segment.relate_to(Polygon)` depends on the orientation of the border
   (`c39_polygon_refuted`).
4. Equal contours may have different hashes when the least vertex is a straight angle
   (`c18_equal_hash_degenerate_refuted`).
5. `Box.relate_to` on degenerate boxes: several of the predicates hold at once
   (`c04_exclusive_degenerate_refuted`).
6. The boundary of the Delaunay triangulation of fewer than two points raises
   (`c52_boundary_of_few_points_refuted`).
7. `_relating/mixed.py::_remove` adds the event back instead of deleting it
   (`c38_stale_refuted`), and the sweep takes borders for counterclockwise
   (`c38_clockwise_refuted`).
8. `Polygon.relate_to(Segment)` answers from the linear operand's viewpoint, without
   `.complement` (`c38_polygon_refuted`); by reading, so does `Multipolygon.relate_to(linear)`.
9. (by reading) the clipping sweep with self-crossing operands loses the operands' order.
10. (by reading) the single-segment shortcut of `relate_to_multisegmental` for polygons maps
    only some of the relations.
11. `_seidel/trapezoidation.py::_populate_from_contour` gives the closing edge the wrong
    `interior_to_left` (`c41_polygon_refuted`).
12. Linear minus shaped appends both the left and the right event of a result segment, so
    the segment occurs twice; segments on a side are not subtracted (`c40_*_refuted`).
13. `Polygon & Polygon` may give a hole to the wrong polygon of the result: when two holes
    of an operand touch in a point within an edge of the other operand, the event that the
    hole starts with refers (`_below_event_from_result`) to that edge, which is divided at the
    point only afterwards; the points of the hole are then located in the interior of the
    result (`c62_nesting_refuted`).
14. `relate_to` of multisegments and contours, when one of the operands keeps a single segment
    after the box filter: EQUAL of that segment and the other operand is taken for EQUAL or
    OVERLAP of the operands, whatever else there is (`c68_equal_refuted`,
    `c68_overlap_refuted`).
15. CROSS or TOUCH depends on the order of the operands when several segments meet in a point
    (`c69_symmetry_refuted`).
16. The same with a contour: the check wraps around the edges that are left after the box
    filter as if they were consecutive (`c69_contour_symmetry_refuted`).
17. With an endpoint of one segment of a multisegment inside another one of it (T-junction,
    which is not a crossing), `relate_to` may miss a segment that both operands have
    (`c68_touch_refuted`).
18. `relate_to` of two contours raises an `AssertionError` (`assert second_intersecting_segments`
    in `_relating/multisegmental.py`) when the segments left of the first lie between those left
    of the second: a leg between the arms of a cup (`c68_raises_refuted`). Exchanging the operands
    gives DISJOINT.
19. `relate_to` of two polygons depends on the direction in which their contours are drawn, which
    nothing checks: a square and the same square drawn the other way round compare equal by
    `==`, and the relation between them is `TOUCH`; a square in a corner of a larger one is
    `ENCLOSED`, or `OVERLAP` if its vertices are listed the other way round (C71).
20. `Multipolygon.relate_to` of a multisegment or a contour raises `ValueError` (`max()` of an empty
    sequence) when the boxes of the whole geometries meet, as do the boxes of two segments, but
    not the boxes of the polygons (`c75_*_refuted`). The other order of operands has the check, but both fail
    `assert intersecting_segments` when the polygons that the box of the multisegment meets all end
    left of its segments that meet the box of the multipolygon (`c75_either_refuted`).
21. `relate_to` between a multisegment and a multipolygon (both orders) takes the multisegment for
    swept altogether although the segments with `min_x > min_max_x` were dropped: WITHIN although
    a segment is outside (`c76_beyond_refuted`); finding 7 does the same to segments and
    multipolygons, multisegments and polygons (`c76_stale_refuted`, `c76_polygon_refuted`).
22. `ConstrainedDelaunayTriangulation.from_polygon` tells the edges within a hole by its angles as
    those of a hole drawn clockwise. Within a counterclockwise hole of four or more vertices (an
    equal polygon) no edge is deleted and the triangles that fill the hole are listed
    (`c81_hole_orientation_refuted`).
23. `restore_delaunay_criterion` goes on with the edges that were *not* to be swapped, and never looks
    at the sides around a swapped one: the result of `from_polygon` need not be a (constrained)
    Delaunay triangulation (`c82_delaunay_refuted`).

## 7. Plan per property

| id | modelled | how it is proved |
|----|----------|------------------|
| C01 | `Relation.complement` | case analysis |
| C02 | `BasePoint` comparisons | linear arithmetic over Qc |
| C03 | all `BaseBox` predicates | point sets vs bounds, witnesses; touches/overlaps for boxes with an interior |
| C04, C05 | `BaseBox.relate_to` decision tree, asserts as `None` | total; equals the predicates, case analysis + lra |
| C06 | `do_boxes_*`, `merge_boxes`, segments' boxes | lra |
| C07 | `orient` | polynomial identities |
| C08, C09 | `locate_point_in_segment`, `BaseSegment.__eq__/__hash__` | key lemma: on_seg = collinear and lexicographically between |
| C10, C11 | `relate_to_segment_endpoints` | all outcomes characterised by point sets |
| C12 | `to_segments_intersection` | field reasoning |
| C13-C16 | direct segment x segment operations | key lemma + case analysis |
| C17, C18 | contour eq and hash | lists up to rotation/reversal |
| C19 | compound eq as set equality | list lemmas |
| C20 | bounding boxes | induction |
| C21 | `to_contour_orientation` | least vertex is canonical; convex case by fan of triangles |
| C22 | `locate` of contour and multisegment | induction |
| C23-C26 | `locate_point_in_region` | boundary exactness, permutation invariance of parity, constancy along a segment missing the border, crossing parity |
| C27 | polygon and multipolygon `locate` | case analysis |
| C28-C30 | direct segment x multisegmental loops | induction over the components |
| C31 | `Operation` of `_clipping/linear.py` | invariant over every history of pops, line updates and examinations |
| C32 | `next(Operation)` loop | potential: number of distinct points x segments bounds the pieces |
| C33-C36 | sweep + drivers | invariants: line sorted, adjacent pieces apart, at the end all pieces touch or are equal; selection by `from_first` and neighbour; any tree shape |
| C37, C56 | `_bentley_ottmann`, `is_valid` of multisegments and contours | first critical abscissa argument: calm before it, never accepted after it |
| C38, C39, C54, C55 | `_relating` for segments | the loops compute the relation of the point sets |
| C40 | `_clipping/mixed.py` differences | refuted, see finding 12 |
| C41 | Seidel trapezoidation | proved for multisegments: the search structure is kept related to the plane (a trapezoid per leaf, paths of every point, neighbour links) by an invariant over the insertions (Proof_Seidel2-12); polygons: finding 11, and the exact answers for valid polygons whose sides meet only at ends, by parity of the sides below a point along an inclined line (Proof_Seidel13-15) |
| C42 | `permute`, `validate_seed` | mixed radix argument |
| C43 | in-circle determinant | polynomial identity with the circumcentre |
| C44, C45, C52 | quad-edge mesh, Delaunay divide and conquer, triangle extraction, boundary | quad-edge invariant preserved by every operation; potential for termination of the merge |
| C46 | round bookkeeping | arithmetic, induction |
| C47, C48 | Empty and `collect_*` | case analysis |
| C49, C50, C53 | `shrink_collinear_vertices`, `to_oriented_segments`, contour vertex check | induction |
| C51 | sequence wrappers | case analysis |
| C57-C61 | `_clipping/shaped.py` and the polygon x polygon drivers | the pieces of the sweep (C31-C36) form a planar arrangement; flag invariant: `other` flags are the parity of edges of the other operand below; the selected pieces at every point are even, so the connectivity permutation splits into simple cycles; the parity of selected edges below a point is the parity of the result's contours around it; filters and limits drop nothing that reaches the result |
| C63-C67 | multipolygon drivers | the union of several valid polygons is again a planar arrangement, so the sweep theorem of C57-C61 applies to the filtered lists; what the filters drop is apart from the other operand |
| C68, C69 | `_relating/linear.py` and its drivers | refuted by evaluation in the general case, findings 14-18; for operands without T-junctions the sweep invariant of C31-C36 is extended with what the flags say about the points passed (Proof_RelSweep 1-7) |
| C70-C72 | `_relating/shaped.py` and `polygon.py` | the invariant of C57-C61 is extended with what the flags of the events passed say about areas and edges (Proof_RelShaped 1-5); areas are turned into points and back, and outlines are moved off (6-8); holes left out by boxes cannot change the relation (Proof_RelateShaped); refuted for contours drawn the other way round |
| C73, C74 | `_relating/multipolygon.py` and `polygon.py` | the relation of C70-C72 for lists of polygons: what is left of the lists is a valid list again (Proof_RelateMulti1: two dropped holes round a point would let one outline go inside the other), the answer is carried over from the kept polygons to all of them (Proof_RelateMulti2), and the boxes and abscissas decide rightly what to drop (Proof_RelateMulti3) |
| C75, C76 | Model_RelateMixed | refuted by evaluation, findings 20 and 21; `c75_segment` by the boxes (Proof_RelateMixed) |
| C62 | `_compute_relations` | refuted by evaluation, finding 13 |
| C77 | `intersection.py` drivers over `_clipping/mixed.py` | invariant of the sweep with inside flags of the linear events (Proof_Mix1-5), pieces inside or along the border selected, limits and box filters shown harmless (Mix6, Mix7) |
| C78 | `locate` of polygons and multipolygons | holes and polygons of valid shapes are apart: at most one of them answers |
| C79 | `difference.py` drivers over `_clipping/mixed.py` | the invariant of C77 with the other selection, every event recorded (Proof_Mix8-10) |
| C80 | `constrained_delaunay.py` | a swap keeps the quad-edge structure whatever the neighbours of the edge (Proof_Constrained1); the crossings of a constraint are distinct edges, since the walk that lists them would not end if it came back (2); deletions keep it and the sides (3); groups of equal vertices list exactly their positions (4). That constraints get in, that the loops end and that the triangles cover the polygon would need planarity of the mesh and is not claimed |
| C81, C82 | `constrained_delaunay.py` | refuted by evaluation on valid polygons, findings 22 and 23 |
| C83 | the operators of polygons and multipolygons | every edge of the result has the result on exactly one side: the kept pieces do not cross and have even ends, so the parity flips across each (`flip_near`); a point off the result has a round neighbourhood (`parity_round`) |
| C84, C85 | the same | from C83: results with the same region off the outlines have the same outlines (`region_same`) |
| C86 | the same, with the relating sweep | C73 and C84 |
| C87 | Model_LinearOperators | every operator differs from the set operation in finitely many points (`difference_almost`, `common_almost`, `contained_almost`); unions of proper segments that agree but for finitely many points are equal (`almost_equal`); induction on expressions, then the laws are propositional |
| C88 | the same, with `relate_to` | emptiness from C87's exact descriptions; C10, C54, C55, C68 give the relation in terms of points |
| C89 | Model_MixedDiff, Model_MixedClip, Model_LinearOperators | `uncontained_almost`: the difference is the set difference but for finitely many points (a point of the outline with a way out of the polygons along its segment is an endpoint or the only common point); then as C87 with `almost_equal`; the common points and Empty from C77, C79 |
| C90 | Model_Shaped, Model_Multipolygon, Model_Contour | `region_contains`: a valid geometry contains the points that are limits of points off the outlines inside of it (C83); neighbourhoods on which `in` is constant |
| C91 | the same and Model_LinearOperators | C87 (`pointwise`) over C90 and C78 |
| C92 | Model_Shaped, Model_Multipolygon, Model_BentleyOttmann | the events of a contour leave different vertices and run along pieces that meet at endpoints (the drawing of C83), so its outline is simple; removing collinear vertices keeps it simple because an edge that is left is spanned by consecutive pieces; polygons left out keep their contours |
| C93 | Model_Shaped, Model_Multipolygon | each contour is, all round, on one side of what is left when it is found (`path_one_sided`), so no later contour passes through it at a common vertex (`sides_uncrossed`: the events round the vertex are sorted by slope); a vertex in the middle of an edge of the result is one the contour goes straight through (`inner_straight`), so a common point of two edges is an endpoint of one (`finals_apart`) |

Nothing in the list is impossible to express in the model.

## Appendix: theorems and their assumptions

<!-- appendix -->

`Print Assumptions` after each of these theorems prints "Closed under the global context".

* `Prop_Base.v`: `c01_complement_involutive`, `c01_complement_table`, `c02_order_is_lexicographic`, `c02_total_order`, `c07_collinear_iff_on_line`, `c07_sign_of_area`, `c07_alternating`, `c08_segment_location`, `c09_equal_iff_same_points`, `c09_equal_hash`, `c12_crossing_point`
* `Prop_Box.v`: `c03_valid_iff_has_points`, `c03_disjoint_with`, `c03_covers_within`, `c03_encloses_enclosed`, `c03_equals_to`, `c03_touches_overlaps`, `c04_relate_iff_meaning`, `c04_relate_total`, `c04_relate_iff_predicate`, `c04_exclusive_degenerate_refuted`, `c05_relate_complement`, `c06_common_point_not_disjoint`, `c06_common_continuum_kept`, `c06_filters_complementary`, `c06_filters_exact`, `c06_merge_is_least_cover`, `c20_bounding_box_least`
* `Prop_Clipped.v`: `c89_parts`, `c89_nothing_inside`, `c89_nothing_outside`, `c89_all_inside`, `c89_outside`, `c89_same_outside`, `c89_rest`, `c89_distribution`, `c90_union`, `c90_intersection`, `c90_difference`, `c90_symmetric_difference`, `c91_multipolygon`, `c91_union`, `c91_difference`, `c91_symmetric_difference`, `c91_intersection`, `c91_outside_union`
* `Prop_Constrained.v`: `c80_constrained_mesh`, `c80_constrained_triangles`, `c80_constrained_border`, `c80_constrained_function`, `c81_hole_orientation_refuted`, `c82_delaunay_refuted`
* `Prop_Contour.v`: `c17_equal_iff_same_cycle`, `c17_equivalence`, `c18_equal_hash`, `c18_equal_hash_degenerate_refuted`, `c19_multisegment_equal`, `c19_multisegment_hash`, `c19_polygon_equal`, `c19_polygon_hash`, `c19_multipolygon_equal`, `c19_multipolygon_hash`, `c19_equivalences`, `c21_rotation_invariant`, `c21_reversal_flips`, `c21_triangle`, `c21_convex`
* `Prop_Crossing.v`: `c93_and`, `c93_sub`, `c93_polygons`
* `Prop_Delaunay.v`: `c44_triangles`, `c44_no_reordered_triangle`, `c44_mesh`, `c52_boundary`, `c52_boundary_of_few_points_refuted`
* `Prop_LinearLaws.v`: `c87_operators`, `c87_expressions`, `c87_same_denotation`, `c87_exchange`, `c87_grouping`, `c87_distribution`, `c87_reduction`, `c87_symmetric_difference`, `c87_inside`, `c88_empty_results`, `c88_segments`, `c88_segment_multisegment`, `c88_segment_contour`, `c88_contours`, `c88_several`
* `Prop_LinearOps.v`: `c33_union_exact`, `c34_intersection_exact`, `c35_difference_exact`, `c35_segment_difference_exact`, `c36_symmetric_difference_exact`, `c36_segment_first_exact`, `c36_segment_second_exact`
* `Prop_Locate.v`: `c22_polyline_location`, `c23_region_boundary`, `c24_region_representation`, `c25_constant_off_the_border`, `c25_exterior_outside_box`, `c25_crossing_parity`, `c25_crossing_parity_applies`, `c26_triangle`, `c26_convex`, `c27_polygon`, `c27_polygon_sets`, `c27_multipolygon`, `c27_contains`, `c27_multipolygon_contains`
* `Prop_Mesh.v`: `c45_histories`, `c45_neighbours`, `c45_create`, `c45_splice`, `c45_connect`, `c45_delete`, `c45_swap`
* `Prop_Mixed.v`: `c40_segment_refuted`, `c40_multisegment_refuted`, `c40_side_refuted`
* `Prop_MixedClip.v`: `c77_intersection_exact`, `c77_intersection_points`, `c78_location_exact`, `c78_contains_exact`, `c78_holes_apart`
* `Prop_MixedDiff.v`: `c79_difference_points`, `c79_difference_exact`, `c79_difference_segments`
* `Prop_Multipolygon.v`: `c63_multipolygons_intersection`, `c64_multipolygons_union`, `c65_multipolygons_difference`, `c66_multipolygons_symmetric_difference`, `c67_multipolygons_shape`
* `Prop_Operators.v`: `c47_empty`, `c47_empty_relate`, `c47_empty_points`, `c47_supported`
* `Prop_Relate.v`: `c54_segment_to_multisegment`, `c54_total`, `c54_multisegment_to_segment`, `c54_exclusive`, `c55_segment_to_contour`, `c55_total`, `c55_contour_to_segment`, `c39_multisegment`, `c39_contour`, `c39_polygon_refuted`, `c38_segment_multisegment`, `c38_segment_contour`, `c38_polygon_refuted`, `c38_stale_refuted`, `c38_clockwise_refuted`
* `Prop_RelateLinear.v`: `c68_equal_refuted`, `c68_overlap_refuted`, `c68_touch_refuted`, `c68_raises_refuted`, `c68_relation`, `c68_contours`, `c68_exclusive`, `c69_symmetry_refuted`, `c69_contour_symmetry_refuted`
* `Prop_RelateMixed.v`: `c75_multisegment_refuted`, `c75_contour_refuted`, `c75_segment`, `c75_either_refuted`, `c76_beyond_refuted`, `c76_stale_refuted`, `c76_polygon_refuted`
* `Prop_RelateMultipolygon.v`: `c73_multipolygons_relation`, `c73_exclusive`, `c74_multipolygons_exchange`
* `Prop_RelateShaped.v`: `c70_polygons_relation`, `c70_exclusive`, `c72_polygons_exchange`, `c71_orientation_refuted`
* `Prop_Results.v`: `c92_simple`, `c92_accepted`, `c92_operands`
* `Prop_SegOps.v`: `c13_intersection_exact`, `c14_union_exact`, `c14_union_merges_collinear`, `c15_difference_exact`, `c16_symmetric_difference_exact`, `c28_intersection_exact`, `c29_difference_exact`, `c30_union_exact`
* `Prop_SegRel.v`: `c10_relate_iff_meaning`, `c10_relate_total`, `c11_relate_complement`, `c11_relate_direction`
* `Prop_Seidel.v`: `c41_multisegment`, `c41_polygon_refuted`, `c41_polygon`
* `Prop_Shaped.v`: `c57_polygons_intersection`, `c58_polygons_union`, `c59_polygons_difference`, `c60_polygons_symmetric_difference`, `c61_polygons_shape`, `c62_nesting_refuted`
* `Prop_Sweep.v`: `c31_any_history`, `c31_sweep`, `c32_sweep_terminates`
* `Prop_Tight.v`: `c83_intersection`, `c83_union`, `c83_difference`, `c83_symmetric_difference`, `c83_operand`, `c84_intersection`, `c84_union`, `c84_difference`, `c84_symmetric_difference`, `c85_exchange_intersection`, `c85_exchange_union`, `c85_exchange_symmetric_difference`, `c85_any_tree`, `c85_part`, `c85_self`, `c85_apart`, `c86_relation_operators`
* `Prop_Utils.v`: `c42_validation`, `c42_permutation`, `c42_every_permutation`, `c42_exactly_one_seed`, `c42_modulo_factorial`, `c43_circle_location`, `c43_circle_exists`, `c46_base_cases`, `c46_ceil_log2`, `c46_rounds`, `c48_constructors`, `c48_collect_segments`, `c48_collect_polygons`, `c51_getitem`, `c51_iteration`, `c51_search`, `c51_slice`
* `Prop_Valid.v`: `c53_contour_vertices_non_degenerate`
* `Prop_Validity.v`: `c37_multisegment_is_valid`, `c37_ends`, `c37_touching_refuted`, `c37_raises_refuted`, `c56_contour_is_valid`, `c56_ends`
* `Prop_Vertices.v`: `c49_subsequence`, `c49_no_collinear_triple`, `c49_nondegenerate`, `c49_outline`, `c50_edges_once`, `c50_directions`
