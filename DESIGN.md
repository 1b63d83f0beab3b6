# Formal model of `orient` (lycantropos/orient) in Rocq

`/repo` is read as text only.  The model is in `rocq/theories/`, checked with Coq 8.16.1.

## 1. Trusted base

* The Coq 8.16.1 kernel (including `vm_compute`, which is used for the concrete
  counterexamples and examples).
* Axioms: none.  `Print Assumptions` says `Closed under the global context` for
  every theorem of the `Props*.v` files (section 7).
* The transcription of the Python code into the model files (every definition
  cites the file and the lines it transcribes).  `Doctests.v` checks the model
  against the examples of the docstrings of `planar.py`.
* The reference definitions standing for the third-party packages that are not
  part of `/repo` (next section).
* The specification files `Spec.v`, `SpecAreas.v`, `SpecMore.v` (section 3).

## 2. What is modelled

| Model file | Python code |
|---|---|
| `Scalar.v`, `Base.v` | exact rational scalars (`Qc`), points, segments, contours; the enumerations `Relation`, `Location`; exceptions as values; `core/utils.py` |
| `Ground.v` | the functions of package `ground` used by orient: orientation (sign of the cross product), `segment_contains_point`, `segments_relation`, `segments_intersection`, boxes |
| `MLinear.v` | `core/box.py`, `core/segment.py`, the parts of `core/multisegment.py`, `core/contour.py`, `core/region.py` and of the locating functions of the other modules that do not use the sweep |
| `MSweep.v` | `core/enums.py`, `core/event.py`, `core/sweep_line.py`, `core/events_queue.py` |
| `MCompound.v` | `core/processing.py`, the sweep-based functions of `core/{multisegment,contour,region,multiregion,polygon,multipolygon}.py` |
| `MContainers.v` | the queue, the sweep and the sweep-based functions once more, as functions of an arbitrary priority queue and ordered set |
| `ContainerTrees.v` | a skew heap and a binary search tree, two such containers |
| `Planar.v` | the 35 public functions of `planar.py` |

All functions of `orient/core` and of `orient/planar.py` that compute an answer are modelled.

### Simplifications and modelling decisions

* **Scalars** are exact rationals (`int` / `Fraction` inputs).  Floating point
  coordinates (and the adaptive-precision arithmetic `ground` uses for them) are
  not modelled.
* **`ground`** is modelled by its documented meaning, written as executable
  definitions in `Ground.v`.
* **`dendroid.red_black.set_`** (the sweep line) is modelled in `MSweep.v` by a
  sorted list with comparator `sweep_lt`, **`prioq.PriorityQueue`** by a bag from
  which the first minimal element is taken.  `MContainers.v` models both by their
  interface only, and C67 proves that every implementation that meets
  `SpecContainers.v` gives the same answers.  What is trusted is that the two
  libraries meet that specification: the queue yields its least member as long as
  comparisons between its members do not change, the set finds, adds, removes and
  follows members as long as they are in order.  The balanced tree and the binary
  heap of the libraries themselves are not modelled.
* **Mutable event objects** (`LeftEvent`, `RightEvent`, mutual references) are
  modelled by an append-only store with index references.
* **Generators** (`sweep()` yields events, `processing` consumes them lazily
  and may stop early) are modelled by the list of emitted event snapshots plus
  the final outcome; a consumer that stops early ignores the rest, including an
  exception that would have been raised later.
* **Loops** are structural recursion or carry explicit fuel (`sweep_fuel`);
  running out of fuel is a separate outcome `OutOfFuel`, never a default answer.
  C21 proves that it does not occur.
* **Exceptions** are values `Raise ValueError`, `Raise IndexError`.  C38 proves
  that they do not occur for valid geometries.
* Not modelled: class plumbing (`abc`, `reprit`, properties, type annotations),
  the default context and its caching, `__init__.py`, `hints.py`.

## 3. Specification

`Spec.v` is the independent specification: point sets of geometries (convex
combinations, unions of edges), interiors by ray parity, validity of inputs, and
relations between point sets and areas expressed by common points
(`linear_spec`, `linear_areal_spec`, `areal_spec`).  An area is a triple of point
sets: inside, on the boundary, outside.  `SpecAreas.v` adds multipolygons
and the conditions on where edges and rings meet; `SpecMore.v` adds the areas told by the
point queries, affine images and chains of relations; `SpecSides.v` adds passing from one side of a line to the other,
`SpecAround.v` lines that contain the boundary of an area, `SpecContact.v` cuts at points where edges touch, `SpecSelf.v` edges as multisegments, `SpecJoin.v` the tables for collections put together, `SpecWritten.v` other ways of writing the same geometry, `SpecRings.v` what may be answered where rings touch, `SpecNested.v` and `SpecLines.v` areas and lines of all kinds, `SpecChord.v` segments along the border of a region, `SpecClockwise.v` regions listed clockwise,
`SpecMoved.v` moving and stretching, `SpecBorders.v` tables of answers
for areas and their borders, `SpecConvex.v` convexity, `SpecEvents.v` where segments are divided, `SpecEdges.v` lines put together from segments, `SpecWide.v` crossing where many branches meet, `SpecStep.v` segments added to multisegments.  `SpecContainers.v` says what a
correct priority queue and ordered set are.  None of them
uses functions of the model apart from the data types.

`answer_is spec (Ok rel)` says that `rel` is a relation for which `spec` holds; the
relations of `areal_spec` and `linear_areal_spec` exclude each other
(`answer_unique` in `Drawn.v`), so such a theorem determines the answer.

## 4. How the proofs are built

Proof files contain no statements of properties; the `Props*.v` files contain
only statements, each closed by `exact`, with examples showing
that the hypotheses can be met (`Witness*.v`) and that several answers occur.

* **Elementary geometry**: `Geom`, `SegProofs`, `Along`, `Pieces`, `Walk`.
* **Point location**: `RayParity` (the number of edges crossed by two generic rays differs by
  an even number), `PointProofs`, `Check` (decidable validity).
* **Segments in lines and regions** (one pass over the edges): `SegMulti`, `SegAnswer`,
  `SegContour`, `SegEdges`, `SegStraight`, `SegCross`, `Corner`, `SegRegion`,
  `SegTold` (the whole of `segment_in_region`, also along edges).
* **The sweep**: `SweepStore` (event store), `SweepDetect` (one intersection test), `SweepSteps` and `Termination`
  (measure: 2 * number of candidate points strictly inside live segments + queue length), `SweepSafe` and `NoFail`
  (no exceptions), `SweepTime` (the sweep order as a time after a small shear),
  `SweepOrder`, `SweepMoves`, `SweepAdvance`, `SweepLoop` (the line is sorted, neighbours have been checked),
  `SweepEmit`, `SweepRun`, `SweepFound` (what the yielded events say about common points), `SweepCross` (crossings),
  `SweepLow`, `SweepFlags`, `SweepInside`, `SweepMarks`, `SweepTold` (which side of a segment is inside the other geometry).
* **Containers**: `QueueOrder` (the order of events), `AnyDetect`, `AnySweep`, `AnyRun` (each step of the sweep over any correct
  containers follows the step over lists), `TreeProofs` (two containers are correct).
* **Linear queries**: `OpenProofs`, `ClosedProofs`, `CrossProofs`; `SweepPass`, `AroundProofs` (lines that contain a boundary), `SweepAngles`, `SweepSides`, `SidesProofs` (which side
  segments leave to at a common point).
* **Areas**: `Orient`, `LeftSide`, `Area`, `Vertical`, `AreaFlags`, `AreaSem`, `AreaAnswer`
  (the two processing loops for areas), `Drawn`, `Gather` (loops that register edges part by part), `Cover`, `Sector`,
  `AreaQueries`, `Polygons`, `Inner`, `PolyQueries`.
* **Polygons** (border and holes are related separately and combined by case analysis): `Areas`, `PolyArea`, `PolyLine`,
  `PolyMulti`, `PolyPoly`, `Rings`.
* **Consequences of exactness**: `Located`, `Mapped`, `MappedLines`, `Consequences`, `Agree`, `Rewritten`.
* **The rest**: `RangeProofs` (result ranges), `BoxProofs` (bounding boxes), `HoleFree`, `EqualProofs`, `RefuteProofs`.

## 5. Where the code does not do what one would expect

Each item is a theorem with a concrete valid input (`_refuted`), next to a theorem that says
where the expected statement does hold.

* `segment_in_contour`: a segment covered by two collinear edges is OVERLAP, not COMPONENT (C17; exact statement: C45).
* `segment_in_region`: a segment from the inside to the outside may be TOUCH or ENCLOSED if it runs along an edge; reversing the
  segment or mirroring the plane may change the answer (C18, C40, C59; where it is right: C46; what is answered in general: C62). It also depends on the vertex
  at which the list of vertices begins (C63).
* `multisegment_in_multisegment` may be TOUCH one way and CROSS the other way (C25, C37); where three or more branches of the
  second one meet, the angle that is looked at need not be the one that is crossed (C65 is exact for two branches, C44 says what is always found).
* `contour_in_contour` misses crossings at vertices that `multisegment_in_contour` finds for the same edges (C27; exact: C43 and C64).
* `multisegment_in_region` for a multisegment that contains the border and points on both sides of it (C28); C66 says what is answered then.
* `segment_in_multiregion`, `segment_in_multipolygon`, `contour_in_multiregion` may be CROSS for a line covered by the regions where parts touch
  along the line other than at ends of edges (C32, C47); `polygon_in_multipolygon` may be OVERLAP likewise (C50).
* `segment_in_polygon`: CROSS for a segment without interior points (C33).
* `region_in_polygon`: ENCLOSED for COMPONENT if rings touch (C51); `multiregion_in_polygon`: ENCLOSED for EQUAL (C53).
* `polygon_in_polygon`: WITHIN although the boundaries meet if a hole touches the other border (C34, C54).
* A region and the multiregion of this region alone, or a polygon and the multipolygon of it, may be answered differently (C57).

## 6. Property by property

`properties.jsonl` has the full statements.

| Id | How it is proved |
|---|---|
| C01-C03 | exact point-set characterisation of `point_in_segment/multisegment/contour` by algebra over `Qc` and list induction |
| C04-C10, C41 | ray parity: each edge contributes the parity of its endpoints lying in the wedge between two rays, which telescopes around the closed contour |
| C11-C13 | list induction over regions, holes, polygons |
| C14-C15 | case analysis on orientations, algebra |
| C16, C17, C45 | loop invariants for the single pass over the edges |
| C18, C19, C40, C46, C62 | the pass over the edges plus the side on which a straight way sets off from a point of a contour |
| C20, C39 | index arithmetic of `contour.equal`, `contour.orientation`; orientation decided at the smallest vertex |
| C21 | measure on the sweep; `divided_at` of `SpecEvents.v` says where segments meet |
| C22 | boxes are tight, box disjointness = separation by an axis-parallel line; every function with a box shortcut |
| C23-C27, C42-C44 | sweep correctness: all common points and overlaps are found |
| C28-C31 | sweep correctness plus side tracking |
| C64, C65 | at each common point: the angles between the branches, against the sides of the contour |
| C66 | which crossings of edges the sweep marks, for multisegments that contain the boundary |
| C68 | which crossings of edges the sweep marks, and the areas around them |
| C69 | the exact answers for sets and areas with themselves |
| C70 | the exact answers; for areas the relation is told by six facts, and the table is checked by computation for all facts that regular areas and their union can have |
| C71 | equality of the answers of the model for both ways of writing; a run of the sweep on renamed and reordered events is shown to be the renamed run, without conditions on contacts |
| C72 | the answers are compared with `linear_areal_spec` and `areal_spec` of the closed polygon; each alternative names the true relation |
| C73 | the statement is an equation between two answers of the model, failures included; the map is `stretch` of `SpecMoved.v` |
| C74 | the statement compares answers of two queries of the model by the tables of `SpecBorders.v`, which are lists of relations |
| C75 | `convex` of `SpecConvex.v` speaks of the sides of edges only; the inside is that of `Spec.v` |
| C76 | `joined_all` of `SpecEdges.v` puts the relations of segments together; the segments of a contour are its pairs of neighbouring vertices |
| C77 | `SpecWide.v` compares turns by dot products and says nothing about events; the answer is bounded from both sides, as the code's choice between equally wide pairs depends on the order of events |
| C78 | `SpecStep.v` is a table over relations that mentions no query; the theorems use it with the queries on both sides |
| C79 | `SpecNested.v` lists the kinds of areas with their point sets, relates each pair to its query, and says which answer goes with which true relation; the model's functions occur in it only as the queries asked |
| C80 | `SpecLines.v` lists the kinds of lines with their point sets, relates each line and area to its query, and says which answer goes with which true relation; the model's functions occur in it only as the queries asked |
| C81 | `SpecChord.v` lists the pairs of an answer and another true relation, with conditions on shared segments and on ends, both as point sets |
| C82 | `SpecClockwise.v` lists the places of the list of vertices at which leaving is seen or never seen, and says by points what leaving is |
| C83 | stated directly; `returns` of `Spec.v` says that no exception is raised |
| C84 | stated by the answers for points; the conditions `meet_at_ends`, `runs_around`, `runs_round`, `clear_border`, `at_most_two`, `cornered` are the ones of earlier properties and speak of point sets and edges |
| C85 | `cut_by` of SpecAround.v, `free_way`, `seen_cut`, `told_by`, `lines_told_by` of SpecSeen.v; they speak of edges as point sets |
| C86 | compares answers of different queries; `complement` models `Relation.complement`, `as_polygons` and the affine maps are in the Spec files |
| C87 | `passes_rings`, `changes_rings`, `ring_told` and `each_ring_answer` (SpecRingTold.v) speak of points of the line, the rings and the area only |
| C88 | `apart_rings`, `seems_within`, `polygons_told` and `given_truth` (SpecPolyTold.v) speak of points of the rings and areas only |
| C89 | `chains_polygons` and `chains_line` (SpecChain.v) are tables of relations, as `chains` of C60 |
| C90 | `regions_told` (SpecBare.v) names for every relation the pairs it is answered for, in terms of `areal_spec`, `proper_part` and `covered_together` |
| C91 | only the queries for points; `cut_by` (SpecAround.v) where contours may differ |
| C92 | `areal_spec`, `seen_cut` (SpecSeen.v), the five pairs `told_apart` (SpecOne.v) |
| C93 | `areal_spec`, `seen_cut` (SpecSeen.v), the four pairs `regions_told_apart` (SpecOneRegion.v) |
| C94 | `each_sweep_answer` (SpecEach.v) with `areal_spec` and `seen_cut` (SpecSeen.v); for EQUAL only the queries for points |
| C95 | `each_line_answer`, `each_lines_answer` (SpecEachLine.v) with `linear_areal_spec`, `cut_by`, `seen_cut` (SpecSeen.v), `runs_around`, `runs_round` |
| C96 | `line_row` (SpecRow.v): only the answers of the queries |
| C32, C47-C50 | as C28-C31 with edges of several contours |
| C33, C34, C51-C54 | exactness for the border and for the holes, combined |
| C35 | unfolding plus list reasoning |
| C36 | result ranges, by invariants of the processing loops |
| C37, C58 | exactness in both orders; for polygons case by case |
| C38 | no two segments of one side overlap, hence every look-up succeeds |
| C67 | simulation of the sweep over lists; the order of events is total on what the queue holds and survives divisions |
| C55-C57, C59-C61, C63 | consequences of exactness and of uniqueness of the right answer |

## 7. Theorems and assumptions

Every theorem below is followed by `Print Assumptions` in its file; for each of them Coq 8.16.1 prints
`Closed under the global context`, that is, no axioms at all.  (`coqchk -o` additionally lists the axioms that
the loaded standard library files declare, those of `Coq.ssr.ssrunder`; no theorem here uses them.)

| Id | Status | Theorems |
|---|---|---|
| C01 | proved | PropsPoint.v: `point_in_segment_exact` |
| C02 | proved | PropsPoint.v: `point_in_multisegment_exact` |
| C03 | proved | PropsPoint.v: `point_in_contour_exact` |
| C04 | proved | PropsPoint.v: `point_in_region_boundary` |
| C05 | proved | PropsPoint.v: `point_in_region_every_ray`, `generic_ray_exists`, `point_in_region_exact` |
| C06 | proved | PropsPoint.v: `point_in_region_constant` |
| C07 | proved | PropsPoint.v: `point_in_region_flip` |
| C08 | proved | PropsPoint.v: `point_in_region_outside_box` |
| C09 | proved | PropsPoint.v: `point_in_region_rotate`, `point_in_region_reverse`, `point_in_contour_same` |
| C10 | proved | PropsPoint.v: `point_in_region_affine` |
| C11 | proved | PropsPoint.v: `point_in_multiregion_exact`, `point_in_multiregion_order` |
| C12 | proved | PropsPoint.v: `point_in_polygon_exact` |
| C13 | proved | PropsPoint.v: `point_in_multipolygon_exact`, `point_in_multipolygon_order` |
| C14 | proved | PropsPoint.v: `segment_in_segment_exact` |
| C15 | proved | PropsPoint.v: `segment_in_segment_complement`, `segment_in_segment_reverse` |
| C16 | proved | PropsSeg.v: `segment_in_multisegment_exact` |
| C17 | partial | PropsSeg.v: `segment_in_contour_subset_refuted`, `segment_in_contour_exact_partial` |
| C18 | partial | PropsRefuted.v: `segment_in_region_cross_refuted`, `segment_in_region_reversal_refuted`; PropsSegArea.v: `segment_in_region_ends_partial` |
| C19 | proved | PropsSegArea.v: `segment_in_region_plain` |
| C20 | proved | PropsMisc.v: `contour_in_contour_same`, `region_in_region_same`, `contour_in_region_same`, `contour_equal_only_same` |
| C21 | proved | PropsSweep.v: `sweep_divisions`, `sweep_ends`, `linear_queries_end`, `region_queries_end`, `polygon_queries_end` |
| C22 | proved | PropsMisc.v: `linear_separated`, `region_separated`, `multiregion_separated`, `polygon_separated`, `multipolygon_separated`, `boxes_disjoint_exact` |
| C23 | proved | PropsOpen.v: `linear_disjoint_answer` |
| C24 | proved | PropsOpen.v: `multisegment_in_multisegment_exact` |
| C25 | partial | PropsRefuted.v: `multisegment_in_multisegment_cross_refuted`; PropsCross.v: `multisegments_cross`; PropsSides.v: `multisegment_in_multisegment_sided`; PropsWide.v: `multisegment_in_multisegment_wide` |
| C26 | proved | PropsOpen.v: `multisegment_in_contour_exact` |
| C27 | partial | PropsRefuted.v: `contour_in_contour_cross_refuted`; PropsCross.v: `contour_in_contour_cross` |
| C28 | partial | PropsArea.v: `multisegment_in_region_refuted`, `multisegment_in_region_exact_partial`; PropsAround.v: `multisegment_in_region_around`; PropsUniform.v: `multisegment_in_region_seen` |
| C29 | proved | PropsArea.v: `contour_in_region_exact` |
| C30 | proved | PropsArea.v: `region_in_region_exact` |
| C31 | proved | PropsArea.v: `region_in_multiregion_exact`, `multiregion_in_multiregion_exact` |
| C32 | partial | PropsRefuted.v: `segment_in_multiregion_refuted`, `segment_in_multipolygon_refuted`; PropsPoly.v: `segment_in_multiregion_covered_partial`, `segment_in_multipolygon_covered_partial`; PropsSeen.v: `segment_in_multiregion_seen`, `segment_in_multipolygon_seen` |
| C33 | partial | PropsRefuted.v: `segment_in_polygon_refuted`; PropsPolyArea.v: `segment_in_polygon_outside_partial`; PropsRingTold.v: `segment_in_polygon_each` |
| C34 | partial | PropsRefuted.v: `polygon_in_polygon_within_refuted`; PropsPolyArea.v: `polygon_in_polygon_within_partial` |
| C35 | proved | PropsMisc.v: `hole_free_polygon`, `hole_free_multipolygon` |
| C36 | proved | PropsMisc.v: `linear_range`, `linear_areal_range`, `areal_range` |
| C37 | partial | PropsRefuted.v: `multisegment_in_multisegment_cross_refuted`; PropsWide.v: `multisegments_exchanged_refuted`; PropsOpen.v: `multisegment_swap_partial`; PropsSides.v: `multisegment_swap_sided`; PropsClosed.v: `contour_swap`; PropsArea.v: `region_swap`, `multiregion_swap` |
| C38 | proved | PropsSafe.v: `linear_queries_return`, `region_queries_return`, `polygon_queries_return` |
| C39 | proved | PropsMisc.v: `contour_orientation_rotate`, `contour_orientation_reverse`; PropsArea.v: `contour_orientation_side` |
| C40 | partial | PropsRefuted.v: `segment_in_region_enclosed_refuted`, `segment_in_region_touch_refuted`; PropsSegArea.v: `segment_in_region_chord_partial` |
| C41 | proved | PropsMisc.v: `point_in_region_escape` |
| C42 | proved | PropsClosed.v: `contour_in_contour_exact`, `contour_in_contour_whole` |
| C43 | proved | PropsCross.v: `contour_in_contour_cross` |
| C44 | proved | PropsCross.v: `multisegments_cross`, `multisegment_contour_cross` |
| C45 | proved | PropsSeg.v: `segment_in_contour_edges` |
| C46 | proved | PropsSegArea.v: `segment_in_region_exact`, `segment_in_region_cross` |
| C47 | proved | PropsPoly.v: `segment_in_multiregion_exact`, `multisegment_in_multiregion_exact`, `contour_in_multiregion_exact`, `segment_in_multipolygon_exact`, `multisegment_in_multipolygon_exact`, `contour_in_multipolygon_exact`; PropsPolyArea.v: `contour_in_multiregion_cross_refuted` |
| C48 | proved | PropsPoly.v: `multisegment_in_polygon_exact` |
| C49 | proved | PropsPoly.v: `region_in_multipolygon_exact` |
| C50 | proved | PropsPoly.v: `polygon_in_multipolygon_exact`, `multiregion_in_multipolygon_exact`, `multipolygon_in_multipolygon_exact`; PropsPolyArea.v: `polygon_in_multipolygon_overlap_refuted` |
| C51 | proved | PropsPolyArea.v: `region_in_polygon_exact`, `region_in_polygon_merged`, `region_in_polygon_component_refuted` |
| C52 | proved | PropsPolyArea.v: `segment_in_polygon_exact`, `contour_in_polygon_exact`, `contour_in_polygon_cross_refuted` |
| C53 | proved | PropsPolyArea.v: `multiregion_in_polygon_exact`, `multiregion_in_polygon_merged`, `multiregion_in_polygon_equal_refuted` |
| C54 | proved | PropsPolyArea.v: `polygon_in_polygon_exact`, `polygon_in_polygon_merged`, `polygon_in_polygon_parts`, `polygon_in_polygon_overlap_refuted` |
| C55 | proved | PropsAgree.v: `region_in_region_located`, `contour_in_region_located`, `multiregion_in_multiregion_located`, `region_in_multipolygon_located`, `multipolygon_in_multipolygon_located`, `polygon_in_polygon_located` |
| C56 | proved | PropsAgree.v: `region_relations_depend`, `multiregion_relations_depend`, `region_in_polygon_depends`, `region_in_multipolygon_depends` |
| C57 | proved | PropsAgree.v: `region_in_one_region`, `contour_in_one_region`, `one_region_in_multiregion`, `one_region_in_multipolygon`, `one_polygon_in_multipolygon`, `region_in_one_polygon`, `one_region_in_polygon`, `segment_in_one_region_refuted`, `polygon_in_one_polygon_refuted` |
| C58 | proved | PropsAgree.v: `polygon_swap`, `multipolygon_swap` |
| C59 | proved | PropsAgree.v: `segment_relations_affine`, `region_relations_affine`, `multisegment_in_region_affine`, `multiregion_relations_affine`, `polygon_relations_affine`, `polygon_in_polygon_affine`, `multipolygon_in_multipolygon_affine`, `segment_in_region_mirror_refuted`; PropsMoved.v: `polygon_in_polygon_affine_always`, `multiregion_in_polygon_affine`, `multisegment_in_contour_affine`, `multisegment_in_multisegment_affine` |
| C60 | proved | PropsAgree.v: `region_chain`, `multiregion_chain`, `region_multipolygon_chain` |
| C61 | proved | PropsAgree.v: `multiregion_relations_order`, `region_in_polygon_order`, `region_in_multipolygon_order` |
| C62 | proved | PropsTold.v: `segment_in_region_told`, `segment_in_region_edges` |
| C63 | proved | PropsTold.v: `rewritten_valid`, `segment_in_contour_rewritten`, `segment_in_region_rewritten`, `segment_in_region_rewritten_refuted`, `contours_rewritten`, `areas_rewritten` |
| C64 | proved | PropsSides.v: `multisegment_in_contour_sided`, `multisegment_in_contour_cross`, `multisegment_contour_region_cross` |
| C65 | proved | PropsSides.v: `multisegment_in_multisegment_sided`, `multisegment_swap_sided` |
| C66 | proved | PropsAround.v: `multisegment_in_region_around`, `multisegment_in_polygon_around`, `multisegment_in_multiregion_around`, `multisegment_in_multipolygon_around` |
| C67 | proved | PropsContainers.v: `linear_queries_any_containers`, `region_queries_any_containers`, `polygon_queries_any_containers`, `skew_heap_is_correct`, `search_tree_is_correct` |
| C68 | proved | PropsContact.v: `segment_in_multiregion_contact`, `contour_in_multiregion_contact`, `multisegment_in_multiregion_contact`, `segment_in_multiregion_outside`, `contour_in_multiregion_outside`, `multisegment_in_multiregion_outside`, `multisegment_in_polygon_contact`, `multisegment_in_polygon_enclosed`, `segment_in_multipolygon_contact`, `contour_in_multipolygon_contact`, `multisegment_in_multipolygon_contact`, `polygon_in_multipolygon_contact`, `multiregion_in_multipolygon_contact`, `multipolygon_in_multipolygon_contact` |
| C69 | proved | PropsSelf.v: `ends_located`, `multisegment_ends_located`, `vertices_located`, `area_vertices_located`, `segment_of_multisegment`, `multisegment_self`, `edge_in_contour`, `edges_in_contour`, `contour_self`, `multiregion_edges`, `multiregion_self`, `border_edge`, `hole_edge`, `hole_edge_refuted`, `polygon_rings`, `polygon_all_edges`, `polygon_self`, `multipolygon_edge`, `multipolygon_ring`, `multipolygon_all_edges`, `multipolygon_polygon`, `multipolygon_only_polygon`, `multipolygon_self`, `multipolygon_borders`, `multipolygon_parts_refuted` |
| C70 | proved | PropsJoin.v: `multiregions_joined`, `joined_multiregions`, `region_in_joined`, `polygon_in_joined`, `multiregion_in_joined`, `multipolygons_joined`, `segment_in_joined_regions`, `contour_in_joined_regions`, `segment_in_joined_polygons`, `contour_in_joined_polygons`, `segments_joined_in_region`, `segments_joined_in_multiregion`, `segments_joined_in_polygon`, `segments_joined_in_multipolygon`, `segments_joined_in_lines` |
| C71 | proved | PropsWritten.v: `written_valid`, `written_points`, `written_segments`, `written_polygon_segment`, `written_multisegments`, `written_contours`, `written_areas` |
| C72 | proved | PropsRings.v: `contour_in_polygon_always`, `segment_in_polygon_always`, `multiregion_in_polygon_always`, `multiregion_in_polygon_facts`, `polygon_in_polygon_always`, `polygon_in_polygon_facts` |
| C73 | proved | PropsMoved.v: `moved_points`, `moved_segments`, `moved_multisegments`, `moved_lines`, `multisegments_stretched_refuted`, `moved_contours`, `moved_areas` |
| C74 | proved | PropsBorders.v: `region_in_region_border`, `region_in_region_whole`, `region_in_region_ring`, `region_in_multiregion_border`, `region_in_multiregion_within`, `multiregion_border_refuted`, `region_in_polygon_border`, `region_in_polygon_disjoint`, `region_in_multipolygon_border`, `multisegment_in_region_rim`, `multisegment_rim_refuted`, `segment_in_region_side`, `segment_side_refuted` |
| C75 | proved | PropsConvex.v: `convex_between`, `segment_in_convex_within`, `segment_in_convex`, `segment_in_convex_contour`, `convex_chord_refuted`, `contour_in_convex`, `region_in_convex`, `region_hull`, `contour_hull`, `multisegment_in_convex`, `multiregion_in_convex`, `polygon_in_convex` |
| C76 | proved | PropsEdges.v: `contour_in_region_uniform`, `multisegment_in_region_uniform`, `contour_in_multiregion_uniform`, `multisegment_in_multiregion_uniform`, `contour_in_polygon_uniform`, `multisegment_in_polygon_uniform`, `contour_in_multipolygon_uniform`, `multisegment_in_multipolygon_uniform`, `segment_in_polygon_plain`, `contour_in_region_pieced`, `multisegment_in_region_pieced`, `contour_in_polygon_pieced`, `multisegment_in_polygon_pieced`, `contour_in_multiregion_pieced`, `multisegment_in_multiregion_pieced`, `contour_in_multipolygon_pieced`, `multisegment_in_multipolygon_pieced`, `component_edges_refuted`, `multisegment_in_multisegment_edges`, `multisegment_in_contour_edges`, `contour_in_contour_edges`, `cornered_edges` |
| C77 | proved | PropsWide.v: `multisegment_in_multisegment_wide`, `multisegments_cross_parted`, `multisegments_all_parted`, `multisegments_mirrored_refuted`, `multisegments_exchanged_refuted` |
| C78 | proved | PropsStep.v: `segment_in_grown_multisegment`, `grown_multisegment_in_multisegment`, `grown_multisegment_refuted`, `grown_multisegment_in_contour`, `grown_multisegment_in_region`, `grown_multisegment_in_polygon`, `grown_multisegment_in_multiregion`, `grown_multisegment_in_multipolygon`, `segments_joined_sided`, `segments_joined_sided_refuted` |
| C79 | proved | PropsNested.v: `areas_answered`, `areas_facts`, `nested_areas`, `nested_apart`, `multiregion_in_multipolygon_mostly`, `multiregion_in_multipolygon_whole_refuted`, `nested_polygon_refuted` |
| C80 | proved | PropsLines.v: `lines_answered`, `line_facts`, `line_nested`, `line_apart`, `line_off`, `line_nested_refuted` |
| C81 | proved | PropsChord.v: `segment_in_region_amiss`, `segment_polygon_sides`, `line_covered`, `line_nested_wide` |
| C82 | proved | PropsClockwise.v: `segment_clockwise_told`, `segment_clockwise_full`, `known_ends_touch`, `known_ends_covered`, `few_vertices`, `few_vertices_polygon` |
| C83 | proved | PropsEmpty.v: `empty_holds_no_point`, `disjoint_from_empty`, `multisegments_return`, `collections_return` |
| C84 | proved | PropsSame.v: `segment_in_multisegment_told`, `segment_in_cornered_contour_told`, `segment_in_contour_told`, `multisegment_in_contour_told`, `multisegments_told`, `insides_told`, `multisegment_in_region_told`, `multisegment_in_polygon_told`, `contour_in_polygon_told`, `lines_in_multiregion_told`, `lines_in_multipolygon_told`, `multisegment_in_multiregion_told`, `multisegment_in_multipolygon_told`, `segment_in_contour_told_refuted`, `contour_in_contour_told_refuted`, `multisegment_in_region_told_refuted` |
| C85 | proved | PropsSeen.v: `segment_in_multiregion_seen`, `contour_in_multiregion_seen`, `segment_in_multipolygon_seen`, `contour_in_multipolygon_seen`, `multisegment_in_polygon_seen`, `multisegment_in_multiregion_seen`, `multisegment_in_multipolygon_seen`, `polygon_in_multipolygon_seen`, `multiregion_in_multipolygon_seen`, `multipolygon_in_multipolygon_seen` |
| C86 | proved | PropsUniform.v: `multipolygon_swap_always`, `one_polygon_in_multipolygon_always`, `multiregion_as_polygons`, `lines_in_multiregion_as_polygons`, `multisegment_in_one_part`, `multisegment_in_region_seen`, `lines_affine_always`, `multisegments_affine_always`, `areas_affine_always`, `multisegment_in_multiregion_turned_refuted` |
| C87 | proved | PropsRingTold.v: `contour_in_polygon_rings`, `contour_in_polygon_each`, `segment_in_polygon_rings`, `segment_in_polygon_each`, `contour_in_one_polygon_always`, `contour_in_polygon_affine`, `segment_in_polygon_affine` |
| C88 | proved | PropsPolyTold.v: `polygon_in_polygon_told`, `polygon_in_polygon_truth` |
| C89 | proved | PropsChain.v: `polygon_chain`, `polygon_equal_relations`, `polygon_chain_within_refuted`, `polygon_chain_touch_refuted`, `contour_polygon_chain`, `multipolygon_chain` |
| C90 | proved | PropsBare.v: `multiregion_in_polygon_told`, `covered_together_needs`, `one_region_in_polygon_always`, `bare_polygon_in_polygon`, `region_in_bare_polygon`, `multiregion_in_bare_polygon` |
| C91 | proved | PropsPolySame.v: `polygon_in_polygon_depends`, `multiregion_in_polygon_depends`, `contour_in_polygon_depends`, `contour_in_polygon_depends_refuted`, `polygon_in_multipolygon_depends_refuted` |
| C92 | proved | PropsOne.v: `one_polygon_truth`, `one_polygon_pairs`, `one_polygon_pairs_occur` |
| C93 | proved | PropsOneRegion.v: `one_region_truth`, `one_region_pairs`, `one_regions_truth`, `one_regions_pairs`, `one_regions_pairs_occur` |
| C94 | proved | PropsEach.v: `polygon_in_multipolygon_each`, `multiregion_in_multipolygon_each`, `multipolygon_in_multipolygon_each`, `polygon_equal_found`, `multiregion_equal_found`, `multipolygon_equal_found` |
| C95 | proved | PropsEachLine.v: `segment_in_multiregion_each`, `contour_in_multiregion_each`, `segment_in_multipolygon_each`, `contour_in_multipolygon_each`, `multisegment_in_region_each`, `multisegment_in_polygon_each`, `multisegment_in_multiregion_each`, `multisegment_in_multipolygon_each` |
| C96 | proved | PropsRow.v: `multiregions_row`, `multiregion_multipolygon_row`, `multipolygons_row` |
