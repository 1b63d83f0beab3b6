(** C80: what is answered for lines in areas of different kinds, and for lines in areas in a row. *)
From Coq Require Import QArith Qcanon List Bool.
From Verif Require Import Scalar Base Ground MLinear MSweep MCompound Planar Spec SpecAreas SpecAround SpecContact SpecMore SpecRings SpecNested SpecLines RefuteProofs NestedProofs LinesProofs Witness12 Witness29 Witness30.
Import ListNotations.

(** Every query for a line in an area answers; which relations it may answer for which true
    relation. *)
Theorem lines_answered : forall l a x, line_valid l -> geo_valid a -> line_settled l a -> asked_line l a x ->
  exists rel y, x = Ok rel /\ linear_areal_spec (line_set l) (geo_area a) y /\ line_answered l a rel y.
Proof. exact lines_answered_l. Qed.
Print Assumptions lines_answered.
(** DISJOINT and WITHIN are answered exactly for lines without common points with the area, and for
    lines in its interior.  An answer that says that the line lies in the area is right, and is given
    for every such line but for the ones named. *)
Theorem line_facts : forall l a x, line_valid l -> geo_valid a -> line_settled l a -> asked_line l a x ->
  (x = Ok DISJOINT <-> ~ meets (line_set l) (a_cl (geo_area a)))
  /\ (x = Ok WITHIN <-> subset (line_set l) (a_in (geo_area a)))
  /\ ((exists r, x = Ok r /\ inside_relation r) -> subset (line_set l) (a_cl (geo_area a)))
  /\ (subset (line_set l) (a_cl (geo_area a)) -> (exists r, x = Ok r /\ inside_relation r) \/ x = Ok CROSS /\ inside_missed l a).
Proof. exact line_facts_l. Qed.
Print Assumptions line_facts.

(** A part of a line that lies in a part of an area lies in the area. *)
Theorem line_nested : forall l l' a b rel x x', line_valid l -> line_valid l' -> geo_valid a -> geo_valid b -> line_settled l b -> line_settled l' a ->
  subset (line_set l) (line_set l') -> found a b rel -> part_relation rel -> asked_line l' a x' -> asked_line l b x ->
  ((exists r, x' = Ok r /\ inside_relation r) -> (exists r, x = Ok r /\ inside_relation r) \/ x = Ok CROSS /\ inside_missed l b)
  /\ (x' = Ok WITHIN -> x = Ok WITHIN).
Proof. exact line_nested_l. Qed.
Print Assumptions line_nested.
(** A part of a line that lies in an area that another area is apart from, or only touches. *)
Theorem line_apart : forall l l' a b rel x x', line_valid l -> line_valid l' -> geo_valid a -> geo_valid b -> line_settled l b -> line_settled l' a ->
  subset (line_set l) (line_set l') -> found a b rel -> apart_relation rel -> asked_line l' a x' -> asked_line l b x -> (exists r, x' = Ok r /\ inside_relation r) ->
  x = Ok DISJOINT \/ (rel = TOUCH /\ x' <> Ok WITHIN /\ off_answer l b x).
Proof. exact line_apart_l. Qed.
Print Assumptions line_apart.
(** A part of a line that does not meet, or does not enter, an area and a part of that area. *)
Theorem line_off : forall l l' a b rel x x', line_valid l -> line_valid l' -> geo_valid a -> geo_valid b -> line_settled l a -> line_settled l' b ->
  subset (line_set l) (line_set l') -> found a b rel -> part_relation rel -> asked_line l' b x' -> asked_line l a x ->
  (x' = Ok DISJOINT -> x = Ok DISJOINT) /\ (x' = Ok TOUCH -> ~ line_around l' b -> off_answer l a x).
Proof. exact line_off_l. Qed.
Print Assumptions line_off.
Example lines_occur : line_valid (LSegment chord) /\ line_valid (LMultisegment chords) /\ line_valid (LContour (sqr 1 4)) /\ geo_valid (GPolygon frame) /\ geo_valid (GMultipolygon frames)
  /\ geo_valid (GRegion (sqr 2 3)) /\ line_settled (LSegment chord) (GPolygon frame) /\ subset (line_set (LSegment chord)) (line_set (LMultisegment chords))
  /\ found (GPolygon frame) (GMultipolygon frames) ENCLOSED /\ found (GPolygon frame) (GRegion (sqr 2 3)) TOUCH
  /\ segment_in_polygon chord frame = Ok WITHIN /\ multisegment_in_polygon chords frame = Ok WITHIN /\ contour_in_polygon (sqr 1 4) frame = Ok WITHIN
  /\ segment_in_multipolygon chord frames = Ok WITHIN /\ multisegment_in_multipolygon chords frames = Ok WITHIN /\ contour_in_multipolygon (sqr 1 4) frames = Ok WITHIN
  /\ contour_in_polygon (sqr 2 3) frame = Ok COMPONENT /\ contour_in_multipolygon (sqr 2 3) frames = Ok COMPONENT /\ contour_in_region (sqr 2 3) (sqr 2 3) = Ok COMPONENT
  /\ segment_in_region chord (sqr 2 3) = Ok DISJOINT.
Proof. exact wit_lines. Qed.
(** The exceptions occur: a contour on the boundary of a polygon that lies in a multipolygon may be
    told to cross the multipolygon. *)
Theorem line_nested_refuted : exists c pg mp, simple_contour c /\ valid_polygon pg /\ (valid_multipolygon mp /\ polygons mp <> [])
  /\ asked_line (LContour c) (GPolygon pg) (Ok COMPONENT) /\ asked (GPolygon pg) (GMultipolygon mp) (Ok ENCLOSED) /\ asked_line (LContour c) (GMultipolygon mp) (Ok CROSS)
  /\ subset (on_contour c) (a_cl (multipolygon_area mp)).
Proof. exact (ex_intro _ _ (ex_intro _ _ (ex_intro _ _ wit_line_crossing))). Qed.
Print Assumptions line_nested_refuted.
