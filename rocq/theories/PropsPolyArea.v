(* Properties C33, C34, C47, C50 and C51 to C54.  Statements only; the proofs are
   in PolyArea.v, PolyLine.v, PolyMulti.v, PolyPoly.v and Rings.v. *)
From Coq Require Import QArith Qcanon List Bool ZArith.
From Verif Require Import Scalar Base Ground MLinear MSweep MCompound Planar Spec SpecAreas RefuteProofs PolyArea PolyLine PolyMulti PolyPoly Rings Witness11 Witness12.
Import ListNotations.
Open Scope Qc_scope.

(** C51: a region in a polygon.  The relation is the true one if no two rings of
    the polygon touch at the region's contour. *)
Theorem region_in_polygon_exact : forall r pg, simple_contour r -> valid_polygon pg -> clear_rings (on_contour r) pg ->
  answer_is (areal_spec (region_area r) (polygon_area pg)) (region_in_polygon r pg).
Proof. exact region_in_polygon_exact_l. Qed.
Print Assumptions region_in_polygon_exact.
(** In all cases COMPONENT is the only relation that is not told (from ENCLOSED). *)
Theorem region_in_polygon_merged : forall r pg, simple_contour r -> valid_polygon pg ->
  answer_is (merged_spec (region_area r) (polygon_area pg)) (region_in_polygon r pg).
Proof. exact region_in_polygon_merged_l. Qed.
Print Assumptions region_in_polygon_merged.
Theorem region_in_polygon_component_refuted : exists r pg, simple_contour r /\ valid_polygon pg
  /\ areal_spec (region_area r) (polygon_area pg) COMPONENT /\ region_in_polygon r pg = Ok ENCLOSED.
Proof. exact region_in_polygon_component_refuted_l. Qed.
Print Assumptions region_in_polygon_component_refuted.

(** C52: segments and contours in a polygon. *)
Theorem segment_in_polygon_exact : forall s pg, nondegenerate s -> valid_polygon pg ->
  ~ share_segment (in_segment s) (on_contour (border pg)) -> ends_settled s (border pg) ->
  meet_at_ends (in_segment s) (contours_edges (holes pg)) -> clear_border (in_segment s) pg ->
  answer_is (linear_areal_spec (in_segment s) (polygon_area pg)) (segment_in_polygon s pg).
Proof. exact segment_in_polygon_exact_l. Qed.
Print Assumptions segment_in_polygon_exact.
Theorem contour_in_polygon_exact : forall pg, valid_polygon pg -> forall c, simple_contour c ->
  meet_at_ends (on_contour c) (contours_edges (holes pg)) -> clear_border (on_contour c) pg ->
  answer_is (linear_areal_spec (on_contour c) (polygon_area pg)) (contour_in_polygon c pg).
Proof. exact contour_in_polygon_exact_l. Qed.
Print Assumptions contour_in_polygon_exact.
(** The border and a hole may not touch at the contour. *)
Theorem contour_in_polygon_cross_refuted : exists c pg, simple_contour c /\ valid_polygon pg /\ meet_at_ends (on_contour c) (polygon_edges pg)
  /\ (forall p, on_contour c p -> ~ polygon_interior pg p) /\ contour_in_polygon c pg = Ok CROSS.
Proof. exact contour_in_polygon_cross_refuted_l. Qed.
Print Assumptions contour_in_polygon_cross_refuted.
Example polygon_lines_occur :
  valid_polygon ring_q /\ (forall X, clear_rings X ring_q) /\ (forall X, meet_at_ends X (contours_edges (holes ring_q)))
  /\ Forall (fun s => nondegenerate s /\ ~ share_segment (in_segment s) (on_contour (border ring_q)) /\ ends_settled s (border ring_q)) s_lines
  /\ map (fun s => segment_in_polygon s ring_q) s_lines = [Ok WITHIN; Ok CROSS; Ok ENCLOSED; Ok COMPONENT; Ok TOUCH; Ok DISJOINT; Ok CROSS]
  /\ Forall simple_contour c_lines
  /\ map (fun c => contour_in_polygon c ring_q) c_lines = [Ok WITHIN; Ok COMPONENT; Ok DISJOINT; Ok TOUCH; Ok CROSS; Ok ENCLOSED].
Proof. exact wit_polygon_lines. Qed.

(** C33 for segments that are not along the border (see [segment_in_polygon_exact]);
    in general it is false: [segment_in_polygon_refuted]. *)
Theorem segment_in_polygon_outside_partial : forall s pg, nondegenerate s -> valid_polygon pg ->
  ~ share_segment (in_segment s) (on_contour (border pg)) -> ends_settled s (border pg) ->
  meet_at_ends (in_segment s) (contours_edges (holes pg)) -> clear_border (in_segment s) pg ->
  (forall p, in_segment s p -> ~ polygon_interior pg p) ->
  segment_in_polygon s pg = Ok DISJOINT \/ segment_in_polygon s pg = Ok TOUCH \/ segment_in_polygon s pg = Ok COMPONENT.
Proof. exact segment_in_polygon_outside_l. Qed.
Print Assumptions segment_in_polygon_outside_partial.

(** C53: a multiregion in a polygon. *)
Theorem multiregion_in_polygon_exact : forall rs pg, valid_multiregion rs -> rs <> [] -> valid_polygon pg -> clear_rings (on_contours rs) pg ->
  answer_is (areal_spec (multiregion_area rs) (polygon_area pg)) (multiregion_in_polygon rs pg).
Proof. exact multiregion_in_polygon_exact_l. Qed.
Print Assumptions multiregion_in_polygon_exact.
Theorem multiregion_in_polygon_merged : forall rs pg, valid_multiregion rs -> rs <> [] -> valid_polygon pg -> clear_border (on_contours rs) pg ->
  answer_is (merged_spec (multiregion_area rs) (polygon_area pg)) (multiregion_in_polygon rs pg).
Proof. exact multiregion_in_polygon_merged_l. Qed.
Print Assumptions multiregion_in_polygon_merged.
Theorem multiregion_in_polygon_equal_refuted : exists rs pg, valid_multiregion rs /\ rs <> [] /\ valid_polygon pg
  /\ areal_spec (multiregion_area rs) (polygon_area pg) EQUAL /\ multiregion_in_polygon rs pg = Ok ENCLOSED.
Proof. exact multiregion_in_polygon_equal_refuted_l. Qed.
Print Assumptions multiregion_in_polygon_equal_refuted.

(** C54: two polygons. *)
Theorem polygon_in_polygon_exact : forall pt pg, valid_polygon pt -> valid_polygon pg ->
  clear_rings (polygon_boundary pt) pg -> clear_rings (polygon_boundary pg) pt ->
  no_touching_holes pt pg -> no_touching_holes pg pt ->
  answer_is (areal_spec (polygon_area pt) (polygon_area pg)) (polygon_in_polygon pt pg).
Proof. exact polygon_in_polygon_clear_l. Qed.
Print Assumptions polygon_in_polygon_exact.
Theorem polygon_in_polygon_merged : forall pt pg, valid_polygon pt -> valid_polygon pg ->
  clear_border (polygon_boundary pt) pg -> clear_border (polygon_boundary pg) pt ->
  no_touching_holes pt pg -> no_touching_holes pg pt ->
  answer_is (merged_both_spec (polygon_area pt) (polygon_area pg)) (polygon_in_polygon pt pg).
Proof. exact polygon_in_polygon_exact_l. Qed.
Print Assumptions polygon_in_polygon_merged.
Theorem polygon_in_polygon_parts : forall pt pg, valid_polygon pt -> valid_polygon pg ->
  clear_border (polygon_boundary pt) pg -> clear_border (polygon_boundary pg) pt ->
  exists rel, polygon_in_polygon pt pg = Ok rel /\ parts_spec (polygon_area pt) (polygon_area pg) rel.
Proof. exact polygon_in_polygon_parts_l. Qed.
Print Assumptions polygon_in_polygon_parts.
Theorem polygon_in_polygon_overlap_refuted : exists l r, valid_polygon l /\ valid_polygon r
  /\ (forall X, meet_at_ends X (polygon_edges l)) /\ (forall X, meet_at_ends X (polygon_edges r))
  /\ (forall p, polygon_interior l p -> polygon_interior r p -> False) /\ polygon_in_polygon l r = Ok OVERLAP.
Proof. exact polygon_in_polygon_overlap_refuted_l. Qed.
Print Assumptions polygon_in_polygon_overlap_refuted.
Example polygon_areas_occur :
  valid_polygon big_ring /\ (forall X, clear_rings X big_ring)
  /\ Forall simple_contour (sqr 0 12 :: r_areas)
  /\ map (fun r => region_in_polygon r big_ring) (sqr 0 12 :: r_areas)
     = [Ok ENCLOSES; Ok TOUCH; Ok WITHIN; Ok ENCLOSED; Ok OVERLAP; Ok TOUCH; Ok DISJOINT; Ok ENCLOSES; Ok COVER]
  /\ Forall valid_multiregion mr_areas /\ Forall (fun rs => rs <> []) mr_areas
  /\ map (fun rs => multiregion_in_polygon rs big_ring) mr_areas
     = [Ok WITHIN; Ok ENCLOSED; Ok TOUCH; Ok TOUCH; Ok DISJOINT; Ok COVER; Ok OVERLAP]
  /\ valid_polygon bare /\ (forall X, clear_rings X bare)
  /\ region_in_polygon (sqr 0 12) bare = Ok EQUAL /\ multiregion_in_polygon [sqr 0 12] bare = Ok EQUAL /\ multiregion_in_polygon [sqr 0 12; big_tri] bare = Ok COMPOSITE
  /\ Forall valid_polygon p_areas
  /\ Forall (fun pg => (forall X, clear_rings X pg) /\ no_touching_holes pg big_ring /\ no_touching_holes big_ring pg) p_areas
  /\ map (fun pg => polygon_in_polygon pg big_ring) p_areas
     = [Ok EQUAL; Ok WITHIN; Ok ENCLOSED; Ok OVERLAP; Ok TOUCH; Ok DISJOINT; Ok ENCLOSES; Ok COVER].
Proof. exact wit_polygon_areas. Qed.

(** C34 in the absence of touching rings and of holes that touch a border from
    outside; in general it is false: [polygon_in_polygon_within_refuted]. *)
Theorem polygon_in_polygon_within_partial : forall pt pg, valid_polygon pt -> valid_polygon pg ->
  clear_border (polygon_boundary pt) pg -> clear_border (polygon_boundary pg) pt ->
  no_touching_holes pt pg -> no_touching_holes pg pt ->
  (polygon_in_polygon pt pg = Ok WITHIN <-> areal_spec (polygon_area pt) (polygon_area pg) WITHIN).
Proof. exact polygon_in_polygon_within_l. Qed.
Print Assumptions polygon_in_polygon_within_partial.

(** C47 and C50 need their conditions on the points where edges meet. *)
Theorem contour_in_multiregion_cross_refuted : exists c rs, simple_contour c /\ valid_multiregion rs
  /\ (forall p, on_contour c p -> exists r, In r rs /\ ~ outside r p) /\ contour_in_multiregion c rs = Ok CROSS.
Proof. exact contour_in_multiregion_cross_refuted_l. Qed.
Print Assumptions contour_in_multiregion_cross_refuted.
Theorem polygon_in_multipolygon_overlap_refuted : exists l r, valid_polygon l /\ valid_polygon r
  /\ (forall p, polygon_interior l p -> polygon_interior r p -> False)
  /\ polygon_in_multipolygon l (MPoly [r]) = Ok OVERLAP /\ multipolygon_in_multipolygon (MPoly [l]) (MPoly [r]) = Ok OVERLAP.
Proof. exact polygon_in_multipolygon_overlap_refuted_l. Qed.
Print Assumptions polygon_in_multipolygon_overlap_refuted.
