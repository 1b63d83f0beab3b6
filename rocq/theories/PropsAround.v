(* Property C66.  Statements only; the proofs are in SweepPass.v and
   AroundProofs.v. *)
From Coq Require Import QArith Qcanon List Bool ZArith.
From Verif Require Import Scalar Base Ground MLinear MSweep MCompound Planar Spec SpecAreas SpecAround AroundProofs RefuteProofs Witness11 Witness16.
Import ListNotations.
Open Scope Qc_scope.

(** C66: a multisegment that contains the boundary of an area and has points inside
    and outside is told as CROSS exactly if one of its segments cuts an edge of the
    area in a point that is an end of neither, and as TOUCH otherwise. *)
Theorem multisegment_in_region_around : forall m r, valid_multisegment m -> simple_contour r ->
  runs_around (in_multisegment m) (region_area r) ->
  cross_or_touch (cut_by (multisegment_edges m) (cyc_pairs (vertices r))) (multisegment_in_region m r).
Proof. exact multisegment_in_region_around_l. Qed.
Print Assumptions multisegment_in_region_around.
Example around_region_occurs : simple_contour (sqr 0 4) /\ Forall valid_multisegment [a_through; a_parts; a_corner]
  /\ Forall (fun m => runs_around (in_multisegment m) (region_area (sqr 0 4))) [a_through; a_parts; a_corner]
  /\ map (fun m => multisegment_in_region m (sqr 0 4)) [a_through; a_parts; a_corner] = [Ok CROSS; Ok TOUCH; Ok TOUCH].
Proof. exact wit_around_region. Qed.
Theorem multisegment_in_polygon_around : forall m pg, valid_multisegment m -> valid_polygon pg ->
  meet_at_ends (in_multisegment m) (polygon_edges pg) -> runs_around (in_multisegment m) (polygon_area pg) ->
  cross_or_touch (cut_by (multisegment_edges m) (polygon_edges pg)) (multisegment_in_polygon m pg).
Proof. exact multisegment_in_polygon_around_l. Qed.
Print Assumptions multisegment_in_polygon_around.
Example around_polygon_occurs : valid_polygon ring_q /\ (forall X, meet_at_ends X (polygon_edges ring_q)) /\ Forall valid_multisegment [h_through; h_corner]
  /\ Forall (fun m => runs_around (in_multisegment m) (polygon_area ring_q)) [h_through; h_corner]
  /\ map (fun m => multisegment_in_polygon m ring_q) [h_through; h_corner] = [Ok CROSS; Ok TOUCH].
Proof. exact wit_around_polygon. Qed.

(** For multiregions and multipolygons: the boundaries of those parts that no
    axis-parallel line separates from the multisegment.  In all other cases the
    answer is the exact one. *)
Theorem multisegment_in_multiregion_around : forall m rs, valid_multisegment m -> valid_multiregion rs -> rs <> [] ->
  meet_at_ends (in_multisegment m) (contours_edges rs) ->
  (runs_round (in_multisegment m) region_area (multiregion_area rs) rs ->
   cross_or_touch (cut_by (multisegment_edges m) (contours_edges rs)) (multisegment_in_multiregion m rs))
  /\ (~ runs_round (in_multisegment m) region_area (multiregion_area rs) rs ->
      answer_is (linear_areal_spec (in_multisegment m) (multiregion_area rs)) (multisegment_in_multiregion m rs)).
Proof. exact multisegment_in_multiregion_round. Qed.
Print Assumptions multisegment_in_multiregion_around.
Example around_multiregion_occurs : valid_multiregion two_squares /\ two_squares <> [] /\ (forall X, meet_at_ends X (contours_edges two_squares))
  /\ Forall valid_multisegment [a_through; a_parts; both_through; both_parts]
  /\ Forall (fun m => runs_round (in_multisegment m) region_area (multiregion_area two_squares) two_squares) [a_through; a_parts; both_through; both_parts]
  /\ map (fun m => multisegment_in_multiregion m two_squares) [a_through; a_parts; both_through; both_parts] = [Ok CROSS; Ok TOUCH; Ok CROSS; Ok TOUCH].
Proof. exact wit_around_multiregion. Qed.
Theorem multisegment_in_multipolygon_around : forall m mp, valid_multisegment m -> valid_multipolygon mp -> polygons mp <> [] ->
  meet_at_ends (in_multisegment m) (multipolygon_edges mp) ->
  (runs_round (in_multisegment m) polygon_area (multipolygon_area mp) (polygons mp) ->
   cross_or_touch (cut_by (multisegment_edges m) (multipolygon_edges mp)) (multisegment_in_multipolygon m mp))
  /\ (~ runs_round (in_multisegment m) polygon_area (multipolygon_area mp) (polygons mp) ->
      answer_is (linear_areal_spec (in_multisegment m) (multipolygon_area mp)) (multisegment_in_multipolygon m mp)).
Proof. exact multisegment_in_multipolygon_round. Qed.
Print Assumptions multisegment_in_multipolygon_around.
Example around_multipolygon_occurs : valid_multipolygon two_parts /\ polygons two_parts <> [] /\ (forall X, meet_at_ends X (multipolygon_edges two_parts))
  /\ Forall valid_multisegment [h_through; h_corner]
  /\ Forall (fun m => runs_round (in_multisegment m) polygon_area (multipolygon_area two_parts) (polygons two_parts)) [h_through; h_corner]
  /\ map (fun m => multisegment_in_multipolygon m two_parts) [h_through; h_corner] = [Ok CROSS; Ok TOUCH].
Proof. exact wit_around_multipolygon. Qed.
