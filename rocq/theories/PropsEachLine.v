(* Property C95.  Statements only; the proofs are in LineEach.v and Witness44.v. *)
From Coq Require Import QArith Qcanon List Bool ZArith.
From Verif Require Import Scalar Base Ground MLinear MSweep MCompound Planar Spec SpecAreas SpecAround SpecSeen SpecEachLine RefuteProofs LineEach Witness6 Witness10 Witness11 Witness12 Witness16 Witness18 Witness34 Witness44.
Import ListNotations.
Open Scope Qc_scope.

(** C95: each answer of the queries for a line and several areas, exactly, whatever rings touch. *)
Theorem segment_in_multiregion_each : forall s rs, nondegenerate s -> valid_multiregion rs -> rs <> [] ->
  each_line_answer (in_segment s) (multiregion_area rs) (cut_by [(s_start s, s_end s)] (contours_edges rs)) (segment_in_multiregion s rs).
Proof. exact segment_in_multiregion_each_l. Qed.
Print Assumptions segment_in_multiregion_each.
Theorem contour_in_multiregion_each : forall c rs, simple_contour c -> valid_multiregion rs -> rs <> [] ->
  each_line_answer (on_contour c) (multiregion_area rs) (cut_by (contours_edges [c]) (contours_edges rs)) (contour_in_multiregion c rs).
Proof. exact contour_in_multiregion_each_l. Qed.
Print Assumptions contour_in_multiregion_each.
Theorem segment_in_multipolygon_each : forall s mp, nondegenerate s -> valid_multipolygon mp -> polygons mp <> [] ->
  each_line_answer (in_segment s) (multipolygon_area mp) (cut_by [(s_start s, s_end s)] (multipolygon_edges mp)) (segment_in_multipolygon s mp).
Proof. exact segment_in_multipolygon_each_l. Qed.
Print Assumptions segment_in_multipolygon_each.
Theorem contour_in_multipolygon_each : forall c mp, simple_contour c -> valid_multipolygon mp -> polygons mp <> [] ->
  each_line_answer (on_contour c) (multipolygon_area mp) (cut_by (contours_edges [c]) (multipolygon_edges mp)) (contour_in_multipolygon c mp).
Proof. exact contour_in_multipolygon_each_l. Qed.
Print Assumptions contour_in_multipolygon_each.
(** The same for multisegments: those that run around the area without a cut are answered TOUCH. *)
Theorem multisegment_in_polygon_each : forall m pg, valid_multisegment m -> valid_polygon pg ->
  each_lines_answer (in_multisegment m) (polygon_area pg) (runs_around (in_multisegment m) (polygon_area pg)) (seen_cut (multisegment_edges m) (polygon_edges pg)) (multisegment_in_polygon m pg).
Proof. exact multisegment_in_polygon_each_l. Qed.
Print Assumptions multisegment_in_polygon_each.
Theorem multisegment_in_region_each : forall m r, valid_multisegment m -> simple_contour r ->
  each_lines_answer (in_multisegment m) (region_area r) (runs_around (in_multisegment m) (region_area r)) (seen_cut (multisegment_edges m) (contours_edges [r])) (multisegment_in_region m r).
Proof. exact multisegment_in_region_each_l. Qed.
Print Assumptions multisegment_in_region_each.
Theorem multisegment_in_multiregion_each : forall m rs, valid_multisegment m -> valid_multiregion rs -> rs <> [] ->
  each_lines_answer (in_multisegment m) (multiregion_area rs) (runs_round (in_multisegment m) region_area (multiregion_area rs) rs) (seen_cut (multisegment_edges m) (contours_edges rs)) (multisegment_in_multiregion m rs).
Proof. exact multisegment_in_multiregion_each_l. Qed.
Print Assumptions multisegment_in_multiregion_each.
Theorem multisegment_in_multipolygon_each : forall m mp, valid_multisegment m -> valid_multipolygon mp -> polygons mp <> [] ->
  each_lines_answer (in_multisegment m) (multipolygon_area mp) (runs_round (in_multisegment m) polygon_area (multipolygon_area mp) (polygons mp)) (seen_cut (multisegment_edges m) (multipolygon_edges mp)) (multisegment_in_multipolygon m mp).
Proof. exact multisegment_in_multipolygon_each_l. Qed.
Print Assumptions multisegment_in_multipolygon_each.
Example each_line_answer_occurs : valid_multipolygon shut /\ polygons shut <> [] /\ Forall nondegenerate (along :: six_ways)
  /\ map (fun s => segment_in_multipolygon s shut) six_ways = [Ok DISJOINT; Ok TOUCH; Ok CROSS; Ok COMPONENT; Ok ENCLOSED; Ok WITHIN]
  /\ cut_by [(s_start along, s_end along)] (multipolygon_edges shut) /\ linear_areal_spec (in_segment along) (multipolygon_area shut) COMPONENT /\ segment_in_multipolygon along shut = Ok CROSS.
Proof. exact wit_each_line. Qed.
Example each_line_cut_occurs : valid_multiregion ab /\ ab <> [] /\ Forall nondegenerate [through; aside] /\ simple_contour in_dart /\ valid_multiregion dart
  /\ Forall (fun s => cut_by [(s_start s, s_end s)] (contours_edges ab)) [through; aside] /\ cut_by (contours_edges [in_dart]) (contours_edges dart)
  /\ linear_areal_spec (in_segment through) (multiregion_area ab) ENCLOSED /\ linear_areal_spec (on_contour in_dart) (multiregion_area dart) ENCLOSED
  /\ ~ cut_by [(P 4 0, P 4 4)] (contours_edges ab)
  /\ map (fun s => segment_in_multiregion s ab) [through; aside; Seg (P 4 0) (P 4 4)] = [Ok CROSS; Ok CROSS; Ok COMPONENT]
  /\ contour_in_multiregion in_dart dart = Ok CROSS.
Proof. exact wit_seen_lines. Qed.
Example each_line_round_occurs : Forall valid_multisegment [all_ab; only_ab]
  /\ Forall (fun m => runs_round (in_multisegment m) region_area (multiregion_area ab) ab) [all_ab; only_ab]
  /\ seen_cut (multisegment_edges all_ab) (contours_edges ab) /\ ~ seen_cut (multisegment_edges only_ab) (contours_edges ab)
  /\ map (fun m => multisegment_in_multiregion m ab) [all_ab; only_ab] = [Ok CROSS; Ok TOUCH].
Proof. exact wit_seen_round. Qed.
Example each_line_polygon_occurs : valid_polygon notched /\ Forall valid_multisegment [into_m; all_n]
  /\ Forall (fun m => seen_cut (multisegment_edges m) (polygon_edges notched)) [into_m; all_n]
  /\ runs_around (in_multisegment all_n) (polygon_area notched)
  /\ map (fun m => multisegment_in_polygon m notched) [into_m; all_n] = [Ok CROSS; Ok CROSS]
  /\ ~ seen_cut (multisegment_edges hang) (polygon_edges notched) /\ multisegment_in_polygon hang notched = Ok TOUCH.
Proof. exact wit_seen_polygon. Qed.
