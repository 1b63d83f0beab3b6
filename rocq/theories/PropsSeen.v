(* Property C85.  Statements only; the proofs are in SeenProofs.v and Witness34.v. *)
From Coq Require Import QArith Qcanon List Bool ZArith.
From Verif Require Import Scalar Base Ground MLinear MSweep MCompound Planar Spec SpecAreas SpecAround SpecContact SpecSeen RefuteProofs SeenProofs Witness12 Witness16 Witness18 Witness34.
Import ListNotations.
Open Scope Qc_scope.

(** C85: exactly when the queries that are answered by one sweep answer CROSS
    (OVERLAP for areas) because of a cut, whatever edges touch each other.  A segment
    or a contour that cuts an edge is always answered CROSS, and else with the true
    relation. *)
Theorem segment_in_multiregion_seen : forall s rs, nondegenerate s -> valid_multiregion rs -> rs <> [] ->
  told_by (linear_areal_spec (in_segment s) (multiregion_area rs)) CROSS (cut_by [(s_start s, s_end s)] (contours_edges rs)) (segment_in_multiregion s rs).
Proof. exact segment_in_multiregion_seen_l. Qed.
Print Assumptions segment_in_multiregion_seen.
Theorem contour_in_multiregion_seen : forall c rs, simple_contour c -> valid_multiregion rs -> rs <> [] ->
  told_by (linear_areal_spec (on_contour c) (multiregion_area rs)) CROSS (cut_by (contours_edges [c]) (contours_edges rs)) (contour_in_multiregion c rs).
Proof. exact contour_in_multiregion_seen_l. Qed.
Print Assumptions contour_in_multiregion_seen.
Theorem segment_in_multipolygon_seen : forall s mp, nondegenerate s -> valid_multipolygon mp -> polygons mp <> [] ->
  told_by (linear_areal_spec (in_segment s) (multipolygon_area mp)) CROSS (cut_by [(s_start s, s_end s)] (multipolygon_edges mp)) (segment_in_multipolygon s mp).
Proof. exact segment_in_multipolygon_seen_l. Qed.
Print Assumptions segment_in_multipolygon_seen.
Theorem contour_in_multipolygon_seen : forall c mp, simple_contour c -> valid_multipolygon mp -> polygons mp <> [] ->
  told_by (linear_areal_spec (on_contour c) (multipolygon_area mp)) CROSS (cut_by (contours_edges [c]) (multipolygon_edges mp)) (contour_in_multipolygon c mp).
Proof. exact contour_in_multipolygon_seen_l. Qed.
Print Assumptions contour_in_multipolygon_seen.
(** Among these are lines within the multiregion. *)
Example seen_lines_occur : valid_multiregion ab /\ ab <> [] /\ Forall nondegenerate [through; aside] /\ simple_contour in_dart /\ valid_multiregion dart
  /\ Forall (fun s => cut_by [(s_start s, s_end s)] (contours_edges ab)) [through; aside] /\ cut_by (contours_edges [in_dart]) (contours_edges dart)
  /\ linear_areal_spec (in_segment through) (multiregion_area ab) ENCLOSED /\ linear_areal_spec (on_contour in_dart) (multiregion_area dart) ENCLOSED
  /\ ~ cut_by [(P 4 0, P 4 4)] (contours_edges ab)
  /\ map (fun s => segment_in_multiregion s ab) [through; aside; Seg (P 4 0) (P 4 4)] = [Ok CROSS; Ok CROSS; Ok COMPONENT]
  /\ contour_in_multiregion in_dart dart = Ok CROSS.
Proof. exact wit_seen_lines. Qed.

(** A cut by a multisegment is overlooked exactly if all the four ways from the
    point along the two edges are taken by edges of the other geometry.  Without a
    noticed cut a multisegment that runs around the area is answered TOUCH. *)
Theorem multisegment_in_polygon_seen : forall m pg, valid_multisegment m -> valid_polygon pg ->
  lines_told_by (linear_areal_spec (in_multisegment m) (polygon_area pg)) (runs_around (in_multisegment m) (polygon_area pg))
    (seen_cut (multisegment_edges m) (polygon_edges pg)) (multisegment_in_polygon m pg).
Proof. exact multisegment_in_polygon_seen_l. Qed.
Print Assumptions multisegment_in_polygon_seen.
Theorem multisegment_in_multiregion_seen : forall m rs, valid_multisegment m -> valid_multiregion rs -> rs <> [] ->
  lines_told_by (linear_areal_spec (in_multisegment m) (multiregion_area rs)) (runs_round (in_multisegment m) region_area (multiregion_area rs) rs)
    (seen_cut (multisegment_edges m) (contours_edges rs)) (multisegment_in_multiregion m rs).
Proof. exact multisegment_in_multiregion_seen_l. Qed.
Print Assumptions multisegment_in_multiregion_seen.
Theorem multisegment_in_multipolygon_seen : forall m mp, valid_multisegment m -> valid_multipolygon mp -> polygons mp <> [] ->
  lines_told_by (linear_areal_spec (in_multisegment m) (multipolygon_area mp)) (runs_round (in_multisegment m) polygon_area (multipolygon_area mp) (polygons mp))
    (seen_cut (multisegment_edges m) (multipolygon_edges mp)) (multisegment_in_multipolygon m mp).
Proof. exact multisegment_in_multipolygon_seen_l. Qed.
Print Assumptions multisegment_in_multipolygon_seen.
Example seen_round_occurs : Forall valid_multisegment [all_ab; only_ab]
  /\ Forall (fun m => runs_round (in_multisegment m) region_area (multiregion_area ab) ab) [all_ab; only_ab]
  /\ seen_cut (multisegment_edges all_ab) (contours_edges ab) /\ ~ seen_cut (multisegment_edges only_ab) (contours_edges ab)
  /\ map (fun m => multisegment_in_multiregion m ab) [all_ab; only_ab] = [Ok CROSS; Ok TOUCH].
Proof. exact wit_seen_round. Qed.
(** Cuts are overlooked. *)
Example unseen_occurs : valid_multisegment shut_m /\ valid_multipolygon shut /\ polygons shut <> [] /\ cut_by (multisegment_edges shut_m) (multipolygon_edges shut)
  /\ ~ seen_cut (multisegment_edges shut_m) (multipolygon_edges shut)
  /\ multisegment_in_multipolygon shut_m shut = Ok COMPONENT /\ segment_in_multipolygon (Seg (P 3 0) (P 6 0)) shut = Ok CROSS.
Proof. exact wit_unseen. Qed.
Example seen_polygon_occurs : valid_polygon notched /\ Forall valid_multisegment [into_m; all_n]
  /\ Forall (fun m => seen_cut (multisegment_edges m) (polygon_edges notched)) [into_m; all_n]
  /\ runs_around (in_multisegment all_n) (polygon_area notched)
  /\ map (fun m => multisegment_in_polygon m notched) [into_m; all_n] = [Ok CROSS; Ok CROSS]
  /\ ~ seen_cut (multisegment_edges hang) (polygon_edges notched) /\ multisegment_in_polygon hang notched = Ok TOUCH.
Proof. exact wit_seen_polygon. Qed.

(** Areas in multipolygons. *)
Theorem polygon_in_multipolygon_seen : forall pg mp, valid_polygon pg -> valid_multipolygon mp -> polygons mp <> [] ->
  told_by (areal_spec (polygon_area pg) (multipolygon_area mp)) OVERLAP (seen_cut (polygon_edges pg) (multipolygon_edges mp)) (polygon_in_multipolygon pg mp).
Proof. exact polygon_in_multipolygon_seen_l. Qed.
Print Assumptions polygon_in_multipolygon_seen.
Theorem multiregion_in_multipolygon_seen : forall rs mp, valid_multiregion rs -> rs <> [] -> valid_multipolygon mp -> polygons mp <> [] ->
  told_by (areal_spec (multiregion_area rs) (multipolygon_area mp)) OVERLAP (seen_cut (contours_edges rs) (multipolygon_edges mp)) (multiregion_in_multipolygon rs mp).
Proof. exact multiregion_in_multipolygon_seen_l. Qed.
Print Assumptions multiregion_in_multipolygon_seen.
Theorem multipolygon_in_multipolygon_seen : forall mp mq, valid_multipolygon mp -> polygons mp <> [] -> valid_multipolygon mq -> polygons mq <> [] ->
  told_by (areal_spec (multipolygon_area mp) (multipolygon_area mq)) OVERLAP (seen_cut (multipolygon_edges mp) (multipolygon_edges mq)) (multipolygon_in_multipolygon mp mq).
Proof. exact multipolygon_in_multipolygon_seen_l. Qed.
Print Assumptions multipolygon_in_multipolygon_seen.
Example seen_areas_occur : valid_polygon left_p /\ valid_polygon upper_p /\ seen_cut (polygon_edges left_p) (polygon_edges upper_p)
  /\ areal_spec (polygon_area left_p) (polygon_area upper_p) TOUCH /\ polygon_in_multipolygon left_p (MPoly [upper_p]) = Ok OVERLAP
  /\ multipolygon_in_multipolygon (MPoly [left_p]) (MPoly [upper_p]) = Ok OVERLAP
  /\ polygon_in_multipolygon notched (MPoly [left_p]) = Ok TOUCH /\ ~ seen_cut (polygon_edges notched) (multipolygon_edges (MPoly [left_p])).
Proof. exact wit_seen_areas. Qed.
