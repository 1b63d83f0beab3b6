(* Property C68.  Statements only; the proofs are in ContactProofs.v. *)
From Coq Require Import QArith Qcanon List Bool ZArith.
From Verif Require Import Scalar Base Ground MLinear MSweep MCompound Planar Spec SpecAreas SpecAround SpecContact ContactProofs RefuteProofs Witness11 Witness12 Witness16 Witness18.
Import ListNotations.
Open Scope Qc_scope.

(** C68: whatever edges touch each other, the queries that are answered by one sweep
    answer with the true relation, or with CROSS (OVERLAP for areas) because of a
    segment that cuts an edge at a point where edges touch. *)
Theorem segment_in_multiregion_contact : forall s rs, nondegenerate s -> valid_multiregion rs -> rs <> [] ->
  answer_or (linear_areal_spec (in_segment s) (multiregion_area rs)) CROSS
    (contact_cut [(s_start s, s_end s)] (contours_edges rs) /\ linear_areal_spec (in_segment s) (multiregion_area rs) ENCLOSED) (segment_in_multiregion s rs).
Proof. exact segment_in_multiregion_or_l. Qed.
Print Assumptions segment_in_multiregion_contact.
Theorem contour_in_multiregion_contact : forall c rs, simple_contour c -> valid_multiregion rs -> rs <> [] ->
  answer_or (linear_areal_spec (on_contour c) (multiregion_area rs)) CROSS
    (contact_cut (contours_edges [c]) (contours_edges rs) /\ linear_areal_spec (on_contour c) (multiregion_area rs) ENCLOSED) (contour_in_multiregion c rs).
Proof. exact contour_in_multiregion_loose_l. Qed.
Print Assumptions contour_in_multiregion_contact.
(** A multisegment may contain the boundaries, see C66. *)
Theorem multisegment_in_multiregion_contact : forall m rs, valid_multisegment m -> valid_multiregion rs -> rs <> [] ->
  (~ runs_round (in_multisegment m) region_area (multiregion_area rs) rs ->
   answer_or (linear_areal_spec (in_multisegment m) (multiregion_area rs)) CROSS
     (contact_cut (multisegment_edges m) (contours_edges rs) /\ linear_areal_spec (in_multisegment m) (multiregion_area rs) ENCLOSED) (multisegment_in_multiregion m rs))
  /\ (runs_round (in_multisegment m) region_area (multiregion_area rs) rs ->
      multisegment_in_multiregion m rs = Ok CROSS /\ cut_by (multisegment_edges m) (contours_edges rs)
      \/ multisegment_in_multiregion m rs = Ok TOUCH /\ ~ clear_cut (multisegment_edges m) (contours_edges rs)).
Proof. exact multisegment_in_multiregion_or_l. Qed.
Print Assumptions multisegment_in_multiregion_contact.
Example contact_segments_occur : valid_multiregion ab /\ ab <> [] /\ Forall nondegenerate [through; aside]
  /\ Forall (fun s => contact_cut [(s_start s, s_end s)] (contours_edges ab)) [through; aside]
  /\ linear_areal_spec (in_segment through) (multiregion_area ab) ENCLOSED /\ linear_areal_spec (in_segment aside) (multiregion_area ab) CROSS
  /\ map (fun s => segment_in_multiregion s ab) [through; aside; Seg (P 4 0) (P 4 4); Seg (P 4 2) (P 7 0)] = [Ok CROSS; Ok CROSS; Ok COMPONENT; Ok TOUCH].
Proof. exact wit_contact_segments. Qed.
Example contact_contour_occurs : simple_contour in_dart /\ valid_multiregion dart /\ dart <> [] /\ contact_cut (contours_edges [in_dart]) (contours_edges dart)
  /\ linear_areal_spec (on_contour in_dart) (multiregion_area dart) ENCLOSED /\ contour_in_multiregion in_dart dart = Ok CROSS.
Proof. exact wit_contact_contour. Qed.
Example contact_round_occurs : Forall valid_multisegment [all_ab; only_ab]
  /\ Forall (fun m => runs_round (in_multisegment m) region_area (multiregion_area ab) ab) [all_ab; only_ab]
  /\ map (fun m => multisegment_in_multiregion m ab) [all_ab; only_ab] = [Ok CROSS; Ok TOUCH].
Proof. exact wit_contact_round. Qed.

(** So the answers are right for lines that leave the multiregion, or that do not
    enter it. *)
Theorem segment_in_multiregion_outside : forall s rs, nondegenerate s -> valid_multiregion rs -> rs <> [] ->
  meets (in_segment s) (a_out (multiregion_area rs)) \/ ~ meets (in_segment s) (a_in (multiregion_area rs)) ->
  answer_is (linear_areal_spec (in_segment s) (multiregion_area rs)) (segment_in_multiregion s rs).
Proof. exact segment_in_multiregion_out_l. Qed.
Print Assumptions segment_in_multiregion_outside.
Theorem contour_in_multiregion_outside : forall c rs, simple_contour c -> valid_multiregion rs -> rs <> [] ->
  meets (on_contour c) (a_out (multiregion_area rs)) \/ ~ meets (on_contour c) (a_in (multiregion_area rs)) ->
  answer_is (linear_areal_spec (on_contour c) (multiregion_area rs)) (contour_in_multiregion c rs).
Proof. exact contour_in_multiregion_out_l. Qed.
Print Assumptions contour_in_multiregion_outside.
Theorem multisegment_in_multiregion_outside : forall m rs, valid_multisegment m -> valid_multiregion rs -> rs <> [] ->
  ~ meets (in_multisegment m) (a_in (multiregion_area rs)) ->
  answer_is (linear_areal_spec (in_multisegment m) (multiregion_area rs)) (multisegment_in_multiregion m rs).
Proof. exact multisegment_in_multiregion_off_l. Qed.
Print Assumptions multisegment_in_multiregion_outside.

(** Polygons: a segment may lead from outside into a hole that touches the border. *)
Theorem multisegment_in_polygon_contact : forall m pg, valid_multisegment m -> valid_polygon pg ->
  (~ runs_around (in_multisegment m) (polygon_area pg) ->
   answer_or (linear_areal_spec (in_multisegment m) (polygon_area pg)) CROSS
     (contact_cut (multisegment_edges m) (polygon_edges pg) /\ linear_areal_spec (in_multisegment m) (polygon_area pg) TOUCH) (multisegment_in_polygon m pg))
  /\ (runs_around (in_multisegment m) (polygon_area pg) ->
      multisegment_in_polygon m pg = Ok CROSS /\ cut_by (multisegment_edges m) (polygon_edges pg)
      \/ multisegment_in_polygon m pg = Ok TOUCH /\ ~ clear_cut (multisegment_edges m) (polygon_edges pg)).
Proof. exact multisegment_in_polygon_or_l. Qed.
Print Assumptions multisegment_in_polygon_contact.
Theorem multisegment_in_polygon_enclosed : forall m pg, valid_multisegment m -> valid_polygon pg ->
  ~ meets (in_multisegment m) (a_out (polygon_area pg)) ->
  answer_is (linear_areal_spec (in_multisegment m) (polygon_area pg)) (multisegment_in_polygon m pg).
Proof. exact multisegment_in_polygon_enclosed_l. Qed.
Print Assumptions multisegment_in_polygon_enclosed.
Theorem segment_in_multipolygon_contact : forall s mp, nondegenerate s -> valid_multipolygon mp -> polygons mp <> [] ->
  answer_or (linear_areal_spec (in_segment s) (multipolygon_area mp)) CROSS
    (contact_cut [(s_start s, s_end s)] (multipolygon_edges mp) /\ ~ linear_areal_spec (in_segment s) (multipolygon_area mp) CROSS) (segment_in_multipolygon s mp).
Proof. exact segment_in_multipolygon_or_l. Qed.
Print Assumptions segment_in_multipolygon_contact.
Theorem contour_in_multipolygon_contact : forall c mp, simple_contour c -> valid_multipolygon mp -> polygons mp <> [] ->
  answer_or (linear_areal_spec (on_contour c) (multipolygon_area mp)) CROSS
    (contact_cut (contours_edges [c]) (multipolygon_edges mp) /\ ~ linear_areal_spec (on_contour c) (multipolygon_area mp) CROSS) (contour_in_multipolygon c mp).
Proof. exact contour_in_multipolygon_loose_l. Qed.
Print Assumptions contour_in_multipolygon_contact.
Theorem multisegment_in_multipolygon_contact : forall m mp, valid_multisegment m -> valid_multipolygon mp -> polygons mp <> [] ->
  (~ runs_round (in_multisegment m) polygon_area (multipolygon_area mp) (polygons mp) ->
   answer_or (linear_areal_spec (in_multisegment m) (multipolygon_area mp)) CROSS
     (contact_cut (multisegment_edges m) (multipolygon_edges mp) /\ ~ linear_areal_spec (in_multisegment m) (multipolygon_area mp) CROSS) (multisegment_in_multipolygon m mp))
  /\ (runs_round (in_multisegment m) polygon_area (multipolygon_area mp) (polygons mp) ->
      multisegment_in_multipolygon m mp = Ok CROSS /\ cut_by (multisegment_edges m) (multipolygon_edges mp)
      \/ multisegment_in_multipolygon m mp = Ok TOUCH /\ ~ clear_cut (multisegment_edges m) (multipolygon_edges mp)).
Proof. exact multisegment_in_multipolygon_or_l. Qed.
Print Assumptions multisegment_in_multipolygon_contact.
Example contact_polygon_occurs : valid_polygon notched /\ valid_multipolygon (MPoly [notched]) /\ Forall nondegenerate [into; slant]
  /\ Forall (fun s => contact_cut [(s_start s, s_end s)] (polygon_edges notched)) [into; slant]
  /\ linear_areal_spec (in_segment into) (polygon_area notched) TOUCH /\ linear_areal_spec (in_segment slant) (polygon_area notched) CROSS
  /\ map (fun s => segment_in_multipolygon s (MPoly [notched])) [into; slant] = [Ok CROSS; Ok CROSS]
  /\ map (fun s => multisegment_in_polygon (MSeg [s]) notched) [into; slant] = [Ok CROSS; Ok CROSS]
  /\ map (fun s => multisegment_in_polygon (MSeg [s]) notched) [Seg (P 0 0) (P 8 0); Seg (P 4 0) (P 8 2); Seg (P 4 0) (P 4 2)] = [Ok COMPONENT; Ok ENCLOSED; Ok TOUCH].
Proof. exact wit_contact_polygon. Qed.
Example contact_around_occurs : valid_multisegment all_n /\ runs_around (in_multisegment all_n) (polygon_area notched) /\ contact_cut (multisegment_edges all_n) (polygon_edges notched)
  /\ multisegment_in_polygon all_n notched = Ok CROSS /\ multisegment_in_multipolygon all_n (MPoly [notched]) = Ok CROSS.
Proof. exact wit_contact_around. Qed.

(** Areas: OVERLAP is wrong only if edges cut each other where further edges of both
    areas pass. *)
Theorem polygon_in_multipolygon_contact : forall pg mp, valid_polygon pg -> valid_multipolygon mp -> polygons mp <> [] ->
  answer_or (areal_spec (polygon_area pg) (multipolygon_area mp)) OVERLAP (double_contact (polygon_edges pg) (multipolygon_edges mp)) (polygon_in_multipolygon pg mp).
Proof. exact polygon_in_multipolygon_or_l. Qed.
Print Assumptions polygon_in_multipolygon_contact.
Theorem multiregion_in_multipolygon_contact : forall rs mp, valid_multiregion rs -> rs <> [] -> valid_multipolygon mp -> polygons mp <> [] ->
  answer_or (areal_spec (multiregion_area rs) (multipolygon_area mp)) OVERLAP (double_contact (contours_edges rs) (multipolygon_edges mp)) (multiregion_in_multipolygon rs mp).
Proof. exact multiregion_in_multipolygon_or_l. Qed.
Print Assumptions multiregion_in_multipolygon_contact.
Theorem multipolygon_in_multipolygon_contact : forall mp mq, valid_multipolygon mp -> polygons mp <> [] -> valid_multipolygon mq -> polygons mq <> [] ->
  answer_or (areal_spec (multipolygon_area mp) (multipolygon_area mq)) OVERLAP (double_contact (multipolygon_edges mp) (multipolygon_edges mq)) (multipolygon_in_multipolygon mp mq).
Proof. exact multipolygon_in_multipolygon_or_l. Qed.
Print Assumptions multipolygon_in_multipolygon_contact.
Example double_contact_occurs : valid_polygon left_p /\ valid_polygon upper_p /\ double_contact (polygon_edges left_p) (polygon_edges upper_p)
  /\ areal_spec (polygon_area left_p) (polygon_area upper_p) TOUCH /\ polygon_in_multipolygon left_p (MPoly [upper_p]) = Ok OVERLAP
  /\ polygon_in_multipolygon notched (MPoly [left_p]) = Ok TOUCH /\ polygon_in_multipolygon notched (MPoly [notched]) = Ok EQUAL.
Proof. exact wit_double_contact. Qed.
