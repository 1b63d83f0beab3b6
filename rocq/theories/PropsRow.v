(* Property C96.  Statements only; the proofs are in LineRow.v and Witness45.v. *)
From Coq Require Import QArith Qcanon List Bool ZArith.
From Verif Require Import Scalar Base Ground MLinear MSweep MCompound Planar Spec SpecAreas SpecAround SpecSeen SpecRow RefuteProofs LineRow Witness6 Witness10 Witness11 Witness12 Witness16 Witness18 Witness22 Witness34 Witness42 Witness43 Witness45.
Import ListNotations.
Open Scope Qc_scope.

(** C96: a line in an area and the area in another one, whatever rings touch and edges cut. *)
Theorem multiregions_row : forall rs qs, valid_multiregion rs -> rs <> [] -> valid_multiregion qs -> qs <> [] ->
  let ab := multiregion_in_multiregion rs qs in
  (forall s, nondegenerate s -> line_row (segment_in_multiregion s rs) ab (segment_in_multiregion s qs))
  /\ (forall c, simple_contour c -> line_row (contour_in_multiregion c rs) ab (contour_in_multiregion c qs))
  /\ (forall m, valid_multisegment m -> line_row (multisegment_in_multiregion m rs) ab (multisegment_in_multiregion m qs)).
Proof. exact multiregions_row_l. Qed.
Print Assumptions multiregions_row.
Theorem multiregion_multipolygon_row : forall rs mq, valid_multiregion rs -> rs <> [] -> valid_multipolygon mq -> polygons mq <> [] ->
  let ab := multiregion_in_multipolygon rs mq in
  (forall s, nondegenerate s -> line_row (segment_in_multiregion s rs) ab (segment_in_multipolygon s mq))
  /\ (forall c, simple_contour c -> line_row (contour_in_multiregion c rs) ab (contour_in_multipolygon c mq))
  /\ (forall m, valid_multisegment m -> line_row (multisegment_in_multiregion m rs) ab (multisegment_in_multipolygon m mq)).
Proof. exact multiregion_multipolygon_row_l. Qed.
Print Assumptions multiregion_multipolygon_row.
Theorem multipolygons_row : forall mp mq, valid_multipolygon mp -> polygons mp <> [] -> valid_multipolygon mq -> polygons mq <> [] ->
  let ab := multipolygon_in_multipolygon mp mq in
  (forall s, nondegenerate s -> line_row (segment_in_multipolygon s mp) ab (segment_in_multipolygon s mq))
  /\ (forall c, simple_contour c -> line_row (contour_in_multipolygon c mp) ab (contour_in_multipolygon c mq))
  /\ (forall m, valid_multisegment m -> line_row (multisegment_in_multipolygon m mp) ab (multisegment_in_multipolygon m mq)).
Proof. exact multipolygons_row_l. Qed.
Print Assumptions multipolygons_row.
Example row_occurs : Forall valid_multipolygon [two_sides; MPoly [cut_pg]; single 0 8; single 8 9; single 20 30; single (-1) 9] /\ Forall nondegenerate [inner_s; outer_s] /\ simple_contour left_c
  /\ map (multipolygon_in_multipolygon two_sides) [MPoly [cut_pg]; single 0 8; single 8 9; single 20 30; single (-1) 9] = [Ok EQUAL; Ok ENCLOSED; Ok TOUCH; Ok DISJOINT; Ok WITHIN]
  /\ map (segment_in_multipolygon inner_s) [two_sides; MPoly [cut_pg]; single 0 8; single 8 9; single 20 30; single (-1) 9] = [Ok WITHIN; Ok WITHIN; Ok WITHIN; Ok DISJOINT; Ok DISJOINT; Ok WITHIN]
  /\ map (segment_in_multipolygon outer_s) [two_sides; MPoly [cut_pg]; single 0 8] = [Ok DISJOINT; Ok DISJOINT; Ok DISJOINT]
  /\ map (contour_in_multipolygon left_c) [two_sides; single 20 30; single (-1) 9] = [Ok COMPONENT; Ok DISJOINT; Ok WITHIN].
Proof. exact wit_row. Qed.
Example row_limits : valid_multipolygon (MPoly [notched]) /\ valid_multipolygon (MPoly [notched_v]) /\ nondegenerate into /\ multipolygon_in_multipolygon (MPoly [notched]) (MPoly [notched_v]) = Ok EQUAL
  /\ segment_in_multipolygon into (MPoly [notched]) = Ok CROSS /\ segment_in_multipolygon into (MPoly [notched_v]) = Ok TOUCH.
Proof. exact wit_row_limits. Qed.
