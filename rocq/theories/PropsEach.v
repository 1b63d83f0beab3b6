(* Property C94.  Statements only; the proofs are in SeenEach.v and Witness43.v. *)
From Coq Require Import QArith Qcanon List Bool ZArith.
From Verif Require Import Scalar Base Ground MLinear MSweep MCompound Planar Spec SpecAreas SpecSeen SpecEach SeenEach Witness12 Witness22 Witness42 Witness43.
Import ListNotations.
Open Scope Qc_scope.

(** C94: each answer of the queries for a multipolygon, exactly, whatever rings touch. *)
Theorem polygon_in_multipolygon_each : forall pg mp, valid_polygon pg -> valid_multipolygon mp -> polygons mp <> [] ->
  each_sweep_answer (polygon_area pg) (multipolygon_area mp) (seen_cut (polygon_edges pg) (multipolygon_edges mp)) (polygon_in_multipolygon pg mp).
Proof. exact polygon_in_multipolygon_each_l. Qed.
Print Assumptions polygon_in_multipolygon_each.
Theorem multiregion_in_multipolygon_each : forall rs mp, valid_multiregion rs -> rs <> [] -> valid_multipolygon mp -> polygons mp <> [] ->
  each_sweep_answer (multiregion_area rs) (multipolygon_area mp) (seen_cut (contours_edges rs) (multipolygon_edges mp)) (multiregion_in_multipolygon rs mp).
Proof. exact multiregion_in_multipolygon_each_l. Qed.
Print Assumptions multiregion_in_multipolygon_each.
Theorem multipolygon_in_multipolygon_each : forall mp mq, valid_multipolygon mp -> polygons mp <> [] -> valid_multipolygon mq -> polygons mq <> [] ->
  each_sweep_answer (multipolygon_area mp) (multipolygon_area mq) (seen_cut (multipolygon_edges mp) (multipolygon_edges mq)) (multipolygon_in_multipolygon mp mq).
Proof. exact multipolygon_in_multipolygon_each_l. Qed.
Print Assumptions multipolygon_in_multipolygon_each.
(** EQUAL is answered for geometries with the same points, and for no others. *)
Theorem polygon_equal_found : forall pg mp, valid_polygon pg -> valid_multipolygon mp -> polygons mp <> [] -> (polygon_in_multipolygon pg mp = Ok EQUAL <-> forall p, point_in_polygon p pg = point_in_multipolygon p mp).
Proof. exact polygon_equal_found_l. Qed.
Print Assumptions polygon_equal_found.
Theorem multiregion_equal_found : forall rs mp, valid_multiregion rs -> rs <> [] -> valid_multipolygon mp -> polygons mp <> [] ->
  (multiregion_in_multipolygon rs mp = Ok EQUAL <-> forall p, point_in_multiregion p rs = point_in_multipolygon p mp).
Proof. exact multiregion_equal_found_l. Qed.
Print Assumptions multiregion_equal_found.
Theorem multipolygon_equal_found : forall mp mq, valid_multipolygon mp -> polygons mp <> [] -> valid_multipolygon mq -> polygons mq <> [] ->
  (multipolygon_in_multipolygon mp mq = Ok EQUAL <-> forall p, point_in_multipolygon p mp = point_in_multipolygon p mq).
Proof. exact multipolygon_equal_found_l. Qed.
Print Assumptions multipolygon_equal_found.
Example each_answer_occurs : valid_polygon cut_pg /\ valid_multipolygon two_sides /\ valid_multiregion [left_c; right_c]
  /\ polygon_in_multipolygon cut_pg two_sides = Ok EQUAL /\ multiregion_in_multipolygon [left_c; right_c] (MPoly [cut_pg]) = Ok EQUAL /\ multipolygon_in_multipolygon two_sides (MPoly [cut_pg]) = Ok EQUAL
  /\ valid_multipolygon past_sides /\ seen_cut (polygon_edges cut_pg) (multipolygon_edges past_sides) /\ polygon_in_multipolygon cut_pg past_sides = Ok OVERLAP
  /\ subset (a_cl (polygon_area cut_pg)) (a_cl (multipolygon_area past_sides)).
Proof. exact wit_each. Qed.
