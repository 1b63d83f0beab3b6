(* Property C92.  Statements only; the proofs are in OnePoly.v and Witness41.v. *)
From Coq Require Import QArith Qcanon List Bool ZArith.
From Verif Require Import Scalar Base Ground MLinear MSweep MCompound Planar Spec SpecAreas SpecSeen SpecOne OnePoly Witness12 Witness22 Witness40 Witness41.
Import ListNotations.
Open Scope Qc_scope.

(** C92: the polygon in the multipolygon of one polygon is told by its points unless an edge cut is seen, and then both queries answer OVERLAP. *)
Theorem one_polygon_truth : forall pt pg y, valid_polygon pt -> valid_polygon pg -> areal_spec (polygon_area pt) (polygon_area pg) y ->
  (seen_cut (polygon_edges pt) (polygon_edges pg) -> polygon_in_multipolygon pt (MPoly [pg]) = Ok OVERLAP /\ polygon_in_polygon pt pg = Ok OVERLAP /\ (y = TOUCH \/ y = OVERLAP))
  /\ (~ seen_cut (polygon_edges pt) (polygon_edges pg) -> polygon_in_multipolygon pt (MPoly [pg]) = Ok y).
Proof. exact one_polygon_truth_l. Qed.
Print Assumptions one_polygon_truth.
(** The two queries answer the same or one of five pairs, and all five occur. *)
Theorem one_polygon_pairs : forall pt pg, valid_polygon pt -> valid_polygon pg ->
  exists a b, polygon_in_polygon pt pg = Ok a /\ polygon_in_multipolygon pt (MPoly [pg]) = Ok b /\ (a = b \/ In (a, b) told_apart).
Proof. exact one_polygon_pairs_l. Qed.
Print Assumptions one_polygon_pairs.
Theorem one_polygon_pairs_occur : forall a b, In (a, b) told_apart -> exists pt pg, valid_polygon pt /\ valid_polygon pg /\ polygon_in_polygon pt pg = Ok a /\ polygon_in_multipolygon pt (MPoly [pg]) = Ok b.
Proof. exact every_pair_l. Qed.
Print Assumptions one_polygon_pairs_occur.
Example one_polygon_occurs : valid_polygon left_p /\ valid_polygon left_most /\ valid_polygon upper_p
  /\ seen_cut (polygon_edges left_p) (polygon_edges upper_p) /\ areal_spec (polygon_area left_p) (polygon_area upper_p) TOUCH
  /\ ~ seen_cut (polygon_edges left_most) (polygon_edges upper_p) /\ areal_spec (polygon_area left_most) (polygon_area upper_p) TOUCH.
Proof. exact wit_one. Qed.
