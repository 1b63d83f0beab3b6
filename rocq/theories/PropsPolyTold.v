(* Property C88.  Statements only; the proofs are in PolyTold.v and Witness37.v. *)
From Coq Require Import QArith Qcanon List Bool ZArith.
From Verif Require Import Scalar Base Ground MLinear MSweep MCompound Planar Spec SpecPolyTold RefuteProofs PolyTold Witness12 Witness22 Witness37.
Import ListNotations.
Open Scope Qc_scope.

(** C88: whatever rings touch, exactly when each relation is answered for two
    polygons. *)
Theorem polygon_in_polygon_told : forall pt pg rel, valid_polygon pt -> valid_polygon pg -> (polygon_in_polygon pt pg = Ok rel <-> polygons_told pt pg rel).
Proof. exact polygon_in_polygon_told_l. Qed.
Print Assumptions polygon_in_polygon_told.
(** The same by the true relation. *)
Theorem polygon_in_polygon_truth : forall pt pg y, valid_polygon pt -> valid_polygon pg -> areal_spec (polygon_area pt) (polygon_area pg) y ->
  given_truth pt pg y (polygon_in_polygon pt pg).
Proof. exact polygon_in_polygon_truth_l. Qed.
Print Assumptions polygon_in_polygon_truth.
Example polygons_told_occur : valid_polygon left_p /\ valid_polygon upper_p /\ areal_spec (polygon_area left_p) (polygon_area upper_p) TOUCH
  /\ ~ apart_rings left_p upper_p /\ polygon_in_polygon left_p upper_p = Ok OVERLAP
  /\ valid_polygon in_cut /\ valid_polygon cut_pg /\ apart_rings in_cut cut_pg /\ polygon_in_polygon in_cut cut_pg = Ok TOUCH
  /\ valid_polygon w_in /\ valid_polygon w_out /\ seems_within w_in w_out /\ meets (polygon_boundary w_in) (polygon_boundary w_out) /\ polygon_in_polygon w_in w_out = Ok WITHIN
  /\ polygon_in_polygon w_out w_in = Ok COVER
  /\ valid_polygon left_pg /\ proper_part (polygon_area left_pg) (polygon_area cut_pg) /\ ~ seems_within left_pg cut_pg /\ polygon_in_polygon left_pg cut_pg = Ok ENCLOSED.
Proof. exact wit_poly_told. Qed.
