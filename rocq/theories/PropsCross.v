(* Properties C43 and C44.  Statements only; the proofs are in ClosedProofs.v,
   CrossProofs.v, SweepFound.v and SweepCross.v. *)
From Coq Require Import QArith Qcanon List Bool ZArith.
From Verif Require Import Scalar Base Ground MLinear MSweep MCompound Planar Spec ClosedProofs CrossProofs RefuteProofs Witness4 Witness5 Witness6 Witness7 Witness8.
Import ListNotations.
Open Scope Qc_scope.

(** C43: contour_in_contour answers CROSS exactly when the contours share no
    segment and an edge of one meets an edge of the other one between the ends
    of both. *)
Theorem contour_in_contour_cross : forall c r, simple_contour c -> simple_contour r ->
  (contour_in_contour c r = Ok CROSS <->
   ~ share_segment (on_contour c) (on_contour r) /\ edges_cross (cyc_pairs (vertices c)) (cyc_pairs (vertices r))).
Proof. exact contour_in_contour_cross_l. Qed.
Print Assumptions contour_in_contour_cross.
Example contours_cross_occurs : simple_contour c_up /\ simple_contour sq_a
  /\ ~ share_segment (on_contour c_up) (on_contour sq_a) /\ edges_cross (cyc_pairs (vertices c_up)) (cyc_pairs (vertices sq_a))
  /\ simple_contour c_near /\ contour_in_contour c_near sq_a = Ok TOUCH.
Proof. exact wit_contours_cross. Qed.

(** C44: the same for multisegments in one direction; the other way around,
    CROSS needs a common point at which neither of the two ends. *)
Theorem multisegments_cross : forall m m', valid_multisegment m -> valid_multisegment m' ->
  (edges_cross (segment_list m) (segment_list m') -> ~ share_segment (in_multisegment m) (in_multisegment m') ->
   multisegment_in_multisegment m m' = Ok CROSS)
  /\ (multisegment_in_multisegment m m' = Ok CROSS -> exists p, goes_through (segment_list m) p /\ goes_through (segment_list m') p).
Proof. exact multisegments_cross_l. Qed.
Print Assumptions multisegments_cross.
Theorem multisegment_contour_cross : forall m c, valid_multisegment m -> simple_contour c ->
  (edges_cross (segment_list m) (cyc_pairs (vertices c)) -> ~ share_segment (in_multisegment m) (on_contour c) ->
   multisegment_in_contour m c = Ok CROSS)
  /\ (multisegment_in_contour m c = Ok CROSS -> exists p, goes_through (segment_list m) p /\ on_contour c p).
Proof. exact multisegment_contour_cross_l. Qed.
Print Assumptions multisegment_contour_cross.
Example segments_cross_occurs : valid_multisegment cross_ms /\ valid_multisegment o_bar
  /\ edges_cross (segment_list cross_ms) (segment_list o_bar) /\ ~ share_segment (in_multisegment cross_ms) (in_multisegment o_bar)
  /\ edges_cross (segment_list cross_ms) (cyc_pairs (vertices sq_a)) /\ ~ share_segment (in_multisegment cross_ms) (on_contour sq_a)
  /\ valid_multisegment o_touch /\ multisegment_in_multisegment o_touch o_bar = Ok TOUCH.
Proof. exact wit_segments_cross. Qed.
