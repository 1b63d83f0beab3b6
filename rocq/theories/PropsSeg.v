(* Properties C16, C17 and C45.  Statements only; the proofs are in SegMulti.v,
   SegAnswer.v, SegContour.v, SegEdges.v, SegStraight.v and Witness9.v. *)
From Coq Require Import QArith Qcanon List Bool ZArith.
From Verif Require Import Scalar Base Ground MLinear MSweep MCompound Planar Spec SegAnswer SegStraight RefuteProofs Witness9.
Import ListNotations.
Open Scope Qc_scope.

(** C16: segment_in_multisegment is exact, with CROSS told apart from TOUCH. *)
Theorem segment_in_multisegment_exact : forall s m, nondegenerate s -> valid_multisegment m ->
  segment_answer s (segment_list m) (in_multisegment m) (Ok (segment_in_multisegment s m)).
Proof. exact segment_in_multisegment_l. Qed.
Print Assumptions segment_in_multisegment_exact.
Example segment_multisegment_occurs :
  valid_multisegment g_bar /\ valid_multisegment g_vee /\ valid_multisegment g_wedge
  /\ Forall nondegenerate [Seg (P 0 0) (P 4 0); Seg (P 3 0) (P 1 0); Seg (P (-1) 0) (P 5 0); Seg (P 1 0) (P 8 0); Seg (P 0 1) (P 9 1); Seg (P 0 2) (P 0 0)]
  /\ segment_in_multisegment (Seg (P 0 0) (P 4 0)) g_bar = EQUAL
  /\ segment_in_multisegment (Seg (P 3 0) (P 1 0)) g_bar = COMPONENT
  /\ segment_in_multisegment (Seg (P (-1) 0) (P 5 0)) g_bar = COMPOSITE
  /\ segment_in_multisegment (Seg (P 1 0) (P 8 0)) g_bar = OVERLAP
  /\ segment_in_multisegment (Seg (P 1 0) (P 8 0)) g_vee = CROSS
  /\ segment_in_multisegment (Seg (P 1 0) (P 8 0)) g_wedge = TOUCH
  /\ segment_in_multisegment (Seg (P 0 1) (P 9 1)) g_wedge = CROSS
  /\ segment_in_multisegment (Seg (P 0 2) (P 0 0)) g_wedge = DISJOINT.
Proof. exact wit_segment_multisegment. Qed.

(** C45: segment_in_contour told by the edges: COMPONENT for a segment within one
    edge, OVERLAP for one that shares a segment with the contour otherwise, CROSS
    if parts of the contour on both sides of the segment meet in an inner point of
    it.  The description determines the answer. *)
Theorem segment_in_contour_edges : forall s c, nondegenerate s -> simple_contour c ->
  exists r, segment_in_contour s c = Ok r /\ segment_contour_spec s c r
            /\ forall r', segment_contour_spec s c r' -> r' = r.
Proof. exact segment_in_contour_edges_l. Qed.
Print Assumptions segment_in_contour_edges.
Example segment_contour_occurs :
  simple_contour c_mid
  /\ Forall nondegenerate [Seg (P 1 0) (P 3 0); Seg (P 2 0) (P 1 0); Seg (P (-1) 0) (P 1 0); Seg (P 2 (-1)) (P 2 1); Seg (P 3 (-1)) (P 5 1); Seg (P 1 1) (P 3 3)]
  /\ segment_in_contour (Seg (P 1 0) (P 3 0)) c_mid = Ok OVERLAP
  /\ segment_in_contour (Seg (P 2 0) (P 1 0)) c_mid = Ok COMPONENT
  /\ segment_in_contour (Seg (P (-1) 0) (P 1 0)) c_mid = Ok OVERLAP
  /\ segment_in_contour (Seg (P 2 (-1)) (P 2 1)) c_mid = Ok CROSS
  /\ segment_in_contour (Seg (P 3 (-1)) (P 5 1)) c_mid = Ok TOUCH
  /\ segment_in_contour (Seg (P 1 1) (P 3 3)) c_mid = Ok DISJOINT.
Proof. exact wit_segment_contour. Qed.

(** C17: exactness of segment_in_contour for contours without straight vertices.
    For all simple contours it is false: see the next theorem. *)
Theorem segment_in_contour_exact_partial : forall s c, nondegenerate s -> simple_contour c -> cornered c ->
  segment_answer s (cyc_pairs (vertices c)) (on_contour c) (segment_in_contour s c).
Proof. exact segment_in_contour_l. Qed.
Print Assumptions segment_in_contour_exact_partial.
Example segment_cornered_occurs :
  simple_contour sq_a /\ cornered sq_a
  /\ Forall nondegenerate [Seg (P 1 0) (P 3 0); Seg (P 1 0) (P 5 0); Seg (P (-1) 0) (P 1 2); Seg (P (-1) 1) (P 1 (-1)); Seg (P (-1) (-1)) (P 1 1); Seg (P 5 5) (P 6 6)]
  /\ segment_in_contour (Seg (P 1 0) (P 3 0)) sq_a = Ok COMPONENT
  /\ segment_in_contour (Seg (P 1 0) (P 5 0)) sq_a = Ok OVERLAP
  /\ segment_in_contour (Seg (P (-1) 0) (P 1 2)) sq_a = Ok CROSS
  /\ segment_in_contour (Seg (P (-1) 1) (P 1 (-1))) sq_a = Ok TOUCH
  /\ segment_in_contour (Seg (P (-1) (-1)) (P 1 1)) sq_a = Ok CROSS
  /\ segment_in_contour (Seg (P 5 5) (P 6 6)) sq_a = Ok DISJOINT.
Proof. exact wit_cornered. Qed.

(** C17: all of the segment is on the contour, but it is reported as an overlap. *)
Theorem segment_in_contour_subset_refuted : exists s c,
  nondegenerate s /\ simple_contour c /\ subset (in_segment s) (on_contour c) /\ segment_in_contour s c = Ok OVERLAP.
Proof. exact segment_in_contour_subset_refuted_l. Qed.
Print Assumptions segment_in_contour_subset_refuted.
