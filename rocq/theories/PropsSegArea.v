(* Properties C18, C19, C40 and C46.  Statements only; the proofs are in Corner.v
   and SegRegion.v. *)
From Coq Require Import QArith Qcanon List Bool ZArith.
From Verif Require Import Scalar Base Ground MLinear MSweep MCompound Planar Spec RefuteProofs SegRegion Witness10.
Import ListNotations.
Open Scope Qc_scope.

(** C19: DISJOINT, WITHIN and COMPONENT answers of segment_in_region. *)
Theorem segment_in_region_plain : forall s r, nondegenerate s -> edges_nondegenerate r ->
  (segment_in_region s r = Ok DISJOINT <-> subset (in_segment s) (outside r))
  /\ (segment_in_region s r = Ok WITHIN <-> subset (in_segment s) (inside r))
  /\ (segment_in_region s r = Ok COMPONENT -> subset (in_segment s) (on_contour r)).
Proof. exact segment_in_region_plain_l. Qed.
Print Assumptions segment_in_region_plain.
Example segment_region_plain_occurs :
  edges_nondegenerate l_shape /\ nondegenerate (Seg (P 1 1) (P 3 1)) /\ nondegenerate (Seg (P 5 5) (P 6 6)) /\ nondegenerate (Seg (P 1 0) (P 3 0))
  /\ segment_in_region (Seg (P 1 1) (P 3 1)) l_shape = Ok WITHIN
  /\ segment_in_region (Seg (P 5 5) (P 6 6)) l_shape = Ok DISJOINT
  /\ segment_in_region (Seg (P 1 0) (P 3 0)) l_shape = Ok COMPONENT.
Proof. exact wit_plain. Qed.

(** C46: CROSS is never wrong, and segment_in_region is exact for a segment that
    shares no segment with the boundary, unless both its ends are on the boundary,
    one of them at a vertex, and the vertices are listed clockwise. *)
Theorem segment_in_region_cross : forall s r, nondegenerate s -> simple_contour r ->
  segment_in_region s r = Ok CROSS -> meets (in_segment s) (inside r) /\ meets (in_segment s) (outside r).
Proof. exact segment_in_region_cross_l. Qed.
Print Assumptions segment_in_region_cross.
Theorem segment_in_region_exact : forall s r, nondegenerate s -> simple_contour r ->
  ~ share_segment (in_segment s) (on_contour r) -> ends_settled s r ->
  answer_is (linear_areal_spec (in_segment s) (region_area r)) (segment_in_region s r).
Proof. exact segment_in_region_exact_l. Qed.
Print Assumptions segment_in_region_exact.
Example segment_region_occurs :
  Forall (settled_on l_shape) [Seg (P 1 1) (P 5 1); Seg (P 4 2) (P 2 4); Seg (P 0 0) (P 2 2); Seg (P 1 1) (P 3 1); Seg (P 5 5) (P 6 6)]
  /\ segment_in_region (Seg (P 1 1) (P 5 1)) l_shape = Ok CROSS
  /\ segment_in_region (Seg (P 4 2) (P 2 4)) l_shape = Ok TOUCH
  /\ segment_in_region (Seg (P 0 0) (P 2 2)) l_shape = Ok ENCLOSED
  /\ segment_in_region (Seg (P 1 1) (P 3 1)) l_shape = Ok WITHIN
  /\ segment_in_region (Seg (P 5 5) (P 6 6)) l_shape = Ok DISJOINT
  /\ Forall (settled_on l_turned) [Seg (P 3 2) (P 2 3); Seg (P 1 0) (P 0 1); Seg (P 0 0) (P 1 1)]
  /\ segment_in_region (Seg (P 3 2) (P 2 3)) l_turned = Ok TOUCH
  /\ segment_in_region (Seg (P 1 0) (P 0 1)) l_turned = Ok ENCLOSED
  /\ segment_in_region (Seg (P 0 0) (P 1 1)) l_turned = Ok ENCLOSED.
Proof. exact wit_segment_region. Qed.

(** C18 for segments that share no segment with the boundary; reversing the
    segment moreover keeps the answer if its ends are settled as in C46.  Without
    these conditions it is false: segment_in_region_cross_refuted and
    segment_in_region_reversal_refuted. *)
Theorem segment_in_region_ends_partial : forall s r, nondegenerate s -> simple_contour r ->
  ~ share_segment (in_segment s) (on_contour r) ->
  (inside r (s_start s) /\ outside r (s_end s) \/ outside r (s_start s) /\ inside r (s_end s) ->
   segment_in_region s r = Ok CROSS)
  /\ (ends_settled s r -> segment_in_region (Seg (s_end s) (s_start s)) r = segment_in_region s r).
Proof. exact segment_in_region_ends_l. Qed.
Print Assumptions segment_in_region_ends_partial.

(** C40 for counterclockwise regions, and for chords whose ends are no vertices.
    For clockwise regions and vertices it is false:
    segment_in_region_enclosed_refuted and segment_in_region_touch_refuted. *)
Theorem segment_in_region_chord_partial : forall s r, nondegenerate s -> simple_contour r ->
  on_contour r (s_start s) -> on_contour r (s_end s) ->
  interior_on_left r \/ (~ In (s_start s) (vertices r) /\ ~ In (s_end s) (vertices r)) ->
  ((forall p, strictly_inside_segment s p -> inside r p) -> segment_in_region s r = Ok ENCLOSED)
  /\ ((forall p, strictly_inside_segment s p -> outside r p) -> segment_in_region s r = Ok TOUCH).
Proof. exact segment_in_region_chord_l. Qed.
Print Assumptions segment_in_region_chord_partial.
Example segment_region_chords_occur :
  Forall simple_contour [l_shape; l_turned] /\ interior_on_left l_shape
  /\ Forall (on_contour l_shape) [P 4 2; P 2 4; P 0 0; P 2 2]
  /\ (forall p, strictly_inside_segment (Seg (P 4 2) (P 2 4)) p -> outside l_shape p)
  /\ (forall p, strictly_inside_segment (Seg (P 0 0) (P 2 2)) p -> inside l_shape p)
  /\ Forall (on_contour l_turned) [P 3 2; P 2 3; P 1 0; P 0 1] /\ (forall p, In p [P 3 2; P 2 3; P 1 0; P 0 1] -> ~ In p (vertices l_turned))
  /\ (forall p, strictly_inside_segment (Seg (P 3 2) (P 2 3)) p -> outside l_turned p)
  /\ (forall p, strictly_inside_segment (Seg (P 1 0) (P 0 1)) p -> inside l_turned p).
Proof. exact wit_chords. Qed.
