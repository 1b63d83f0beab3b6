(* Properties C28 to C31, C39 and the areal part of C37.  Statements only; the
   proofs are in AreaQueries.v, Cover.v and LeftSide.v and, for the sweep, in
   the Sweep*.v and Area*.v files. *)
From Coq Require Import QArith Qcanon List Bool ZArith.
From Verif Require Import Scalar Base Ground MLinear MSweep MCompound Planar Spec LeftSide AreaQueries RefuteProofs Witness4 Witness5 Witness6.
Import ListNotations.
Open Scope Qc_scope.

(** C28 is false: with the whole border in the multisegment, points inside and
    points outside, the answer is TOUCH. *)
Theorem multisegment_in_region_refuted : exists m r p q,
  valid_multisegment m /\ simple_contour r
  /\ in_multisegment m p /\ inside r p /\ in_multisegment m q /\ outside r q
  /\ multisegment_in_region m r = Ok TOUCH.
Proof. exact multisegment_in_region_refuted_l. Qed.
Print Assumptions multisegment_in_region_refuted.
(** C28 is true in all the other cases.  Missing from the full statement: the
    multisegments that contain the border, points inside and points outside. *)
Theorem multisegment_in_region_exact_partial : forall m r,
  valid_multisegment m -> simple_contour r ->
  ~ (subset (on_contour r) (in_multisegment m) /\ meets (in_multisegment m) (inside r) /\ meets (in_multisegment m) (outside r)) ->
  answer_is (linear_areal_spec (in_multisegment m) (region_area r)) (multisegment_in_region m r).
Proof. exact multisegment_in_region_exact_l. Qed.
Print Assumptions multisegment_in_region_exact_partial.

(** C29: contour_in_region answers with the relation of the contour to the
    interior, the boundary and the exterior of the region. *)
Theorem contour_in_region_exact : forall c r,
  simple_contour c -> simple_contour r ->
  answer_is (linear_areal_spec (on_contour c) (region_area r)) (contour_in_region c r).
Proof. exact contour_in_region_exact_l. Qed.
Print Assumptions contour_in_region_exact.

(** C30: region_in_region answers with the relation of the two areas. *)
Theorem region_in_region_exact : forall c r,
  simple_contour c -> simple_contour r ->
  answer_is (areal_spec (region_area c) (region_area r)) (region_in_region c r).
Proof. exact region_in_region_exact_l. Qed.
Print Assumptions region_in_region_exact.

(** C31: the same for multiregions. *)
Theorem region_in_multiregion_exact : forall c rs,
  simple_contour c -> valid_multiregion rs -> rs <> [] ->
  answer_is (areal_spec (region_area c) (multiregion_area rs)) (region_in_multiregion c rs).
Proof. exact region_in_multiregion_exact_l. Qed.
Print Assumptions region_in_multiregion_exact.
Theorem multiregion_in_multiregion_exact : forall qs rs,
  valid_multiregion qs -> valid_multiregion rs -> qs <> [] -> rs <> [] ->
  answer_is (areal_spec (multiregion_area qs) (multiregion_area rs)) (multiregion_in_multiregion qs rs).
Proof. exact multiregion_in_multiregion_exact_l. Qed.
Print Assumptions multiregion_in_multiregion_exact.

(** C37 for regions and multiregions: swapping the arguments swaps the answer. *)
Theorem region_swap : forall c r, simple_contour c -> simple_contour r ->
  exists rel, region_in_region c r = Ok rel /\ region_in_region r c = Ok (complement rel).
Proof. exact region_swap_l. Qed.
Print Assumptions region_swap.
Theorem multiregion_swap : forall qs rs,
  valid_multiregion qs -> valid_multiregion rs -> qs <> [] -> rs <> [] ->
  exists rel, multiregion_in_multiregion qs rs = Ok rel /\ multiregion_in_multiregion rs qs = Ok (complement rel).
Proof. exact multiregion_swap_l. Qed.
Print Assumptions multiregion_swap.

(** C39: a simple contour has an orientation, and it is counterclockwise
    exactly when the interior lies to the left of the edges. *)
Theorem contour_orientation_side : forall c, simple_contour c ->
  (contour_orientation c = Ok CW \/ contour_orientation c = Ok CCW)
  /\ forall a b p q, beside c a b p q ->
       (to_left a b q -> (contour_orientation c = Ok CCW <-> inside c q))
       /\ (to_right a b q -> (contour_orientation c = Ok CCW <-> outside c q)).
Proof. exact contour_orientation_side_l. Qed.
Print Assumptions contour_orientation_side.

(* Each answer occurs on valid inputs. *)
Example multisegment_in_region_answers_occur :
  let ans m r := valid_multisegment m /\ ~ subset (on_contour sq_a) (in_multisegment m) /\ multisegment_in_region m sq_a = Ok r in
  simple_contour sq_a /\ ans o_inner WITHIN /\ ans o_bar COMPONENT /\ ans i_chord ENCLOSED /\ ans o_far DISJOINT /\ ans o_below TOUCH /\ ans i_cross CROSS.
Proof. exact wit_c28. Qed.
Example contour_in_region_answers_occur :
  let ans c r := simple_contour c /\ contour_in_region c sq_a = Ok r in
  simple_contour sq_a /\ ans c_tri WITHIN /\ ans sq_a COMPONENT /\ ans c_split COMPONENT /\ ans c_low ENCLOSED /\ ans c_ring DISJOINT /\ ans c_near TOUCH /\ ans c_up CROSS.
Proof. exact wit_c29. Qed.
Example region_in_region_answers_occur :
  let ans c c' r := simple_contour c /\ simple_contour c' /\ region_in_region c c' = Ok r in
  ans c_split sq_a EQUAL /\ ans c_tri sq_a WITHIN /\ ans c_half sq_a ENCLOSED /\ ans sq_a c_ring WITHIN /\ ans sq_a c_tri COVER /\ ans sq_a c_half ENCLOSES
  /\ ans c_up sq_a OVERLAP /\ ans c_near sq_a TOUCH /\ ans c_wedge l_shape DISJOINT.
Proof. exact wit_c30. Qed.
Example multiregion_answers_occur :
  let ans qs rs r := valid_multiregion qs /\ valid_multiregion rs /\ qs <> [] /\ rs <> [] /\ multiregion_in_multiregion qs rs = Ok r in
  let one c rs r := simple_contour c /\ valid_multiregion rs /\ rs <> [] /\ region_in_multiregion c rs = Ok r in
  ans m_ab m_ab EQUAL /\ ans m_small m_ab ENCLOSED /\ ans m_ab m_small ENCLOSES /\ ans [sq_a] m_ab COMPONENT /\ ans m_ab [sq_a] COMPOSITE
  /\ ans [c_tri] m_ab WITHIN /\ ans m_ab [c_tri] COVER /\ ans m_far m_ab DISJOINT /\ ans m_top m_ab TOUCH /\ ans [c_up; tri_b] m_ab OVERLAP
  /\ one sq_a [c_split] EQUAL /\ one sq_a m_ab COMPONENT /\ one c_half m_ab ENCLOSED /\ one c_tri m_ab WITHIN /\ one c_tri m_far DISJOINT
  /\ one c_near m_ab TOUCH /\ one c_up m_ab OVERLAP /\ one c_ring m_ab OVERLAP /\ one c_ring [sq_a] COVER /\ one sq_a [c_half] ENCLOSES.
Proof. exact wit_c31. Qed.
Example orientation_side_occurs : simple_contour sq_a /\ contour_orientation sq_a = Ok CCW
  /\ beside sq_a (P 0 0) (P 4 0) (P 2 0) (P 2 1) /\ to_left (P 0 0) (P 4 0) (P 2 1) /\ inside sq_a (P 2 1).
Proof. exact wit_c39. Qed.
