(* Properties C64 and C65.  Statements only; the proofs are in SidesProofs.v,
   SweepSides.v and SweepAngles.v. *)
From Coq Require Import QArith Qcanon List Bool ZArith.
From Verif Require Import Scalar Base Ground MLinear MSweep MCompound Planar Spec SpecMore SpecSides RefuteProofs SidesProofs Witness15.
Import ListNotations.
Open Scope Qc_scope.

(** C64: multisegment_in_contour is exact: with no common segment it answers
    CROSS exactly when at some point of the contour the multisegment goes both
    inside and outside. *)
Theorem multisegment_in_contour_sided : forall m c, valid_multisegment m -> simple_contour c ->
  answer_is (sided_spec (in_multisegment m) (on_contour c) (passes_over (segment_list m) c)) (multisegment_in_contour m c).
Proof. exact multisegment_in_contour_sided_l. Qed.
Print Assumptions multisegment_in_contour_sided.
Theorem multisegment_in_contour_cross : forall m c, valid_multisegment m -> simple_contour c ->
  (multisegment_in_contour m c = Ok CROSS <-> ~ share_segment (in_multisegment m) (on_contour c) /\ passes_over (segment_list m) c).
Proof. exact multisegment_contour_passes_l. Qed.
Print Assumptions multisegment_in_contour_cross.
(** So what crosses the contour crosses the region as well. *)
Theorem multisegment_contour_region_cross : forall m c, valid_multisegment m -> simple_contour c ->
  multisegment_in_contour m c = Ok CROSS -> multisegment_in_region m c = Ok CROSS.
Proof. exact contour_region_cross_l. Qed.
Print Assumptions multisegment_contour_region_cross.
Example sided_contour_occurs : simple_contour sq_a /\ valid_multisegment k_through /\ multisegment_in_contour k_through sq_a = Ok CROSS
  /\ passes_over (segment_list k_through) sq_a /\ multisegment_in_region k_through sq_a = Ok CROSS
  /\ valid_multisegment k_inside /\ multisegment_in_contour k_inside sq_a = Ok TOUCH /\ ~ passes_over (segment_list k_inside) sq_a
  /\ valid_multisegment k_outside /\ multisegment_in_contour k_outside sq_a = Ok TOUCH.
Proof. exact wit_c64. Qed.

(** C65: the same for multisegment_in_multisegment where no more than two
    branches of the second multisegment meet at a common point. *)
Theorem multisegment_in_multisegment_sided : forall m m', valid_multisegment m -> valid_multisegment m' ->
  at_most_two (segment_list m) (segment_list m') ->
  answer_is (sided_spec (in_multisegment m) (in_multisegment m') (parted (segment_list m) (segment_list m'))) (multisegment_in_multisegment m m').
Proof. exact multisegment_in_multisegment_sided_l. Qed.
Print Assumptions multisegment_in_multisegment_sided.
(** If that holds both ways, then exchanging the multisegments complements the
    relation, also TOUCH and CROSS. *)
Theorem multisegment_swap_sided : forall m m', valid_multisegment m -> valid_multisegment m' ->
  at_most_two (segment_list m) (segment_list m') -> at_most_two (segment_list m') (segment_list m) ->
  exists rel, multisegment_in_multisegment m m' = Ok rel /\ multisegment_in_multisegment m' m = Ok (complement rel).
Proof. exact multisegment_swap_sided_l. Qed.
Print Assumptions multisegment_swap_sided.
Example sided_multisegments_occur : let ok m := valid_multisegment m /\ at_most_two (segment_list m) (segment_list k_wedge) in
  ok k_split /\ ok k_in /\ ok k_past /\ valid_multisegment k_wedge /\ at_most_two (segment_list k_wedge) (segment_list k_split)
  /\ multisegment_in_multisegment k_split k_wedge = Ok CROSS /\ parted (segment_list k_split) (segment_list k_wedge)
  /\ multisegment_in_multisegment k_wedge k_split = Ok CROSS
  /\ multisegment_in_multisegment k_in k_wedge = Ok TOUCH /\ multisegment_in_multisegment k_past k_wedge = Ok TOUCH.
Proof. exact wit_c65. Qed.
