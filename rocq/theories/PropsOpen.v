(* Properties C23, C24, C26 and the multisegment part of C37.  Statements only;
   the proofs are in OpenProofs.v and, for the sweep, in the Sweep*.v files. *)
From Coq Require Import QArith Qcanon List Bool ZArith.
From Verif Require Import Scalar Base Ground MLinear MSweep MCompound Planar Spec OpenProofs RefuteProofs Witness4 Witness5.
Import ListNotations.
Open Scope Qc_scope.

(** C24: multisegment_in_multisegment answers with the relation of the two
    point sets ([linear_spec]); the only freedom is between TOUCH and CROSS. *)
Theorem multisegment_in_multisegment_exact : forall m m',
  valid_multisegment m -> valid_multisegment m' ->
  linear_answer (in_multisegment m) (in_multisegment m') (multisegment_in_multisegment m m').
Proof. exact multisegment_in_multisegment_exact_l. Qed.
Print Assumptions multisegment_in_multisegment_exact.

(** C26: the same for multisegment_in_contour. *)
Theorem multisegment_in_contour_exact : forall m c,
  valid_multisegment m -> simple_contour c ->
  linear_answer (in_multisegment m) (on_contour c) (multisegment_in_contour m c).
Proof. exact multisegment_in_contour_exact_l. Qed.
Print Assumptions multisegment_in_contour_exact.

(** C23: without a common point the answer is DISJOINT. *)
Theorem linear_disjoint_answer : forall m m' c,
  valid_multisegment m -> valid_multisegment m' -> simple_contour c ->
  (~ meets (in_multisegment m) (in_multisegment m') -> multisegment_in_multisegment m m' = Ok DISJOINT)
  /\ (~ meets (in_multisegment m) (on_contour c) -> multisegment_in_contour m c = Ok DISJOINT).
Proof. exact linear_disjoint_l. Qed.
Print Assumptions linear_disjoint_answer.

(** C37 for multisegments, up to TOUCH against CROSS: swapping the arguments
    swaps the answer.  (Without the exception it is false:
    [multisegment_in_multisegment_cross_refuted].) *)
Theorem multisegment_swap_partial : forall m m',
  valid_multisegment m -> valid_multisegment m' ->
  exists rel rel', multisegment_in_multisegment m m' = Ok rel /\ multisegment_in_multisegment m' m = Ok rel'
    /\ (rel' = complement rel \/ In rel [TOUCH; CROSS] /\ In rel' [TOUCH; CROSS]).
Proof. exact multisegment_swap_l. Qed.
Print Assumptions multisegment_swap_partial.

(* Each answer occurs on valid inputs. *)
Example linear_answers_occur :
  let ans m m' r := valid_multisegment m /\ valid_multisegment m' /\ multisegment_in_multisegment m m' = Ok r in
  ans o_bar o_bar EQUAL /\ ans o_half o_bar COMPONENT /\ ans o_bar o_half COMPOSITE
  /\ ans o_shift o_bar OVERLAP /\ ans o_far o_bar DISJOINT /\ ans o_touch o_bar TOUCH /\ ans cross_ms o_bar CROSS
  /\ meets (in_multisegment cross_ms) (in_multisegment o_bar).
Proof. exact wit_c24. Qed.
Example contour_answers_occur :
  let ans m r := valid_multisegment m /\ multisegment_in_contour m sq_a = Ok r in
  simple_contour sq_a
  /\ ans o_sides EQUAL /\ ans o_bar COMPONENT /\ ans o_sides_more COMPOSITE /\ ans o_shift OVERLAP
  /\ ans o_far DISJOINT /\ ans o_below TOUCH /\ ans cross_ms CROSS.
Proof. exact wit_c26. Qed.
(* Disjoint inputs whose boxes overlap, so that the sweep decides. *)
Example disjoint_occurs :
  valid_multisegment o_inner /\ ~ meets (in_multisegment o_inner) (on_contour sq_a)
  /\ multisegment_in_contour o_inner sq_a = Ok DISJOINT.
Proof. exact wit_c23. Qed.
