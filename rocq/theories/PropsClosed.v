(* Property C42 and the part of C37 about contours.  Statements only; the proofs
   are in ClosedProofs.v, Sector.v and Cover.v and, for the sweep, in the
   Sweep*.v and Area*.v files. *)
From Coq Require Import QArith Qcanon List Bool ZArith.
From Verif Require Import Scalar Base Ground MLinear MSweep MCompound Planar Spec ClosedProofs RefuteProofs Witness4 Witness5 Witness6 Witness7.
Import ListNotations.
Open Scope Qc_scope.

(** C42: contour_in_contour answers with the only relation that describes the
    common points, where TOUCH and CROSS stand for the same description; and it
    answers CROSS only for contours that run inside and outside of each other. *)
Theorem contour_in_contour_exact : forall c r,
  simple_contour c -> simple_contour r ->
  linear_answer (on_contour c) (on_contour r) (contour_in_contour c r)
  /\ (contour_in_contour c r = Ok CROSS ->
      meets (on_contour c) (inside r) /\ meets (on_contour c) (outside r)
      /\ meets (on_contour r) (inside c) /\ meets (on_contour r) (outside c)).
Proof. exact contour_in_contour_exact_l. Qed.
Print Assumptions contour_in_contour_exact.
(** A contour is never a proper part of another one. *)
Theorem contour_in_contour_whole : forall c r,
  simple_contour c -> simple_contour r -> contour_in_contour c r <> Ok COMPONENT /\ contour_in_contour c r <> Ok COMPOSITE.
Proof. exact contour_in_contour_whole_l. Qed.
Print Assumptions contour_in_contour_whole.

(** C37 for contours: swapping the arguments complements the relation. *)
Theorem contour_swap : forall c r, simple_contour c -> simple_contour r ->
  exists rel, contour_in_contour c r = Ok rel /\ contour_in_contour r c = Ok (complement rel).
Proof. exact contour_swap_l. Qed.
Print Assumptions contour_swap.

(* Each answer occurs on valid inputs. *)
Example contour_in_contour_answers_occur :
  let ans c r rel := simple_contour c /\ simple_contour r /\ contour_in_contour c r = Ok rel in
  ans c_tri sq_a DISJOINT /\ ans c_near sq_a TOUCH /\ ans c_up sq_a CROSS /\ ans c_half sq_a OVERLAP /\ ans sq_a c_split EQUAL /\ ans c_split sq_a EQUAL
  /\ ans c_ring c_tri DISJOINT /\ ans c_low sq_a OVERLAP.
Proof. exact wit_c42. Qed.
