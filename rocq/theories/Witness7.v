(* Inputs for the examples of PropsClosed.v. *)
From Coq Require Import QArith Qcanon List Bool ZArith.
From Verif Require Import Scalar Base Ground MLinear MSweep MCompound Planar Spec Geom PointProofs SegProofs Check OpenProofs RefuteProofs Witness4 Witness5 Witness6.
Import ListNotations.
Open Scope Qc_scope.

Lemma wit_c42 :
  let ans c r rel := simple_contour c /\ simple_contour r /\ contour_in_contour c r = Ok rel in
  ans c_tri sq_a DISJOINT /\ ans c_near sq_a TOUCH /\ ans c_up sq_a CROSS /\ ans c_half sq_a OVERLAP /\ ans sq_a c_split EQUAL /\ ans c_split sq_a EQUAL
  /\ ans c_ring c_tri DISJOINT /\ ans c_low sq_a OVERLAP.
Proof. cbv zeta. repeat apply conj; try simple; vm_compute; reflexivity. Qed.
